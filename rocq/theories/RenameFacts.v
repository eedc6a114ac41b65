(** Proofs about renaming: the edit replaces exactly the uses of the property, and the edited expression means the same. *)
From Coq Require Import String Ascii ZArith Lia Bool List Arith.
From Verif Require Import Base Dec Value Heap Ast Ops Compiler CompilerFacts Vm Eval Funcs HeapSpec TreeFacts HeapFacts PureFacts RunSpec
  RepFacts ContentFacts Deps DepsSpec DepsFacts RenameSpec Rename.
Import ListNotations.
Local Open Scope string_scope.
Local Open Scope nat_scope.
Local Open Scope list_scope.

(** *** The edit is the replacement *)
Lemma left_same : forall n s, no_assign n = true -> sane n = true -> left_by n s = s.
Proof. intros n s A B. unfold left_by. apply keeps_scope; auto. Qed.
Lemma thread_same : forall {A} (f : A -> dscope -> A) after g l s, Forall (fun x => f x s = g x /\ after x s = s) l -> thread f after l s = map g l.
Proof. intros A f after g l s H. induction H as [|x l [E1 E2] _ IH]; cbn; auto. now rewrite E1, E2, IH. Qed.
Lemma source_read : forall n p, read_path n = Some p -> source_path n = Some p.
Proof. intros n p H. destruct n; cbn in *; try discriminate; auto. Qed.
Lemma source_or : forall n, match read_path n with Some p => Some p | None => source_path n end = source_path n.
Proof. intros n. destruct (read_path n) eqn:E; auto. now rewrite (source_read _ _ E). Qed.
Fixpoint root_of (n : node) : node := match n with NMember a _ => root_of a | _ => n end.
Lemma group_head : forall n x, is_chain n = true -> root_of n = NIdent x -> exists r, fst (first_group n) = x :: r.
Proof.
  induction n; cbn [is_chain root_of]; intros x C R; try discriminate.
  - injection R as ->. exists []. reflexivity.
  - destruct (IHn1 x C R) as (r & E). cbn [first_group].
    destruct n2; try (exists r; exact E). destruct (first_group n1) as [g o]. cbn [fst] in *. subst. destruct o; [exists (r ++ [s])|exists r]; reflexivity.
Qed.
Lemma chain_same : forall n s, no_assign n = true -> sane n = true -> chain_scope n s = s.
Proof.
  induction n; intros sc A B; try reflexivity. cbn [no_assign sane] in A, B. apply andb_true_iff in A as [A1 A2]. apply andb_true_iff in B as [B1 B2].
  cbn [chain_scope]. rewrite (IHn1 sc A1 B1). destruct n2; auto; apply keeps_scope; auto.
Qed.
Section Exact.
  Variables old new : string.
  Variable g : entity_graph.
  Hypothesis Hg : is_global g old = true.
  Hypothesis Hd : old <> "$".
  Notation hit := (fun x => String.eqb x old && is_global g x).
  Section Chain.
    Variable s : dscope.
    Variable grp : list string.
    Fixpoint chain (m : node) : node :=
      match m with
      | NIdent x => put hit new (reported_root x grp s) x
      | NMember a p => NMember (chain a) (match p with NString _ => p | _ => rename_in hit new p (chain_scope a s) end)
      | _ => m
      end.
  End Chain.
  Lemma rename_member : forall a p s, rename_in hit new (NMember a p) s =
    if is_chain (NMember a p) then chain s (fst (first_group (NMember a p))) (NMember a p)
    else NMember (rename_in hit new a s) (rename_in hit new p (left_by a s)).
  Proof. reflexivity. Qed.

  Definition nm (al : list (option string)) : list string := flat_map (fun a => match a with Some x => [x] | None => [] end) al.
  Lemma smem_nm : forall al x, smem x (nm al) = bnd al x.
  Proof.
    induction al as [|a al IH]; intros x; [reflexivity|]. rewrite bnd_cons, <- IH. destruct a as [y|]; cbn; auto. now rewrite (String.eqb_sym x y).
  Qed.
  Definition inv (al : list (option string)) (s : dscope) : Prop := fits al s [] /\ smem old (ds_unres s) = false.
  Lemma inv_alias : forall al s, inv al s -> aliased old s = bnd al old.
  Proof. intros al s [F U]. rewrite <- (f_names _ _ _ F old), U. reflexivity. Qed.
  Lemma inv_local : forall al s p, inv al s -> is_local s (old :: p) = false.
  Proof.
    intros al s p [F U]. destruct (is_local s (old :: p)) eqn:E; auto. apply (local_dollar _ _ _ _ F) in E as (r & E). injection E as E _. now elim Hd.
  Qed.
  Lemma put_ident : forall al b x, (x = old -> b = negb (bnd al old)) -> put hit new b x = NIdent (if negb (bnd al old) && String.eqb x old then new else x).
  Proof.
    intros al b x H. unfold put. destruct (String.eqb_spec x old) as [->|N].
    - rewrite H; auto. rewrite Hg. reflexivity.
    - now rewrite !andb_false_r.
  Qed.
  Lemma reported_old : forall al s, inv al s -> reported old s = negb (bnd al old).
  Proof. intros al s V. unfold reported. rewrite (inv_alias _ _ V), (inv_local _ _ _ V), (proj2 V). cbn. now rewrite andb_true_r. Qed.
  Lemma reported_root_old : forall al s r, inv al s -> reported_root old (old :: r) s = negb (bnd al old).
  Proof.
    intros al s r V. unfold reported_root. rewrite (inv_alias _ _ V), !(inv_local _ _ _ V), (proj2 V).
    destruct (String.eqb_spec old "$") as [E|_]; [now elim Hd|]. cbn. now rewrite !andb_true_r.
  Qed.
  Lemma put_root_same : forall al s n p, inv al s -> read_path n = Some p -> put_root hit new n s = replaced old new (bnd al old) n.
  Proof.
    intros al s. induction n; intros pp V R; cbn [read_path] in R; try discriminate.
    - cbn [put_root replaced]. apply put_ident. intros ->. now rewrite (inv_alias _ _ V).
    - reflexivity.
    - destruct n2; try discriminate. destruct (read_path n1) eqn:E; [|discriminate]. cbn [put_root replaced]. f_equal. eapply IHn1; eauto.
  Qed.
  Lemma inv_inner : forall al s a0 body alias c r, inv al s -> sane (NCall (FClosure c) (a0 :: NClosure body alias :: r)) = true ->
    negb (is_name old alias) || known_collection (nm al) a0 = true -> inv (alias :: al) (inner_scope s (source_path a0) alias).
  Proof.
    intros al s a0 body alias c r V Sa K. destruct V as [F U]. cbn [sane] in Sa. rewrite !andb_true_iff in Sa. destruct Sa as [[Sa0 [Sb Ha]] _].
    split.
    - apply (proj1 (fits_inner al s [] (source_path a0) alias F ltac:(destruct alias; [now apply Bool.negb_true_iff in Ha|exact I]))).
    - unfold inner_scope. destruct alias as [a|]; [|exact U]. cbn [is_name] in K.
      assert (N : String.eqb a old = false -> smem old (a :: ds_unres s) = false) by (intros E; rewrite smem_cons, U, String.eqb_sym, E; reflexivity).
      destruct (String.eqb a old) eqn:E; cbn [negb orb] in K.
      + unfold known_collection in K. destruct (source_path a0) as [[|x p]|]; try discriminate. apply andb_true_iff in K as [K1 K2].
        apply Bool.negb_true_iff in K1, K2. rewrite smem_nm in K2.
        assert (X : expand_alias s (x :: p) = x :: p). { cbn. pose proof (f_names _ _ _ F x) as B. rewrite K2 in B. apply orb_false_iff in B as [_ B]. unfold has in B. destruct (aget x (ds_aliases s)); [discriminate|auto]. }
        rewrite X. destruct (is_local s (x :: p)) eqn:Lc; [|exact U]. apply (local_dollar _ _ _ _ F) in Lc as (q & Eq). injection Eq as -> _. discriminate.
      + destruct (source_path a0) as [p|]; [destruct (is_local s (expand_alias s p))|]; cbn [ds_unres]; auto.
  Qed.

  Definition exact_in (n : node) : Prop := no_assign n = true -> sane n = true -> forall al s, inv al s -> told_apart old (nm al) n = true ->
    rename_in hit new n s = replaced old new (bnd al old) n.
  Definition exact_chain (n : node) : Prop := no_assign n = true -> sane n = true -> forall al s grp, inv al s -> told_apart old (nm al) n = true ->
    is_chain n = true -> (forall x, root_of n = NIdent x -> exists r, grp = x :: r) -> chain s grp n = replaced old new (bnd al old) n.
  Lemma list_exact : forall l al s, Forall exact_in l -> forallb no_assign l = true -> forallb sane l = true -> inv al s -> forallb (told_apart old (nm al)) l = true ->
    thread (rename_in hit new) left_by l s = map (replaced old new (bnd al old)) l.
  Proof.
    intros l al s H A B V T. apply thread_same. rewrite forallb_forall in *. rewrite Forall_forall in *. intros x Hx. split; [apply H; auto|apply left_same; auto].
  Qed.
  Lemma exact_of : forall n al s, exact_in n -> no_assign n = true -> sane n = true -> inv al s -> told_apart old (nm al) n = true ->
    rename_in hit new n s = replaced old new (bnd al old) n /\ left_by n s = s.
  Proof. intros n al s E A B V T. split; [now apply E|now apply left_same]. Qed.
  Lemma opt_exact : forall o al s, opt_all exact_in o -> match o with Some x => no_assign x | None => true end = true -> match o with Some x => sane x | None => true end = true ->
    inv al s -> match o with Some x => told_apart old (nm al) x | None => true end = true ->
    option_map (fun x => rename_in hit new x s) o = option_map (replaced old new (bnd al old)) o.
  Proof. intros [x|] al s E A B V T; cbn in *; auto. f_equal. now apply E. Qed.
  Lemma opt_left : forall o s, match o with Some x => no_assign x | None => true end = true -> match o with Some x => sane x | None => true end = true ->
    match o with Some x => left_by x s | None => s end = s.
  Proof. intros [x|] s A B; auto. now apply left_same. Qed.
  Lemma all_exact : forall n, (exact_in n /\ exact_chain n) /\ match n with NClosure b _ => exact_in b | _ => True end.
  Proof.
    assert (W : forall l, Forall (fun n => (exact_in n /\ exact_chain n) /\ match n with NClosure b _ => exact_in b | _ => True end) l -> Forall exact_in l).
    { intros l H. eapply Forall_impl; [|exact H]. cbn. tauto. }
    induction n using node_ind'; (split; [split|]); try exact I; try (intros A B al sc grp V T C; discriminate C);
      try (intros A B; discriminate A); try (intros A B; discriminate B); try (intros A B al sc V T; reflexivity); try (intros A B al sc grp V T C R; reflexivity).
    - (* template *) intros A B al sc V T. cbn [no_assign sane told_apart rename_in replaced] in *. f_equal. apply list_exact; auto.
    - (* array *) intros A B al sc V T. cbn [no_assign sane told_apart rename_in replaced] in *. f_equal. apply list_exact; auto.
    - (* object *) intros A B al sc V T. cbn [no_assign sane told_apart rename_in replaced] in *. f_equal. apply thread_same.
      rewrite forallb_forall in A, B, T. rewrite Forall_forall in *. intros [k v] Hx. specialize (A _ Hx). specialize (B _ Hx). specialize (T _ Hx).
      destruct (H _ Hx) as [[[Ek _] _] [[Ev _] _]]. cbn [fst snd] in *. apply andb_true_iff in A as [A1 A2]. apply andb_true_iff in B as [B1 B2]. apply andb_true_iff in T as [T1 T2].
      rewrite !(left_same k) by auto. split; [f_equal; [apply Ek|apply Ev]; auto|apply left_same; auto].
    - (* identifier *) intros A B al sc V T. cbn [rename_in replaced]. apply put_ident. intros ->. now apply reported_old.
    - intros A B al sc grp V T C R. cbn [chain replaced]. apply put_ident. intros ->. destruct (R old eq_refl) as (r & ->). now apply reported_root_old.
    - (* closure body *) exact (proj1 (proj1 IHn)).
    - (* paren *) intros A B al sc V T. cbn [no_assign sane told_apart rename_in replaced] in *. f_equal. apply IHn; auto.
    - (* member *) intros A B al sc V T. rewrite rename_member. destruct (is_chain (NMember n1 n2)) eqn:C.
      + (* as a chain *)
        cbn [no_assign sane told_apart] in *. apply andb_true_iff in A as [A1 A2]. apply andb_true_iff in B as [B1 B2]. apply andb_true_iff in T as [T1 T2].
        cbn [chain replaced]. f_equal.
        * apply (proj2 (proj1 IHn1)); auto. intros x R. apply group_head; auto.
        * rewrite chain_same by auto. destruct n2; try (apply (proj1 (proj1 IHn2)); auto; fail); reflexivity.
      + cbn [no_assign sane told_apart replaced] in *. apply andb_true_iff in A as [A1 A2]. apply andb_true_iff in B as [B1 B2]. apply andb_true_iff in T as [T1 T2].
        rewrite left_same by auto. f_equal; [apply IHn1|apply IHn2]; auto.
    - intros A B al sc grp V T C R. cbn [no_assign sane told_apart is_chain root_of] in *. apply andb_true_iff in A as [A1 A2]. apply andb_true_iff in B as [B1 B2]. apply andb_true_iff in T as [T1 T2].
      cbn [chain replaced]. f_equal.
      + apply (proj2 (proj1 IHn1)); auto.
      + rewrite chain_same by auto. destruct n2; try (apply (proj1 (proj1 IHn2)); auto; fail); reflexivity.
    - (* slice *) intros A B al sc V T. cbn [no_assign sane told_apart] in *. rewrite !andb_true_iff in A, B, T. destruct A as [[A1 A2] A3], B as [[B1 B2] B3], T as [[T1 T2] T3].
      cbn [rename_in replaced]. rewrite left_same by auto. rewrite opt_left by auto.
      rewrite (opt_exact f al sc), (opt_exact t al sc); auto.
      + f_equal. apply IHn; auto.
      + destruct t; cbn in *; auto. apply H0.
      + destruct f; cbn in *; auto. apply H.
    - (* interval *) intros A B al sc V T. cbn [no_assign sane told_apart] in *. rewrite !andb_true_iff in A, B, T. destruct A as [A1 A2], B as [B1 B2], T as [T1 T2].
      cbn [rename_in replaced]. rewrite left_same by auto. f_equal; [apply IHn1|apply IHn2]; auto.
    - (* cond *) intros A B al sc V T. cbn [no_assign sane told_apart] in *. rewrite !andb_true_iff in A, B, T. destruct A as [[A1 A2] A3], B as [[B1 B2] B3], T as [[T1 T2] T3].
      cbn [rename_in replaced]. rewrite !left_same by auto. f_equal; [apply IHn1|apply IHn2|apply IHn3]; auto.
    - (* unary *) intros A B al sc V T. cbn [no_assign sane told_apart rename_in replaced] in *. f_equal. apply IHn; auto.
    - (* binary *) intros A B al sc V T. cbn [no_assign sane told_apart] in *. rewrite !andb_true_iff in A, B, T. destruct A as [A1 A2], B as [B1 B2], T as [T1 T2].
      cbn [rename_in replaced]. rewrite left_same by auto. f_equal; [apply IHn1|apply IHn2]; auto.
    - (* call *) intros A B al sc V T. destruct k as [f|f|c].
      1,2: (cbn [no_assign sane told_apart rename_in replaced] in *; f_equal; apply list_exact; auto).
      destruct l as [|a0 [|a1 r]].
      1,2: (cbn [no_assign sane told_apart rename_in replaced] in *; f_equal; apply list_exact; auto).
      pose proof B as B0. cbn [sane] in B. rewrite !andb_true_iff in B. destruct B as [[B1 B2] B3]. destruct a1; try discriminate B2.
      cbn [no_assign forallb] in A. rewrite !andb_true_iff in A. destruct A as [A1 [A2 A3]].
      cbn [told_apart] in T. rewrite !andb_true_iff in T. destruct T as [[[T1 T2] T3] T4].
      pose proof (Forall_inv H) as [[E0 _] _]. pose proof (Forall_inv (Forall_inv_tail H)) as [_ E1]. cbn in E1.
      cbn [rename_in replaced map]. rewrite source_or. f_equal. f_equal; [|f_equal; [f_equal|]].
      + destruct (read_path a0) as [p|] eqn:R; [destruct (is_local sc p)|]; try (apply E0; auto; fail). eapply put_root_same; eauto.
      + pose proof (inv_inner al sc a0 _ _ c r V B0 T2) as Vi. rewrite andb_true_iff in B2. rewrite (E1 A2 (proj1 B2) _ _ Vi).
        * f_equal. rewrite bnd_cons. unfold is_name. now rewrite orb_comm.
        * destruct alias; exact T3.
      + destruct r; [reflexivity|discriminate T4].
    - (* method *) intros A B al sc V T. cbn [no_assign sane told_apart] in *. rewrite !andb_true_iff in A, B, T. destruct A as [A1 A2], B as [B1 B2], T as [T1 T2].
      cbn [rename_in replaced]. rewrite left_same by auto. f_equal; [apply IHn; auto|]. apply list_exact; auto.
  Qed.
End Exact.
Lemma rename_exact : forall g old new (unary : bool) n, is_global g old = true -> old <> "$" ->
  no_assign n = true -> sane n = true -> told_apart old [] n = true ->
  rename_global g old new (if unary then ["$"] else []) n = replaced old new false n.
Proof.
  intros g old new unary n Hg Hd A B T. unfold rename_global. apply (proj1 (proj1 (all_exact old new g Hg Hd n)) A B [] _); auto.
  split; [|reflexivity]. constructor; auto; try (intros; discriminate). cbn. intros x. destruct unary; cbn; [|discriminate]. rewrite orb_false_r. apply String.eqb_eq.
Qed.

(** *** The replaced expression means the same *)
Lemma seq_map : forall {A B C} (f : B -> scope -> heap -> outc C) (g : A -> B) l env h, eval_seq f (map g l) env h = eval_seq (fun x => f (g x)) l env h.
Proof.
  intros A B C f g l. induction l as [|x l IH]; intros env h; cbn; auto. destruct (f (g x) env h); cbn; auto. now rewrite IH.
Qed.
Section Same.
  Variable X : ext.
  Hypothesis HX : content_ext X.
  Hypothesis HP : pure_ext X.
  Variables old new : string.
  Variables b1 b2 : value.
  Variables t1 t2 : tree.
  Hypothesis C1 : is_context t1 = true.
  Hypothesis C2 : is_context t2 = true.
  Variable P : string -> Prop.
  Hypothesis HG : forall x, P x -> tget t1 x = tget t2 (if String.eqb x old then new else x).
  Notation env1 := (scope_new b1).
  Notation env2 := (scope_new b2).
  Notation sub al n := (replaced old new (bnd al old) n).
  Definition here (h1 h2 : heap) : Prop := repr h1 b1 t1 /\ repr h2 b2 t2.
  Lemma here_hext : forall h1 h2 g1 g2, hext h1 g1 -> hext h2 g2 -> here h1 h2 -> here g1 g2.
  Proof. intros h1 h2 g1 g2 E1 E2 [A B]. split; eapply repr_hext; eauto. Qed.
  Definition names_ok (n : node) : Prop := no_assign n = true /\ rootless n = true /\ Forall P (used n) /\ ~ In new (given n).
  Lemma ident_same : forall al x, P x -> bnd al new = false ->
    (exists d, bound_at al x = Some d /\ sub al (NIdent x) = NIdent x) \/
    (bound_at al x = None /\ exists y, sub al (NIdent x) = NIdent y /\ bound_at al y = None /\ forall h1 h2, here h1 h2 -> alike h1 h2 (get_key h1 b1 x) (get_key h2 b2 y)).
  Proof.
    intros al x Px N. unfold bnd in *. destruct (bound_at al x) as [d|] eqn:E.
    - left. exists d. split; auto. cbn. destruct (String.eqb_spec x old) as [->|]; [rewrite E; reflexivity|now rewrite andb_false_r].
    - right. split; auto. pose proof (HG x Px) as HE. cbn [replaced]. destruct (String.eqb_spec x old) as [->|K].
      + rewrite E. exists new. split; [reflexivity|]. split; [destruct (bound_at al new); [discriminate|auto]|].
        intros h1 h2 [R1 R2]. exists (tget t1 old). split; [now apply get_key_repr|]. rewrite HE. now apply get_key_repr.
      + rewrite andb_false_r. exists x. repeat split; auto. intros h1 h2 [R1 R2]. exists (tget t1 x). split; [now apply get_key_repr|]. rewrite HE. now apply get_key_repr.
  Qed.
  Lemma fetch_ctx : forall b t h x, is_context t = true -> repr h b t -> op_fetch_env h (scope_new b) x = Ok (get_key h b x).
  Proof. intros b t h x C R. unfold op_fetch_env. cbn. inversion R; subst; cbn in C; try discriminate; reflexivity. Qed.
  Lemma scope_ctx : forall b h x, or_null (scope_get h (scope_new b) x) = get_key h b x.
  Proof. intros b h x. unfold scope_get. cbn. destruct b; reflexivity. Qed.

  Lemma static_same : forall al n h1 h2, rootless n = true -> Forall P (used n) -> bnd al new = false -> here h1 h2 ->
    match eval_static env1 al n env1 h1, eval_static env2 al (sub al n) env2 h2 with
    | Some (g1, v1), Some (g2, v2) => alike g1 g2 v1 v2 /\ hext h1 g1 /\ hext h2 g2
    | None, None => True
    | _, _ => False
    end.
  Proof.
    intros al n h1 h2. induction n; intros Ro U N G; try (cbn; auto; fail).
    - destruct (ident_same al s (Forall_inv U) N) as [(d & B & ->)|(B & y & -> & By & A)]; cbn [eval_static].
      + rewrite B. exact I.
      + rewrite B, By, !scope_ctx. auto using hext_refl.
    - discriminate Ro.
    - cbn in Ro, U. apply andb_true_iff in Ro as [R1 R2]. apply Forall_app in U as [U1 U2]. specialize (IHn1 R1 U1 N G).
      destruct n2; try (cbn; auto; fail).
      + cbn [replaced eval_static]. destruct (dec_to_u32 d); auto.
        destruct (eval_static env1 al n1 env1 h1) as [[g1 v1]|], (eval_static env2 al (sub al n1) env2 h2) as [[g2 v2]|]; cbn; try tauto.
        destruct IHn1 as (A & B & C). repeat split; auto. now apply get_index_alike.
      + cbn [replaced eval_static]. destruct (eval_static env1 al n1 env1 h1) as [[g1 v1]|], (eval_static env2 al (sub al n1) env2 h2) as [[g2 v2]|]; cbn; try tauto.
        destruct IHn1 as (A & B & C). repeat split; auto. now apply get_key_alike.
  Qed.

  Definition same_in (n : node) : Prop := names_ok n -> forall al loops1 loops2 h1 h2, bnd al new = false -> here h1 h2 -> Forall2 (lalike h1 h2) loops1 loops2 ->
    orel alike h1 h2 env1 env2 (eval X env1 al loops1 n env1 h1) (eval X env2 al loops2 (sub al n) env2 h2).
  Lemma flat_in : forall {A B} (f : A -> list B) (Q : B -> Prop) l, Forall Q (flat_map f l) -> Forall (fun x => Forall Q (f x)) l.
  Proof. intros A B f Q l. induction l; cbn; intros H; constructor; apply Forall_app in H as []; auto. Qed.
  Lemma flat_not : forall {A} (f : A -> list string) x l, ~ In x (flat_map f l) -> Forall (fun a => ~ In x (f a)) l.
  Proof. intros A f x l H. apply Forall_forall. intros a Ha K. apply H. apply in_flat_map. eauto. Qed.
  Lemma list_names : forall l, forallb no_assign l = true -> forallb rootless l = true -> Forall P (flat_map used l) -> ~ In new (flat_map given l) -> Forall names_ok l.
  Proof.
    intros l A R U G. apply flat_in in U. apply flat_not in G. rewrite forallb_forall in A, R. rewrite Forall_forall in *. intros x Hx. repeat split; auto.
  Qed.
  Lemma seq_same : forall al l, Forall same_in l -> Forall names_ok l -> bnd al new = false -> forall loops1 loops2 h1 h2, here h1 h2 -> Forall2 (lalike h1 h2) loops1 loops2 ->
    orel (fun g1 g2 => Forall2 (alike g1 g2)) h1 h2 env1 env2 (eval_seq (eval X env1 al loops1) l env1 h1) (eval_seq (eval X env2 al loops2) (map (fun n => sub al n) l) env2 h2).
  Proof.
    intros al l H Hn N loops1 loops2 h1 h2 G L. rewrite seq_map. apply orel_seq; [intros; eapply alike_hext; eauto|]. rewrite Forall_forall in *.
    intros x Hx g1 g2 E1 E2. apply H; eauto using here_hext, lalike_hext.
  Qed.
  Lemma not_in2 : forall {A} (x : A) a b, ~ In x (a ++ b) -> ~ In x a /\ ~ In x b.
  Proof. intros. split; intro K; apply H; apply in_app_iff; auto. Qed.
  Lemma eval_same : forall n, same_in n /\ match n with NClosure b _ => same_in b | _ => True end.
  Proof.
    assert (W : forall l, Forall (fun n => same_in n /\ match n with NClosure b _ => same_in b | _ => True end) l -> Forall same_in l).
    { intros l H. eapply Forall_impl; [|exact H]. cbn. tauto. }
    induction n using node_ind'; (split; [|try exact I]); try (intros (Hn & Ro & U & Gv) al loops1 loops2 h1 h2 N G L; cbn [no_assign rootless used given] in Hn, Ro, U, Gv;
      rewrite ?andb_true_iff in Hn; rewrite ?andb_true_iff in Ro; try discriminate;
      try (cbn [eval replaced]; apply orel_ret; apply view_alike; constructor; fail); try (cbn [eval replaced]; apply orel_err)).
    - (* template *)
      cbn [eval replaced]. rewrite seq_map. apply W in H. pose proof (list_names l Hn Ro U Gv) as Nm.
      eapply orel_bind with (R := fun g1 g2 => Forall2 (alike g1 g2)).
      + apply orel_seq; [intros; eapply alike_hext; eauto|]. rewrite Forall_forall in *.
        intros x Hx g1 g2 E1 E2. eapply orel_bind.
        * apply H; eauto using here_hext, lalike_hext.
        * intros v1 v2 k1 k2 K1 K2 V. apply orel_hlift; [now apply hext_call|now apply hext_call|]. apply call_alike; auto.
      + intros vs1 vs2 g1 g2 E1 E2 V. pose proof (new_arr_alike _ _ _ _ V) as N1. pose proof (hext_new_arr g1 vs1) as K1. pose proof (hext_new_arr g2 vs2) as K2.
        destruct (new_arr g1 vs1), (new_arr g2 vs2). cbn [fst snd] in *. eapply orel_trans; [exact K1|exact K2|].
        apply orel_lift. now apply join_alike.
    - (* pointer *) cbn [eval replaced]. apply orel_lift. now apply pointer_alike.
    - (* array *)
      cbn [eval replaced]. apply W in H. pose proof (list_names l Hn Ro U Gv) as Nm.
      eapply orel_bind with (R := fun g1 g2 => Forall2 (alike g1 g2)); [now apply seq_same|].
      intros vs1 vs2 g1 g2 E1 E2 V. pose proof (new_arr_alike _ _ _ _ V) as N1. pose proof (hext_new_arr g1 vs1) as K1. pose proof (hext_new_arr g2 vs2) as K2.
      destruct (new_arr g1 vs1), (new_arr g2 vs2). cbn in *. auto.
    - (* object *)
      cbn [eval replaced]. rewrite seq_map. apply flat_in in U. apply flat_not in Gv.
      eapply orel_bind with (R := fun g1 g2 => Forall2 (fun a b => alike g1 g2 (fst a) (fst b) /\ alike g1 g2 (snd a) (snd b))).
      + apply orel_seq; [intros ? ? ? ? ? ? ? ? []; split; eapply alike_hext; eauto|]. rewrite forallb_forall in Hn, Ro. rewrite Forall_forall in H, U, Gv. apply Forall_forall.
        intros [a b] Hx g1 g2 E1 E2. specialize (H _ Hx) as [[Ha _] [Hb _]]. specialize (Hn _ Hx). specialize (Ro _ Hx). specialize (U _ Hx). specialize (Gv _ Hx). cbn [fst snd] in *.
        apply andb_true_iff in Hn as [N1 N2]. apply andb_true_iff in Ro as [R1 R2]. apply Forall_app in U as [U1 U2]. apply not_in2 in Gv as [G1 G2].
        eapply orel_bind; [apply Ha; [repeat split; auto|..]; eauto using here_hext, lalike_hext|].
        intros v1 v2 k1 k2 K1 K2 V. eapply orel_bind with (R := alike).
        * apply orel_hlift; [now apply hext_call|now apply hext_call|]. apply call_alike; auto.
        * intros s1 s2 q1 q2 Q1 Q2 S. eapply orel_bind.
          -- apply Hb; [repeat split; auto|auto|eapply here_hext; [| |exact G]|eapply lalike_hext; [| |exact L]]; eauto using hext_trans.
          -- intros w1 w2 z1 z2 Z1 Z2 V2. cbn. repeat split; auto using hext_refl. eapply alike_hext; eauto.
      + intros vs1 vs2 g1 g2 E1 E2 V.
        assert (V' : Forall2 (fun a b => alike g1 g2 (fst a) (fst b) /\ alike g1 g2 (snd a) (snd b)) (rev vs1) (rev vs2)).
        { clear -V. induction V; cbn; auto. apply Forall2_app; auto. }
        pose proof (build_alike _ _ _ _ V' [] [] (Forall2_nil _)) as B.
        apply orel_hlift.
        * destruct (build_object (rev vs1) []); cbn; [apply hext_alloc|apply hext_refl].
        * destruct (build_object (rev vs2) []); cbn; [apply hext_alloc|apply hext_refl].
        * destruct (build_object (rev vs1) []), (build_object (rev vs2) []); try contradiction; [|cbn; auto].
          apply (new_obj_alike _ _ _ _ B).
    - (* identifier *)
      destruct (ident_same al s (Forall_inv U) N) as [(d & B & ->)|(B & y & -> & By & A)]; cbn [eval].
      + rewrite B. apply orel_lift. now apply pointer_alike.
      + rewrite B, By. destruct G as [G1 G2]. rewrite (fetch_ctx _ _ _ _ C1 G1), (fetch_ctx _ _ _ _ C2 G2). apply orel_lift. apply A. split; auto.
    - (* closure *)
      cbn [eval replaced]. apply not_in2 in Gv as [G1 G2].
      replace (bnd al old || is_name old a) with (bnd (a :: al) old) by (rewrite bnd_cons; unfold is_name; apply orb_comm).
      apply IHn; auto; [repeat split; auto|]. rewrite bnd_cons, N, orb_false_r. destruct a as [y|]; auto.
      destruct (String.eqb_spec y new) as [->|]; auto. elim G1. now left.
    - (* body *) apply IHn; auto. repeat split; auto.
    - (* paren *) cbn [eval replaced]. apply IHn; auto. repeat split; auto.
    - (* member *)
      pose proof (static_same al (NMember n1 n2) h1 h2 ltac:(cbn; now rewrite (proj1 Ro), (proj2 Ro)) U N G) as S.
      change (sub al (NMember n1 n2)) with (NMember (sub al n1) (sub al n2)) in *. cbn [eval].
      destruct Hn as [N1 N2], Ro as [R1 R2]. apply Forall_app in U as [U1 U2]. apply not_in2 in Gv as [G1 G2].
      destruct (eval_static env1 al (NMember n1 n2) env1 h1) as [[g1 v1]|], (eval_static env2 al (NMember (sub al n1) (sub al n2)) env2 h2) as [[g2 v2]|]; try contradiction.
      + cbn. tauto.
      + eapply orel_bind; [apply IHn1; auto; repeat split; auto|]. intros v1 v2 g1 g2 E1 E2 V.
        eapply orel_bind; [apply IHn2; eauto using here_hext, lalike_hext; repeat split; auto|]. intros w1 w2 k1 k2 K1 K2 V2.
        apply orel_lift. apply fetch_alike; eauto using alike_hext.
    - (* slice *)
      destruct Hn as [[N1 N2] N3], Ro as [[R1 R2] R3]. apply Forall_app in U as [U1 U2]. apply Forall_app in U2 as [U2 U3]. apply not_in2 in Gv as [G1 G2]. apply not_in2 in G2 as [G2 G3].
      cbn [eval replaced]. eapply orel_bind; [apply IHn; auto; repeat split; auto|]. intros v1 v2 g1 g2 E1 E2 V.
      eapply orel_bind with (R := alike).
      { destruct t; cbn [option_map]; [apply H0; eauto using here_hext, lalike_hext; repeat split; auto|]. apply orel_lift.
        pose proof (len_alike _ _ _ _ V) as Le. destruct (op_len g1 v1), (op_len g2 v2); cbn in *; try contradiction; auto.
        apply sub_alike; auto; apply view_alike; constructor. }
      intros w1 w2 k1 k2 K1 K2 T. eapply orel_bind with (R := alike).
      { destruct f; cbn [option_map]; [|apply orel_ret; apply view_alike; constructor].
        apply H; [repeat split; auto|auto|eapply here_hext; [| |exact G]|eapply lalike_hext; [| |exact L]]; eauto using hext_trans. }
      intros f1 f2 q1 q2 Q1 Q2 F. apply orel_hlift; [apply hext_slice|apply hext_slice|].
      apply slice_alike; eauto using alike_hext, hext_trans.
    - (* interval *)
      destruct Hn as [N1 N2], Ro as [R1 R2]. apply Forall_app in U as [U1 U2]. apply not_in2 in Gv as [G1 G2].
      cbn [eval replaced]. eapply orel_bind; [apply IHn1; auto; repeat split; auto|]. intros v1 v2 g1 g2 E1 E2 V.
      eapply orel_bind; [apply IHn2; eauto using here_hext, lalike_hext; repeat split; auto|]. intros w1 w2 k1 k2 K1 K2 V2.
      apply orel_lift. apply interval_alike; eauto using alike_hext.
    - (* cond *)
      destruct Hn as [[N1 N2] N3], Ro as [[R1 R2] R3]. apply Forall_app in U as [U1 U2]. apply Forall_app in U2 as [U2 U3]. apply not_in2 in Gv as [G1 G2]. apply not_in2 in G2 as [G2 G3].
      cbn [eval replaced]. eapply orel_bind; [apply IHn1; auto; repeat split; auto|]. intros v1 v2 g1 g2 E1 E2 V.
      apply alike_view in V. destruct V; try apply orel_err.
      destruct b; [apply IHn2|apply IHn3]; eauto using here_hext, lalike_hext; repeat split; auto.
    - (* unary *)
      cbn [eval replaced]. eapply orel_bind; [apply IHn; auto; repeat split; auto|]. intros v1 v2 g1 g2 E1 E2 V.
      destruct op as [a|l|c| | | | | | |]; [destruct a|destruct l|..]; try apply orel_err;
        [now apply orel_ret|apply orel_lift; now apply negate_alike|apply orel_lift; now apply not_alike].
    - (* binary *)
      destruct Hn as [N1 N2], Ro as [R1 R2]. apply Forall_app in U as [U1 U2]. apply not_in2 in Gv as [G1 G2].
      cbn [eval replaced]. eapply orel_bind; [apply IHn1; auto; repeat split; auto|]. intros v1 v2 g1 g2 E1 E2 V.
      assert (Rt : orel alike g1 g2 env1 env2 (eval X env1 al loops1 n2 env1 g1) (eval X env2 al loops2 (sub al n2) env2 g2))
        by (apply IHn2; eauto using here_hext, lalike_hext; repeat split; auto).
      assert (Both : forall o, orel alike g1 g2 env1 env2
        (obind (eval X env1 al loops1 n2 env1 g1) (fun rv env h => lift env h (bin_value X o h v1 rv)))
        (obind (eval X env2 al loops2 (sub al n2) env2 g2) (fun rv env h => lift env h (bin_value X o h v2 rv)))).
      { intros o. eapply orel_bind; [exact Rt|]. intros w1 w2 k1 k2 K1 K2 V2. apply orel_lift. apply bin_alike; eauto using alike_hext. }
      destruct op as [ao|lo|co| | | | | | |]; try (apply Both; fail).
      destruct lo; try apply Both.
      + pose proof V as V0. apply alike_view in V. destruct V; try apply orel_err. destruct b; [exact Rt|now apply orel_ret].
      + pose proof V as V0. apply alike_view in V. destruct V; try apply orel_err. destruct b; [now apply orel_ret|exact Rt].
      + pose proof V as V0. apply alike_view in V. destruct V; try (now apply orel_ret). exact Rt.
    - (* call *)
      pose proof (list_names l Hn Ro U Gv) as Nm. pose proof (W _ H) as Hs.
      assert (Plain : orel alike h1 h2 env1 env2
        (obind (eval_seq (eval X env1 al loops1) l env1 h1) (fun vs env h => hlift env (op_call X k vs h)))
        (obind (eval_seq (eval X env2 al loops2) (map (fun n => sub al n) l) env2 h2) (fun vs env h => hlift env (op_call X k vs h)))).
      { eapply orel_bind with (R := fun g1 g2 => Forall2 (alike g1 g2)).
        - now apply seq_same.
        - intros vs1 vs2 g1 g2 E1 E2 V. apply orel_hlift; [now apply hext_call|now apply hext_call|]. apply call_alike; auto. }
      destruct k as [f|f|c]; [exact Plain|exact Plain|]. clear Plain. destruct l as [|a0 [|a1 r]]; try (cbn [eval replaced map]; apply orel_err).
      pose proof (Forall_inv Nm) as M0. pose proof (Forall_inv (Forall_inv_tail Nm)) as M1.
      pose proof (Forall_inv Hs) as H0. pose proof (Forall_inv (Forall_inv_tail Hs)) as H1.
      cbn [eval replaced map].
      eapply orel_bind; [apply H0; auto|]. intros v1 v2 g1 g2 E1 E2 V.
      pose proof (begin_alike _ _ _ _ V) as B. pose proof (hext_begin g1 v1) as K1. pose proof (hext_begin g2 v2) as K2.
      destruct (op_begin g1 v1) as [k1 [l1|e1]], (op_begin g2 v2) as [k2 [l2|e2]]; cbn [fst] in *; try contradiction.
      2:{ subst e2. cbn. auto. }
      assert (X1 : hext h1 k1) by eauto using hext_trans. assert (X2 : hext h2 k2) by eauto using hext_trans.
      replace (lp_len l1) with (lp_len l2) by (symmetry; apply B).
      pose proof (iterate_alike c (fun lp => eval X env1 al (lp :: loops1) a1) (fun lp => eval X env2 al (lp :: loops2) (sub al a1)) env1 env2 k1 k2) as It.
      specialize (It ltac:(intros lp1 lp2 q1 q2 Q1 Q2 Lp; apply H1; auto;
        [eapply here_hext; [| |exact G]|constructor; [exact Lp|eapply lalike_hext; [| |exact L]]];
        eauto using hext_trans)).
      specialize (It (lp_len l2) l1 l2 [] [] k1 k2 (hext_refl _) (hext_refl _) B (Forall2_nil _)).
      eapply orel_trans; [exact K1|exact K2|].
      destruct (iterate c (fun lp => eval X env1 al (lp :: loops1) a1) (lp_len l2) l1 [] env1 k1) as [p1 q1 e1 z1|w1 e1 z1|e1 z1],
               (iterate c (fun lp => eval X env2 al (lp :: loops2) (sub al a1)) (lp_len l2) l2 [] env2 k2) as [p2 q2 e2 z2|w2 e2 z2|e2 z2];
        cbn in It; try contradiction.
      + destruct It as (A & Bq & -> & -> & Z1 & Z2). eapply orel_trans; [exact Z1|exact Z2|]. now apply closure_value_alike.
      + exact It.
      + exact It.
    - (* method *)
      destruct Hn as [N1 N2], Ro as [R1 R2]. apply Forall_app in U as [U1 U2]. apply not_in2 in Gv as [G1 G2].
      pose proof (list_names l N2 R2 U2 G2) as Nm. pose proof (W _ H) as Hs.
      cbn [eval replaced]. eapply orel_bind; [apply IHn; auto; repeat split; auto|]. intros v1 v2 g1 g2 E1 E2 V.
      eapply orel_bind with (R := fun g1 g2 => Forall2 (alike g1 g2)).
      + apply seq_same; eauto using here_hext, lalike_hext.
      + intros vs1 vs2 k1 k2 K1 K2 V2. apply orel_hlift; [now apply hext_method|now apply hext_method|]. apply method_alike; auto.
        constructor; auto. eauto using alike_hext.
  Qed.
End Same.

(** *** The replaced expression compiles *)
Section Compiles.
  Variable X : ext.
  Variables old new : string.
  Definition gives (al : list (option string)) (n : node) : Prop := exists c, cgen X al n = Ok c.
  Lemma fast_gives : forall n al al' sh p, compile_member_fast al n = Some p -> gives al' (replaced old new sh n).
  Proof.
    induction n; intros al al' sh pp H; cbn [compile_member_fast] in H; try discriminate; try (eexists; reflexivity).
    destruct (compile_member_fast al n1) eqn:E; [|discriminate]. destruct (IHn1 al al' sh _ E) as (c & Hc).
    unfold gives. cbn [replaced cgen]. destruct (compile_member_fast al' _); [eexists; reflexivity|]. rewrite Hc. cbn [bind].
    destruct n2; try discriminate; cbn; eexists; reflexivity.
  Qed.
  Lemma bind_ok : forall {A B} (r : res A) (f : A -> res B) v, bind r f = Ok v -> exists a, r = Ok a /\ f a = Ok v.
  Proof. intros A B [a|e] f v H; [exists a; auto|discriminate]. Qed.
  Lemma rconcat_gives : forall {A} (f f' : A -> res (list opcode)) (g : A -> A) l c, rconcat f l = Ok c -> Forall (fun x => (exists c, f x = Ok c) -> exists c, f' (g x) = Ok c) l ->
    exists c', rconcat f' (map g l) = Ok c'.
  Proof.
    intros A f f' g l c H F. revert c H. induction F as [|x l Hx Fl IH]; intros c H; [exists []; reflexivity|]. cbn in H. apply bind_ok in H as (a & Ea & H). apply bind_ok in H as (b & Eb & H).
    destruct (Hx (ex_intro _ a Ea)) as (a' & Ea'). destruct (IH b Eb) as (b' & Eb'). exists (a' ++ b'). cbn. now rewrite Ea', Eb'.
  Qed.
  Lemma all_gives : forall n al sh, gives al n -> gives al (replaced old new sh n).
  Proof.
    unfold gives. induction n using node_ind'; intros al sh (c & Hc); try (exists c; exact Hc); try (eexists; reflexivity).
    - cbn [cgen replaced] in *. apply bind_ok in Hc as (a & Ea & _). rewrite map_length.
      destruct (rconcat_gives _ (fun x => do a <- cgen X al x; Ok (a ++ [call_string])) (replaced old new sh) _ _ Ea) as (a' & Ea').
      { eapply Forall_impl; [|exact H]. cbn. intros n Hn (b & Eb). apply bind_ok in Eb as (b1 & Eb & _). destruct (Hn al sh (ex_intro _ b1 Eb)) as (b' & Eb'). rewrite Eb'. eexists; reflexivity. }
      rewrite Ea'. eexists; reflexivity.
    - cbn [cgen replaced] in *. apply bind_ok in Hc as (a & Ea & _). rewrite map_length.
      destruct (rconcat_gives _ (cgen X al) (replaced old new sh) _ _ Ea) as (a' & Ea'); [eapply Forall_impl; [|exact H]; auto|].
      rewrite Ea'. eexists; reflexivity.
    - cbn [cgen replaced] in *. apply bind_ok in Hc as (a & Ea & _). rewrite map_length.
      destruct (rconcat_gives _ (fun kx => do a <- cgen X al (fst kx); do b <- cgen X al (snd kx); Ok (a ++ call_string :: b)) (fun kv => (replaced old new sh (fst kv), replaced old new sh (snd kv))) _ _ Ea) as (a' & Ea').
      { eapply Forall_impl; [|exact H]. cbn. intros [k v] [Hk Hv] (b & Eb). cbn [fst snd] in *. apply bind_ok in Eb as (b1 & Eb1 & Eb). apply bind_ok in Eb as (b2 & Eb2 & _).
        destruct (Hk al sh (ex_intro _ b1 Eb1)) as (k' & Ek). destruct (Hv al sh (ex_intro _ b2 Eb2)) as (v' & Ev). rewrite Ek, Ev. eexists; reflexivity. }
      rewrite Ea'. eexists; reflexivity.
    - cbn [cgen replaced] in *. apply bind_ok in Hc as (a & Ea & Hc). apply bind_ok in Hc as (b & Eb & _).
      destruct (rconcat_gives _ (fun kx => do a <- cgen X al (fst kx); do b <- cgen X al (snd kx); Ok (a ++ b ++ [OAssignStep])) (fun kv => (replaced old new sh (fst kv), replaced old new sh (snd kv))) _ _ Ea) as (a' & Ea').
      { eapply Forall_impl; [|exact H]. cbn. intros [k v] [Hk Hv] (q & Eq). cbn [fst snd] in *. apply bind_ok in Eq as (b1 & Eb1 & Eq). apply bind_ok in Eq as (b2 & Eb2 & _).
        destruct (Hk al sh (ex_intro _ b1 Eb1)) as (k' & Ek). destruct (Hv al sh (ex_intro _ b2 Eb2)) as (v' & Ev). rewrite Ek, Ev. eexists; reflexivity. }
      rewrite Ea'. cbn [bind]. destruct o as [x|]; cbn [option_map].
      + destruct (H0 al sh (ex_intro _ b Eb)) as (b' & Eb'). rewrite Eb'. eexists; reflexivity.
      + eexists; reflexivity.
    - cbn [cgen replaced] in *. apply IHn. eauto.
    - cbn [cgen replaced] in *. apply IHn. eauto.
    - cbn [replaced]. cbn [cgen] in *. destruct (compile_member_fast al (NMember (replaced old new sh n1) (replaced old new sh n2))); [eexists; reflexivity|].
      destruct (compile_member_fast al (NMember n1 n2)) eqn:F.
      + cbn [compile_member_fast] in F. destruct (compile_member_fast al n1) eqn:F1; [|discriminate]. destruct (fast_gives n1 al al sh _ F1) as (c1 & E1). rewrite E1.
        destruct n2; try discriminate F; cbn; eexists; reflexivity.
      + apply bind_ok in Hc as (a & Ea & Hc). apply bind_ok in Hc as (b & Eb & _). destruct (IHn1 al sh (ex_intro _ a Ea)) as (a' & ->). destruct (IHn2 al sh (ex_intro _ b Eb)) as (b' & ->). eexists; reflexivity.
    - cbn [cgen replaced] in *. apply bind_ok in Hc as (a & Ea & Hc). apply bind_ok in Hc as (b & Eb & Hc). apply bind_ok in Hc as (d & Ed & _).
      destruct (IHn al sh (ex_intro _ a Ea)) as (a' & ->). cbn [bind].
      destruct t as [t|], f as [f|]; cbn [option_map] in *;
        try (destruct (H0 al sh (ex_intro _ b Eb)) as (b' & ->)); cbn [bind];
        try (destruct (H al sh (ex_intro _ d Ed)) as (d' & ->)); eexists; reflexivity.
    - cbn [cgen replaced] in *. apply bind_ok in Hc as (a & Ea & Hc). apply bind_ok in Hc as (b & Eb & _).
      destruct (IHn1 al sh (ex_intro _ a Ea)) as (a' & ->). destruct (IHn2 al sh (ex_intro _ b Eb)) as (b' & ->). eexists; reflexivity.
    - cbn [cgen replaced] in *. apply bind_ok in Hc as (a & Ea & Hc). apply bind_ok in Hc as (b & Eb & Hc). apply bind_ok in Hc as (d & Ed & _).
      destruct (IHn1 al sh (ex_intro _ a Ea)) as (a' & ->). destruct (IHn2 al sh (ex_intro _ b Eb)) as (b' & ->). destruct (IHn3 al sh (ex_intro _ d Ed)) as (d' & ->). eexists; reflexivity.
    - cbn [cgen replaced] in *. apply bind_ok in Hc as (a & Ea & Hc). destruct (IHn al sh (ex_intro _ a Ea)) as (a' & ->). cbn [bind].
      destruct op as [[]|[]| | | | | | | |]; try discriminate Hc; eexists; reflexivity.
    - cbn [cgen replaced] in *. destruct (simple_binop op); [|destruct (short_binop op); [|discriminate Hc]].
      all: apply bind_ok in Hc as (a & Ea & Hc); apply bind_ok in Hc as (b & Eb & _); destruct (IHn1 al sh (ex_intro _ a Ea)) as (a' & ->); destruct (IHn2 al sh (ex_intro _ b Eb)) as (b' & ->); eexists; reflexivity.
    - cbn [replaced]. cbn [cgen] in *. destruct k as [f|f|cl].
      1,2: (rewrite map_length; destruct (x_arity X _); [|discriminate Hc]; destruct (arity_ok _ _); [|discriminate Hc]; apply bind_ok in Hc as (a & Ea & _);
        destruct (rconcat_gives _ (cgen X al) (replaced old new sh) _ _ Ea) as (a' & Ea'); [eapply Forall_impl; [|exact H]; auto|]; rewrite Ea'; eexists; reflexivity).
      destruct l as [|a0 [|a1 r]]; cbn [map].
      + discriminate Hc.
      + apply bind_ok in Hc as (a & _ & Hc). discriminate Hc.
      + apply bind_ok in Hc as (a & Ea & Hc); apply bind_ok in Hc as (b & Eb & _).
        destruct (Forall_inv H al sh (ex_intro _ a Ea)) as (a' & ->). destruct (Forall_inv (Forall_inv_tail H) al sh (ex_intro _ b Eb)) as (b' & ->). eexists; reflexivity.
    - cbn [cgen replaced] in *. rewrite map_length. destruct (x_marity X k); [|discriminate Hc]. apply bind_ok in Hc as (a & Ea & Hc). destruct (IHn al sh (ex_intro _ a Ea)) as (a' & ->). cbn [bind].
      destruct (arity_ok _ _); [|discriminate Hc]. apply bind_ok in Hc as (b & Eb & _).
      destruct (rconcat_gives _ (cgen X al) (replaced old new sh) _ _ Eb) as (b' & Eb'); [eapply Forall_impl; [|exact H]; auto|]. rewrite Eb'. eexists; reflexivity.
  Qed.
  Lemma replaced_compiles : forall n, compiles X n -> compiles X (replaced old new false n).
  Proof. intros n [c H]. rewrite compile_cgen in H. destruct (all_gives n [] false (ex_intro _ c H)) as (c' & H'). exists c'. now rewrite compile_cgen. Qed.
End Compiles.

(** *** Whole expressions *)
Lemma replaced_same : forall L old new n b1 b2 h1 h2 t1 t2 r1 g1, plain_lib L -> no_assign n = true -> rootless n = true -> ~ In new (given n) ->
  is_context t1 = true -> is_context t2 = true -> repr h1 b1 t1 -> repr h2 b2 t2 ->
  (forall x, In x (used n) -> tget t1 x = tget t2 (if String.eqb x old then new else x)) ->
  yields (std_ext L) n (scope_new b1) h1 r1 g1 ->
  exists r2 g2, yields (std_ext L) (replaced old new false n) (scope_new b2) h2 r2 g2 /\ same_outcome (r1, g1) (r2, g2).
Proof.
  intros L old new n b1 b2 h1 h2 t1 t2 r1 g1 HL A Ro Gv C1 C2 R1 R2 HG Y. apply yields_iff in Y as [C E].
  destruct (evaluate (std_ext L) (replaced old new false n) (scope_new b2) h2) as [r2 g2] eqn:E2. exists r2, g2.
  split; [apply yields_iff; split; auto; now apply replaced_compiles|]. rewrite <- E, <- E2. clear E E2 C.
  assert (Nm : names_ok new (fun x => In x (used n)) n) by (repeat split; auto; apply Forall_forall; auto).
  pose proof (proj1 (eval_same (std_ext L) (std_content L HL) (std_pure L) old new b1 b2 t1 t2 C1 C2 (fun x => In x (used n)) HG n) Nm [] [] [] h1 h2 eq_refl (conj R1 R2) (Forall2_nil _)) as S.
  change (bnd [] old) with false in S. unfold evaluate.
  destruct (eval (std_ext L) (scope_new b1) [] [] n (scope_new b1) h1), (eval (std_ext L) (scope_new b2) [] [] (replaced old new false n) (scope_new b2) h2); cbn in *; tauto.
Qed.
Lemma moved_get : forall old new t1 t2, moved old new t1 t2 -> (is_context t1 = true /\ is_context t2 = true) /\
  forall x, x <> new -> tget t1 x = tget t2 (if String.eqb x old then new else x).
Proof.
  intros old new t1 t2 (m1 & m2 & -> & -> & En & Ek). split; [split; reflexivity|]. intros x Nx. unfold tget. destruct (String.eqb_spec x old) as [->|N].
  - now rewrite En.
  - now rewrite (Ek x N Nx).
Qed.

(** *** There and back *)
Section Back.
  Variables old new : string.
  Lemma flat_out : forall {A} (f : A -> list string) l x, ~ In x (flat_map f l) -> forall a, In a l -> ~ In x (f a).
  Proof. intros A f l x H a Ha Hx. apply H. apply in_flat_map. eauto. Qed.
  Lemma map_back : forall {A} (f : A -> A) l, (forall x, In x l -> f x = x) -> map f l = l.
  Proof. intros A f l H. rewrite <- (map_id l) at 2. now apply map_ext_in. Qed.
  Lemma back_list : forall l sh, Forall (fun n => forall sh, ~ In new (used n) -> ~ In new (given n) -> replaced new old false (replaced old new sh n) = n) l ->
    ~ In new (flat_map used l) -> ~ In new (flat_map given l) -> map (replaced new old false) (map (replaced old new sh) l) = l.
  Proof.
    intros l sh H U G. rewrite map_map. apply map_back. intros z Hz. rewrite Forall_forall in H. apply (H z Hz); [exact (flat_out _ _ _ U z Hz)|exact (flat_out _ _ _ G z Hz)].
  Qed.
  Lemma back_pairs : forall l sh, Forall (fun kv => (forall sh, ~ In new (used (fst kv)) -> ~ In new (given (fst kv)) -> replaced new old false (replaced old new sh (fst kv)) = fst kv) /\
      (forall sh, ~ In new (used (snd kv)) -> ~ In new (given (snd kv)) -> replaced new old false (replaced old new sh (snd kv)) = snd kv)) l ->
    ~ In new (flat_map (fun kv => used (fst kv) ++ used (snd kv)) l) -> ~ In new (flat_map (fun kv => given (fst kv) ++ given (snd kv)) l) ->
    map (fun kv => (replaced new old false (fst kv), replaced new old false (snd kv))) (map (fun kv => (replaced old new sh (fst kv), replaced old new sh (snd kv))) l) = l.
  Proof.
    intros l sh H U G. rewrite map_map. apply map_back. intros [k v] Hz. rewrite Forall_forall in H. pose proof (H _ Hz) as [Hk Hv].
    pose proof (flat_out _ _ _ U _ Hz) as U1. pose proof (flat_out _ _ _ G _ Hz) as G1. cbn [fst snd] in *. rewrite in_app_iff in U1, G1. rewrite Hk, Hv by tauto. reflexivity.
  Qed.
  Lemma back_same : forall n sh, ~ In new (used n) -> ~ In new (given n) -> replaced new old false (replaced old new sh n) = n.
  Proof.
    induction n using node_ind'; intros sh U G; cbn [used given replaced] in *; auto; rewrite ?in_app_iff in *.
    - f_equal. now apply back_list.
    - f_equal. now apply back_list.
    - f_equal. now apply back_pairs.
    - f_equal; [apply back_pairs; tauto|]. destruct o as [x|]; cbn in *; auto. f_equal. apply H0; tauto.
    - f_equal. cbn [negb andb]. assert (N : String.eqb s new = false) by (apply String.eqb_neq; intros ->; apply U; now left).
      destruct (negb sh && String.eqb s old) eqn:E; [|now rewrite N]. apply andb_prop in E as [_ E]. apply String.eqb_eq in E. now rewrite String.eqb_refl.
    - assert (N : is_name new a = false). { destruct a as [y|]; cbn in *; auto. apply String.eqb_neq. intros ->. apply G. auto. }
      rewrite N. cbn. f_equal. apply IHn; tauto.
    - f_equal. now apply IHn.
    - f_equal; [apply IHn1|apply IHn2]; tauto.
    - f_equal; [apply IHn; tauto|destruct f|destruct t]; cbn in *; auto; f_equal; [apply H|apply H0]; tauto.
    - f_equal; [apply IHn1|apply IHn2]; tauto.
    - f_equal; [apply IHn1|apply IHn2|apply IHn3]; tauto.
    - f_equal. now apply IHn.
    - f_equal; [apply IHn1|apply IHn2]; tauto.
    - f_equal. now apply back_list.
    - f_equal; [apply IHn; tauto|apply back_list; tauto].
    - f_equal. destruct o as [x|]; cbn in *; auto. f_equal. now apply H.
  Qed.
  Lemma replaced_no_assign : forall n sh, no_assign n = true -> no_assign (replaced old new sh n) = true.
  Proof.
    assert (L : forall l sh, Forall (fun n => forall sh, no_assign n = true -> no_assign (replaced old new sh n) = true) l -> forallb no_assign l = true -> forallb no_assign (map (replaced old new sh) l) = true).
    { intros l sh H A. rewrite forallb_forall in A. apply forallb_forall. intros x Hx. apply in_map_iff in Hx as (y & <- & Hy). rewrite Forall_forall in H. auto. }
    assert (O : forall o sh, opt_all (fun n => forall sh, no_assign n = true -> no_assign (replaced old new sh n) = true) o -> match o with Some x => no_assign x | None => true end = true ->
      match option_map (replaced old new sh) o with Some x => no_assign x | None => true end = true) by (intros [x|] sh H A; cbn in *; auto).
    induction n using node_ind'; intros sh A; cbn [no_assign replaced] in *; auto; rewrite ?andb_true_iff in *; try discriminate A; try tauto; intuition auto.
    rewrite forallb_forall in A. apply forallb_forall. intros x Hx. apply in_map_iff in Hx as (y & <- & Hy). rewrite Forall_forall in H. destruct (H _ Hy). pose proof (A _ Hy) as Q. apply andb_true_iff in Q as [Q1 Q2]. cbn [fst snd]. rewrite H0, H1; auto.
  Qed.
  Definition keeps (Q : node -> bool -> Prop) (n : node) : Prop := (forall sh, Q n sh) /\ match n with NClosure b _ => forall sh, Q b sh | _ => True end.
  Lemma replaced_sane : new <> "$root" -> forall n sh, sane n = true -> sane (replaced old new sh n) = true.
  Proof.
    intros Nr. set (Q := fun n sh => sane n = true -> sane (replaced old new sh n) = true).
    assert (L : forall l sh, Forall (keeps Q) l -> forallb sane l = true -> forallb sane (map (replaced old new sh) l) = true).
    { intros l sh H A. rewrite forallb_forall in A. apply forallb_forall. intros x Hx. apply in_map_iff in Hx as (y & <- & Hy). rewrite Forall_forall in H. now apply (proj1 (H _ Hy)), A. }
    assert (O : forall o sh, opt_all (keeps Q) o -> match o with Some x => sane x | None => true end = true ->
      match option_map (replaced old new sh) o with Some x => sane x | None => true end = true) by (intros [x|] sh H A; cbn in *; auto; now apply (proj1 H)).
    assert (Pr : forall l sh, Forall (fun kv => keeps Q (fst kv) /\ keeps Q (snd kv)) l -> forallb (fun kv => sane (fst kv) && sane (snd kv)) l = true ->
      forallb (fun kv => sane (fst kv) && sane (snd kv)) (map (fun kv => (replaced old new sh (fst kv), replaced old new sh (snd kv))) l) = true).
    { intros l sh H A. rewrite forallb_forall in A. apply forallb_forall. intros x Hx. apply in_map_iff in Hx as (y & <- & Hy). rewrite Forall_forall in H. destruct (H _ Hy) as [[H0 _] [H1 _]]. pose proof (A _ Hy) as E. apply andb_true_iff in E as [E1 E2]. cbn [fst snd]. rewrite (H0 sh E1), (H1 sh E2). reflexivity. }
    enough (K : forall n, keeps Q n) by (intros n; exact (proj1 (K n))).
    induction n using node_ind'; (split; [|try exact I]).
    all: try (intros sh A; cbn [sane replaced] in *; rewrite ?andb_true_iff in *; intuition auto; fail).
    - intros sh A. cbn [sane replaced] in *. destruct (negb sh && String.eqb s old); [|exact A]. apply Bool.negb_true_iff. now apply String.eqb_neq.
    - exact (proj1 IHn).
    - intros sh A. cbn [sane replaced] in *. apply (proj1 IHn). exact A.
    - intros sh A. cbn [sane replaced] in *. apply andb_true_iff in A as [A1 A2]. rewrite (proj1 IHn1 sh A1), (proj1 IHn2 sh A2). reflexivity.
    - intros sh A. cbn [sane replaced] in *. rewrite !andb_true_iff in *. destruct A as [[A1 A2] A3]. split; [split|]; auto. now apply (proj1 IHn).
    - intros sh A. cbn [sane replaced] in *. apply andb_true_iff in A as [A1 A2]. rewrite (proj1 IHn1 sh A1), (proj1 IHn2 sh A2). reflexivity.
    - intros sh A. cbn [sane replaced] in *. rewrite !andb_true_iff in *. destruct A as [[A1 A2] A3]. split; [split|]; [now apply (proj1 IHn1)|now apply (proj1 IHn2)|now apply (proj1 IHn3)].
    - intros sh A. cbn [sane replaced] in *. apply (proj1 IHn). exact A.
    - intros sh A. cbn [sane replaced] in *. apply andb_true_iff in A as [A1 A2]. rewrite (proj1 IHn1 sh A1), (proj1 IHn2 sh A2). reflexivity.
    - intros sh A. destruct k as [f|f|c]; [cbn [sane replaced] in *; auto|cbn [sane replaced] in *; auto|]. destruct l as [|a0 [|a1 r]]; [cbn [sane replaced] in *; auto|exact (L [a0] sh H A)|].
      cbn [sane] in A. rewrite !andb_true_iff in A. destruct A as [[A1 A2] A3]. destruct a1; try discriminate A2. apply andb_true_iff in A2 as [A2 A4].
      cbn [replaced map sane]. pose proof (Forall_inv H) as [H0 _]. pose proof (Forall_inv (Forall_inv_tail H)) as [_ H1]. rewrite (H0 sh A1), (H1 _ A2), A4, (L r sh (Forall_inv_tail (Forall_inv_tail H)) A3). reflexivity.
    - intros sh A. cbn [sane replaced] in *. apply andb_true_iff in A as [A1 A2]. rewrite (proj1 IHn sh A1), (L _ _ H A2). reflexivity.
  Qed.
  Lemma replaced_apart : forall n al al' sh, told_apart old al n = true -> ~ In new (given n) -> told_apart new al' (replaced old new sh n) = true.
  Proof.
    set (Q := fun n sh => forall al al', told_apart old al n = true -> ~ In new (given n) -> told_apart new al' (replaced old new sh n) = true).
    assert (L : forall l al al' sh, Forall (keeps Q) l -> forallb (told_apart old al) l = true -> ~ In new (flat_map given l) -> forallb (told_apart new al') (map (replaced old new sh) l) = true).
    { intros l al al' sh H A G. rewrite forallb_forall in A. apply forallb_forall. intros x Hx. apply in_map_iff in Hx as (y & <- & Hy). rewrite Forall_forall in H. apply (proj1 (H _ Hy) sh al al'); auto. exact (flat_out _ _ _ G _ Hy). }
    assert (O : forall o al al' sh, opt_all (keeps Q) o -> match o with Some x => told_apart old al x | None => true end = true -> ~ In new (match o with Some x => given x | None => [] end) ->
      match option_map (replaced old new sh) o with Some x => told_apart new al' x | None => true end = true) by (intros [x|] al al' sh H A G; cbn in *; auto; now apply (proj1 H sh al)).
    assert (Pr : forall l al al' sh, Forall (fun kv => keeps Q (fst kv) /\ keeps Q (snd kv)) l -> forallb (fun kv => told_apart old al (fst kv) && told_apart old al (snd kv)) l = true ->
      ~ In new (flat_map (fun kv => given (fst kv) ++ given (snd kv)) l) ->
      forallb (fun kv => told_apart new al' (fst kv) && told_apart new al' (snd kv)) (map (fun kv => (replaced old new sh (fst kv), replaced old new sh (snd kv))) l) = true).
    { intros l al al' sh H A G. rewrite forallb_forall in A. apply forallb_forall. intros x Hx. apply in_map_iff in Hx as (y & <- & Hy). rewrite Forall_forall in H. destruct (H _ Hy) as [[H0 _] [H1 _]].
      pose proof (A _ Hy) as E. apply andb_true_iff in E as [E1 E2]. pose proof (flat_out _ _ _ G _ Hy) as Gy. cbn [fst snd] in *. rewrite in_app_iff in Gy.
      rewrite (H0 sh al al' E1), (H1 sh al al' E2) by tauto. reflexivity. }
    enough (K : forall n, keeps Q n) by (intros n al al' sh; exact (proj1 (K n) sh al al')).
    induction n using node_ind'; (split; [|try exact I]).
    all: try (intros sh al al' A G; reflexivity).
    all: try (intros sh al al' A G; cbn [told_apart given replaced] in *; eauto; fail).
    - intros sh al al' A G. cbn [told_apart given replaced] in *. rewrite andb_true_iff in *. rewrite in_app_iff in G. destruct A as [A1 A2]. split; [eapply Pr|eapply O]; eauto.
    - intros sh al al' A G. cbn [told_apart given replaced] in *. rewrite in_app_iff in G. apply (proj1 IHn _ al); auto.
    - exact (proj1 IHn).
    - intros sh al al' A G. cbn [told_apart given replaced] in *. apply (proj1 IHn _ al); auto.
    - intros sh al al' A G. cbn [told_apart given replaced] in *. rewrite in_app_iff in G. apply andb_true_iff in A as [A1 A2]. rewrite (proj1 IHn1 sh al al' A1), (proj1 IHn2 sh al al' A2) by tauto. reflexivity.
    - intros sh al al' A G. cbn [told_apart given replaced] in *. rewrite !in_app_iff in G. rewrite !andb_true_iff in *. destruct A as [[A1 A2] A3]. split; [split|]; [apply (proj1 IHn _ al)|eapply O|eapply O]; eauto.
    - intros sh al al' A G. cbn [told_apart given replaced] in *. rewrite in_app_iff in G. apply andb_true_iff in A as [A1 A2]. rewrite (proj1 IHn1 sh al al' A1), (proj1 IHn2 sh al al' A2) by tauto. reflexivity.
    - intros sh al al' A G. cbn [told_apart given replaced] in *. rewrite !in_app_iff in G. rewrite !andb_true_iff in *. destruct A as [[A1 A2] A3]. split; [split|]; [apply (proj1 IHn1 _ al)|apply (proj1 IHn2 _ al)|apply (proj1 IHn3 _ al)]; auto; tauto.
    - intros sh al al' A G. cbn [told_apart given replaced] in *. apply (proj1 IHn _ al); auto.
    - intros sh al al' A G. cbn [told_apart given replaced] in *. rewrite in_app_iff in G. apply andb_true_iff in A as [A1 A2]. rewrite (proj1 IHn1 sh al al' A1), (proj1 IHn2 sh al al' A2) by tauto. reflexivity.
    - intros sh al al' A G. cbn [given] in G. destruct k as [f|f|c]; [cbn [told_apart replaced] in *; eauto|cbn [told_apart replaced] in *; eauto|]. destruct l as [|a0 [|a1 r]]; [reflexivity|exact (L [a0] al al' sh H A G)|].
      assert (NC : (exists b x, a1 = NClosure b x) \/ told_apart old al (NCall (FClosure c) (a0 :: a1 :: r)) = forallb (told_apart old al) (a0 :: a1 :: r) /\
        told_apart new al' (replaced old new sh (NCall (FClosure c) (a0 :: a1 :: r))) = forallb (told_apart new al') (map (replaced old new sh) (a0 :: a1 :: r))) by (destruct a1; eauto; right; split; reflexivity).
      destruct NC as [(b & x & ->)|[E1 E2]]; [|rewrite E2; rewrite E1 in A; eapply L; eauto].
      cbn [told_apart] in A. rewrite !andb_true_iff in A. destruct A as [[[A1 A2] A3] A4]. destruct r; [|discriminate A4].
      cbn [flat_map given] in G. rewrite !in_app_iff in G. pose proof (Forall_inv H) as [H0 _]. pose proof (Forall_inv (Forall_inv_tail H)) as [_ H1].
      cbn [replaced map told_apart]. rewrite (H0 sh al al' A1) by tauto. rewrite (H1 _ _ _ A3) by tauto.
      assert (N : is_name new x = false). { destruct x as [y|]; cbn in *; auto. apply String.eqb_neq. intros ->. apply G. right. left. left. left. reflexivity. }
      now rewrite N.
    - intros sh al al' A G. cbn [told_apart given replaced] in *. rewrite in_app_iff in G. apply andb_true_iff in A as [A1 A2]. rewrite (proj1 IHn sh al al' A1) by tauto. cbn [andb]. eapply L; eauto.
  Qed.
End Back.

(** *** Nothing to rename *)
Section Nothing.
  Variable new : string.
  Notation none := (fun _ : string => false).
  Lemma thread_id : forall {A} (f : A -> dscope -> A) after l, Forall (fun x => forall s, f x s = x) l -> forall s, thread f after l s = l.
  Proof. intros A f after l H. induction H as [|x l E _ IH]; intros s; cbn; auto. now rewrite E, IH. Qed.
  Lemma put_id : forall (hit : string -> bool) b x, (forall y, hit y = false) -> put hit new b x = NIdent x.
  Proof. intros hit b x H. unfold put. now rewrite H, andb_false_r. Qed.
  Lemma put_root_id : forall (hit : string -> bool) n s, (forall y, hit y = false) -> put_root hit new n s = n.
  Proof. intros hit n s H. induction n; cbn; auto. - now apply put_id. - now rewrite IHn1. Qed.
  Variables (old : string) (g : entity_graph).
  Hypothesis Hg : is_global g old = false.
  Notation hit := (fun x => String.eqb x old && is_global g x).
  Lemma rename_id : forall n s, rename_in hit new n s = n.
  Proof.
    assert (Hh : forall y, hit y = false) by (intros y; cbn; destruct (String.eqb_spec y old) as [->|]; auto).
    enough (K : forall n, (forall s, rename_in hit new n s = n) /\ (forall s grp, chain old new g s grp n = n) /\ match n with NClosure b _ => forall s, rename_in hit new b s = b | _ => True end)
      by (intros n; exact (proj1 (K n))).
    assert (W : forall l, Forall (fun n => (forall s, rename_in hit new n s = n) /\ (forall s grp, chain old new g s grp n = n) /\ match n with NClosure b _ => forall s, rename_in hit new b s = b | _ => True end) l ->
      Forall (fun n => forall s, rename_in hit new n s = n) l) by (intros l H; eapply Forall_impl; [|exact H]; cbn; tauto).
    induction n using node_ind'; (split; [|split; [|try exact I]]); try reflexivity; try (intros sc; cbn [rename_in]; f_equal; try apply thread_id; auto; try apply IHn; fail).
    - intros sc. cbn [rename_in]. f_equal. apply thread_id. eapply Forall_impl; [|exact H]. cbn. intros [k v] [[Hk _] [Hv _]] s0. cbn [fst snd] in *. now rewrite Hk, Hv.
    - intros sc. cbn [rename_in]. f_equal.
      + apply thread_id. eapply Forall_impl; [|exact H]. cbn. intros [k v] [_ [Hv _]] s0. cbn [fst snd] in *. now rewrite Hv.
      + destruct o; cbn in *; auto. now rewrite (proj1 H0).
    - intros sc. cbn [rename_in]. now apply put_id.
    - intros sc grp. cbn [chain]. now apply put_id.
    - intros sc. rewrite rename_member. destruct (is_chain _); [|now rewrite (proj1 IHn1), (proj1 IHn2)]. cbn [chain]. rewrite (proj1 (proj2 IHn1)). f_equal.
      destruct n2; try reflexivity; apply (proj1 IHn2).
    - intros sc grp. cbn [chain]. rewrite (proj1 (proj2 IHn1)). f_equal. destruct n2; try reflexivity; apply (proj1 IHn2).
    - intros sc. cbn [rename_in]. f_equal; [apply IHn|destruct f|destruct t]; cbn in *; auto; f_equal; [apply H|apply H0].
    - intros sc. cbn [rename_in]. f_equal; [apply IHn1|apply IHn2].
    - intros sc. cbn [rename_in]. f_equal; [apply IHn1|apply IHn2|apply IHn3].
    - intros sc. cbn [rename_in]. f_equal; [apply IHn1|apply IHn2].
    - intros sc. destruct k as [f|f|c]; [cbn [rename_in]; f_equal; apply thread_id; auto|cbn [rename_in]; f_equal; apply thread_id; auto|].
      destruct l as [|a0 [|a1 r]]; [reflexivity|cbn [rename_in]; f_equal; apply thread_id; auto|].
      pose proof (Forall_inv H) as [H0 _]. pose proof (Forall_inv (Forall_inv_tail H)) as [H1 [_ H2]].
      destruct a1; try (match goal with |- _ = NCall _ (_ :: ?a :: _) => change (NCall (FClosure c) (a0 :: rename_in hit new a sc :: r) = NCall (FClosure c) (a0 :: a :: r)); now rewrite H1 end).
      cbn [rename_in]. rewrite H2. f_equal. f_equal. destruct (read_path a0); [destruct (is_local sc l)|]; auto. now apply put_root_id.
    - intros sc. cbn [rename_in]. destruct o; cbn in *; auto. now rewrite (proj1 H).
  Qed.
End Nothing.

(** *** The JSON of a block *)
Section Document.
  Variable by_source : @amap string.
  Variable protect : bool.
  Variable read_json : string -> option tree.
  Variable write_json : tree -> string.
  Variable same_json : tree -> tree -> bool.
  Variable inside : tree -> tree.
  Notation apply := (apply_to by_source protect read_json write_json same_json inside).
  Lemma aget_mapk : forall {V W} (f : string -> V -> W) (m : amap V) k, aget k (map (fun e => (fst e, f (fst e) (snd e))) m) = option_map (f k) (aget k m).
  Proof. intros V W f m k. induction m as [|[k1 v] m IH]; cbn; auto. destruct (String.eqb_spec k1 k) as [->|]; cbn; auto. Qed.
  Lemma apply_get : forall m k, aget k (map (fun e => (fst e, if protected_key protect (fst e) then snd e
                                              else if envelope_key (fst e) then envelope read_json write_json same_json inside (snd e)
                                              else apply (snd e))) m) =
    option_map (fun v => if protected_key protect k then v else if envelope_key k then envelope read_json write_json same_json inside v else apply v) (aget k m).
  Proof. intros m k. exact (aget_mapk (fun k v => if protected_key protect k then v else if envelope_key k then envelope read_json write_json same_json inside v else apply v) m k). Qed.
  Definition plain_place (p : list step) : Prop := forall k, through k p -> protected_key protect k = false /\ envelope_key k = false.
  Lemma plain_tail : forall x p, plain_place (x :: p) -> plain_place p.
  Proof. intros x p H k Hk. apply H. now right. Qed.
  Lemma apply_text : forall p t, plain_place p -> text_at (apply t) p = option_map (new_text by_source) (text_at t p).
  Proof.
    induction p as [|[k|i] p IH]; intros t H.
    - destruct t; reflexivity.
    - destruct t as [| | | | |m|]; try reflexivity. cbn [text_at apply_to]. rewrite apply_get. destruct (H k (or_introl eq_refl)) as [E1 E2]. rewrite E1, E2.
      destruct (aget k m); cbn; auto. apply IH. eapply plain_tail; eauto.
    - destruct t as [| | | |l| |]; try reflexivity. cbn [text_at apply_to]. rewrite nth_error_map. destruct (nth_error l i); cbn; auto. apply IH. eapply plain_tail; eauto.
  Qed.
  Lemma apply_kept : forall p k r t, plain_place p -> protected_key protect k = true -> text_at (apply t) (p ++ Key k :: r) = text_at t (p ++ Key k :: r).
  Proof.
    induction p as [|[j|i] p IH]; intros k r t H E.
    - destruct t as [| | | | |m|]; try reflexivity. cbn [text_at apply_to app]. rewrite apply_get, E. destruct (aget k m); reflexivity.
    - destruct t as [| | | | |m|]; try reflexivity. cbn [text_at apply_to app]. rewrite apply_get. destruct (H j (or_introl eq_refl)) as [E1 E2]. rewrite E1, E2.
      destruct (aget j m); cbn; auto. apply IH; auto. eapply plain_tail; eauto.
    - destruct t as [| | | |l| |]; try reflexivity. cbn [text_at apply_to app]. rewrite nth_error_map. destruct (nth_error l i); cbn; auto. apply IH; auto. eapply plain_tail; eauto.
  Qed.
  Lemma apply_embedded : forall p k t s d, plain_place p -> protected_key protect k = false -> envelope_key k = true -> text_at t (p ++ [Key k]) = Some s -> read_json s = Some d ->
    text_at (apply t) (p ++ [Key k]) = Some (if same_json (inside d) d then s else write_json (inside d)).
  Proof.
    induction p as [|[j|i] p IH]; intros k t s d H Ep E T D.
    - destruct t as [| | | | |m|]; try discriminate T. cbn [text_at apply_to app] in *. rewrite apply_get, Ep, E. destruct (aget k m) as [x|]; [|discriminate T]. cbn [option_map].
      destruct x; try discriminate T. injection T as ->. cbn [envelope]. rewrite D. now destruct (same_json (inside d) d).
    - destruct t as [| | | | |m|]; try discriminate T. cbn [text_at apply_to app] in *. rewrite apply_get. destruct (H j (or_introl eq_refl)) as [E1 E2]. rewrite E1, E2.
      destruct (aget j m); [|discriminate T]. cbn [option_map]. eapply IH; eauto. eapply plain_tail; eauto.
    - destruct t as [| | | |l| |]; try discriminate T. cbn [text_at apply_to app] in *. rewrite nth_error_map. destruct (nth_error l i); [|discriminate T]. cbn [option_map]. eapply IH; eauto. eapply plain_tail; eauto.
  Qed.
  Lemma apply_unreadable : forall p k t s, plain_place p -> protected_key protect k = false -> envelope_key k = true -> text_at t (p ++ [Key k]) = Some s -> read_json s = None ->
    text_at (apply t) (p ++ [Key k]) = Some s.
  Proof.
    induction p as [|[j|i] p IH]; intros k t s H Ep E T D.
    - destruct t as [| | | | |m|]; try discriminate T. cbn [text_at apply_to app] in *. rewrite apply_get, Ep, E. destruct (aget k m) as [x|]; [|discriminate T]. cbn [option_map].
      destruct x; try discriminate T. injection T as ->. cbn [envelope]. now rewrite D.
    - destruct t as [| | | | |m|]; try discriminate T. cbn [text_at apply_to app] in *. rewrite apply_get. destruct (H j (or_introl eq_refl)) as [E1 E2]. rewrite E1, E2.
      destruct (aget j m); [|discriminate T]. cbn [option_map]. eapply IH; eauto. eapply plain_tail; eauto.
    - destruct t as [| | | |l| |]; try discriminate T. cbn [text_at apply_to app] in *. rewrite nth_error_map. destruct (nth_error l i); [|discriminate T]. cbn [option_map]. eapply IH; eauto. eapply plain_tail; eauto.
  Qed.
  Lemma apply_shape : forall t, blanked (apply t) = blanked t.
  Proof.
    induction t as [|b|d|s|a IH|m IH|d] using tree_ind'; auto; cbn [apply_to blanked]; f_equal; rewrite map_map.
    - apply map_ext_in. rewrite Forall_forall in IH. auto.
    - apply map_ext_in. intros [k v] Hin. cbn [fst snd]. f_equal. destruct (protected_key protect k); auto. destruct (envelope_key k).
      + destruct v; auto. cbn [envelope]. destruct (read_json s); auto. now destruct (same_json (inside t) t).
      + rewrite Forall_forall in IH. exact (IH _ Hin).
  Qed.
End Document.

(** *** Keys *)
Lemma strip_cases : forall s, (strip_list s = s) \/ s = (strip_list s ++ "[]")%string.
Proof.
  induction s as [|c s IH]; auto. cbn [strip_list]. destruct (String.eqb_spec (String c s) "[]") as [->|N]; auto. destruct IH as [E|E]; [left; now rewrite E|right].
  cbn. f_equal. exact E.
Qed.
Lemma strip_app : forall s, strip_list (s ++ "[]")%string = s.
Proof.
  induction s as [|c s IH]; auto. cbn [strip_list append]. destruct (String.eqb_spec (String c (s ++ "[]")) "[]") as [E|N]; [|now rewrite IH].
  injection E as -> E. destruct s as [|c1 [|c2 s]]; discriminate E.
Qed.

Lemma has_dot_spec : forall x, has_dot x = false <-> forall i, String.get i x <> Some "."%char.
Proof.
  induction x as [|c r IH]; cbn [has_dot].
  - split; [intros _ i; destruct i; discriminate|reflexivity].
  - rewrite orb_false_iff, IH, Ascii.eqb_neq. split.
    + intros [C R] [|i]; cbn; [congruence|apply R].
    + intros H. split; [intros ->; now apply (H 0)|intros i; exact (H (S i))].
Qed.
Lemma is_global_spec : forall g x, is_global g x = true <-> ~ In x (eg_models g) /\
  ((exists t, aget x (eg_globals g) = Some t) \/ ((forall i, String.get i x <> Some "."%char) /\ exists e, aget x (eg_computed g) = Some e)).
Proof.
  intros g x. unfold is_global, next_for_global. rewrite andb_true_iff, negb_true_iff, orb_true_iff.
  assert (C : eg_contains g x = false <-> ~ In x (eg_models g)).
  { unfold eg_contains. rewrite <- not_true_iff_false. apply not_iff_compat. unfold smem. rewrite existsb_exists. split.
    - intros (y & Hy & E). apply String.eqb_eq in E. now subst.
    - intros H. exists x. split; [exact H|apply String.eqb_refl]. }
  rewrite C. apply and_iff_compat_l. rewrite <- has_dot_spec. destruct (aget x (eg_globals g)) as [t|].
  - split; [intros _; left; now exists t|intros _; now right].
  - split.
    + intros [H|H]; [|discriminate H]. right. destruct (has_dot x); [discriminate H|]. split; [reflexivity|]. destruct (aget x (eg_computed g)) as [e|]; [now exists e|discriminate H].
    + intros [[t B]|[D [e Ee]]]; [discriminate B|]. left. now rewrite D, Ee.
Qed.
