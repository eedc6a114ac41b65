(** An expression's result depends on nothing but what the analysis reports. *)
From Coq Require Import String Ascii ZArith Lia Bool List Arith.
From Verif Require Import Base Dec Value Heap Ast Ops Compiler Vm Eval Funcs HeapSpec TreeFacts HeapFacts PureFacts
  RepFacts Deps DepsSpec.
Import ListNotations.
Local Open Scope string_scope.
Local Open Scope nat_scope.
Local Open Scope list_scope.

(** *** The analysis as a function *)
Section Spine.
Variable s : dscope.
Fixpoint spine (m : node) : option (list rdep * dscope * chain) :=
  match m with
  | NIdent x => Some ([], s, chain_root x s)
  | NRoot => Some ([], s, chain_root "$root" s)
  | NPointer => Some ([], s, CQuiet)
  | NMember a p =>
      match spine a with
      | None => None
      | Some (r, s1, c) =>
          match p with
          | NString k => Some (r, s1, chain_field k c)
          | _ =>
              let (r2, s2) := resolve p s1 in
              Some ((r ++ chain_before c s1 ++ r2)%list, s2, chain_after c)
          end
      end
  | _ => None
  end.
End Spine.
Lemma resolve_member : forall a p s, resolve (NMember a p) s =
  match spine s (NMember a p) with
  | Some (r, s1, c) => ((r ++ chain_end c s1)%list, s1)
  | None => dthen (resolve a s) (resolve p)
  end.
Proof. reflexivity. Qed.
Lemma spine_string : forall s a k, spine s (NMember a (NString k)) =
  match spine s a with None => None | Some (r, s1, c) => Some (r, s1, chain_field k c) end.
Proof. reflexivity. Qed.
Definition is_str (n : node) : bool := match n with NString _ => true | _ => false end.
Lemma spine_dyn : forall s a p, is_str p = false -> spine s (NMember a p) =
  match spine s a with
  | None => None
  | Some (r, s1, c) => let (r2, s2) := resolve p s1 in Some ((r ++ chain_before c s1 ++ r2)%list, s2, chain_after c)
  end.
Proof. intros s a p H. cbn [spine]. destruct (spine s a) as [[[r s1] c]|]; auto. destruct p; auto; discriminate. Qed.
#[global] Opaque resolve.

Lemma each_scope : forall {A} (f : A -> dscope -> list rdep * dscope) l s,
  Forall (fun x => forall s, snd (f x s) = s) l -> snd (each f l s) = s.
Proof.
  intros A f l s H. revert s. induction H; intros s; cbn; auto. unfold dthen.
  rewrite (H s). specialize (IHForall s). destruct (each f l s); auto.
Qed.
Lemma dthen_scope : forall a k s, snd a = s -> snd (k s) = s -> snd (dthen a k) = s.
Proof. intros [r x] k s E K. cbn in E. subst x. unfold dthen. cbn. destruct (k s); auto. Qed.
Lemma maybe_scope : forall f o s, (forall x, o = Some x -> snd (f x s) = s) -> snd (maybe f o s) = s.
Proof. intros f [x|] s H; cbn; auto. Qed.

Lemma keeps_scope : forall n, no_assign n = true -> sane n = true ->
  (forall s, snd (resolve n s) = s) /\ (forall s r s1 c, spine s n = Some (r, s1, c) -> s1 = s).
Proof.
  #[local] Transparent resolve.
  assert (AND : forall (n : node) (A B : Prop), A -> (A -> B) -> A /\ B) by tauto.
  induction n using node_ind'; intros Hn Hs; cbn [no_assign sane] in Hn, Hs; try discriminate;
    rewrite ?andb_true_iff in Hn; rewrite ?andb_true_iff in Hs;
    try (split; [|intros ? ? ? ? E; (discriminate E || (injection E as <- <- <-; reflexivity))]);
    try (intros sc; cbn; reflexivity).
  - intros s. cbn. apply each_scope. rewrite forallb_forall in Hn, Hs. rewrite Forall_forall in *. intros x Hx. apply (H x Hx); auto.
  - intros s. cbn. apply each_scope. rewrite forallb_forall in Hn, Hs. rewrite Forall_forall in *. intros x Hx. apply (H x Hx); auto.
  - intros s. cbn. apply each_scope. rewrite forallb_forall in Hn, Hs. rewrite Forall_forall in *. intros [a b] Hx s0.
    specialize (Hn _ Hx). specialize (Hs _ Hx). cbn in *. apply andb_true_iff in Hn as [N1 N2]. apply andb_true_iff in Hs as [S1 S2].
    destruct (H _ Hx) as [Ha Hb]. cbn in *. apply dthen_scope; [now apply Ha|now apply Hb].
  - intros s0. cbn [resolve]. destruct (smem s (ds_unres s0)); auto. destruct (aget s (ds_aliases s0)); auto. destruct (is_local s0 [s]); auto.
  - intros s. cbn. apply IHn; auto.
  - (* member *)
    destruct Hn as [N1 N2], Hs as [S1 S2]. destruct (IHn1 N1 S1) as [A1 B1], (IHn2 N2 S2) as [A2 B2].
    assert (SP : forall s r s1 c, spine s (NMember n1 n2) = Some (r, s1, c) -> s1 = s).
    { intros s r s1 c E. destruct (is_str n2) eqn:I.
      - destruct n2; try discriminate. rewrite spine_string in E. destruct (spine s n1) as [[[r9 s9] c9]|] eqn:E0; [|discriminate].
        injection E as <- <- <-. eauto.
      - rewrite (spine_dyn _ _ _ I) in E. destruct (spine s n1) as [[[r9 s9] c9]|] eqn:E0; [|discriminate].
        pose proof (A2 s9) as A. destruct (resolve n2 s9) as [r2 s2]. cbn in A. subst s2. injection E as <- <- <-. eauto. }
    split; auto. intros s. rewrite resolve_member. destruct (spine s (NMember n1 n2)) as [[[r9 s9] c9]|] eqn:E.
    + cbn. eauto.
    + apply dthen_scope; auto.
  - destruct Hn as [[N1 N2] N3], Hs as [[S1 S2] S3]. intros s. cbn. apply dthen_scope; [apply dthen_scope; [now apply IHn|]|];
      apply maybe_scope; intros x ->; [apply H|apply H0]; auto.
  - destruct Hn as [N1 N2], Hs as [S1 S2]. intros s. cbn. apply dthen_scope; [apply IHn1|apply IHn2]; auto.
  - destruct Hn as [[N1 N2] N3], Hs as [[S1 S2] S3]. intros s. cbn. apply dthen_scope; [apply dthen_scope; [apply IHn1|apply IHn2]|apply IHn3]; auto.
  - intros s. cbn. apply IHn; auto.
  - destruct Hn as [N1 N2], Hs as [S1 S2]. intros s. cbn. apply dthen_scope; [apply IHn1|apply IHn2]; auto.
  - (* call *)
    assert (Pl : forallb sane l = true -> forall s, snd (each resolve l s) = s).
    { intros Hs' s. apply each_scope. rewrite forallb_forall in Hn, Hs'. rewrite Forall_forall in *. intros x Hx. apply (H x Hx); auto. }
    intros s. destruct k as [f|f|c]; try (exact (Pl Hs s)).
    destruct l as [|a0 [|a1 r]]; try (exact (Pl Hs s)). cbn [resolve]. cbv zeta.
    destruct a1; try (rewrite andb_false_r in Hs; discriminate).
    cbn in Hn. rewrite !andb_true_iff in Hn, Hs. inversion H as [|? ? H0 H']; subst. destruct (H0 ltac:(tauto) ltac:(tauto)) as [A0 _].
    match goal with |- snd (match ?x with _ => _ end) = _ => destruct x end; auto.
    apply dthen_scope; auto.
    destruct (match read_path a0 with Some p => Some p | None => source_path a0 end) as [[|x9 l9]|]; auto.
    destruct (is_local s (x9 :: l9)); auto.
  - destruct Hn as [N1 N2], Hs as [S1 S2]. intros s. cbn. apply dthen_scope; [apply IHn; auto|]. apply each_scope.
    rewrite forallb_forall in N2, S2. rewrite Forall_forall in *. intros x Hx. apply (H x Hx); auto.
Qed.

(** *** What is needed: the reported paths that are not read through an alias *)
Definition needs (d : nat) (A : @amap (list string)) (reads : list rdep) (p : list string) : Prop :=
  exists x, In x (flat_map (flat_dep d A) reads) /\ pr_alias x = false /\ pr_path x = p.
Lemma needs_app : forall d A r1 r2 p, needs d A (r1 ++ r2) p <-> (needs d A r1 p \/ needs d A r2 p).
Proof.
  intros d A r1 r2 p. unfold needs. rewrite flat_map_app. split.
  - intros (x & Hx & E). apply in_app_iff in Hx as [Hx|Hx]; eauto.
  - intros [(x & Hx & E)|(x & Hx & E)]; exists x; rewrite in_app_iff; auto.
Qed.
Lemma needs_direct : forall d A x p, aget x A = None -> needs d A [RDirect (x :: p) false] (x :: p).
Proof. intros d A x p E. exists (PRead (x :: p) false false). cbn. rewrite E. cbn. auto. Qed.
Lemma needs_iter : forall d A x p al rs, aget x A = None -> needs d A [RIter (x :: p) al rs] (x :: p).
Proof. intros d A x p al rs E. exists (PRead (x :: p) false false). cbn [flat_map flat_dep]. cbn [resolve_path rooted]. rewrite E. cbn. auto. Qed.
Lemma needs_inner : forall d A x al rs p, S d < max_nesting ->
  needs (S d) (match al with Some a => aset a (resolve_path A x) A | None => A end) rs p -> needs d A [RIter x al rs] p.
Proof.
  intros d A x al rs p Hd (y & Hy & E). exists y. split; auto. cbn [flat_map flat_dep]. rewrite app_nil_r. apply in_or_app. right.
  destruct (max_nesting <=? S d) eqn:L; [apply Nat.leb_le in L; lia|exact Hy].
Qed.

Lemma each_in : forall {A} (f : A -> dscope -> list rdep * dscope) l s,
  Forall (fun x => forall s, snd (f x s) = s) l -> forall d B x p, In x l -> needs d B (fst (f x s)) p -> needs d B (fst (each f l s)) p.
Proof.
  intros A f l s H. induction H as [|y l Hy H IH]; intros d B x p Hx Np; [contradiction|].
  cbn. unfold dthen. rewrite (Hy s). destruct (each f l s) as [r2 s2] eqn:E. cbn. apply needs_app. destruct Hx as [->|Hx]; auto.
  right. apply (IH d B x p Hx Np).
Qed.
Lemma dthen_in : forall a k s d B p, snd a = s -> (needs d B (fst a) p \/ needs d B (fst (k s)) p) -> needs d B (fst (dthen a k)) p.
Proof. intros [r x] k s d B p E H. cbn in E. subst x. unfold dthen. cbn in *. destruct (k s). cbn in *. now apply needs_app. Qed.

(** Member chains. *)
Definition pure (c : chain) : option (list string) :=
  match c with CGroup g _ None true false => Some g | _ => None end.
Definition grouped (c : chain) : Prop := match c with CGroup _ _ v f _ => f = true <-> v = None | _ => True end.

Definition bnd (al : list (option string)) (x : string) : bool := match bound_at al x with Some _ => true | None => false end.
Definition has (A : @amap (list string)) (x : string) : bool := match aget x A with Some _ => true | None => false end.
(** The scope of the analysis fits the names bound at run time. *)
Record fits (al : list (option string)) (s : dscope) (A : @amap (list string)) : Prop := Fits {
  f_names : forall x, smem x (ds_unres s) || has (ds_aliases s) x = bnd al x;
  f_seen : forall x, has A x = true -> bnd al x = true;
  f_root : bnd al "$root" = false;
  f_locals : forall x, smem x (ds_locals s) = true -> x = "$";
  f_bind : ds_bindings s = [] }.
Lemma local_dollar : forall al s A p, fits al s A -> is_local s p = true -> exists r, p = "$" :: r.
Proof.
  intros al s A [|x p] F; cbn; [discriminate|]. rewrite (f_bind _ _ _ F). cbn [existsb]. rewrite orb_false_r. intros E.
  apply (f_locals _ _ _ F) in E. subst. eauto.
Qed.
Lemma smem_cons : forall x y l, smem x (y :: l) = String.eqb x y || smem x l.
Proof. reflexivity. Qed.
Lemma has_aset : forall A a v x, has (aset a v A) x = String.eqb a x || has A x.
Proof.
  intros A a v x. unfold has. destruct (String.eqb_spec a x) as [->|E]; cbn.
  - now rewrite aget_aset_eq.
  - rewrite aget_aset_ne; auto.
Qed.
Lemma bnd_cons : forall a al x, bnd (a :: al) x = match a with Some y => String.eqb y x | None => false end || bnd al x.
Proof. intros [y|] al x; unfold bnd; cbn; [destruct (String.eqb y x); auto|]; destruct (bound_at al x); auto. Qed.
Lemma fits_inner : forall al s A source alias, fits al s A -> match alias with Some a => String.eqb a "$root" = false | None => True end ->
  fits (alias :: al) (inner_scope s source alias) A /\
  forall e, fits (alias :: al) (inner_scope s source alias) (match alias with Some a => aset a e A | None => A end).
Proof.
  intros al s A source alias F Ha.
  assert (G : forall B, (forall x, has B x = true -> bnd (alias :: al) x = true) -> fits (alias :: al) (inner_scope s source alias) B).
  { intros B HB. destruct F as [F1 F2 F3 F4 F5]. constructor; auto.
    - intros x. rewrite bnd_cons, <- F1. unfold inner_scope. destruct alias as [a|]; [destruct source as [p|]|]; try (destruct (is_local s (expand_alias s p))); cbn [ds_unres ds_aliases]; rewrite ?smem_cons, ?has_aset, ?(String.eqb_sym x a); cbn; auto.
      + now rewrite orb_assoc.
      + destruct (smem x (ds_unres s)), (a =? x)%string; auto.
      + now rewrite orb_assoc.
    - rewrite bnd_cons, F3. destruct alias as [a|]; auto. now rewrite Ha.
    - intros x. assert (L : ds_locals (inner_scope s source alias) = "$" :: ds_locals s).
      { unfold inner_scope. destruct alias as [a|]; [destruct source as [p|]|]; try (destruct (is_local s (expand_alias s p))); reflexivity. }
      rewrite L, smem_cons. intros E. apply orb_true_iff in E as [E|E]; auto. now apply String.eqb_eq in E.
    - unfold inner_scope. destruct alias as [a|]; [destruct source as [p|]|]; try (destruct (is_local s (expand_alias s p))); cbn; auto. }
  split.
  - apply G. intros x Hx. rewrite bnd_cons, (f_seen _ _ _ F x Hx), orb_true_r. reflexivity.
  - intros e. apply G. intros x Hx. rewrite bnd_cons. destruct alias as [a|].
    + rewrite has_aset in Hx. apply orb_true_iff in Hx as [->|Hx]; auto. rewrite (f_seen _ _ _ F x Hx), orb_true_r. reflexivity.
    + now rewrite (f_seen _ _ _ F x Hx).
Qed.

(** *** Values at a path *)
Definition pget (h : heap) (b : value) (p : list string) : value :=
  match p with
  | x :: r => if String.eqb x "$root" then fold_left (get_key h) r b else fold_left (get_key h) p b
  | [] => b
  end.
Definition tget (t : tree) (k : string) : tree :=
  match t with TObj m => match aget k m with Some x => x | None => TNull end | _ => TNull end.
Lemma get_key_repr : forall h v t k, repr h v t -> repr h (get_key h v k) (tget t k).
Proof.
  intros h v t k R. inversion R; subst; cbn; try constructor. apply hobj_hget in H. rewrite H.
  clear -H0. induction H0 as [|[a x] [b y] ? ? [E Rx]]; cbn; [constructor|]. cbn in E, Rx. subst b. destruct (String.eqb a k); auto.
Qed.
Lemma keys_repr : forall p h v t, repr h v t -> repr h (fold_left (get_key h) p v) (at_path t p).
Proof. induction p as [|k p IH]; intros h v t R; cbn; auto. apply IH. apply (get_key_repr h v t k R). Qed.
Lemma pget_repr : forall p h v t, repr h v t -> repr h (pget h v p) (input_at t p).
Proof. intros [|x p] h v t R; auto. cbn [pget input_at]. destruct (String.eqb x "$root"); now apply keys_repr. Qed.
Lemma pget_app : forall h v x p k, pget h v ((x :: p) ++ [k]) = get_key h (pget h v (x :: p)) k.
Proof. intros h v x p k. cbn [pget app]. destruct (String.eqb x "$root"); rewrite ?app_comm_cons, fold_left_app; reflexivity. Qed.

Section Sound.
  Variable X : ext.
  Hypothesis HX : content_ext X.
  Hypothesis HP : pure_ext X.
  Variables b1 b2 : value.
  Variables t1 t2 : tree.
  Hypothesis C1 : is_context t1 = true.
  Hypothesis C2 : is_context t2 = true.
  Variable Q : list string -> Prop.
  Hypothesis HQ : forall p, Q p -> input_at t1 p = input_at t2 p.
  Hypothesis Q0 : Q ["$"].
  Notation env1 := (scope_new b1).
  Notation env2 := (scope_new b2).

  Definition good (h1 h2 : heap) : Prop := repr h1 b1 t1 /\ repr h2 b2 t2.
  Lemma good_hext : forall h1 h2 g1 g2, hext h1 g1 -> hext h2 g2 -> good h1 h2 -> good g1 g2.
  Proof. intros h1 h2 g1 g2 E1 E2 [A B]. split; eapply repr_hext; eauto. Qed.
  Lemma path_alike : forall h1 h2 p, good h1 h2 -> Q p -> alike h1 h2 (pget h1 b1 p) (pget h2 b2 p).
  Proof. intros h1 h2 p [A B] Hp. exists (input_at t1 p). split; [|rewrite (HQ p Hp)]; now apply pget_repr. Qed.

  Definition ev (al : list (option string)) (n : node) : Prop := forall loops1 loops2 h1 h2, good h1 h2 -> Forall2 (lalike h1 h2) loops1 loops2 ->
    orel alike h1 h2 env1 env2 (eval X env1 al loops1 n env1 h1) (eval X env2 al loops2 n env2 h2).
  Definition st (al : list (option string)) (n : node) : Prop := forall h1 h2, good h1 h2 ->
    match eval_static env1 al n env1 h1, eval_static env2 al n env2 h2 with
    | Some (g1, v1), Some (g2, v2) => alike g1 g2 v1 v2 /\ hext h1 g1 /\ hext h2 g2
    | None, None => True
    | _, _ => False
    end.

  Lemma ctx_fetch : forall b t h x, is_context t = true -> repr h b t -> op_fetch_env h (scope_new b) x = Ok (get_key h b x).
  Proof. intros b t h x C R. unfold op_fetch_env. cbn. inversion R; subst; cbn in C; try discriminate; reflexivity. Qed.
  Lemma static_ident : forall al b h x, bnd al x = false -> eval_static (scope_new b) al (NIdent x) (scope_new b) h = Some (h, get_key h b x).
  Proof. intros al b h x B. cbn. unfold bnd in B. destruct (bound_at al x); [discriminate|]. unfold scope_get. cbn. destruct b; reflexivity. Qed.

  Lemma ident_ok : forall al x, (bnd al x = false -> x <> "$root" /\ Q [x]) -> ev al (NIdent x) /\ st al (NIdent x).
  Proof.
    intros al x H. unfold bnd in H. split.
    - intros l1 l2 h1 h2 G L. cbn [eval]. destruct (bound_at al x) eqn:B; [apply orel_lift; now apply pointer_alike|].
      destruct (H eq_refl) as [Nr Hq]. apply orel_lift. destruct G as [G1 G2].
      rewrite (ctx_fetch _ _ _ _ C1 G1), (ctx_fetch _ _ _ _ C2 G2). cbn.
      pose proof (path_alike h1 h2 [x] (conj G1 G2) Hq) as P. cbn in P. apply String.eqb_neq in Nr. rewrite Nr in P. exact P.
    - intros h1 h2 G. destruct (bound_at al x) eqn:B; [cbn; rewrite B; exact Logic.I|].
      assert (B' : bnd al x = false) by (unfold bnd; now rewrite B). rewrite !(static_ident _ _ _ _ B').
      destruct (H eq_refl) as [Nr Hq]. repeat split; auto using hext_refl.
      pose proof (path_alike h1 h2 [x] G Hq) as P. cbn in P. apply String.eqb_neq in Nr. rewrite Nr in P. exact P.
  Qed.
  Lemma root_ok : forall al, Q ["$root"] -> ev al NRoot /\ st al NRoot.
  Proof.
    intros al H. split.
    - intros l1 l2 h1 h2 G L. cbn. repeat split; auto using hext_refl. exact (path_alike h1 h2 _ G H).
    - intros h1 h2 G. cbn. repeat split; auto using hext_refl. exact (path_alike h1 h2 _ G H).
  Qed.
  Lemma pointer_ok : forall al, ev al NPointer /\ st al NPointer.
  Proof. intros al. split; [intros l1 l2 h1 h2 G L; cbn [eval]; apply orel_lift; now apply pointer_alike|intros h1 h2 G; exact Logic.I]. Qed.

  Lemma static_member : forall al a p, st al a -> st al (NMember a p).
  Proof.
    intros al a p S0 h1 h2 G. specialize (S0 h1 h2 G). destruct p; cbn [eval_static]; try exact Logic.I.
    - destruct (dec_to_u32 d); [|exact Logic.I].
      destruct (eval_static env1 al a env1 h1) as [[g1 v1]|], (eval_static env2 al a env2 h2) as [[g2 v2]|]; cbn; try tauto.
      destruct S0 as (A & B & C). repeat split; auto. now apply get_index_alike.
    - destruct (eval_static env1 al a env1 h1) as [[g1 v1]|], (eval_static env2 al a env2 h2) as [[g2 v2]|]; cbn; try tauto.
      destruct S0 as (A & B & C). repeat split; auto. now apply get_key_alike.
  Qed.
  Lemma member_ok : forall al a p, ev al a -> st al a -> ev al p -> ev al (NMember a p) /\ st al (NMember a p).
  Proof.
    intros al a p Ea Sa Ep. pose proof (static_member al a p Sa) as Sm. split; auto.
    intros l1 l2 h1 h2 G L. cbn [eval]. specialize (Sm h1 h2 G).
    destruct (eval_static env1 al (NMember a p) env1 h1) as [[g1 v1]|], (eval_static env2 al (NMember a p) env2 h2) as [[g2 v2]|]; try contradiction.
    - cbn. tauto.
    - eapply orel_bind; [apply Ea; auto|]. intros v1 v2 g1 g2 E1 E2 V.
      eapply orel_bind; [apply Ep; eauto using good_hext, lalike_hext|]. intros w1 w2 k1 k2 K1 K2 W.
      apply orel_lift. apply fetch_alike; eauto using alike_hext.
  Qed.
  Lemma member_dyn_ok : forall al a p, ev al a -> ev al p -> (forall b h, eval_static (scope_new b) al (NMember a p) (scope_new b) h = None) -> ev al (NMember a p).
  Proof.
    intros al a p Ea Ep Hs l1 l2 h1 h2 G L. cbn [eval]. rewrite !Hs.
    eapply orel_bind; [apply Ea; auto|]. intros v1 v2 g1 g2 E1 E2 V.
    eapply orel_bind; [apply Ep; eauto using good_hext, lalike_hext|]. intros w1 w2 k1 k2 K1 K2 W.
    apply orel_lift. apply fetch_alike; eauto using alike_hext.
  Qed.
  Lemma string_ok : forall al k, ev al (NString k).
  Proof. intros al k l1 l2 h1 h2 G L. cbn [eval]. apply orel_ret. apply view_alike. constructor. Qed.
  Lemma spine_none_static : forall n s al b h, spine s n = None -> eval_static (scope_new b) al n (scope_new b) h = None.
  Proof.
    induction n using node_ind'; intros sc al b0 h E; try reflexivity; try discriminate.
    assert (E1 : spine sc n1 = None).
    { destruct (is_str n2) eqn:I.
      - destruct n2; try discriminate. rewrite spine_string in E. destruct (spine sc n1) as [[[r9 s9] c9]|]; [discriminate|reflexivity].
      - rewrite (spine_dyn _ _ _ I) in E. destruct (spine sc n1) as [[[r9 s9] c9]|]; [|reflexivity]. destruct (resolve n2 s9); discriminate. }
    specialize (IHn1 sc al b0 h E1). cbn [eval_static]. destruct n2; auto; rewrite IHn1; auto. destruct (dec_to_u32 d); auto.
  Qed.

  (** A chain of fields from a name that is not bound, or from [$root], reads one path of the context. *)
  Lemma root_name : forall al s A x, fits al s A -> pure (chain_root x s) <> None -> bnd al x = false /\ x <> "$".
  Proof.
    intros al s A x F. unfold chain_root. destruct (String.eqb_spec x "$"); [cbn; congruence|].
    pose proof (f_names _ _ _ F x) as N. unfold has in N.
    destruct (smem x (ds_unres s)); [cbn; congruence|]. destruct (aget x (ds_aliases s)); cbn in *; [congruence|].
    intros _. auto.
  Qed.
  Lemma pure_chain : forall n al s A r s1 c g, fits al s A -> sane n = true -> no_assign n = true -> spine s n = Some (r, s1, c) -> pure c = Some g ->
    r = [] /\ exists x q, g = x :: q /\ bnd al x = false /\ x <> "$" /\
    forall b h, eval_static (scope_new b) al n (scope_new b) h = Some (h, pget h b g).
  Proof.
    induction n using node_ind'; intros al sc A r s1 c g F Hs Hn E Pc; try discriminate.
    - cbn in E. injection E as <- <- <-. discriminate.
    - cbn in E. injection E as <- <- <-. split; auto. destruct (root_name al sc A s F ltac:(congruence)) as [B Nd].
      unfold chain_root in Pc. destruct (String.eqb_spec s "$"); [discriminate|]. destruct (smem s (ds_unres sc)); [discriminate|].
      destruct (aget s (ds_aliases sc)); [discriminate|]. cbn [negb andb] in Pc. destruct (is_local sc [s]); [discriminate|]. cbn in Pc. injection Pc as <-.
      exists s, []. repeat split; auto. intros b h. rewrite (static_ident _ _ _ _ B). cbn. cbn in Hs. apply negb_true_iff in Hs. rewrite Hs. reflexivity.
    - cbn [spine] in E. injection E as <- <- <-. split; auto. destruct (root_name al sc A "$root" F ltac:(congruence)) as [B Nd].
      unfold chain_root in Pc. cbn [String.eqb] in Pc. destruct (smem "$root" (ds_unres sc)); [discriminate|].
      destruct (aget "$root" (ds_aliases sc)); [discriminate|]. cbn [negb andb] in Pc. destruct (is_local sc ["$root"]); [discriminate|].
      injection Pc as <-. exists "$root", []. repeat split; auto; discriminate.
    - cbn in Hs, Hn. apply andb_true_iff in Hs as [S1 S2]. apply andb_true_iff in Hn as [N1 N2]. destruct (is_str n2) eqn:I.
      + destruct n2 as [| | |k| | | | | | | | | | | | | | | | | |]; try discriminate. rewrite spine_string in E. destruct (spine sc n1) as [[[r9 s9] c9]|] eqn:E1; [|discriminate].
        injection E as <- <- <-. destruct c9 as [|p9|g9 cum9 via9 f9 a9]; try discriminate. cbn in Pc.
        destruct via9; [discriminate|]. destruct f9; [|discriminate]. destruct a9; [discriminate|]. injection Pc as <-.
        destruct (IHn1 al sc A _ _ _ g9 F S1 N1 E1 eq_refl) as (-> & x & q & -> & B & Nd & Hst). split; auto.
        exists x, (q ++ [k]). repeat split; auto. intros b h. cbn [eval_static]. rewrite Hst. cbn [option_map fst snd]. now rewrite <- pget_app.
      + rewrite (spine_dyn _ _ _ I) in E. destruct (spine sc n1) as [[[r9 s9] c9]|] eqn:E1; [|discriminate].
        destruct (resolve n2 s9). injection E as <- <- <-. destruct c9; discriminate.
  Qed.
  Lemma static_ok : forall al g n, (forall b h, eval_static (scope_new b) al n (scope_new b) h = Some (h, pget h b g)) -> Q g -> st al n.
  Proof. intros al g n H Hq h1 h2 G. rewrite !H. repeat split; auto using hext_refl. now apply path_alike. Qed.
  Lemma static_member_ok : forall al g a p, (forall b h, eval_static (scope_new b) al (NMember a p) (scope_new b) h = Some (h, pget h b g)) -> Q g -> ev al (NMember a p).
  Proof. intros al g a p H Hq l1 l2 h1 h2 G L. cbn [eval]. rewrite !H. cbn. repeat split; auto using hext_refl. now apply path_alike. Qed.

  Definition covered (al : list (option string)) (n : node) : Prop := forall s A d, fits al s A -> d + nesting n < max_nesting ->
    (forall p, needs d A (fst (resolve n s)) p -> Q p) -> ev al n.
  Definition chained (al : list (option string)) (n : node) : Prop := forall s A d r s1 c, fits al s A -> d + nesting n < max_nesting ->
    spine s n = Some (r, s1, c) -> (forall p, needs d A r p -> Q p) -> (forall g, pure c = Some g -> Q g) -> ev al n /\ st al n.
  Definition sound (n : node) : Prop := no_assign n = true -> sane n = true -> forall al, covered al n /\ chained al n.

  (** What is reported before a computed segment covers the path so far. *)
  Lemma before_covers : forall n al s A r s1 c g d, fits al s A -> sane n = true -> no_assign n = true -> spine s n = Some (r, s1, c) -> pure c = Some g ->
    needs d A (chain_before c s) g.
  Proof.
    intros n al s A r s1 c g d F Hs Hn E Pc. destruct (pure_chain n al s A r s1 c g F Hs Hn E Pc) as (-> & x & q & -> & B & Nd & _).
    destruct c as [|p9|g9 cum9 via9 f9 a9]; try discriminate. cbn in Pc. destruct via9; [discriminate|]. destruct f9; [|discriminate]. destruct a9; [discriminate|]. injection Pc as ->.
    cbn [chain_before andb emit_group negb]. destruct (is_local s (x :: q)) eqn:L.
    - apply (local_dollar _ _ _ _ F) in L as (r & Er). injection Er as -> _. congruence.
    - apply needs_direct. pose proof (f_seen _ _ _ F x) as Fs. unfold has in Fs. destruct (aget x A); auto. rewrite Fs in B; auto. discriminate.
  Qed.
  Lemma end_before : forall c s g, pure c = Some g -> chain_end c s = chain_before c s.
  Proof. intros [] s g H; auto; discriminate. Qed.

  Lemma quiet_root : forall al s A x, fits al s A -> sane (NIdent x) = true -> pure (chain_root x s) = None -> bnd al x = false -> x <> "$root" /\ Q [x].
  Proof.
    intros al s A x F Hs Pc B. cbn in Hs. apply negb_true_iff, String.eqb_neq in Hs. split; auto.
    unfold chain_root in Pc. destruct (String.eqb_spec x "$") as [->|Nd]; [exact Q0|].
    pose proof (f_names _ _ _ F x) as N. rewrite B in N. apply orb_false_iff in N as [N1 N2]. rewrite N1 in Pc. unfold has in N2.
    destruct (aget x (ds_aliases s)); [discriminate|]. cbn [negb andb] in Pc. destruct (is_local s [x]) eqn:L; [|discriminate].
    apply (local_dollar _ _ _ _ F) in L as (r & Er). injection Er as -> _. congruence.
  Qed.

  Lemma member_sound : forall a p, sound a -> sound p -> sound (NMember a p).
  Proof.
    intros a p Ia Ip Hn Hs al. cbn in Hn, Hs. apply andb_true_iff in Hn as [N1 N2]. apply andb_true_iff in Hs as [S1 S2].
    destruct (Ia N1 S1 al) as [Ca Ha], (Ip N2 S2 al) as [Cp Hp].
    destruct (keeps_scope a N1 S1) as [Ka Sa], (keeps_scope p N2 S2) as [Kp Sp].
    assert (HC : chained al (NMember a p)).
    { intros s A d r s1 c F Hd E Hr Pc. cbn [nesting] in Hd.
      destruct (is_str p) eqn:I.
      - destruct p as [| | |k| | | | | | | | | | | | | | | | | |]; try discriminate. pose proof E as E'. rewrite spine_string in E.
        destruct (spine s a) as [[[r9 s9] c9]|] eqn:E1; [|discriminate]. injection E as <- <- <-.
        destruct (pure c9) as [g|] eqn:P9.
        + assert (Pk : pure (chain_field k c9) = Some (g ++ [k])).
          { destruct c9 as [|p9|g9 cum9 via9 f9 a9]; try discriminate. cbn in *. destruct via9; [discriminate|]. destruct f9; [|discriminate]. destruct a9; [discriminate|]. now injection P9 as ->. }
          destruct (pure_chain (NMember a (NString k)) al s A _ _ _ _ F ltac:(cbn; now rewrite S1) ltac:(cbn; now rewrite N1) E' Pk) as (_ & x & q & Eg & B & Nd & Hst).
          split; [eapply static_member_ok|eapply static_ok]; eauto.
        + destruct (Ha s A d _ _ _ F ltac:(cbn in Hd; lia) E1 Hr ltac:(congruence)) as [Ea Ta]. apply member_ok; auto. apply string_ok.
      - rewrite (spine_dyn _ _ _ I) in E. destruct (spine s a) as [[[r9 s9] c9]|] eqn:E1; [|discriminate].
        assert (s9 = s) by eauto. subst s9. destruct (resolve p s) as [r2 s2] eqn:Ep. injection E as <- <- <-.
        assert (Q1 : forall g, pure c9 = Some g -> Q g).
        { intros g P9. apply Hr. apply needs_app. right. apply needs_app. left. exact (before_covers a al s A _ _ c9 g d F S1 N1 E1 P9). }
        destruct (Ha s A d _ _ _ F ltac:(lia) E1 ltac:(intros q Hq; apply Hr; apply needs_app; auto) Q1) as [Ea Ta].
        apply member_ok; auto. apply (Cp s A d F); [lia|]. rewrite Ep. cbn. intros q Hq. apply Hr. apply needs_app. right. apply needs_app. auto. }
    split; auto.
    intros s A d F Hd Hr. rewrite resolve_member in Hr. destruct (spine s (NMember a p)) as [[[r s1] c]|] eqn:E.
    - cbn in Hr. assert (s1 = s). { eapply (proj2 (keeps_scope (NMember a p) ltac:(cbn; now rewrite N1, N2) ltac:(cbn; now rewrite S1, S2))); eauto. } subst s1.
      eapply HC; eauto.
      + intros q Hq. apply Hr, needs_app. auto.
      + intros g Pc. apply Hr, needs_app. right. rewrite (end_before _ _ _ Pc). exact (before_covers (NMember a p) al s A _ _ c g d F ltac:(cbn; now rewrite S1, S2) ltac:(cbn; now rewrite N1, N2) E Pc).
    - assert (E1 : forall b h, eval_static (scope_new b) al (NMember a p) (scope_new b) h = None) by (intros; eapply spine_none_static; eauto).
      cbn [nesting] in Hd. apply member_dyn_ok; auto.
      + apply (Ca s A d F); [lia|]. intros q Hq. apply Hr. eapply dthen_in; eauto.
      + apply (Cp s A d F); [lia|]. intros q Hq. apply Hr. eapply dthen_in; eauto.
  Qed.

  Lemma read_spine : forall n s p, read_path n = Some p -> exists c, spine s n = Some ([], s, c) /\ forall g, pure c = Some g -> g = p.
  Proof.
    assert (R : forall x s g, pure (chain_root x s) = Some g -> g = [x]).
    { intros x s g. unfold chain_root. destruct (String.eqb x "$"); [discriminate|]. destruct (smem x (ds_unres s)); [discriminate|].
      destruct (negb _ && is_local s [x]); [discriminate|]. destruct (aget x (ds_aliases s)); cbn; congruence. }
    induction n using node_ind'; intros sc p E; try discriminate.
    - injection E as <-. cbn [spine]. eexists. split; [reflexivity|apply R].
    - injection E as <-. cbn [spine]. eexists. split; [reflexivity|apply R].
    - cbn [read_path] in E. destruct n2 as [| | |k| | | | | | | | | | | | | | | | | |]; try discriminate.
      destruct (read_path n1) as [q|] eqn:E1; [|discriminate]. injection E as <-. destruct (IHn1 sc q eq_refl) as (c & Ec & Hc).
      rewrite spine_string, Ec. eexists. split; [reflexivity|]. intros g Pc. destruct c as [|p9|g9 cum9 via9 f9 a9]; try discriminate. cbn in Pc.
      destruct via9; [discriminate|]. destruct f9; [|discriminate]. destruct a9; [discriminate|]. injection Pc as <-. now rewrite (Hc g9 eq_refl).
  Qed.

  Lemma ev_seq : forall al l, Forall (ev al) l -> forall loops1 loops2 h1 h2, good h1 h2 -> Forall2 (lalike h1 h2) loops1 loops2 ->
    orel (fun g1 g2 => Forall2 (alike g1 g2)) h1 h2 env1 env2 (eval_seq (eval X env1 al loops1) l env1 h1) (eval_seq (eval X env2 al loops2) l env2 h2).
  Proof.
    intros al l H loops1 loops2 h1 h2 G L. apply orel_seq; [intros; eapply alike_hext; eauto|]. rewrite Forall_forall in *.
    intros x Hx g1 g2 E1 E2. apply (H x Hx); eauto using good_hext, lalike_hext.
  Qed.
  Lemma max_in : forall {A} (f : A -> nat) l x, In x l -> f x <= list_max (map f l).
  Proof. intros A f l x Hx. induction l as [|y l IH]; [contradiction|]. cbn. destruct Hx as [->|Hx]; [lia|]. specialize (IH Hx). unfold list_max in IH. lia. Qed.

  (** All nodes of a list are covered if the list is. *)
  Lemma list_covered : forall al l s A d, Forall sound l -> forallb no_assign l = true -> forallb sane l = true -> fits al s A ->
    d + list_max (map nesting l) < max_nesting -> (forall p, needs d A (fst (each resolve l s)) p -> Q p) -> Forall (ev al) l.
  Proof.
    intros al l s A d H Hn Hs F Hd Hr. rewrite forallb_forall in Hn, Hs. rewrite Forall_forall in *. intros x Hx.
    destruct (H x Hx (Hn x Hx) (Hs x Hx) al) as [C _]. apply (C s A d F); [pose proof (max_in nesting l x Hx); lia|].
    intros p Hp. apply Hr. eapply each_in; eauto. rewrite Forall_forall. intros y Hy. apply keeps_scope; auto.
  Qed.

  Lemma closure_call : forall c a0 body alias rest al, (forall s A d, fits al s A -> d + nesting (NCall (FClosure c) (a0 :: NClosure body alias :: rest)) < max_nesting ->
      (forall p, needs d A (fst (resolve (NCall (FClosure c) (a0 :: NClosure body alias :: rest)) s)) p -> Q p) -> ev al a0 /\ ev (alias :: al) body) ->
    covered al (NCall (FClosure c) (a0 :: NClosure body alias :: rest)).
  Proof.
    intros c a0 body alias rest al H s A d F Hd Hr. destruct (H s A d F Hd Hr) as [E0 E1]. clear H.
    intros loops1 loops2 h1 h2 G L. cbn [eval].
    eapply orel_bind; [apply E0; auto|]. intros v1 v2 g1 g2 X1 X2 V.
    pose proof (begin_alike _ _ _ _ V) as B. pose proof (hext_begin g1 v1) as K1. pose proof (hext_begin g2 v2) as K2.
    destruct (op_begin g1 v1) as [k1 [l1|e1]], (op_begin g2 v2) as [k2 [l2|e2]]; cbn [fst] in *; try contradiction.
    2:{ subst e2. cbn. auto. }
    assert (Y1 : hext h1 k1) by eauto using hext_trans. assert (Y2 : hext h2 k2) by eauto using hext_trans.
    replace (lp_len l1) with (lp_len l2) by (symmetry; apply B).
    pose proof (iterate_alike c (fun lp => eval X env1 (alias :: al) (lp :: loops1) body) (fun lp => eval X env2 (alias :: al) (lp :: loops2) body) env1 env2 k1 k2) as It.
    specialize (It ltac:(intros lp1 lp2 q1 q2 Q1 Q2 LL; apply E1;
      [eapply good_hext; [| |exact G]|constructor; [exact LL|eapply lalike_hext; [| |exact L]]]; eauto using hext_trans)).
    specialize (It (lp_len l2) l1 l2 [] [] k1 k2 (hext_refl _) (hext_refl _) B (Forall2_nil _)).
    eapply orel_trans; [exact K1|exact K2|].
    destruct (iterate c (fun lp => eval X env1 (alias :: al) (lp :: loops1) body) (lp_len l2) l1 [] env1 k1) as [p1 q1 e1 z1|w1 e1 z1|e1 z1],
             (iterate c (fun lp => eval X env2 (alias :: al) (lp :: loops2) body) (lp_len l2) l2 [] env2 k2) as [p2 q2 e2 z2|w2 e2 z2|e2 z2];
      cbn in It; try contradiction.
    - destruct It as (IA & Bq & -> & -> & Z1 & Z2). eapply orel_trans; [exact Z1|exact Z2|]. now apply closure_value_alike.
    - exact It.
    - exact It.
  Qed.

  Lemma has_none : forall al s A x, fits al s A -> bnd al x = false -> aget x A = None.
  Proof. intros al s A x F B. pose proof (f_seen _ _ _ F x) as Fs. unfold has in Fs. destruct (aget x A); auto. rewrite Fs in B; auto. discriminate. Qed.

  Lemma closure_sound : forall c a0 body alias rest, sound a0 -> sound body -> sound (NCall (FClosure c) (a0 :: NClosure body alias :: rest)).
  Proof.
    intros c a0 body alias rest I0 Ib Hn Hs al. split; [|intros s A d r s1 cc F Hd E; discriminate].
    cbn [no_assign forallb] in Hn. cbn [sane forallb] in Hs. rewrite !andb_true_iff in Hn, Hs. destruct Hn as (N0 & N1 & _). destruct Hs as ((S0 & S1) & _). apply andb_true_iff in S1 as [S1 Sa].
    assert (Sa' : match alias with Some a => String.eqb a "$root" = false | None => True end) by (destruct alias; auto; now apply negb_true_iff).
    destruct (I0 N0 S0 al) as [C0 H0], (Ib N1 S1 (alias :: al)) as [Cb _].
    destruct (keeps_scope a0 N0 S0) as [K0 _].
    apply closure_call. intros s A d F Hd Hr.
    set (source := match read_path a0 with Some p => Some p | None => source_path a0 end) in *.
    assert (Hd0 : d + nesting a0 < max_nesting) by (cbn [nesting] in Hd; lia).
    assert (Hd1 : S d + nesting body < max_nesting) by (cbn [nesting] in Hd; lia).
    destruct (fits_inner al s A source alias F Sa') as [F1 F2].
    assert (Inner : forall q, (forall p, needs d A [RIter q alias (fst (resolve body (inner_scope s source alias)))] p -> Q p) -> ev (alias :: al) body).
    { intros q Hq. apply (Cb _ _ (S d) (F2 (resolve_path A q))); auto. intros p Np. apply Hq. apply needs_inner; auto. lia. }
    cbn [resolve] in Hr. cbv zeta in Hr. fold source in Hr.
    destruct (match read_path a0 with Some p => if is_local s p then None else Some p | None => None end) as [p|] eqn:Pl.
    - assert (Er : read_path a0 = Some p) by (destruct (read_path a0) as [q|]; [destruct (is_local s q)|]; congruence).
      cbn [fst] in Hr. split; [|eapply Inner; exact Hr].
      destruct (read_spine a0 s p Er) as (cc & Ec & Hc). apply (H0 s A d [] s cc F Hd0 Ec).
      + intros q (x & Hx & _). destruct Hx.
      + intros g Pg. destruct (pure_chain a0 al s A _ _ _ _ F S0 N0 Ec Pg) as (_ & x & q & Eg & Bx & _ & _).
        assert (Ep : p = x :: q) by (rewrite <- (Hc g Pg); exact Eg). apply Hr. rewrite Eg, Ep. apply needs_iter. exact (has_none al s A x F Bx).
    - split.
      + apply (C0 s A d F Hd0). intros p Np. apply Hr. eapply dthen_in; eauto.
      + assert (Hr' : forall p, needs d A (fst (match source with
            | Some (x :: r) => if is_local s (x :: r) then (fst (resolve body (inner_scope s source alias)), s) else ([RIter (x :: r) alias (fst (resolve body (inner_scope s source alias)))], s)
            | _ => (fst (resolve body (inner_scope s source alias)), s) end)) p -> Q p).
        { intros p Np. apply Hr. eapply dthen_in; eauto. }
        assert (Flat : (forall p, needs d A (fst (resolve body (inner_scope s source alias))) p -> Q p) -> ev (alias :: al) body).
        { intros Hq. apply (Cb _ _ d F1); auto. lia. }
        destruct source as [[|x q]|]; auto. destruct (is_local s (x :: q)); auto. eapply Inner; exact Hr'.
  Qed.

  Lemma all_sound : forall n, sound n /\ match n with NClosure b _ => sound b | _ => True end.
  Proof.
    induction n using node_ind'; (split; [|try exact Logic.I]);
      try (intros Hn Hs al; split; [|intros ? ? ? ? ? ? ? ? E; discriminate E]; intros sc A dd F Hd Hr l1 l2 h1 h2 G L; cbn [eval]; apply orel_ret; apply view_alike; constructor).
    - (* template *)
      intros Hn Hs al. split; [|intros sc A d r s1 c F Hd E; discriminate]. intros sc A d F Hd Hr.
      assert (EV : Forall (ev al) l).
      { cbn [no_assign sane nesting resolve] in *. eapply (list_covered al l sc A d); eauto. eapply Forall_impl; [|exact H]. intros ? Hx; apply Hx. }
      intros l1 l2 h1 h2 G L. cbn [eval]. eapply orel_bind with (R := fun g1 g2 => Forall2 (alike g1 g2)).
      + apply orel_seq; [intros; eapply alike_hext; eauto|]. rewrite Forall_forall in *. intros x Hx g1 g2 E1 E2. eapply orel_bind.
        * apply (EV x Hx); eauto using good_hext, lalike_hext.
        * intros v1 v2 k1 k2 K1 K2 V. apply orel_hlift; [now apply hext_call|now apply hext_call|]. apply call_alike; auto.
      + intros vs1 vs2 g1 g2 E1 E2 V. pose proof (new_arr_alike _ _ _ _ V) as N. pose proof (hext_new_arr g1 vs1) as K1. pose proof (hext_new_arr g2 vs2) as K2.
        destruct (new_arr g1 vs1), (new_arr g2 vs2). cbn [fst snd] in *. eapply orel_trans; [exact K1|exact K2|].
        apply orel_lift. now apply join_alike.
    - (* pointer *)
      intros Hn Hs al. split; [intros sc A d F Hd Hr|intros sc A d r s1 c F Hd E Hr Pc]; apply pointer_ok.
    - (* array *)
      intros Hn Hs al. split; [|intros sc A d r s1 c F Hd E; discriminate]. intros sc A d F Hd Hr.
      assert (EV : Forall (ev al) l).
      { cbn [no_assign sane nesting resolve] in *. eapply (list_covered al l sc A d); eauto. eapply Forall_impl; [|exact H]. intros ? Hx; apply Hx. }
      intros l1 l2 h1 h2 G L. cbn [eval]. eapply orel_bind with (R := fun g1 g2 => Forall2 (alike g1 g2)); [now apply ev_seq|].
      intros vs1 vs2 g1 g2 E1 E2 V. pose proof (new_arr_alike _ _ _ _ V) as N. pose proof (hext_new_arr g1 vs1) as K1. pose proof (hext_new_arr g2 vs2) as K2.
      destruct (new_arr g1 vs1), (new_arr g2 vs2). cbn in *. auto.
    - (* object *)
      intros Hn Hs al. split; [|intros sc A d r s1 c F Hd E; discriminate]. intros sc A d F Hd Hr.
      assert (EV : Forall (fun kv => ev al (fst kv) /\ ev al (snd kv)) l).
      { cbn [no_assign sane nesting resolve] in *. rewrite forallb_forall in Hn, Hs. rewrite Forall_forall in *. intros kv Hx.
        pose proof (Hn kv Hx) as Hn'. pose proof (Hs kv Hx) as Hs'. apply andb_true_iff in Hn' as [N1 N2]. apply andb_true_iff in Hs' as [S1 S2].
        pose proof (max_in (fun kv => Nat.max (nesting (fst kv)) (nesting (snd kv))) l kv Hx) as Mx. cbn beta in Mx.
        destruct (H kv Hx) as [[Hk _] [Hv _]]. destruct (Hk N1 S1 al) as [Ck _], (Hv N2 S2 al) as [Cv _].
        assert (KS : Forall (fun x => forall s, snd (dthen (resolve (fst x) s) (resolve (snd x))) = s) l).
        { rewrite Forall_forall. intros y Hy s. pose proof (Hn y Hy) as A1. pose proof (Hs y Hy) as A2. apply andb_true_iff in A1 as [? ?]. apply andb_true_iff in A2 as [? ?].
          apply dthen_scope; now apply keeps_scope. }
        destruct (keeps_scope (fst kv) N1 S1) as [Kk _].
        split; [apply (Ck sc A d F)|apply (Cv sc A d F)]; try lia; intros p Np; apply Hr;
          eapply (each_in (fun kv s => dthen (resolve (fst kv) s) (resolve (snd kv)))); eauto; eapply dthen_in; eauto. }
      intros l1 l2 h1 h2 G L. cbn [eval].
      eapply orel_bind with (R := fun g1 g2 => Forall2 (fun a b => alike g1 g2 (fst a) (fst b) /\ alike g1 g2 (snd a) (snd b))).
      + apply orel_seq; [intros ? ? ? ? ? ? ? ? []; split; eapply alike_hext; eauto|]. rewrite Forall_forall in *.
        intros [a b] Hx g1 g2 E1 E2. destruct (EV _ Hx) as [Ea Eb]. cbn in *.
        eapply orel_bind; [apply Ea; eauto using good_hext, lalike_hext|].
        intros v1 v2 k1 k2 K1 K2 V. eapply orel_bind with (R := alike).
        * apply orel_hlift; [now apply hext_call|now apply hext_call|]. apply call_alike; auto.
        * intros s1 s2 q1 q2 Q1 Q2 Sv. eapply orel_bind.
          -- apply Eb; [eapply good_hext; [| |exact G]|eapply lalike_hext; [| |exact L]]; eauto using hext_trans.
          -- intros w1 w2 z1 z2 Z1 Z2 W. cbn. repeat split; auto using hext_refl. eapply alike_hext; eauto.
      + intros vs1 vs2 g1 g2 E1 E2 V.
        assert (V' : Forall2 (fun a b => alike g1 g2 (fst a) (fst b) /\ alike g1 g2 (snd a) (snd b)) (rev vs1) (rev vs2)).
        { clear -V. induction V; cbn; auto. apply Forall2_app; auto. }
        pose proof (build_alike _ _ _ _ V' [] [] (Forall2_nil _)) as B.
        apply orel_hlift.
        * destruct (build_object (rev vs1) []); cbn; [apply hext_alloc|apply hext_refl].
        * destruct (build_object (rev vs2) []); cbn; [apply hext_alloc|apply hext_refl].
        * destruct (build_object (rev vs1) []), (build_object (rev vs2) []); try contradiction; [|cbn; auto].
          apply (new_obj_alike _ _ _ _ B).
    - (* assignment *) intros Hn. discriminate.
    - (* identifier *)
      intros Hn Hs al. split.
      + intros sc A d F Hd Hr. apply ident_ok. intros B. cbn in Hs. apply negb_true_iff, String.eqb_neq in Hs. split; auto.
        pose proof (f_names _ _ _ F s) as N. rewrite B in N. apply orb_false_iff in N as [N1 N2]. unfold has in N2. cbn [resolve] in Hr. rewrite N1 in Hr.
        destruct (aget s (ds_aliases sc)); [discriminate|]. destruct (is_local sc [s]) eqn:Lc.
        * apply (local_dollar _ _ _ _ F) in Lc as (r & Er). injection Er as -> _. exact Q0.
        * apply Hr. cbn [fst]. apply needs_direct. eapply has_none; eauto.
      + intros sc A d r s1 c F Hd E Hr Pc. apply ident_ok. intros B. cbn [spine] in E. injection E as <- <- <-.
        destruct (pure (chain_root s sc)) as [g|] eqn:Pg; [|eapply quiet_root; eauto].
        specialize (Pc g eq_refl). destruct (read_spine (NIdent s) sc [s] eq_refl) as (c & Ec & Hc). cbn [spine] in Ec. injection Ec as <-.
        rewrite (Hc g Pg) in Pc. split; auto. cbn in Hs. now apply negb_true_iff, String.eqb_neq in Hs.
    - (* closure *) intros Hn Hs. discriminate.
    - apply IHn.
    - (* parentheses *)
      intros Hn Hs al. split; [|intros sc A d r s1 c F Hd E; discriminate]. intros sc A d F Hd Hr.
      destruct (proj1 IHn Hn Hs al) as [C _]. exact (C sc A d F Hd Hr).
    - (* root *)
      intros Hn Hs al. split.
      + intros sc A d F Hd Hr. apply root_ok. apply Hr. cbn [resolve fst]. apply needs_direct. eapply has_none; [exact F|apply F].
      + intros sc A d r s1 c F Hd E Hr Pc. apply root_ok. cbn [spine] in E. injection E as <- <- <-.
        destruct (pure (chain_root "$root" sc)) as [g|] eqn:Pg.
        * specialize (Pc g eq_refl). destruct (read_spine NRoot sc ["$root"] eq_refl) as (c & Ec & Hc). cbn [spine] in Ec. injection Ec as <-. now rewrite (Hc g Pg) in Pc.
        * exfalso. unfold chain_root in Pg. cbn [String.eqb] in Pg. pose proof (f_names _ _ _ F "$root") as N. rewrite (f_root _ _ _ F) in N. apply orb_false_iff in N as [N1 N2]. unfold has in N2.
          rewrite N1 in Pg. destruct (aget "$root" (ds_aliases sc)); [discriminate|]. cbn [negb andb] in Pg. destruct (is_local sc ["$root"]) eqn:Lc; [|discriminate].
          apply (local_dollar _ _ _ _ F) in Lc as (r & Er). discriminate.
    - (* member *) apply member_sound; tauto.
    - (* slice *)
      intros Hn Hs al. split; [|intros sc A d r s1 c F Hd E; discriminate]. intros sc A d F Hd Hr.
      cbn [no_assign sane] in Hn, Hs. rewrite !andb_true_iff in Hn, Hs. destruct Hn as [[N1 N2] N3], Hs as [[S1 S2] S3].
      destruct (proj1 IHn N1 S1 al) as [Cn _]. destruct (keeps_scope n N1 S1) as [Kn _]. cbn [resolve] in Hr. cbn [nesting] in Hd.
      assert (KF : snd (maybe resolve f sc) = sc) by (apply maybe_scope; intros x ->; now apply keeps_scope).
      assert (KNF : snd (dthen (resolve n sc) (maybe resolve f)) = sc) by (apply dthen_scope; auto).
      assert (En : ev al n). { apply (Cn sc A d F); [lia|]. intros p Np. apply Hr. eapply dthen_in; [exact KNF|]. left. eapply dthen_in; eauto. }
      assert (Ef : match f with Some x => ev al x | None => True end).
      { destruct f as [x|]; auto. destruct (proj1 H N2 S2 al) as [Cx _]. apply (Cx sc A d F); [lia|]. intros p Np. apply Hr. eapply dthen_in; [exact KNF|]. left. eapply dthen_in; eauto. }
      assert (Et : match t with Some x => ev al x | None => True end).
      { destruct t as [x|]; auto. destruct (proj1 H0 N3 S3 al) as [Cx _]. apply (Cx sc A d F); [lia|]. intros p Np. apply Hr. eapply dthen_in; [exact KNF|]. right. exact Np. }
      intros l1 l2 h1 h2 G L. cbn [eval]. eapply orel_bind; [apply En; auto|]. intros v1 v2 g1 g2 E1 E2 V.
      eapply orel_bind with (R := alike).
      { destruct t; [apply Et; eauto using good_hext, lalike_hext|]. apply orel_lift.
        pose proof (len_alike _ _ _ _ V) as Ln. destruct (op_len g1 v1), (op_len g2 v2); cbn in *; try contradiction; auto.
        apply sub_alike; auto. apply view_alike; constructor. }
      intros w1 w2 k1 k2 K1 K2 T. eapply orel_bind with (R := alike).
      { destruct f; [|apply orel_ret; apply view_alike; constructor].
        apply Ef; [eapply good_hext; [| |exact G]|eapply lalike_hext; [| |exact L]]; eauto using hext_trans. }
      intros f1 f2 q1 q2 Q1 Q2 Fv. apply orel_hlift; [apply hext_slice|apply hext_slice|].
      apply slice_alike; eauto using alike_hext, hext_trans.
    - (* interval *)
      intros Hn Hs al. split; [|intros sc A d r s1 c F Hd E; discriminate]. intros sc A d F Hd Hr.
      cbn [no_assign sane] in Hn, Hs. rewrite !andb_true_iff in Hn, Hs. destruct Hn as [N1 N2], Hs as [S1 S2].
      destruct (proj1 IHn1 N1 S1 al) as [Ca _], (proj1 IHn2 N2 S2 al) as [Cb _]. destruct (keeps_scope n1 N1 S1) as [Kn _]. cbn [resolve] in Hr. cbn [nesting] in Hd.
      assert (Ea : ev al n1). { apply (Ca sc A d F); [lia|]. intros p Np. apply Hr. eapply dthen_in; eauto. }
      assert (Eb : ev al n2). { apply (Cb sc A d F); [lia|]. intros p Np. apply Hr. eapply dthen_in; eauto. }
      intros l1 l2 h1 h2 G L. cbn [eval]. eapply orel_bind; [apply Ea; auto|]. intros v1 v2 g1 g2 E1 E2 V.
      eapply orel_bind; [apply Eb; eauto using good_hext, lalike_hext|]. intros w1 w2 k1 k2 K1 K2 W.
      apply orel_lift. apply interval_alike; eauto using alike_hext.
    - (* conditional *)
      intros Hn Hs al. split; [|intros sc A d r s1 c F Hd E; discriminate]. intros sc A d F Hd Hr.
      cbn [no_assign sane] in Hn, Hs. rewrite !andb_true_iff in Hn, Hs. destruct Hn as [[N1 N2] N3], Hs as [[S1 S2] S3].
      destruct (proj1 IHn1 N1 S1 al) as [Ca _], (proj1 IHn2 N2 S2 al) as [Cb _], (proj1 IHn3 N3 S3 al) as [Cc _].
      destruct (keeps_scope n1 N1 S1) as [Kn _], (keeps_scope n2 N2 S2) as [Kn2 _]. cbn [resolve] in Hr. cbn [nesting] in Hd.
      assert (K12 : snd (dthen (resolve n1 sc) (resolve n2)) = sc) by (apply dthen_scope; auto).
      assert (Ea : ev al n1). { apply (Ca sc A d F); [lia|]. intros p Np. apply Hr. eapply dthen_in; [exact K12|]. left. eapply dthen_in; eauto. }
      assert (Eb : ev al n2). { apply (Cb sc A d F); [lia|]. intros p Np. apply Hr. eapply dthen_in; [exact K12|]. left. eapply dthen_in; eauto. }
      assert (Ec : ev al n3). { apply (Cc sc A d F); [lia|]. intros p Np. apply Hr. eapply dthen_in; [exact K12|]. right. exact Np. }
      intros l1 l2 h1 h2 G L. cbn [eval]. eapply orel_bind; [apply Ea; auto|]. intros v1 v2 g1 g2 E1 E2 V.
      apply alike_view in V. destruct V; try apply orel_err.
      destruct b; [apply Eb|apply Ec]; eauto using good_hext, lalike_hext.
    - (* unary *)
      intros Hn Hs al. split; [|intros sc A d r s1 c F Hd E; discriminate]. intros sc A d F Hd Hr.
      destruct (proj1 IHn Hn Hs al) as [C _]. pose proof (C sc A d F Hd Hr) as Ea.
      intros l1 l2 h1 h2 G L. cbn [eval]. eapply orel_bind; [apply Ea; auto|]. intros v1 v2 g1 g2 E1 E2 V.
      destruct op as [a|l|c| | | | | | |]; [destruct a|destruct l|..]; try apply orel_err;
        [now apply orel_ret|apply orel_lift; now apply negate_alike|apply orel_lift; now apply not_alike].
    - (* binary *)
      intros Hn Hs al. split; [|intros sc A d r s1 c F Hd E; discriminate]. intros sc A d F Hd Hr.
      cbn [no_assign sane] in Hn, Hs. rewrite !andb_true_iff in Hn, Hs. destruct Hn as [N1 N2], Hs as [S1 S2].
      destruct (proj1 IHn1 N1 S1 al) as [Ca _], (proj1 IHn2 N2 S2 al) as [Cb _]. destruct (keeps_scope n1 N1 S1) as [Kn _]. cbn [resolve] in Hr. cbn [nesting] in Hd.
      assert (Ea : ev al n1). { apply (Ca sc A d F); [lia|]. intros p Np. apply Hr. eapply dthen_in; eauto. }
      assert (Eb : ev al n2). { apply (Cb sc A d F); [lia|]. intros p Np. apply Hr. eapply dthen_in; eauto. }
      intros l1 l2 h1 h2 G L. cbn [eval]. eapply orel_bind; [apply Ea; auto|]. intros v1 v2 g1 g2 E1 E2 V.
      assert (Rt : orel alike g1 g2 env1 env2 (eval X env1 al l1 n2 env1 g1) (eval X env2 al l2 n2 env2 g2))
        by (apply Eb; eauto using good_hext, lalike_hext).
      assert (Both : forall o, orel alike g1 g2 env1 env2
        (obind (eval X env1 al l1 n2 env1 g1) (fun rv env h => lift env h (bin_value X o h v1 rv)))
        (obind (eval X env2 al l2 n2 env2 g2) (fun rv env h => lift env h (bin_value X o h v2 rv)))).
      { intros o. eapply orel_bind; [exact Rt|]. intros w1 w2 k1 k2 K1 K2 W. apply orel_lift. apply bin_alike; eauto using alike_hext. }
      destruct op as [ao|lo|co| | | | | | |]; try (apply Both; fail).
      destruct lo; try apply Both.
      + pose proof V as V0. apply alike_view in V. destruct V; try apply orel_err. destruct b; [exact Rt|now apply orel_ret].
      + pose proof V as V0. apply alike_view in V. destruct V; try apply orel_err. destruct b; [now apply orel_ret|exact Rt].
      + pose proof V as V0. apply alike_view in V. destruct V; try (now apply orel_ret). exact Rt.
    - (* call *)
      assert (HS : Forall sound l) by (eapply Forall_impl; [|exact H]; intros ? Hx; apply Hx).
      assert (Plain : forall al, Forall (ev al) l -> forall l1 l2 h1 h2, good h1 h2 -> Forall2 (lalike h1 h2) l1 l2 ->
        orel alike h1 h2 env1 env2 (obind (eval_seq (eval X env1 al l1) l env1 h1) (fun vs env h => hlift env (op_call X k vs h)))
          (obind (eval_seq (eval X env2 al l2) l env2 h2) (fun vs env h => hlift env (op_call X k vs h)))).
      { intros al EV l1 l2 h1 h2 G L. eapply orel_bind with (R := fun g1 g2 => Forall2 (alike g1 g2)); [now apply ev_seq|].
        intros vs1 vs2 g1 g2 E1 E2 V. apply orel_hlift; [now apply hext_call|now apply hext_call|]. now apply call_alike. }
      destruct k as [f|f|c].
      + intros Hn Hs al. split; [|intros sc A d r s1 c F Hd E; discriminate]. intros sc A d F Hd Hr.
        assert (EV : Forall (ev al) l) by (eapply (list_covered al l sc A d); eauto). intros l1 l2 h1 h2 G L. now apply Plain.
      + intros Hn Hs al. split; [|intros sc A d r s1 c F Hd E; discriminate]. intros sc A d F Hd Hr.
        assert (EV : Forall (ev al) l) by (eapply (list_covered al l sc A d); eauto). intros l1 l2 h1 h2 G L. now apply Plain.
      + clear Plain. destruct l as [|a0 [|a1 r]];
          try (intros Hn Hs al; split; [|intros sc A d r s1 cc F Hd E; discriminate]; intros sc A d F Hd Hr l1 l2 h1 h2 G L; cbn [eval]; apply orel_err).
        destruct a1; try (intros Hn Hs; cbn in Hs; rewrite andb_false_r in Hs; discriminate).
        inversion H as [|? ? Ha0 H']; subst. inversion H' as [|? ? Ha1 H'']; subst. apply closure_sound; [apply Ha0|apply Ha1].
    - (* method *)
      intros Hn Hs al. split; [|intros sc A d r s1 c F Hd E; discriminate]. intros sc A d F Hd Hr.
      cbn [no_assign sane] in Hn, Hs. rewrite !andb_true_iff in Hn, Hs. destruct Hn as [N1 N2], Hs as [S1 S2].
      destruct (proj1 IHn N1 S1 al) as [Cn _]. destruct (keeps_scope n N1 S1) as [Kn _]. cbn [resolve] in Hr. cbn [nesting] in Hd.
      assert (En : ev al n). { apply (Cn sc A d F); [lia|]. intros p Np. apply Hr. eapply dthen_in; eauto. }
      assert (EV : Forall (ev al) l).
      { eapply (list_covered al l sc A d); eauto; [eapply Forall_impl; [|exact H]; intros ? Hx; apply Hx|lia|]. intros p Np. apply Hr. eapply dthen_in; eauto. }
      intros l1 l2 h1 h2 G L. cbn [eval]. eapply orel_bind; [apply En; auto|]. intros v1 v2 g1 g2 E1 E2 V.
      eapply orel_bind with (R := fun g1 g2 => Forall2 (alike g1 g2)).
      + apply ev_seq; eauto using good_hext, lalike_hext.
      + intros vs1 vs2 k1 k2 K1 K2 W. apply orel_hlift; [now apply hext_method|now apply hext_method|]. apply method_alike; auto.
        constructor; auto. eauto using alike_hext.
    - (* error *) intros Hn Hs. discriminate.
  Qed.
End Sound.
