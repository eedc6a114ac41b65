(** Values have the inferred types: induction over expressions, for C69. *)
From Coq Require Import String ZArith Bool List Arith Lia.
From Verif Require Import Base Dec Value Heap Ast Ops Eval Funcs DateMethods Json PureFacts VarType TypeSpec TypeFacts TypeMembers Infer InferSpec InferFits InferOps.
From Verif Require RepFacts ContentFacts MemoFacts.
Import ListNotations.
Local Open Scope string_scope.
Local Open Scope list_scope.
Local Open Scope nat_scope.
Local Open Scope list_scope.
Local Set Warnings "-unused-intro-pattern".

Lemma here : forall X sc n, all_covered X sc n -> covered X sc n.
Proof. intros X sc n H. apply H. constructor. Qed.
Lemma inside : forall X sc n sc1 n1, all_covered X sc n -> In (sc1, n1) (parts sc n) -> all_covered X sc1 n1.
Proof. intros X sc n sc1 n1 H I1 sc2 n2 W. apply H. econstructor; eauto. Qed.
Lemma known_inside : forall sc n sc1 n1, all_known sc n -> In (sc1, n1) (parts sc n) -> all_known sc1 n1.
Proof. intros sc n sc1 n1 H I1 sc2 n2 W. apply H. econstructor; eauto. Qed.
Lemma known_here : forall sc n, all_known sc n -> type_of sc n <> KAny.
Proof. intros sc n H. apply H. constructor. Qed.

(** What is asked of an expression: known types, and sure calls unless functions may fail ([P]). *)
Definition fine (P : Prop) (sc : iscope) (n : node) : Prop := all_known sc n /\ (P \/ sure_calls sc n).
Lemma fine_inside : forall P sc n sc1 n1, fine P sc n -> In (sc1, n1) (parts sc n) -> fine P sc1 n1.
Proof. intros P sc n sc1 n1 [H S1] I1. split; [eapply known_inside; eauto|]. destruct S1 as [S1|S1]; [now left|right]. intros sc2 n2 W. apply S1. econstructor; eauto. Qed.
Lemma fine_here : forall P sc n, fine P sc n -> type_of sc n <> KAny.
Proof. intros P sc n [H _]. now apply known_here. Qed.

Lemma left_ok : forall X P s, In s left_over -> excusable X P (EOp s).
Proof. intros X P s H. right. eauto. Qed.
Lemma fetch_key : forall h v k, op_fetch h v (VStr k) = Ok (get_key h v k).
Proof. intros h v k. destruct v; reflexivity. Qed.
Lemma fetch_index : forall h v d i, dec_to_u32 d = Some i -> op_fetch h v (VNum d) = Ok (get_index h v i).
Proof.
  intros h v d i E. assert (U : dec_to_usize d = Some i) by (unfold dec_to_u32 in E; destruct (dec_to_usize d); [|discriminate E]; destruct (_ <? _)%Z; congruence).
  destruct v; cbn [op_fetch get_index]; try reflexivity; rewrite U; reflexivity.
Qed.
Lemma fetch_err : forall h a b e X P, op_fetch h a b = Err e -> excusable X P e.
Proof. intros h a b e X P E. assert (e = EOp "Fetch") as ->; [|apply left_ok; now left]. destruct a, b; try discriminate E; cbn [op_fetch] in E; destruct (dec_to_usize _); try discriminate E; injection E as <-; reflexivity. Qed.
Ltac excuse := apply left_ok; cbn [left_over In]; tauto.

(** The error of an operator, when the types of its operands are known. *)
Lemma binary_err : forall X P op h a b av bv e, hfits h a av -> hfits h b bv -> a <> KAny -> b <> KAny -> clean (snd (check_binary true op a b)) -> bin_value X op h av bv = Err e ->
  match op with OpLogic _ => False | _ => True end -> op <> OpArith AAdd -> (exists o, op = OpArith o) \/ (exists o, op = OpCmp o) -> excusable X P e.
Proof.
  intros X P op h a b av bv e Ha Hb Na Nb Cl E Ok1 Nadd [[o ->]|[o ->]]; cbn [check_binary] in Cl.
  - destruct o; try contradiction; destruct a; try contradiction; try (exfalso; eapply clean_one; exact Cl); destruct b; try contradiction; try (exfalso; eapply clean_one; exact Cl);
      cbn [hfits] in Ha, Hb; destruct Ha as [x ->], Hb as [y ->]; cbn [bin_value op_sub op_mul op_div op_mod op_pow] in E; try discriminate E.
    + destruct (x_sub X x y) eqn:Q; [discriminate E|]. injection E as <-. right. eexists. split; [reflexivity|]. right. left. exists x, y. auto.
    + destruct (x_mul X x y) eqn:Q; [discriminate E|]. injection E as <-. right. eexists. split; [reflexivity|]. right. left. exists x, y. auto.
    + destruct (x_pow X x y) eqn:Q; [discriminate E|]. injection E as <-. right. eexists. split; [reflexivity|]. right. left. exists x, y. auto 6.
  - assert (Cmp : forall c, clean (snd match a, b with
        | KDate, KDate | KDate, KAny | KAny, KDate | KAny, KAny => plain KBool
        | KNumber, KNumber | KNumber, KAny | KAny, KNumber => plain KBool
        | _, _ => wrong "operator"
        end) -> op_compare c av bv = Err e -> excusable X P e).
    { intros c Cl1 E1. destruct a; try contradiction; try (exfalso; eapply clean_one; exact Cl1); destruct b; try contradiction; try (exfalso; eapply clean_one; exact Cl1);
        cbn [hfits] in Ha, Hb; destruct Ha as [x ->], Hb as [y ->]; discriminate E1. }
    assert (In1 : forall r, op_in h av bv = Err r -> excusable X P r).
    { intros r E1. assert (r = EOp "In") as ->; [|excuse]. unfold op_in in E1. destruct av, bv; try discriminate E1; try congruence;
        repeat match type of E1 with context [match ?x with DDate _ => _ | DInterval _ => _ end] => destruct x; try discriminate E1; try congruence end.
        all: match type of E1 with context [interval_includes ?i ?x] => destruct (interval_includes i x) end; [discriminate E1|]; injection E1 as <-; reflexivity. }
    destruct o; cbn [bin_value] in E; eauto.
    + discriminate E.
    + discriminate E.
    + destruct (op_in h av bv) as [r|r] eqn:Q; [|injection E as <-; eauto]. destruct (in_bool _ _ _ _ Q) as [t ->]. discriminate E.
Qed.
Lemma add_err : forall X P h a b av bv e, hfits h a av -> hfits h b bv -> a <> KAny -> b <> KAny -> clean (snd (check_binary true (OpArith AAdd) a b)) -> op_add X av bv = Err e -> excusable X P e.
Proof.
  intros X P h a b av bv e Ha Hb Na Nb Cl E. cbn [check_binary] in Cl.
  assert (A : (exists x y, av = VNum x /\ bv = VNum y) \/ exists x y, av = VStr x /\ bv = VStr y).
  { destruct a; cbn [widen] in Cl; try contradiction; try (exfalso; eapply clean_one; exact Cl); destruct b; cbn [widen] in Cl; try contradiction; try (exfalso; eapply clean_one; exact Cl); cbn [hfits] in Ha, Hb;
    repeat match goal with H : exists _, _ |- _ => destruct H | H : _ /\ _ |- _ => destruct H end; eauto. }
  destruct A as [[x [y [-> ->]]]|[x [y [-> ->]]]]; cbn [op_add] in E; [|discriminate E]. destruct (x_add X x y) eqn:Q; [discriminate E|]. injection E as <-.
  right. eexists. split; [reflexivity|]. right. left. exists x, y. auto.
Qed.
Lemma no_array : forall h t l, iterator t = None -> hfits h t (VArr l) -> forall h1 x, hfits h1 t x.
Proof.
  intros h. induction t as [| | | | | | |t IH|m IH|s|n l|t IH] using vtype_ind'; intros l0 E H h1 x; cbn [iterator] in E; try discriminate E; cbn [hfits] in H; try exact I;
    repeat match goal with H : exists _, _ |- _ => destruct H | H : _ /\ _ |- _ => destruct H end; try discriminate.
  destruct H as [H|H]; [discriminate H|]. right. eauto.
Qed.
Lemma harr_hext : forall h h1 l a, hext h h1 -> harr h l = Some a -> harr h1 l = Some a.
Proof. intros h h1 l a E G. unfold harr in *. destruct (hget h l) eqn:Q; [|discriminate G]. now rewrite (hext_get _ _ _ _ E Q). Qed.

Section Sound.
  Variables (C : clockwork) (L : lib) (l0 : nat) (RT : vtype) (F P : Prop).
  Let X : ext := std_ext (with_dates C L).
  Let env : scope := scope_new (VObj l0).

  Definition good {A} (R : heap -> A -> Prop) (h : heap) (o : outc A) : Prop :=
    match o with ORet v e h1 => e = env /\ hext h h1 /\ R h1 v | OErr e _ => F -> excusable X P e end.
  Lemma good_bind : forall {A B} (R : heap -> A -> Prop) (S : heap -> B -> Prop) h o k,
    good R h o -> (forall v h1, hext h h1 -> R h1 v -> good S h1 (k v env h1)) -> good S h (obind o k).
  Proof.
    intros A B R S h [v e h1|e h1] k G K; cbn [obind]; [|exact G]. destruct G as [-> [E G]]. specialize (K v h1 E G). destruct (k v env h1) as [w e2 h2|e2 h2]; [|exact K].
    destruct K as [K1 [K2 K3]]. split; [exact K1|]. split; [eapply hext_trans; eauto|exact K3].
  Qed.
  Lemma good_ret : forall {A} (R : heap -> A -> Prop) h v, R h v -> good R h (ORet v env h).
  Proof. intros A R h v H. split; [reflexivity|]. split; [apply hext_refl|exact H]. Qed.
  Lemma good_seq : forall {A B} (R : A -> heap -> B -> Prop) f l h, (forall x h1 h2 v, hext h1 h2 -> R x h1 v -> R x h2 v) ->
    (forall x, In x l -> forall h1, hext h h1 -> good (R x) h1 (f x env h1)) -> good (fun h vs => Forall2 (fun x v => R x h v) l vs) h (eval_seq f l env h).
  Proof.
    intros A B R f l h M. revert h. induction l as [|x r IH]; intros h H; cbn [eval_seq]; [apply good_ret; constructor|].
    eapply good_bind; [apply H; [now left|apply hext_refl]|]. intros v h1 E1 R1. eapply good_bind.
    - apply IH. intros y Y h2 E2. apply H; [now right|eapply hext_trans; eauto].
    - intros vs h2 E2 R2. apply good_ret. constructor; [eapply M; eauto|exact R2].
  Qed.
  Lemma good_lift : forall {A} (R : heap -> A -> Prop) h r, (forall v, r = Ok v -> R h v) -> (forall e, F -> r = Err e -> excusable X P e) -> good R h (lift env h r).
  Proof. intros A R h [v|e] H1 H2; cbn [lift]; [apply good_ret; auto|]. intros f. auto. Qed.
  Lemma good_hlift : forall {A} (R : heap -> A -> Prop) h r, (forall v, snd r = Ok v -> hext h (fst r) /\ R (fst r) v) -> (forall e, F -> snd r = Err e -> excusable X P e) -> good R h (hlift env r).
  Proof. intros A R h [h1 [v|e]] H1 H2; unfold hlift; cbn [fst snd] in *; [split; [reflexivity|auto]|]. intros f. auto. Qed.

  Definition points (h : heap) (loops : list loop) (d : nat) (t : vtype) : Prop :=
    exists lp l a x, nth_error loops d = Some lp /\ lp_array lp = VArr l /\ harr h l = Some a /\ nth_error a (lp_iter lp) = Some x /\ hfits h t x.
  Record ctx (h : heap) (sc : iscope) (al : list (option string)) (loops : list loop) : Prop := Ctx {
    c_obj : exists m, RT = KObject m;
    c_root : is_root sc = RT;
    c_base : hfits h RT (VObj l0);
    c_wf : wscope sc;
    c_alias : forall name, match bound_at al name with Some d => exists t, aget name (is_alias sc) = Some t /\ points h loops d t | None => aget name (is_alias sc) = None end;
    c_ptr : loops = [] \/ points h loops 0 (is_ptr sc) }.
  Lemma points_mono : forall h h1 loops d t, hext h h1 -> points h loops d t -> points h1 loops d t.
  Proof.
    intros h h1 loops d t E [lp [l [a [x [H1 [H2 [H3 [H4 H5]]]]]]]]. exists lp, l, a, x. repeat split; auto; [|eapply hfits_mono; eauto]. eapply harr_hext; eauto.
  Qed.
  Lemma ctx_mono : forall h h1 sc al loops, hext h h1 -> ctx h sc al loops -> ctx h1 sc al loops.
  Proof.
    intros h h1 sc al loops E [Ob A B W D P1]. split; auto.
    - eapply hfits_mono; eauto.
    - intros name. specialize (D name). destruct (bound_at al name); [|exact D]. destruct D as [t [T P2]]. exists t. split; [exact T|eapply points_mono; eauto].
    - destruct P1; [now left|right; eapply points_mono; eauto].
  Qed.
  Lemma point_good : forall h loops d t, points h loops d t -> good (fun h v => hfits h t v) h (lift env h (op_pointer h loops d)).
  Proof. intros h loops d t [lp [l [a [x [H1 [H2 [H3 [H4 H5]]]]]]]]. unfold op_pointer. rewrite H1, H2, H3, H4. now apply good_ret. Qed.
  Lemma enter : forall h sc al loops lp p name l a x, ctx h sc al loops -> wft p -> lp_array lp = VArr l -> harr h l = Some a -> nth_error a (lp_iter lp) = Some x -> hfits h p x ->
    ctx h (IScope (is_root sc) p match name with Some n => aset n p (is_alias sc) | None => is_alias sc end) (name :: al) (lp :: loops).
  Proof.
    intros h sc al loops lp p name l a x [Ob A B [W1 W2 W3] D P1] Wp H1 H2 H3 H4.
    assert (Here : points h (lp :: loops) 0 p) by (exists lp, l, a, x; cbn; auto).
    assert (Up : forall d t, points h loops d t -> points h (lp :: loops) (S d) t) by (intros d t P2; exact P2).
    split; cbn [is_root is_ptr is_alias]; auto.
    - split; cbn [is_root is_ptr is_alias]; auto. intros k t. destruct name as [n|]; [|apply W3]. destruct (string_dec n k) as [<-|Ne]; [rewrite aget_aset_eq; intros Q; now injection Q as <-|rewrite aget_aset_ne by exact Ne; apply W3].
    - intros k. specialize (D k). destruct name as [n|]; cbn [bound_at].
      + destruct (String.eqb_spec n k) as [<-|Ne]; [exists p; rewrite aget_aset_eq; auto|]. rewrite aget_aset_ne by exact Ne. destruct (bound_at al k); cbn [option_map]; [|exact D]. destruct D as [t [T P2]]. exists t. auto.
      + destruct (bound_at al k); cbn [option_map]; [|exact D]. destruct D as [t [T P2]]. exists t. auto.
  Qed.

  Definition simple (v : value) : Prop := match v with VArr _ | VObj _ | VDyn _ => False | _ => True end.
  Lemma to_str_good : forall h v, (F -> P \/ simple v) -> good (fun _ w => exists s, w = VStr s /\ forall k, v = VStr k -> s = k) h (hlift env (to_str X v h)).
  Proof.
    intros h v Sv. apply good_hlift; unfold to_str, op_call; cbn.
    - intros w. destruct v; cbn; intros Q; try discriminate Q; injection Q as <-; (split; [apply hext_refl|]); eexists; (split; [reflexivity|]); intros k K; congruence.
    - intros e z Q. destruct (Sv z) as [p|p]; [|destruct v; cbn in Q; try discriminate Q; destruct p]. right. exists "CallFunction". split; [|auto]. destruct v; cbn in Q; try discriminate Q; injection Q as <-; reflexivity.
  Qed.

  (** ** Loops *)
  Definition lgood (accT : vtype) (c : closure) (h : heap) (o : lout) : Prop :=
    match o with
    | LDone _ acc e h1 => e = env /\ hext h h1 /\ Forall (hfits h1 accT) acc
    | LBreak v e h1 => e = env /\ hext h h1 /\ (exists b, v = VBool b) /\ match c with ClAll | ClNone | ClSome => True | _ => False end
    | LErr e _ => F -> excusable X P e
    end.
  Lemma loop_good : forall c body B p accT h0 l arr,
    (forall lp h, hext h0 h -> lp_array lp = VArr l -> lp_iter lp < length arr -> good (fun h v => hfits h B v) h (body lp env h)) ->
    harr h0 l = Some arr -> Forall (hfits h0 p) arr ->
    match c with ClMap | ClFlatMap => accT = B | ClFilter => accT = p /\ (F -> B = KBool) | _ => F -> B = KBool end ->
    forall n lp acc h, hext h0 h -> lp_array lp = VArr l -> lp_iter lp + n = length arr -> Forall (hfits h accT) acc -> lgood accT c h (iterate c body n lp acc env h).
  Proof.
    intros c body B p accT h0 l arr Body Arr El Kind. induction n as [|n IH]; intros lp acc h E1 E2 E3 Ac; cbn [iterate]; [split; [reflexivity|]; split; [apply hext_refl|exact Ac]|].
    assert (Step : lgood accT c h (advance c body lp acc env h) /\ match advance c body lp acc env h with LDone lp1 _ _ _ => lp_array lp1 = VArr l /\ lp_iter lp1 = lp_iter lp | _ => True end).
    { unfold advance. specialize (Body lp h E1 E2 ltac:(lia)). destruct (body lp env h) as [v e1 h1|e1 h1]; [|split; [exact Body|exact I]]. destruct Body as [-> [H1 Hv]].
      assert (Ac1 : Forall (hfits h1 accT) acc) by (eapply Forall_impl; [|exact Ac]; intros x Hx; eapply hfits_mono; eauto).
      assert (Bad1 : F -> B = KBool -> exists b, v = VBool b) by (intros _ ->; exact Hv).
      assert (Bo : forall f : F, match c with ClMap | ClFlatMap => True | _ => exists b, v = VBool b end) by (intros f; destruct c; auto; apply Bad1; auto; now apply Kind).
      assert (Fin : forall lp1, lgood accT c h (LDone lp1 acc env h1)) by (intros lp1; split; [reflexivity|]; split; [exact H1|exact Ac1]).
      assert (Brk : forall b, match c with ClAll | ClNone | ClSome => True | _ => False end -> lgood accT c h (LBreak (VBool b) env h1)) by (intros b Q; split; [reflexivity|]; split; [exact H1|]; eauto).
      assert (Err1 : forall s, ~ (exists b, v = VBool b) -> match c with ClMap | ClFlatMap => False | _ => True end -> lgood accT c h (LErr (EOp s) h1)).
      { intros s N Q f. exfalso. specialize (Bo f). destruct c; try contradiction; tauto. }
      assert (Nb : match v with VBool _ => True | _ => ~ exists b, v = VBool b end) by (destruct v; auto; intros [b Q]; discriminate Q).
      destruct c; cbn [judge counts andb].
      1,2,3,4,8: destruct v as [|[|]| | | | |]; cbn [counts andb]; (split; [first [apply Fin | apply Brk; exact I | apply Err1; [exact Nb|exact I]]|cbn; auto]).
      - destruct v as [|[|]| | | | |]; cbn [counts andb]; try (split; [first [apply Fin | apply Err1; [exact Nb|exact I]]|cbn; auto]; fail).
        unfold op_pointer. cbn [nth_error bump_count lp_array lp_iter]. rewrite E2, (harr_hext _ _ _ _ (hext_trans _ _ _ E1 H1) Arr).
        destruct (nth_error arr (lp_iter lp)) as [x|] eqn:Q; [|exfalso; apply nth_error_None in Q; lia]. cbn [of_option]. split; [|cbn; auto]. split; [reflexivity|]. split; [exact H1|].
        apply Forall_app. split; [exact Ac1|]. constructor; [|constructor]. destruct Kind as [-> _]. apply nth_error_In in Q. rewrite Forall_forall in El. eapply hfits_mono; [|apply El, Q]. eapply hext_trans; eauto.
      - subst accT. split; [|cbn; auto]. split; [reflexivity|]. split; [exact H1|]. apply Forall_app. auto.
      - subst accT. split; [|cbn; auto]. split; [reflexivity|]. split; [exact H1|]. apply Forall_app. auto. }
    destruct Step as [G Q]. destruct (advance c body lp acc env h) as [lp1 acc1 e1 h1|v e1 h1|e1 h1]; [|exact G|exact G]. destruct G as [-> [H1 Ac1]]. destruct Q as [Q1 Q2].
    specialize (IH (bump_it lp1) acc1 h1 (hext_trans _ _ _ E1 H1) Q1 ltac:(cbn; lia) Ac1).
    destruct (iterate c body n (bump_it lp1) acc1 env h1) as [lp2 acc2 e2 h2|v e2 h2|e2 h2]; [| |exact IH].
    - destruct IH as [I1 [I2 I3]]. split; [exact I1|]. split; [eapply hext_trans; eauto|exact I3].
    - destruct IH as [I1 [I2 I3]]. split; [exact I1|]. split; [eapply hext_trans; eauto|exact I3].
  Qed.
  Lemma begin_good : forall h a v, hfits h a v -> nullable a = false ->
    match op_begin h v with
    | (h1, Ok lp) => hext h h1 /\ exists l arr, lp = Loop (VArr l) (length arr) 0 0 /\ harr h1 l = Some arr /\ Forall (hfits h1 match iterator a with Some i => i | None => KAny end) arr
    | (h1, Err e) => excusable X P e
    end.
  Proof.
    intros h a v H N. assert (Q : excusable X P (EOp "Begin")) by excuse. destruct v as [| | | |l| |d]; cbn [op_begin]; try exact Q.
    - destruct (harr h l) as [arr|] eqn:G; [|exact Q]. split; [apply hext_refl|]. exists l, arr. split; [reflexivity|]. split; [exact G|]. apply Forall_forall. intros x I1.
      destruct (iterator a) as [i|] eqn:E; [eapply iterator_hfits; eauto|exact I].
    - destruct d as [d|i]; [exact Q|]. destruct (interval_to_array i) as [arr|] eqn:E; [|exact Q]. destruct (new_arr h arr) as [h1 av] eqn:Na.
      unfold new_arr, halloc in Na. injection Na as <- <-. split; [apply hext_alloc|]. exists (length h), arr. split; [reflexivity|].
      split; [unfold harr, hget; rewrite nth_error_app2 by lia; rewrite Nat.sub_diag; reflexivity|].
      assert (Nu : forall x, In x arr -> exists d, x = VNum d).
      { intros x I1. unfold interval_to_array in E. destruct (iv_left i); [|discriminate E]. destruct (iv_right i); [|discriminate E].
        match type of E with match ?p with _ => _ end = _ => destruct p; [|discriminate E] end. match type of E with match ?p with _ => _ end = _ => destruct p; [|discriminate E] end.
        injection E as <-. apply in_map_iff in I1. destruct I1 as [? [<- _]]. eauto. }
      apply Forall_forall. intros x I1. destruct (Nu x I1) as [d ->]. destruct a; cbn [iterator]; try exact I; cbn [hfits] in H |- *; eauto; try discriminate N.
      destruct H as [? [? [H _]]]. discriminate H.
  Qed.

  (** ** Expressions *)
  Definition sound (n : node) : Prop := forall sc al loops h, ctx h sc al loops -> faultless sc n -> all_covered X sc n -> (F -> fine P sc n) ->
    good (fun h v => hfits h (type_of sc n) v) h (eval X env al loops n env h) /\
    (forall h1 v, eval_static env al n env h = Some (h1, v) -> h1 = h /\ hfits h (type_of sc n) v).
  Lemma clean_split : forall sc n, faultless sc n <-> clean (snd (determine true sc n)).
  Proof. intros. reflexivity. Qed.
  Lemma wt : forall h sc al loops n, ctx h sc al loops -> wft (type_of sc n).
  Proof. intros h sc al loops n Cx. apply wft_determine. apply Cx. Qed.
  (** The hypotheses carry over to a part in the same scope. *)
  Lemma part_ok : forall n1 n sc al loops h, sound n1 -> ctx h sc al loops -> all_covered X sc n -> (F -> fine P sc n) -> In (sc, n1) (parts sc n) -> faultless sc n1 ->
    good (fun h v => hfits h (type_of sc n1) v) h (eval X env al loops n1 env h).
  Proof. intros n1 n sc al loops h So Cx Cv Kn I1 Fl. refine (proj1 (So sc al loops h Cx Fl (inside _ _ _ _ _ Cv I1) _)). intros f. eapply fine_inside; eauto. Qed.
  Lemma mono_fits : forall T h h1 v, hext h h1 -> hfits h T v -> hfits h1 T v.
  Proof. intros. eapply hfits_mono; eauto. Qed.

  Lemma seq_ok : forall l n sc al loops h, Forall sound l -> ctx h sc al loops -> all_covered X sc n -> (F -> fine P sc n) -> (forall x, In x l -> In (sc, x) (parts sc n)) -> (forall x, In x l -> faultless sc x) ->
    good (fun h vs => Forall2 (hfits h) (map (type_of sc) l) vs) h (eval_seq (eval X env al loops) l env h).
  Proof.
    intros l n sc al loops h So Cx Cv Kn I1 Fl. rewrite Forall_forall in So.
    assert (G : good (fun h vs => Forall2 (fun x v => hfits h (type_of sc x) v) l vs) h (eval_seq (eval X env al loops) l env h)).
    { apply (good_seq (fun x h v => hfits h (type_of sc x) v)); [intros; eapply hfits_mono; eauto|]. intros x Ix h1 E. eapply part_ok; eauto. eapply ctx_mono; eauto. }
    destruct (eval_seq _ _ _ _) as [vs e h1|e h1]; [|exact G]. destruct G as [-> [E G]]. split; [reflexivity|]. split; [exact E|]. clear -G. induction G; constructor; auto.
  Qed.
  Lemma flat_clean : forall sc l x, clean (complaints (map (determine true sc) l)) -> In x l -> faultless sc x.
  Proof. intros sc l x Cl I1. unfold complaints in Cl. apply (clean_flat _ _ (determine true sc x)) in Cl; [exact Cl|]. now apply in_map. Qed.

  Lemma join_strs : forall h l vs, harr h l = Some vs -> Forall (fun v => exists s, v = VStr s) vs -> exists s, op_join h (VArr l) (VStr "") = Ok (VStr s).
  Proof.
    intros h l vs G H. cbn [op_join]. rewrite G. assert (A : exists ss, all_strs vs = Some ss).
    { clear G. induction H as [|x r [s ->] H [ss IH]]; [exists []; reflexivity|]. exists (s :: ss). cbn. now rewrite IH. }
    destruct A as [ss ->]. cbn [of_option bind]. eauto.
  Qed.
  Lemma template_ok : forall l sc al loops h, Forall sound l -> ctx h sc al loops -> all_covered X sc (NTemplate l) -> (F -> fine P sc (NTemplate l)) -> faultless sc (NTemplate l) ->
    good (fun h v => hfits h KString v) h (eval X env al loops (NTemplate l) env h).
  Proof.
    intros l sc al loops h So Cx Cv Kn Fl. cbn [eval]. rewrite Forall_forall in So. eapply good_bind.
    - apply (good_seq (fun _ _ v => exists s, v = VStr s)); [auto|]. intros x Ix h1 E. eapply good_bind.
      + eapply (part_ok x (NTemplate l)); eauto; [eapply ctx_mono; eauto|cbn [parts]; now apply in_map|]. eapply flat_clean; [exact Fl|exact Ix].
      + intros v h2 E2 Hv. cbn beta in Hv. pose proof (to_str_good h2 v) as G. assert (Sv : F -> P \/ simple v).
        { intros z. destruct (Kn z) as [_ [p|Su]]; [now left|right]. specialize (Su sc _ (Whole sc (NTemplate l)) x Ix). unfold scalar_type in Su. apply hfits_base in Hv.
          destruct Hv as [Hv|[_ ->]]; [|exact I]. destruct (base (type_of sc x)); try contradiction; cbn [hfits] in Hv; repeat match goal with H : exists _, _ |- _ => destruct H | H : _ /\ _ |- _ => destruct H end; subst v; exact I. }
        specialize (G Sv). clear Sv. destruct (hlift env (to_str X v h2)) as [w e h3|e h3]; [|exact G]. destruct G as [-> [E3 [s [-> _]]]]. split; [reflexivity|]. eauto.
    - intros vs h1 E H. cbn beta. destruct (new_arr h1 vs) as [h2 v] eqn:Na. unfold new_arr, halloc in Na. injection Na as <- <-.
      destruct (join_strs (h1 ++ [CArr vs]) (length h1) vs) as [s Q].
      + unfold harr, hget. rewrite nth_error_app2 by lia. rewrite Nat.sub_diag. reflexivity.
      + clear -H. induction H; constructor; auto.
      + rewrite Q. cbn [lift]. split; [reflexivity|]. split; [apply hext_alloc|]. cbn. eauto.
  Qed.
  Lemma array_ok : forall l sc al loops h, Forall sound l -> ctx h sc al loops -> all_covered X sc (NArray l) -> (F -> fine P sc (NArray l)) -> faultless sc (NArray l) ->
    good (fun h v => hfits h (type_of sc (NArray l)) v) h (eval X env al loops (NArray l) env h).
  Proof.
    intros l sc al loops h So Cx Cv Kn Fl. cbn [eval]. eapply good_bind.
    - eapply (seq_ok l (NArray l)); eauto; [intros x Ix; cbn [parts]; now apply in_map|]. intros x Ix. eapply flat_clean; [exact Fl|exact Ix].
    - intros vs h1 E H. cbn beta. destruct (new_arr h1 vs) as [h2 v] eqn:Na. unfold hlift. cbn [fst snd]. split; [reflexivity|].
      assert (Ag := here _ _ _ Cv). cbn [covered] in Ag. unfold type_of. cbn [determine fst]. rewrite map_map. change (fun x => fst (determine true sc x)) with (type_of sc).
      eapply new_arr_fits; [exact Na|]. intros x Ix. destruct l as [|y r]; cbn [map elements].
      + inversion H; subst. destruct Ix.
      + cbn [map agree_all] in *. apply merge_all; [eapply wt; eauto| |exact Ag|].
        * apply Forall_forall. intros t T. apply in_map_iff in T. destruct T as [z [<- _]]. eapply wt; eauto.
        * inversion H as [|? b ? q Hb Hq]; subst. destruct Ix as [<-|Ix]; [now left|]. right. clear -Hq Ix. induction Hq as [|t v ts vs Hv Hq IH]; [destruct Ix|].
          destruct Ix as [<-|Ix]; [exists t; split; [now left|exact Hv]|]. destruct (IH Ix) as [t1 [T1 T2]]. exists t1. split; [now right|exact T2].
  Qed.

  (** Objects whose keys are distinct constants. *)
  Lemma built : forall (kvs : list (value * value)) (ks : list string) (vs : list value), kvs = combine (map VStr ks) vs -> length vs = length ks -> NoDup ks ->
    exists m, build_object (rev kvs) [] = Ok m /\ forall k v, In (k, v) (combine ks vs) -> aget k m = Some v.
  Proof.
    assert (App : forall a b m, build_object (a ++ b) m = match build_object a m with Ok m1 => build_object b m1 | Err e => Err e end).
    { induction a as [|[k v] a IH]; intros b m; cbn [app build_object]; [reflexivity|]. destruct k; try reflexivity. apply IH. }
    induction kvs as [|[k1 v1] r IH]; intros ks vs E Le N.
    - destruct ks, vs; try discriminate Le; [|discriminate E]. exists []. split; [reflexivity|]. intros k v [].
    - destruct ks as [|k ks], vs as [|v vs]; try discriminate E. cbn [map combine] in E. injection E as -> -> E. injection Le as Le. inversion N; subst.
      destruct (IH ks vs eq_refl Le ltac:(assumption)) as [m [B1 B2]]. exists (aset k v m). cbn [rev]. rewrite App, B1. split; [reflexivity|]. intros k2 v2 [Q|Q].
      + injection Q as -> ->. apply aget_aset_eq.
      + rewrite aget_aset_ne; [auto|]. intros <-. apply in_combine_l in Q. contradiction.
  Qed.
  Lemma fields_get : forall (l : list (node * node)) sc ks acc, map (fun kv => type_of sc (fst kv)) l = map KConst ks -> NoDup ks -> forall k T,
    aget k (fold_left (fun m kv => match as_const (fst (fst kv)) with Some k => aset k (fst (snd kv)) m | None => m end) (map (fun kv => (determine true sc (fst kv), determine true sc (snd kv))) l) acc) = Some T ->
    In (k, T) (combine ks (map (fun kv => type_of sc (snd kv)) l)) \/ aget k acc = Some T.
  Proof.
    induction l as [|[a b] l IH]; intros sc ks acc E N k T G; [now right|]. destruct ks as [|k1 ks]; [discriminate E|]. cbn [map fst snd] in E. injection E as E1 E. cbn [map fold_left fst snd] in G.
    unfold type_of in E1. rewrite E1 in G. cbn [as_const] in G. inversion N; subst. specialize (IH _ _ _ E ltac:(assumption) k T G). cbn [map combine snd]. destruct IH as [IH|IH]; [left; now right|].
    destruct (string_dec k1 k) as [<-|Ne]; [rewrite aget_aset_eq in IH; injection IH as <-; left; now left|rewrite aget_aset_ne in IH by exact Ne; now right].
  Qed.
  Lemma object_ok : forall l sc al loops h, Forall (fun kv => sound (fst kv) /\ sound (snd kv)) l -> ctx h sc al loops -> all_covered X sc (NObject l) -> (F -> fine P sc (NObject l)) -> faultless sc (NObject l) ->
    good (fun h v => hfits h (type_of sc (NObject l)) v) h (eval X env al loops (NObject l) env h).
  Proof.
    intros l sc al loops h So Cx Cv Kn Fl. cbn [eval]. rewrite Forall_forall in So. assert (Cd := here _ _ _ Cv). cbn [covered] in Cd. destruct Cd as [ks [Ek Nk]].
    assert (Key : forall kv, In kv l -> exists k, type_of sc (fst kv) = KConst k).
    { intros kv I1. apply (in_map (fun kv => type_of sc (fst kv))) in I1. rewrite Ek in I1. apply in_map_iff in I1. destruct I1 as [k [E _]]. eauto. }
    assert (Fl1 : forall kv, In kv l -> faultless sc (fst kv) /\ faultless sc (snd kv)).
    { intros kv I1. apply clean_split in Fl. cbn [determine snd] in Fl. unfold field_complaints in Fl. apply (clean_flat _ _ (determine true sc (fst kv), determine true sc (snd kv))) in Fl.
      - cbn [fst snd] in Fl. apply clean_app in Fl. destruct Fl as [F1 F2]. split; [exact F1|]. destruct (Key _ I1) as [k E]. unfold type_of in E. rewrite E in F2. exact F2.
      - apply in_map_iff. exists kv. auto. }
    assert (Pa : forall kv, In kv l -> In (sc, fst kv) (parts sc (NObject l)) /\ In (sc, snd kv) (parts sc (NObject l))).
    { intros kv I1. cbn [parts]. split; apply in_flat_map; exists kv; cbn; auto. }
    eapply good_bind.
    - apply (good_seq (fun kv h (p : value * value) => hfits h (type_of sc (fst kv)) (fst p) /\ hfits h (type_of sc (snd kv)) (snd p))); [intros x h1 h2 v E [H1 H2]; split; eapply hfits_mono; eauto|].
      intros kv Ix h1 E. destruct (So _ Ix) as [S1 S2], (Fl1 _ Ix) as [F1 F2], (Pa _ Ix) as [P1 P2], (Key _ Ix) as [k Ke]. eapply good_bind.
      + eapply (part_ok (fst kv) (NObject l)); eauto. eapply ctx_mono; eauto.
      + intros v h2 E2 Hk. cbn beta. rewrite Ke in Hk. cbn in Hk. subst v. eapply good_bind; [apply to_str_good; intros _; right; exact I|]. intros w h3 E3 [s [-> Q]]. rewrite (Q k eq_refl). cbn beta. eapply good_bind.
        * eapply (part_ok (snd kv) (NObject l)); eauto. eapply ctx_mono; [|exact Cx]. eapply hext_trans; [exact E|]. eapply hext_trans; eauto.
        * intros v h4 E4 Hv. apply good_ret. cbn [fst snd]. rewrite Ke. split; [reflexivity|exact Hv].
    - intros kvs h1 E H. cbn beta.
      assert (Sp : kvs = combine (map VStr ks) (map snd kvs) /\ Forall2 (fun kv v => hfits h1 (type_of sc (snd kv)) v) l (map snd kvs)).
      { clear -Ek H. revert ks Ek. induction H as [|kv p l kvs [H1 H2] H IH]; intros ks Ek; [destruct ks; [|discriminate Ek]; split; [reflexivity|constructor]|]. destruct ks as [|k ks]; [discriminate Ek|]. cbn [map] in Ek. injection Ek as E1 E2.
        destruct (IH _ E2) as [I1 I2]. rewrite E1 in H1. cbn in H1. destruct p as [a b]. cbn [fst snd map] in *. subst a. split; [cbn; congruence|constructor; auto]. }
      destruct Sp as [S1 S2]. assert (Le : length (map snd kvs) = length ks).
      { assert (L2 : length l = length (map snd kvs)) by (clear -S2; induction S2; cbn; congruence). rewrite <- L2. apply (f_equal (@length _)) in Ek. rewrite !map_length in Ek. exact Ek. }
      destruct (built kvs ks (map snd kvs) S1 Le Nk) as [m [B1 B2]]. rewrite B1. destruct (new_obj h1 m) as [h2 v] eqn:No. unfold hlift. cbn [fst snd]. split; [reflexivity|].
      unfold type_of. cbn [determine fst]. eapply new_obj_fits; [|exact No|].
      + pose proof (wt h sc al loops (NObject l) Cx) as W. unfold type_of in W. cbn [determine fst] in W. apply wft_obj in W. apply W.
      + intros k T G. unfold fields in G. apply (fields_get l sc ks []) in G; [|exact Ek|exact Nk]. destruct G as [G|G]; [|discriminate G].
        assert (Z : exists w, In (k, w) (combine ks (map snd kvs)) /\ hfits h1 T w).
        { clear -S2 G. revert ks G. induction S2 as [|kv w l ws Hw S2 IH]; intros ks G; [destruct ks; destruct G|]. destruct ks as [|k1 ks]; [destruct G|]. cbn [map combine] in *. destruct G as [G|G].
          - injection G as -> <-. exists w. split; [now left|exact Hw].
          - destruct (IH _ G) as [w1 [W1 W2]]. exists w1. split; [now right|exact W2]. }
        destruct Z as [w [Z1 Z2]]. rewrite (B2 _ _ Z1). exact Z2.
  Qed.

  Lemma slice_ok : forall h a xv tv fv, hfits h a xv -> clean (snd (check_slice a)) -> good (fun h v => hfits h (fst (check_slice a)) v) h (hlift env (op_slice h xv tv fv)).
  Proof.
    intros h a xv tv fv H Cl. apply good_hlift.
    - intros v E. unfold op_slice in *. destruct fv; try discriminate E. destruct tv; try discriminate E. destruct (dec_to_usize d) as [f|]; [|discriminate E]. destruct (dec_to_usize d0) as [t|]; [|discriminate E].
      destruct xv; try discriminate E.
      + destruct (zstr_get s f (t + 1)); [|discriminate E]. cbn [fst snd] in *. injection E as <-. split; [apply hext_refl|]. unfold check_slice in *.
        destruct a; cbn [widen] in *; try (exfalso; eapply clean_one; exact Cl); cbn [fst plain hfits] in *; eauto; try exact I.
        destruct H as [l [arr [H _]]]. discriminate H.
      + destruct (harr h l) as [arr|] eqn:G; [|discriminate E]. destruct (zsub arr f t) as [sl|] eqn:Z; [|discriminate E]. destruct (new_arr h sl) as [h1 w] eqn:Na. cbn [fst snd] in *. injection E as <-.
        unfold check_slice in *. destruct a; cbn [widen] in *; try (exfalso; eapply clean_one; exact Cl); cbn [fst plain] in *; try (cbn [hfits] in H; repeat match goal with H : exists _, _ |- _ => destruct H | H : _ /\ _ |- _ => destruct H end; discriminate).
        * unfold new_arr, halloc in Na. injection Na as <- <-. split; [apply hext_alloc|exact I].
        * eapply new_arr_fits; [exact Na|]. intros x Ix. destruct H as [l1 [arr1 [Q [G1 H]]]]. injection Q as <-. rewrite G in G1. injection G1 as <-. apply H.
          unfold zsub in Z. match type of Z with (if ?b then _ else _) = _ => destruct b; [|discriminate Z] end. injection Z as <-. rewrite <- (firstn_skipn (Z.to_nat f) arr). apply in_or_app. right. match goal with |- In x ?q => rewrite <- (firstn_skipn (Z.to_nat (t + 1 - f)) q) end. apply in_or_app. now left.
    - intros e _ E. assert (e = EOp "Slice") as ->; [|excuse]. unfold op_slice in E. repeat match type of E with context [match ?x with _ => _ end] => destruct x; cbn [fst snd] in E; try congruence; try discriminate E end.
  Qed.
  Lemma call_ok : forall f ts args h, Forall2 (hfits h) ts args -> Forall wft ts -> telling f ts -> clean (snd (check_call true (FInternal f) ts)) ->
    (F -> ~ In KAny ts /\ (P \/ In f sure /\ (f = FFuzzyMatch -> forall t, In t ts -> told t))) ->
    good (fun h v => hfits h (fst (check_call true (FInternal f) ts)) v) h (hlift env (op_call X (FInternal f) args h)).
  Proof.
    intros f ts args h H W T Cl Fi. unfold op_call. cbn [X std_ext x_arity x_call]. pose proof (call_sound (with_dates C L) f ts args h) as Q.
    pose proof (fun N Su Tf => call_gives_value (with_dates C L) f ts args h H N Su Tf Cl) as Val. destruct (call_internal (with_dates C L) f args h) as [h1 [v|e]].
    - unfold hlift. cbn [fst snd]. split; [reflexivity|]. eapply Q; eauto.
    - assert (Z : F -> P) by (intros z; destruct (Fi z) as [N [p|[Su Tf]]]; [exact p|]; destruct (Val N Su Tf) as [h2 [w E]]; discriminate E).
      destruct e; unfold hlift; cbn [fst snd good]; intros z; specialize (Z z); try (right; exists "CallFunction"; auto; fail). left. eauto.
  Qed.
  Lemma method_ok : forall k ts args h, In k reliable -> clean (snd match method_def k with Some d => check_types d ts | None => plain KAny end) ->
    good (fun h v => hfits h (fst match method_def k with Some d => check_types d ts | None => plain KAny end) v) h (hlift env (op_method X k args h)).
  Proof.
    intros k ts args h I1 Cl. unfold op_method. cbn [X std_ext x_marity x_method with_dates l_marity l_method]. destruct (date_arity k); [|unfold hlift; cbn [fst snd good]; intros _; excuse].
    destruct (date_method C k args) as [v|e] eqn:E.
    - unfold hlift. cbn [fst snd]. split; [reflexivity|]. split; [apply hext_refl|]. eapply method_sound; eauto.
    - destruct e; unfold hlift; cbn [fst snd good]; intros _; try excuse. left. eauto.
  Qed.

  Lemma closure_ok : forall c x b name sc al loops h, sound x -> sound b -> ctx h sc al loops ->
    let n := NCall (FClosure c) [x; NClosure b name] in
    faultless sc n -> all_covered X sc n -> (F -> fine P sc n) -> good (fun h v => hfits h (type_of sc n) v) h (eval X env al loops n env h).
  Proof.
    intros c x b name sc al loops h Sx Sb Cx n Fl Cv Kn. unfold n in *. clear n. assert (Cd := here _ _ _ Cv). cbn [covered] in Cd. destruct Cd as [x1 [b1 [name1 [Q Cd]]]]. injection Q as <- <- <-.
    assert (Px : In (sc, x) (parts sc (NCall (FClosure c) [x; NClosure b name]))) by (cbn; auto).
    assert (Pb : In (element_scope sc x (NClosure b name), b) (parts sc (NCall (FClosure c) [x; NClosure b name]))) by (cbn; auto).
    set (sc1 := element_scope sc x (NClosure b name)) in *.
    assert (Un : clean (snd (determine true sc x) ++ snd (determine true sc1 b) ++ complaints (map (determine true sc) []) ++ snd (check_closure true c (type_of sc x) (type_of sc1 b)))) by exact Fl.
    clear Fl. rename Un into Fl. apply clean_app in Fl. destruct Fl as [Fx Fl]. apply clean_app in Fl. destruct Fl as [Fb Fl]. apply clean_app in Fl. destruct Fl as [_ Fl].
    cbn [eval]. eapply good_bind; [eapply (part_ok x); eauto|]. intros v h1 E1 Hv. cbn beta.
    assert (Ty : type_of sc (NCall (FClosure c) [x; NClosure b name]) = fst (check_closure true c (type_of sc x) (type_of sc1 b))) by reflexivity. rewrite Ty. clear Ty.
    unfold check_closure in Fl. cbn [snd] in Fl. apply clean_app in Fl. destruct Fl as [F1 F2].
    destruct (is_iterable (type_of sc x)) eqn:It; [|exfalso; eapply clean_one; exact F1]. apply clean_unless in F1. cbn [andb] in F1. apply negb_true_iff in F1.
    pose proof (begin_good h1 (type_of sc x) v Hv F1) as Bg. destruct (op_begin h1 v) as [h2 [lp|e]]; [|intros _; exact Bg]. destruct Bg as [E2 [l [arr [-> [G El]]]]].
    set (p := match iterator (type_of sc x) with Some i => i | None => KAny end) in *.
    assert (Wx : wft (type_of sc x)) by (eapply wt; eauto).
    assert (Wp : wft p) by (unfold p; destruct (iterator (type_of sc x)) eqn:Ip; [eapply wft_iterator; eauto|apply WLeaf; exact I]).
    assert (Kb : F -> type_of sc1 b <> KAny) by (intros f; eapply fine_here; eapply fine_inside; [apply Kn; exact f|exact Pb]).
    assert (Kp : match c with ClMap | ClFlatMap => True | _ => F -> type_of sc1 b = KBool end).
    { destruct c; try exact I; intros f; apply clean_unless in F2; apply sat_bool in F2; destruct F2 as [Z|Z]; auto; exfalso; apply (Kb f); exact Z. }
    set (accT := match c with ClMap | ClFlatMap => type_of sc1 b | _ => p end).
    assert (Lg : lgood accT c h2 (iterate c (fun lp => eval X env al (lp :: loops) (NClosure b name)) (lp_len (Loop (VArr l) (length arr) 0 0)) (Loop (VArr l) (length arr) 0 0) [] env h2)).
    { apply (loop_good c _ (type_of sc1 b) p accT h2 l arr).
      - intros lp h3 E3 A1 A2. cbn [eval]. destruct (nth_error arr (lp_iter lp)) as [el|] eqn:Ne; [|exfalso; apply nth_error_None in Ne; lia].
        refine (proj1 (Sb sc1 (name :: al) (lp :: loops) h3 _ Fb (inside _ _ _ _ _ Cv Pb) _)); [|intros f; eapply fine_inside; [apply Kn; exact f|exact Pb]].
        assert (E13 : hext h h3) by (eapply hext_trans; [exact E1|eapply hext_trans; eauto]). pose proof (ctx_mono _ _ _ _ _ E13 Cx) as Cx3.
        assert (Hel : hfits h3 p el) by (eapply hfits_mono; [exact E3|]; rewrite Forall_forall in El; apply El; eapply nth_error_In; eauto).
        pose proof (enter h3 sc al loops lp p name l arr el Cx3 Wp A1 (harr_hext _ _ _ _ E3 G) Ne Hel) as En. unfold sc1, element_scope. fold p. destruct name; exact En.
      - exact G.
      - exact El.
      - unfold accT. destruct c; auto.
      - apply hext_refl.
      - reflexivity.
      - reflexivity.
      - constructor. }
    destruct (iterate _ _ _ _ _ _ _) as [lp2 acc e3 h3|v3 e3 h3|e3 h3]; [| |exact Lg].
    - destruct Lg as [-> [E3 Ac]]. rewrite Forall_forall in Ac.
      assert (Tr : forall o, good (fun h v => hfits h (fst (check_closure true c (type_of sc x) (type_of sc1 b))) v) h3 o -> good (fun h v => hfits h (fst (check_closure true c (type_of sc x) (type_of sc1 b))) v) h1 o).
      { intros [v3 e3 h4|e3 h4] Q; [|exact Q]. destruct Q as [Q1 [Q2 Q3]]. split; [exact Q1|]. split; [|exact Q3]. eapply hext_trans; [exact E2|]. eapply hext_trans; eauto. }
      apply Tr. clear Tr. destruct c; cbn [closure_value check_closure fst]; try (apply good_ret; cbn; eauto; fail); unfold accT in Ac.
      + destruct (new_arr h3 acc) as [h4 w] eqn:Na. split; [reflexivity|]. unfold p in Ac. clear -Na Ac It F1 Cd Hv. destruct (type_of sc x); try discriminate It; try discriminate F1; try congruence; cbn [iterator] in Ac.
        * unfold new_arr, halloc in Na. injection Na as <- <-. split; [apply hext_alloc|exact I].
        * eapply new_arr_fits; eauto.
      + destruct (new_arr h3 acc) as [h4 w] eqn:Na. split; [reflexivity|]. eapply new_arr_fits; eauto.
      + destruct (new_arr h3 acc) as [h4 w] eqn:Na. pose proof (new_arr_fits _ _ _ _ _ Na Ac) as [E4 H4]. destruct H4 as [l4 [a4 [-> [G4 H4]]]]. cbn [op_flatten]. rewrite G4.
        destruct (new_arr h4 (flatten1 h4 a4)) as [h5 w5] eqn:Na5. unfold hlift. cbn [fst snd]. split; [reflexivity|].
        assert (Fi : forall y, In y (flatten1 h4 a4) -> hfits h4 match iterator (type_of sc1 b) with Some i => i | None => type_of sc1 b end y).
        { intros y Y. unfold flatten1 in Y. apply in_flat_map in Y. destruct Y as [z [Z1 Z2]]. specialize (H4 z Z1). destruct (iterator (type_of sc1 b)) as [i|] eqn:Ib.
          - destruct Cd as [i1 Q]; [fold sc1; congruence|]. fold sc1 in Q. rewrite Q in *. cbn [iterator] in Ib. injection Ib as ->. destruct H4 as [l5 [a5 [-> [G5 H5]]]]. rewrite G5 in Z2. auto.
          - destruct z; try (destruct Z2 as [<-|[]]; exact H4). eapply no_array; eauto. }
        destruct (new_arr_fits _ _ _ _ _ Na5 Fi) as [E5 H5]. split; [eapply hext_trans; eauto|exact H5].
    - destruct Lg as [-> [E3 [[t ->] Q]]]. split; [reflexivity|]. split; [eapply hext_trans; eauto|]. destruct c; try contradiction; cbn; eauto.
  Qed.
  Lemma logic_ok : forall l r o sc al loops h, sound l -> sound r -> ctx h sc al loops -> let n := NBinary l (OpLogic o) r in
    faultless sc n -> all_covered X sc n -> (F -> fine P sc n) -> good (fun h v => hfits h (type_of sc n) v) h (eval X env al loops n env h).
  Proof.
    intros l r o sc al loops h Sl Sr Cx n Fl Cv Kn. unfold n in *. clear n. assert (Cd := here _ _ _ Cv).
    assert (Un : clean (snd (determine true sc l) ++ snd (determine true sc r) ++ snd (check_binary true (OpLogic o) (type_of sc l) (type_of sc r)))) by exact Fl.
    clear Fl. rename Un into Fl. apply clean_app in Fl. destruct Fl as [F1 Fl]. apply clean_app in Fl. destruct Fl as [F2 Fl].
    assert (Kl : F -> type_of sc l <> KAny) by (intros f; eapply fine_here; eapply fine_inside; [apply Kn; exact f|cbn; auto]).
    cbn [eval]. eapply good_bind; [eapply (part_ok l); eauto; cbn; auto|]. intros lv h1 E1 Hl. cbn beta.
    assert (Gr : good (fun h v => hfits h (type_of sc r) v) h1 (eval X env al loops r env h1)) by (eapply (part_ok r); eauto; [eapply ctx_mono; eauto|cbn; auto]).
    change (type_of sc (NBinary l (OpLogic o) r)) with (fst (check_binary true (OpLogic o) (type_of sc l) (type_of sc r))).
    assert (Up : forall T o, (forall h v, hfits h (type_of sc r) v -> hfits h T v) -> good (fun h v => hfits h (type_of sc r) v) h1 o -> good (fun h v => hfits h T v) h1 o).
    { intros T [v e h2|e h2] Q G; [|exact G]. destruct G as [G1 [G2 G3]]. split; auto. }
    destruct o; cbn [covered] in Cd; try contradiction; cbn [check_binary] in *.
    - assert (T : (type_of sc l = KAny \/ type_of sc l = KBool) /\ type_of sc r = KBool).
      { clear -Cd Fl. destruct (type_of sc l); try (exfalso; eapply clean_one; exact Fl); destruct (type_of sc r); try contradiction; try (exfalso; eapply clean_one; exact Fl); auto. }
      destruct T as [Ta Tb]. rewrite Tb in *. replace (fst _) with KBool by (destruct Ta as [-> | ->]; reflexivity).
      destruct lv as [|[|]| | | | |]; try (intros f; exfalso; specialize (Kl f); destruct Ta as [Ta|Ta]; [contradiction|]; rewrite Ta in Hl; destruct Hl as [? Hl]; discriminate Hl); [exact Gr|apply good_ret; cbn; eauto].
    - assert (T : (type_of sc l = KAny \/ type_of sc l = KBool) /\ type_of sc r = KBool).
      { clear -Cd Fl. destruct (type_of sc l); try (exfalso; eapply clean_one; exact Fl); destruct (type_of sc r); try contradiction; try (exfalso; eapply clean_one; exact Fl); auto. }
      destruct T as [Ta Tb]. rewrite Tb in *. replace (fst _) with KBool by (destruct Ta as [-> | ->]; reflexivity).
      destruct lv as [|[|]| | | | |]; try (intros f; exfalso; specialize (Kl f); destruct Ta as [Ta|Ta]; [contradiction|]; rewrite Ta in Hl; destruct Hl as [? Hl]; discriminate Hl); [apply good_ret; cbn; eauto|exact Gr].
    - assert (Wl : wft (type_of sc l)) by (eapply wt; eauto). assert (Wr : wft (type_of sc r)) by (eapply wt; eauto). clear Fl.
      assert (Nn : lv = VNull \/ lv <> VNull) by (destruct lv; [left; reflexivity|right; discriminate ..]).
      destruct (type_of sc l) as [| | | | | | |ti|m|s|en el|ti] eqn:Tl; cbn [fst plain].
      all: try (destruct lv; first [apply good_ret; exact Hl | exfalso; cbn [hfits] in Hl; repeat match goal with H : exists _, _ |- _ => destruct H | H : _ /\ _ |- _ => destruct H end; discriminate]; fail).
      + destruct lv; try (apply good_ret; exact I). eapply Up; [|exact Gr]. intros; exact I.
      + cbn [hfits] in Hl. subst lv. exact Gr.
      + assert (Wi : wft ti) by now apply wft_null. specialize (Cd ti eq_refl). destruct Nn as [->|Nn].
        * eapply Up; [|exact Gr]. intros h2 v Hv. apply merge_both; auto.
        * destruct Hl as [->|Hl]; [contradiction|]. destruct lv; try contradiction; apply good_ret; apply merge_both; auto.
  Qed.

  Lemma binary_ok : forall l r op sc al loops h, sound l -> sound r -> ctx h sc al loops -> (forall o, op <> OpLogic o) -> let n := NBinary l op r in
    faultless sc n -> all_covered X sc n -> (F -> fine P sc n) -> good (fun h v => hfits h (type_of sc n) v) h (eval X env al loops n env h).
  Proof.
    intros l r op sc al loops h Sl Sr Cx Nl n Fl Cv Kn. unfold n in *. clear n. assert (Cd := here _ _ _ Cv).
    assert (Un : clean (snd (determine true sc l) ++ snd (determine true sc r) ++ snd (check_binary true op (type_of sc l) (type_of sc r)))) by exact Fl.
    clear Fl. rename Un into Fl. apply clean_app in Fl. destruct Fl as [F1 Fl]. apply clean_app in Fl. destruct Fl as [F2 Fl].
    assert (Kl : F -> type_of sc l <> KAny) by (intros f; eapply fine_here; eapply fine_inside; [apply Kn; exact f|cbn; auto]).
    assert (Kr : F -> type_of sc r <> KAny) by (intros f; eapply fine_here; eapply fine_inside; [apply Kn; exact f|cbn; auto]).
    assert (Kt : F -> type_of sc (NBinary l op r) <> KAny) by (intros f; eapply fine_here, Kn, f).
    assert (Ev : eval X env al loops (NBinary l op r) env h = obind (eval X env al loops l env h) (fun lv e h => obind (eval X env al loops r e h) (fun rv e h => lift e h (bin_value X op h lv rv)))).
    { cbn [eval]. destruct op as [o|o|o| | | | | | |]; try reflexivity. exfalso. eapply Nl; reflexivity. }
    rewrite Ev. clear Ev. eapply good_bind; [eapply (part_ok l); eauto; cbn; auto|]. intros lv h1 E1 Hl. cbn beta.
    change (type_of sc (NBinary l op r)) with (fst (check_binary true op (type_of sc l) (type_of sc r))) in *.
    assert (Div : op = OpArith ADiv \/ op = OpArith AMod \/ match op with OpLogic _ | OpArith ADiv | OpArith AMod => False | _ => True end).
    { destruct op as [o|o|o| | | | | | |]; auto. - destruct o; auto. - exfalso. eapply Nl; reflexivity. }
    assert (Num : forall f g, (forall a b, g a b = match a, b with VNum x, VNum y => Ok (match f x y with Some z => VNum z | None => VNull end) | _, _ => Err (EOp "Divide") end \/ g a b = match a, b with VNum x, VNum y => Ok (match f x y with Some z => VNum z | None => VNull end) | _, _ => Err (EOp "Modulo") end) ->
      divisor f r -> clean (snd match type_of sc l, type_of sc r with KNumber, KNumber | KNumber, KAny | KAny, KNumber | KAny, KAny => plain KNumber | _, _ => wrong "operator" end) ->
      good (fun h v => hfits h (fst match type_of sc l, type_of sc r with KNumber, KNumber | KNumber, KAny | KAny, KNumber | KAny, KAny => plain KNumber | _, _ => wrong "operator" end) v) h1
        (obind (eval X env al loops r env h1) (fun rv e h => lift e h (g lv rv)))).
    { intros f g Hg [d [-> Q]] Cl. cbn [eval obind]. change (type_of sc (NNumber d)) with KNumber in *.
      assert (T : type_of sc l = KAny \/ type_of sc l = KNumber) by (clear -Cl; destruct (type_of sc l); try (exfalso; eapply clean_one; exact Cl); auto).
      replace (fst _) with KNumber by (destruct T as [-> | ->]; reflexivity). apply good_lift.
      - intros v E. destruct (Hg lv (VNum d)) as [G|G]; rewrite G in E; (destruct lv; try discriminate E; injection E as <-; specialize (Q d0); destruct (f d0 d); [cbn; eauto|contradiction]).
      - intros e f1 E. exfalso. specialize (Kl f1). destruct T as [T|T]; [contradiction|]. rewrite T in Hl. destruct Hl as [y ->]. destruct (Hg (VNum y) (VNum d)) as [G|G]; rewrite G in E; discriminate E. }
    destruct Div as [->|[->|Or]].
    - apply (Num (x_div X) (op_div X)); [intros a b; left; destruct a, b; reflexivity|exact Cd|exact Fl].
    - apply (Num (x_rem X) (op_mod X)); [intros a b; right; destruct a, b; reflexivity|exact Cd|exact Fl].
    - clear Num. eapply good_bind; [eapply (part_ok r); eauto; [eapply ctx_mono; eauto|cbn; auto]|]. intros rv h2 E2 Hr. cbn beta. eapply hfits_mono in Hl; [|exact E2]. apply good_lift.
      + intros v E. exact (binary_sound X op h2 _ _ lv rv v Hl Hr Fl E Or).
      + intros e f E. specialize (Kl f). specialize (Kr f). specialize (Kt f).
        assert (Add : op = OpArith AAdd \/ op <> OpArith AAdd) by (destruct op as [o|o|o| | | | | | |]; try (right; discriminate); destruct o; auto; right; discriminate).
        destruct Add as [->|Na]; [exact (add_err X P h2 _ _ lv rv e Hl Hr Kl Kr Fl E)|].
        destruct op as [o|o|o| | | | | | |]; try (exfalso; eapply Nl; reflexivity); try (exfalso; apply Kt; reflexivity); (eapply binary_err; [exact Hl|exact Hr|exact Kl|exact Kr|exact Fl|exact E|exact I|exact Na|eauto]).
  Qed.
  Lemma member_ok : forall x p sc al loops h, sound x -> sound p -> ctx h sc al loops -> faultless sc (NMember x p) -> all_covered X sc (NMember x p) -> (F -> fine P sc (NMember x p)) ->
    good (fun h v => hfits h (type_of sc (NMember x p)) v) h (eval X env al loops (NMember x p) env h) /\
    (forall h1 v, eval_static env al (NMember x p) env h = Some (h1, v) -> h1 = h /\ hfits h (type_of sc (NMember x p)) v).
  Proof.
    intros x p sc al loops h Sx Sp Cx Fl Cv Kn.
    assert (Un : clean (snd (determine true sc x) ++ snd (determine true sc p) ++ snd (check_member true (type_of sc x) (type_of sc p)))) by exact Fl.
    clear Fl. rename Un into Fl. apply clean_app in Fl. destruct Fl as [F1 Fl]. apply clean_app in Fl. destruct Fl as [F2 Fl].
    change (type_of sc (NMember x p)) with (fst (check_member true (type_of sc x) (type_of sc p))). assert (Wx : wft (type_of sc x)) by (eapply wt; eauto).
    assert (Px : In (sc, x) (parts sc (NMember x p))) by (cbn; auto). assert (Pp : In (sc, p) (parts sc (NMember x p))) by (cbn; auto).
    destruct (Sx sc al loops h Cx F1 (inside _ _ _ _ _ Cv Px) (fun f => fine_inside _ _ _ _ _ (Kn f) Px)) as [Gx Stx].
    assert (St : forall h1 v, eval_static env al (NMember x p) env h = Some (h1, v) -> h1 = h /\ hfits h (fst (check_member true (type_of sc x) (type_of sc p))) v).
    { intros h1 v E. cbn [eval_static] in E. destruct p; try discriminate E.
      - destruct (dec_to_u32 d) as [i|] eqn:U; [|discriminate E]. destruct (eval_static env al x env h) as [[h2 av]|] eqn:Q; [|discriminate E]. cbn [option_map fst snd] in E. injection E as <- <-.
        destruct (Stx _ _ eq_refl) as [-> Hx]. split; [reflexivity|]. eapply member_sound; [exact Wx|exact Hx| |exact Fl|apply fetch_index; exact U]. cbn. eauto.
      - destruct (eval_static env al x env h) as [[h2 av]|] eqn:Q; [|discriminate E]. cbn [option_map fst snd] in E. injection E as <- <-.
        destruct (Stx _ _ eq_refl) as [-> Hx]. split; [reflexivity|]. eapply member_sound; [exact Wx|exact Hx| |exact Fl|apply fetch_key]. reflexivity. }
    split; [|exact St]. change (eval X env al loops (NMember x p) env h) with
      (match eval_static env al (NMember x p) env h with Some (h, v) => ORet v env h | None => obind (eval X env al loops x env h) (fun av e h => obind (eval X env al loops p e h) (fun pv e h => lift e h (op_fetch h av pv))) end).
    destruct (eval_static env al (NMember x p) env h) as [[h1 v]|].
    - destruct (St _ _ eq_refl) as [-> Hv]. now apply good_ret.
    - eapply good_bind; [exact Gx|]. intros av h1 E1 Hx. cbn beta. eapply good_bind; [eapply (part_ok p); eauto; eapply ctx_mono; eauto|]. intros pv h2 E2 Hp. cbn beta. apply good_lift.
      + intros v E. exact (member_sound h2 _ _ av pv v Wx (hfits_mono _ _ _ _ E2 Hx) Hp Fl E).
      + intros e _ E. eapply fetch_err; eauto.
  Qed.

  Lemma only_good : forall n, (forall sc al loops h, ctx h sc al loops -> faultless sc n -> all_covered X sc n -> (F -> fine P sc n) -> good (fun h v => hfits h (type_of sc n) v) h (eval X env al loops n env h)) ->
    (forall al h, eval_static env al n env h = None) -> sound n.
  Proof. intros n H S1 sc al loops h Cx Fl Cv Kn. split; [auto|]. intros h1 v E. rewrite S1 in E. discriminate E. Qed.
  Theorem all_sound : forall n, sound n /\ forall b a, n = NClosure b a -> sound b.
  Proof.
    induction n using node_ind'; (split; [|intros b0 a0 Eq; try discriminate Eq]).
    - apply only_good; [|reflexivity]. intros. apply good_ret. reflexivity.
    - apply only_good; [|reflexivity]. intros. apply good_ret. cbn. eauto.
    - apply only_good; [|reflexivity]. intros. apply good_ret. cbn. eauto.
    - apply only_good; [|reflexivity]. intros. apply good_ret. reflexivity.
    - apply only_good; [|reflexivity]. intros. apply (template_ok l sc); auto. eapply Forall_impl; [|exact H]. intros x [Hx _]. exact Hx.
    - apply only_good; [|reflexivity]. intros sc al loops h Cx _ _ _. cbn [eval]. destruct (c_ptr _ _ _ _ Cx) as [->|P1]; [|exact (point_good _ _ _ _ P1)]. cbn. intros _. excuse.
    - apply only_good; [|reflexivity]. intros. apply array_ok; auto. eapply Forall_impl; [|exact H]. intros x [Hx _]. exact Hx.
    - apply only_good; [|reflexivity]. intros. apply object_ok; auto. eapply Forall_impl; [|exact H]. intros x [[Hx _] [Hy _]]. auto.
    - apply only_good; [|reflexivity]. intros sc al loops h _ _ Cv _. destruct (here _ _ _ Cv).
    - intros sc al loops h Cx Fl Cv Kn.
      assert (Out : bound_at al s = None -> hfits h (type_of sc (NIdent s)) (or_null (scope_get h env s))).
      { intros Q. pose proof (c_alias _ _ _ _ Cx s) as A. rewrite Q in A. unfold type_of. cbn [determine fst plain]. rewrite A, (c_root _ _ _ _ Cx). pose proof (c_wf _ _ _ _ Cx) as [W _ _]. rewrite (c_root _ _ _ _ Cx) in W.
        pose proof (c_base _ _ _ _ Cx) as B. destruct (c_obj _ _ _ _ Cx) as [m Em]. rewrite Em in *. apply hfits_obj in B; [|apply wft_obj in W; apply W]. destruct B as [l [o [E [G B]]]]. injection E as <-.
        unfold scope_get, env. cbn. rewrite G. destruct (aget s m) eqn:Ts; [|exact I]. apply B in Ts. destruct (aget s o); exact Ts. }
      split.
      + cbn [eval]. destruct (bound_at al s) as [d|] eqn:Q.
        * pose proof (c_alias _ _ _ _ Cx s) as A. rewrite Q in A. destruct A as [t [A P1]]. unfold type_of. cbn [determine fst plain]. rewrite A. apply point_good. exact P1.
        * specialize (Out eq_refl). unfold scope_get, env in Out. cbn in Out. unfold op_fetch_env, env. cbn. split; [reflexivity|]. split; [apply hext_refl|exact Out].
      + intros h1 v E. cbn [eval_static] in E. destruct (bound_at al s); [discriminate E|]. injection E as <- <-. auto.
    - apply only_good; [|reflexivity]. intros sc al loops h _ _ Cv _. destruct (here _ _ _ Cv).
    - injection Eq as <- <-. apply IHn.
    - apply only_good; [|reflexivity]. intros sc al loops h Cx Fl Cv Kn. exact (part_ok n (NParen n) sc al loops h (proj1 IHn) Cx Cv Kn (or_introl eq_refl) Fl).
    - intros sc al loops h Cx Fl Cv Kn. unfold type_of. cbn [determine fst plain]. rewrite (c_root _ _ _ _ Cx). pose proof (c_base _ _ _ _ Cx) as B. split; [apply good_ret; exact B|].
      intros h1 v E. cbn in E. injection E as <- <-. auto.
    - intros sc al loops h Cx Fl Cv Kn. apply member_ok; auto; [apply IHn1|apply IHn2].
    - apply only_good; [|reflexivity]. intros sc al loops h Cx Fl Cv Kn.
      set (index := fun o => match o with None => [] | Some y => snd (determine true sc y) ++ unless (satisfies (type_of sc y) KNumber) LError "slice index" end).
      assert (Eq1 : snd (determine true sc (NSlice n f t)) = snd (determine true sc n) ++ index f ++ index t ++ snd (check_slice (type_of sc n))).
      { destruct f as [y|], t as [z|]; unfold index, type_of; cbn [determine fst snd]; try destruct (determine true sc y); try destruct (determine true sc z); reflexivity. }
      assert (Un : clean (snd (determine true sc n) ++ index f ++ index t ++ snd (check_slice (type_of sc n)))) by (rewrite <- Eq1; exact Fl). clear Eq1.
      apply clean_app in Un. destruct Un as [F1 Un]. apply clean_app in Un. destruct Un as [F2 Un]. apply clean_app in Un. destruct Un as [F3 F4].
      change (type_of sc (NSlice n f t)) with (fst (check_slice (type_of sc n))). cbn [eval].
      assert (Kx : F -> type_of sc n <> KAny) by (intros z; eapply fine_here; eapply fine_inside; [apply Kn; exact z|cbn; auto]).
      eapply good_bind; [eapply (part_ok n); eauto; [apply IHn|cbn; auto]|]. intros xv h1 E1 Hx. cbn beta. apply (good_bind (fun _ _ => True)).
      + destruct t as [y|].
        * assert (G : good (fun h v => hfits h (type_of sc y) v) h1 (eval X env al loops y env h1)).
          { eapply (part_ok y); [apply H0|eapply ctx_mono; eauto|exact Cv|exact Kn|cbn [parts]; right; apply in_or_app; right; now left|]. cbn [index] in F3. apply clean_app in F3. apply F3. }
          destruct (eval X env al loops y env h1); [|exact G]. split; [apply G|]. split; [apply G|exact I].
        * apply good_lift; [auto|]. intros e z E. specialize (Kx z).
          assert (Ln : exists d, op_len h1 xv = Ok (VNum d)).
          { unfold check_slice in F4. destruct (type_of sc n); try contradiction; cbn [widen] in F4; try (exfalso; eapply clean_one; exact F4); cbn [hfits] in Hx; repeat match goal with H : exists _, _ |- _ => destruct H | H : _ /\ _ |- _ => destruct H end; subst; cbn [op_len]; eauto.
            match goal with H : harr _ _ = Some _ |- _ => rewrite H end. eauto. }
          destruct Ln as [d Ln]. rewrite Ln in E. cbn [bind op_sub] in E. destruct (x_sub X d dec_one) eqn:Q; [discriminate E|]. injection E as <-. right. eexists. split; [reflexivity|]. right. left. exists d, dec_one. auto.
      + intros tv h2 E2 _. cbn beta. apply (good_bind (fun _ _ => True)).
        * destruct f as [y|]; [|apply good_ret; exact I].
          assert (G : good (fun h v => hfits h (type_of sc y) v) h2 (eval X env al loops y env h2)).
          { eapply (part_ok y); [apply H|eapply ctx_mono; [|exact Cx]; eapply hext_trans; eauto|exact Cv|exact Kn|cbn [parts]; right; apply in_or_app; left; now left|]. cbn [index] in F2. apply clean_app in F2. apply F2. }
          destruct (eval X env al loops y env h2); [|exact G]. split; [apply G|]. split; [apply G|exact I].
        * intros fv h3 E3 _. cbn beta. apply slice_ok; [|exact F4]. eapply hfits_mono; [|exact Hx]. eapply hext_trans; eauto.
    - apply only_good; [|reflexivity]. intros sc al loops h Cx Fl Cv Kn.
      assert (Un : clean (snd (determine true sc n1) ++ unless (numberish (type_of sc n1)) LError "interval" ++ snd (determine true sc n2) ++ unless (numberish (type_of sc n2)) LError "interval")) by exact Fl.
      apply clean_app in Un. destruct Un as [F1 Un]. apply clean_app in Un. destruct Un as [_ Un]. apply clean_app in Un. destruct Un as [F2 _]. cbn [eval].
      eapply good_bind; [eapply (part_ok n1); eauto; [apply IHn1|cbn; auto]|]. intros lv h1 E1 _. cbn beta.
      eapply good_bind; [eapply (part_ok n2); eauto; [apply IHn2|eapply ctx_mono; eauto|cbn; auto]|]. intros rv h2 E2 _. cbn beta. apply good_lift.
      + intros v E. unfold op_interval in E. destruct lv, rv; try discriminate E; repeat match goal with d : dyn |- _ => destruct d end; try discriminate E; injection E as <-; cbn; eauto.
      + intros e _ E. assert (e = EOp "Interval") as ->; [|excuse]. unfold op_interval in E. destruct lv, rv; try congruence; repeat match goal with d : dyn |- _ => destruct d end; congruence.
    - apply only_good; [|reflexivity]. intros sc al loops h Cx Fl Cv Kn.
      assert (Un : clean (snd (determine true sc n1) ++ unless (satisfies (type_of sc n1) KBool) LError "condition" ++ snd (determine true sc n2) ++ snd (determine true sc n3))) by exact Fl.
      apply clean_app in Un. destruct Un as [F1 Un]. apply clean_app in Un. destruct Un as [Fc Un]. apply clean_app in Un. destruct Un as [F2 F3]. apply clean_unless in Fc. apply sat_bool in Fc.
      change (type_of sc (NCond n1 n2 n3)) with (merge (type_of sc n2) (type_of sc n3)). cbn [eval].
      assert (Kc : F -> type_of sc n1 <> KAny) by (intros z; eapply fine_here; eapply fine_inside; [apply Kn; exact z|cbn; auto]).
      assert (Ag := here _ _ _ Cv). cbn [covered] in Ag. assert (W2 : wft (type_of sc n2)) by (eapply wt; eauto). assert (W3 : wft (type_of sc n3)) by (eapply wt; eauto).
      eapply good_bind; [eapply (part_ok n1); eauto; [apply IHn1|cbn; auto]|]. intros cv h1 E1 Hc. cbn beta. pose proof (ctx_mono _ _ _ _ _ E1 Cx) as Cx1.
      assert (G2 : good (fun h v => hfits h (type_of sc n2) v) h1 (eval X env al loops n2 env h1)) by (eapply (part_ok n2); eauto; [apply IHn2|cbn; auto]).
      assert (G3 : good (fun h v => hfits h (type_of sc n3) v) h1 (eval X env al loops n3 env h1)) by (eapply (part_ok n3); eauto; [apply IHn3|cbn; auto]).
      destruct cv as [|[|]| | | | |]; try (intros z; exfalso; specialize (Kc z); destruct Fc as [Q|Q]; [contradiction|]; rewrite Q in Hc; destruct Hc as [? Hc]; discriminate Hc).
      + destruct (eval X env al loops n2 env h1); [|exact G2]. destruct G2 as [G21 [G22 G23]]. split; [exact G21|]. split; [exact G22|]. apply merge_both; auto.
      + destruct (eval X env al loops n3 env h1); [|exact G3]. destruct G3 as [G21 [G22 G23]]. split; [exact G21|]. split; [exact G22|]. apply merge_both; auto.
    - apply only_good; [|reflexivity]. intros sc al loops h Cx Fl Cv Kn.
      assert (Un : clean (snd (determine true sc n) ++ snd (check_unary op (type_of sc n)))) by exact Fl. apply clean_app in Un. destruct Un as [F1 F2].
      change (type_of sc (NUnary n op)) with (fst (check_unary op (type_of sc n))). cbn [eval].
      assert (Kx : F -> type_of sc n <> KAny) by (intros z; eapply fine_here; eapply fine_inside; [apply Kn; exact z|cbn; auto]). assert (Cd := here _ _ _ Cv).
      eapply good_bind; [eapply (part_ok n); eauto; [apply IHn|cbn; auto]|]. intros v h1 E1 Hx. cbn beta.
      destruct op as [o|o|o| | | | | | |]; try (exfalso; eapply clean_one; exact F2); destruct o; try (exfalso; eapply clean_one; exact F2); cbn [check_unary fst snd] in *; apply clean_unless in F2.
      + apply sat_number in F2. destruct F2 as [Q|Q]; [contradiction|]. rewrite Q in Hx. apply good_ret. exact Hx.
      + apply sat_number in F2. apply good_lift; [intros w E; destruct v; try discriminate E; injection E as <-; cbn; eauto|]. intros e z E. exfalso. specialize (Kx z). destruct F2 as [Q|Q]; [contradiction|]. rewrite Q in Hx. destruct Hx as [? ->]. discriminate E.
      + apply sat_bool in F2. apply good_lift; [intros w E; destruct v; try discriminate E; injection E as <-; cbn; eauto|]. intros e z E. exfalso. specialize (Kx z). destruct F2 as [Q|Q]; [contradiction|]. rewrite Q in Hx. destruct Hx as [? ->]. discriminate E.
    - apply only_good; [|reflexivity]. intros sc al loops h Cx Fl Cv Kn. destruct op as [o|o|o| | | | | | |].
      all: try (apply binary_ok; auto; [apply IHn1|apply IHn2|intros q Q; discriminate Q]). apply logic_ok; auto; [apply IHn1|apply IHn2].
    - apply only_good; [|match goal with |- context [NCall ?q _] => destruct q end; reflexivity]. intros sc al loops h Cx Fl Cv Kn. assert (Cd := here _ _ _ Cv). match goal with q : fkind |- _ => destruct q as [f|name|c] end.
      + assert (Un : clean (complaints (map (determine true sc) l) ++ snd (check_call true (FInternal f) (map fst (map (determine true sc) l))))) by exact Fl. apply clean_app in Un. destruct Un as [F1 F2]. rewrite map_map in F2. change (fun x => fst (determine true sc x)) with (type_of sc) in F2.
        assert (Ty : type_of sc (NCall (FInternal f) l) = fst (check_call true (FInternal f) (map (type_of sc) l))).
        { unfold type_of at 1. cbn [determine fst]. rewrite map_map. reflexivity. }
        rewrite Ty. cbn [eval]. eapply good_bind.
        * eapply (seq_ok l); eauto; [eapply Forall_impl; [|exact H]; intros x [Hx _]; exact Hx|intros x Ix; cbn [parts]; now apply in_map|]. intros x Ix. eapply flat_clean; eauto.
        * intros vs h1 E1 Hv. cbn beta. apply call_ok; auto; [apply Forall_forall; intros q Q; apply in_map_iff in Q; destruct Q as [z [<- _]]; eapply wt; eauto|].
          intros z. split; [intros Q; apply in_map_iff in Q; destruct Q as [x [Q Ix]]; revert Q; apply fine_here with (P := P); eapply fine_inside; [apply Kn; exact z|cbn [parts]; now apply in_map]|].
          destruct (Kn z) as [_ [p|Su]]; [now left|right]. destruct (Su sc _ (Whole sc (NCall (FInternal f) l))) as [S1 S2]. split; [exact S1|]. intros E t T. apply in_map_iff in T. destruct T as [x [<- Ix]]. exact (S2 E x Ix).
      + destruct Cd.
      + cbn [covered] in Cd. destruct Cd as [x [b [name [-> Cd]]]]. inversion H as [|? ? Hx H1]; subst. inversion H1 as [|? ? Hb _]; subst. apply closure_ok; auto; [apply Hx|]. apply (proj2 Hb b name eq_refl).
    - apply only_good; [|reflexivity]. intros sc al loops h Cx Fl Cv Kn. assert (Cd := here _ _ _ Cv). cbn [covered] in Cd.
      assert (Un : clean (snd (determine true sc n) ++ complaints (map (determine true sc) l) ++ snd match method_def k with Some d => check_types d (type_of sc n :: map fst (map (determine true sc) l)) | None => plain KAny end)) by exact Fl.
      apply clean_app in Un. destruct Un as [F1 Un]. apply clean_app in Un. destruct Un as [F2 F3].
      change (type_of sc (NMethod k n l)) with (fst match method_def k with Some d => check_types d (type_of sc n :: map fst (map (determine true sc) l)) | None => plain KAny end). cbn [eval].
      eapply good_bind; [eapply (part_ok n); eauto; [apply IHn|cbn; auto]|]. intros v h1 E1 Hx. cbn beta. eapply good_bind.
      + eapply (seq_ok l); eauto; [eapply Forall_impl; [|exact H]; intros x [Hy _]; exact Hy|eapply ctx_mono; eauto|intros x Ix; cbn [parts]; right; now apply in_map|]. intros x Ix. eapply flat_clean; eauto.
      + intros vs h2 E2 Hv. cbn beta. apply method_ok; auto.
    - apply only_good; [|reflexivity]. intros sc al loops h Cx Fl Cv Kn. exfalso. destruct o as [x|]; [|apply (Fl "syntax"); now left].
      apply (Fl "syntax"). change (In (LError, "syntax") (snd (determine true sc x) ++ [(LError, "syntax")])). apply in_or_app. right. now left.
  Qed.
End Sound.

(** ** A result has content *)
Lemma covered_no_assign : forall X n, (forall sc, all_covered X sc n -> no_assign n = true) /\ forall b a, n = NClosure b a -> forall sc, all_covered X sc b -> no_assign b = true.
Proof.
  intros X. induction n using node_ind'; (split; [intros sc Cv|intros b0 a0 Eq; try discriminate Eq]); try reflexivity; cbn [no_assign].
  - apply forallb_forall. intros x Ix. rewrite Forall_forall in H. eapply (proj1 (H x Ix)), inside; [exact Cv|]. cbn [parts]. now apply in_map.
  - apply forallb_forall. intros x Ix. rewrite Forall_forall in H. eapply (proj1 (H x Ix)), inside; [exact Cv|]. cbn [parts]. now apply in_map.
  - apply forallb_forall. intros x Ix. rewrite Forall_forall in H. destruct (H x Ix) as [[H1 _] [H2 _]]. apply andb_true_iff. split; [eapply H1|eapply H2]; (eapply inside; [exact Cv|]); cbn [parts]; apply in_flat_map; exists x; cbn; auto.
  - destruct (here _ _ _ Cv).
  - destruct (here _ _ _ Cv).
  - injection Eq as <- <-. apply IHn.
  - eapply (proj1 IHn), inside; [exact Cv|]. now left.
  - apply andb_true_iff. split; [eapply (proj1 IHn1)|eapply (proj1 IHn2)]; (eapply inside; [exact Cv|]); cbn; auto.
  - assert (Q : forall o, In o [f; t] -> match o with Some x => no_assign x | None => true end = true).
    { intros [x|] Q; [|reflexivity]. destruct Q as [->|[->|[]]]; cbn [opt_all] in *; [eapply (proj1 H)|eapply (proj1 H0)]; (eapply inside; [exact Cv|]); cbn [parts]; right; apply in_or_app; [left|right]; now left. }
    rewrite !andb_true_iff. split; [split|]; [eapply (proj1 IHn), inside; [exact Cv|]; now left|apply Q; now left|apply Q; right; now left].
  - apply andb_true_iff. split; [eapply (proj1 IHn1)|eapply (proj1 IHn2)]; (eapply inside; [exact Cv|]); cbn; auto.
  - rewrite !andb_true_iff. split; [split|]; [eapply (proj1 IHn1)|eapply (proj1 IHn2)|eapply (proj1 IHn3)]; (eapply inside; [exact Cv|]); cbn; auto.
  - eapply (proj1 IHn), inside; [exact Cv|]. now left.
  - apply andb_true_iff. split; [eapply (proj1 IHn1)|eapply (proj1 IHn2)]; (eapply inside; [exact Cv|]); cbn; auto.
  - rewrite Forall_forall in H. assert (Cd := here _ _ _ Cv). match goal with q : fkind |- _ => destruct q as [f|name|c] end.
    + apply forallb_forall. intros x Ix. eapply (proj1 (H x Ix)), inside; [exact Cv|]. cbn [parts]. now apply in_map.
    + destruct Cd.
    + destruct Cd as [x [b [name [-> _]]]]. cbn [forallb no_assign]. rewrite (proj1 (H x ltac:(now left)) sc), (proj2 (H (NClosure b name) ltac:(right; now left)) b name eq_refl (element_scope sc x (NClosure b name))); [reflexivity| |]; (eapply inside; [exact Cv|]); cbn; auto.
  - rewrite Forall_forall in H. apply andb_true_iff. split; [eapply (proj1 IHn), inside; [exact Cv|]; now left|]. apply forallb_forall. intros x Ix. eapply (proj1 (H x Ix)), inside; [exact Cv|]. cbn [parts]. right. now apply in_map.
Qed.
(** The functions and methods of dates do not look inside arrays and objects. *)
Definition shut (v : value) : value := match v with VArr _ => VArr 0 | VObj _ => VObj 0 | _ => v end.
Lemma shut_same : forall a b, Forall2 ContentFacts.same_shape a b -> map shut a = map shut b.
Proof. induction 1 as [|x y l r S1 H IH]; [reflexivity|]. cbn [map]. rewrite IH. f_equal. destruct x, y; cbn in S1 |- *; try contradiction; try discriminate S1; try reflexivity; congruence. Qed.
Lemma shut_nth : forall a i, nth_error (map shut a) i = option_map shut (nth_error a i).
Proof. intros a i. apply nth_error_map. Qed.
Section Shut.
  Variable C : clockwork.
  Lemma shut_str : forall a i, arg_str (map shut a) i = arg_str a i.
  Proof. intros a i. unfold arg_str. rewrite shut_nth. destruct (nth_error a i) as [[]|]; reflexivity. Qed.
  Lemma shut_num : forall a i, arg_num (map shut a) i = arg_num a i.
  Proof. intros a i. unfold arg_num. rewrite shut_nth. destruct (nth_error a i) as [[]|]; reflexivity. Qed.
  Lemma shut_date : forall a i, arg_date (map shut a) i = arg_date a i.
  Proof. intros a i. unfold arg_date. rewrite shut_nth. destruct (nth_error a i) as [[]|]; reflexivity. Qed.
  Lemma shut_ostr : forall a i, arg_ostr (map shut a) i = arg_ostr a i.
  Proof. intros a i. unfold arg_ostr. rewrite shut_nth. destruct (nth_error a i) as [[]|]; reflexivity. Qed.
  Lemma shut_read : forall v tz, read_date C (shut v) tz = read_date C v tz.
  Proof. intros [] tz; reflexivity. Qed.
  Lemma shut_fn : forall a, date_fn C (map shut a) = date_fn C a.
  Proof.
    intros a. unfold date_fn. rewrite !shut_nth. destruct (nth_error a 1) as [[]|]; cbn [option_map shut bind]; try reflexivity.
    - destruct (c_zones C s); cbn [bind]; [|reflexivity]. destruct (nth_error a 0); cbn [option_map]; [now rewrite shut_read|reflexivity].
    - destruct (nth_error a 0); cbn [option_map]; [now rewrite shut_read|reflexivity].
  Qed.
  Lemma shut_method : forall k a, date_method C k (map shut a) = date_method C k a.
  Proof.
    intros k a. unfold date_method, arg_duration, arg_unit, arg_ounit, arg. rewrite !shut_date. destruct (arg_date a 0) as [this|]; [|reflexivity]. cbn [bind]. cbv zeta. rewrite !shut_nth, !shut_str, !shut_num, !shut_ostr.
    assert (A1 : forall B (f : value -> res B), (forall v, f (shut v) = f v) -> (do v <- of_option (option_map shut (nth_error a 1)) (EOp "argument"); f v) = (do v <- of_option (nth_error a 1) (EOp "argument"); f v)).
    { intros B f Q. destruct (nth_error a 1); cbn; auto. }
    repeat match goal with |- (if ?b then _ else _) = (if ?b then _ else _) => destruct b; [try reflexivity|] end.
    1,2: rewrite A1; [reflexivity|intros []; reflexivity].
    - rewrite A1; [reflexivity|]. intros v. now rewrite shut_read.
    - destruct (comparison k); [|reflexivity]. rewrite A1; [reflexivity|]. intros v. now rewrite shut_read.
  Qed.
  Lemma method_plain : forall k a v, date_method C k a = Ok v -> ContentFacts.plain v.
  Proof.
    intros k a v E. unfold date_method in E. destruct (arg_date a 0) as [this|]; [|discriminate E]. cbn [bind] in E. unfold ret_date in E.
    repeat match type of E with (if ?b then _ else _) = _ => destruct b end; try (split_do E; exact I).
    - split_do E. match goal with |- ContentFacts.plain (match ?x with _ => _ end) => destruct x; exact I end.
    - split_do E. destruct (c_zones C _); [|discriminate E]. destruct (vm_of C this); injection E as <-; exact I.
    - destruct (comparison k); [split_do E; exact I|]. destruct (String.eqb k "isValid"); [injection E as <-; exact I|]. destruct (vm_of C this) as [d|]; [|injection E as <-; exact I].
      destruct (getter C k (vd_tz this) d) as [w|] eqn:G; [|discriminate E]. injection E as <-. unfold getter in G. cbv zeta in G.
      assert (Inj : forall a b : value, Some a = Some b -> a = b) by (intros x y Q; congruence).
      repeat (match type of G with (if ?b then _ else _) = _ => destruct b end; [apply Inj in G; rewrite <- G; exact I|]). discriminate G.
  Qed.
End Shut.
Lemma plain_dates : forall C L, ContentFacts.plain_lib L -> ContentFacts.plain_lib (with_dates C L).
Proof.
  intros C L [H1 H2 H3 H4 H5]. split; cbn [with_dates l_date l_deprecated l_method]; auto.
  - intros a b S1. rewrite <- (shut_fn C a), <- (shut_fn C b). f_equal. now apply shut_same.
  - intros k a b S1. rewrite <- (shut_method C k a), <- (shut_method C k b). f_equal. now apply shut_same.
  - intros k a v E. eapply method_plain; eauto.
Qed.
Lemma result_tree : forall C L n b t h h1 v, ContentFacts.plain_lib L -> no_assign n = true -> repr h b t -> evaluate (std_ext (with_dates C L)) n (scope_new b) h = (Ok v, h1) -> exists t1, repr h1 v t1.
Proof.
  intros C L n b t h h1 v Pl Na R E.
  pose proof (ContentFacts.evaluate_alike (with_dates C L) (fun _ => true) true n (scope_new b) (scope_new b) h h (plain_dates C L Pl) Na (MemoFacts.reads_all n)) as A.
  rewrite E in A. cbn in A. destruct A as [t1 [A _]]; [|eauto].
  assert (Al : RepFacts.alike h h b b) by (exists t; auto). split; [exact Al|]. split; [intros k _; exact I|]. intros _. constructor.
Qed.

(** ** Whole expressions *)
Lemma start : forall T b h t l, distinct T -> repr h b t -> fits T t -> b = VObj l -> forall m, T = KObject m -> ctx l T h (top T) [] [].
Proof.
  intros T b h t l Di R Fi -> m Em. assert (W : wft T) by (now apply distinct_wft). constructor; cbn [top is_root is_ptr is_alias].
  - eauto.
  - reflexivity.
  - apply (proj2 (hfits_repr T h (VObj l) t R)). exact Fi.
  - split; cbn; auto. discriminate.
  - intros name. reflexivity.
  - now left.
Qed.
Lemma base_object : forall h b t m, repr h b t -> fits (KObject m) t -> exists l, b = VObj l.
Proof. intros h b t m R [o [-> _]]. inversion R; subst. eauto. Qed.

(** One step of the search for the parts. *)
Lemma cover_step : forall X sc n, covered X sc n -> (forall p, In p (parts sc n) -> all_covered X (fst p) (snd p)) -> all_covered X sc n.
Proof. intros X sc n H1 H2 sc1 n1 W. inversion W as [|? ? sc2 n2 ? ? I1 W1]; subst; [exact H1|]. exact (H2 _ I1 _ _ W1). Qed.
Lemma known_step : forall sc n, type_of sc n <> KAny -> (forall p, In p (parts sc n) -> all_known (fst p) (snd p)) -> all_known sc n.
Proof. intros sc n H1 H2 sc1 n1 W. inversion W as [|? ? sc2 n2 ? ? I1 W1]; subst; [exact H1|]. exact (H2 _ I1 _ _ W1). Qed.
