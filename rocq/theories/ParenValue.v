(** Parentheses do not change values. *)
From Coq Require Import String ZArith Bool List Arith.
From Verif Require Import Base Dec Value Heap Ast Ops Eval Print PureFacts ParensFacts ParenSpec.
Import ListNotations.
Local Open Scope nat_scope.
Local Open Scope list_scope.

Section V.
  Variable X : ext.
  Variable root : scope.
  Hypothesis HR : object_or_null root.
  Notation ev := (eval X root).
  Notation st := (eval_static root).

  Definition kept {A} (o : outc A) : Prop := match o with ORet _ e _ => e = root | OErr _ _ => True end.
  Definition like {A} (a b : outc A) : Prop := a = b /\ kept b.
  Lemma like_ret : forall A (v : A) h, like (ORet v root h) (ORet v root h).
  Proof. split; reflexivity. Qed.
  Lemma like_err : forall A e h, like (OErr e h : outc A) (OErr e h).
  Proof. split; [reflexivity|exact I]. Qed.
  Lemma like_bind : forall A B (a b : outc A) (f g : A -> scope -> heap -> outc B), like a b -> (forall v h, like (f v root h) (g v root h)) -> like (obind a f) (obind b g).
  Proof. intros A B a b f g [<- K] H. destruct a as [v e h|e h]; cbn in *; [subst e; apply H|apply like_err]. Qed.
  Lemma like_lift : forall A h (r : res A), like (lift root h r) (lift root h r).
  Proof. intros A h [v|e]; [apply like_ret|apply like_err]. Qed.
  Lemma like_hlift : forall A (r : heap * res A), like (hlift root r) (hlift root r).
  Proof. intros A [h [v|e]]; [apply like_ret|apply like_err]. Qed.
  Lemma like_seq : forall A B C (f : A -> scope -> heap -> outc C) (g : B -> scope -> heap -> outc C) (s : B -> A) l,
    Forall (fun x => forall h, like (f (s x) root h) (g x root h)) l -> forall h, like (eval_seq f (map s l) root h) (eval_seq g l root h).
  Proof.
    intros A B C f g s l H. induction H as [|x l Hx Hl IH]; intros h; cbn; [apply like_ret|]. apply like_bind; [apply Hx|]. intros v h1.
    apply like_bind; [apply IH|]. intros vs h2. apply like_ret.
  Qed.
  Definition llike (a b : lout) : Prop := a = b /\ match b with LDone _ _ e _ | LBreak _ e _ => e = root | LErr _ _ => True end.
  Lemma like_advance : forall c f g, (forall lp h, like (f lp root h) (g lp root h)) -> forall lp acc h, llike (advance c f lp acc root h) (advance c g lp acc root h).
  Proof.
    intros c f g H lp acc h. unfold advance. destruct (H lp h) as [-> K]. destruct (g lp root h) as [v e h1|e h1]; [|split; [reflexivity|exact I]]. cbn in K. subst e.
    split; [reflexivity|]. destruct (judge c v); try exact I; try reflexivity. destruct c; try reflexivity. destruct take; try reflexivity.
    destruct (op_pointer _ _ _); [reflexivity|exact I].
  Qed.
  Lemma like_iterate : forall c f g, (forall lp h, like (f lp root h) (g lp root h)) -> forall n lp acc h, llike (iterate c f n lp acc root h) (iterate c g n lp acc root h).
  Proof.
    intros c f g H. induction n as [|n IH]; intros lp acc h; cbn [iterate]; [split; reflexivity|].
    destruct (like_advance c f g H lp acc h) as [-> K]. destruct (advance c g lp acc root h); [subst; apply IH|subst; split; reflexivity|split; [reflexivity|exact I]].
  Qed.

  (** A chain read at once has no parentheses. *)
  Lemma static_strip : forall al n h p, st al n root h = Some p -> strip n = n.
  Proof.
    intros al n. induction n using node_ind'; intros h q E; cbn [eval_static] in E; try discriminate; try reflexivity.
    cbn [strip]. destruct n2; try discriminate.
    - destruct (dec_to_u32 d); [|discriminate]. destruct (st al n1 root h) eqn:E1; [|discriminate]. rewrite (IHn1 _ _ E1). reflexivity.
    - destruct (st al n1 root h) eqn:E1; [|discriminate]. rewrite (IHn1 _ _ E1). reflexivity.
  Qed.
  Lemma u32_usize : forall d i, dec_to_u32 d = Some i -> dec_to_usize d = Some i.
  Proof. intros d i. unfold dec_to_u32. destruct (dec_to_usize d); [|discriminate]. destruct (_ <? _)%Z; intros H; congruence. Qed.
  Lemma strip_str : forall p k al loops h, strip p = NString k -> ev al loops p root h = ORet (VStr k) root h.
  Proof. induction p using node_ind'; intros k0 al loops h E; cbn [strip] in E; try discriminate. - injection E as <-. reflexivity. - cbn [eval]. apply IHp. exact E. Qed.
  Lemma strip_num : forall p d al loops h, strip p = NNumber d -> ev al loops p root h = ORet (VNum d) root h.
  Proof. induction p using node_ind'; intros k0 al loops h E; cbn [strip] in E; try discriminate. - injection E as <-. reflexivity. - cbn [eval]. apply IHp. exact E. Qed.
  Lemma static_eval : forall al loops n h h1 v, st al (strip n) root h = Some (h1, v) -> ev al loops n root h = ORet v root h1.
  Proof.
    intros al loops. induction n using node_ind'; intros h0 h1 v0 E; cbn [strip eval_static] in E; try discriminate.
    - (* name *) cbn [eval]. destruct (bound_at al s); [discriminate|]. injection E as <- <-. unfold op_fetch_env, scope_get. red in HR. destruct (local_str root s); [reflexivity|].
      destruct (sc_base root); try contradiction; reflexivity.
    - (* parentheses *) cbn [eval]. apply IHn. exact E.
    - (* root *) cbn [eval]. injection E as E. rewrite E. reflexivity.
    - (* member *)
      destruct (st al (NMember n1 n2) root h0) as [[h2 v2]|] eqn:S2.
      + pose proof (static_strip _ _ _ _ S2) as Sp. cbn [strip] in Sp. change (st al (NMember (strip n1) (strip n2)) root h0 = Some (h1, v0)) in E. rewrite Sp, S2 in E. injection E as <- <-.
        cbn [eval]. rewrite S2. reflexivity.
      + assert (Slow : ev al loops (NMember n1 n2) root h0 = obind (ev al loops n1 root h0) (fun av env h => obind (ev al loops n2 env h) (fun pv env h => lift env h (op_fetch h av pv)))).
        { cbn [eval]. rewrite S2. reflexivity. }
        rewrite Slow. clear Slow S2. destruct (strip n2) eqn:E2; try discriminate.
        * destruct (dec_to_u32 d) as [i|] eqn:Eu; [|discriminate]. destruct (st al (strip n1) root h0) as [[h2 v2]|] eqn:E1; [|discriminate]. rewrite (IHn1 _ _ _ E1). cbn [obind].
          rewrite (strip_num _ _ _ _ _ E2). cbn [obind]. injection E as <- <-. cbn [fst snd]. apply u32_usize in Eu. unfold op_fetch, get_index.
          destruct v2; try reflexivity; rewrite Eu; reflexivity.
        * destruct (st al (strip n1) root h0) as [[h2 v2]|] eqn:E1; [|discriminate]. rewrite (IHn1 _ _ _ E1). cbn [obind]. rewrite (strip_str _ _ _ _ _ E2). cbn [obind].
          injection E as <- <-. cbn [fst snd]. unfold op_fetch, get_key. destruct v2; reflexivity.
  Qed.

  Theorem strip_like : forall n, no_assign n = true -> forall al loops h, like (ev al loops (strip n) root h) (ev al loops n root h).
  Proof.
    assert (MS : forall l, Forall (fun n => no_assign n = true -> forall al loops h, like (ev al loops (strip n) root h) (ev al loops n root h)) l -> forallb no_assign l = true ->
      forall al loops, Forall (fun n => forall h, like (ev al loops (strip n) root h) (ev al loops n root h)) l).
    { intros l H. induction H as [|x l Hx Hl IH]; intros N al loops; constructor; cbn in N; apply andb_true_iff in N as [N1 N2]; auto. }
    induction n using node_ind'; cbn [no_assign]; intros N al loops h0; rewrite ?andb_true_iff in N; try discriminate; try (apply like_ret); try (apply like_lift); try (apply like_err).
    - (* template *) cbn [strip eval]. apply like_bind.
      + apply like_seq. eapply Forall_impl; [|exact (MS l H N al loops)]. cbn beta. intros x Hx h. apply like_bind; [apply Hx|]. intros. apply like_hlift.
      + intros vs h1. apply like_lift.
    - (* array *) cbn [strip eval]. apply like_bind; [apply like_seq; exact (MS l H N al loops)|]. intros. apply like_hlift.
    - (* object *) cbn [strip eval]. apply like_bind; [|intros; apply like_hlift]. apply like_seq. induction H as [|x l [Hx Hy] Hl IH]; constructor; cbn in N; apply andb_true_iff in N as [N1 N2]; auto.
      apply andb_true_iff in N1 as [Na Nb]. intros h. cbn [fst snd]. apply like_bind; [auto|]. intros. apply like_bind; [apply like_hlift|]. intros. apply like_bind; [auto|]. intros. apply like_ret.
    - (* name *) cbn [strip eval]. destruct (bound_at al s); apply like_lift.
    - (* closure *) cbn [strip eval]. auto.
    - (* parentheses *) cbn [strip eval]. auto.
    - (* root *) cbn [strip eval]. destruct (materialize h0 root). apply like_ret.
    - (* member *) destruct N as [Na Nb]. change (strip (NMember n1 n2)) with (NMember (strip n1) (strip n2)).
      destruct (st al (NMember (strip n1) (strip n2)) root h0) as [[h1 v]|] eqn:Es.
      + rewrite (static_eval al loops (NMember n1 n2) h0 h1 v Es). split; [|reflexivity]. cbn [eval]. rewrite Es. reflexivity.
      + destruct (st al (NMember n1 n2) root h0) as [p|] eqn:En; [pose proof (static_strip _ _ _ _ En) as Sp; cbn [strip] in Sp; rewrite Sp in Es; congruence|].
        assert (Slow : forall a b, st al (NMember a b) root h0 = None -> ev al loops (NMember a b) root h0 = obind (ev al loops a root h0) (fun av env h => obind (ev al loops b env h) (fun pv env h => lift env h (op_fetch h av pv)))).
        { intros a b E. cbn [eval]. rewrite E. reflexivity. }
        rewrite (Slow _ _ Es), (Slow _ _ En). apply like_bind; [auto|]. intros. apply like_bind; [auto|]. intros. apply like_lift.
    - (* slice *) destruct N as [[Na Nf] Nt]. cbn [strip eval]. apply like_bind; [auto|]. intros xv h1. apply like_bind.
      + destruct t; [apply H0; exact Nt|apply like_lift].
      + intros tv h2. apply like_bind; [destruct f; [apply H; exact Nf|apply like_ret]|]. intros. apply like_hlift.
    - (* interval *) destruct N as [Na Nb]. cbn [strip eval]. apply like_bind; [auto|]. intros. apply like_bind; [auto|]. intros. apply like_lift.
    - (* conditional *) destruct N as [[Na Nb] Nc]. cbn [strip eval]. apply like_bind; [auto|]. intros v h1. destruct v as [|[]| | | | |]; auto using like_err.
    - (* unary *) cbn [strip eval]. apply like_bind; [auto|]. intros v h1. destruct op as [[]|[]| | | | | | | |]; auto using like_err, like_ret, like_lift.
    - (* binary *) destruct N as [Na Nb]. cbn [strip eval]. apply like_bind; [auto|]. intros v h1.
      assert (Bin : forall o, like (obind (ev al loops (strip n2) root h1) (fun rv env h => lift env h (bin_value X o h v rv))) (obind (ev al loops n2 root h1) (fun rv env h => lift env h (bin_value X o h v rv))))
        by (intros; apply like_bind; [auto|intros; apply like_lift]).
      destruct op as [|[]| | | | | | | |]; try apply Bin; destruct v as [|[]| | | | |]; auto using like_err, like_ret.
    - (* call *) cbn [strip eval]. destruct k.
      1,2: apply like_bind; [apply like_seq; exact (MS l H N al loops)|intros; apply like_hlift].
      destruct l as [|x [|y l]]; cbn [map]; try apply like_err. cbn in N. rewrite !andb_true_iff in N. destruct N as (Nx & Ny & _). inversion H as [|? ? Hx Hl]; subst. inversion Hl as [|? ? Hy _]; subst.
      apply like_bind; [auto|]. intros v h1. destruct (op_begin h1 v) as [h2 [lp|e]]; [|apply like_err].
      destruct (like_iterate c (fun lp => ev al (lp :: loops) (strip y)) (fun lp => ev al (lp :: loops) y) (fun lp h => Hy Ny al (lp :: loops) h) (lp_len lp) lp [] h2) as [-> K].
      destruct (iterate c _ _ lp [] root h2); subst; try apply like_err; try apply like_ret.
      unfold closure_value. destruct c; try apply like_ret. destruct (new_arr h acc). apply like_hlift.
    - (* method *) destruct N as [Na Nb]. cbn [strip eval]. apply like_bind; [auto|]. intros. apply like_bind; [apply like_seq; exact (MS l H Nb al loops)|]. intros. apply like_hlift.
  Qed.
End V.

Theorem strip_evaluate : forall X n root h, no_assign n = true -> object_or_null root -> evaluate X (strip n) root h = evaluate X n root h.
Proof. intros X n root h N R. unfold evaluate. destruct (strip_like X root R n N [] [] h) as [-> _]. reflexivity. Qed.
Lemma strip_no_assign : forall n, no_assign (strip n) = no_assign n.
Proof.
  assert (M : forall l, Forall (fun n => no_assign (strip n) = no_assign n) l -> forallb no_assign (map strip l) = forallb no_assign l).
  { intros l H. induction H as [|x l Hx Hl IH]; cbn; [reflexivity|]. now rewrite Hx, IH. }
  induction n using node_ind'; cbn [strip no_assign]; try reflexivity; try (rewrite ?IHn, ?IHn1, ?IHn2, ?IHn3; reflexivity); try (apply M; assumption).
  - induction H as [|x l [Hx Hy] Hl IH]; cbn; [reflexivity|]. now rewrite Hx, Hy, IH.
  - rewrite IHn. destruct f, t; cbn in *; rewrite ?H, ?H0; reflexivity.
  - rewrite IHn, M; auto.
Qed.
(** Trees that differ in parentheses only have the same value. *)
Theorem same_strip : forall X n m root h, strip n = strip m -> no_assign n = true -> object_or_null root -> evaluate X n root h = evaluate X m root h.
Proof.
  intros X n m root h E N R. rewrite <- (strip_evaluate X n), <- (strip_evaluate X m), E; auto. rewrite <- strip_no_assign, <- E, strip_no_assign. exact N.
Qed.
