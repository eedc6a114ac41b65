(** What it means for the engine to evaluate an expression: it compiles, and the virtual machine stops
    with that outcome, however much longer it is allowed to run. *)
From Coq Require Import String Ascii ZArith Lia Bool List Arith.
From Verif Require Import Base Dec Value Heap Ast Ops Compiler Vm Eval CompilerFacts VmFacts ExprFacts Funcs
  HeapSpec HeapFacts PureFacts.
Import ListNotations.
Local Open Scope nat_scope.

(** lib.rs:53-63 [evaluate_expression]: compile, run on the context. *)
Definition yields (X : ext) (n : node) (root : scope) (h : heap) (r : res value) (h1 : heap) : Prop :=
  exists code, compile X n = Ok code /\
    exists fuel, forall more, vm_run X (fuel + more) code root h = Some (r, h1).
Definition compiles (X : ext) (n : node) : Prop := exists code, compile X n = Ok code.

Lemma yields_iff : forall X n root h r h1,
  yields X n root h r h1 <-> (compiles X n /\ evaluate X n root h = (r, h1)).
Proof.
  intros. split.
  - intros (code & C & f & R). split; [exists code; auto|]. specialize (R 0).
    symmetry. eapply run_is_evaluate; eauto.
  - intros ((code & C) & E). exists code. split; auto. rewrite <- E. now apply run_forever.
Qed.
Lemma yields_det : forall X n root h r h1 r' h1', yields X n root h r h1 -> yields X n root h r' h1' ->
  r = r' /\ h1 = h1'.
Proof. intros. apply yields_iff in H as [_ A]. apply yields_iff in H0 as [_ B]. rewrite A in B. now injection B. Qed.

(** The environment changes by assignment only. *)
Definition same_env {A} (env : scope) (o : outc A) : Prop :=
  match o with ORet _ env1 _ => env1 = env | OErr _ _ => True end.
Lemma se_bind : forall {A B} env (o : outc A) (k : A -> scope -> heap -> outc B), same_env env o ->
  (forall v h1, same_env env (k v env h1)) -> same_env env (obind o k).
Proof. intros A B env [] k H1 H2; cbn in *; subst; auto. Qed.
Lemma se_lift : forall {A} env h (r : res A), same_env env (lift env h r).
Proof. intros A env h []; reflexivity. Qed.
Lemma se_hlift : forall {A} env (r : heap * res A), same_env env (hlift env r).
Proof. intros A env [h []]; reflexivity. Qed.
Lemma se_seq : forall {A B} (f : A -> scope -> heap -> outc B) l env,
  Forall (fun x => forall h, same_env env (f x env h)) l -> forall h, same_env env (eval_seq f l env h).
Proof.
  intros A B f l env H. induction H; intros h; cbn; [reflexivity|].
  apply se_bind; auto. intros. apply se_bind; auto. reflexivity.
Qed.
Definition sel (env : scope) (o : lout) : Prop :=
  match o with LDone _ _ e _ => e = env | LBreak _ e _ => e = env | LErr _ _ => True end.
Lemma advance_env : forall c body lp acc env h, (forall lp h, same_env env (body lp env h)) ->
  sel env (advance c body lp acc env h).
Proof.
  intros c body lp acc env h Hb. unfold advance. specialize (Hb lp h).
  destruct (body lp env h) as [v env1 h1|]; cbn [same_env sel] in *; auto. subst.
  destruct (judge c v) as [b| |]; cbn [sel]; auto.
  destruct c; cbn [sel]; auto; destruct b; cbn [sel]; auto.
  all: try match goal with |- context[op_pointer ?a ?b ?c] => destruct (op_pointer a b c) end; cbn [sel]; auto.
Qed.
Lemma iterate_env : forall c body env, (forall lp h, same_env env (body lp env h)) ->
  forall n lp acc h, sel env (iterate c body n lp acc env h).
Proof.
  intros c body env Hb. induction n; intros lp acc h; cbn; [reflexivity|].
  pose proof (advance_env c body lp acc env h Hb) as A.
  destruct (advance c body lp acc env h) as [lp1 acc1 env1 h1| |]; auto. cbn in A. subst. apply IHn.
Qed.
Lemma closure_env : forall c lp acc env h, same_env env (closure_value c lp acc env h).
Proof. intros. destruct c; cbn [closure_value]; try reflexivity. unfold new_arr, halloc. apply se_hlift. Qed.

Lemma forallb_F : forall {A} (f : A -> bool) (P : A -> Prop) l, Forall (fun x => f x = true -> P x) l ->
  forallb f l = true -> Forall P l.
Proof. intros A f P l H. induction H; cbn; rewrite ?andb_true_iff; intuition. Qed.

Lemma eval_env : forall X root n, no_assign n = true -> forall al loops env h,
  same_env env (eval X root al loops n env h).
Proof.
  intros X root.
  induction n using node_ind'; intros Hf al loops env h; cbn in Hf; cbn [eval];
    rewrite ?andb_true_iff in Hf; try reflexivity; try apply se_lift; try discriminate.
  - apply se_bind.
    + apply se_seq. eapply Forall_impl; [|exact (forallb_F _ _ _ H Hf)]. cbn. intros a Ha h0.
      apply se_bind; auto. intros. apply se_hlift.
    + intros. destruct (new_arr h1 v) as [h2 w]. apply se_lift.
  - apply se_bind; [|intros; apply se_hlift]. apply se_seq.
    eapply Forall_impl; [|exact (forallb_F _ _ _ H Hf)]. auto.
  - apply se_bind; [|intros; apply se_hlift]. apply se_seq. rewrite forallb_forall in Hf.
    rewrite Forall_forall in *. intros [a b] Hx h0.
    specialize (H _ Hx) as [Ha Hb]. specialize (Hf _ Hx). cbn in *. apply andb_true_iff in Hf as [F1 F2].
    apply se_bind; auto. intros. apply se_bind; [apply se_hlift|]. intros. apply se_bind; auto. reflexivity.
  - destruct (bound_at al s); apply se_lift.
  - apply IHn; auto.
  - apply IHn; auto.
  - destruct (materialize h env); reflexivity.
  - destruct Hf as [F1 F2]. destruct (eval_static root al (NMember n1 n2) env h) as [[h1 v]|]; [reflexivity|].
    apply se_bind; auto. intros. apply se_bind; auto. intros. apply se_lift.
  - destruct Hf as [[F1 F2] F3]. apply se_bind; auto. intros.
    apply se_bind; [destruct t; [apply H0; auto|apply se_lift]|]. intros.
    apply se_bind; [destruct f; [apply H; auto|reflexivity]|]. intros. apply se_hlift.
  - destruct Hf as [F1 F2]. apply se_bind; auto. intros. apply se_bind; auto. intros. apply se_lift.
  - destruct Hf as [[F1 F2] F3]. apply se_bind; auto. intros v h1.
    destruct v; try exact I. destruct b; auto.
  - apply se_bind; auto. intros v h1.
    destruct op as [[]|[]| | | | | | | |]; try reflexivity; try apply se_lift; exact I.
  - destruct Hf as [F1 F2]. apply se_bind; auto. intros v h1.
    assert (D : same_env env (obind (eval X root al loops n2 env h1) (fun rv env h =>
            lift env h (bin_value X op h v rv)))).
    { apply se_bind; auto. intros. apply se_lift. }
    destruct op as [|[]| | | | | | | |]; try exact D.
    + destruct v; try exact I. destruct b; [auto|reflexivity].
    + destruct v; try exact I. destruct b; [reflexivity|auto].
    + destruct v; try reflexivity. auto.
  - pose proof (forallb_F _ _ _ H Hf) as F. destruct k as [f|name|c].
    + apply se_bind; [apply se_seq; eapply Forall_impl; [|exact F]; auto|]. intros. apply se_hlift.
    + apply se_bind; [apply se_seq; eapply Forall_impl; [|exact F]; auto|]. intros. apply se_hlift.
    + destruct l as [|a0 [|a1 r]]; try exact I.
      pose proof (Forall_inv F) as P1. pose proof (Forall_inv (Forall_inv_tail F)) as P2. cbn in P1, P2.
      apply se_bind; auto. intros v h1. destruct (op_begin h1 v) as [h2 [lp|e]]; [|exact I].
      pose proof (iterate_env c (fun lp => eval X root al (lp :: loops) a1) env
        (fun lp h => P2 al (lp :: loops) env h) (lp_len lp) lp [] h2) as E.
      destruct (iterate c _ (lp_len lp) lp [] env h2); cbn in E |- *; subst; auto. apply closure_env.
  - destruct Hf as [F1 F2]. apply se_bind; auto. intros. apply se_bind; [|intros; apply se_hlift].
    apply se_seq. eapply Forall_impl; [|exact (forallb_F _ _ _ H F2)]. auto.
Qed.

(** A context-only evaluation keeps the environment. *)
Lemma yields_eval : forall X n root h v h1, no_assign n = true -> yields X n root h (Ok v) h1 ->
  eval X root [] [] n root h = ORet v root h1.
Proof.
  intros X n root h v h1 N Y. apply yields_iff in Y as [_ E]. unfold evaluate in E.
  pose proof (eval_env X root n N [] [] root h) as S.
  destruct (eval X root [] [] n root h) as [v' env' h'|]; [|discriminate]. cbn in S. injection E as -> ->. now subst.
Qed.
Lemma yields_eval_err : forall X n root h e h1, yields X n root h (Err e) h1 ->
  eval X root [] [] n root h = OErr e h1.
Proof.
  intros X n root h e h1 Y. apply yields_iff in Y as [_ E]. unfold evaluate in E.
  destruct (eval X root [] [] n root h) as [v' env' h'|]; [discriminate|]. now injection E as -> ->.
Qed.
Lemma eval_yields : forall X n root h o, compiles X n -> eval X root [] [] n root h = o ->
  match o with
  | ORet v _ h1 => yields X n root h (Ok v) h1
  | OErr e h1 => yields X n root h (Err e) h1
  end.
Proof. intros X n root h o C E. destruct o; apply yields_iff; split; auto; unfold evaluate; now rewrite E. Qed.
Lemma yields_compiles : forall X n root h r h1, yields X n root h r h1 -> compiles X n.
Proof. intros. now apply yields_iff in H. Qed.

Lemma compiles_binary : forall X a b op, compiles X a -> compiles X b ->
  (simple_binop op <> None \/ short_binop op <> None) -> compiles X (NBinary a op b).
Proof.
  intros X a b op [ca A] [cb B] H. unfold compiles. setoid_rewrite compile_cgen. rewrite compile_cgen in A, B.
  cbn [cgen]. rewrite A, B. destruct (simple_binop op); cbn; eauto. destruct (short_binop op); cbn; eauto.
  destruct H; congruence.
Qed.
Lemma compiles_interval : forall X a b l r, compiles X a -> compiles X b -> compiles X (NInterval a b l r).
Proof.
  intros X a b l r [ca A] [cb B]. unfold compiles. setoid_rewrite compile_cgen. rewrite compile_cgen in A, B.
  cbn [cgen]. rewrite A, B. cbn. eauto.
Qed.
Lemma compiles_not : forall X a, compiles X a -> compiles X (NUnary a (OpLogic LNot)).
Proof.
  intros X a [ca A]. unfold compiles. setoid_rewrite compile_cgen. rewrite compile_cgen in A.
  cbn [cgen]. rewrite A. cbn. eauto.
Qed.
Lemma compiles_slice : forall X x f t, compiles X x ->
  match f with Some f => compiles X f | None => True end ->
  match t with Some t => compiles X t | None => True end -> compiles X (NSlice x f t).
Proof.
  intros X x f t [cx A] F T. unfold compiles in *. setoid_rewrite compile_cgen. rewrite compile_cgen in A.
  cbn [cgen]. rewrite A. cbn [bind].
  destruct t as [t|]; [destruct T as [ct T]; rewrite compile_cgen in T; rewrite T|]; cbn [bind];
  (destruct f as [f|]; [destruct F as [cf F]; rewrite compile_cgen in F; rewrite F|]; cbn [bind]; eauto).
Qed.
(** Closure functions compile when their parts do, whichever function it is. *)
Lemma compiles_closure : forall X c c' a0 a1, compiles X (NCall (FClosure c) [a0; a1]) ->
  compiles X (NCall (FClosure c') [a0; a1]).
Proof.
  intros X c c' a0 a1 [k A]. unfold compiles. setoid_rewrite compile_cgen. rewrite compile_cgen in A.
  cbn [cgen] in *. destruct (cgen X [] a0); [|discriminate]. cbn [bind] in *.
  destruct (cgen X [] a1); [|discriminate]. cbn. eauto.
Qed.
Lemma compiles_call1 : forall X f a, compiles X a -> x_arity X f = Some (1, 1) ->
  (forall c, f <> FClosure c) -> compiles X (NCall f [a]).
Proof.
  intros X f a [ca A] Ar Nc. unfold compiles. setoid_rewrite compile_cgen. rewrite compile_cgen in A.
  cbn [cgen]. destruct f; try (exfalso; eapply Nc; reflexivity); rewrite Ar; cbn; rewrite A; cbn; eauto.
Qed.
