(** Facts about whole-expression runs: kinds of errors, code bounds, short-circuiting. *)
From Coq Require Import String Ascii ZArith Lia Bool List Arith.
From Verif Require Import Base Dec Value Heap Ast Ops Compiler CompilerFacts Vm Eval VmFacts.
Import ListNotations.
Local Open Scope nat_scope.

(** ** Which errors can occur *)
Definition panics (X : ext) (w : string) : Prop :=
  (exists k args h h', x_call X k args h = (h', Err (EPanic w))) \/
  (exists k args h h', x_method X k args h = (h', Err (EPanic w))).
Definition soft (X : ext) (e : err) : Prop :=
  match e with EOp _ => True | EPanic w => panics X w | _ => False end.
Definition softr {A} (X : ext) (r : res A) : Prop := match r with Ok _ => True | Err e => soft X e end.
Definition softo {A} (X : ext) (o : outc A) : Prop := match o with ORet _ _ _ => True | OErr e _ => soft X e end.

Section WithExt.
  Variable X : ext.

  Lemma softr_bind : forall {A B} (r : res A) (f : A -> res B),
    softr X r -> (forall a, softr X (f a)) -> softr X (bind r f).
  Proof. intros. destruct r; cbn; auto. Qed.
  Lemma softr_opt : forall {A} (o : option A) s, softr X (of_option o (EOp s)).
  Proof. destruct o; cbn; auto. Qed.
  Lemma softo_bind : forall {A B} (o : outc A) (k : A -> scope -> heap -> outc B),
    softo X o -> (forall v env h, softo X (k v env h)) -> softo X (obind o k).
  Proof. intros. destruct o; cbn; auto. Qed.
  Lemma softo_lift : forall {A} env h (r : res A), softr X r -> softo X (lift env h r).
  Proof. destruct r; cbn; auto. Qed.
  Lemma softo_hlift : forall {A} env (r : heap * res A), softr X (snd r) -> softo X (hlift env r).
  Proof. destruct r as [h []]; cbn; auto. Qed.
  Lemma softo_seq : forall {A B} (f : A -> scope -> heap -> outc B) l,
    Forall (fun x => forall env h, softo X (f x env h)) l ->
    forall env h, softo X (eval_seq f l env h).
  Proof.
    induction 1; intros; cbn; auto.
    apply softo_bind; auto. intros. apply softo_bind; [apply IHForall|]. cbn; auto.
  Qed.

  Ltac crush := repeat match goal with
    | |- softr _ (bind _ _) => apply softr_bind; intros
    | |- softr _ (of_option _ _) => apply softr_opt
    | |- softr _ (Ok _) => exact I
    | |- softr _ (Err (EOp _)) => exact I
    | |- softr _ (snd (_, _)) => cbn [snd]
    | |- context[match ?x with _ => _ end] => destruct x
    end.

  Lemma soft_call : forall k args h, softr X (snd (op_call X k args h)).
  Proof.
    intros. unfold op_call. destruct (x_arity X k); cbn; auto.
    destruct (x_call X k args h) as [h1 [v|[| | |w]]] eqn:E; cbn; auto. left. eauto 6.
  Qed.
  Lemma soft_method : forall k args h, softr X (snd (op_method X k args h)).
  Proof.
    intros. unfold op_method. destruct (x_marity X k); cbn; auto.
    destruct (x_method X k args h) as [h1 [v|[| | |w]]] eqn:E; cbn; auto. right. eauto 6.
  Qed.
  Lemma soft_fetch : forall h a b, softr X (op_fetch h a b).
  Proof. intros. unfold op_fetch. crush. Qed.
  Lemma soft_fetch_env : forall h env s, softr X (op_fetch_env h env s).
  Proof. intros. unfold op_fetch_env. crush. Qed.
  Lemma soft_pointer : forall h ls d, softr X (op_pointer h ls d).
  Proof. intros. unfold op_pointer. crush. Qed.
  Lemma soft_in : forall h a b, softr X (op_in h a b).
  Proof.
    intros. unfold op_in. destruct a, b; cbn; auto; try (destruct d; cbn; auto); try (destruct d0; cbn; auto);
    apply softr_bind; cbn; auto; apply softr_opt.
  Qed.
  Lemma soft_not : forall a, softr X (op_not a).
  Proof. destruct a; cbn; auto. Qed.
  Lemma soft_bin : forall op h a b, softr X (bin_value X op h a b).
  Proof.
    intros. unfold bin_value. destruct op as [[]|[]|[]| | | | | | |]; cbn; auto;
    try apply soft_in; try (apply softr_bind; [apply soft_in|intros; apply soft_not]);
    unfold op_add, op_sub, op_mul, op_div, op_mod, op_pow, op_compare; crush.
  Qed.
  Lemma soft_slice : forall h a b c, softr X (snd (op_slice h a b c)).
  Proof. intros. unfold op_slice, new_arr, halloc. crush. Qed.
  Lemma soft_begin : forall h a, softr X (snd (op_begin h a)).
  Proof. intros. unfold op_begin, new_arr, halloc. crush. Qed.
  Lemma soft_flatten : forall h a, softr X (snd (op_flatten h a)).
  Proof. intros. unfold op_flatten, new_arr, halloc. crush. Qed.
  Lemma soft_assign : forall h env os k v, softr X (snd (op_assign h env os k v)).
  Proof. intros. unfold op_assign. crush. Qed.
  Lemma soft_build : forall l m, softr X (build_object l m).
  Proof. induction l as [|[[] v] r IH]; cbn; auto. Qed.
  Lemma soft_join : forall h a b, softr X (op_join h a b).
  Proof. intros. unfold op_join. crush. Qed.
  Lemma soft_interval : forall lb rb a b, softr X (op_interval lb rb a b).
  Proof. intros. unfold op_interval. crush. Qed.
  Lemma soft_len : forall h a, softr X (op_len h a).
  Proof. intros. unfold op_len. crush. Qed.

  Definition softl (o : lout) : Prop := match o with LErr e _ => soft X e | _ => True end.
  Lemma soft_advance : forall c body lp acc env h,
    (forall lp env h, softo X (body lp env h)) -> softl (advance c body lp acc env h).
  Proof.
    intros c body lp acc env h H. unfold advance. specialize (H lp env h).
    destruct (body lp env h); [|exact H].
    destruct (judge c v) eqn:J; try exact I.
    - destruct c; try exact I. destruct take; try exact I.
      match goal with |- context[op_pointer ?a ?b ?c] =>
        pose proof (soft_pointer a b c); destruct (op_pointer a b c); auto; exact I end.
    - destruct c, v; cbn in J; try (destruct b); try discriminate; injection J as <-; cbn; auto.
  Qed.
  Lemma soft_iterate : forall c body n lp acc env h,
    (forall lp env h, softo X (body lp env h)) -> softl (iterate c body n lp acc env h).
  Proof.
    induction n; intros; cbn; auto.
    pose proof (soft_advance c body lp acc env h H).
    destruct (advance c body lp acc env h); cbn in *; auto.
  Qed.

  Theorem eval_soft : forall root n al loops env h, softo X (eval X root al loops n env h).
  Proof.
    intros root n. induction n using node_ind'; intros; cbn [eval]; try (cbn; auto; fail).
    - (* template *)
      apply softo_bind.
      + apply softo_seq. revert H. apply Forall_impl. intros. apply softo_bind; auto.
        intros. apply softo_hlift, soft_call.
      + intros. unfold new_arr, halloc. apply softo_lift, soft_join.
    - apply softo_lift, soft_pointer.
    - apply softo_bind; [|cbn; auto]. apply softo_seq. revert H. apply Forall_impl. auto.
    - apply softo_bind.
      + apply softo_seq. revert H. apply Forall_impl. intros x [] env0 h0.
        apply softo_bind; auto. intros. apply softo_bind; [apply softo_hlift, soft_call|].
        intros. apply softo_bind; auto. cbn; auto.
      + intros. apply softo_hlift.
        match goal with |- context[build_object ?a ?b] => pose proof (soft_build a b);
          destruct (build_object a b); cbn in *; auto end.
    - (* assign *)
      unfold new_obj, halloc. apply softo_bind.
      + apply softo_seq. revert H. apply Forall_impl. intros x [] env0 h0.
        apply softo_bind; auto. intros. apply softo_bind; auto. intros.
        match goal with |- context[op_assign ?a ?b ?c ?d ?e] => pose proof (soft_assign a b c d e);
          destruct (op_assign a b c d e) as [? []]; cbn in *; auto end.
      + intros. destruct o; cbn in *; auto.
    - destruct (bound_at al s); apply softo_lift; [apply soft_pointer|apply soft_fetch_env].
    - unfold materialize. destruct (sc_locals env), (sc_base env); cbn; auto; destruct (hobj h l); cbn; auto;
      destruct (hobj h l0); cbn; auto.
    - (* member *)
      match goal with |- softo _ (match ?x with _ => _ end) => destruct x as [[]|]; cbn; auto end.
      apply softo_bind; auto. intros. apply softo_bind; auto. intros. apply softo_lift, soft_fetch.
    - (* slice *)
      apply softo_bind; auto. intros. apply softo_bind.
      + destruct t; cbn in *; auto. apply softo_lift, softr_bind; [apply soft_len|].
        intros. apply (soft_bin (OpArith ASub)). exact [].
      + intros. apply softo_bind; [destruct f; cbn in *; auto|]. intros. apply softo_hlift, soft_slice.
    - apply softo_bind; auto. intros. apply softo_bind; auto. intros. apply softo_lift, soft_interval.
    - apply softo_bind; auto. intros. destruct v; cbn; auto. destruct b; auto.
    - apply softo_bind; auto. intros. destruct op as [[]|[]|[]| | | | | | |]; cbn; auto.
      + destruct v; cbn; auto.
      + destruct v; cbn; auto.
    - (* binary *)
      apply softo_bind; auto. intros.
      destruct op as [a|[]|c| | | | | | |];
        try (destruct v; cbn; auto; destruct b; cbn; auto; fail);
        (apply softo_bind; [auto|intros; apply softo_lift, soft_bin]).
    - (* call *)
      destruct k as [f|d|c].
      + apply softo_bind; [|intros; apply softo_hlift, soft_call].
        apply softo_seq. revert H. apply Forall_impl. auto.
      + apply softo_bind; [|intros; apply softo_hlift, soft_call].
        apply softo_seq. revert H. apply Forall_impl. auto.
      + destruct l as [|a0 [|a1 r]]; cbn; auto. inversion H as [|? ? H0 H']; subst.
        inversion H' as [|? ? H1 ?]; subst.
        apply softo_bind; auto. intros. pose proof (soft_begin h0 v) as HB.
        destruct (op_begin h0 v) as [h1 [lp|e]]; cbn in *; auto.
        pose proof (soft_iterate c (fun lp => eval X root al (lp :: loops) a1) (lp_len lp) lp [] env0 h1
                      ltac:(intros; apply H1)) as HI.
        destruct (iterate _ _ _ _ _ _ _); cbn in *; auto.
        unfold closure_value, new_arr, halloc.
        destruct c; try exact I; apply softo_hlift, soft_flatten.
    - apply softo_bind; auto. intros. apply softo_bind; [|intros; apply softo_hlift, soft_method].
      apply softo_seq. revert H. apply Forall_impl. auto.
  Qed.
End WithExt.

(** ** Jumps stay inside the code *)
Definition jump_in (len i : nat) (op : opcode) : Prop :=
  match op with
  | OJump JBackward j => j <= S i
  | OJump _ j => S i + j <= len
  | _ => True
  end.
Definition closed (c : list opcode) : Prop :=
  forall i op, nth_error c i = Some op -> jump_in (length c) i op.

Lemma closed_nil : closed [].
Proof. intros [|i] op; discriminate. Qed.
Lemma closed_app : forall a b, closed a -> closed b -> closed (a ++ b).
Proof.
  intros a b Ha Hb i op H. rewrite app_length. destruct (Nat.lt_ge_cases i (length a)).
  - rewrite nth_error_app1 in H by auto. specialize (Ha _ _ H).
    destruct op; auto. destruct j; cbn in *; lia.
  - rewrite nth_error_app2 in H by auto. specialize (Hb _ _ H).
    destruct op; auto. destruct j; cbn in *; lia.
Qed.
Lemma closed_cons : forall a b, (match a with OJump JBackward j => j <= 1 | OJump _ j => j <= length b | _ => True end) ->
  closed b -> closed (a :: b).
Proof.
  intros a b Ha Hb [|i] op H; cbn in *.
  - injection H as <-. destruct a; auto. destruct j; cbn; lia.
  - specialize (Hb _ _ H). destruct op; auto. destruct j; cbn in *; lia.
Qed.
Lemma closed_block : forall b j1 j2, closed b -> j1 <= length b + 2 -> j2 <= length b + 3 ->
  closed (OJump JIfEnd j1 :: b ++ [OIncIt; OJump JBackward j2]).
Proof.
  intros b j1 j2 Hb H1 H2 i op H. cbn [length] in *. rewrite app_length. cbn [length].
  destruct i; cbn in H.
  - injection H as <-. cbn. lia.
  - destruct (Nat.lt_ge_cases i (length b)).
    + rewrite nth_error_app1 in H by auto. specialize (Hb _ _ H).
      destruct op; auto. destruct j; cbn in *; lia.
    + rewrite nth_error_app2 in H by auto. destruct (i - length b) as [|[|k]] eqn:E; cbn in H.
      * injection H as <-. exact I.
      * injection H as <-. cbn. lia.
      * destruct k; discriminate.
Qed.

Ltac closed_simple := repeat (apply closed_cons; [cbn; repeat rewrite app_length; cbn; lia|]); apply closed_nil.

(** A break jump out of a loop body: jumping past the end of the body is allowed up to [k]. *)
Definition closed_up (k : nat) (c : list opcode) : Prop :=
  forall i op, nth_error c i = Some op -> jump_in (length c + k) i op.
Lemma closed_up_loop : forall b k tail, closed_up k b -> k <= 2 + length tail ->
  closed tail ->
  closed (loop_code b ++ tail).
Proof.
  intros b k tail Hb Hk Ht. unfold loop_code. intros i op H. cbn [app length] in *.
  rewrite !app_length. cbn [length]. destruct i; cbn in H.
  - injection H as <-. cbn. lia.
  - rewrite <- app_assoc in H. destruct (Nat.lt_ge_cases i (length b)).
    + rewrite nth_error_app1 in H by auto. specialize (Hb _ _ H).
      destruct op; auto. destruct j; cbn in *; lia.
    + rewrite nth_error_app2 in H by auto. destruct (i - length b) as [|[|m]] eqn:E; cbn in H.
      * injection H as <-. exact I.
      * injection H as <-. cbn. lia.
      * specialize (Ht _ _ H). destruct op; auto. destruct j; cbn in *; lia.
Qed.
Lemma closed_up_app : forall k a b, closed a -> closed_up k b -> closed_up k (a ++ b).
Proof.
  intros k a b Ha Hb i op H. rewrite app_length. destruct (Nat.lt_ge_cases i (length a)).
  - rewrite nth_error_app1 in H by auto. specialize (Ha _ _ H).
    destruct op; auto. destruct j; cbn in *; lia.
  - rewrite nth_error_app2 in H by auto. specialize (Hb _ _ H).
    destruct op; auto. destruct j; cbn in *; lia.
Qed.
Lemma closed_closed_up : forall k a, closed a -> closed_up k a.
Proof.
  intros k a Ha i op H. specialize (Ha _ _ H). destruct op; auto. destruct j; cbn in *; lia.
Qed.

Lemma closed_cond : forall b, closed b -> closed (cond_code b).
Proof.
  intros. unfold cond_code. apply closed_cons; [cbn [length]; rewrite ?app_length; cbn; lia|].
  apply closed_cons; [exact I|]. apply closed_app; auto. closed_simple.
Qed.

Lemma closed_closure : forall c b, closed b -> closed (closure_code c b).
Proof.
  intros c b H. unfold closure_code. apply closed_cons; [exact I|].
  assert (U : forall l k, (forall i op, nth_error l i = Some op -> jump_in (length l + k) i op) ->
              closed_up k (b ++ l)) by (intros; apply closed_up_app; auto).
  assert (C : forall x tail, closed x -> closed tail -> closed (loop_code (b ++ x) ++ tail)).
  { intros. eapply closed_up_loop with (k := 0); [|lia|auto].
    apply closed_closed_up, closed_app; auto. }
  assert (B : forall tail, closed tail -> closed (loop_code b ++ tail)).
  { intros. eapply closed_up_loop with (k := 0); [|lia|auto]. now apply closed_closed_up. }
  destruct c.
  - eapply closed_up_loop with (k := 3); [apply U| |closed_simple]; [|cbn; lia].
    intros [|[|[]]] op E; cbn in E; inversion E; cbn; auto; lia.
  - eapply closed_up_loop with (k := 3); [apply U| |closed_simple]; [|cbn; lia].
    intros [|[|[|[]]]] op E; cbn in E; inversion E; cbn; auto; lia.
  - eapply closed_up_loop with (k := 3); [apply U| |closed_simple]; [|cbn; lia].
    intros [|[|[]]] op E; cbn in E; inversion E; cbn; auto; lia.
  - apply C; [apply closed_cond; closed_simple|closed_simple].
  - apply C; [apply closed_cond; closed_simple|closed_simple].
  - apply B; closed_simple.
  - apply B; closed_simple.
  - apply C; [apply closed_cond; closed_simple|closed_simple].
Qed.

Lemma closed_rconcat : forall {A} (f : A -> res (list opcode)) l,
  Forall (fun x => forall c, f x = Ok c -> closed c) l ->
  forall c, rconcat f l = Ok c -> closed c.
Proof.
  induction 1; cbn; intros c E.
  - injection E as <-. apply closed_nil.
  - destruct (f x) eqn:Ex; cbn in E; [|discriminate].
    destruct (rconcat f l) eqn:El; cbn in E; [|discriminate].
    injection E as <-. apply closed_app; auto.
Qed.

Ltac ibind E := repeat match type of E with
  | bind ?r _ = Ok _ => let c := fresh "c" in let H := fresh "E" in
      destruct r as [c|] eqn:H; cbn in E; [|discriminate]
  end.

Lemma cgen_closed : forall X n al code, cgen X al n = Ok code -> closed code.
Proof.
  intros X n. induction n using node_ind'; intros al code E; cbn [cgen] in E;
    try (injection E as <-; closed_simple).
  - ibind E. injection E as <-. apply closed_app; [|closed_simple].
    eapply closed_rconcat; [|eauto]. revert H. apply Forall_impl. intros x Hx cx Ex. ibind Ex.
    injection Ex as <-. apply closed_app; eauto. closed_simple.
  - ibind E. injection E as <-. apply closed_app; [|closed_simple].
    eapply closed_rconcat; [|eauto]. revert H. apply Forall_impl. eauto.
  - ibind E. injection E as <-. apply closed_app; [|closed_simple].
    eapply closed_rconcat; [|eauto]. revert H. apply Forall_impl. intros x [] cx Ex. ibind Ex.
    injection Ex as <-. apply closed_app; eauto. apply closed_cons; [exact I|]. eauto.
  - ibind E. injection E as <-. apply closed_cons; [exact I|]. apply closed_app; [|apply closed_app].
    + eapply closed_rconcat; [|eauto]. revert H. apply Forall_impl. intros x [] cx Ex. ibind Ex.
      injection Ex as <-. apply closed_app; eauto. apply closed_app; eauto. closed_simple.
    + destruct o; cbn in *; eauto. injection E1 as <-. apply closed_nil.
    + closed_simple.
  - injection E as <-. destruct (lookup_alias al s); closed_simple.
  - eauto.
  - eauto.
  - destruct (compile_member_fast _ _).
    + injection E as <-. closed_simple.
    + ibind E. injection E as <-. apply closed_app; eauto. apply closed_app; eauto. closed_simple.
  - ibind E. injection E as <-. apply closed_app; eauto. apply closed_app; [|apply closed_app].
    + destruct t; cbn in *; eauto. injection E1 as <-. closed_simple.
    + destruct f; cbn in *; eauto. injection E2 as <-. closed_simple.
    + closed_simple.
  - ibind E. injection E as <-. apply closed_app; eauto. apply closed_app; eauto. closed_simple.
  - ibind E. injection E as <-. apply closed_app; eauto.
    apply closed_cons; [cbn; rewrite app_length; cbn; lia|].
    apply closed_cons; [exact I|]. apply closed_app; eauto.
    apply closed_cons; [cbn; lia|]. apply closed_cons; [exact I|]. eauto.
  - ibind E. destruct op as [[]|[]|[]| | | | | | |]; try discriminate; injection E as <-; eauto;
    apply closed_app; eauto; closed_simple.
  - destruct (simple_binop op) eqn:Es.
    + ibind E. injection E as <-. apply closed_app; eauto. apply closed_app; eauto.
      destruct op as [[]|[]|[]| | | | | | |]; try discriminate; injection Es as <-; closed_simple.
    + destruct (short_binop op) eqn:Eh; [|discriminate]. ibind E. injection E as <-.
      apply closed_app; eauto. apply closed_cons.
      * destruct op as [[]|[]|[]| | | | | | |]; try discriminate; injection Eh as <-; cbn; lia.
      * apply closed_cons; [exact I|]. eauto.
  - destruct k.
    + destruct (x_arity X (FInternal f)); [|discriminate]. destruct (arity_ok _ _); [|discriminate].
      ibind E. injection E as <-. apply closed_app; [|closed_simple].
      eapply closed_rconcat; [|eauto]. revert H. apply Forall_impl. eauto.
    + destruct (x_arity X (FDeprecated name)); [|discriminate]. destruct (arity_ok _ _); [|discriminate].
      ibind E. injection E as <-. apply closed_app; [|closed_simple].
      eapply closed_rconcat; [|eauto]. revert H. apply Forall_impl. eauto.
    + destruct l as [|a0 [|a1 r]]; cbn in E; try discriminate.
      { destruct (cgen X al a0); discriminate. }
      ibind E. injection E as <-. inversion H as [|? ? H0 H']; subst. inversion H'; subst.
      apply closed_app; eauto. apply closed_closure. eauto.
  - destruct (x_marity X k); [|discriminate]. ibind E. destruct (arity_ok _ _); [|discriminate].
    ibind E. injection E as <-. apply closed_app; eauto. apply closed_app; [|closed_simple].
    eapply closed_rconcat; [|eauto]. revert H. apply Forall_impl. eauto.
  - discriminate.
Qed.

(** Machine states: every step keeps the instruction pointer within the code (its length means: stop). *)
Lemma step_ip : forall X root code s s', closed code -> vip s <= length code ->
  step X root code s = Running s' -> vip s' <= length code.
Proof.
  intros X root code s s' HC Hip H. unfold step in H.
  destruct (nth_error code (vip s)) as [op|] eqn:E.
  2:{ destruct (vstk s); discriminate. }
  pose proof (nth_error_Some code (vip s)) as Hl. rewrite E in Hl.
  assert (Hlt : vip s < length code) by (apply Hl; discriminate). clear Hl.
  specialize (HC _ _ E). destruct s as [ip stk scs env asg h]; cbn in *.
  assert (N : forall k, Running k = Running s' -> vip k = S ip -> vip s' <= length code).
  { intros k [= ->] ->. lia. }
  Ltac fin := match goal with
    | H : Done _ _ = Running _ |- _ => discriminate
    | H : Running ?k = Running ?s |- vip ?s <= _ => injection H as <-; cbn; lia
    end.
  Ltac go H := repeat (unfold pop1, pop2, push_res, push_hres, next, fail, goto in H; cbn in H;
    match type of H with
    | context[match ?x with _ => _ end] => destruct x eqn:?
    | context[let (_, _) := ?x in _] => destruct x eqn:?
    end); unfold next, fail, goto in H; cbn in H; try fin.
  destruct op; unfold exec in H; cbn in H; go H;
  injection H as <-; cbn in *; repeat match goal with |- context[if ?b then _ else _] => destruct b end; lia.

Qed.

Lemma steps_ip : forall X root code s s', closed code -> vip s <= length code ->
  steps X root code s s' -> vip s' <= length code.
Proof.
  intros X root code s s' HC Hs H. induction H; auto. apply IHsteps. eapply step_ip; eauto.
Qed.

(** ** Whole runs *)
Lemma run_forever : forall X n code root h, compile X n = Ok code ->
  exists fuel, forall k, vm_run X (fuel + k) code root h = Some (evaluate X n root h).
Proof.
  intros. destruct (run_evaluate X n code root h H) as [f Hf]. exists f. intros.
  unfold vm_run in *. apply run_mono. auto.
Qed.

Lemma run_is_evaluate : forall X n code root h fuel r, compile X n = Ok code ->
  vm_run X fuel code root h = Some r -> r = evaluate X n root h.
Proof.
  intros. destruct (run_evaluate X n code root h H) as [f Hf].
  unfold vm_run in *. eapply run_det; eauto.
Qed.

Lemma compile_bin_parts : forall X l op r code, compile X (NBinary l op r) = Ok code ->
  exists cl cr, compile X l = Ok cl /\ compile X r = Ok cr.
Proof.
  intros X l op r code H. rewrite compile_cgen in H. cbn [cgen] in H.
  destruct (simple_binop op); [|destruct (short_binop op); [|discriminate]]; ibind H;
  rewrite !compile_cgen; eauto.
Qed.

Lemma evaluate_and_false : forall X l r root h h1,
  evaluate X l root h = (Ok (VBool false), h1) ->
  evaluate X (NBinary l (OpLogic LAnd) r) root h = (Ok (VBool false), h1).
Proof.
  unfold evaluate. intros. cbn [eval].
  destruct (eval X root [] [] l root h); cbn; inversion H; subst; auto.
Qed.
Lemma evaluate_or_true : forall X l r root h h1,
  evaluate X l root h = (Ok (VBool true), h1) ->
  evaluate X (NBinary l (OpLogic LOr) r) root h = (Ok (VBool true), h1).
Proof.
  unfold evaluate. intros. cbn [eval].
  destruct (eval X root [] [] l root h); cbn; inversion H; subst; auto.
Qed.
Lemma evaluate_nullish : forall X l r root h h1 v, v <> VNull ->
  evaluate X l root h = (Ok v, h1) ->
  evaluate X (NBinary l (OpLogic LNullish) r) root h = (Ok v, h1).
Proof.
  unfold evaluate. intros. cbn [eval].
  destruct (eval X root [] [] l root h); cbn; inversion H0; subst; auto.
  destruct v; congruence.
Qed.
Lemma evaluate_cond_true : forall X c t f f' root h h1,
  evaluate X c root h = (Ok (VBool true), h1) ->
  evaluate X (NCond c t f) root h = evaluate X (NCond c t f') root h.
Proof.
  unfold evaluate. intros. cbn [eval].
  destruct (eval X root [] [] c root h); cbn; inversion H; subst; auto.
Qed.
Lemma evaluate_cond_false : forall X c t t' f root h h1,
  evaluate X c root h = (Ok (VBool false), h1) ->
  evaluate X (NCond c t f) root h = evaluate X (NCond c t' f) root h.
Proof.
  unfold evaluate. intros. cbn [eval].
  destruct (eval X root [] [] c root h); cbn; inversion H; subst; auto.
Qed.

Lemma code_one_result : forall X n code root,
  compile X n = Ok code -> forall stk loops env asg h,
  (exists v env1 h1,
     steps X root code (VM 0 stk loops env asg h) (VM (length code) (v :: stk) loops env1 asg h1))
  \/ (exists e h1, fails X root code (VM 0 stk loops env asg h) e h1).
Proof.
  intros X n code root E stk loops env asg h. rewrite compile_cgen in E.
  assert (S := simulation X root code n [] code E 0 (at_code_whole code) stk loops env asg h).
  destruct (eval X root [] loops n env h); cbn [simto] in S; eauto 6.
Qed.

Lemma run_terminates : forall X n code root h,
  compile X n = Ok code ->
  exists r, (exists fuel, vm_run X fuel code root h = Some r) /\
            (forall fuel r', vm_run X fuel code root h = Some r' -> r' = r).
Proof.
  intros. exists (evaluate X n root h). split; [now apply run_evaluate|].
  intros. eapply run_is_evaluate; eauto.
Qed.

Lemma code_stays_inside : forall X n code root stk loops env asg h s,
  compile X n = Ok code ->
  steps X root code (VM 0 stk loops env asg h) s -> vip s <= length code.
Proof.
  intros X n code root stk loops env asg h s E S. rewrite compile_cgen in E.
  eapply steps_ip; eauto using cgen_closed. cbn. lia.
Qed.

Lemma run_error_kinds : forall X n code root h fuel e h1,
  compile X n = Ok code -> vm_run X fuel code root h = Some (Err e, h1) ->
  (exists op, e = EOp op) \/
  (exists w, e = EPanic w /\
     ((exists k args h h', x_call X k args h = (h', Err (EPanic w))) \/
      (exists k args h h', x_method X k args h = (h', Err (EPanic w))))).
Proof.
  intros X n code root h fuel e h1 E R. apply run_is_evaluate with (n := n) in R; auto.
  unfold evaluate in R. pose proof (eval_soft X root n [] [] root h) as S.
  destruct (eval X root [] [] n root h); inversion R; subst. cbn in S.
  destruct e0; cbn in S; try contradiction; eauto 6.
Qed.

Lemma run_and_false : forall X l r cl c root h h1 fuel,
  compile X l = Ok cl -> vm_run X fuel cl root h = Some (Ok (VBool false), h1) ->
  compile X (NBinary l (OpLogic LAnd) r) = Ok c ->
  exists fuel', vm_run X fuel' c root h = Some (Ok (VBool false), h1).
Proof.
  intros. apply run_is_evaluate with (n := l) in H0; auto.
  destruct (run_evaluate _ _ _ root h H1) as [f R]. exists f. rewrite R. f_equal.
  apply evaluate_and_false; auto.
Qed.
Lemma run_or_true : forall X l r cl c root h h1 fuel,
  compile X l = Ok cl -> vm_run X fuel cl root h = Some (Ok (VBool true), h1) ->
  compile X (NBinary l (OpLogic LOr) r) = Ok c ->
  exists fuel', vm_run X fuel' c root h = Some (Ok (VBool true), h1).
Proof.
  intros. apply run_is_evaluate with (n := l) in H0; auto.
  destruct (run_evaluate _ _ _ root h H1) as [f R]. exists f. rewrite R. f_equal.
  apply evaluate_or_true; auto.
Qed.
Lemma run_nullish : forall X l r cl c root h h1 v fuel,
  compile X l = Ok cl -> vm_run X fuel cl root h = Some (Ok v, h1) -> v <> VNull ->
  compile X (NBinary l (OpLogic LNullish) r) = Ok c ->
  exists fuel', vm_run X fuel' c root h = Some (Ok v, h1).
Proof.
  intros. apply run_is_evaluate with (n := l) in H0; auto.
  destruct (run_evaluate _ _ _ root h H2) as [f R]. exists f. rewrite R. f_equal.
  apply evaluate_nullish; auto.
Qed.
Lemma run_cond_untaken : forall X cnd t f f' cc c1 c2 root h h1 b fuel,
  compile X cnd = Ok cc -> vm_run X fuel cc root h = Some (Ok (VBool b), h1) ->
  compile X (if b then NCond cnd t f else NCond cnd f t) = Ok c1 ->
  compile X (if b then NCond cnd t f' else NCond cnd f' t) = Ok c2 ->
  exists r f1 f2, vm_run X f1 c1 root h = Some r /\ vm_run X f2 c2 root h = Some r.
Proof.
  intros. apply run_is_evaluate with (n := cnd) in H0; auto. symmetry in H0.
  destruct b.
  - destruct (run_evaluate _ _ _ root h H1) as [f1 R1], (run_evaluate _ _ _ root h H2) as [f2 R2].
    rewrite (evaluate_cond_true X cnd t f' f root h h1 H0) in R2. eauto 6.
  - destruct (run_evaluate _ _ _ root h H1) as [f1 R1], (run_evaluate _ _ _ root h H2) as [f2 R2].
    rewrite (evaluate_cond_false X cnd f' f t root h h1 H0) in R2. eauto 6.
Qed.
Lemma eval_and_true : forall X l r root h env1 h1,
  eval X root [] [] l root h = ORet (VBool true) env1 h1 ->
  eval X root [] [] (NBinary l (OpLogic LAnd) r) root h = eval X root [] [] r env1 h1.
Proof. intros. cbn [eval]. rewrite H. reflexivity. Qed.
