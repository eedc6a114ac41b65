(** Simulation: compiled code run by the machine computes what the evaluator computes. *)
From Coq Require Import String Ascii ZArith Lia Bool List Arith.
From Verif Require Import Base Dec Value Heap Ast Ops Compiler CompilerFacts Vm Eval.
Import ListNotations.
Local Open Scope nat_scope.

Definition at_code (code : list opcode) (pc : nat) (ops : list opcode) : Prop :=
  exists pre post, code = pre ++ ops ++ post /\ length pre = pc.

Lemma at_code_app : forall code pc a b, at_code code pc (a ++ b) ->
  at_code code pc a /\ at_code code (pc + length a) b.
Proof.
  intros code pc a b (pre & post & E & L). split.
  - exists pre, (b ++ post). split; auto. now rewrite <- app_assoc in E.
  - exists (pre ++ a), post. split; [now rewrite <- !app_assoc in *|]. rewrite app_length. lia.
Qed.

Lemma at_code_cons : forall code pc a b, at_code code pc (a :: b) ->
  nth_error code pc = Some a /\ at_code code (S pc) b.
Proof.
  intros code pc a b H. split.
  - destruct H as (pre & post & E & L). subst. rewrite nth_error_app2 by lia.
    now rewrite Nat.sub_diag.
  - change (a :: b) with ([a] ++ b) in H. apply at_code_app in H.
    cbn in H. now rewrite Nat.add_1_r in H.
Qed.

Lemma at_code_whole : forall code, at_code code 0 code.
Proof. intros. exists [], []. cbn. now rewrite app_nil_r. Qed.

Section WithExt.
  Variable X : ext.
  Variable root : scope.
  Variable code : list opcode.

  Inductive steps : vmstate -> vmstate -> Prop :=
  | steps_refl : forall s, steps s s
  | steps_step : forall s s' s'', step X root code s = Running s' -> steps s' s'' -> steps s s''.

  Definition fails (s : vmstate) (e : err) (h : heap) : Prop :=
    exists s', steps s s' /\ step X root code s' = Done (Err e) h.

  Lemma steps_trans : forall a b c, steps a b -> steps b c -> steps a c.
  Proof. induction 1; auto. intros. econstructor; eauto. Qed.
  Lemma steps_one : forall a b, step X root code a = Running b -> steps a b.
  Proof. intros. econstructor; eauto. constructor. Qed.
  Lemma steps_fails : forall a b e h, steps a b -> fails b e h -> fails a e h.
  Proof. intros a b e h H (s & H1 & H2). exists s. split; auto. eapply steps_trans; eauto. Qed.
  Lemma fails_now : forall a e h, step X root code a = Done (Err e) h -> fails a e h.
  Proof. intros. exists a. split; auto. constructor. Qed.

  Definition simto {A} (s : vmstate) (o : outc A) (st : A -> scope -> heap -> vmstate) : Prop :=
    match o with
    | ORet v env h => steps s (st v env h)
    | OErr e h => fails s e h
    end.

  Lemma simto_bind : forall {A B} s (o : outc A) (k : A -> scope -> heap -> outc B) st1 st2,
    simto s o st1 -> (forall v env h, simto (st1 v env h) (k v env h) st2) ->
    simto s (obind o k) st2.
  Proof.
    intros. destruct o as [v env h|e h]; cbn in *; auto.
    specialize (H0 v env h). destruct (k v env h); cbn in *.
    - eapply steps_trans; eauto.
    - eapply steps_fails; eauto.
  Qed.

  Lemma simto_steps : forall {A} s s' (o : outc A) st,
    steps s s' -> simto s' o st -> simto s o st.
  Proof.
    intros. destruct o; cbn in *; [eapply steps_trans; eauto | eapply steps_fails; eauto].
  Qed.

  Lemma simto_step : forall {A} s s' (o : outc A) st,
    step X root code s = Running s' -> simto s' o st -> simto s o st.
  Proof. intros. eapply simto_steps; eauto. now apply steps_one. Qed.

  Lemma simto_ret : forall {A} s (v : A) env h st, s = st v env h -> simto s (ORet v env h) st.
  Proof. intros. subst. cbn. constructor. Qed.

  Lemma step_at : forall op pc, nth_error code pc = Some op -> forall stk scs env asg h,
    step X root code (VM pc stk scs env asg h) = exec X root op (VM pc stk scs env asg h).
  Proof. intros. unfold step. cbn [vip]. now rewrite H. Qed.

  (** A single pushing opcode. *)
  Lemma simto_push : forall op pc stk0 stk loops env asg h (r : heap * res value),
    nth_error code pc = Some op ->
    exec X root op (VM pc stk0 loops env asg h) = push_hres (VM pc stk0 loops env asg h) stk r ->
    simto (VM pc stk0 loops env asg h) (hlift env r)
      (fun v env h => VM (S pc) (v :: stk) loops env asg h).
  Proof.
    intros. unfold hlift. destruct r as [h1 [v|e]]; cbn.
    - apply steps_one. rewrite (step_at op) by auto. now rewrite H0.
    - apply fails_now. rewrite (step_at op) by auto. now rewrite H0.
  Qed.

  Lemma simto_push' : forall op pc stk0 stk loops env asg h (r : res value),
    nth_error code pc = Some op ->
    exec X root op (VM pc stk0 loops env asg h) = push_res (VM pc stk0 loops env asg h) stk r ->
    simto (VM pc stk0 loops env asg h) (lift env h r)
      (fun v env h => VM (S pc) (v :: stk) loops env asg h).
  Proof.
    intros. destruct r as [v|e]; cbn.
    - apply steps_one. rewrite (step_at op) by auto. now rewrite H0.
    - apply fails_now. rewrite (step_at op) by auto. now rewrite H0.
  Qed.

  Definition SIM (al : list (option string)) (n : node) : Prop :=
    forall ops, cgen X al n = Ok ops ->
    forall pc, at_code code pc ops ->
    forall stk loops env asg h,
    simto (VM pc stk loops env asg h) (eval X root al loops n env h)
      (fun v env h => VM (pc + length ops) (v :: stk) loops env asg h).

  Lemma simto_eq : forall {A} s (o : outc A) st st', simto s o st ->
    (forall v env h, st v env h = st' v env h) -> simto s o st'.
  Proof. intros. destruct o; cbn in *; auto. now rewrite <- H0. Qed.

  (** Sequences. *)
  Lemma seq_sim : forall {A B} (f : A -> scope -> heap -> outc B) (g : A -> res (list opcode))
      (flat : B -> list value) loops asg l,
    Forall (fun x => forall ops, g x = Ok ops -> forall pc, at_code code pc ops ->
      forall stk env h, simto (VM pc stk loops env asg h) (f x env h)
        (fun b env h => VM (pc + length ops) (flat b ++ stk) loops env asg h)) l ->
    forall ops, rconcat g l = Ok ops -> forall pc, at_code code pc ops ->
    forall stk env h, simto (VM pc stk loops env asg h) (eval_seq f l env h)
        (fun bs env h => VM (pc + length ops) (flat_map flat (rev bs) ++ stk) loops env asg h).
  Proof.
    induction 1; intros ops E pc C stk env h.
    - cbn in E. injection E as <-. cbn. rewrite Nat.add_0_r. constructor.
    - cbn in E. destruct (g x) as [a|] eqn:Ga; cbn in E; [|discriminate].
      destruct (rconcat g l) as [b|] eqn:Gb; cbn in E; [|discriminate].
      injection E as <-. apply at_code_app in C as [C1 C2].
      cbn [eval_seq]. eapply simto_bind; [eapply H; eauto|].
      intros. cbn beta. eapply simto_bind; [eapply IHForall; eauto|].
      intros. cbn. rewrite app_length. rewrite flat_map_app. cbn.
      rewrite app_nil_r, <- app_assoc, Nat.add_assoc. constructor.
  Qed.

  Lemma bound_lookup : forall al v, bound_at al v = lookup_alias al v.
  Proof.
    induction al as [|[a|] al IH]; cbn; intros; auto; [|now rewrite IH].
    destruct (String.eqb a v); now rewrite ?IH.
  Qed.

  (** Static member paths. *)
  Lemma fast_path_app : forall env h path p,
    path <> [] -> path <> [TgBegin] ->
    op_fetch_fast root env h (path ++ [p]) = fast_step root env (op_fetch_fast root env h path) p.
  Proof.
    intros env h path p Hne H. destruct path as [|a path]; [congruence|].
    destruct a.
    - cbn [app op_fetch_fast]. rewrite fold_left_app. reflexivity.
    - destruct path as [|b path].
      + congruence.
      + cbn [app]. destruct b; cbn [op_fetch_fast]; try (rewrite <- fold_left_app; reflexivity);
        try (rewrite fold_left_app; reflexivity).
        all: cbn [fold_left]; rewrite fold_left_app; reflexivity.
    - cbn [app op_fetch_fast]. rewrite fold_left_app. reflexivity.
    - cbn [app op_fetch_fast]. rewrite fold_left_app. reflexivity.
  Qed.

  Lemma member_fast_shape : forall al n path, compile_member_fast al n = Some path ->
    path <> [] /\ path <> [TgBegin].
  Proof.
    induction n using node_ind'; cbn; intros path E; try discriminate.
    - destruct (lookup_alias al s); inversion E. split; congruence.
    - injection E as <-. split; congruence.
    - destruct (compile_member_fast al n1) as [q|]; [|discriminate].
      destruct (IHn1 _ eq_refl) as [Q1 Q2].
      destruct n2; try discriminate.
      + destruct (dec_to_u32 d); inversion E. split.
        * destruct q; discriminate.
        * destruct q as [|? [|]]; try congruence; discriminate.
      + inversion E. split.
        * destruct q; discriminate.
        * destruct q as [|? [|]]; try congruence; discriminate.
  Qed.

  Lemma static_path : forall al n env h,
    eval_static root al n env h =
    option_map (op_fetch_fast root env h) (compile_member_fast al n).
  Proof.
    induction n using node_ind'; intros; try reflexivity.
    - cbn. rewrite bound_lookup. destruct (lookup_alias al s); reflexivity.
    - cbn [eval_static compile_member_fast].
      destruct n2; try (destruct (compile_member_fast al n1); reflexivity).
      + rewrite IHn1. destruct (compile_member_fast al n1) as [q|] eqn:E.
        2:{ cbn. now destruct (dec_to_u32 d). }
        destruct (dec_to_u32 d); cbn [option_map]; [|reflexivity].
        destruct (member_fast_shape _ _ _ E).
        rewrite fast_path_app by auto.
        destruct (op_fetch_fast root env h q) as [h1 v]. reflexivity.
      + rewrite IHn1. destruct (compile_member_fast al n1) as [q|] eqn:E; cbn [option_map]; auto.
        destruct (member_fast_shape _ _ _ E).
        rewrite fast_path_app by auto.
        destruct (op_fetch_fast root env h q) as [h1 v]. reflexivity.
  Qed.

  (** Loops. *)
  Definition lsim (s : vmstate) (o : lout) (pcd brk : nat) stk loops asg : Prop :=
    match o with
    | LDone lp acc env h => steps s (VM pcd (rev acc ++ stk) (lp :: loops) env asg h)
    | LBreak v env h => exists lp, steps s (VM brk (v :: stk) (lp :: loops) env asg h)
    | LErr e h => fails s e h
    end.

  Lemma lsim_steps : forall s s' o pcd brk stk loops asg, steps s s' ->
    lsim s' o pcd brk stk loops asg -> lsim s o pcd brk stk loops asg.
  Proof.
    intros. destruct o; cbn in *.
    - eapply steps_trans; eauto.
    - destruct H0 as [lp H0]. exists lp. eapply steps_trans; eauto.
    - eapply steps_fails; eauto.
  Qed.

  Lemma loop_sim : forall c body (Inv : loop -> list value -> Prop) b pc brk stk loops asg,
    at_code code pc (loop_code b) ->
    (forall lp acc env h, Inv lp acc ->
       lsim (VM (S pc) (rev acc ++ stk) (lp :: loops) env asg h) (advance c body lp acc env h)
            (S pc + length b) brk stk loops asg /\
       (forall lp1 acc1 env1 h1, advance c body lp acc env h = LDone lp1 acc1 env1 h1 ->
          Inv (bump_it lp1) acc1 /\ lp_len lp1 = lp_len lp /\ lp_iter lp1 = lp_iter lp)) ->
    forall n lp acc env h, Inv lp acc -> lp_iter lp + n = lp_len lp ->
    lsim (VM pc (rev acc ++ stk) (lp :: loops) env asg h) (iterate c body n lp acc env h)
         (pc + length (loop_code b)) brk stk loops asg /\
    (forall lp1 acc1 env1 h1, iterate c body n lp acc env h = LDone lp1 acc1 env1 h1 ->
       Inv lp1 acc1 /\ lp_iter lp1 = lp_len lp1).
  Proof.
    intros c body Inv b pc brk stk loops asg C HB.
    unfold loop_code in C. apply at_code_cons in C as [C0 C]. apply at_code_app in C as [Cb C].
    apply at_code_cons in C as [C1 C]. apply at_code_cons in C as [C2 _].
    induction n; intros lp acc env h HI Hn.
    - cbn [iterate lsim]. split.
      + apply steps_one. rewrite (step_at _ _ C0). cbn.
        replace (lp_len lp <=? lp_iter lp) with true by (symmetry; apply Nat.leb_le; lia).
        unfold goto. cbn. f_equal. f_equal. rewrite app_length. cbn. lia.
      + intros. inversion H; subst. split; auto. lia.
    - cbn [iterate]. destruct (HB lp acc env h HI) as [HS HD]. clear HB.
      assert (S0 : steps (VM pc (rev acc ++ stk) (lp :: loops) env asg h)
                         (VM (S pc) (rev acc ++ stk) (lp :: loops) env asg h)).
      { apply steps_one. rewrite (step_at _ _ C0). cbn.
        replace (lp_len lp <=? lp_iter lp) with false by (symmetry; apply Nat.leb_gt; lia).
        reflexivity. }
      destruct (advance c body lp acc env h) as [lp1 acc1 env1 h1|v env1 h1|e h1].
      + destruct (HD _ _ _ _ eq_refl) as (I1 & L1 & T1).
        destruct (IHn (bump_it lp1) acc1 env1 h1 I1) as [IS ID].
        { cbn. lia. }
        split; auto. eapply lsim_steps; [|exact IS].
        eapply steps_trans; [exact S0|]. eapply steps_trans; [exact HS|].
        eapply steps_trans; [eapply steps_one; rewrite (step_at _ _ C1); reflexivity|].
        eapply steps_one.
        rewrite (step_at (OJump JBackward (length b + 3))) by exact C2.
        cbn -[Nat.leb Nat.sub]. rewrite (proj2 (Nat.leb_le _ _)) by lia.
        unfold goto. cbn -[Nat.sub]. f_equal. f_equal. lia.
      + split; [|discriminate]. cbn in *. destruct HS as [lp' HS]. exists lp'.
        eapply steps_trans; eauto.
      + split; [|discriminate]. cbn in *. eapply steps_fails; eauto.
  Qed.

  Ltac fixpc C :=
    match type of C with nth_error _ ?p = _ =>
      match goal with
      | |- steps (VM ?q _ _ _ _ _) _ => replace q with p by lia
      | |- fails (VM ?q _ _ _ _ _) _ _ => replace q with p by lia
      | |- simto (VM ?q _ _ _ _ _) _ _ => replace q with p by lia
      end
    end.
  Ltac vstep C := fixpc C; eapply steps_step; [rewrite (step_at _ _ C); cbn; reflexivity|];
    unfold next, goto; cbn [vip vstk vscs venv vasg vheap fst snd].
  Ltac pcs := repeat (rewrite ?app_length; cbn [length]); lia.
  Ltac ccons C H := apply at_code_cons in C as [H C].

  Lemma op_begin_init : forall h v h1 lp, op_begin h v = (h1, Ok lp) ->
    lp_iter lp = 0 /\ lp_count lp = 0.
  Proof.
    unfold op_begin. intros. destruct v; try discriminate.
    - destruct (harr h l); inversion H; subst; auto.
    - destruct d; [discriminate|]. destruct (interval_to_array i); [|discriminate].
      destruct (new_arr h l). inversion H; subst; auto.
  Qed.

  Definition inv_of (c : closure) (lp : loop) (acc : list value) : Prop :=
    match c with
    | ClFilter => lp_count lp = length acc
    | ClMap | ClFlatMap => lp_iter lp = length acc
    | _ => acc = []
    end.

  Definition body_of (c : closure) (b : list opcode) : list opcode :=
    match c with
    | ClAll => b ++ [OJump JIfFalse 4; OPop]
    | ClNone => b ++ [ONot; OJump JIfFalse 4; OPop]
    | ClSome => b ++ [OJump JIfTrue 4; OPop]
    | ClOne | ClCount => b ++ cond_code [OIncCount]
    | ClFilter => b ++ cond_code [OIncCount; OPointer 0]
    | ClMap | ClFlatMap => b
    end.
  Definition tail_of (c : closure) : list opcode :=
    match c with
    | ClAll | ClNone => [PushBool true; OEnd]
    | ClSome => [PushBool false; OEnd]
    | ClOne => [OGetCount; PushNumber dec_one; OEqual; OEnd]
    | ClFilter => [OGetCount; OEnd; OArray]
    | ClMap => [OGetLen; OEnd; OArray]
    | ClFlatMap => [OGetLen; OEnd; OArray; OFlatten]
    | ClCount => [OGetCount; OEnd]
    end.
  Lemma closure_code_split : forall c b,
    closure_code c b = OBegin :: loop_code (body_of c b) ++ tail_of c.
  Proof. destruct c; reflexivity. Qed.

  Lemma steps_eq : forall a b c, steps a b -> b = c -> steps a c.
  Proof. intros. now subst. Qed.
  Lemma steps_eq_r : forall a b, a = b -> steps a b.
  Proof. intros. subst. constructor. Qed.

  Ltac fnow C := eapply fails_now; rewrite (step_at _ _ C); reflexivity.
  Ltac vdone := apply steps_eq_r; f_equal; rewrite <- ?app_assoc; pcs.

  Lemma advance_sim : forall c body b loops asg pc stk,
    (forall pc, at_code code pc b -> forall stk lp env h,
       simto (VM pc stk (lp :: loops) env asg h) (body lp env h)
         (fun v env h => VM (pc + length b) (v :: stk) (lp :: loops) env asg h)) ->
    at_code code pc (loop_code (body_of c b)) ->
    forall lp acc env h, inv_of c lp acc ->
       lsim (VM (S pc) (rev acc ++ stk) (lp :: loops) env asg h) (advance c body lp acc env h)
            (S pc + length (body_of c b)) (pc + length (loop_code (body_of c b)) + 1) stk loops asg /\
       (forall lp1 acc1 env1 h1, advance c body lp acc env h = LDone lp1 acc1 env1 h1 ->
          inv_of c (bump_it lp1) acc1 /\ lp_len lp1 = lp_len lp /\ lp_iter lp1 = lp_iter lp).
  Proof.
    intros c body b loops asg pc stk HB C lp acc env h HI.
    unfold loop_code in C. apply at_code_cons in C as [_ C]. apply at_code_app in C as [C _].
    unfold advance.
    assert (C0 : at_code code (S pc) b).
    { destruct c; cbn in C; try (apply at_code_app in C as [C _]); exact C. }
    specialize (HB _ C0 (rev acc ++ stk) lp env h).
    destruct (body lp env h) as [v env1 h1|e h1]; cbn in HB.
    2:{ split; [exact HB|discriminate]. }
    unfold loop_code; cbn [length].
    destruct c; cbn [inv_of body_of] in *.
    - (* all *) subst. cbn [rev app] in *. apply at_code_app in C as [_ C]. ccons C C1. ccons C C2.
      destruct v as [|[|]| | | | |]; cbn [judge];
      try (split; [cbn [lsim]; eapply steps_fails; [exact HB|]; fnow C1 | discriminate]).
      + split; [|intros; inversion H; subst; auto].
        cbn [lsim]. eapply steps_trans; [exact HB|]. vstep C1. vstep C2. vdone.
      + split; [|discriminate]. cbn [lsim]. exists lp. eapply steps_trans; [exact HB|]. vstep C1.
        vdone.
    - (* none *) subst. cbn [rev app] in *. apply at_code_app in C as [_ C]. ccons C C1. ccons C C2. ccons C C3.
      destruct v as [|[|]| | | | |]; cbn [judge];
      try (split; [cbn [lsim]; eapply steps_fails; [exact HB|]; fnow C1 | discriminate]).
      + split; [|discriminate]. cbn [lsim]. exists lp. eapply steps_trans; [exact HB|]. vstep C1.
        vstep C2. vdone.
      + split; [|intros; inversion H; subst; auto].
        cbn [lsim]. eapply steps_trans; [exact HB|]. vstep C1. vstep C2. vstep C3. vdone.
    - (* some *) subst. cbn [rev app] in *. apply at_code_app in C as [_ C]. ccons C C1. ccons C C2.
      destruct v as [|[|]| | | | |]; cbn [judge];
      try (split; [cbn [lsim]; eapply steps_fails; [exact HB|]; fnow C1 | discriminate]).
      + split; [|discriminate]. cbn [lsim]. exists lp. eapply steps_trans; [exact HB|]. vstep C1.
        vdone.
      + split; [|intros; inversion H; subst; auto].
        cbn [lsim]. eapply steps_trans; [exact HB|]. vstep C1. vstep C2. vdone.
    - (* one *) subst. cbn [rev app] in *. apply at_code_app in C as [_ C]. unfold cond_code in *. cbn [app length] in *.
      ccons C C1. ccons C C2. ccons C C3. ccons C C4. ccons C C5.
      destruct v as [|[|]| | | | |]; cbn [judge];
      try (split; [cbn [lsim]; eapply steps_fails; [exact HB|]; fnow C1 | discriminate]).
      + split; [|intros; inversion H; subst; auto].
        cbn [lsim counts andb]. eapply steps_trans; [exact HB|]. vstep C1. vstep C2. vstep C3. vstep C4. vdone.
      + split; [|intros; inversion H; subst; auto].
        cbn [lsim counts andb]. eapply steps_trans; [exact HB|]. vstep C1.
        vstep C5. vdone.
    - (* filter *) apply at_code_app in C as [_ C]. unfold cond_code in *. cbn [app length] in *.
      ccons C C1. ccons C C2. ccons C C3. ccons C C4. ccons C C5. ccons C C6.
      destruct v as [|[|]| | | | |]; cbn [judge];
      try (split; [cbn [lsim]; eapply steps_fails; [exact HB|]; fnow C1 | discriminate]).
      + cbn [counts andb].
        assert (P : forall r, op_pointer h1 (bump_count lp :: r) 0 = op_pointer h1 [bump_count lp] 0) by reflexivity.
        destruct (op_pointer h1 [bump_count lp] 0) as [x|e] eqn:EP.
        * split.
          -- cbn [lsim]. eapply steps_trans; [exact HB|]. vstep C1. vstep C2. vstep C3.
             fixpc C4. eapply steps_step.
             { rewrite (step_at _ _ C4). cbn -[op_pointer]. unfold push_res. cbn [vheap vscs].
               fold (bump_count lp). rewrite P. reflexivity. }
             unfold next. cbn [vip vstk vscs venv vasg vheap].
             vstep C5. rewrite rev_app_distr. vdone.
          -- intros. inversion H; subst. cbn. rewrite app_length; cbn. split; auto. lia.
        * split; [|discriminate]. cbn [lsim]. eapply steps_fails.
          { eapply steps_trans; [exact HB|]. vstep C1. vstep C2. vstep C3. constructor. }
          fixpc C4. apply fails_now. rewrite (step_at _ _ C4). cbn -[op_pointer]. unfold push_res. cbn [vheap vscs].
          fold (bump_count lp). rewrite P. reflexivity.
      + cbn [counts andb]. split.
        * cbn [lsim]. eapply steps_trans; [exact HB|]. vstep C1.
            vstep C6. vdone.
        * intros. inversion H; subst. auto.
    - (* map *) cbn [judge counts andb]. split.
      + cbn [lsim]. eapply steps_eq; [exact HB|]. now rewrite rev_app_distr.
      + intros. inversion H; subst. cbn. rewrite app_length; cbn. split; auto; lia.
    - (* flatMap *) cbn [judge counts andb]. split.
      + cbn [lsim]. eapply steps_eq; [exact HB|]. now rewrite rev_app_distr.
      + intros. inversion H; subst. cbn. rewrite app_length; cbn. split; auto; lia.
    - (* count *) subst. cbn [rev app] in *. apply at_code_app in C as [_ C]. unfold cond_code in *. cbn [app length] in *.
      ccons C C1. ccons C C2. ccons C C3. ccons C C4. ccons C C5.
      destruct v as [|[|]| | | | |]; cbn [judge];
      try (split; [cbn [lsim]; eapply steps_fails; [exact HB|]; fnow C1 | discriminate]).
      + split; [|intros; inversion H; subst; auto].
        cbn [lsim counts andb]. eapply steps_trans; [exact HB|]. vstep C1. vstep C2. vstep C3. vstep C4. vdone.
      + split; [|intros; inversion H; subst; auto].
        cbn [lsim counts andb]. eapply steps_trans; [exact HB|]. vstep C1.
        vstep C5. vdone.
  Qed.

  Lemma firstn_rev_app : forall {A} (a b : list A) n, n = length a ->
    rev (firstn n (rev a ++ b)) = a /\ skipn n (rev a ++ b) = b.
  Proof.
    intros. subst. rewrite <- (rev_length a). split.
    - rewrite firstn_app, firstn_all, Nat.sub_diag. cbn. rewrite app_nil_r. apply rev_involutive.
    - rewrite skipn_app, skipn_all, Nat.sub_diag. reflexivity.
  Qed.

  Lemma array_step : forall pc vs stk loops env asg h n,
    nth_error code pc = Some OArray -> n = length vs ->
    step X root code (VM pc (VNum (dec_of_nat n) :: rev vs ++ stk) loops env asg h) =
    Running (VM (S pc) (snd (new_arr h vs) :: stk) loops env asg (fst (new_arr h vs))).
  Proof.
    intros. rewrite (step_at _ _ H). cbn [exec pop1 vstk vheap]. rewrite dec_to_count_of_nat.
    subst. rewrite (proj2 (Nat.leb_le _ _)) by (rewrite app_length, rev_length; lia).
    destruct (firstn_rev_app vs stk (length vs) eq_refl) as [-> ->].
    destruct (new_arr h vs). reflexivity.
  Qed.

  Lemma iterate_break : forall c body n lp acc env h v env1 h1,
    iterate c body n lp acc env h = LBreak v env1 h1 -> c = ClAll \/ c = ClNone \/ c = ClSome.
  Proof.
    induction n; cbn; intros; [discriminate|].
    destruct (advance c body lp acc env h) eqn:E; [eauto| |discriminate].
    unfold advance in E. destruct (body lp env h) as [bv ? ?|]; [|discriminate].
    destruct c; auto; destruct bv as [|[|]| | | | |]; cbn -[op_pointer] in E; try discriminate.
    all: repeat match goal with H : context [match ?x with _ => _ end] |- _ => destruct x; try discriminate end.
  Qed.

  Lemma closure_sim : forall c body b loops asg pc stk,
    (forall pc, at_code code pc b -> forall stk lp env h,
       simto (VM pc stk (lp :: loops) env asg h) (body lp env h)
         (fun v env h => VM (pc + length b) (v :: stk) (lp :: loops) env asg h)) ->
    at_code code pc (closure_code c b) ->
    forall v env h,
    simto (VM pc (v :: stk) loops env asg h)
      (match op_begin h v with
       | (h, Err e) => OErr e h
       | (h, Ok lp) =>
           match iterate c body (lp_len lp) lp [] env h with
           | LErr e h => OErr e h
           | LBreak v env h => ORet v env h
           | LDone lp acc env h => closure_value c lp acc env h
           end
       end)
      (fun v env h => VM (pc + length (closure_code c b)) (v :: stk) loops env asg h).
  Proof.
    intros c body b loops asg pc stk HB C v env h.
    rewrite closure_code_split in *. ccons C CB. apply at_code_app in C as [CL CT].
    cbn [length]. rewrite app_length.
    destruct (op_begin h v) as [h1 [lp|e]] eqn:EB.
    2:{ cbn. apply fails_now. rewrite (step_at _ _ CB). cbn -[op_begin]. now rewrite EB. }
    destruct (op_begin_init _ _ _ _ EB) as [I0 N0].
    eapply simto_step.
    { rewrite (step_at _ _ CB). cbn -[op_begin]. rewrite EB. reflexivity. }
    cbn [vip vscs venv vasg].
    assert (HI : inv_of c lp []) by (destruct c; cbn; auto).
    destruct (loop_sim c body (inv_of c) (body_of c b) (S pc)
                (S pc + length (loop_code (body_of c b)) + 1) stk loops asg CL)
      with (n := lp_len lp) (lp := lp) (acc := @nil value) (env := env) (h := h1) as [LS LD]; auto.
    { intros. now apply advance_sim. }
    { lia. }
    cbn [rev app] in LS.
    clear CL. remember (length (loop_code (body_of c b))) as LL eqn:ELL. clear ELL.
    destruct (iterate c body (lp_len lp) lp [] env h1) as [lp1 acc env1 h2|r env1 h2|e h2] eqn:EI; cbn [lsim] in LS.
    - destruct (LD _ _ _ _ eq_refl) as [I1 L1]. clear LD.
      eapply simto_steps; [exact LS|]. clear LS.
      destruct c; cbn [tail_of inv_of closure_value length] in *; ccons CT T1; ccons CT T2;
        try (subst acc; cbn [rev app]).
      + cbn [simto]. vstep T1. vstep T2. vdone.
      + cbn [simto]. vstep T1. vstep T2. vdone.
      + cbn [simto]. vstep T1. vstep T2. vdone.
      + ccons CT T3. ccons CT T4. cbn [simto]. vstep T1. vstep T2. vstep T3. vstep T4. vdone.
      + ccons CT T3.
        destruct (new_arr h2 acc) as [h3 av] eqn:EA. cbn [simto].
        vstep T1. vstep T2. fixpc T3.
        eapply steps_step; [eapply array_step; [exact T3|auto]|]. rewrite EA. cbn [fst snd].
        rewrite ?app_nil_r. vdone.
      + ccons CT T3.
        destruct (new_arr h2 acc) as [h3 av] eqn:EA. cbn [simto].
        vstep T1. vstep T2. fixpc T3.
        eapply steps_step; [eapply array_step; [exact T3|lia]|]. rewrite EA. cbn [fst snd]. vdone.
      + ccons CT T3. ccons CT T4.
        destruct (new_arr h2 acc) as [h3 av] eqn:EA.
        eapply simto_steps. { vstep T1. vstep T2. fixpc T3.
          eapply steps_step; [eapply array_step; [exact T3|lia]|]. rewrite EA. constructor. }
        cbn [fst snd].
        eapply simto_eq; [eapply simto_push; [exact T4|reflexivity]|].
        intros. cbn beta. f_equal; pcs.
      + cbn [simto]. vstep T1. vstep T2. vdone.
    - destruct LS as [lp' LS]. cbn [simto]. eapply steps_trans; [exact LS|].
      destruct (iterate_break _ _ _ _ _ _ _ _ _ _ EI) as [->|[->| ->]];
        cbn [tail_of length] in *; ccons CT T1; ccons CT T2; vstep T2; vdone.
    - cbn. exact LS.
  Qed.

  Ltac inv_bind E :=
    repeat match type of E with
    | bind ?r _ = Ok _ =>
        let x := fresh "c" in let Ex := fresh "G" in
        destruct r as [x|] eqn:Ex; cbn [bind] in E; [|discriminate]
    end.

  Lemma simto_bind_eq : forall {A B} s (o : outc A) (k : A -> scope -> heap -> outc B) st1 st2 st1',
    simto s o st1 -> (forall v env h, st1 v env h = st1' v env h) ->
    (forall v env h, simto (st1' v env h) (k v env h) st2) ->
    simto s (obind o k) st2.
  Proof. intros. eapply simto_bind; [eapply simto_eq; eauto|auto]. Qed.

  Ltac simpush C := 
    eapply simto_eq; [first [eapply simto_push; [exact C|reflexivity]
                            |eapply simto_push'; [exact C|reflexivity]]
                     |intros; cbn beta; f_equal; pcs].

  (** Both operands, then an opcode. *)
  Lemma bin_sim : forall al n1 n2 a b ops loops asg pc stk op (f : heap -> value -> value -> res value),
    SIM al n1 -> SIM al n2 -> cgen X al n1 = Ok a -> cgen X al n2 = Ok b ->
    ops = [op] ->
    (forall pc stk env h x y, exec X root op (VM pc (y :: x :: stk) loops env asg h) =
        push_res (VM pc (y :: x :: stk) loops env asg h) stk (f h x y)) ->
    at_code code pc (a ++ b ++ ops) ->
    forall env h,
    simto (VM pc stk loops env asg h)
      (obind (eval X root al loops n1 env h) (fun v env h =>
       obind (eval X root al loops n2 env h) (fun w env h => lift env h (f h v w))))
      (fun v env h => VM (pc + length (a ++ b ++ ops)) (v :: stk) loops env asg h).
  Proof.
    intros al n1 n2 a b ops loops asg pc stk op f S1 S2 G1 G2 -> HX C env h.
    apply at_code_app in C as [Ca C]. apply at_code_app in C as [Cb C]. ccons C Co.
    eapply simto_bind; [eapply S1; eauto|]. intros. cbn beta.
    eapply simto_bind; [eapply S2; eauto|]. intros. cbn beta.
    eapply simto_eq; [eapply simto_push'; [exact Co|apply HX]|].
    intros; cbn beta; f_equal; pcs.
  Qed.

  Lemma bin_sim2 : forall al n1 n2 a b loops asg pc stk op (f : heap -> value -> value -> res value),
    SIM al n1 -> SIM al n2 -> cgen X al n1 = Ok a -> cgen X al n2 = Ok b ->
    (forall pc stk env h x y, exec X root op (VM pc (y :: x :: stk) loops env asg h) =
        push_res (VM pc (y :: x :: stk) loops env asg h) stk (f h x y)) ->
    at_code code pc (a ++ b ++ [op; ONot]) ->
    forall env h,
    simto (VM pc stk loops env asg h)
      (obind (eval X root al loops n1 env h) (fun v env h =>
       obind (eval X root al loops n2 env h) (fun w env h =>
       lift env h (do r <- f h v w; op_not r))))
      (fun v env h => VM (pc + length (a ++ b ++ [op; ONot])) (v :: stk) loops env asg h).
  Proof.
    intros al n1 n2 a b loops asg pc stk op f S1 S2 G1 G2 HX C env h.
    apply at_code_app in C as [Ca C]. apply at_code_app in C as [Cb C]. ccons C Co. ccons C Cn.
    eapply simto_bind; [eapply S1; eauto|]. intros. cbn beta.
    eapply simto_bind; [eapply S2; eauto|]. intros. cbn beta.
    assert (Q : lift env1 h1 (do r <- f h1 v v0; op_not r) =
                obind (lift env1 h1 (f h1 v v0)) (fun r env h => lift env h (op_not r))).
    { destruct (f h1 v v0); reflexivity. }
    rewrite Q.
    eapply simto_bind; [eapply simto_push'; [exact Co|apply HX]|].
    intros. cbn beta. simpush Cn.
  Qed.

  Lemma pop_pairs_build : forall (kvs : list (value * value)) stk m,
    pop_pairs (length kvs) (flat_map (fun kv => [snd kv; fst kv]) kvs ++ stk) m =
    do m' <- build_object kvs m; Ok (m', stk).
  Proof.
    induction kvs as [|[k v] kvs IH]; intros; cbn; auto.
    destruct k; auto.
  Qed.

  Lemma eval_seq_length : forall {A B} (f : A -> scope -> heap -> outc B) l env h bs env1 h1,
    eval_seq f l env h = ORet bs env1 h1 -> length bs = length l.
  Proof.
    induction l; cbn; intros.
    - inversion H; auto.
    - destruct (f a env h); cbn in H; [|discriminate].
      destruct (eval_seq f l env0 h0) eqn:E; cbn in H; [|discriminate].
      inversion H; subst. cbn. f_equal. eauto.
  Qed.

  Lemma simto_bind_ret : forall {A B} s (o : outc A) (k : A -> scope -> heap -> outc B) st1 st2,
    simto s o st1 -> (forall v env h, o = ORet v env h -> simto (st1 v env h) (k v env h) st2) ->
    simto s (obind o k) st2.
  Proof.
    intros. destruct o as [v env h|e h]; cbn in *; auto.
    specialize (H0 v env h eq_refl). destruct (k v env h); cbn in *.
    - eapply steps_trans; eauto.
    - eapply steps_fails; eauto.
  Qed.

  Lemma flat_single : forall {A} (l : list A), flat_map (fun v => [v]) l = l.
  Proof. induction l; cbn; congruence. Qed.

  Lemma node_seq_sim : forall al loops asg l, Forall (fun n => forall al, SIM al n) l ->
    forall ops, rconcat (cgen X al) l = Ok ops -> forall pc, at_code code pc ops ->
    forall stk env h, simto (VM pc stk loops env asg h) (eval_seq (eval X root al loops) l env h)
        (fun vs env h => VM (pc + length ops) (rev vs ++ stk) loops env asg h).
  Proof.
    intros. eapply simto_eq.
    - eapply (seq_sim (eval X root al loops) (cgen X al) (fun v => [v])); eauto.
      eapply Forall_impl; [|exact H]. intros n Hn ops' G pc' C' stk' env' h'. cbn [app].
      eapply Hn; eauto.
    - intros. cbn beta. now rewrite flat_single.
  Qed.

  Theorem simulation : forall n al, SIM al n.
  Proof.
    induction n using node_ind'; intros al; unfold SIM; intros ops E pc C stk loops env asg h;
      cbn [cgen] in E.
    - injection E as <-. ccons C C0. cbn [eval simto]. vstep C0. vdone.
    - injection E as <-. ccons C C0. cbn [eval simto]. vstep C0. vdone.
    - injection E as <-. ccons C C0. cbn [eval simto]. vstep C0. vdone.
    - injection E as <-. ccons C C0. cbn [eval simto]. vstep C0. vdone.
    - (* template *)
      inv_bind E. injection E as <-. apply at_code_app in C as [Ca C].
      ccons C C0. ccons C C1. ccons C C2. ccons C C3. cbn [eval].
      eapply simto_bind_ret.
      { eapply (seq_sim _ (fun x => do a <- cgen X al x; Ok (a ++ [call_string])) (fun v => [v])).
        2: exact G. 2: exact Ca.
        eapply Forall_impl; [|exact H]. intros n Hn ops' G' pc' C' stk' env' h'. cbn beta in G'.
        inv_bind G'. injection G' as <-. apply at_code_app in C' as [Cx C']. ccons C' Cy.
        eapply simto_bind; [eapply Hn; eauto|]. intros. cbn beta. simpush Cy. }
      intros vs env1 h1 EV. cbn beta. rewrite flat_single. apply eval_seq_length in EV.
      destruct (new_arr h1 vs) as [h2 av] eqn:EA.
      eapply simto_steps.
      { vstep C0. fixpc C1. eapply steps_step; [eapply array_step; [exact C1|auto]|].
        rewrite EA. cbn [fst snd]. vstep C2. constructor. }
      fixpc C3. simpush C3.
    - injection E as <-. ccons C C0. cbn [eval]. simpush C0.
    - (* array *)
      inv_bind E. injection E as <-. apply at_code_app in C as [Ca C].
      ccons C C0. ccons C C1. cbn [eval].
      eapply simto_bind_ret; [eapply node_seq_sim; eauto|].
      intros vs env1 h1 EV. cbn beta. apply eval_seq_length in EV.
      destruct (new_arr h1 vs) as [h2 av] eqn:EA. cbn [hlift fst snd simto].
      vstep C0. fixpc C1. eapply steps_step; [eapply array_step; [exact C1|auto]|].
      rewrite EA. cbn [fst snd]. vdone.
    - (* object *)
      inv_bind E. injection E as <-. apply at_code_app in C as [Ca C].
      ccons C C0. ccons C C1. cbn [eval].
      eapply simto_bind_ret.
      { eapply (seq_sim _ (fun kx => do a <- cgen X al (fst kx); do b <- cgen X al (snd kx);
                  Ok (a ++ call_string :: b)) (fun kv => [snd kv; fst kv])).
        2: exact G. 2: exact Ca.
        eapply Forall_impl; [|exact H]. intros [k x] [Hk Hx] ops' G' pc' C' stk' env' h'.
        cbn [fst snd] in *.
        inv_bind G'. injection G' as <-. apply at_code_app in C' as [Cx C']. ccons C' Cy.
        eapply simto_bind; [eapply Hk; eauto|]. intros. cbn beta.
        eapply simto_bind; [eapply simto_push; [exact Cy|reflexivity]|]. intros. cbn beta.
        eapply simto_bind; [eapply Hx; eauto|]. intros. cbn beta. cbn [simto fst snd app].
        vdone. }
      intros kvs env1 h1 EV. cbn beta. apply eval_seq_length in EV.
      rewrite <- EV, <- (rev_length kvs) in C0.
      assert (P := pop_pairs_build (rev kvs) stk []).
      eapply simto_steps; [vstep C0; constructor|].
      destruct (build_object (rev kvs) []) as [m|e]; cbn [bind] in P.
      + destruct (new_obj h1 m) as [h2 ov] eqn:EO. cbn [hlift fst snd simto].
        fixpc C1. eapply steps_step.
        { rewrite (step_at _ _ C1). cbn [exec pop1 vstk vheap]. rewrite dec_to_count_of_nat, P, EO.
          reflexivity. }
        unfold next; cbn [vip]. vdone.
      + cbn [hlift fst snd simto]. fixpc C1. apply fails_now.
        rewrite (step_at _ _ C1). cbn [exec pop1 vstk vheap]. rewrite dec_to_count_of_nat, P.
        reflexivity.
    - (* assignments *)
      inv_bind E. injection E as <-. ccons C CB. apply at_code_app in C as [Ca C].
      apply at_code_app in C as [Co C]. ccons C CE. cbn [eval].
      destruct (new_obj h []) as [h0 obj] eqn:EO.
      eapply simto_step.
      { rewrite (step_at _ _ CB). cbn [exec vheap]. rewrite EO. reflexivity. }
      cbn [vip vstk vscs venv vasg].
      eapply simto_bind.
      { eapply (seq_sim _ (fun kx => do a <- cgen X al (fst kx); do b <- cgen X al (snd kx);
                  Ok (a ++ b ++ [OAssignStep])) (fun _ : unit => [])).
        2: exact G. 2: exact Ca.
        eapply Forall_impl; [|exact H]. intros [k x] [Hk Hx] ops' G' pc' C' stk' env' h'.
        cbn [fst snd] in *.
        inv_bind G'. injection G' as <-. apply at_code_app in C' as [Cx C'].
        apply at_code_app in C' as [Cy C']. ccons C' Cz.
        eapply simto_bind; [eapply Hk; eauto|]. intros v env1 h1. cbn beta.
        eapply simto_bind; [eapply Hx; eauto|]. intros v0 env2 h2. cbn beta.
        assert (Q : op_assign h2 env2 (obj :: asg) v v0 = op_assign h2 env2 [obj] v v0) by reflexivity.
        destruct (op_assign h2 env2 [obj] v v0) as [h3 [env3|e]]; cbn [simto].
        - eapply steps_step.
          { rewrite (step_at _ _ Cz). cbn [exec pop2 vstk vheap venv vasg]. rewrite Q. reflexivity. }
          cbn [vip vscs vasg app]. vdone.
        - apply fails_now. rewrite (step_at _ _ Cz). cbn [exec pop2 vstk vheap venv vasg]. now rewrite Q. }
      intros us env1 h1. cbn beta.
      replace (flat_map (fun _ : unit => []) (rev us) ++ stk) with stk.
      2:{ clear. induction (rev us); auto. }
      destruct o as [o|]; cbn in H0.
      + eapply simto_eq with (st := fun v env h => VM (S pc + length c + length c0 + 1) (v :: stk) loops env asg h).
        2:{ intros. cbn beta. f_equal. pcs. }
        specialize (H0 al _ G0 _ Co stk loops env1 (obj :: asg) h1).
        destruct (eval X root al loops o env1 h1); cbn [simto] in *; auto.
        eapply steps_trans; [exact H0|]. vstep CE. vdone.
      + injection G0 as <-. cbn [simto length] in *. vstep CE. vdone.
    - (* identifier *)
      injection E as <-. ccons C C0. cbn [eval]. rewrite bound_lookup.
      destruct (lookup_alias al s); simpush C0.
    - (* closure *) cbn [eval]. eapply IHn; eauto.
    - cbn [eval]. eapply IHn; eauto.
    - (* root *)
      injection E as <-. ccons C C0. cbn [eval].
      destruct (materialize h env) as [h1 v] eqn:EM. cbn [simto].
      eapply steps_step. { rewrite (step_at _ _ C0). cbn [exec vheap venv]. rewrite EM. reflexivity. }
      unfold next; cbn [vip]. vdone.
    - (* member *)
      change (cgen X al (NMember n1 n2) = Ok ops) in E.
      assert (E' : (match compile_member_fast al (NMember n1 n2) with
        | Some path => Ok [OFetchFast path]
        | None => do x <- cgen X al n1; do y <- cgen X al n2; Ok (x ++ y ++ [OFetch])
        end) = Ok ops) by exact E. clear E.
      change (eval X root al loops (NMember n1 n2) env h) with
        (match eval_static root al (NMember n1 n2) env h with
        | Some (h, v) => ORet v env h
        | None =>
            obind (eval X root al loops n1 env h) (fun av env h =>
            obind (eval X root al loops n2 env h) (fun pv env h =>
            lift env h (op_fetch h av pv)))
        end).
      rewrite static_path. destruct (compile_member_fast al (NMember n1 n2)) as [path|]; cbn [option_map].
      + injection E' as <-. ccons C C0.
        destruct (op_fetch_fast root env h path) as [h1 v] eqn:EF. cbn [simto].
        eapply steps_step. { rewrite (step_at _ _ C0). cbn [exec vheap venv]. rewrite EF. reflexivity. }
        unfold next; cbn [vip]. vdone.
      + inv_bind E'. injection E' as <-. eapply (bin_sim al n1 n2); eauto.
    - (* slice *)
      inv_bind E. injection E as <-. apply at_code_app in C as [Ca C]. apply at_code_app in C as [Ct C].
      apply at_code_app in C as [Cf C]. ccons C CS. cbn [eval].
      eapply simto_bind; [eapply IHn; eauto|]. intros xv env1 h1. cbn beta.
      eapply simto_bind with (st1 := fun v env h => VM (pc + length c + length c0) (v :: xv :: stk) loops env asg h).
      { destruct t as [t|].
        - cbn in H0. eapply H0; eauto.
        - injection G0 as <-. ccons Ct T1. ccons Ct T2. ccons Ct T3.
          replace (lift env1 h1 (do l <- op_len h1 xv; op_sub X l (VNum dec_one))) with
            (obind (lift env1 h1 (op_len h1 xv)) (fun l env h => lift env h (op_sub X l (VNum dec_one))))
            by (destruct (op_len h1 xv); reflexivity).
          eapply simto_bind; [eapply simto_push'; [exact T1|reflexivity]|]. intros. cbn beta.
          eapply simto_steps; [vstep T2; constructor|]. fixpc T3. simpush T3. }
      intros tv env2 h2. cbn beta.
      eapply simto_bind with (st1 := fun v env h => VM (pc + length c + length c0 + length c1) (v :: tv :: xv :: stk) loops env asg h).
      { destruct f as [f|].
        - cbn in H. eapply H; eauto.
        - injection G1 as <-. ccons Cf T1. cbn [simto]. vstep T1. vdone. }
      intros fv env3 h3. cbn beta. fixpc CS. simpush CS.
    - (* interval *)
      inv_bind E. injection E as <-. cbn [eval].
      eapply (bin_sim al n1 n2 _ _ [OInterval lb rb] _ _ _ _ _ (fun _ => op_interval lb rb)); eauto.
    - (* conditional *)
      inv_bind E. injection E as <-. apply at_code_app in C as [Cc C]. ccons C C1. ccons C C2.
      apply at_code_app in C as [Ct C]. ccons C C3. ccons C C4. cbn [eval].
      eapply simto_bind; [eapply IHn1; eauto|]. intros cv env1 h1. cbn beta.
      destruct cv as [|[|]| | | | |]; try (cbn [simto]; fnow C1).
      + eapply simto_steps; [vstep C1; vstep C2; constructor|].
        specialize (IHn2 al _ G0 _ Ct stk loops env1 asg h1).
        match goal with |- simto (VM ?q _ _ _ _ _) _ _ => replace q with (S (S (pc + length c))) by lia end.
        destruct (eval X root al loops n2 env1 h1); cbn [simto] in *; auto.
        eapply steps_trans; [exact IHn2|]. vstep C3. vdone.
      + eapply simto_steps; [vstep C1; vstep C4; constructor|].
        specialize (IHn3 al _ G1 _ C stk loops env1 asg h1).
        match type of C with at_code _ ?p _ =>
          match goal with |- simto (VM ?q _ _ _ _ _) _ _ => replace q with p by lia end end.
        eapply simto_eq; [exact IHn3|]. intros. cbn beta. f_equal. pcs.
    - (* unary *)
      inv_bind E. cbn [eval].
      destruct op as [[]|[]| | | | | | | |]; try discriminate; injection E as <-.
      + eapply simto_bind; [eapply IHn; eauto|]. intros. cbn [simto]. constructor.
      + apply at_code_app in C as [Ca C]. ccons C C1.
        eapply simto_bind; [eapply IHn; eauto|]. intros. cbn beta. simpush C1.
      + apply at_code_app in C as [Ca C]. ccons C C1.
        eapply simto_bind; [eapply IHn; eauto|]. intros. cbn beta. simpush C1.
    - (* binary *)
      cbn [eval].
      destruct op as [[]|[]|[]| | | | | | |]; cbn [simple_binop short_binop] in E; try discriminate;
        inv_bind E; injection E as <-.
      all: try (eapply (bin_sim al n1 n2 _ _ _ _ _ _ _ _ (fun h a b => bin_value X _ h a b));
                first [eassumption | apply IHn1 | apply IHn2 | reflexivity]).
      + (* and *)
        apply at_code_app in C as [Ca C]. ccons C C1. ccons C C2.
        eapply simto_bind; [eapply IHn1; eauto|]. intros lv env1 h1. cbn beta.
        destruct lv as [|[|]| | | | |]; try (cbn [simto]; fnow C1).
        * eapply simto_steps; [vstep C1; vstep C2; constructor|].
          match type of C with at_code _ ?p _ =>
            match goal with |- simto (VM ?q _ _ _ _ _) _ _ => replace q with p by lia end end.
          eapply simto_eq; [eapply IHn2; eauto|]. intros. cbn beta. f_equal. pcs.
        * cbn [simto]. vstep C1. vdone.
      + (* or *)
        apply at_code_app in C as [Ca C]. ccons C C1. ccons C C2.
        eapply simto_bind; [eapply IHn1; eauto|]. intros lv env1 h1. cbn beta.
        destruct lv as [|[|]| | | | |]; try (cbn [simto]; fnow C1).
        * cbn [simto]. vstep C1. vdone.
        * eapply simto_steps; [vstep C1; vstep C2; constructor|].
          match type of C with at_code _ ?p _ =>
            match goal with |- simto (VM ?q _ _ _ _ _) _ _ => replace q with p by lia end end.
          eapply simto_eq; [eapply IHn2; eauto|]. intros. cbn beta. f_equal. pcs.
      + (* ?? *)
        apply at_code_app in C as [Ca C]. ccons C C1. ccons C C2.
        eapply simto_bind; [eapply IHn1; eauto|]. intros lv env1 h1. cbn beta.
        destruct lv; try (cbn [simto]; vstep C1; vdone).
        eapply simto_steps; [vstep C1; vstep C2; constructor|].
        match type of C with at_code _ ?p _ =>
          match goal with |- simto (VM ?q _ _ _ _ _) _ _ => replace q with p by lia end end.
        eapply simto_eq; [eapply IHn2; eauto|]. intros. cbn beta. f_equal. pcs.
      + (* != *)
        eapply (bin_sim2 al n1 n2 _ _ _ _ _ _ _ (fun _ a b => Ok (op_equal a b)));
          first [eassumption | apply IHn1 | apply IHn2 | reflexivity].
      + (* not in *)
        eapply (bin_sim2 al n1 n2 _ _ _ _ _ _ _ (fun h a b => op_in h a b));
          first [eassumption | apply IHn1 | apply IHn2 | reflexivity].
    - (* call *)
      cbn [eval]. destruct k as [f|f|c].
      + destruct (x_arity X (FInternal f)) eqn:EA; [|discriminate].
        destruct (arity_ok _ _); [|discriminate]. inv_bind E. injection E as <-.
        apply at_code_app in C as [Ca C]. ccons C C1.
        eapply simto_bind_ret; [eapply node_seq_sim; eauto|].
        intros vs env1 h1 EV. cbn beta. apply eval_seq_length in EV.
        destruct (firstn_rev_app vs stk (length l) (eq_sym EV)) as [F1 F2].
        eapply simto_eq; [eapply simto_push; [exact C1|]|].
        * cbn [exec vstk]. rewrite F1, F2. reflexivity.
        * intros. cbn beta. f_equal. pcs.
      + destruct (x_arity X (FDeprecated f)) eqn:EA; [|discriminate].
        destruct (arity_ok _ _); [|discriminate]. inv_bind E. injection E as <-.
        apply at_code_app in C as [Ca C]. ccons C C1.
        eapply simto_bind_ret; [eapply node_seq_sim; eauto|].
        intros vs env1 h1 EV. cbn beta. apply eval_seq_length in EV.
        destruct (firstn_rev_app vs stk (length l) (eq_sym EV)) as [F1 F2].
        eapply simto_eq; [eapply simto_push; [exact C1|]|].
        * cbn [exec vstk]. rewrite F1, F2. reflexivity.
        * intros. cbn beta. f_equal. pcs.
      + destruct l as [|a0 [|a1 l]].
        * discriminate.
        * destruct (cgen X al a0); discriminate.
        * inversion H as [|? ? Ha0 Hr]; subst. inversion Hr as [|? ? Ha1 Hr']; subst. clear H Hr Hr'.
          inv_bind E. injection E as <-. apply at_code_app in C as [Ca C].
          eapply simto_bind; [eapply Ha0; eauto|]. intros v env1 h1. cbn beta.
          eapply simto_eq; [eapply (closure_sim c (fun lp => eval X root al (lp :: loops) a1)); eauto|].
          -- intros. eapply Ha1; eauto.
          -- intros. cbn beta. f_equal. pcs.
    - (* method *)
      cbn [eval]. destruct (x_marity X k) eqn:EA; [|discriminate]. inv_bind E.
      destruct (arity_ok _ _); [|discriminate]. inv_bind E. injection E as <-.
      apply at_code_app in C as [Ct C]. apply at_code_app in C as [Ca C]. ccons C C1.
      eapply simto_bind; [eapply IHn; eauto|]. intros tv env0 h0. cbn beta.
      eapply simto_bind_ret; [eapply node_seq_sim; eauto|].
      intros vs env1 h1 EV. cbn beta. apply eval_seq_length in EV.
      destruct (firstn_rev_app (tv :: vs) stk (S (length l))) as [F1 F2]; [cbn; lia|].
      cbn [rev] in F1, F2. rewrite <- app_assoc in F1, F2. cbn [app] in F1, F2.
      eapply simto_eq; [eapply simto_push; [exact C1|]|].
      + cbn [exec vstk]. rewrite (proj2 (Nat.ltb_lt _ _)).
        2:{ rewrite app_length, rev_length. cbn. lia. }
        rewrite F1, F2. reflexivity.
      + intros. cbn beta. f_equal. pcs.
    - discriminate.
  Qed.
End WithExt.

Lemma steps_run : forall X root code s s', steps X root code s s' ->
  forall fuel r, run X root fuel code s' = Some r -> exists fuel', run X root fuel' code s = Some r.
Proof.
  induction 1; intros; eauto.
  destruct (IHsteps _ _ H1) as [f Hf]. exists (S f). cbn. now rewrite H.
Qed.

Lemma run_mono : forall X root code fuel s r, run X root fuel code s = Some r ->
  forall k, run X root (fuel + k) code s = Some r.
Proof.
  induction fuel; cbn; intros; [discriminate|].
  destruct (step X root code s); auto.
Qed.

Lemma run_det : forall X root code f1 f2 s r1 r2, run X root f1 code s = Some r1 ->
  run X root f2 code s = Some r2 -> r1 = r2.
Proof.
  intros. apply run_mono with (k := f2) in H. apply run_mono with (k := f1) in H0.
  rewrite Nat.add_comm in H0. congruence.
Qed.

(** Whole programs. *)
Lemma run_evaluate : forall X n code root h, compile X n = Ok code ->
  exists fuel, vm_run X fuel code root h = Some (evaluate X n root h).
Proof.
  intros X n code root h E. rewrite compile_cgen in E.
  assert (S := simulation X root code n [] code E 0 (at_code_whole code) [] [] root [] h).
  unfold vm_run, evaluate. destruct (eval X root [] [] n root h) as [v env1 h1|e h1]; cbn [simto] in S.
  - eapply steps_run; [exact S|]. instantiate (1 := 1). cbn [run]. unfold step. cbn [vip].
    replace (nth_error code (0 + length code)) with (@None opcode).
    2:{ symmetry. apply nth_error_None. lia. }
    reflexivity.
  - destruct S as (s' & S & D). eapply steps_run; [exact S|]. instantiate (1 := 1).
    cbn [run]. now rewrite D.
Qed.
