(** What expressions, assertions and matches do to store and environment. *)
From Coq Require Import String Bool List Arith Lia.
From Verif Require Import Base Dec Value Heap Ast Ops Compiler Vm Eval Funcs HeapSpec TreeFacts HeapFacts Isolate Session PureFacts Blocks BlocksSpec AssertFacts.
From Verif Require RepFacts ContentFacts KeepFacts KeepLib HeapClaims.
Import ListNotations.
Local Open Scope string_scope.
Local Open Scope nat_scope.
Local Open Scope list_scope.

Section Facts.
  Variable L : lib.
  Hypothesis HL : ContentFacts.plain_lib L.
  Variable parse : ekind -> string -> res node.
  Notation X := (std_ext L).
  Notation run := (srun X parse KStandard).
  Notation reads_only := (reads_only parse).

  Definition two (ls le : loc) : loc -> Prop := fun l => l = ls \/ l = le.
  (** Two moments in which the context looks the same. *)
  Definition looks (ls le : loc) (h g : heap) (c1 c2 : value) : Prop :=
    KeepFacts.ealike (two ls le) (fun _ => true) false h g (scope_new c1) (scope_new c2).
  Lemma run_looks : forall ls le h g c1 c2 e, looks ls le h g c1 c2 -> reads_only e ->
    KeepLib.same_outcome (two ls le) (snd (run e (scope_new c1) h), fst (run e (scope_new c1) h))
                                     (snd (run e (scope_new c2) g), fst (run e (scope_new c2) g)).
  Proof.
    intros ls le h g c1 c2 e A R. unfold srun. destruct (parse KStandard e) as [n|] eqn:P; [|reflexivity].
    destruct (compile X n); [|reflexivity]. destruct (R n P) as [Na Nr].
    pose proof (KeepLib.evaluate_clear (two ls le) L _ _ n _ _ h g HL Na Nr A) as S0.
    destruct (evaluate X n (scope_new c1) h), (evaluate X n (scope_new c2) g). exact S0.
  Qed.
  Lemma run_hext : forall e c h, reads_only e -> hext h (fst (run e (scope_new c) h)).
  Proof.
    intros e c h R. unfold srun. destruct (parse KStandard e) as [n|] eqn:P; [|apply hext_refl].
    destruct (compile X n); [|apply hext_refl]. destruct (R n P) as [Na _].
    pose proof (evaluate_pure X n (scope_new c) h (std_pure L) (no_assign_flat n Na)) as Q.
    destruct (evaluate X n (scope_new c) h). exact Q.
  Qed.
  Lemma holds_looks : forall ls le h g c1 c2 e, looks ls le h g c1 c2 -> reads_only e ->
    holds_in X parse h c1 e = holds_in X parse g c2 e /\ (works X parse h c1 e <-> works X parse g c2 e).
  Proof.
    intros ls le h g c1 c2 e A R. pose proof (run_looks _ _ _ _ _ _ _ A R) as S0. unfold holds_in, works, outcome.
    destruct (snd (run e (scope_new c1) h)) as [v1|e1], (snd (run e (scope_new c2) g)) as [v2|e2]; cbn in S0; try contradiction.
    - apply KeepFacts.alike_view in S0. split; [|split; eauto]. now inversion S0.
    - split; auto. split; intros [v V]; discriminate.
  Qed.
  Lemma evaluates_looks : forall ls le h g c1 c2 e t, looks ls le h g c1 c2 -> reads_only e ->
    evaluates X parse h c1 e t <-> evaluates X parse g c2 e t.
  Proof.
    intros ls le h g c1 c2 e t A R. pose proof (run_looks _ _ _ _ _ _ _ A R) as S0. unfold evaluates.
    destruct (run e (scope_new c1) h) as [h1 [v1|e1]], (run e (scope_new c2) g) as [g1 [v2|e2]]; cbn in S0; try contradiction.
    - destruct S0 as (t0 & R1 & R2 & _). split; intros (x & y & E & Q); injection E as <- <-; eexists; eexists; (split; [reflexivity|]).
      + now rewrite (repr_fun _ _ _ Q _ R1).
      + now rewrite (repr_fun _ _ _ Q _ R2).
    - split; intros (x & y & E & Q); discriminate.
  Qed.

  (** What a block gives once its arm is picked. *)
  Definition gives_tree (h : heap) (env : value) (b : block) (p : pick) (t : tree) : Prop :=
    match b with
    | BExpression _ e => evaluates X parse h env e t
    | BAssertion _ _ => computes X parse h env b t
    | BMatch _ arms =>
        match (match p with PMatched (Some id) => find (fun a => String.eqb (ma_id a) id) arms | _ => None end) with
        | Some a => if String.eqb (ma_value a) "" then t = TNull else evaluates X parse h env (ma_value a) t
        | None => t = TNull
        end
    end.
  Definition picked (h : heap) (env : value) (b : block) (p : pick) : Prop :=
    match b with
    | BMatch _ arms => exists o, arm_chosen X parse h env arms o /\ p = PMatched (option_map ma_id o)
    | _ => p = PUnconditional
    end.
  (** Two contexts in which an expression comes out the same. *)
  Definition same_on (h : heap) (c1 : value) (g : heap) (c2 : value) (e : string) : Prop :=
    holds_in X parse h c1 e = holds_in X parse g c2 e /\ (works X parse h c1 e <-> works X parse g c2 e) /\
    forall t, evaluates X parse h c1 e t <-> evaluates X parse g c2 e t.
  Lemma looks_same : forall ls le h g c1 c2 e, looks ls le h g c1 c2 -> reads_only e -> same_on h c1 g c2 e.
  Proof.
    intros ls le h g c1 c2 e A R. destruct (holds_looks _ _ _ _ _ _ _ A R). split; auto. split; auto. intros t. eapply evaluates_looks; eauto.
  Qed.
  Lemma same_sym : forall h c1 g c2 e, same_on h c1 g c2 e -> same_on g c2 h c1 e.
  Proof. intros h c1 g c2 e (A & B & C). split; auto. split; [tauto|]. intros t. symmetry. apply C. Qed.
  Lemma same_trans : forall h c1 g c2 k c3 e, same_on h c1 g c2 e -> same_on g c2 k c3 e -> same_on h c1 k c3 e.
  Proof. intros h c1 g c2 k c3 e (A & B & C) (A1 & B1 & C1). split; [congruence|]. split; [tauto|]. intros t. rewrite C. apply C1. Qed.
  Lemma arun_ext : forall f1 f2 l s, (forall c, In c l -> f1 (ac_expr c) = f2 (ac_expr c)) -> arun f1 l s = arun f2 l s.
  Proof.
    intros f1 f2. induction l as [|c l IH]; intros s H; [reflexivity|]. unfold arun in *. cbn [fold_left]. rewrite IH by (intros; apply H; now right).
    f_equal. unfold astep. now rewrite (H c (or_introl eq_refl)).
  Qed.
  Lemma chosen_same : forall h c1 g c2 arms o, (forall a, In a arms -> same_on h c1 g c2 (ma_cond a)) ->
    arm_chosen X parse h c1 arms o -> arm_chosen X parse g c2 arms o.
  Proof.
    intros h c1 g c2 arms o S0 C. induction C as [|a r Q|a r o Q1 Q2 Q3 C IH].
    - constructor.
    - constructor. destruct Q as [Q|Q]; auto. right. now rewrite <- (proj1 (S0 a (or_introl eq_refl))).
    - destruct (S0 a (or_introl eq_refl)) as (A & B & _). constructor; auto; [tauto|congruence|]. apply IH. intros; apply S0. now right.
  Qed.
  Lemma computes_same : forall h c1 g c2 b t, (forall e, In e (block_sources b) -> same_on h c1 g c2 e) ->
    computes X parse h c1 b t -> computes X parse g c2 b t.
  Proof.
    intros h c1 g c2 b t S0 C.
    assert (SM : forall k arms o, b = BMatch k arms -> arm_chosen X parse h c1 arms o -> arm_chosen X parse g c2 arms o).
    { intros k arms o -> Q. eapply chosen_same; eauto. intros a Ha. apply S0. cbn. apply in_or_app. left. now apply in_map. }
    destruct C as [k e t Q|k l Wl Al Nl Q|k|k arms a t Q Qv Qe|k arms a Q Qv|k arms Q].
    - constructor. apply (proj2 (proj2 (S0 e (or_introl eq_refl)))). auto.
    - assert (E : value_of (holds_in X parse h c1) (IGroup l) = value_of (holds_in X parse g c2) (IGroup l)).
      { rewrite <- !formula by auto. f_equal. apply arun_ext. intros c Hc. apply S0. cbn. now apply in_map. }
      rewrite E. constructor; auto. intros c Hc. apply (proj1 (proj2 (S0 (ac_expr c) (in_map _ _ _ Hc)))). auto.
    - constructor.
    - eapply CP_match; eauto. assert (Ha : In a arms).
      { remember (Some a) as o eqn:Eo. clear - Q Eo. induction Q; try discriminate; [injection Eo as ->; now left|right; auto]. }
      apply (proj2 (proj2 (S0 (ma_value a) (in_or_app _ _ _ (or_intror (in_map _ _ _ Ha)))))). auto.
    - eapply CP_blank; eauto.
    - eapply CP_unmatched; eauto.
  Qed.
  Lemma gives_same : forall h c1 g c2 b p t, (forall e, In e (block_sources b) -> same_on h c1 g c2 e) ->
    gives_tree h c1 b p t -> gives_tree g c2 b p t.
  Proof.
    intros h c1 g c2 b p t S0 C. destruct b as [k e|k cs|k arms]; cbn [gives_tree] in *.
    - apply (proj2 (proj2 (S0 e (or_introl eq_refl)))). auto.
    - eapply computes_same; eauto.
    - destruct (match p with PMatched (Some id) => find (fun a => String.eqb (ma_id a) id) arms | _ => None end) as [a|] eqn:Fa; auto.
      destruct (String.eqb (ma_value a) ""); auto. assert (Ha : In a arms) by (destruct p as [[id|]|]; try discriminate; now apply find_some in Fa).
      apply (proj2 (proj2 (S0 (ma_value a) (in_or_app _ _ _ (or_intror (in_map _ _ _ Ha)))))). auto.
  Qed.
  Lemma picked_same : forall h c1 g c2 b p, (forall e, In e (block_sources b) -> same_on h c1 g c2 e) ->
    picked h c1 b p -> picked g c2 b p.
  Proof.
    intros h c1 g c2 b p S0 C. destruct b as [k e|k cs|k arms]; cbn [picked] in *; auto. destruct C as (o & C & E). exists o. split; auto.
    eapply chosen_same; eauto. intros a Ha. apply S0. cbn. apply in_or_app. left. now apply in_map.
  Qed.

  (** *** The world. *)
  Definition world (ls le : loc) (ms me : amap value) (h : heap) : Prop :=
    ls <> le /\ hget h ls = Some (CObj ms) /\ hget h le = Some (CObj me) /\ NoDup (akeys ms) /\ NoDup (akeys me) /\
    (forall k, k <> "$" -> aget k me = aget k ms) /\
    (forall k v, In (k, v) (ms ++ me) -> exists t, repr h v t /\ KeepFacts.clear (two ls le) h v).
  Lemma in_step_world : forall w, in_step w <-> exists ls le ms me, w = PW (pw_heap w) (VObj ls) (VObj le) /\ world ls le ms me (pw_heap w).
  Proof.
    intros [h s e]. split.
    - intros (ls & le & ms & me & E1 & E2 & R). cbn in *. subst. exists ls, le, ms, me. split; auto.
    - intros (ls & le & ms & me & E & R). cbn in *. injection E as -> ->. exists ls, le, ms, me. cbn. auto.
  Qed.
  Lemma world_hext : forall ls le ms me h g, world ls le ms me h -> hext h g -> world ls le ms me g.
  Proof.
    intros ls le ms me h g (N & A & B & N1 & N2 & M & T) E. split; auto. split; [eapply hext_get; eauto|]. split; [eapply hext_get; eauto|].
    split; auto. split; auto. split; auto. intros k v Hin. destruct (T k v Hin) as (t & R & C). exists t. split; [eapply repr_hext; eauto|].
    intros l Hl Hr. apply (C l Hl). eapply reachl_back; eauto.
  Qed.
  Lemma world_looks : forall ls le ms me h g, world ls le ms me h -> hext h g -> looks ls le h g (VObj le) (VObj le).
  Proof.
    intros ls le ms me h g (N & A & B & N1 & N2 & M & T) E. split; [|split; [|split; [discriminate|]]].
    - right. split; auto. exists le, le, me, me. split; auto. split; auto. split; [now apply hobj_hget|].
      split; [apply hobj_hget; eapply hext_get; eauto|]. intros k _. destruct (aget k me) as [v|] eqn:K; [|exact Logic.I]. cbn.
      apply aget_Some_in in K. destruct (T k v) as (t & R & C); [apply in_app_iff; auto|]. exists t. split; auto. split; auto. eapply repr_hext; eauto.
    - intros k _. exact Logic.I.
    - intros l [->| ->]; eauto using hget_lt.
  Qed.
  (** A field survives what happens to the store and the environment themselves. *)
  Lemma clear_hset : forall ls le h l c v t, two ls le l -> repr h v t -> KeepFacts.clear (two ls le) h v ->
    repr (hset h l c) v t /\ KeepFacts.clear (two ls le) (hset h l c) v.
  Proof.
    intros ls le h l c v t Hl R C. assert (A : agree h (hset h l c) (reachl h v)).
    { apply agree_hset. intros Q. exact (C l Hl Q). }
    split; [eapply repr_agree; eauto|]. intros l0 H0 Q. apply (C l0 H0).
    destruct Q as [Q|Q]; [left|right]; eapply reach_agree_back; eauto.
  Qed.

  Lemma lupd_same : forall (l : list cell) i x, nth_error l i = Some x -> lupd i x l = l.
  Proof. induction l as [|y l IH]; intros [|i] x E; cbn in *; try discriminate; [now injection E as ->|]. f_equal. auto. Qed.
  Lemma bind_world : forall ls le ms me h, world ls le ms me h ->
    exists g, bind_env (PW h (VObj ls) (VObj le)) = PW g (VObj ls) (VObj le) /\ world ls le ms (adel "$" me) g /\
      (forall v t, repr h v t -> KeepFacts.clear (two ls le) h v -> repr g v t /\ KeepFacts.clear (two ls le) g v) /\ length g = length h.
  Proof.
    intros ls le ms me h (N & A & B & N1 & N2 & M & T). exists (hset h le (CObj (adel "$" me))). cbn. rewrite (proj2 (hobj_hget _ _ _) B).
    split; auto. assert (Le : le < length h) by eauto using hget_lt.
    assert (K : forall v t, repr h v t -> KeepFacts.clear (two ls le) h v ->
      repr (hset h le (CObj (adel "$" me))) v t /\ KeepFacts.clear (two ls le) (hset h le (CObj (adel "$" me))) v).
    { intros v t R C. eapply clear_hset; eauto. now right. }
    split; [|split; [exact K|apply hset_length]].
    split; auto. split; [rewrite hget_hset_ne; auto|]. split; [now rewrite hget_hset_eq|]. split; auto. split; [now apply adel_nodup|]. split.
    - intros k Hk. rewrite aget_adel_ne by congruence. auto.
    - intros k v Hin. destruct (T k v) as (t & R & C).
      { apply in_app_iff. apply in_app_iff in Hin as [Hin|Hin]; [auto|right; eapply adel_in; eauto]. }
      exists t. now apply K.
  Qed.
  Lemma bind_bound : forall ls le ms me h, world ls le ms me h -> aget "$" me = None ->
    bind_env (PW h (VObj ls) (VObj le)) = PW h (VObj ls) (VObj le).
  Proof.
    intros ls le ms me h (N & A & B & _) D. cbn. rewrite (proj2 (hobj_hget _ _ _) B). rewrite adel_noop by auto.
    unfold hset. now rewrite lupd_same.
  Qed.

  (** A write to a top-level property. *)
  Lemma write_flat : forall ls le ms me h k v t, world ls le ms me h -> flat_key k -> repr h v t -> KeepFacts.clear (two ls le) h v ->
    exists g, write k v (PW h (VObj ls) (VObj le)) = PW g (VObj ls) (VObj le) /\ world ls le (aset k v ms) (aset k v me) g /\
      (forall v t, repr h v t -> KeepFacts.clear (two ls le) h v -> repr g v t /\ KeepFacts.clear (two ls le) g v) /\ length g = length h.
  Proof.
    intros ls le ms me h k v t W (F & _ & Fd) R C. destruct W as (N & A & B & N1 & N2 & M & T).
    assert (Ls : ls < length h) by eauto using hget_lt. assert (Le : le < length h) by eauto using hget_lt.
    exists (hset (hset h ls (CObj (aset k v ms))) le (CObj (aset k v me))).
    assert (B1 : hget (hset h ls (CObj (aset k v ms))) le = Some (CObj me)) by (rewrite hget_hset_ne; auto).
    assert (A1 : hget (hset h ls (CObj (aset k v ms))) ls = Some (CObj (aset k v ms))) by now apply hget_hset_eq.
    assert (K : forall v0 t0, repr h v0 t0 -> KeepFacts.clear (two ls le) h v0 ->
      repr (hset (hset h ls (CObj (aset k v ms))) le (CObj (aset k v me))) v0 t0 /\
      KeepFacts.clear (two ls le) (hset (hset h ls (CObj (aset k v ms))) le (CObj (aset k v me))) v0).
    { intros v0 t0 R0 C0. destruct (clear_hset ls le h ls (CObj (aset k v ms)) v0 t0 (or_introl eq_refl) R0 C0) as [R1 C1].
      exact (clear_hset ls le _ le (CObj (aset k v me)) v0 t0 (or_intror eq_refl) R1 C1). }
    split; [|split; [|split; [exact K|now rewrite !hset_length]]].
    - unfold write, dot_insert. cbn [pw_heap pw_store pw_env]. rewrite F. unfold dot_insert_parts. cbn. rewrite (proj2 (hobj_hget _ _ _) A). cbn.
      unfold mirror. cbn. rewrite (proj2 (hobj_hget _ _ _) A1), (proj2 (hobj_hget _ _ _) B1), F. cbn. now rewrite aget_aset_eq.
    - split; auto. split; [rewrite hget_hset_ne; auto|]. split; [apply hget_hset_eq; now rewrite hset_length|].
      split; [now apply aset_nodup|]. split; [now apply aset_nodup|]. split.
      + intros k0 Hk. destruct (String.eqb_spec k k0) as [->|D]; [now rewrite !aget_aset_eq|]. rewrite !aget_aset_ne by congruence. auto.
      + intros k0 v0 Hin. apply in_app_iff in Hin. assert (Q : (k0, v0) = (k, v) \/ In (k0, v0) (ms ++ me)).
        { destruct Hin as [Hin|Hin]; apply aset_in in Hin as [E|Hin]; auto; right; apply in_app_iff; auto. }
        destruct Q as [E|Q]; [injection E as -> ->; exists t; now apply K|]. destruct (T _ _ Q) as (t0 & R0 & C0). exists t0. now apply K.
  Qed.

  (** *** Conditions. *)
  Section Bound.
    Variables (ls le : loc) (ms me : amap value) (h : heap).
    Hypothesis W : world ls le ms me h.
    Notation at_ g := (PW g (VObj ls) (VObj le)).
    Notation env := (VObj le).
    Lemma gives_spec : forall e g w1 r, hext h g -> reads_only e -> gives X parse e (at_ g) = (w1, r) ->
      exists g1, w1 = at_ g1 /\ hext g g1 /\
        match r with
        | Ok v => exists t, evaluates X parse h env e t /\ repr g1 v t /\ KeepFacts.clear (two ls le) g1 v
        | Err _ => ~ works X parse h env e
        end.
    Proof.
      intros e g w1 r E R G. unfold gives in G. cbn [pw_env pw_heap pw_store] in G.
      destruct (run e (scope_new env) g) as [g1 r1] eqn:Q. injection G as <- <-. exists g1. split; auto.
      split; [pose proof (run_hext e env g R) as Z; now rewrite Q in Z|].
      pose proof (run_looks ls le g h env env e) as S0. rewrite Q in S0. cbn [fst snd] in S0.
      assert (LK : looks ls le g h env env).
      { pose proof (world_looks ls le ms me g g (world_hext _ _ _ _ _ _ W E) (hext_refl g)) as (K1 & K2 & K3 & K4).
        destruct W as (N & A & B & N1 & N2 & M & T).
        split; [|split; [exact K2|split; [discriminate|exact K4]]]. right. split; auto. exists le, le, me, me. split; auto. split; auto.
        split; [apply hobj_hget; eapply hext_get; eauto|]. split; [now apply hobj_hget|]. intros k _. destruct (aget k me) as [v|] eqn:K; [|exact Logic.I].
        cbn. apply aget_Some_in in K. destruct (T k v) as (t & Rt & C); [apply in_app_iff; auto|]. exists t. split; [eapply repr_hext; eauto|]. split; auto.
        intros l Hl Hr. apply (C l Hl). eapply reachl_back; eauto. }
      specialize (S0 LK R). unfold works, evaluates, outcome. destruct (run e (scope_new env) h) as [h1 r2]. cbn [fst snd] in S0.
      destruct r1 as [v1|e1], r2 as [v2|e2]; cbn in S0; try contradiction.
      - destruct S0 as (t & R1 & R2 & C). exists t. split; [|auto]. eauto.
      - intros [v V]. discriminate.
    Qed.
    Lemma asks_spec : forall e g w1 r, hext h g -> reads_only e -> asks X parse e (at_ g) = (w1, r) ->
      exists g1, w1 = at_ g1 /\ hext g g1 /\
        match r with
        | Ok b => works X parse h env e /\ b = holds_in X parse h env e
        | Err _ => ~ works X parse h env e
        end.
    Proof.
      intros e g w1 r E R A. unfold asks in A. destruct (gives X parse e (at_ g)) as [w2 r2] eqn:G.
      destruct (gives_spec e g w2 r2 E R G) as (g1 & -> & E1 & S0). destruct r2 as [v|x]; injection A as <- <-; exists g1; (split; [auto|]); (split; [auto|]); auto.
      destruct S0 as (t & (h1 & v1 & Q & R1) & R2 & _). unfold works, holds_in, outcome. rewrite Q. cbn. split; [eauto|].
      inversion R2; subst; inversion R1; subst; cbn; auto. now destruct b.
    Qed.
    Lemma aloop_spec : forall l s g w1 r, hext h g -> (forall c, In c l -> reads_only (ac_expr c)) -> aloop X parse l s (at_ g) = (w1, r) ->
      exists g1, w1 = at_ g1 /\ hext g g1 /\
        match r with
        | Ok (b, t) => (forall c, In c l -> works X parse h env (ac_expr c)) /\ b = afinish (arun (holds_in X parse h env) l s) /\
            t = map (fun c => (ac_id c, holds_in X parse h env (ac_expr c))) l
        | Err _ => exists c, In c l /\ ~ works X parse h env (ac_expr c)
        end.
    Proof.
      induction l as [|c l IH]; intros s g w1 r E R A; cbn [aloop] in A.
      - injection A as <- <-. exists g. split; auto. split; [apply hext_refl|]. split; [intros c []|]. auto.
      - destruct (asks X parse (ac_expr c) (at_ g)) as [w2 q] eqn:Q. destruct (asks_spec _ _ _ _ E (R c (or_introl eq_refl)) Q) as (g1 & -> & E1 & S0).
        destruct q as [b|x]; [|injection A as <- <-; exists g1; split; auto; split; auto; exists c; split; [now left|auto]].
        destruct (aloop X parse l _ (at_ g1)) as [w3 r3] eqn:A3. apply IH in A3; [|eapply hext_trans; eauto|intros; apply R; now right].
        destruct A3 as (g2 & -> & E2 & S2). destruct S0 as [Wk ->]. exists g2.
        destruct r3 as [[b t]|x]; injection A as <- <-; (split; [auto|]); (split; [eapply hext_trans; eauto|]).
        + destruct S2 as (S2 & -> & ->). split; [intros c0 [<-|Hc]; auto|]. split; reflexivity.
        + destruct S2 as (c0 & Hc & Nw). exists c0. split; [now right|auto].
    Qed.
    Lemma mselect_matched : forall extras arms id g w1 r, hext h g -> (forall a, In a arms -> reads_only (ma_cond a)) ->
      mselect X parse extras arms (Some id) (at_ g) = (w1, r) ->
      exists g1 t, w1 = at_ g1 /\ hext g g1 /\ r = Ok (Some id, t).
    Proof.
      induction arms as [|a l IH]; intros id g w1 r E R A; cbn [mselect] in A.
      - injection A as <- <-. exists g, []. split; auto. split; [apply hext_refl|auto].
      - destruct extras.
        2:{ injection A as <- <-. exists g, []. split; auto. split; [apply hext_refl|auto]. }
        assert (S0 : forall w2 q, (if String.eqb (ma_cond a) "" then (at_ g, Ok true) else asks X parse (ma_cond a) (at_ g)) = (w2, q) ->
          exists g1, w2 = at_ g1 /\ hext g g1).
        { intros w2 q Q. destruct (String.eqb (ma_cond a) ""); [injection Q as <- <-; exists g; split; auto; apply hext_refl|].
          destruct (asks_spec _ _ _ _ E (R a (or_introl eq_refl)) Q) as (g1 & -> & E1 & _). eauto. }
        destruct (if String.eqb (ma_cond a) "" then _ else _) as [w2 q]. destruct (S0 w2 q eq_refl) as (g1 & -> & E1).
        assert (K : exists b, match q with Err _ => Ok false | Ok _ => q end = Ok b) by (destruct q; eauto). destruct K as (b & K).
        rewrite K in A. destruct (mselect X parse true l (Some id) (at_ g1)) as [w3 r3] eqn:A3.
        apply IH in A3; [|eapply hext_trans; eauto|intros; apply R; now right]. destruct A3 as (g2 & t & -> & E2 & ->). injection A as <- <-.
        exists g2. eexists. split; auto. split; [eapply hext_trans; eauto|]. reflexivity.
    Qed.
    Lemma mselect_spec : forall extras arms g w1 r, hext h g -> (forall a, In a arms -> reads_only (ma_cond a)) ->
      mselect X parse extras arms None (at_ g) = (w1, r) ->
      exists g1, w1 = at_ g1 /\ hext g g1 /\
        match r with
        | Ok (m, _) => exists o, arm_chosen X parse h env arms o /\ m = option_map ma_id o
        | Err _ => forall o, ~ arm_chosen X parse h env arms o
        end.
    Proof.
      induction arms as [|a l IH]; intros g w1 r E R A; cbn [mselect] in A.
      - injection A as <- <-. exists g. split; auto. split; [apply hext_refl|]. exists None. split; [constructor|auto].
      - assert (S0 : forall w2 q, (if String.eqb (ma_cond a) "" then (at_ g, Ok true) else asks X parse (ma_cond a) (at_ g)) = (w2, q) ->
          exists g1, w2 = at_ g1 /\ hext g g1 /\
            match q with
            | Ok true => ma_cond a = "" \/ holds_in X parse h env (ma_cond a) = true
            | Ok false => ma_cond a <> "" /\ works X parse h env (ma_cond a) /\ holds_in X parse h env (ma_cond a) = false
            | Err _ => ma_cond a <> "" /\ ~ works X parse h env (ma_cond a)
            end).
        { intros w2 q Q. destruct (String.eqb_spec (ma_cond a) "") as [D|D].
          - injection Q as <- <-. exists g. split; auto. split; [apply hext_refl|]. now left.
          - destruct (asks_spec _ _ _ _ E (R a (or_introl eq_refl)) Q) as (g1 & -> & E1 & S1). exists g1. split; auto. split; auto.
            destruct q as [b|]; [destruct S1 as [S1 ->]; destruct (holds_in X parse h env (ma_cond a)) eqn:H0; auto|auto]. }
        destruct (if String.eqb (ma_cond a) "" then _ else _) as [w2 q]. destruct (S0 w2 q eq_refl) as (g1 & -> & E1 & S1).
        assert (K : match q, @None string with Err _, Some _ => Ok false | _, _ => q end = q) by now destruct q. cbv zeta in A. rewrite K in A. clear K S0.
        destruct q as [[]|x].
        + destruct (mselect X parse extras l (Some (ma_id a)) (at_ g1)) as [w3 r3] eqn:A3.
          apply mselect_matched in A3; [|eapply hext_trans; eauto|intros; apply R; now right]. destruct A3 as (g2 & t & -> & E2 & ->). injection A as <- <-.
          exists g2. split; auto. split; [eapply hext_trans; eauto|]. exists (Some a). split; [now constructor|reflexivity].
        + destruct (mselect X parse extras l None (at_ g1)) as [w3 r3] eqn:A3. apply IH in A3; [|eapply hext_trans; eauto|intros; apply R; now right].
          destruct A3 as (g2 & -> & E2 & S2). destruct S1 as (D & Wk & Hf). exists g2.
          destruct r3 as [[m t]|x]; injection A as <- <-; (split; [auto|]); (split; [eapply hext_trans; eauto|]).
          * destruct S2 as (o & C & ->). exists o. split; [now constructor|auto].
          * intros o C. inversion C as [|a0 r0 Q0|a0 r0 o0 Q1 Q2 Q3 Q4]; subst; [destruct Q0 as [Q0|Q0]; congruence|eapply S2; eauto].
        + injection A as <- <-. exists g1. split; auto. split; auto. destruct S1 as [D Nw]. intros o C. inversion C as [|a0 r0 Q0|a0 r0 o0 Q1 Q2 Q3 Q4]; subst; [|contradiction].
          destruct Q0 as [Q0|H0]; [congruence|]. apply Nw. unfold holds_in in H0. unfold works. destruct (outcome X parse h env (ma_cond a)); [eauto|discriminate].
    Qed.

    Lemma evaluates_fun : forall e t t', evaluates X parse h env e t -> evaluates X parse h env e t' -> t = t'.
    Proof. intros e t t' (h1 & v & E & R) (h2 & v2 & E2 & R2). rewrite E in E2. injection E2 as <- <-. eapply repr_fun; eauto. Qed.
    Lemma evaluates_works : forall e t, evaluates X parse h env e t -> works X parse h env e.
    Proof. intros e t (h1 & v & E & R). exists v. unfold outcome. now rewrite E. Qed.
    Hypothesis Bd : aget "$" me = None.
    Lemma commit_spec : forall b p w1 r, plain_block parse b -> flat_key (block_key b) -> bcommit X parse b p (at_ h) = (w1, r) ->
      match r with
      | Ok _ => exists g v t, hext h g /\ repr g v t /\ KeepFacts.clear (two ls le) g v /\ gives_tree h env b p t /\ w1 = write (block_key b) v (at_ g)
      | Err _ => (exists g, hext h g /\ w1 = at_ g) /\ forall t, ~ gives_tree h env b p t
      end.
    Proof.
      intros b p w1 r (Ps & Pb) (_ & Kn & _) C. unfold bcommit in C. rewrite (bind_bound _ _ _ _ _ W Bd) in C.
      apply String.eqb_neq in Kn. destruct b as [k e|k cs|k arms]; cbn [block_key block_sources] in *.
      - unfold xexecute in C. apply String.eqb_neq in Pb. rewrite Kn, Pb in C. cbn [orb] in C.
        destruct (gives X parse e (at_ h)) as [w2 q] eqn:G. destruct (gives_spec _ _ _ _ (hext_refl h) (Ps e (or_introl eq_refl)) G) as (g & -> & E & S0).
        destruct q as [v|x]; injection C as <- <-.
        + destruct S0 as (t & Ev & R & Cl). exists g, v, t. cbn [gives_tree]. auto.
        + split; [eauto|]. intros t T. apply S0. eapply evaluates_works; eauto.
      - unfold aexecute, evaluate_conditions in C. rewrite Kn in C. destruct cs as [|c cs].
        + injection C as <- <-. exists h, (VBool false), (TBool false). split; [apply hext_refl|]. split; [constructor|].
          split; [apply KeepFacts.clear_scalar; discriminate|]. split; [constructor|auto].
        + remember (c :: cs) as l eqn:El. destruct (aloop X parse l _ (at_ h)) as [w2 q] eqn:A.
          apply aloop_spec in A; [|apply hext_refl|intros c0 H0; apply Ps; apply in_map; auto]. destruct A as (g & -> & E & S0).
          destruct (every_assertion l) as (f & Nf & Ef & Wf & Af); [subst; discriminate|].
          destruct q as [[b t]|x]; injection C as <- <-.
          * destruct S0 as (S0 & -> & _). pose proof (formula (holds_in X parse h env) f Nf Wf Af) as Fv. rewrite Ef in Fv. rewrite Fv.
            exists g, (VBool (value_of (holds_in X parse h env) (IGroup f))), (TBool (value_of (holds_in X parse h env) (IGroup f))). split; [exact E|]. split; [constructor|]. split; [apply KeepFacts.clear_scalar; discriminate|]. split; [|reflexivity].
            cbn [gives_tree]. rewrite <- Ef. constructor; auto. rewrite Ef. auto.
          * split; [eauto|]. intros t T. destruct S0 as (c0 & Hc & Nw). apply Nw. cbn [gives_tree] in T.
            inversion T as [|k0 f0 H1 H2 H3 H4 H5 H6|k0 H5 H6| | |]; [apply H4; congruence|subst l; congruence].
      - unfold mcommit in C. rewrite Kn in C. cbn [gives_tree].
        destruct (match match p with PMatched m => m | PUnconditional => None end with Some id => find (fun a => String.eqb (ma_id a) id) arms | None => None end) as [a|] eqn:Fa.
        + assert (F2 : match p with PMatched (Some id) => find (fun a => String.eqb (ma_id a) id) arms | _ => None end = Some a) by (destruct p as [[]|]; auto; discriminate).
          rewrite F2. assert (Ha : In a arms) by (destruct p as [[id|]|]; try discriminate; now apply find_some in F2).
          destruct (String.eqb (ma_value a) "") eqn:Ev.
          * injection C as <- <-. exists h, VNull, TNull. split; [apply hext_refl|]. split; [constructor|].
            split; [apply KeepFacts.clear_scalar; discriminate|]. auto.
          * destruct (gives X parse (ma_value a) (at_ h)) as [w2 q] eqn:G.
            destruct (gives_spec _ _ _ _ (hext_refl h) (Ps (ma_value a) (in_or_app _ _ _ (or_intror (in_map _ _ _ Ha)))) G) as (g & -> & E & S0).
            destruct q as [v|x]; injection C as <- <-.
            -- destruct S0 as (t & Et & R & Cl). exists g, v, t. auto.
            -- split; [eauto|]. intros t T. apply S0. eapply evaluates_works; eauto.
        + assert (F2 : match p with PMatched (Some id) => find (fun a => String.eqb (ma_id a) id) arms | _ => None end = None) by (destruct p as [[]|]; auto).
          rewrite F2. injection C as <- <-. exists h, VNull, TNull. split; [apply hext_refl|]. split; [constructor|].
          split; [apply KeepFacts.clear_scalar; discriminate|]. auto.
    Qed.
    Lemma chosen_in : forall arms a, arm_chosen X parse h env arms (Some a) -> In a arms.
    Proof. intros arms a C. remember (Some a) as o. induction C; try discriminate; [injection Heqo as ->; now left|right; auto]. Qed.
    Lemma chosen_fun : forall arms o o', arm_chosen X parse h env arms o -> arm_chosen X parse h env arms o' -> o = o'.
    Proof.
      intros arms o o' C. revert o'. induction C; intros o' D; inversion D as [|a0 r0 Q0|a0 r0 o0 Q1 Q2 Q3 Q4]; subst; auto;
        try (destruct H as [H|H]; congruence). destruct Q0 as [Q0|Q0]; congruence.
    Qed.
    Lemma find_id : forall arms a, NoDup (map ma_id arms) -> In a arms -> find (fun x => String.eqb (ma_id x) (ma_id a)) arms = Some a.
    Proof.
      induction arms as [|x l IH]; intros a N Ha; [destruct Ha|]. inversion N; subst. cbn. destruct (String.eqb_spec (ma_id x) (ma_id a)) as [E|E].
      - destruct Ha as [->|Ha]; auto. exfalso. apply H1. rewrite E. now apply in_map.
      - destruct Ha as [->|Ha]; [congruence|auto].
    Qed.
    (** The two parts of a block, taken in the same context, compute what the block computes. *)
    Lemma picked_computes : forall b p t, plain_block parse b -> picked h env b p -> (gives_tree h env b p t <-> computes X parse h env b t).
    Proof.
      intros b p t (Ps & Pb) P. destruct b as [k e|k cs|k arms]; cbn [gives_tree picked] in *.
      - split; intros T; [now constructor|now inversion T].
      - reflexivity.
      - destruct P as (o & C & ->). destruct o as [a|]; cbn [option_map].
        + rewrite (find_id arms a Pb (chosen_in _ _ C)). destruct (String.eqb_spec (ma_value a) "") as [D|D]; split; intros T.
          * subst. eapply CP_blank; eauto.
          * inversion T; subst; auto. pose proof (chosen_fun _ _ _ C H1) as Q. injection Q as <-. congruence.
          * eapply CP_match; eauto.
          * inversion T as [|? ? ? ? ? ?| |? ? a0 ? H1 H2 H3|? ? a0 H1 H2|? ? H1]; subst;
              pose proof (chosen_fun _ _ _ C H1) as Q; try discriminate; injection Q as <-; auto; congruence.
        + split; intros T; [subst; now constructor|].
          inversion T as [|? ? ? ? ? ?| |? ? a0 ? H1 H2 H3|? ? a0 H1 H2|? ? H1]; subst; auto; pose proof (chosen_fun _ _ _ C H1) as Q; discriminate.
    Qed.
    Lemma select_spec : forall extras b w1 r, plain_block parse b -> bselect X parse extras b (at_ h) = (w1, r) ->
      exists g, w1 = at_ g /\ hext h g /\
      match r with
      | Ok p => picked h env b p
      | Err _ => forall p, ~ picked h env b p
      end.
    Proof.
      intros extras b w1 r (Ps & Pb) S0. destruct b as [k e|k cs|k arms]; cbn [bselect] in S0.
      1,2: injection S0 as <- <-; exists h; split; [auto|]; split; [apply hext_refl|]; reflexivity.
      rewrite (bind_bound _ _ _ _ _ W Bd) in S0. destruct (mselect X parse extras arms None (at_ h)) as [w2 q] eqn:M.
      apply mselect_spec in M; [|apply hext_refl|intros a Ha; apply Ps; cbn; apply in_or_app; left; now apply in_map].
      destruct M as (g & -> & E & S1). exists g. destruct q as [[m t]|x]; injection S0 as <- <-; (split; [auto|]); (split; [auto|]).
      - destruct S1 as (o & C & ->). exists o. auto.
      - intros p (o & C & _). eapply S1; eauto.
    Qed.
  End Bound.
End Facts.

(** *** A block on its own. *)
Section Alone.
  Variable L : lib.
  Hypothesis HL : ContentFacts.plain_lib L.
  Variable parse : ekind -> string -> res node.
  Notation X := (std_ext L).

  Lemma bind_twice : forall w, in_step w -> bind_env (bind_env w) = bind_env w.
  Proof.
    intros w H. apply in_step_world in H as (ls & le & ms & me & E & W). rewrite E. destruct (bind_world _ _ _ _ _ W) as (g & B & W1 & _). rewrite B.
    eapply bind_bound; eauto. apply aget_adel_eq. apply W.
  Qed.
  Lemma alone_bound : forall extras b w, in_step w -> run_alone X parse extras b w = run_alone X parse extras b (bind_env w).
  Proof.
    intros extras b w H. unfold run_alone. destruct b; cbn [bselect]; unfold bcommit; rewrite (bind_twice w H); reflexivity.
  Qed.
  Lemma shows_field : forall h l m k t, hget h l = Some (CObj m) -> (shows h (VObj l) k t <-> exists v, aget k m = Some v /\ repr h v t).
  Proof.
    intros h l m k t G. unfold shows. cbn. rewrite (proj2 (hobj_hget _ _ _) G).
    split; intros (v & E & R); exists v; (split; [|exact R]); [destruct (aget k m); congruence|now rewrite E].
  Qed.
  Lemma has_field : forall ls le ms me h, world ls le ms me h -> forall k v, aget k ms = Some v \/ aget k me = Some v ->
    exists t, repr h v t /\ KeepFacts.clear (two ls le) h v.
  Proof.
    intros ls le ms me h W k v H. destruct W as (_ & _ & _ & _ & _ & _ & T). apply (T k v). apply in_app_iff.
    destruct H as [H|H]; apply aget_Some_in in H; auto.
  Qed.
  Definition kept (h g : heap) (ls le : loc) : Prop :=
    forall v t, repr h v t -> KeepFacts.clear (two ls le) h v -> repr g v t /\ KeepFacts.clear (two ls le) g v.
  Lemma kept_hext : forall h g ls le, hext h g -> kept h g ls le.
  Proof.
    intros h g ls le E v t R C. split; [eapply repr_hext; eauto|]. intros l Hl Hr. apply (C l Hl). eapply reachl_back; eauto.
  Qed.
  Lemma kept_trans : forall h g k ls le, kept h g ls le -> kept g k ls le -> kept h k ls le.
  Proof. intros h g k ls le A B v t R C. destruct (A v t R C) as [R1 C1]. now apply B. Qed.
  Lemma kept_shows : forall h g ls le ms me ms1 me1 k t, world ls le ms me h -> world ls le ms1 me1 g -> kept h g ls le ->
    aget k ms1 = aget k ms -> (shows g (VObj ls) k t <-> shows h (VObj ls) k t).
  Proof.
    intros h g ls le ms me ms1 me1 k t W W1 K E. rewrite (shows_field h ls ms k t), (shows_field g ls ms1 k t) by (apply W || apply W1). rewrite E.
    split; intros (v & A & R); exists v; (split; [exact A|]); destruct (has_field _ _ _ _ _ W k v (or_introl A)) as (t0 & R0 & C0);
      destruct (K v t0 R0 C0) as [R1 _]; [now rewrite (repr_fun _ _ _ R _ R1)|now rewrite (repr_fun _ _ _ R _ R0)].
  Qed.
  (** Failing or not, and what is left. *)
  Lemma alone_spec : forall extras b w w1 r, in_step w -> plain_block parse b -> flat_key (block_key b) ->
    run_alone X parse extras b w = (w1, r) ->
    let w0 := bind_env w in
    in_step w1 /\ pw_store w1 = pw_store w /\ pw_env w1 = pw_env w /\
    (forall k t, k <> block_key b -> (shows (pw_heap w1) (pw_store w) k t <-> shows (pw_heap w) (pw_store w) k t)) /\
    match r with
    | Ok _ => exists t, computes X parse (pw_heap w0) (pw_env w) b t /\ shows (pw_heap w1) (pw_store w) (block_key b) t
    | Err _ => (forall t, ~ computes X parse (pw_heap w0) (pw_env w) b t) /\
        forall k t, shows (pw_heap w1) (pw_store w) k t <-> shows (pw_heap w) (pw_store w) k t
    end.
  Proof.
    intros extras b w w1 r H P Fk R. rewrite (alone_bound _ _ _ H) in R. cbv zeta.
    apply in_step_world in H as (ls & le & ms & me & Ew & W). rewrite Ew in *. destruct w as [h s e]. cbn [pw_heap pw_store pw_env] in *. clear Ew s e.
    destruct (bind_world _ _ _ _ _ W) as (h0 & B & W0 & K0 & _). rewrite B in *. cbn [pw_heap pw_store pw_env].
    assert (Bd : aget "$" (adel "$" me) = None) by (apply aget_adel_eq; apply W).
    unfold run_alone in R. destruct (bselect X parse extras b (PW h0 (VObj ls) (VObj le))) as [w2 q] eqn:S0.
    destruct (select_spec L HL parse ls le ms _ h0 W0 Bd extras b w2 q P S0) as (g & -> & E & S1).
    pose proof (world_hext _ _ _ _ _ _ W0 E) as Wg. pose proof (kept_hext _ _ ls le E) as Kg.
    destruct q as [p|x].
    2:{ injection R as <- <-. split; [apply in_step_world; exists ls, le, ms, (adel "$" me); auto|]. split; auto. split; auto.
        assert (Same : forall k t, shows g (VObj ls) k t <-> shows h (VObj ls) k t).
        { intros k t. eapply kept_shows; eauto. eapply kept_trans; eauto. }
        split; [auto|]. split; [|auto]. intros t C. destruct b as [k e|k cs|k arms].
        + apply (S1 PUnconditional). reflexivity.
        + apply (S1 PUnconditional). reflexivity.
        + inversion C as [|? ? ? ? ? ?| |? ? a0 ? H1 H2 H3|? ? a0 H1 H2|? ? H1]; subst; eapply S1; eexists; (split; [exact H1|reflexivity]). }
    pose proof (commit_spec L HL parse ls le ms _ g Wg Bd b p w1 r P Fk R) as C.
    assert (LK : looks ls le h0 g (VObj le) (VObj le)) by (eapply world_looks; eauto).
    assert (Sm : forall e, In e (block_sources b) -> same_on L parse h0 (VObj le) g (VObj le) e).
    { intros e He. eapply looks_same; eauto. now apply (proj1 P). }
    assert (Tr : forall t, gives_tree L parse g (VObj le) b p t <-> computes X parse h0 (VObj le) b t).
    { intros t. rewrite <- (picked_computes L parse le h0 b p t P S1). split; apply gives_same; auto. intros e He. apply same_sym. auto. }
    destruct r as [u|x].
    - destruct C as (g1 & v & t & E1 & R1 & C1 & T1 & ->). pose proof (world_hext _ _ _ _ _ _ Wg E1) as W1.
      destruct (write_flat ls le ms _ g1 (block_key b) v t W1 Fk R1 C1) as (g2 & Ew & W2 & K2 & _). rewrite Ew. cbn [pw_heap pw_store pw_env].
      assert (Kh : kept h g2 ls le).
      { eapply kept_trans; [exact K0|]. eapply kept_trans; [exact Kg|]. eapply kept_trans; [exact (kept_hext _ _ ls le E1)|exact K2]. }
      split; [apply in_step_world; eexists; eexists; eexists; eexists; split; [reflexivity|exact W2]|]. split; auto. split; auto. split.
      + intros k t0 D. eapply kept_shows; eauto. rewrite aget_aset_ne by congruence. reflexivity.
      + exists t. split; [now apply Tr|]. rewrite (shows_field g2 ls (aset (block_key b) v ms)) by apply W2. exists v. split; [apply aget_aset_eq|].
        now apply K2.
    - destruct C as ((g1 & E1 & ->) & N1). cbn [pw_heap pw_store pw_env]. pose proof (world_hext _ _ _ _ _ _ Wg E1) as W1.
      assert (Kh : kept h g1 ls le).
      { eapply kept_trans; [exact K0|]. eapply kept_trans; [exact Kg|]. exact (kept_hext _ _ ls le E1). }
      split; [apply in_step_world; eexists; eexists; eexists; eexists; split; [reflexivity|exact W1]|]. split; auto. split; auto.
      assert (Same : forall k t, shows g1 (VObj ls) k t <-> shows h (VObj ls) k t).
      { intros k t. eapply kept_shows; eauto. }
      split; [auto|]. split; [|auto]. intros t T. apply (N1 t). now apply Tr.
  Qed.
  Lemma computes_fun : forall h c b t t', computes X parse h c b t -> computes X parse h c b t' -> t = t'.
  Proof.
    intros h c b t t' C D.
    assert (U : forall e t t', evaluates X parse h c e t -> evaluates X parse h c e t' -> t = t').
    { intros e u u' (h1 & v & E & R) (h2 & v2 & E2 & R2). rewrite E in E2. injection E2 as <- <-. eapply repr_fun; eauto. }
    assert (Ch : forall arms o o', arm_chosen X parse h c arms o -> arm_chosen X parse h c arms o' -> o = o').
    { intros arms o o' Q. revert o'. induction Q; intros o' D0; inversion D0 as [|a0 r0 Q0|a0 r0 o0 Q1 Q2 Q3 Q4]; subst; auto;
        try (destruct H as [H|H]; congruence). destruct Q0 as [Q0|Q0]; congruence. }
    destruct C as [k e t Q|k l Wl Al Nl Q|k|k arms a t Q Qv Qe|k arms a Q Qv|k arms Q].
    - inversion D; subst. eapply U; eauto.
    - assert (Nn : all_lines 0 l <> []).
      { destruct l as [|i l]; [congruence|]. inversion Wl as [|? ? Wi _]; subst. destruct (lines_first i Wi 0) as (c0 & q & El & _).
        cbn [all_lines]. rewrite El. discriminate. }
      inversion D as [|k0 f0 H1 H2 H3 H4 H5 H6|k0 H5 H6| | |]; [|congruence].
      f_equal. rewrite <- !formula by auto. congruence.
    - inversion D as [|k0 f0 H1 H2 H3 H4 H5 H6|k0 H5 H6| | |]; auto. exfalso. destruct f0 as [|i l]; [congruence|].
      inversion H1 as [|? ? Wi _]; subst. destruct (lines_first i Wi 0) as (c0 & q & El & _). cbn [all_lines] in *. rewrite El in *. discriminate.
    - inversion D as [| | |? ? a0 ? H1 H2 H3|? ? a0 H1 H2|? ? H1]; subst; pose proof (Ch _ _ _ Q H1) as Z; try discriminate; injection Z as <-;
        [eapply U; eauto|congruence].
    - inversion D as [| | |? ? a0 ? H1 H2 H3|? ? a0 H1 H2|? ? H1]; subst; auto. pose proof (Ch _ _ _ Q H1) as Z. injection Z as <-. congruence.
    - inversion D as [| | |? ? a0 ? H1 H2 H3|? ? a0 H1 H2|? ? H1]; subst; auto. pose proof (Ch _ _ _ Q H1) as Z. discriminate.
  Qed.
  (** The beginning of an evaluation. *)
  Lemma start_in_step : forall h l t, wf_heap h -> repr h (VObj l) t -> in_step (start (VObj l) h).
  Proof.
    intros h l t Wh R. inversion R as [| | | | |l0 m ts G F|]; subst. unfold start, depth_clone1. rewrite (proj2 (hobj_hget _ _ _) G). unfold new_obj, halloc. cbn.
    assert (Ll : l < length h) by eauto using hget_lt. apply in_step_world. exists l, (length h), m, m. split; [reflexivity|]. cbn [pw_heap].
    assert (E : hext h (h ++ [CObj m])) by apply hext_alloc. assert (N : NoDup (akeys m)) by (exact (proj1 (Wh _ _ G))).
    split; [lia|]. split; [eapply hext_get; eauto|]. split; [apply hget_alloc_new|]. split; [exact N|]. split; [exact N|]. split; auto.
    intros k v Hin. assert (Hm : In (k, v) m) by (apply in_app_iff in Hin; tauto).
    assert (Rv : exists tv, repr h v tv).
    { clear - F Hm. induction F as [|[k0 v0] [k1 t1] ? ? [E R] F IH]; [destruct Hm|]. destruct Hm as [Hm|Hm]; [injection Hm as -> ->; eauto|auto]. }
    destruct Rv as (tv & Rv). exists tv. split; [eapply repr_hext; eauto|]. intros l1 [->| ->] Q.
    - assert (Q1 : reachl h v l) by (eapply reachl_back; eauto). eapply acyclic_obj; eauto.
    - assert (Q1 : reachl h v (length h)) by (eapply reachl_back; eauto). pose proof (reachl_lt _ _ _ _ Rv Q1). lia.
  Qed.
End Alone.
