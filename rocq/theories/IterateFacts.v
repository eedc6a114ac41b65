(** What blocks that run for every instance of an entity do. *)
From Coq Require Import String Bool List Arith Lia.
From Verif Require Import Base Dec Value Heap Ast Ops Compiler Vm Eval Funcs HeapSpec TreeFacts HeapFacts DotFacts Isolate Session PureFacts Blocks BlocksSpec
  AssertFacts BlocksFacts Iterate IterateSpec.
From Verif Require RepFacts ContentFacts KeepFacts KeepLib.
Import ListNotations.
Local Open Scope string_scope.
Local Open Scope nat_scope.
Local Open Scope list_scope.

Definition nobad : loc -> Prop := fun _ => False.
Lemma clear_nobad : forall h v, KeepFacts.clear nobad h v.
Proof. intros h v l []. Qed.
Lemma old_nobad : forall h, KeepFacts.old nobad h.
Proof. intros h l []. Qed.

Section Facts.
  Variable L : lib.
  Hypothesis HL : ContentFacts.plain_lib L.
  Variable parse : ekind -> string -> res node.
  Variable P : string -> bool.
  Notation X := (std_ext L).
  Notation run := (srun X parse KStandard).
  Notation reads_ok := (reads_names parse P).

  (** Two contexts with the same contents at the names that may be read. *)
  Definition alike_at (h g : heap) (c1 c2 : value) : Prop :=
    exists l1 l2 m1 m2, c1 = VObj l1 /\ c2 = VObj l2 /\ hget h l1 = Some (CObj m1) /\ hget g l2 = Some (CObj m2) /\
      forall k, P k = true -> match aget k m1, aget k m2 with
                              | Some v1, Some v2 => exists t, repr h v1 t /\ repr g v2 t
                              | None, None => True
                              | _, _ => False
                              end.
  Lemma alike_scope : forall h g c1 c2, alike_at h g c1 c2 -> KeepFacts.ealike nobad P false h g (scope_new c1) (scope_new c2).
  Proof.
    intros h g c1 c2 (l1 & l2 & m1 & m2 & -> & -> & G1 & G2 & K). split; [|split; [|split; [discriminate|apply old_nobad]]].
    - right. split; auto. exists l1, l2, m1, m2. split; auto. split; auto. split; [now apply hobj_hget|]. split; [now apply hobj_hget|].
      intros k Hk. specialize (K k Hk). destruct (aget k m1), (aget k m2); cbn; auto. destruct K as (t & A & B). exists t. split; auto. split; auto. apply clear_nobad.
    - intros k _. exact Logic.I.
  Qed.
  Lemma run_alike : forall h g c1 c2 e, alike_at h g c1 c2 -> reads_ok e ->
    KeepLib.same_outcome nobad (snd (run e (scope_new c1) h), fst (run e (scope_new c1) h))
                               (snd (run e (scope_new c2) g), fst (run e (scope_new c2) g)).
  Proof.
    intros h g c1 c2 e A R. unfold srun. destruct (parse KStandard e) as [n|] eqn:E; [|reflexivity].
    destruct (compile X n); [|reflexivity]. destruct (R n E) as [Na Nr].
    pose proof (KeepLib.evaluate_clear nobad L _ _ n _ _ h g HL Na Nr (alike_scope _ _ _ _ A)) as S0.
    destruct (evaluate X n (scope_new c1) h), (evaluate X n (scope_new c2) g). exact S0.
  Qed.
  Lemma irun_hext : forall e c h, reads_ok e -> hext h (fst (run e (scope_new c) h)).
  Proof.
    intros e c h R. unfold srun. destruct (parse KStandard e) as [n|] eqn:E; [|apply hext_refl].
    destruct (compile X n); [|apply hext_refl]. destruct (R n E) as [Na _].
    pose proof (evaluate_pure X n (scope_new c) h (std_pure L) (no_assign_flat n Na)) as Q.
    destruct (evaluate X n (scope_new c) h). exact Q.
  Qed.
  Lemma alike_same : forall h g c1 c2 e, alike_at h g c1 c2 -> reads_ok e -> same_on L parse h c1 g c2 e.
  Proof.
    intros h g c1 c2 e A R. pose proof (run_alike _ _ _ _ _ A R) as S0. unfold same_on, holds_in, works, evaluates, outcome.
    destruct (run e (scope_new c1) h) as [h1 [v1|e1]], (run e (scope_new c2) g) as [g1 [v2|e2]]; cbn in S0; try contradiction; cbn [fst snd].
    - split; [apply KeepFacts.alike_view in S0; now inversion S0|]. split; [split; eauto|].
      destruct S0 as (t0 & R1 & R2 & _). intros t. split; intros (x & y & E & Q); injection E as <- <-; eexists; eexists; (split; [reflexivity|]).
      + now rewrite (repr_fun _ _ _ Q _ R1).
      + now rewrite (repr_fun _ _ _ Q _ R2).
    - split; auto. split; [split; intros [v V]; discriminate|]. intros t. split; intros (x & y & E & Q); discriminate.
  Qed.

  (** A context all of whose readable names have a finite content. *)
  Section Bound.
    Variables (st env : value) (h : heap).
    Hypothesis W : alike_at h h env env.
    Notation at_ g := (PW g st env).
    Lemma alike_hext_l : forall g, hext h g -> alike_at g h env env.
    Proof.
      intros g E. destruct W as (l1 & l2 & m1 & m2 & E1 & E2 & G1 & G2 & K). exists l1, l2, m1, m2. split; auto. split; auto.
      split; [eapply hext_get; eauto|]. split; auto. intros k Hk. specialize (K k Hk). destruct (aget k m1), (aget k m2); auto.
      destruct K as (t & A & B). exists t. split; [eapply repr_hext; eauto|auto].
    Qed.
    Lemma igives_spec : forall e g w1 r, hext h g -> reads_ok e -> gives X parse e (at_ g) = (w1, r) ->
      exists g1, w1 = at_ g1 /\ hext g g1 /\
        match r with
        | Ok v => exists t, evaluates X parse h env e t /\ repr g1 v t /\ True
        | Err _ => ~ works X parse h env e
        end.
    Proof.
      intros e g w1 r E R G. unfold gives in G. cbn [pw_env pw_heap pw_store] in G.
      destruct (run e (scope_new env) g) as [g1 r1] eqn:Q. injection G as <- <-. exists g1. split; auto.
      split; [pose proof (irun_hext e env g R) as Z; now rewrite Q in Z|].
      pose proof (run_alike g h env env e (alike_hext_l g E) R) as S0. rewrite Q in S0. cbn [fst snd] in S0.
      unfold works, evaluates, outcome. destruct (run e (scope_new env) h) as [h1 r2]. cbn [fst snd] in S0.
      destruct r1 as [v1|e1], r2 as [v2|e2]; cbn in S0; try contradiction.
      - destruct S0 as (t & R1 & R2 & C). exists t. split; [|auto]. eauto.
      - intros [v V]. discriminate.
    Qed.
    Lemma iasks_spec : forall e g w1 r, hext h g -> reads_ok e -> asks X parse e (at_ g) = (w1, r) ->
      exists g1, w1 = at_ g1 /\ hext g g1 /\
        match r with
        | Ok b => works X parse h env e /\ b = holds_in X parse h env e
        | Err _ => ~ works X parse h env e
        end.
    Proof.
      intros e g w1 r E R A. unfold asks in A. destruct (gives X parse e (at_ g)) as [w2 r2] eqn:G.
      destruct (igives_spec e g w2 r2 E R G) as (g1 & -> & E1 & S0). destruct r2 as [v|x]; injection A as <- <-; exists g1; (split; [auto|]); (split; [auto|]); auto.
      destruct S0 as (t & (h1 & v1 & Q & R1) & R2 & _). unfold works, holds_in, outcome. rewrite Q. cbn. split; [eauto|].
      inversion R2; subst; inversion R1; subst; cbn; auto. now destruct b.
    Qed.
    Lemma ialoop_spec : forall l s g w1 r, hext h g -> (forall c, In c l -> reads_ok (ac_expr c)) -> aloop X parse l s (at_ g) = (w1, r) ->
      exists g1, w1 = at_ g1 /\ hext g g1 /\
        match r with
        | Ok (b, t) => (forall c, In c l -> works X parse h env (ac_expr c)) /\ b = afinish (arun (holds_in X parse h env) l s) /\
            t = map (fun c => (ac_id c, holds_in X parse h env (ac_expr c))) l
        | Err _ => exists c, In c l /\ ~ works X parse h env (ac_expr c)
        end.
    Proof.
      induction l as [|c l IH]; intros s g w1 r E R A; cbn [aloop] in A.
      - injection A as <- <-. exists g. split; auto. split; [apply hext_refl|]. split; [intros c []|]. auto.
      - destruct (asks X parse (ac_expr c) (at_ g)) as [w2 q] eqn:Q. destruct (iasks_spec _ _ _ _ E (R c (or_introl eq_refl)) Q) as (g1 & -> & E1 & S0).
        destruct q as [b|x]; [|injection A as <- <-; exists g1; split; auto; split; auto; exists c; split; [now left|auto]].
        destruct (aloop X parse l _ (at_ g1)) as [w3 r3] eqn:A3. apply IH in A3; [|eapply hext_trans; eauto|intros; apply R; now right].
        destruct A3 as (g2 & -> & E2 & S2). destruct S0 as [Wk ->]. exists g2.
        destruct r3 as [[b t]|x]; injection A as <- <-; (split; [auto|]); (split; [eapply hext_trans; eauto|]).
        + destruct S2 as (S2 & -> & ->). split; [intros c0 [<-|Hc]; auto|]. split; reflexivity.
        + destruct S2 as (c0 & Hc & Nw). exists c0. split; [now right|auto].
    Qed.
    Lemma imselect_matched : forall extras arms id g w1 r, hext h g -> (forall a, In a arms -> reads_ok (ma_cond a)) ->
      mselect X parse extras arms (Some id) (at_ g) = (w1, r) ->
      exists g1 t, w1 = at_ g1 /\ hext g g1 /\ r = Ok (Some id, t).
    Proof.
      induction arms as [|a l IH]; intros id g w1 r E R A; cbn [mselect] in A.
      - injection A as <- <-. exists g, []. split; auto. split; [apply hext_refl|auto].
      - destruct extras.
        2:{ injection A as <- <-. exists g, []. split; auto. split; [apply hext_refl|auto]. }
        assert (S0 : forall w2 q, (if String.eqb (ma_cond a) "" then (at_ g, Ok true) else asks X parse (ma_cond a) (at_ g)) = (w2, q) ->
          exists g1, w2 = at_ g1 /\ hext g g1).
        { intros w2 q Q. destruct (String.eqb (ma_cond a) ""); [injection Q as <- <-; exists g; split; auto; apply hext_refl|].
          destruct (iasks_spec _ _ _ _ E (R a (or_introl eq_refl)) Q) as (g1 & -> & E1 & _). eauto. }
        destruct (if String.eqb (ma_cond a) "" then _ else _) as [w2 q]. destruct (S0 w2 q eq_refl) as (g1 & -> & E1).
        assert (K : exists b, match q with Err _ => Ok false | Ok _ => q end = Ok b) by (destruct q; eauto). destruct K as (b & K).
        rewrite K in A. destruct (mselect X parse true l (Some id) (at_ g1)) as [w3 r3] eqn:A3.
        apply IH in A3; [|eapply hext_trans; eauto|intros; apply R; now right]. destruct A3 as (g2 & t & -> & E2 & ->). injection A as <- <-.
        exists g2. eexists. split; auto. split; [eapply hext_trans; eauto|]. reflexivity.
    Qed.
    Lemma imselect_spec : forall extras arms g w1 r, hext h g -> (forall a, In a arms -> reads_ok (ma_cond a)) ->
      mselect X parse extras arms None (at_ g) = (w1, r) ->
      exists g1, w1 = at_ g1 /\ hext g g1 /\
        match r with
        | Ok (m, _) => exists o, arm_chosen X parse h env arms o /\ m = option_map ma_id o
        | Err _ => forall o, ~ arm_chosen X parse h env arms o
        end.
    Proof.
      induction arms as [|a l IH]; intros g w1 r E R A; cbn [mselect] in A.
      - injection A as <- <-. exists g. split; auto. split; [apply hext_refl|]. exists None. split; [constructor|auto].
      - assert (S0 : forall w2 q, (if String.eqb (ma_cond a) "" then (at_ g, Ok true) else asks X parse (ma_cond a) (at_ g)) = (w2, q) ->
          exists g1, w2 = at_ g1 /\ hext g g1 /\
            match q with
            | Ok true => ma_cond a = "" \/ holds_in X parse h env (ma_cond a) = true
            | Ok false => ma_cond a <> "" /\ works X parse h env (ma_cond a) /\ holds_in X parse h env (ma_cond a) = false
            | Err _ => ma_cond a <> "" /\ ~ works X parse h env (ma_cond a)
            end).
        { intros w2 q Q. destruct (String.eqb_spec (ma_cond a) "") as [D|D].
          - injection Q as <- <-. exists g. split; auto. split; [apply hext_refl|]. now left.
          - destruct (iasks_spec _ _ _ _ E (R a (or_introl eq_refl)) Q) as (g1 & -> & E1 & S1). exists g1. split; auto. split; auto.
            destruct q as [b|]; [destruct S1 as [S1 ->]; destruct (holds_in X parse h env (ma_cond a)) eqn:H0; auto|auto]. }
        destruct (if String.eqb (ma_cond a) "" then _ else _) as [w2 q]. destruct (S0 w2 q eq_refl) as (g1 & -> & E1 & S1).
        assert (K : match q, @None string with Err _, Some _ => Ok false | _, _ => q end = q) by now destruct q. cbv zeta in A. rewrite K in A. clear K S0.
        destruct q as [[]|x].
        + destruct (mselect X parse extras l (Some (ma_id a)) (at_ g1)) as [w3 r3] eqn:A3.
          apply imselect_matched in A3; [|eapply hext_trans; eauto|intros; apply R; now right]. destruct A3 as (g2 & t & -> & E2 & ->). injection A as <- <-.
          exists g2. split; auto. split; [eapply hext_trans; eauto|]. exists (Some a). split; [now constructor|reflexivity].
        + destruct (mselect X parse extras l None (at_ g1)) as [w3 r3] eqn:A3. apply IH in A3; [|eapply hext_trans; eauto|intros; apply R; now right].
          destruct A3 as (g2 & -> & E2 & S2). destruct S1 as (D & Wk & Hf). exists g2.
          destruct r3 as [[m t]|x]; injection A as <- <-; (split; [auto|]); (split; [eapply hext_trans; eauto|]).
          * destruct S2 as (o & C & ->). exists o. split; [now constructor|auto].
          * intros o C. inversion C as [|a0 r0 Q0|a0 r0 o0 Q1 Q2 Q3 Q4]; subst; [destruct Q0 as [Q0|Q0]; congruence|eapply S2; eauto].
        + injection A as <- <-. exists g1. split; auto. split; auto. destruct S1 as [D Nw]. intros o C. inversion C as [|a0 r0 Q0|a0 r0 o0 Q1 Q2 Q3 Q4]; subst; [|contradiction].
          destruct Q0 as [Q0|H0]; [congruence|]. apply Nw. unfold holds_in in H0. unfold works. destruct (outcome X parse h env (ma_cond a)); [eauto|discriminate].
    Qed.

    Lemma ivalue_spec : forall b p w1 r, block_names parse P b -> ikey b <> "" -> ivalue X parse b p (at_ h) = (w1, r) ->
      exists g, w1 = at_ g /\ hext h g /\
      match r with
      | Ok (Some v) => exists t, repr g v t /\ gives_tree L parse h env b p t
      | Ok None => False
      | Err _ => forall t, ~ gives_tree L parse h env b p t
      end.
    Proof.
      intros b p w1 r (Ps & Pb) Kn C.
      assert (EW : forall e t, evaluates X parse h env e t -> works X parse h env e).
      { intros e t (h1 & v & E & R). exists v. unfold outcome. now rewrite E. }
      apply String.eqb_neq in Kn. destruct b as [k e|k cs|k arms]; cbn [ikey block_sources ivalue] in *.
      - apply String.eqb_neq in Pb. rewrite Kn, Pb in C. cbn [orb] in C.
        destruct (gives X parse e (at_ h)) as [w2 q] eqn:G. destruct (igives_spec _ _ _ _ (hext_refl h) (Ps e (or_introl eq_refl)) G) as (g & -> & E & S0).
        exists g. destruct q as [v|x]; injection C as <- <-; (split; [reflexivity|]); (split; [exact E|]).
        + destruct S0 as (t & Ev & R & _). exists t. cbn [gives_tree]. auto.
        + intros t T. apply S0. eapply EW; eauto.
      - unfold evaluate_conditions in C. destruct cs as [|c cs].
        + injection C as <- <-. exists h. split; auto. split; [apply hext_refl|]. exists (TBool false). split; constructor.
        + remember (c :: cs) as l eqn:El. destruct (aloop X parse l _ (at_ h)) as [w2 q] eqn:A.
          apply ialoop_spec in A; [|apply hext_refl|intros c0 H0; apply Ps; apply in_map; auto]. destruct A as (g & -> & E & S0). exists g.
          destruct (every_assertion l) as (f & Nf & Ef & Wf & Af); [subst; discriminate|].
          destruct q as [[b t]|x]; injection C as <- <-; (split; [reflexivity|]); (split; [exact E|]).
          * destruct S0 as (S0 & -> & _). pose proof (formula (holds_in X parse h env) f Nf Wf Af) as Fv. rewrite Ef in Fv. rewrite Fv.
            exists (TBool (value_of (holds_in X parse h env) (IGroup f))). split; [constructor|].
            cbn [gives_tree]. rewrite <- Ef. constructor; auto. rewrite Ef. auto.
          * intros t T. destruct S0 as (c0 & Hc & Nw). apply Nw. cbn [gives_tree] in T.
            inversion T as [|k0 f0 H1 H2 H3 H4 H5 H6|k0 H5 H6| | |]; [apply H4; congruence|subst l; congruence].
      - cbn [gives_tree]. cbv zeta in C.
        destruct (match match p with PMatched m => m | PUnconditional => None end with Some id => find (fun a => String.eqb (ma_id a) id) arms | None => None end) as [a|] eqn:Fa.
        + assert (F2 : match p with PMatched (Some id) => find (fun a => String.eqb (ma_id a) id) arms | _ => None end = Some a) by (destruct p as [[]|]; auto; discriminate).
          rewrite F2. assert (Ha : In a arms) by (destruct p as [[id|]|]; try discriminate; now apply find_some in F2).
          destruct (String.eqb (ma_value a) "") eqn:Ev.
          * injection C as <- <-. exists h. split; auto. split; [apply hext_refl|]. exists TNull. split; [constructor|auto].
          * destruct (gives X parse (ma_value a) (at_ h)) as [w2 q] eqn:G.
            destruct (igives_spec _ _ _ _ (hext_refl h) (Ps (ma_value a) (in_or_app _ _ _ (or_intror (in_map _ _ _ Ha)))) G) as (g & -> & E & S0).
            exists g. destruct q as [v|x]; injection C as <- <-; (split; [reflexivity|]); (split; [exact E|]).
            -- destruct S0 as (t & Et & R & _). exists t. auto.
            -- intros t T. apply S0. eapply EW; eauto.
        + assert (F2 : match p with PMatched (Some id) => find (fun a => String.eqb (ma_id a) id) arms | _ => None end = None) by (destruct p as [[]|]; auto).
          rewrite F2. injection C as <- <-. exists h. split; auto. split; [apply hext_refl|]. exists TNull. split; [constructor|auto].
    Qed.
    Lemma iselect_spec : forall extras b w1 r, block_names parse P b -> iselect X parse extras b (at_ h) = (w1, r) ->
      exists g, w1 = at_ g /\ hext h g /\
      match r with
      | Ok p => picked L parse h env b p
      | Err _ => forall p, ~ picked L parse h env b p
      end.
    Proof.
      intros extras b w1 r (Ps & Pb) S0. destruct b as [k e|k cs|k arms]; cbn [iselect] in S0.
      1,2: injection S0 as <- <-; exists h; split; [auto|]; split; [apply hext_refl|]; reflexivity.
      destruct (mselect X parse extras arms None (at_ h)) as [w2 q] eqn:M.
      apply imselect_spec in M; [|apply hext_refl|intros a Ha; apply Ps; cbn; apply in_or_app; left; now apply in_map].
      destruct M as (g & -> & E & S1). exists g. destruct q as [[m t]|x]; injection S0 as <- <-; (split; [auto|]); (split; [auto|]).
      - destruct S1 as (o & C & ->). exists o. auto.
      - intros p (o & C & _). eapply S1; eauto.
    Qed.
  End Bound.
  Lemma ipicked_computes : forall h le b p t, block_names parse P b -> picked L parse h (VObj le) b p ->
    (gives_tree L parse h (VObj le) b p t <-> computes X parse h (VObj le) b t).
  Proof.
    intros h le b p t (Ps & Pb) Q. destruct b as [k e|k cs|k arms]; cbn [gives_tree picked] in *.
    - split; intros T; [now constructor|now inversion T].
    - reflexivity.
    - destruct Q as (o & C & ->). destruct o as [a|]; cbn [option_map].
      + rewrite (find_id arms a Pb (chosen_in _ _ _ _ _ _ C)). destruct (String.eqb_spec (ma_value a) "") as [D|D]; split; intros T.
        * subst. eapply CP_blank; eauto.
        * inversion T as [|? ? ? ? ? ?| |? ? a0 ? H1 H2 H3|? ? a0 H1 H2|? ? H1]; subst; auto. pose proof (chosen_fun _ _ _ _ _ _ _ C H1) as Z. injection Z as <-. congruence.
        * eapply CP_match; eauto.
        * inversion T as [|? ? ? ? ? ?| |? ? a0 ? H1 H2 H3|? ? a0 H1 H2|? ? H1]; subst;
            pose proof (chosen_fun _ _ _ _ _ _ _ C H1) as Z; try discriminate; injection Z as <-; auto; congruence.
      + split; intros T; [subst; now constructor|].
        inversion T as [|? ? ? ? ? ?| |? ? a0 ? H1 H2 H3|? ? a0 H1 H2|? ? H1]; subst; auto; pose proof (chosen_fun _ _ _ _ _ _ _ C H1) as Z; discriminate.
  Qed.
  Lemma computes_picked : forall h c b t, computes X parse h c b t -> exists p, picked L parse h c b p.
  Proof.
    intros h c b t C. destruct b as [k e|k cs|k arms]; cbn [picked]; eauto.
    inversion C as [|? ? ? ? ? ?| |? ? a0 ? H1 H2 H3|? ? a0 H1 H2|? ? H1]; subst; eexists; eexists; (split; [exact H1|reflexivity]).
  Qed.
  Lemma alike_right : forall h g c1 c2, alike_at h g c1 c2 -> alike_at g g c2 c2.
  Proof.
    intros h g c1 c2 (l1 & l2 & m1 & m2 & -> & -> & G1 & G2 & K). exists l2, l2, m2, m2. split; auto. split; auto. split; auto. split; auto.
    intros k Hk. specialize (K k Hk). destruct (aget k m1), (aget k m2); auto; [|contradiction]. destruct K as (t & _ & R). eauto.
  Qed.

  Section Loop.
    Variables (h : heap) (ls : loc) (ms : amap value) (entity field : string) (lis : list loc) (b : block).
    Hypothesis Hls : hget h ls = Some (CObj ms).
    Hypothesis Nms : NoDup (akeys ms).
    Hypothesis Inst : instances h lis.
    Hypothesis Ap : apart_from h ms P entity lis.
    Hypothesis Bn : block_names parse P b.
    Hypothesis Key : split_dot (block_key b) = [entity; field].
    Hypothesis Sc : forall li t, In li lis -> computes_for X parse h ms entity (VObj li) b t -> scalar t.

    Definition scoped_ok (lc : loc) (g : heap) : Prop :=
      exists mc, hget g lc = Some (CObj mc) /\ NoDup (akeys mc) /\ forall k, k <> entity -> k <> "$" -> aget k mc = aget k ms.
    Definition since (done : list loc) (g : heap) : Prop :=
      length h <= length g /\ forall l, l < length h -> ~ In l done -> hget g l = hget h l.
    Lemma kept_since : forall done g v t, since done g -> repr h v t -> (forall l, In l done -> ~ reachl h v l) -> repr g v t.
    Proof.
      intros done g v t (Ln & S0) R D. eapply repr_agree; eauto. intros l Hl. apply S0; [eapply reachl_lt; eauto|]. intros Hd. exact (D l Hd Hl).
    Qed.
    Definition hs (li : loc) : heap := fst (seen_by h ms entity (VObj li)).
    Definition cs : value := VObj (length h).
    Definition bound (lc li : loc) (mc : amap value) (g : heap) : heap := hset g lc (CObj (aset entity (VObj li) (adel "$" mc))).
    Lemma bound_alike : forall done lc li mc g, since done g -> hget g lc = Some (CObj mc) -> NoDup (akeys mc) ->
      (forall k, k <> entity -> k <> "$" -> aget k mc = aget k ms) -> length h <= lc -> In li lis -> ~ In li done -> incl done lis ->
      alike_at (hs li) (bound lc li mc g) cs (VObj lc) /\ since done (bound lc li mc g).
    Proof.
      intros done lc li mc g S0 G Nd K Lc Hi Hd Inc. assert (Lt : lc < length g) by eauto using hget_lt.
      assert (S1 : since done (bound lc li mc g)).
      { destruct S0 as (Ln & S0). split; [unfold bound; now rewrite hset_length|]. intros l Hl Hn. unfold bound. rewrite hget_hset_ne by lia. auto. }
      split; auto. exists (length h), lc, (aset entity (VObj li) (adel "$" ms)), (aset entity (VObj li) (adel "$" mc)).
      split; auto. split; auto. split; [unfold hs; apply hget_alloc_new|]. split; [unfold bound; now rewrite hget_hset_eq|].
      assert (Hx : hext h (hs li)) by apply hext_alloc.
      intros k Hk. destruct (string_dec k entity) as [->|D].
      - rewrite !aget_aset_eq. destruct Inst as (_ & I1 & I2). destruct (I1 li Hi) as (m & t & _ & R). exists t.
        split; [eapply repr_hext; eauto|]. eapply kept_since; eauto. intros l Hl. apply I2; auto. intros ->. auto.
      - rewrite !aget_aset_ne by congruence. destruct (string_dec k "$") as [->|D1]; [rewrite !aget_adel_eq by auto; exact Logic.I|].
        rewrite !aget_adel_ne by congruence. rewrite (K k D D1). destruct (aget k ms) as [v|] eqn:A; [|exact Logic.I].
        destruct (Ap k v Hk D A) as ((t & R) & Z). exists t. split; [eapply repr_hext; eauto|]. eapply kept_since; eauto.
    Qed.
    Lemma bind_direct : forall lc li mc g, hget g lc = Some (CObj mc) ->
      bind_instance entity None (VObj lc) (VObj li) g = Some (bound lc li mc g, SDirect).
    Proof. intros lc li mc g G. unfold bind_instance. cbn [needs_owner]. apply hobj_hget in G. now rewrite !G. Qed.
    Lemma same_all : forall g c, forall li, alike_at (hs li) g cs c -> forall e, In e (block_sources b) -> same_on L parse (hs li) cs g c e.
    Proof. intros g c li A e He. apply alike_same; auto. now apply (proj1 Bn). Qed.
    Lemma bound_scoped : forall lc li mc g g1, hget g lc = Some (CObj mc) -> NoDup (akeys mc) ->
      (forall k, k <> entity -> k <> "$" -> aget k mc = aget k ms) -> hext (bound lc li mc g) g1 ->
      hget g1 lc = Some (CObj (aset entity (VObj li) (adel "$" mc))) /\ scoped_ok lc g1.
    Proof.
      intros lc li mc g g1 G Nd K E. assert (Lt : lc < length g) by eauto using hget_lt.
      assert (Q : hget g1 lc = Some (CObj (aset entity (VObj li) (adel "$" mc)))) by (eapply hext_get; eauto; unfold bound; now rewrite hget_hset_eq).
      split; auto. eexists. split; [exact Q|]. split; [apply aset_nodup; now apply adel_nodup|].
      intros k D D1. rewrite aget_aset_ne by congruence. rewrite aget_adel_ne by congruence. auto.
    Qed.
    Lemma since_hext : forall done g g1, since done g -> hext g g1 -> since done g1.
    Proof.
      intros done g g1 (Ln & S0) E. assert (Lg : length g <= length g1) by (destruct E as (x & ->); rewrite app_length; lia).
      split; [lia|]. intros l Hl Hd. rewrite <- (S0 l Hl Hd). destruct (hget g l) as [c|] eqn:G; [eapply hext_get; eauto|].
      exfalso. unfold hget in G. apply nth_error_None in G. lia.
    Qed.
    (** The cells that one instance may change. *)
    Definition frame2 (lc li : loc) (g g1 : heap) : Prop :=
      length g <= length g1 /\ forall l, l < length g -> l <> lc -> l <> li -> hget g1 l = hget g l.
    Lemma frame_hext : forall lc li g g1 g2, frame2 lc li g g1 -> hext g1 g2 -> frame2 lc li g g2.
    Proof.
      intros lc li g g1 g2 (Ln & F) E. assert (Lg : length g1 <= length g2) by (destruct E as (x & ->); rewrite app_length; lia).
      split; [lia|]. intros l Hl H1 H2. rewrite <- (F l Hl H1 H2). destruct (hget g1 l) as [c|] eqn:G; [eapply hext_get; eauto|].
      exfalso. unfold hget in G. apply nth_error_None in G. lia.
    Qed.
    Lemma frame_bound : forall lc li mc g, frame2 lc lc g (bound lc li mc g).
    Proof. intros lc li mc g. split; [unfold bound; now rewrite hset_length|]. intros l _ H _. unfold bound. now rewrite hget_hset_ne by auto. Qed.

    Lemma picks_spec : forall extras lc l g h1 r, since [] g -> scoped_ok lc g -> length h <= lc -> incl l lis ->
      ipicks X parse extras b entity None (VObj lc) (map VObj l) g = (h1, r) ->
      since [] h1 /\
      match r with
      | Ok ps => Forall2 (fun li p => picked L parse (hs li) cs b p) l ps
      | Err _ => exists before li after, l = before ++ li :: after /\ forall p, ~ picked L parse (hs li) cs b p
      end.
    Proof.
      intros extras lc. induction l as [|li l IH]; intros g h1 r S0 (mc & G & Nd & K) Lc Inc R; cbn [ipicks map] in R.
      - injection R as <- <-. split; auto.
      - rewrite (bind_direct lc li mc g G) in R.
        destruct (bound_alike [] lc li mc g S0 G Nd K Lc (Inc li (or_introl eq_refl)) (fun x => x) (incl_nil_l _)) as (A & S1).
        destruct (iselect X parse extras b (PW (bound lc li mc g) (VObj lc) (VObj lc))) as [w1 q] eqn:Q.
        destruct (iselect_spec (VObj lc) (VObj lc) _ (alike_right _ _ _ _ A) extras b w1 q Bn Q) as (g1 & -> & E & S2). cbn [pw_heap] in R.
        destruct q as [p|x].
        + destruct (ipicks X parse extras b entity None (VObj lc) (map VObj l) g1) as [h2 r2] eqn:Q2.
          apply IH in Q2; [|eapply since_hext; eauto|eapply bound_scoped; eauto|auto|intros z Hz; apply Inc; now right].
          destruct Q2 as (S3 & F). destruct r2 as [ps|y]; injection R as <- <-; (split; [exact S3|]).
          * constructor; auto. eapply picked_same; [|exact S2]. intros e He. apply same_sym. eapply same_all; eauto.
          * destruct F as (bf & l0 & af & -> & F). exists (li :: bf), l0, af. auto.
        + injection R as <- <-. split; [eapply since_hext; eauto|]. exists [], li, l. split; auto. intros p Hp. apply (S2 p).
          eapply picked_same; [|exact Hp]. eapply same_all; eauto.
    Qed.

    Lemma key_parts : String.eqb (ikey b) "" = false.
    Proof. assert (E : ikey b = block_key b) by now destruct b. rewrite E. apply String.eqb_neq. intros Z. rewrite Z in Key. discriminate Key. Qed.
    Lemma repr_scalar : forall g v t, repr g v t -> scalar t -> forall g1, repr g1 v t.
    Proof. intros g v t R S0 g1. inversion R; subst; try destruct S0; constructor. Qed.

    Lemma one_spec : forall done lc li mi p g h1 r, since done g -> scoped_ok lc g -> length h <= lc -> In li lis -> ~ In li done -> incl done lis ->
      hget h li = Some (CObj mi) -> picked L parse (hs li) cs b p ->
      irun_one X parse b entity None (VObj lc) (VObj li) p g = (h1, r) ->
      scoped_ok lc h1 /\
      match r with
      | Ok _ => frame2 lc li g h1 /\ exists v t, computes_for X parse h ms entity (VObj li) b t /\ (forall g1, repr g1 v t) /\ hget h1 li = Some (CObj (aset field v mi))
      | Err _ => frame2 lc lc g h1 /\ forall t, ~ computes_for X parse h ms entity (VObj li) b t
      end.
    Proof.
      intros done lc li mi p g h1 r S0 (mc & G & Nd & K) Lc Hi Hd Inc Gi Pk R. unfold irun_one in R. rewrite (bind_direct lc li mc g G) in R.
      destruct (bound_alike done lc li mc g S0 G Nd K Lc Hi Hd Inc) as (A & S1).
      assert (Tr : forall t, gives_tree L parse (bound lc li mc g) (VObj lc) b p t <-> computes_for X parse h ms entity (VObj li) b t).
      { intros t. unfold computes_for. fold (hs li). change (snd (seen_by h ms entity (VObj li))) with cs. rewrite <- (ipicked_computes (hs li) (length h) b p t Bn Pk).
        split; apply gives_same; intros e He; [apply same_sym|]; eapply same_all; eauto. }
      assert (Ik : ikey b <> "") by (apply String.eqb_neq; exact key_parts).
      unfold icommit in R. destruct (ivalue X parse b p (PW (bound lc li mc g) (VObj lc) (VObj lc))) as [w1 q] eqn:Q.
      destruct (ivalue_spec (VObj lc) (VObj lc) _ (alike_right _ _ _ _ A) b p w1 q Bn Ik Q) as (g1 & -> & E & S2).
      destruct (bound_scoped lc li mc g g1 G Nd K E) as (G1 & Sg).
      assert (Li : hget g1 li = Some (CObj mi)).
      { assert (Z : since done g1) by (eapply since_hext; eauto). destruct Z as (_ & Z). rewrite Z; auto. eauto using hget_lt. }
      assert (Dl : lc <> li) by (intros ->; apply hget_lt in Gi; lia).
      destruct q as [[v|]|x]; [|contradiction|].
      - destruct S2 as (t & Rv & Gt). apply Tr in Gt. pose proof (Sc li t Hi Gt) as St. rewrite key_parts in R.
        assert (Eb : ikey b = block_key b) by now destruct b. unfold iwrite, dot_insert in R. cbn [pw_heap pw_store pw_env] in R. rewrite Eb, Key in R.
        rewrite dot_insert_cons in R by discriminate. rewrite (proj2 (hobj_hget _ _ _) G1) in R. rewrite aget_aset_eq in R.
        rewrite dot_insert_one in R. rewrite (proj2 (hobj_hget _ _ _) Li) in R. cbn [fst pw_heap write_back] in R. injection R as <- <-.
        split.
        { destruct Sg as (m1 & Q1 & Q2 & Q3). exists m1. split; auto. now rewrite hget_hset_ne by auto. }
        split.
        { assert (F : frame2 lc li g g1).
          { eapply frame_hext; eauto. destruct (frame_bound lc li mc g) as (F1 & F2). split; auto. }
          destruct F as (F1 & F2). split; [now rewrite hset_length|]. intros l Hl H1 H2. rewrite hget_hset_ne by auto. auto. }
        exists v, t. split; auto. split; [eapply repr_scalar; eauto|]. apply hget_hset_eq. eauto using hget_lt.
      - cbn [pw_heap write_back] in R. injection R as <- <-. split; auto. split; [eapply frame_hext; eauto using frame_bound|].
        intros t Ct. apply Tr in Ct. exact (S2 t Ct).
    Qed.

    Definition has_result (g : heap) (li : loc) : Prop :=
      exists mi v t, hget h li = Some (CObj mi) /\ computes_for X parse h ms entity (VObj li) b t /\ (forall g1, repr g1 v t) /\ hget g li = Some (CObj (aset field v mi)).
    Lemma commits_spec : forall lc l ps done g h1 r, since done g -> scoped_ok lc g -> length h <= lc -> incl done lis -> incl l lis -> NoDup l ->
      (forall x, In x l -> ~ In x done) -> Forall (has_result g) done ->
      Forall2 (fun li p => picked L parse (hs li) cs b p) l ps ->
      icommits X parse b entity None (VObj lc) (combine (map VObj l) ps) g = (h1, r) ->
      match r with
      | Ok _ => since (done ++ l) h1 /\ Forall (has_result h1) (done ++ l)
      | Err _ => exists before li after, l = before ++ li :: after /\ since (done ++ before) h1 /\ Forall (has_result h1) (done ++ before) /\
          forall t, ~ computes_for X parse h ms entity (VObj li) b t
      end.
    Proof.
      intros lc. induction l as [|li l IH]; intros ps done g h1 r S0 Sg Lc Id Il Nd Ds Hr Pk R; inversion Pk as [|? p ? ps0 P1 P2]; subst; cbn [icommits map combine] in R.
      - injection R as <- <-. rewrite app_nil_r. auto.
      - assert (Hi : In li lis) by (apply Il; now left). destruct Inst as (I0 & I1 & I2). destruct (I1 li Hi) as (mi & ti & Gi & _).
        assert (Nd0 : ~ In li done) by (apply Ds; now left). inversion Nd as [|? ? Nl Nd1]; subst.
        destruct (irun_one X parse b entity None (VObj lc) (VObj li) p g) as [g1 q] eqn:Q.
        destruct (one_spec done lc li mi p g g1 q S0 Sg Lc Hi Nd0 Id Gi P1 Q) as (Sg1 & O).
        assert (Keep : forall lx, frame2 lc lx g g1 -> (lx = lc \/ lx = li) -> forall l0, In l0 done -> hget g1 l0 = hget g l0).
        { intros lx (F1 & F2) Dx l0 H0. assert (Lx : l0 < length h).
          { destruct (I1 l0 (Id l0 H0)) as (m0 & t0 & G0 & _). eauto using hget_lt. }
          destruct S0 as (Ln & _). apply F2; [lia|lia|]. intros ->. destruct Dx as [->| ->]; [lia|contradiction]. }
        assert (Hres : forall lx, frame2 lc lx g g1 -> (lx = lc \/ lx = li) -> Forall (has_result g1) done).
        { intros lx F Dx. rewrite Forall_forall in *. intros l0 H0. destruct (Hr l0 H0) as (m0 & v & t & A1 & A2 & A3 & A4). exists m0, v, t.
          rewrite (Keep lx F Dx l0 H0). auto. }
        destruct q as [u|x].
        + destruct O as (F & v & t & Ct & Rv & Gv).
          assert (S1 : since (done ++ [li]) g1).
          { destruct S0 as (Ln & S0). destruct F as (F1 & F2). split; [lia|]. intros l0 H0 Hn. rewrite <- S0; auto.
            - apply F2; [lia|lia|]. intros ->. apply Hn. apply in_or_app. right. now left.
            - intros Z. apply Hn. apply in_or_app. now left. }
          apply (IH ps0 (done ++ [li])) in R; auto.
          * rewrite <- !app_assoc in R. cbn [app] in R. destruct r as [u0|x]; auto. destruct R as (bf & l1 & af & -> & S2 & F2 & N2).
            exists (li :: bf), l1, af. rewrite <- app_assoc in S2, F2. auto.
          * intros z Hz. apply in_app_iff in Hz as [Hz|[<-|[]]]; auto.
          * intros z Hz. apply Il. now right.
          * intros z Hz Hn. apply in_app_iff in Hn as [Hn|[<-|[]]]; [|contradiction]. apply (Ds z); auto. now right.
          * apply Forall_app. split; [eapply Hres; eauto|]. constructor; [|constructor]. exists mi, v, t. auto.
        + injection R as <- <-. destruct O as (F & N). exists [], li, l. split; auto. rewrite app_nil_r. split.
          * destruct S0 as (Ln & S0). destruct F as (F1 & F2). split; [lia|]. intros l0 H0 Hn. rewrite <- S0 by auto. apply F2; lia.
          * split; [eapply Hres; eauto|auto].
    Qed.

    (** From cells to contents. *)
    Lemma field_since : forall done g li mi k x t, since done g -> incl done lis -> In li lis -> hget h li = Some (CObj mi) -> aget k mi = Some x ->
      (repr g x t <-> repr h x t).
    Proof.
      intros done g li mi k x t S0 Id Hi Gi K. destruct Inst as (I0 & I1 & I2). destruct (I1 li Hi) as (m0 & t0 & G0 & R0).
      rewrite Gi in G0. injection G0 as <-. apply aget_Some_in in K.
      assert (Rx : exists tx, repr h x tx).
      { inversion R0 as [| | | | |l1 m1 ts G1 F|]; subst. rewrite Gi in G1. injection G1 as <-. destruct (Forall2_in_l _ _ _ _ F K) as ([k1 t1] & _ & _ & R1). eauto. }
      destruct Rx as (tx & Rx). assert (Rg : repr g x tx).
      { eapply kept_since; eauto. intros l Hl Hr. destruct (Nat.eq_dec l li) as [->|D].
        - eapply acyclic_obj; eauto.
        - apply (I2 li l Hi (Id l Hl)); auto. eapply reachl_obj; eauto. }
      split; intros Q; [now rewrite (repr_fun _ _ _ Q _ Rg)|now rewrite (repr_fun _ _ _ Q _ Rx)].
    Qed.
    Lemma result_extended : forall g li, since lis g -> In li lis -> has_result g li ->
      exists t, computes_for X parse h ms entity (VObj li) b t /\ extended h g li field t.
    Proof.
      intros g li S0 Hi (mi & v & t & Gi & Ct & Rv & Gv). exists t. split; auto. split.
      - apply (shows_field g li _ field t Gv). exists v. split; [apply aget_aset_eq|auto].
      - intros k t0 D. rewrite (shows_field g li _ k t0 Gv), (shows_field h li _ k t0 Gi). rewrite aget_aset_ne by congruence.
        split; intros (x & A & R); exists x; (split; [exact A|]); eapply (field_since lis g li mi k x t0); eauto using incl_refl.
    Qed.
    Lemma untouched_before : forall done g li, since done g -> incl done lis -> In li lis -> ~ In li done -> as_before h g li.
    Proof.
      intros done g li S0 Id Hi Hn k t0. destruct Inst as (I0 & I1 & I2). destruct (I1 li Hi) as (mi & ti & Gi & _).
      assert (Gg : hget g li = Some (CObj mi)) by (destruct S0 as (_ & S0); rewrite S0; eauto using hget_lt).
      rewrite (shows_field g li _ k t0 Gg), (shows_field h li _ k t0 Gi).
      split; intros (x & A & R); exists x; (split; [exact A|]); eapply (field_since done g li mi k x t0); eauto.
    Qed.
    Lemma since_more : forall done g, since done g -> incl done lis -> since lis g.
    Proof. intros done g (Ln & S0) Id. split; auto. Qed.

    Theorem iterated : forall extras path la h1 r, dot h (VObj ls) path = Some (VArr la) -> hget h la = Some (CArr (map VObj lis)) ->
      run_iterated X parse extras b entity path None (VObj ls) h = (h1, r) ->
      (forall l, l < length h -> ~ In l lis -> hget h1 l = hget h l) /\
      match r with
      | Ok _ => forall li, In li lis -> exists t, computes_for X parse h ms entity (VObj li) b t /\ extended h h1 li field t
      | Err _ => exists before li after, lis = before ++ li :: after /\ (forall t, ~ computes_for X parse h ms entity (VObj li) b t) /\
          (forall l, In l (li :: after) -> as_before h h1 l) /\
          ((forall l, In l before -> as_before h h1 l) \/
           forall l, In l before -> exists t, computes_for X parse h ms entity (VObj l) b t /\ extended h h1 l field t)
      end.
    Proof.
      intros extras path la h1 r D A R. unfold run_iterated in R. rewrite D in R. assert (Ha : harr h la = Some (map VObj lis)) by (unfold harr; now rewrite A).
      rewrite Ha in R. cbn [owner_binding] in R.
      assert (St : forall g, since [] g -> exists mc, depth_clone1 g (VObj ls) = (g ++ [CObj mc], VObj (length g)) /\ since [] (g ++ [CObj mc]) /\ scoped_ok (length g) (g ++ [CObj mc])).
      { intros g S0. exists ms. assert (G : hget g ls = Some (CObj ms)) by (destruct S0 as (_ & S0); rewrite S0; eauto using hget_lt).
        cbn. rewrite (proj2 (hobj_hget _ _ _) G). split; [reflexivity|]. split; [eapply since_hext; eauto; apply hext_alloc|].
        exists ms. split; [apply hget_alloc_new|]. auto. }
      assert (Init : since [] h) by (split; auto).
      assert (Phase : exists g1 ps, (match b with
                             | BMatch _ _ => let (h0, scoped) := depth_clone1 h (VObj ls) in ipicks X parse extras b entity None scoped (map VObj lis) h0
                             | _ => (h, Ok (map (fun _ => PUnconditional) (map VObj lis)))
                             end) = (g1, ps) /\ since [] g1 /\
          match ps with
          | Ok ps => Forall2 (fun li p => picked L parse (hs li) cs b p) lis ps
          | Err _ => exists before li after, lis = before ++ li :: after /\ forall p, ~ picked L parse (hs li) cs b p
          end).
      { assert (Un : (forall li, picked L parse (hs li) cs b PUnconditional) ->
          Forall2 (fun li p => picked L parse (hs li) cs b p) lis (map (fun _ => PUnconditional) (map VObj lis))).
        { intros U. clear - U. induction lis; constructor; auto. }
        destruct b as [k e|k c|k arms] eqn:Eb.
        1,2: eexists; eexists; split; [reflexivity|]; split; [exact Init|]; apply Un; intros; reflexivity.
        destruct (St h Init) as (mc & E & S1 & S2). rewrite E.
        destruct (ipicks X parse extras (BMatch k arms) entity None (VObj (length h)) (map VObj lis) (h ++ [CObj mc])) as [g1 ps] eqn:Q.
        exists g1, ps. split; [reflexivity|]. rewrite <- Eb in *. eapply picks_spec; eauto using incl_refl. }
      destruct Phase as (g1 & ps & E & S1 & F). rewrite E in R. destruct ps as [ps|x].
      - destruct (St g1 S1) as (mc & E2 & S2 & S3). rewrite E2 in R. destruct Inst as (I0 & I1 & I2).
        apply (commits_spec (length g1) lis ps []) in R; auto using incl_refl, incl_nil_l; [|apply S1]. cbn [app] in R. destruct r as [u|x].
        + destruct R as (S4 & Fr). split; [apply S4|]. intros li Hi. apply result_extended; auto. rewrite Forall_forall in Fr. auto.
        + destruct R as (bf & li & af & El & S4 & Fr & N).
          assert (Ib : incl bf lis) by (intros z Hz; rewrite El; apply in_or_app; now left).
          split; [apply (since_more bf); auto|]. exists bf, li, af. split; auto. split; auto. split.
          * intros l Hl. apply (untouched_before bf); auto; [rewrite El; apply in_or_app; now right|].
            intros Hb. rewrite El in I0. clear - I0 Hb Hl. revert I0. induction bf as [|y bf IH]; [destruct Hb|]. intros N. inversion N as [|? ? N1 N2]; subst.
            destruct Hb as [->|Hb]; [apply N1; apply in_or_app; now right|auto].
          * right. intros l Hl. apply result_extended; [eapply since_more; eauto|auto|]. rewrite Forall_forall in Fr. auto.
      - injection R as <- <-. split; [apply (since_more []); auto using incl_nil_l|]. destruct F as (bf & li & af & El & N). exists bf, li, af.
        assert (Un : forall l, In l lis -> as_before h g1 l) by (intros l Hl; apply (untouched_before []); auto using incl_nil_l).
        split; auto. split; [|split; [|left]].
        + intros t Ct. apply computes_picked in Ct as (p & Pk). exact (N p Pk).
        + intros l Hl. apply Un. rewrite El. apply in_or_app. now right.
        + intros l Hl. apply Un. rewrite El. apply in_or_app. now left.
    Qed.
  End Loop.

  (** *** An instance with an owner. *)
  Lemma obj_repr : forall h g (m : amap value), (forall k v, In (k, v) m -> exists t, repr h v t /\ repr g v t) ->
    exists ts, Forall2 (fun kv kt => fst kv = fst kt /\ repr h (snd kv) (snd kt)) m ts /\ Forall2 (fun kv kt => fst kv = fst kt /\ repr g (snd kv) (snd kt)) m ts.
  Proof.
    intros h g m. induction m as [|[k v] m IH]; intros H; [exists []; split; constructor|].
    destruct (H k v (or_introl eq_refl)) as (t & A & B). destruct IH as (ts & C & D); [intros; apply (H k0); now right|].
    exists ((k, t) :: ts). split; constructor; auto.
  Qed.
  Lemma back_fold : forall syn k (mw m : amap value), NoDup (akeys mw) ->
    aget k (fold_left (fun m kv => if is_injected syn (fst kv) (snd kv) then m else aset (fst kv) (snd kv) m) mw m) =
    match aget k mw with Some x => if is_injected syn k x then aget k m else Some x | None => aget k m end.
  Proof.
    intros syn k mw. induction mw as [|[k0 v0] mw IH]; intros m N; [reflexivity|]. inversion N as [|? ? N1 N2]; subst. cbn [fold_left fst snd]. rewrite IH by auto.
    cbn [aget]. destruct (String.eqb_spec k k0) as [->|D].
    - assert (Z : aget k0 mw = None).
      { destruct (aget k0 mw) eqn:Q; auto. apply aget_Some_in in Q. exfalso. apply N1. change k0 with (fst (k0, v)). now apply in_map. }
      rewrite Z, String.eqb_refl. destruct (is_injected syn k0 v0); auto. apply aget_aset_eq.
    - destruct (String.eqb_spec k0 k) as [Z|_]; [congruence|]. destruct (is_injected syn k0 v0); auto. rewrite aget_aset_ne by congruence. reflexivity.
  Qed.
  Lemma owner_spec : forall g lc mc li mi name lo entity field b p h1 r,
    hget g lc = Some (CObj mc) -> NoDup (akeys mc) -> hget g li = Some (CObj mi) -> NoDup (akeys mi) -> aget name mi = None -> lc <> li ->
    split_dot (block_key b) = [entity; field] -> block_names parse P b ->
    (forall k v, P k = true -> k <> entity -> aget k mc = Some v -> exists t, repr g v t /\ ~ reachl g v lc) ->
    (forall k v, In (k, v) mi -> exists t, repr g v t /\ ~ reachl g v lc) -> (exists t, repr g (VObj lo) t) -> ~ reachl g (VObj lo) lc ->
    let ctx := seen_by (fst (owned g mi name (VObj lo))) mc entity (snd (owned g mi name (VObj lo))) in
    picked L parse (fst ctx) (snd ctx) b p ->
    (forall t, computes X parse (fst ctx) (snd ctx) b t -> scalar t) ->
    irun_one X parse b entity (Some (name, VObj lo)) (VObj lc) (VObj li) p g = (h1, r) ->
    match r with
    | Ok _ => exists v t m, computes X parse (fst ctx) (snd ctx) b t /\ (forall g1, repr g1 v t) /\ hget h1 li = Some (CObj m) /\
        (forall k, aget k m = if String.eqb k field then Some v else aget k mi) /\
        forall l, l < length g -> l <> lc -> l <> li -> hget h1 l = hget g l
    | Err _ => (forall t, ~ computes X parse (fst ctx) (snd ctx) b t) /\ exists m, hget h1 li = Some (CObj m) /\ (forall k, aget k m = aget k mi) /\
        forall l, l < length g -> l <> lc -> l <> li -> hget h1 l = hget g l
    end.
  Proof.
    intros g lc mc li mi name lo entity field b p h1 r Gc Nc Gi Ni Nn Dl Key Bn Rc Ri (to & Ro) No ctx Pk Sc R.
    assert (Lc : lc < length g) by eauto using hget_lt. assert (Ll : li < length g) by eauto using hget_lt.
    set (mw := aset name (VObj lo) mi) in *. set (gs := g ++ [CObj mw]). set (ge := aset entity (VObj (length g)) (adel "$" mc)).
    assert (Ec : ctx = (gs ++ [CObj ge], VObj (length gs))) by reflexivity.
    set (ga := hset (hset (g ++ [CObj mi]) (length g) (CObj mw)) lc (CObj ge)).
    assert (Ln : length ga = S (length g)) by (unfold ga; rewrite !hset_length, app_length; cbn; lia).
    assert (Bi : bind_instance entity (Some (name, VObj lo)) (VObj lc) (VObj li) g = Some (ga, SWrapped (VObj (length g)) (Some (name, VObj lo)))).
    { unfold bind_instance. rewrite (proj2 (hobj_hget _ _ _) Gc). cbn [needs_owner]. rewrite (proj2 (hobj_hget _ _ _) Gi). unfold amem. rewrite Nn. cbn [negb].
      unfold depth_clone1. rewrite (proj2 (hobj_hget _ _ _) Gi). unfold new_obj, halloc.
      rewrite (proj2 (hobj_hget _ _ _) (hget_alloc_new g (CObj mi))).
      assert (Q : hget (hset (g ++ [CObj mi]) (length g) (CObj mw)) lc = Some (CObj mc)).
      { rewrite hget_hset_ne by lia. eapply hext_get; [apply hext_alloc|auto]. }
      fold mw. rewrite (proj2 (hobj_hget _ _ _) Q). reflexivity. }
    assert (Ga : forall l, l < length g -> l <> lc -> hget ga l = hget g l).
    { intros l Hl D. unfold ga. rewrite hget_hset_ne by auto. rewrite hget_hset_ne by lia. unfold hget. now rewrite nth_error_app1 by auto. }
    assert (Gw : hget ga (length g) = Some (CObj mw)).
    { unfold ga. rewrite hget_hset_ne by lia. apply hget_hset_eq. rewrite app_length. cbn. lia. }
    assert (Gce : hget ga lc = Some (CObj ge)).
    { unfold ga. apply hget_hset_eq. rewrite hset_length, app_length. lia. }
    assert (Hx : hext g (gs ++ [CObj ge])) by (eapply hext_trans; [apply hext_alloc|apply hext_alloc]).
    assert (Two : forall v t, repr g v t -> ~ reachl g v lc -> repr (gs ++ [CObj ge]) v t /\ repr ga v t).
    { intros v t Rv N. split; [eapply repr_hext; eauto|]. eapply repr_agree; eauto. intros l Hl. apply Ga; [eapply reachl_lt; eauto|]. intros ->. contradiction. }
    assert (Al : alike_at (fst ctx) ga (snd ctx) (VObj lc)).
    { rewrite Ec. cbn [fst snd]. exists (length gs), lc, ge, ge. split; auto. split; auto. split; [apply hget_alloc_new|]. split; auto.
      intros k Hk. unfold ge. destruct (string_dec k entity) as [->|D].
      - rewrite aget_aset_eq. destruct (obj_repr (gs ++ [CObj ge]) ga mw) as (ts & A & B).
        { intros k0 v0 Hin. apply aset_in in Hin as [E|Hin].
          - injection E as -> ->. exists to. now apply Two.
          - destruct (Ri k0 v0 Hin) as (t & R0 & N). exists t. now apply Two. }
        exists (TObj ts). split; eapply RObj; eauto. eapply hext_get; [apply hext_alloc|]. apply hget_alloc_new.
      - rewrite aget_aset_ne by congruence. destruct (string_dec k "$") as [->|D1]; [rewrite aget_adel_eq by auto; exact Logic.I|].
        rewrite aget_adel_ne by congruence. destruct (aget k mc) as [v|] eqn:A; [|exact Logic.I].
        destruct (Rc k v Hk D A) as (t & Rv & N). exists t. now apply Two. }
    assert (Same : forall e, In e (block_sources b) -> same_on L parse (fst ctx) (snd ctx) ga (VObj lc) e).
    { intros e He. apply alike_same; auto. now apply (proj1 Bn). }
    assert (Tr : forall t, gives_tree L parse ga (VObj lc) b p t <-> computes X parse (fst ctx) (snd ctx) b t).
    { intros t. rewrite Ec in *. cbn [fst snd] in *. rewrite <- (ipicked_computes (gs ++ [CObj ge]) (length gs) b p t Bn Pk).
      split; apply gives_same; intros e He; [apply same_sym|]; auto. }
    assert (Eb : ikey b = block_key b) by now destruct b.
    assert (Ik : ikey b <> "") by (rewrite Eb; intros Z; rewrite Z in Key; discriminate Key).
    unfold irun_one in R. rewrite Bi in R. unfold icommit in R.
    destruct (ivalue X parse b p (PW ga (VObj lc) (VObj lc))) as [w1 q] eqn:Q.
    destruct (ivalue_spec (VObj lc) (VObj lc) ga (alike_right _ _ _ _ Al) b p w1 q Bn Ik Q) as (g1 & -> & E & S2).
    assert (Hg : forall l c, hget ga l = Some c -> hget g1 l = Some c) by (intros; eapply hext_get; eauto).
    assert (L1 : length ga <= length g1) by (destruct E as (x & ->); rewrite app_length; lia).
    assert (Li1 : hget g1 li = Some (CObj mi)) by (apply Hg; rewrite Ga; auto).
    assert (Fr : forall l, l < length g -> l <> lc -> hget g1 l = hget g l).
    { intros l Hl D. rewrite <- (Ga l Hl D). destruct (hget ga l) as [c|] eqn:Z; [now apply Hg|]. unfold hget in Z. apply nth_error_None in Z. lia. }
    assert (Nw : NoDup (akeys mw)) by (unfold mw; now apply aset_nodup).
    destruct q as [[v|]|x]; [|contradiction|].
    - destruct S2 as (t & Rv & Gt). apply Tr in Gt. pose proof (Sc t Gt) as St.
      assert (Sv : forall g1, repr g1 v t) by (intros g2; inversion Rv; subst; try destruct St; constructor).
      apply String.eqb_neq in Ik. rewrite Ik in R. unfold iwrite, dot_insert in R. cbn [pw_heap pw_store pw_env] in R. rewrite Eb, Key in R.
      rewrite dot_insert_cons in R by discriminate. rewrite (proj2 (hobj_hget _ _ _) (Hg _ _ Gce)) in R. unfold ge in R. rewrite aget_aset_eq in R.
      rewrite dot_insert_one in R. rewrite (proj2 (hobj_hget _ _ _) (Hg _ _ Gw)) in R. cbn [fst pw_heap] in R. unfold write_back in R.
      assert (W1 : hget (hset g1 (length g) (CObj (aset field v mw))) (length g) = Some (CObj (aset field v mw))) by (apply hget_hset_eq; lia).
      assert (W2 : hget (hset g1 (length g) (CObj (aset field v mw))) li = Some (CObj mi)) by (rewrite hget_hset_ne by lia; auto).
      rewrite (proj2 (hobj_hget _ _ _) W1), (proj2 (hobj_hget _ _ _) W2) in R. injection R as <- <-.
      exists v, t. eexists. split; auto. split; auto. split; [apply hget_hset_eq; rewrite hset_length; lia|]. split.
      + intros k. refine (eq_trans (back_fold (Some (name, VObj lo)) k (aset field v mw) mi _) _); [now apply aset_nodup|]. destruct (String.eqb_spec k field) as [->|D].
        * rewrite aget_aset_eq. assert (Z : is_injected (Some (name, VObj lo)) field v = false).
          { cbn. rewrite Bool.andb_false_iff. right. inversion Rv; subst; try destruct St; reflexivity. }
          now rewrite Z.
        * rewrite aget_aset_ne by congruence. unfold mw. destruct (String.eqb_spec k name) as [->|D1].
          -- rewrite aget_aset_eq. cbn. rewrite String.eqb_refl, Nat.eqb_refl. reflexivity.
          -- rewrite aget_aset_ne by congruence. destruct (aget k mi) as [x|] eqn:Z; [|reflexivity].
             cbn. apply not_eq_sym, String.eqb_neq in D1. now rewrite D1.
      + intros l Hl H1 H2. rewrite !hget_hset_ne by lia. auto.
    - cbn [pw_heap] in R. unfold write_back in R. rewrite (proj2 (hobj_hget _ _ _) (Hg _ _ Gw)), (proj2 (hobj_hget _ _ _) Li1) in R. injection R as <- <-.
      split; [intros t Ct; apply Tr in Ct; exact (S2 t Ct)|]. eexists. split; [apply hget_hset_eq; lia|]. split.
      + intros k. refine (eq_trans (back_fold (Some (name, VObj lo)) k mw mi Nw) _). unfold mw. destruct (String.eqb_spec k name) as [->|D1].
        * rewrite aget_aset_eq. cbn. rewrite String.eqb_refl, Nat.eqb_refl. reflexivity.
        * rewrite aget_aset_ne by congruence. destruct (aget k mi) as [y|] eqn:Z; [|reflexivity].
          cbn. apply not_eq_sym, String.eqb_neq in D1. now rewrite D1.
      + intros l Hl H1 H2. rewrite hget_hset_ne by auto. auto.
  Qed.
End Facts.
