(** Facts about running the blocks. *)
From Coq Require Import String Bool List Arith Lia Relations.
From Verif Require Import Base Driver DriverSpec DriverFacts.
Import ListNotations.
Local Open Scope list_scope.

Section Run.
  Variables W P E : Type.
  Variable writers : amap bref.
  Variable known : bref -> bool.
  Variable always : bref -> list string.
  Variable reads : bref -> P -> list string.
  Variable select : bref -> W -> W * (option P + E).
  Variable commit : bref -> P -> W -> W * (unit + E).
  Variable goals : list string.
  Variable w0 : W.
  Notation state := (dstate W P).
  Notation answer := (answer W P E).
  Notation demand := (demand W P E writers).
  Notation run_inner := (run_inner W P E writers known always reads select commit).
  Notation run_block := (run_block W P E writers known always reads select commit).
  Notation run_goals := (run_goals W P E writers known always reads select commit).
  Notation lg := (log W P).
  Notation rn := (ran W P).
  Notation bs := (busy W P).
  Notation wd := (world W P).

  Definition uses (b : bref) (o : option P) (p : string) : Prop := In p (always b) \/ exists pick, o = Some pick /\ In p (reads b pick).
  Definition needs (b w : bref) : Prop := known b = true /\ exists o p, uses b o p /\ In w (longest writers p).
  Notation depends := (clos_refl_trans bref needs).
  Definition reached (b : bref) : Prop := exists g w, In g goals /\ In w (longest writers g) /\ depends w b.
  Definition replay (l : list (bref * option P)) (w : W) : W :=
    fold_left (fun w e => match snd e with Some pick => fst (commit (fst e) pick w) | None => w end) l w.
  Definition names (l : list (bref * option P)) : list bref := map fst l.
  Definition Good (l : list (bref * option P)) : Prop :=
    forall l1 b o l2, l = l1 ++ (b, o) :: l2 -> forall p, uses b o p -> forall w, In w (longest writers p) -> known w = true -> In w (names l1) \/ depends w b.
  Fixpoint chain (l : list bref) : Prop :=
    match l with [] => True | x :: r => match r with [] => True | y :: _ => needs y x end /\ chain r end.
  Record Inv (s : state) : Prop := {
    i_nodup : NoDup (names (lg s));
    i_ran : forall b, In b (names (lg s)) -> In b (rn s);
    i_log : forall b, In b (rn s) -> known b = true -> In b (names (lg s));
    i_good : Good (lg s);
    i_reach : forall b, In b (names (lg s)) -> reached b /\ known b = true;
    i_chain : chain (bs s);
    i_busy : NoDup (bs s) }.
  Definition okp (r : unit + E) : Prop := match r with inl _ => True | inr _ => False end.
  Definition pure : Prop := forall b w, fst (select b w) = w.
  Definition Rp (s : state) : Prop := wd s = replay (lg s) w0.
  Record step (s s' : state) (r : unit + E) : Prop := {
    t_inv : Inv s';
    t_busy : bs s' = bs s;
    t_log : exists ext, lg s' = lg s ++ ext;
    t_new : forall b, In b (names (lg s')) -> In b (names (lg s)) \/ ~ In b (bs s);
    t_ran : incl (rn s) (rn s');
    t_replay : pure -> okp r -> Rp s -> Rp s' }.

  Lemma step_refl s r : Inv s -> step s s r.
  Proof. intro H. constructor; auto; [exists []; rewrite app_nil_r; reflexivity | intros b Hb; exact Hb]. Qed.
  Lemma step_trans s1 s2 s3 r1 r2 : okp r1 -> step s1 s2 r1 -> step s2 s3 r2 -> step s1 s3 r2.
  Proof.
    intros Hok [A1 A2 [e1 A3] A4 A5 A6] [B1 B2 [e2 B3] B4 B5 B6]. constructor; auto.
    - congruence.
    - exists (e1 ++ e2). rewrite B3, A3, app_assoc. reflexivity.
    - intros b Hb. destruct (B4 b Hb) as [H | H]; [apply A4, H | right; rewrite <- A2; exact H].
    - intros b Hb. apply B5, A5, Hb.
  Qed.
  Lemma chain_depends l : forall b w, chain (b :: l) -> In w (b :: l) -> depends w b.
  Proof.
    induction l as [| y l IH]; intros b w H Hin.
    - destruct Hin as [-> | []]. apply rt_refl.
    - destruct H as [H1 H2]. destruct Hin as [-> | Hin]; [apply rt_refl |]. apply rt_trans with y; [apply IH; assumption | apply rt_step, H1].
  Qed.
  Lemma each_step {A} (f : A -> state -> answer) (done : A -> state -> Prop) B l :
    (forall x s s' r, In x l -> Inv s -> bs s = B -> f x s = Some (s', r) -> step s s' r /\ (okp r -> done x s')) ->
    (forall x s s' r, done x s -> step s s' r -> done x s') ->
    forall s s' r, Inv s -> bs s = B -> each W P E f l s = Some (s', r) -> step s s' r /\ (okp r -> forall x, In x l -> done x s').
  Proof.
    intros Hf Hm. induction l as [| x l IH]; intros s s' r HI HB Hr; cbn [each] in Hr.
    - inversion Hr; subst. split; [apply step_refl, HI | intros _ x []].
    - destruct (f x s) as [[s1 r1] |] eqn:Ef; [| discriminate].
      destruct (Hf x s s1 r1 (or_introl eq_refl) HI HB Ef) as [Hs Hd]. destruct r1 as [u | e].
      + assert (HI1 := t_inv _ _ _ Hs). assert (HB1 : bs s1 = B) by (rewrite (t_busy _ _ _ Hs); exact HB).
        destruct (IH (fun y s s' r Hy => Hf y s s' r (or_intror Hy)) s1 s' r HI1 HB1 Hr) as [Hs2 Hd2].
        split; [exact (step_trans _ _ _ (inl u) _ Logic.I Hs Hs2) |]. intros Hok y [<- | Hy]; [apply Hm with s1 r; [apply Hd; exact Logic.I | exact Hs2] | apply Hd2; assumption].
      + inversion Hr; subst. split; [exact Hs | intros []].
  Qed.

  Definition fed (s : state) (w : bref) : Prop := In w (rn s) \/ In w (bs s).
  Lemma fed_step s s' r w : fed s w -> step s s' r -> fed s' w.
  Proof. intros [H | H] Hs; [left; apply (t_ran _ _ _ Hs), H | right; rewrite (t_busy _ _ _ Hs); exact H]. Qed.
  (** Running [b] may be asked for: it is reached and the block that asks needs it. *)
  Definition asked (l : list bref) (b : bref) : Prop := reached b /\ match l with [] => True | t :: _ => needs t b end.
  Definition RunOK (run : bref -> state -> answer) : Prop :=
    forall b s s' r, Inv s -> asked (bs s) b -> run b s = Some (s', r) -> step s s' r /\ (okp r -> fed s' b).
  Lemma demand_step run : RunOK run -> forall p s s' r, Inv s -> (forall w, In w (longest writers p) -> asked (bs s) w) ->
    demand run p s = Some (s', r) -> step s s' r /\ (okp r -> forall w, In w (longest writers p) -> fed s' w).
  Proof.
    intros HR p s s' r HI Ha Hr. unfold Driver.demand in Hr.
    apply (each_step run (fun w s => fed s w) (bs s) (longest writers p)) with (s := s); auto.
    - intros x s1 s1' r1 Hx HI1 HB1 Hr1. apply HR; [exact HI1 | rewrite HB1; apply Ha, Hx | exact Hr1].
    - intros x s1 s1' r1 Hd Hs. exact (fed_step _ _ _ _ Hd Hs).
  Qed.
  Lemma demands_step run : RunOK run -> forall ps s s' r, Inv s -> (forall p w, In p ps -> In w (longest writers p) -> asked (bs s) w) ->
    each W P E (demand run) ps s = Some (s', r) -> step s s' r /\ (okp r -> forall p w, In p ps -> In w (longest writers p) -> fed s' w).
  Proof.
    intros HR ps s s' r HI Ha Hr.
    destruct (each_step (demand run) (fun p s => forall w, In w (longest writers p) -> fed s w) (bs s) ps) with (s := s) (s' := s') (r := r) as [H1 H2]; auto.
    - intros x s1 s1' r1 Hx HI1 HB1 Hr1. apply demand_step with run; auto. intros w Hw. rewrite HB1. apply Ha with x; assumption.
    - intros x s1 s1' r1 Hd Hs w Hw. exact (fed_step _ _ _ _ (Hd w Hw) Hs).
    - split; [exact H1 |]. intros Hok p w Hp Hw. exact (H2 Hok p Hp w Hw).
  Qed.
  Lemma names_app l1 l2 : names (l1 ++ l2) = names l1 ++ names l2.
  Proof. apply map_app. Qed.
  Lemma inv_world s w : Inv s -> Inv (DState W P w (rn s) (bs s) (lg s)).
  Proof. intros []. constructor; assumption. Qed.
  (** What is true after the inside of a block: as [step], but the block itself may have been entered in the log and not yet in [ran]. *)
  Lemma snoc_cases {A} (l l1 l2 : list A) x y : l ++ [x] = l1 ++ y :: l2 -> (l2 = [] /\ l = l1 /\ x = y) \/ exists l2', l2 = l2' ++ [x] /\ l = l1 ++ y :: l2'.
  Proof.
    intro H. destruct l2 as [| z l2] using rev_ind.
    - apply app_inj_tail in H. destruct H. auto.
    - right. exists l2. split; [|]. 
      + assert (H' : l ++ [x] = (l1 ++ y :: l2) ++ [z]) by (rewrite H, <- app_assoc; reflexivity). apply app_inj_tail in H'. destruct H' as [_ ->]. reflexivity.
      + assert (H' : l ++ [x] = (l1 ++ y :: l2) ++ [z]) by (rewrite H, <- app_assoc; reflexivity). apply app_inj_tail in H'. destruct H' as [-> _]. reflexivity.
  Qed.
  (** The block is entered in the log once all it uses is fed, and taken off the blocks in progress. *)
  Lemma finish b rest s1 o w2 : Inv s1 -> bs s1 = b :: rest -> known b = true -> reached b -> ~ In b (names (lg s1)) ->
    (forall p, uses b o p -> forall w, In w (longest writers p) -> fed s1 w) ->
    Inv (DState W P w2 (b :: rn s1) rest (lg s1 ++ [(b, o)])).
  Proof.
    intros HI HB Hk Hr Hn Hfed. destruct HI as [A1 A2 A3 A4 A5 A6 A7]. constructor; cbn [log ran busy].
    - rewrite names_app. cbn. apply NoDup_rev in A1. rewrite <- (rev_involutive (names (lg s1) ++ [b])). apply NoDup_rev. rewrite rev_app_distr. cbn. constructor; [rewrite <- in_rev; exact Hn | exact A1].
    - intros x Hx. rewrite names_app in Hx. apply in_app_iff in Hx. destruct Hx as [Hx | [<- | []]]; [right; apply A2, Hx | left; reflexivity].
    - intros x [<- | Hx] Hkx; rewrite names_app; apply in_app_iff; [right; left; reflexivity | left; apply A3; assumption].
    - intros l1 c oc l2 Heq p Hu w Hw Hkw. apply snoc_cases in Heq. destruct Heq as [[-> [<- Heq]] | [l2' [-> Heq]]].
      + inversion Heq; subst c oc. destruct (Hfed p Hu w Hw) as [H | H]; [left; apply A3; assumption | right].
        rewrite HB in H, A6. exact (chain_depends rest b w A6 H).
      + exact (A4 l1 c oc l2' Heq p Hu w Hw Hkw).
    - intros x Hx. rewrite names_app in Hx. apply in_app_iff in Hx. destruct Hx as [Hx | [<- | []]]; [apply A5, Hx | auto].
    - rewrite HB in A6. destruct A6 as [_ A6]. exact A6.
    - rewrite HB in A7. inversion A7; assumption.
  Qed.
  Lemma filter_out b l : ~ In b l -> filter (fun x => negb (beqb b x)) l = l.
  Proof.
    induction l as [| x l IH]; cbn [filter]; intro H; [reflexivity |].
    destruct (beqb b x) eqn:Eb; cbn [negb]; [apply beqb_iff in Eb; subst x; exfalso; apply H; left; reflexivity |].
    rewrite IH; [reflexivity | intro Hc; apply H; right; exact Hc].
  Qed.
  Lemma filter_hd b l : ~ In b l -> filter (fun x => negb (beqb b x)) (b :: l) = l.
  Proof. intro H. cbn [filter]. assert (Eb : beqb b b = true) by (apply beqb_iff; reflexivity). rewrite Eb. cbn [negb]. apply filter_out, H. Qed.
  (** Leaving a block that failed, or that is unknown. *)
  Lemma leave b rest s1 : Inv s1 -> bs s1 = b :: rest -> forall w, Inv (DState W P w (rn s1) rest (lg s1)).
  Proof.
    intros [A1 A2 A3 A4 A5 A6 A7] HB w. constructor; cbn [log ran busy]; auto.
    - rewrite HB in A6. destruct A6; assumption.
    - rewrite HB in A7. inversion A7; assumption.
  Qed.
  Lemma replay_snoc l b o w : replay (l ++ [(b, o)]) w = match o with Some pick => fst (commit b pick (replay l w)) | None => replay l w end.
  Proof. unfold replay. rewrite fold_left_app. reflexivity. Qed.

  Lemma run_block_ok fuel : RunOK (run_block fuel).
  Proof.
    induction fuel as [| f IH]; intros b s s' r HI [Hreach Hneed] Hr; cbn [Driver.run_block] in Hr; [discriminate |].
    destruct (bmem b (rn s) || bmem b (bs s)) eqn:Em.
    { inversion Hr; subst. split; [apply step_refl, HI |]. intros _. apply orb_true_iff in Em. rewrite !bmem_iff in Em. exact Em. }
    apply orb_false_iff in Em. destruct Em as [Em1 Em2].
    assert (Hnr : ~ In b (rn s)) by (rewrite <- bmem_iff; congruence). assert (Hnb : ~ In b (bs s)) by (rewrite <- bmem_iff; congruence).
    assert (Hnl : ~ In b (names (lg s))) by (intro H; apply Hnr, (i_ran _ HI), H).
    set (s0 := DState W P (wd s) (rn s) (b :: bs s) (lg s)) in *.
    destruct (run_inner (run_block f) b s0) as [[s1 r1] |] eqn:Ei; [| discriminate]. inversion Hr; subst s' r; clear Hr.
    assert (HI0 : Inv s0).
    { destruct HI as [A1 A2 A3 A4 A5 A6 A7]. constructor; cbn [s0 log ran busy]; auto. - cbn [chain]. split; [destruct (bs s); auto | exact A6]. - constructor; assumption. }
    unfold Driver.run_inner in Ei. destruct (known b) eqn:Ek.
    2: { inversion Ei; subst s1 r1. cbn [busy ran log world s0]. rewrite filter_hd by exact Hnb. split; [| intros _; left; left; reflexivity].
         constructor; cbn [log ran busy]; auto.
         - destruct HI as [A1 A2 A3 A4 A5 A6 A7]. constructor; cbn [log ran busy]; auto.
           + intros x Hx. right. apply A2, Hx.
           + intros x [<- | Hx] Hk; [congruence | apply A3; assumption].
         - exists []. rewrite app_nil_r. reflexivity.
         - intros x Hx. right. exact Hx. }
    assert (Hask : forall p w o, uses b o p -> In w (longest writers p) -> asked (b :: bs s) w).
    { intros p w o Hu Hw. assert (Hn : needs b w) by (split; [exact Ek | exists o, p; auto]). split; [| exact Hn].
      destruct Hreach as [g [v [Hg [Hv Hd]]]]. exists g, v. split; [exact Hg |]. split; [exact Hv |]. apply rt_trans with b; [exact Hd | apply rt_step, Hn]. }
    (** A failure on the way. *)
    assert (Hfail : forall s2 w e, step s0 s2 (inr e) -> step s (DState W P w (rn s2) (filter (fun x => negb (beqb b x)) (bs s2)) (lg s2)) (inr e)).
    { intros s2 w e [B1 B2 B3 B4 B5 B6]. cbn [s0 busy] in B2. rewrite B2, filter_hd by exact Hnb. constructor; cbn [log ran busy]; auto.
      - exact (leave b (bs s) s2 B1 B2 w).
      - intros x Hx. destruct (B4 x Hx) as [H | H]; [left; exact H | right; intro Hc; apply H; right; exact Hc].
      - intros _ []. }
    destruct (each W P E (demand (run_block f)) (always b) s0) as [[s2 r2] |] eqn:E1; [| discriminate].
    destruct (demands_step _ IH (always b) s0 s2 r2 HI0) as [Hs2 Hf2]; [| exact E1 |].
    { intros p w Hp Hw. exact (Hask p w None (or_introl Hp) Hw). }
    destruct r2 as [u2 | e2].
    2: { inversion Ei; subst s1 r1. split; [apply Hfail, Hs2 | intros []]. }
    destruct (select b (wd s2)) as [w2 o2] eqn:Es.
    assert (Hnl2 : forall s3 r3, step s0 s3 r3 -> ~ In b (names (lg s3))).
    { intros s3 r3 Hs3 Hc. destruct (t_new _ _ _ Hs3 b Hc) as [H | H]; [exact (Hnl H) | apply H; left; reflexivity]. }
    assert (Hend : forall s3 r3 o w, okp r3 -> step s0 s3 r3 -> (forall p, uses b o p -> forall v, In v (longest writers p) -> fed s3 v) ->
      (pure -> Rp s -> w = replay (lg s3 ++ [(b, o)]) w0) ->
      step s (DState W P w (b :: rn s3) (filter (fun x => negb (beqb b x)) (bs s3)) (lg s3 ++ [(b, o)])) (inl tt)).
    { intros s3 r3 o w Hok3 Hs3 Hfed Hrp. assert (Hn3 := Hnl2 s3 r3 Hs3). destruct Hs3 as [B1 B2 B3 B4 B5 B6]. cbn [s0 busy] in B2. rewrite B2, filter_hd by exact Hnb.
      constructor; cbn [log ran busy]; auto.
      - exact (finish b (bs s) s3 o w B1 B2 Ek Hreach Hn3 Hfed).
      - destruct B3 as [ext B3]. exists (ext ++ [(b, o)]). rewrite B3, app_assoc. reflexivity.
      - intros x Hx. rewrite names_app in Hx. apply in_app_iff in Hx. destruct Hx as [Hx | [<- | []]]; [| right; exact Hnb].
        destruct (B4 x Hx) as [H | H]; [left; exact H | right; intro Hc; apply H; right; exact Hc].
      - intros x Hx. right. apply B5, Hx.
      - intros Hp _ H. unfold Rp in *. cbn [world log]. exact (Hrp Hp H). }
    destruct o2 as [[pick |] | e].
    - set (s3 := DState W P w2 (rn s2) (bs s2) (lg s2)) in *.
      assert (HI3 : Inv s3) by (apply inv_world, Hs2).
      assert (Hs03 : step s0 s3 (inl tt)).
      { destruct Hs2 as [B1 B2 B3 B4 B5 B6]. constructor; cbn [s3 log ran busy]; auto. intros Hp Hok H. unfold Rp in *. cbn [world log s3].
        assert (Hw := Hp b (wd s2)). rewrite Es in Hw. cbn [fst] in Hw. rewrite Hw. apply B6; auto. }
      destruct (each W P E (demand (run_block f)) (reads b pick) s3) as [[s4 r4] |] eqn:E2; [| discriminate].
      destruct (demands_step _ IH (reads b pick) s3 s4 r4 HI3) as [Hs4 Hf4]; [| exact E2 |].
      { intros p w Hp Hw. cbn [s3 busy]. rewrite (t_busy _ _ _ Hs2). cbn [s0 busy]. apply (Hask p w (Some pick)); [right; exists pick; auto | exact Hw]. }
      assert (Hs04 := step_trans s0 s3 s4 (inl tt) r4 Logic.I Hs03 Hs4).
      destruct r4 as [u4 | e4].
      2: { inversion Ei; subst s1 r1. split; [apply Hfail, Hs04 | intros []]. }
      destruct (commit b pick (wd s4)) as [w5 o5] eqn:Ec.
      destruct o5 as [u5 | e5]; inversion Ei; subst s1 r1; cbn [world ran busy log].
      + split; [| intros _; left; left; reflexivity]. apply (Hend s4 (inl u4) (Some pick) w5 Logic.I Hs04).
        * intros p [Hp | [pk [Hpk Hp]]] v Hv; [| inversion Hpk; subst pk; exact (Hf4 Logic.I p v Hp Hv)].
          assert (Hfd := Hf2 Logic.I p v Hp Hv). apply fed_step with (s := s3) (r := inl u4); [exact Hfd | exact Hs4].
        * intros Hp H. assert (H4 : Rp s4) by (apply (t_replay _ _ _ Hs04); [exact Hp | exact Logic.I | exact H]). rewrite replay_snoc. unfold Rp in H4. rewrite <- H4, Ec. reflexivity.
      + split; [| intros []]. assert (Hs04' : step s0 s4 (inr e5)). { destruct Hs04. constructor; auto; intros _ []. }
        exact (Hfail s4 w5 e5 Hs04').
    - inversion Ei; subst s1 r1; cbn [world ran busy log]. split; [| intros _; left; left; reflexivity]. apply (Hend s2 (inl u2) None w2 Logic.I Hs2).
      + intros p [Hp | [pk [Hpk _]]] v Hv; [| discriminate]. exact (Hf2 Logic.I p v Hp Hv).
      + intros Hp H. assert (H2 : Rp s2) by (apply (t_replay _ _ _ Hs2); [exact Hp | exact Logic.I | exact H]). rewrite replay_snoc.
        assert (Hw := Hp b (wd s2)). rewrite Es in Hw. cbn [fst] in Hw. rewrite Hw. exact H2.
    - inversion Ei; subst s1 r1; cbn [world ran busy log]. split; [| intros []].
      assert (Hs2' : step s0 s2 (inr e)). { destruct Hs2. constructor; auto; intros _ []. }
      exact (Hfail s2 w2 e Hs2').
  Qed.
  Lemma run_goals_ok fuel s r : run_goals fuel goals w0 = Some (s, r) ->
    Inv s /\ bs s = [] /\ (pure -> okp r -> wd s = replay (lg s) w0) /\ (okp r -> forall g w, In g goals -> In w (longest writers g) -> In w (rn s)).
  Proof.
    intro H. unfold Driver.run_goals in H.
    assert (HI : Inv (DState W P w0 [] [] [])).
    { split; [apply NoDup_nil | intros b [] | intros b [] | intros l1 b o l2 Hc; destruct l1; discriminate | intros b [] | exact Logic.I | apply NoDup_nil]. }
    destruct (demands_step _ (run_block_ok fuel) goals _ s r HI) as [Hs Hf]; [| exact H |].
    { intros p w Hp Hw. split; [| exact Logic.I]. exists p, w. split; [exact Hp |]. split; [exact Hw | apply rt_refl]. }
    split; [apply Hs |]. assert (Hb := t_busy _ _ _ Hs). cbn [busy] in Hb. split; [exact Hb |]. split.
    - intros Hp Hok. apply (t_replay _ _ _ Hs); auto. reflexivity.
    - intros Hok g w Hg Hw. destruct (Hf Hok g w Hg Hw) as [Hx | Hx]; [exact Hx |]. rewrite Hb in Hx. destruct Hx.
  Qed.

  (** The depth of the nesting is bounded by the number of blocks. *)
  Variable owners : list bref.
  Hypothesis all_owners : forall p w, In w (longest writers p) -> In w owners.
  Lemma each_ends {A} (f : A -> state -> answer) (Q : state -> Prop) l :
    (forall x s, In x l -> Q s -> exists s' r, f x s = Some (s', r) /\ Q s') -> forall s, Q s -> exists s' r, each W P E f l s = Some (s', r) /\ Q s'.
  Proof.
    intros Hf. induction l as [| x l IH]; intros s HQ; cbn [each]; [exists s, (inl tt); auto |].
    destruct (Hf x s (or_introl eq_refl) HQ) as [s1 [r1 [E1 Q1]]]. rewrite E1. destruct r1 as [u | e].
    - apply IH; [intros y s2 Hy; apply Hf; right; exact Hy | exact Q1].
    - exists s1, (inr e). auto.
  Qed.
  Lemma run_block_ends fuel : forall b s B, In b owners -> bs s = B -> NoDup B -> incl B owners -> length owners < fuel + length B ->
    exists s' r, run_block fuel b s = Some (s', r) /\ bs s' = B.
  Proof.
    induction fuel as [| f IH]; intros b s B Hb HB Hnd Hincl Hlen.
    - exfalso. assert (H := NoDup_incl_length Hnd Hincl). lia.
    - cbn [Driver.run_block]. destruct (bmem b (rn s) || bmem b (bs s)) eqn:Em; [exists s, (inl tt); auto |].
      apply orb_false_iff in Em. destruct Em as [_ Em2]. assert (Hnb : ~ In b B) by (rewrite <- HB, <- bmem_iff; congruence).
      set (s0 := DState W P (wd s) (rn s) (b :: bs s) (lg s)).
      assert (HB0 : bs s0 = b :: B) by (cbn [s0 busy]; rewrite HB; reflexivity).
      assert (Hd : forall p x, bs x = b :: B -> exists s' r, demand (run_block f) p x = Some (s', r) /\ bs s' = b :: B).
      { intros p x Hx. unfold Driver.demand. apply (each_ends _ (fun y => bs y = b :: B)); [| exact Hx]. intros y t Hy Ht. apply (IH y t (b :: B)); auto.
        - apply all_owners with p, Hy.
        - constructor; assumption.
        - intros z [<- | Hz]; [exact Hb | apply Hincl, Hz].
        - cbn [length]. lia. }
      assert (Hds : forall ps x, bs x = b :: B -> exists s' r, each W P E (demand (run_block f)) ps x = Some (s', r) /\ bs s' = b :: B).
      { intros ps x Hx. apply (each_ends _ (fun y => bs y = b :: B)); [| exact Hx]. intros y t _ Ht. apply Hd, Ht. }
      assert (Hi : exists s1 r1, run_inner (run_block f) b s0 = Some (s1, r1) /\ bs s1 = b :: B).
      { unfold Driver.run_inner. destruct (known b); [| exists s0, (inl tt); auto].
        destruct (Hds (always b) s0 HB0) as [s2 [r2 [E2 B2]]]. rewrite E2. destruct r2 as [u2 | e2]; [| exists s2, (inr e2); auto].
        destruct (select b (wd s2)) as [w2 o2]. destruct o2 as [[pick |] | e].
        - destruct (Hds (reads b pick) (DState W P w2 (rn s2) (bs s2) (lg s2)) B2) as [s4 [r4 [E4 B4]]]. rewrite E4. destruct r4 as [u4 | e4]; [| exists s4, (inr e4); auto].
          destruct (commit b pick (wd s4)) as [w5 [u5 | e5]]; eexists; eexists; split; try reflexivity; exact B4.
        - eexists; eexists; split; try reflexivity; exact B2.
        - eexists; eexists; split; try reflexivity; exact B2. }
      destruct Hi as [s1 [r1 [E1 B1]]]. rewrite E1, B1, filter_hd by exact Hnb. eexists; eexists; split; [reflexivity | reflexivity].
  Qed.
  Lemma run_goals_ends fuel : length owners < fuel -> exists s r, run_goals fuel goals w0 = Some (s, r).
  Proof.
    intro Hl. unfold Driver.run_goals.
    destruct (each_ends (demand (run_block fuel)) (fun y => bs y = []) goals) with (s := DState W P w0 [] [] []) as [s [r [H _]]]; [| reflexivity | exists s, r; exact H].
    intros p s _ HB. unfold Driver.demand. apply (each_ends _ (fun y => bs y = [])); [| exact HB]. intros y t Hy Ht.
    apply (run_block_ends fuel y t []); auto; [apply all_owners with p, Hy | constructor | intros z [] | cbn; lia].
  Qed.
End Run.
