(** The final clean-up: a depth-first walk that removes one key everywhere, on cyclic values too. *)
From Coq Require Import String Ascii ZArith Lia Bool List Arith.
From Verif Require Import Base Dec Value Heap HeapSpec TreeFacts HeapFacts Ast Ops Isolate Session Nodes NodeSpec.
Import ListNotations.
Local Open Scope string_scope.
Local Open Scope list_scope.
Local Open Scope nat_scope.

Notation inb l s := (existsb (Nat.eqb l) s).
Lemma inb_In : forall l s, inb l s = true <-> In l s.
Proof. intros l s. rewrite existsb_exists. split; [intros (x & I & E); apply Nat.eqb_eq in E; now subst|intros I; exists l; auto using Nat.eqb_refl]. Qed.
Lemma inb_notIn : forall l s, inb l s = false <-> ~ In l s.
Proof. intros l s. rewrite <- inb_In. destruct (inb l s); intuition congruence. Qed.

(** No dangling pointer below [v] (there is none in the program). *)
Definition typed (h : heap) (v : value) : Prop :=
  forall w, reach h v w -> match w with
                           | VArr l => exists a, hget h l = Some (CArr a)
                           | VObj l => exists m, hget h l = Some (CObj m)
                           | _ => True
                           end.

Section Clean.
  Variable h0 : heap.
  Definition kids (l : loc) : list value :=
    match hget h0 l with
    | Some (CArr a) => a
    | Some (CObj m) => map snd (adel reserved m)
    | None => []
    end.
  Definition cleaned (seen : list loc) (h : heap) : Prop :=
    length h = length h0 /\
    forall l, hget h l = match hget h0 l with
                         | Some (CObj m) => Some (CObj (if inb l seen then adel reserved m else m))
                         | c => c
                         end.
  Definition unseen (seen : list loc) : nat := length (filter (fun l => negb (inb l seen)) (seq 0 (length h0))).
  Definition covered (x : value) (seen : list loc) : Prop := forall l, at_loc x l -> In l seen.
  Lemma unseen_incl : forall s s', incl s s' -> unseen s' <= unseen s.
  Proof.
    intros s s' I. unfold unseen. induction (seq 0 (length h0)) as [|l r IH]; cbn; [lia|].
    destruct (inb l s) eqn:A; cbn [negb].
    - apply inb_In, I, inb_In in A. rewrite A. cbn. exact IH.
    - destruct (inb l s'); cbn; lia.
  Qed.
  Lemma unseen_new : forall l s, l < length h0 -> ~ In l s -> unseen (l :: s) < unseen s.
  Proof.
    intros l s L N. assert (I : In l (seq 0 (length h0))) by (apply in_seq; lia). unfold unseen.
    set (p := fun l0 => negb (inb l0 (l :: s))). set (q := fun l0 => negb (inb l0 s)).
    assert (PQ : forall x, p x = true -> q x = true) by (intros x; unfold p, q; cbn [existsb]; destruct (inb x s); rewrite ?orb_true_r; auto).
    assert (Pl : p l = false) by (unfold p; cbn [existsb]; now rewrite Nat.eqb_refl).
    assert (Ql : q l = true) by (unfold q; apply inb_notIn in N; now rewrite N).
    clearbody p q.
    assert (M : forall r, length (filter p r) <= length (filter q r)).
    { induction r as [|x r IH]; cbn [filter]; [lia|]. specialize (PQ x). destruct (p x); [rewrite PQ by auto; cbn; lia|]. destruct (q x); cbn; lia. }
    induction (seq 0 (length h0)) as [|x r IH]; [destruct I|]. cbn [filter]. destruct I as [->|I].
    - rewrite Pl, Ql. cbn. pose proof (M r). lia.
    - specialize (IH I). specialize (PQ x). destruct (p x); [rewrite PQ by auto; cbn; lia|]. destruct (q x); cbn; lia.
  Qed.
  Lemma typed_kids : forall v l x, typed h0 v -> at_loc v l -> In x (kids l) -> typed h0 x /\ forall w, reach h0 x w -> reach h0 v w.
  Proof.
    intros v l x T A I. assert (R : forall w, reach h0 x w -> reach h0 v w).
    { intros w R. unfold kids in I. destruct A as [->| ->].
      - destruct (T _ (reach_here _ _)) as (a & G). rewrite G in I. eapply reach_arr; eauto.
      - destruct (T _ (reach_here _ _)) as (m & G). rewrite G in I. apply in_map_iff in I as ((k & y) & E & I). cbn in E. subst y. eapply reach_obj; eauto. eapply adel_in; eauto. }
    split; auto. intros w Rw. apply T. auto.
  Qed.

  (** One run of the walk. *)
  Definition walked (xs : list value) (seen seen1 : list loc) (h1 : heap) : Prop :=
    cleaned seen1 h1 /\ incl seen seen1 /\ (forall x, In x xs -> covered x seen1) /\
    (forall l, In l seen1 -> In l seen \/ exists x, In x xs /\ exists w, reach_but reserved h0 x w /\ at_loc w l) /\
    (forall l, In l seen1 -> ~ In l seen -> forall x, In x (kids l) -> covered x seen1).
  Hypothesis keys : forall l m, hget h0 l = Some (CObj m) -> NoDup (akeys m).
  Lemma clean_walk : forall n h seen v, cleaned seen h -> typed h0 v -> unseen seen < n ->
    exists seen1 h1, clean n h seen v = (h1, seen1) /\ walked [v] seen seen1 h1.
  Proof.
    induction n as [|n IH]; intros h seen v C T L; [lia|].
    assert (Each : forall xs h seen, cleaned seen h -> Forall (typed h0) xs -> unseen seen < n ->
      exists seen1 h1, fold_left (fun st x => clean n (fst st) (snd st) x) xs (h, seen) = (h1, seen1) /\ walked xs seen seen1 h1).
    { induction xs as [|x xs IHx]; intros g sn Cg Tx Lg.
      - exists sn, g. split; [reflexivity|]. split; auto. split; [apply incl_refl|]. split; [intros ? []|]. split; [auto|]. intros l A B. contradiction.
      - inversion Tx as [|? ? Tx1 Tx2]; subst. destruct (IH g sn x Cg Tx1 Lg) as (s1 & g1 & E1 & A1 & A2 & A3 & A4 & A5).
        destruct (IHx g1 s1 A1 Tx2) as (s2 & g2 & E2 & B1 & B2 & B3 & B4 & B5); [pose proof (unseen_incl _ _ A2); lia|].
        exists s2, g2. split; [cbn [fold_left fst snd]; rewrite E1; exact E2|]. split; auto. split; [eapply incl_tran; eauto|]. split.
        + intros y [<-|I] l Al; [apply B2; eapply A3; [left; reflexivity|exact Al]|eapply B3; eauto].
        + split.
          * intros l I. destruct (B4 l I) as [I1|(y & Iy & Y)]; [|right; exists y; split; [now right|exact Y]].
            destruct (A4 l I1) as [I2|(y & [<-|[]] & Y)]; [now left|right; exists x; split; [now left|exact Y]].
          * intros l I N y Iy k Ak. destruct (in_dec Nat.eq_dec l s1) as [I1|N1]; [apply B2; eapply A5; eauto|eapply B5; eauto]. }
    assert (Scalar : (forall l, ~ at_loc v l) -> clean (S n) h seen v = (h, seen) -> exists seen1 h1, clean (S n) h seen v = (h1, seen1) /\ walked [v] seen seen1 h1).
    { intros Ns E. exists seen, h. split; auto. split; auto. split; [apply incl_refl|]. split; [intros x [<-|[]] l Al; destruct (Ns l Al)|]. split; [auto|]. intros l A B. contradiction. }
    assert (Seen : forall l, at_loc v l -> In l seen -> walked [v] seen seen h).
    { intros l A I. split; auto. split; [apply incl_refl|]. split; [|split; [auto|intros; contradiction]].
      intros x [<-|[]] l' Al. replace l' with l; auto. destruct A as [->| ->], Al as [Al|Al]; congruence. }
    assert (Enter : forall l g, at_loc v l -> ~ In l seen -> hget h0 l <> None -> cleaned (l :: seen) g ->
      exists seen1 h1, fold_left (fun st x => clean n (fst st) (snd st) x) (kids l) (g, l :: seen) = (h1, seen1) /\ walked [v] seen seen1 h1).
    { intros l g A N G Cg.
      assert (Ll : l < length h0) by (unfold hget in G; now apply nth_error_Some in G).
      assert (U := unseen_new l seen Ll N).
      destruct (Each (kids l) g (l :: seen) Cg) as (s1 & g1 & E1 & A1 & A2 & A3 & A4 & A5).
      { apply Forall_forall. intros x I. eapply typed_kids; eauto. }
      { eapply Nat.lt_le_trans; [exact U|]. lia. }
      exists s1, g1. split; auto. split; auto. split; [intros y I; apply A2; now right|]. split; [|split].
      - intros x [<-|[]] l' Al. replace l' with l; [apply A2; now left|]. destruct A as [->| ->], Al as [Al|Al]; congruence.
      - intros l' I. destruct (A4 l' I) as [[<-|I1]|(x & Ix & w & Rw & Aw)]; [right; exists v; split; [now left|]; exists v; split; [constructor|exact A]|now left|].
        right. exists v. split; [now left|]. exists w. split; [|exact Aw]. unfold kids in Ix. destruct A as [->| ->].
        + destruct (T _ (reach_here _ _)) as (a & Ga). rewrite Ga in Ix. eapply RBArr; eauto.
        + destruct (T _ (reach_here _ _)) as (m & Gm). rewrite Gm in Ix. apply in_map_iff in Ix as ((k & y) & E & I0). cbn in E. subst y.
          eapply RBObj; [exact Gm|eapply adel_in; exact I0| |exact Rw]. intros ->.
          assert (Nd : NoDup (akeys m)) by (exact (keys l m Gm)).
          pose proof (aget_adel_eq reserved m Nd) as Z. apply aget_None_notin in Z. apply Z. apply (in_map fst) in I0. exact I0.
      - intros l' I N' x Ix. destruct (Nat.eq_dec l' l) as [->|Ne]; [now apply A3|]. apply (A5 l'); auto. intros [E|J]; auto. }
    destruct v as [|b|d|s|l|l|d].
    1-4,7: apply Scalar; [intros l [A|A]; discriminate|reflexivity].
    - cbn [clean]. destruct (inb l seen) eqn:B; [exists seen, h; split; auto; apply (Seen l); [now left|now apply inb_In]|].
      apply inb_notIn in B. destruct (T _ (reach_here _ _)) as (a & G). destruct C as [Cl Cg].
      assert (Gh : hget h l = Some (CArr a)) by (rewrite Cg, G; reflexivity). rewrite (proj2 (harr_hget _ _ _) Gh).
      destruct (Enter l h) as (s1 & g1 & E1 & W1); auto; [now left|congruence| |].
      { split; auto. intros l'. rewrite Cg. destruct (Nat.eq_dec l' l) as [->|Ne]; [now rewrite G|].
        destruct (hget h0 l') as [[a'|m']|]; auto. cbn [existsb]. apply Nat.eqb_neq in Ne. rewrite Ne. reflexivity. }
      exists s1, g1. split; auto. unfold kids in E1. rewrite G in E1. exact E1.
    - cbn [clean]. destruct (inb l seen) eqn:B; [exists seen, h; split; auto; apply (Seen l); [now right|now apply inb_In]|].
      destruct (T _ (reach_here _ _)) as (m & G). destruct C as [Cl Cg].
      assert (Gh : hget h l = Some (CObj m)) by (rewrite Cg, G, B; reflexivity). rewrite (proj2 (hobj_hget _ _ _) Gh).
      apply inb_notIn in B. assert (Lt : l < length h) by (eapply hget_lt; eauto).
      destruct (Enter l (hset h l (CObj (adel reserved m)))) as (s1 & g1 & E1 & W1); auto; [now right|congruence| |].
      { split; [now rewrite hset_length|]. intros l'. destruct (Nat.eq_dec l' l) as [->|Ne].
        - rewrite hget_hset_eq by auto. rewrite G. cbn [existsb]. rewrite Nat.eqb_refl. reflexivity.
        - rewrite hget_hset_ne by auto. rewrite Cg. destruct (hget h0 l') as [[a'|m']|]; auto. cbn [existsb]. apply Nat.eqb_neq in Ne. rewrite Ne. reflexivity. }
      exists s1, g1. split; auto. unfold kids in E1. rewrite G in E1. exact E1.
  Qed.

  Lemma clean_cells : forall v, typed h0 v -> let h1 := clean_value h0 v in
    length h1 = length h0 /\
    (forall l, (forall m, hget h0 l = Some (CObj m) -> ~ reach_but reserved h0 v (VObj l)) -> hget h1 l = hget h0 l) /\
    (forall l m, reach_but reserved h0 v (VObj l) -> hget h0 l = Some (CObj m) -> hget h1 l = Some (CObj (adel reserved m))).
  Proof.
    intros v T h1. unfold h1, clean_value.
    assert (U : unseen [] < S (length h0)).
    { unfold unseen. cbn [existsb negb]. assert (F : forall r : list nat, length (filter (fun _ => true) r) = length r) by (induction r; cbn; auto).
      rewrite F, seq_length. lia. }
    destruct (clean_walk (S (length h0)) h0 [] v) as (s1 & g1 & E & [C1 C2] & _ & A3 & A4 & A5); auto.
    { split; auto. intros l. destruct (hget h0 l) as [[a|m]|]; reflexivity. }
    rewrite E. cbn [fst].
    assert (All : forall x w, reach_but reserved h0 x w -> covered x s1 -> covered w s1).
    { intros x w R. induction R as [x|l a x w G I R IH|l m k x w G I Nk R IH]; intros Cx; auto.
      - apply IH. intros l' Al. eapply A5; [apply Cx; left; reflexivity|tauto| |exact Al]. unfold kids. rewrite G. exact I.
      - apply IH. intros l' Al. eapply A5; [apply Cx; right; reflexivity|tauto| |exact Al]. unfold kids. rewrite G.
        clear - I Nk. induction m as [|[k0 y] r IHm]; [destruct I|]. cbn [adel]. destruct (String.eqb_spec k0 reserved) as [->|N0].
        + destruct I as [I|I]; [congruence|]. now apply (in_map snd) in I.
        + destruct I as [I|I]; [injection I as -> ->; now left|right; auto]. }
    split; auto. split.
    - intros l N. rewrite C2. destruct (hget h0 l) as [[a|m]|] eqn:G; auto. destruct (inb l s1) eqn:B; auto. exfalso.
      apply inb_In in B. destruct (A4 l B) as [[]|(x & [<-|[]] & w & Rw & [->| ->])]; [|exact (N m eq_refl Rw)].
      assert (Rw' : reach h0 v (VArr l)) by (clear - Rw; induction Rw; [constructor|eapply reach_arr; eauto|eapply reach_obj; eauto]).
      destruct (T _ Rw') as (a & Ga). congruence.
    - intros l m R G. rewrite C2, G. assert (I : In l s1) by (apply (All v (VObj l) R); [apply A3; now left|right; reflexivity]).
      apply inb_In in I. now rewrite I.
  Qed.

  (** Nothing under the reserved name can be reached any more. *)
  Lemma clean_removes : forall v, typed h0 v -> forall l m, reach (clean_value h0 v) v (VObj l) -> hget (clean_value h0 v) l = Some (CObj m) -> aget reserved m = None.
  Proof.
    intros v T l m R G. pose proof (clean_cells v T) as CC. cbv zeta in CC. destruct CC as (_ & C1 & C2). set (h1 := clean_value h0 v) in *.
    assert (Bk : forall x w, reach h1 x w -> reach_but reserved h0 v x -> reach_but reserved h0 v w).
    { assert (Tr : forall x y z, reach_but reserved h0 x y -> reach_but reserved h0 y z -> reach_but reserved h0 x z).
      { intros x y z A. revert z. induction A; intros z B; auto; [eapply RBArr|eapply RBObj]; eauto. }
      assert (Rv : forall x, reach_but reserved h0 v x -> reach h0 v x).
      { intros x A. clear - A. induction A; [constructor|eapply reach_arr; eauto|eapply reach_obj; eauto]. }
      intros x w A. induction A as [x|l' a x w Ga I A IH|l' m' k x w Gm I A IH]; intros B; auto.
      - apply IH. destruct (T _ (Rv _ B)) as (a' & Ga'). rewrite C1 in Ga by (intros; congruence). eapply Tr; [exact B|]. eapply RBArr; [exact Ga|exact I|apply RBHere].
      - apply IH. destruct (T _ (Rv _ B)) as (m0 & G0). rewrite (C2 _ _ B G0) in Gm. injection Gm as <-. eapply Tr; [exact B|].
        eapply RBObj; [exact G0|eapply adel_in; exact I| |constructor]. intros ->.
        pose proof (aget_adel_eq reserved m0 (keys _ _ G0)) as Z. apply aget_None_notin in Z. apply Z. apply (in_map fst) in I. exact I. }
    assert (B := Bk _ _ R (RBHere _ _ _)).
    destruct (hget h0 l) as [[a|m0]|] eqn:G0.
    - rewrite C1 in G by (intros; congruence). congruence.
    - rewrite (C2 _ _ B G0) in G. injection G as <-. exact (aget_adel_eq reserved m0 (keys _ _ G0)).
    - rewrite C1 in G by (intros; congruence). congruence.
  Qed.

  (** On a value without a cycle: its tree without that key. *)
  Lemma repr_typed : forall v t, repr h0 v t -> typed h0 v.
  Proof.
    intros v t R w Rw. revert t R. induction Rw as [v|l a x w G I Rw IH|l m k x w G I Rw IH]; intros t R.
    - inversion R; subst; try exact Logic.I; eauto.
    - inversion R as [| | | |? a' ts G' F|? m' ts G' F|]; subst. rewrite G in G'. injection G' as <-.
      destruct (Forall2_in_l _ _ _ _ F I) as (t1 & _ & R1). exact (IH _ R1).
    - inversion R as [| | | |? a' ts G' F|? m' ts G' F|]; subst. rewrite G in G'. injection G' as <-.
      destruct (Forall2_in_l _ _ _ _ F I) as ((k1 & t1) & _ & _ & R1). exact (IH _ R1).
  Qed.
  Lemma clean_content : forall v t, repr h0 v t -> repr (clean_value h0 v) v (strip reserved t).
  Proof.
    intros v t R. pose proof (clean_cells v (repr_typed _ _ R)) as CC; cbv zeta in CC; destruct CC as (_ & C1 & C2). set (h1 := clean_value h0 v) in *. clearbody h1.
    assert (Sub : forall x t, repr h0 x t -> (forall w, reach_but reserved h0 x w -> reach_but reserved h0 v w) -> repr h1 x (strip reserved t)).
    { intros x t0 Rx. induction Rx as [|b|d|s|l a ts G F IH|l m ts G F IH|d] using repr_ind'; intros Up; try (constructor; fail).
      - eapply RArr; [rewrite C1; [exact G|intros; congruence]|]. change (Forall2 (repr h1) a (map (strip reserved) ts)).
        assert (Ua : forall y, In y a -> forall w, reach_but reserved h0 y w -> reach_but reserved h0 v w) by (intros; apply Up; eapply RBArr; eauto).
        clear - IH Ua. induction IH as [|y t1 a ts H IH IH2]; cbn [map]; constructor; [apply H; apply Ua; now left|apply IH2; intros z I; apply Ua; now right].
      - assert (N := keys _ _ G). eapply RObj; [apply C2; [apply Up; constructor|exact G]|]. cbn [strip].
        assert (Ua : forall k y, In (k, y) m -> k <> reserved -> forall w, reach_but reserved h0 y w -> reach_but reserved h0 v w) by (intros; apply Up; eapply RBObj; eauto).
        clear - IH Ua N. induction IH as [|[k y] [k1 t1] m ts [H1 H2] IH IH2]; cbn [adel]; [constructor|]. cbn [fst snd] in H1, H2. subst k1.
        inversion N as [|? ? Nk N']; subst. assert (Ua' : forall k y, In (k, y) m -> k <> reserved -> forall w, reach_but reserved h0 y w -> reach_but reserved h0 v w) by (intros; eapply Ua; eauto; now right).
        specialize (IH2 N' Ua'). destruct (String.eqb_spec k reserved) as [->|Ne].
        + rewrite adel_noop in IH2; [exact IH2|]. now apply aget_None_notin.
        + constructor; [|exact IH2]. split; [reflexivity|]. apply H2. apply (Ua k y); [now left|exact Ne]. }
    apply Sub; auto.
  Qed.
End Clean.
Lemma wf_typed : forall h v, wf_heap h -> wf_val h v -> typed h v.
Proof.
  intros h v W V w R. induction R as [v|l a x w G I R IH|l m k x w G I R IH].
  - destruct v; exact V.
  - apply IH. pose proof (W _ _ G) as F. cbn in F. rewrite Forall_forall in F. auto.
  - apply IH. pose proof (W _ _ G) as [_ F]. rewrite Forall_forall in F. exact (F _ I).
Qed.
Lemma wf_keys : forall h, wf_heap h -> forall l m, hget h l = Some (CObj m) -> NoDup (akeys m).
Proof. intros h W l m G. exact (proj1 (W _ _ G)). Qed.
