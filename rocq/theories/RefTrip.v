(** The round trip. *)
From Coq Require Import String Ascii ZArith NArith Lia Bool List Arith Permutation.
From Verif Require Import Base Dec Value RefSer RefSpec TemplateSpec RefFacts RefDecode.
Import ListNotations.
Local Open Scope string_scope.
Local Open Scope list_scope.
Local Open Scope nat_scope.

Lemma counted_ok : forall h t v n, repr h v t -> depth t <= n -> exists occ, counted n h v = Some occ /\ length occ <= weight t.
Proof.
  intros h. induction t using tree_ind'; intros v n R L; inversion R; subst; cbn [depth] in L; (destruct n as [|n]; [lia|]); try (exists []; split; [reflexivity|cbn; lia]).
  - exists (if String.length s <? 5 then [] else [AStr s]). split; [reflexivity|]. destruct (String.length s <? 5); cbn; lia.
  - match goal with E : hget h ?lc = _, FF : Forall2 (repr h) ?vs a |- _ => rename E into Eg; rename FF into Fr; rename lc into lc0; rename vs into vs0 end. apply le_S_n in L.
    assert (G : exists occ, cnt_items h n vs0 = Some occ /\ length occ <= fold_right (fun x n => weight x + n) 0 a).
    { clear Eg R. revert H L. induction Fr as [|x y xs ys Rx F IH]; intros H L; [exists []; split; [reflexivity|cbn; lia]|]. inversion H as [|? ? Hy Hs]; subst. cbn [fold_right] in L. destruct (Hy x n Rx) as (o1 & E1 & L1); [lia|]. destruct (IH Hs) as (o2 & E2 & L2); [lia|].
      exists (o1 ++ o2). cbn [cnt_items]. rewrite E1, E2, app_length. split; [reflexivity|]. cbn [fold_right]. lia. }
    destruct G as (occ & E & Lo). exists (ALoc lc0 :: occ). rewrite (cnt_arr_eq h n lc0 vs0 Eg), E. split; [reflexivity|]. cbn. lia.
  - match goal with E : hget h ?lc = _, FF : Forall2 _ ?vs m |- _ => rename E into Eg; rename FF into Fr; rename lc into lc0; rename vs into vs0 end. apply le_S_n in L.
    assert (G : exists occ, cnt_entries h n vs0 = Some occ /\ length occ <= fold_right (fun e n => S (weight (snd e) + n)) 0 m).
    { clear Eg R. revert H L. induction Fr as [|[k x] y xs ys [Ek Rx] F IH]; intros H L; [exists []; split; [reflexivity|cbn; lia]|]. inversion H as [|? ? Hy Hs]; subst. cbn [fold_right] in L. destruct (Hy x n Rx) as (o1 & E1 & L1); [lia|]. destruct (IH Hs) as (o2 & E2 & L2); [lia|].
      exists (AStr k :: o1 ++ o2). cbn [cnt_entries]. rewrite E1, E2. split; [reflexivity|]. cbn [fold_right length]. rewrite app_length. lia. }
    destruct G as (occ & E & Lo). exists (ALoc lc0 :: occ). rewrite (cnt_obj_eq h n lc0 vs0 Eg), E. split; [reflexivity|]. cbn. lia.
Qed.
Lemma shared_facts : forall occ, NoDup (shared occ) /\ (forall a, In a (shared occ) -> In a occ) /\ length (shared occ) <= length occ.
Proof.
  intros occ. assert (N : NoDup (shared occ)) by (apply NoDup_filter, NoDup_nodup). assert (I0 : forall a, In a (shared occ) -> In a occ) by (intros a H; apply filter_In in H as [H _]; now apply nodup_In in H).
  split; [exact N|]. split; [exact I0|]. apply NoDup_incl_length; [exact N|exact I0].
Qed.
Lemma aget_perm : forall {A} (m c : amap A) k, Permutation m c -> NoDup (akeys c) -> aget k m = aget k c.
Proof.
  intros A m c k P N. assert (Nm : NoDup (akeys m)) by (eapply Permutation_NoDup; [apply Permutation_map, Permutation_sym, P|exact N]).
  destruct (aget k c) as [x|] eqn:E.
  - apply aget_Some_in in E. apply aget_in_nodup; [exact Nm|]. eapply Permutation_in; [apply Permutation_sym; exact P|exact E].
  - apply aget_None_notin. apply aget_None_notin in E. intros I0. apply E. eapply Permutation_in; [apply Permutation_map; exact P|exact I0].
Qed.
Lemma same_null : forall a b, same a b -> b = TNull -> a = TNull.
Proof. intros a b S0 ->. now inversion S0. Qed.

Theorem round_trip : forall dv order h v t n, (forall l, Permutation (order l) l) -> wf_heap h -> repr h v t -> plain_data t -> depth t <= n -> (N.of_nat (weight t) <= 2 ^ 64)%N ->
  exists doc, serialize dv order n h v = Some doc /\
  forall doc2 h0, same doc doc2 -> exists h1 v1 t1, deserialize doc2 h0 = (h1, Ok v1) /\ repr h1 v1 t1 /\ same t t1 /\ forall l c, hget h0 l = Some c -> hget h1 l = Some c.
Proof.
  intros dv order h v t n Po Wf R Pd L W. destruct (counted_ok h t v n R L) as (occ & Ec & Lo). destruct (shared_facts occ) as (Ns & Is & Ls). set (tbl := order (shared occ)).
  assert (Nt : NoDup tbl) by (eapply Permutation_NoDup; [apply Permutation_sym, Po|exact Ns]). assert (It : forall a, In a tbl -> In a occ) by (intros a I0; apply Is; eapply Permutation_in; [apply Po|exact I0]).
  assert (Lt : length tbl = length (shared occ)) by (apply Permutation_length, Po). assert (Bd : (N.of_nat (length tbl) <= 2 ^ 64)%N) by lia.
  assert (K0 : slots_ok tbl h (repeat TNull (length tbl))).
  { split; [apply repeat_length|]. intros i j E N0. apply nth_error_In in E. apply repeat_spec in E. congruence. }
  destruct (ser_ok dv tbl h Bd Wf t v n R Pd L _ K0) as (j & data & occ2 & Es & En & Kd & _ & Ec2 & Fd). rewrite Ec in Ec2. injection Ec2 as <-.
  unfold serialize. rewrite Ec. fold tbl. rewrite Es. eexists. split; [reflexivity|].
  assert (Full : forall i a, nth_error tbl i = Some a -> exists jx, nth_error data i = Some jx /\ body tbl h a jx).
  { intros i a Ei. pose proof (nth_idx tbl i a Nt Ei) as Ix. destruct (Fd a (It a (nth_error_In _ _ Ei)) i Ix) as (jx & Ej & Nj). destruct Kd as [_ Kd]. destruct (Kd i jx Ej Nj) as (b & Eb & Bb). rewrite Ei in Eb. injection Eb as <-. eauto. }
  assert (Ent : forall jx, In jx data -> exists a, body tbl h a jx).
  { intros jx I0. apply In_nth_error in I0 as (i & Ei). destruct Kd as [Ld Kd]. assert (Li : i < length tbl) by (rewrite <- Ld; apply nth_error_Some; congruence). destruct (nth_error tbl i) as [a|] eqn:Ea; [|apply nth_error_Some in Li; congruence].
    destruct (Full i a Ea) as (j2 & E2 & B2). rewrite Ei in E2. injection E2 as <-. eauto. }
  intros doc2 h0 S0. inversion S0 as [| | | | | |a b c Pm Fs]; subst.
  (* reading the root, once the table is there *)
  assert (Root : forall data2 vs h1 j2 base, Forall2 same data data2 -> Forall2 slot data2 vs -> same j j2 -> base <= length h1 -> Forall2 (slot_full (map Some vs) base h1) data2 vs -> (forall l, In l (locs_of vs) -> l < base) ->
    exists h2 v1 t1, deser (map Some vs) j2 h1 = (h2, Ok v1) /\ hext h1 h2 /\ repr h2 v1 t1 /\ same t t1).
  { intros data2 vs h1 j2 base Sd Sl Sj Lb Sf Lv. destruct (enc_reads tbl h data data2 vs base Wf Bd Full Sd Sl j v j2 En Sj h1 Lb) as (h2 & v1 & Ed & X & D).
    assert (Sf2 : Forall2 (slot_full (map Some vs) base h2) data2 vs).
    { clear -Sf X. revert Sf. generalize (map Some vs). intros refs Sf. induction Sf as [|jx vx d w Sx F IH]; [constructor|]. constructor; [|exact IH]. destruct jx, vx; try exact I; cbn [slot_full] in *; destruct Sx as (ys & Eg & Fy); exists ys.
      - split; [eapply hext_get; eauto|]. eapply decs_mono; [apply keeps_ext; exact X|exact Fy].
      - split; [eapply hext_get; eauto|]. eapply entries_mono; [apply keeps_ext; exact X|exact Fy]. }
    destruct (all_back tbl h data data2 vs base Bd Full Sd Sl h2 Sf2 t v j j2 v1 R En Sj D) as (t1 & R1 & S1). exists h2, v1, t1. auto. }
  assert (Nc : forall ks, akeys c = ks -> NoDup ks -> NoDup (akeys c)) by (now intros ks -> N0).
  cbn [deserialize]. destruct data as [|d0 data].
  - cbn [app] in Fs. inversion Fs as [|x [k1 j2] ? c2 [Ek Sj] Fs2]; subst. inversion Fs2; subst. cbn [fst snd] in Ek, Sj. subst k1. rewrite !(aget_perm b [("$root", j2)]) by (exact Pm || (repeat constructor; cbn; tauto)). cbn [aget String.eqb Ascii.eqb Bool.eqb].
    destruct (Root [] [] h0 j2 (length h0)) as (h2 & v1 & t1 & Ed & X & R1 & S1); [constructor|constructor|exact Sj|lia|constructor|intros l []|].
    exists h2, v1, t1. cbn [map] in Ed. rewrite Ed. split; [reflexivity|]. split; [exact R1|]. split; [exact S1|]. intros l c E. eapply hext_get; eauto.
  - cbn [app] in Fs. inversion Fs as [|x [k0 jr] ? c1 [Ek0 Sr] Fs1]; subst. inversion Fs1 as [|y [k1 j2] ? c2 [Ek Sj] Fs2]; subst. inversion Fs2; subst. cbn [fst snd] in Ek, Sj, Ek0, Sr. subst k0 k1. inversion Sr as [| | | | |? data2 Sd|]; subst.
    assert (Nr : NoDup (akeys [("$refs", TArr data2); ("$root", j2)])) by (repeat constructor; cbn; intuition discriminate). rewrite !(aget_perm b _ _ Pm Nr). cbn [aget String.eqb Ascii.eqb Bool.eqb].
    assert (El : Forall entry_like data2).
    { apply Forall_forall. intros j3 I3. assert (exists j1, In j1 (d0 :: data) /\ same j1 j3).
      { clear -Sd I3. induction Sd as [|p q ps qs Sp F IH]; [destruct I3|]. destruct I3 as [<-|I3]; [exists p; split; [now left|exact Sp]|]. destruct (IH I3) as (j1 & I1 & S1). exists j1. split; [now right|exact S1]. }
      destruct H as (j1 & I1 & S1). destruct (Ent j1 I1) as ([s|l] & B); cbn in B; [subst j1; inversion S1; subst; cbn; apply parse_escape|]. destruct B as [(a & js & _ & _ & ->)|(a & js & _ & _ & ->)]; inversion S1; subst; exact I. }
    destruct (pass1_ok data2 [] h0 El) as (h1 & vs & E1 & X1 & Sl & Nl & Bl). rewrite E1. cbn [app].
    assert (Sr2 : Forall (slot_reads (map Some vs) (length h1)) data2).
    { apply Forall_forall. intros j3 I3. assert (exists j1, In j1 (d0 :: data) /\ same j1 j3).
      { clear -Sd I3. induction Sd as [|p q ps qs Sp F IH]; [destruct I3|]. destruct I3 as [<-|I3]; [exists p; split; [now left|exact Sp]|]. destruct (IH I3) as (j1 & I1 & S1). exists j1. split; [now right|exact S1]. }
      destruct H as (j1 & I1 & S1). destruct (Ent j1 I1) as (a & B). eapply (body_reads tbl h (d0 :: data) data2 vs (length h1) Wf Bd Full Sd Sl); eauto. }
    destruct (pass2_ok (map Some vs) (length h1) data2 vs h1 Sl Sr2 Nl) as (h2 & E2 & L2 & K2 & F2); [intros l I0; apply Bl in I0; lia|lia|]. rewrite E2.
    destruct (Root data2 vs h2 j2 (length h1) Sd Sl Sj L2 F2) as (h3 & v1 & t1 & Ed & X & R1 & S1); [intros l I0; apply Bl in I0; lia|].
    exists h3, v1, t1. rewrite Ed. split; [reflexivity|]. split; [exact R1|]. split; [exact S1|]. intros l c E. eapply hext_get; [exact X|]. apply K2; [intros I0; apply Bl in I0; apply hget_lt in E; lia|]. eapply hext_get; eauto.
Qed.
