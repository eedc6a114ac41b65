(** * Proof helper: which occurrences are reported *)
From Coq Require Import Ascii String Bool List Arith Lia Permutation Sorted.
From Verif Require Import Base Value Ast Workspace WorkspaceMaps PreferMatch Repeat RepeatSpec RepeatFacts.
Import ListNotations.
Local Open Scope string_scope.
Local Open Scope nat_scope.
Local Open Scope list_scope.

Lemma site_eqb_eq : forall a b, site_eqb a b = true <-> a = b.
Proof.
  intros [a [b c]] [x [y z]]. unfold site_eqb. cbn. rewrite !andb_true_iff, !String.eqb_eq. split; [intros (-> & -> & ->); reflexivity|]. intros E. injection E as -> -> ->. auto.
Qed.
Lemma covers_in : forall c o, covers c o = true <-> lies_in (oc_site o) (oc_span o) (oc_site c) (oc_span c).
Proof. intros c o. unfold covers, lies_in. rewrite !andb_true_iff, site_eqb_eq, !Nat.leb_le. intuition. Qed.
Lemma live_in : forall cov f o, In o (live cov f) <-> In o (fr_occs f) /\ forall c, In c cov -> covers c o = false.
Proof.
  intros cov f o. unfold live. rewrite filter_In, negb_true_iff. split; intros [A B]; split; auto.
  - intros c C. destruct (covers c o) eqn:E; [|reflexivity]. assert (X : existsb (fun c => covers c o) cov = true) by (apply existsb_exists; eauto). congruence.
  - destruct (existsb _ _) eqn:E; [|reflexivity]. apply existsb_exists in E as (c & C & E). rewrite (B c C) in E. discriminate.
Qed.
Definition step (cov : list occurrence) (kf : string * fragment) : list occurrence :=
  if length (live cov (snd kf)) <? threshold (fr_ops (snd kf)) then cov else cov ++ live cov (snd kf).
Definition after (cov : list occurrence) (l : list (string * fragment)) : list occurrence := fold_left step l cov.
Lemma report_in : forall t l cov h, In h (report t cov l) <-> exists a k f b o, l = a ++ (k, f) :: b /\ threshold (fr_ops f) <= length (live (after cov a) f) /\
  In o (live (after cov a) f) /\ fst (oc_site o) = t /\ h = hint_of f (length (live (after cov a) f)) o.
Proof.
  intros t l. induction l as [|[k f] l IH]; intros cov h.
  - split; [contradiction|]. intros (a & k & f & b & o & E & _). now destruct a.
  - cbn [report]. assert (R : forall cov', step cov (k, f) = cov' -> (In h (report t cov' l) <-> exists a k0 f0 b o, l = a ++ (k0, f0) :: b /\ threshold (fr_ops f0) <= length (live (after cov ((k, f) :: a)) f0) /\
      In o (live (after cov ((k, f) :: a)) f0) /\ fst (oc_site o) = t /\ h = hint_of f0 (length (live (after cov ((k, f) :: a)) f0)) o)).
    { intros cov' <-. rewrite IH. reflexivity. }
    unfold step in R. cbn [snd] in R. destruct (length (live cov f) <? threshold (fr_ops f)) eqn:L.
    + rewrite (R _ eq_refl). split.
      * intros (a & k0 & f0 & b & o & E & H). exists ((k, f) :: a), k0, f0, b, o. split; [cbn; now f_equal|exact H].
      * intros ([|x a] & k0 & f0 & b & o & E & H); cbn [app] in E.
        -- injection E as <- <- <-. destruct H as [H _]. cbn [after fold_left] in H. apply Nat.ltb_lt in L. lia.
        -- injection E as <- ->. exists a, k0, f0, b, o. split; [reflexivity|exact H].
    + rewrite in_app_iff, (R _ eq_refl), in_map_iff. split.
      * intros [(o & <- & O)|(a & k0 & f0 & b & o & E & H)].
        -- apply filter_In in O as [O P]. apply String.eqb_eq in P. exists [], k, f, l, o. apply Nat.ltb_ge in L. cbn [after fold_left]. auto.
        -- exists ((k, f) :: a), k0, f0, b, o. split; [cbn; now f_equal|exact H].
      * intros ([|x a] & k0 & f0 & b & o & E & H); cbn [app] in E.
        -- injection E as <- <- <-. cbn [after fold_left] in H. destruct H as (H1 & H2 & H3 & H4). left. exists o. split; [now symmetry|]. apply filter_In. split; [exact H2|]. now apply String.eqb_eq.
        -- injection E as <- ->. right. exists a, k0, f0, b, o. split; [reflexivity|exact H].
Qed.
Lemma after_in : forall l cov c, In c (after cov l) -> In c cov \/ exists kf, In kf l /\ In c (fr_occs (snd kf)).
Proof.
  induction l as [|kf l IH]; intros cov c H; [now left|]. cbn [after fold_left] in H. apply IH in H as [H|(x & X & H)].
  - unfold step in H. destruct (_ <? _); [now left|]. apply in_app_iff in H as [H|H]; [now left|]. right. exists kf. split; [now left|]. now apply live_in in H.
  - right. exists x. split; [now right|exact H].
Qed.
Lemma after_mono : forall l cov c, In c cov -> In c (after cov l).
Proof.
  induction l as [|kf l IH]; intros cov c H; [exact H|]. cbn. apply IH. unfold step. destruct (_ <? _); [exact H|]. apply in_app_iff. now left.
Qed.
Lemma app_two : forall {A} (x y a b c : list A) h1 h2, x ++ y = a ++ h1 :: b ++ h2 :: c -> (In h1 x /\ In h2 x) \/ (In h1 x /\ In h2 y) \/ (exists a0, y = a0 ++ h1 :: b ++ h2 :: c).
Proof.
  intros A x. induction x as [|z x IH]; intros y a b c h1 h2 E; [right; right; now exists a|]. destruct a as [|z0 a]; cbn in E.
  - injection E as -> E. assert (K : In h2 (x ++ y)) by (rewrite E; apply in_app_iff; right; now left). apply in_app_iff in K as [K|K]; [left|right; left]; split; cbn; auto.
  - injection E as -> E. apply IH in E as [[H K]|[[H K]|H]]; [left; split; now right|right; left; split; auto; now right|right; right; exact H].
Qed.
Definition message (h : hint) := (hn_display h, hn_count h, hn_policies h).
Lemma report_two : forall t l cov a b c h1 h2, report t cov l = a ++ h1 :: b ++ h2 :: c -> lies_in (hn_site h2) (hn_span h2) (hn_site h1) (hn_span h1) -> message h1 = message h2.
Proof.
  intros t l. induction l as [|[k f] l IH]; intros cov a b c h1 h2 E L; cbn [report] in E; [now destruct a|]. destruct (_ <? _); [eapply IH; eassumption|].
  apply app_two in E as [[A B]|[[A B]|(a0 & E)]]; [| |eapply IH; eassumption].
  - apply in_map_iff in A as (o & <- & _). apply in_map_iff in B as (u & <- & _). reflexivity.
  - exfalso. apply in_map_iff in A as (o & <- & A). apply filter_In in A as [A _]. apply report_in in B as (x & k0 & f0 & y & u & _ & _ & U & _ & ->). apply live_in in U as [_ U].
    specialize (U o). rewrite (proj2 (covers_in o u)) in U; [|exact L]. assert (X : true = false); [|discriminate]. apply U. apply after_mono. apply in_app_iff. now right.
Qed.

Lemma policies_all : forall l f, NoDup (fr_policies f) -> let g := fold_left (fun f e => enter e f) l f in
  NoDup (fr_policies g) /\ forall p, In p (fr_policies g) <-> In p (fr_policies f) \/ exists e, In e l /\ ev_policy e = p.
Proof.
  induction l as [|e l IH]; intros f N; cbn [fold_left].
  - split; [exact N|]. intros p. split; [now left|]. intros [H|(e & [] & _)]. exact H.
  - assert (A : NoDup (fr_policies (enter e f)) /\ forall p, In p (fr_policies (enter e f)) <-> In p (fr_policies f) \/ ev_policy e = p).
    { cbn. unfold add_policy. destruct (existsb _ _) eqn:E.
      - apply existsb_exists in E as (x & X & E). apply String.eqb_eq in E. subst x. split; [exact N|]. intros p. split; [now left|]. intros [H|<-]; auto.
      - split; [|intros p; rewrite in_app_iff; cbn; intuition]. apply nodup_app; [exact N|repeat constructor; auto|]. intros p P [<-|[]]. assert (X : existsb (String.eqb (ev_policy e)) (fr_policies f) = true); [|congruence].
        apply existsb_exists. exists (ev_policy e). split; [exact P|apply String.eqb_refl]. }
    destruct A as [A1 A2]. destruct (IH _ A1) as [B1 B2]. split; [exact B1|]. intros p. rewrite B2, A2. cbn [In]. split.
    + intros [[H|H]|(x & X & H)]; eauto 6.
    + intros [H|(x & [<-|X] & H)]; eauto 6.
Qed.

Section Facts2.
  Variable space : ascii -> bool.
  Variable ast : string -> option node.
  Variable span_of : string -> nat -> option span.
  Variable members : list string.
  Variable parsed : string -> option (list rblock).
  Variable hash : list (string * fragment) -> list (string * fragment).
  Hypothesis shuffle : forall l, Permutation (hash l) l.
  Notation counted := (counted space ast span_of members parsed).
  Notation copies := (copies space ast span_of members parsed).
  Notation cd := (cd space ast span_of members parsed).
  Notation key := (key space).
  Notation collect := (collect space ast span_of members parsed).

  Definition chosen : list (string * fragment) := sort_frags (filter (fun kf => threshold (fr_ops (snd kf)) <=? length (fr_occs (snd kf))) (hash collect)).
  Lemma collect_keys : NoDup (map fst collect). Proof. apply grouped_fold. Qed.
  Lemma chosen_perm : Permutation chosen (filter (fun kf => threshold (fr_ops (snd kf)) <=? length (fr_occs (snd kf))) collect).
  Proof. unfold chosen. rewrite sort_perm. apply filter_perm, shuffle. Qed.
  Lemma chosen_keys : NoDup (map fst chosen).
  Proof. apply (Permutation_NoDup (l := map fst (filter (fun kf => threshold (fr_ops (snd kf)) <=? length (fr_occs (snd kf))) collect))); [apply Permutation_map, Permutation_sym, chosen_perm|]. apply filter_keys, collect_keys. Qed.
  Definition mine (k : string) : list (position * derivation) := filter (fun qd => String.eqb k (key (snd qd))) cd.
  Definition occ_of (qd : position * derivation) : occurrence := Occ (de_site (snd qd)) (de_span (snd qd)).
  Lemma of_key_mine : forall k, of_key k (map (fun qd => ev_of space (snd qd)) cd) = map (fun qd => ev_of space (snd qd)) (mine k).
  Proof.
    intros k. unfold of_key, mine. induction cd as [|x l IH]; [reflexivity|]. cbn [map filter]. cbn [ev_of ev_key]. destruct (String.eqb k (key (snd x))); cbn [map]; now rewrite IH.
  Qed.
  Lemma mine_in : forall k q d, In (q, d) (mine k) <-> counted q d /\ key d = k.
  Proof. intros k q d. unfold mine. rewrite filter_In, cd_in. cbn [snd]. rewrite String.eqb_eq. intuition. Qed.
  Lemma mine_nodup : forall k, NoDup (map fst (mine k)).
  Proof.
    intros k. unfold mine. pose proof (cd_nodup space ast span_of members parsed) as N. induction cd as [|x l IH]; [constructor|]. cbn in N. inversion N; subst. cbn [filter].
    destruct (String.eqb k (key (snd x))); [|now apply IH]. cbn. constructor; [|now apply IH]. intros K. apply H1. apply in_map_iff in K as (y & E & K). apply filter_In in K as [K _]. apply in_map_iff. eauto.
  Qed.
  Lemma collect_in : forall k f, In (k, f) collect -> exists q0 d0 r, mine k = (q0, d0) :: r /\ fr_ops f = op_count (de_node d0) /\ fr_display f = shown space (de_chars d0) /\ fr_occs f = map occ_of (mine k).
  Proof.
    intros k f H. unfold Repeat.collect in H. rewrite events_cd in H. apply grouped_fold in H as (e0 & r & O & ->). rewrite of_key_mine in O.
    pose proof (enter_all (e0 :: r) (starting e0)) as (A & B & C). rewrite A, B, C. destruct (mine k) as [|[q0 d0] r0] eqn:M; [discriminate|]. cbn [map] in O. injection O as <- <-.
    exists q0, d0, r0. repeat split; auto. cbn. f_equal. rewrite map_map. reflexivity.
  Qed.
  Lemma collect_policies : forall k f, In (k, f) collect -> NoDup (fr_policies f) /\ forall p, In p (fr_policies f) <-> exists q e, counted q e /\ key e = k /\ fst (de_site e) = p.
  Proof.
    intros k f H. unfold Repeat.collect in H. rewrite events_cd in H. apply grouped_fold in H as (e0 & r & O & ->). rewrite of_key_mine in O. rewrite <- O.
    destruct (policies_all (map (fun qd => ev_of space (snd qd)) (mine k)) (starting e0) (NoDup_nil _)) as [N P]. split; [exact N|]. intros p. rewrite P. split.
    - intros [[]|(e & I & E)]. apply in_map_iff in I as ([q d] & <- & I). apply mine_in in I as [I K]. exists q, d. auto.
    - intros (q & e & C & K & E). right. exists (ev_of space e). split; [|exact E]. apply in_map_iff. exists (q, e). split; [reflexivity|]. apply mine_in. auto.
  Qed.
  Lemma collect_has : forall q d, counted q d -> exists f, In (key d, f) collect.
  Proof.
    intros q d C. unfold Repeat.collect. rewrite events_cd. assert (M : In (q, d) (mine (key d))) by (apply mine_in; auto). destruct (mine (key d)) as [|x r] eqn:E; [contradiction|].
    eexists. apply grouped_fold. rewrite of_key_mine, E. cbn [map]. eauto.
  Qed.
  Lemma chosen_in : forall k f, In (k, f) chosen <-> In (k, f) collect /\ threshold (fr_ops f) <= length (fr_occs f).
  Proof.
    intros k f. split.
    - intros H. apply (Permutation_in _ chosen_perm) in H. apply filter_In in H as [H T]. cbn in T. apply Nat.leb_le in T. auto.
    - intros [H T]. apply (Permutation_in _ (Permutation_sym chosen_perm)). apply filter_In. split; [exact H|]. now apply Nat.leb_le.
  Qed.
  Lemma thr_two : forall n, 2 <= threshold n. Proof. intros n. unfold threshold. destruct (3 <=? n); lia. Qed.
  Lemma op_size : forall d n, size d n <-> n = op_count (de_node d).
  Proof. intros d n. unfold size. apply deriving_count. Qed.

  (** *** Every hint *)
  Lemma hint_sound : forall t h, In h (check space ast span_of hash members parsed t) -> exists q d qs d0,
    counted q d /\ de_site d = hn_site h /\ de_span d = hn_span h /\ fst (hn_site h) = t /\
    copies d qs /\ In q qs /\ length qs = hn_count h /\ (exists q0, counted q0 d0 /\ same space d0 d) /\ hn_display h = shown space (de_chars d0) /\
    threshold (op_count (de_node d0)) <= hn_count h /\
    exists ps, NoDup ps /\ (forall p, In p ps <-> exists q1 e, counted q1 e /\ same space e d /\ fst (de_site e) = p) /\ hn_policies h = (if 1 <? length ps then Some (length ps) else None).
  Proof.
    intros t h H. unfold check in H. fold chosen in H. apply report_in in H as (a & k & f & b & o & E & T & O & P & ->).
    assert (I : In (k, f) collect) by (apply chosen_in; rewrite E; apply in_app_iff; right; now left). pose proof (collect_policies _ _ I) as [Np Hp]. apply collect_in in I as (q0 & d0 & r & M & Ho & Hd & Hc).
    set (cov := after [] a) in *. set (ps := filter (fun qd => negb (existsb (fun c => covers c (occ_of qd)) cov)) (mine k)).
    assert (L : live cov f = map occ_of ps).
    { unfold live, ps. rewrite Hc. clear. induction (mine k) as [|x l IH]; [reflexivity|]. cbn [map filter]. destruct (negb _); cbn [map]; now rewrite IH. }
    rewrite L in O. apply in_map_iff in O as ([q d] & <- & Q). pose proof Q as Q0. apply filter_In in Q0 as [Q0 _]. apply mine_in in Q0 as [Cq Kq].
    exists q, d, (map fst ps), d0. cbn [hint_of hn_site hn_span hn_count hn_display oc_site oc_span occ_of snd] in *. split; [exact Cq|]. split; [reflexivity|]. split; [reflexivity|]. split; [exact P|].
    assert (S0 : In (q0, d0) (mine k)) by (rewrite M; now left). apply mine_in in S0 as [C0 K0]. split; [split|].
    - unfold ps. pose proof (mine_nodup k) as N. clear - N. induction (mine k) as [|x l IH]; [constructor|]. cbn in N. inversion N; subst. cbn [filter]. destruct (negb _); [|now apply IH].
      cbn. constructor; [|now apply IH]. intros K. apply H1. apply in_map_iff in K as (y & E & K). apply filter_In in K as [K _]. apply in_map_iff. eauto.
    - intros q1 H. apply in_map_iff in H as ([q2 d2] & <- & H). apply filter_In in H as [H _]. apply mine_in in H as [C2 K2]. exists d2. split; [exact C2|]. apply key_same. congruence.
    - split; [apply in_map_iff; exists (q, d); auto|]. split; [rewrite L, !map_length; reflexivity|]. split; [exists q0; split; [exact C0|apply key_same; congruence]|]. split; [exact Hd|].
      split; [rewrite <- Ho; exact T|]. exists (fr_policies f). split; [exact Np|]. split; [|reflexivity]. intros p. rewrite Hp. split.
      + intros (q1 & e & C1 & K1 & E1). exists q1, e. split; [exact C1|]. split; [apply key_same; congruence|exact E1].
      + intros (q1 & e & C1 & K1 & E1). exists q1, e. split; [exact C1|]. split; [apply key_same in K1; congruence|exact E1].
  Qed.

  (** *** Every derivation that is repeated and does not lie in another *)
  Definition repeats (d : derivation) : Prop := exists q1 q2, q1 <> q2 /\ copies d [q1; q2].
  Lemma two_copies : forall k f, In (k, f) chosen -> forall qd, In qd (mine k) -> repeats (snd qd).
  Proof.
    intros k f H qd Q. apply chosen_in in H as [H T]. apply collect_in in H as (q0 & d0 & r & M & _ & _ & C). pose proof (thr_two (fr_ops f)) as T2. rewrite C, map_length in T.
    pose proof (mine_nodup k) as N. assert (A : forall x, In x (mine k) -> exists e, counted (fst x) e /\ same space e (snd qd)).
    { intros [x e] X. apply mine_in in X as [X K]. exists e. split; [exact X|]. destruct qd as [q d]. apply mine_in in Q as [_ Q]. apply key_same. cbn. congruence. }
    destruct (mine k) as [|x [|y l]]; cbn in T; [lia|lia|]. cbn in N. inversion N as [|? ? N1 N2]; subst. exists (fst x), (fst y). split; [intros E; apply N1; rewrite E; now left|]. split.
    - constructor; [|repeat constructor; auto]. intros [E|[]]. apply N1. rewrite E. now left.
    - intros q [<-|[<-|[]]]; apply A; cbn; auto.
  Qed.
  Lemma hint_complete : forall t q d qs,
    counted q d -> fst (de_site d) = t -> copies d qs ->
    (3 <= length qs \/ (2 <= length qs /\ forall q1 e n, counted q1 e -> same space e d -> size e n -> 3 <= n)) ->
    (forall q1 e q2 g, counted q1 e -> same space e d -> counted q2 g -> ~ same space g d -> repeats g -> ~ lies_in (de_site e) (de_span e) (de_site g) (de_span g)) ->
    exists h all, In h (check space ast span_of hash members parsed t) /\ hn_site h = de_site d /\ hn_span h = de_span d /\
      copies d all /\ (forall q1 e, counted q1 e -> same space e d -> In q1 all) /\ hn_count h = length all.
  Proof.
    intros t q d qs C P [Nq Aq] En Free. destruct (collect_has q d C) as (f & F). pose proof (collect_in _ _ F) as (q0 & d0 & r & M & Ho & Hd & Hc).
    assert (Len : length qs <= length (mine (key d))).
    { rewrite <- (map_length fst). apply NoDup_incl_length; [exact Nq|]. intros q1 H. apply Aq in H as (e & Ce & Se). apply in_map_iff. exists (q1, e). split; [reflexivity|]. apply mine_in. split; [exact Ce|]. now apply key_same. }
    assert (D0 : In (q0, d0) (mine (key d))) by (rewrite M; now left). apply mine_in in D0 as [C0 K0]. apply key_same in K0.
    assert (T : threshold (fr_ops f) <= length (fr_occs f)).
    { rewrite Hc, map_length. destruct En as [En|[En Big]]; [unfold threshold; destruct (3 <=? _); lia|]. pose proof (Big q0 d0 _ C0 K0 (proj2 (op_size d0 _) eq_refl)) as B.
      unfold threshold. rewrite Ho. apply Nat.leb_le in B. rewrite B. lia. }
    assert (I : In (key d, f) chosen) by (apply chosen_in; auto). apply in_split in I as (a & b & E).
    assert (L : live (after [] a) f = fr_occs f).
    { unfold live. rewrite Hc. assert (G : forall qd, In qd (mine (key d)) -> existsb (fun c => covers c (occ_of qd)) (after [] a) = false).
      { intros [q1 e] Q1. destruct (existsb _ _) eqn:X; [|reflexivity]. exfalso. apply existsb_exists in X as (c & X & Y). apply after_in in X as [[]|([k g] & G & X)]. cbn [snd] in X.
        assert (Ch : In (k, g) chosen) by (rewrite E; apply in_app_iff; now left). pose proof Ch as Ch0. apply chosen_in in Ch0 as [Ch0 _]. apply collect_in in Ch0 as (_ & _ & _ & _ & _ & _ & Hg). rewrite Hg in X.
        apply in_map_iff in X as ([q2 d2] & <- & X). apply mine_in in Q1 as [Q1 K1]. pose proof (two_copies _ _ Ch _ X) as R. cbn [snd] in R. apply mine_in in X as [X K2].
        apply covers_in in Y. cbn in Y. apply (Free q1 e q2 d2); auto; [now apply key_same|]. intros S0. apply key_same in S0.
        pose proof chosen_keys as N. rewrite E, map_app in N. cbn [map fst] in N. apply NoDup_remove_2 in N. apply N. apply in_app_iff. left. rewrite <- S0, K2. apply in_map_iff. exists (k, g). auto. }
      revert G. generalize (mine (key d)). induction l as [|x l IH]; intros G; [reflexivity|]. cbn [map filter]. rewrite (G x) by (now left). cbn [negb]. f_equal. apply IH. intros y Y. apply G. now right. }
    exists (hint_of f (length (fr_occs f)) (Occ (de_site d) (de_span d))), (map fst (mine (key d))). split; [|split; [reflexivity|split; [reflexivity|]]].
    - unfold check. fold chosen. apply report_in. exists a, (key d), f, b, (Occ (de_site d) (de_span d)). rewrite L. split; [exact E|]. split; [exact T|]. split; [|auto].
      rewrite Hc. apply in_map_iff. exists (q, d). split; [reflexivity|]. apply mine_in. auto.
    - split; [split; [apply mine_nodup|]|].
      + intros q1 H. apply in_map_iff in H as ([q2 e] & <- & H). apply mine_in in H as [H K]. exists e. split; [exact H|]. now apply key_same.
      + split; [|cbn; now rewrite Hc, !map_length]. intros q1 e Ce Se. apply in_map_iff. exists (q1, e). split; [reflexivity|]. apply mine_in. split; [exact Ce|]. now apply key_same.
  Qed.

  (** *** No hint lies in another *)
  Lemma sorted_split : forall (l a b c : list (string * fragment)) x y, StronglySorted le_frag l -> l = a ++ x :: b ++ y :: c -> le_frag x y.
  Proof.
    intros l a b c x y S0 ->. induction a as [|z a IH]; cbn in S0; inversion S0; subst; [|now apply IH]. rewrite Forall_forall in H2. apply H2. apply in_app_iff. right. now left.
  Qed.
  Lemma le_ops : forall x y, le_frag x y -> fr_ops (snd y) <= fr_ops (snd x).
  Proof. intros x y H. unfold le_frag in H. rewrite frag_then in H. unfold Search.then_cmp in H. destruct (Nat.compare_spec (fr_ops (snd y)) (fr_ops (snd x))); try lia. now elim H. Qed.
  Lemma hint_apart : forall t h1 h2,
    (forall q1 d1 q2 d2 n1 n2, counted q1 d1 -> counted q2 d2 -> size d1 n1 -> size d2 n2 -> same space d1 d2 -> n1 = n2) ->
    (forall q1 d1 q2 d2 n1 n2, counted q1 d1 -> counted q2 d2 -> size d1 n1 -> size d2 n2 -> lies_in (de_site d1) (de_span d1) (de_site d2) (de_span d2) -> ~ same space d1 d2 -> n1 < n2) ->
    In h1 (check space ast span_of hash members parsed t) -> In h2 (check space ast span_of hash members parsed t) ->
    lies_in (hn_site h2) (hn_span h2) (hn_site h1) (hn_span h1) -> message h1 = message h2.
  Proof.
    intros t h1 h2 One Less H1 H2 L. unfold check in *. fold chosen in *. apply report_in in H1 as (a1 & k1 & f1 & b1 & o1 & E1 & T1 & O1 & P1 & ->). apply report_in in H2 as (a2 & k2 & f2 & b2 & o2 & E2 & T2 & O2 & P2 & ->).
    cbn [hint_of hn_site hn_span] in L.
    assert (Sz : forall k f a b o, chosen = a ++ (k, f) :: b -> In o (fr_occs f) -> exists q d, counted q d /\ key d = k /\ o = occ_of (q, d) /\ fr_ops f = op_count (de_node d)).
    { intros k f a b o E O. assert (I : In (k, f) collect) by (apply chosen_in; rewrite E; apply in_app_iff; right; now left). apply collect_in in I as (q0 & d0 & r & M & Ho & _ & Hc).
      rewrite Hc in O. apply in_map_iff in O as ([q d] & <- & Q). apply mine_in in Q as [Q K]. exists q, d. split; [exact Q|]. split; [exact K|]. split; [reflexivity|]. rewrite Ho. assert (I0 : In (q0, d0) (mine k)) by (rewrite M; now left). apply mine_in in I0 as [C0 K0].
      apply (One q0 d0 q d); auto; try (now apply op_size). apply key_same. congruence. }
    destruct (Nat.lt_trichotomy (length a1) (length a2)) as [Lt|[Eq|Gt]].
    - exfalso. rewrite E1 in E2. assert (X : exists m, a2 = a1 ++ (k1, f1) :: m).
      { clear - E2 Lt. revert a2 E2 Lt. induction a1 as [|x a1 IH]; intros [|y a2] E Lt; cbn in *; try lia.
        - injection E as <- _. now exists a2.
        - injection E as <- E. apply IH in E as (m & ->); [|lia]. now exists m. }
      destruct X as (m & ->). apply live_in in O2 as [_ O2]. assert (K : covers o1 o2 = false).
      { apply O2. unfold after in *. rewrite fold_left_app. cbn [fold_left]. apply (after_mono m). unfold step at 1. cbn [snd]. destruct (_ <? _) eqn:X; [apply Nat.ltb_lt in X; lia|]. apply in_app_iff. now right. }
      apply covers_in in L. congruence.
    - rewrite E1 in E2. assert (X : a1 = a2 /\ (k1, f1) = (k2, f2)).
      { clear - E2 Eq. revert a2 E2 Eq. induction a1 as [|x a1 IH]; intros [|y a2] E Eq; cbn in *; try lia.
        - injection E as <- <- _. auto.
        - injection E as <- E. apply IH in E as (-> & E); [|lia]. auto. }
      destruct X as [-> X]. injection X as -> ->. reflexivity.
    - exfalso. apply live_in in O1 as [O1 _]. apply live_in in O2 as [O2 _]. destruct (Sz _ _ _ _ _ E1 O1) as (q1 & d1 & C1 & K1 & -> & S1). destruct (Sz _ _ _ _ _ E2 O2) as (q2 & d2 & C2 & K2 & -> & S2).
      assert (X : exists m, a1 = a2 ++ (k2, f2) :: m).
      { clear - E1 E2 Gt. rewrite E1 in E2. clear E1. revert a1 E2 Gt. induction a2 as [|x a2 IH]; intros [|y a1] E Lt; cbn in *; try lia.
        - injection E as -> _. now exists a1.
        - injection E as -> E. apply IH in E as (m & ->); [|lia]. now exists m. }
      destruct X as (m & ->). assert (D : k2 <> k1).
      { intros D. pose proof chosen_keys as N. rewrite E1, map_app in N. cbn [map fst] in N. apply NoDup_remove_2 in N. apply N. apply in_app_iff. left. rewrite map_app. apply in_app_iff. right. left. exact D. }
      assert (Le : le_frag (k2, f2) (k1, f1)).
      { apply (sorted_split chosen a2 m b1); [apply sort_sorted|]. rewrite E1, <- app_assoc. reflexivity. }
      apply le_ops in Le. cbn [snd] in Le. cbn [occ_of oc_site oc_span snd] in L.
      pose proof (Less q2 d2 q1 d1 _ _ C2 C1 (proj2 (op_size d2 _) eq_refl) (proj2 (op_size d1 _) eq_refl) L) as Q. assert (~ same space d2 d1) by (intros S0; apply key_same in S0; congruence). specialize (Q H). lia.
  Qed.
End Facts2.
Lemma check_same : forall space ast span_of ms1 ms2 parsed t hash1 hash2, (forall l, Permutation (hash1 l) l) -> (forall l, Permutation (hash2 l) l) -> (forall p, In p ms1 <-> In p ms2) ->
  check space ast span_of hash1 ms1 parsed t = check space ast span_of hash2 ms2 parsed t.
Proof.
  intros space ast span_of ms1 ms2 parsed t hash1 hash2 H1 H2 M. unfold check, collect, events. replace (sort_paths ms1) with (sort_paths ms2).
  2:{ apply SearchFacts3.ordered_eq; try apply sort_paths_ordered. intros p. rewrite !sort_paths_in. symmetry. apply M. }
  f_equal. apply sort_same.
  - apply filter_keys. apply (Permutation_NoDup (l := map fst (fold_left add (events space ast span_of ms2 parsed) []))); [apply Permutation_map, Permutation_sym, H1|]. apply grouped_fold.
  - apply filter_perm. rewrite H1. apply Permutation_sym, H2.
Qed.

(** ** The snippet *)
Section Snippet.
  Variable space : ascii -> bool.
  (** What follows a word; [p]: white space was seen. *)
  Fixpoint rest (p : bool) (l : list ascii) : list ascii :=
    match l with
    | [] => []
    | c :: r => if space c then rest true r else (if p then [" "%char; c] else [c]) ++ rest false r
    end.
  Fixpoint line (l : list ascii) : list ascii :=
    match l with [] => [] | c :: r => if space c then line r else c :: rest false r end.
  Lemma squeeze_rest : forall l out p, out <> [] -> squeeze space out p l = out ++ rest p l.
  Proof.
    induction l as [|c l IH]; intros out p N; cbn [squeeze rest]; [now rewrite app_nil_r|]. destruct (space c).
    - rewrite IH by exact N. destruct out; [now elim N|reflexivity].
    - rewrite IH by (destruct (if p then _ else _); discriminate). destruct p; rewrite <- !app_assoc; reflexivity.
  Qed.
  Lemma squeeze_line : forall l, squeeze space [] false l = line l.
  Proof. induction l as [|c l IH]; cbn [squeeze line]; [reflexivity|]. destruct (space c); [exact IH|]. now rewrite squeeze_rest. Qed.
  Lemma rest_line : forall l, rest true l = match line l with [] => [] | x => " "%char :: x end.
  Proof. induction l as [|c l IH]; cbn [rest line]; [reflexivity|]. destruct (space c); [exact IH|reflexivity]. Qed.
  Lemma rest_word : forall l, exists w r, l = w ++ r /\ Forall (fun c => space c = false) w /\
    ((r = [] /\ rest false l = w) \/ (exists c r0, r = c :: r0 /\ space c = true /\ rest false l = w ++ match line r0 with [] => [] | x => " "%char :: x end)).
  Proof.
    induction l as [|c l (w & r & -> & F & H)]; [exists [], []; auto|]. destruct (space c) eqn:E.
    - exists [], (c :: w ++ r). split; [reflexivity|]. split; [constructor|]. right. exists c, (w ++ r). split; [reflexivity|]. split; [exact E|]. cbn [rest]. rewrite E. apply rest_line.
    - exists (c :: w), r. split; [reflexivity|]. split; [now constructor|]. cbn [rest]. rewrite E. destruct H as [[-> H]|(x & r0 & -> & X & H)].
      + left. split; [reflexivity|]. cbn. now rewrite H.
      + right. exists x, r0. split; [reflexivity|]. split; [exact X|]. cbn. now rewrite H.
  Qed.
  Lemma line_nil : forall l, line l = [] -> Forall (fun c => space c = true) l.
  Proof. induction l as [|c l IH]; intros H; [constructor|]. cbn in H. destruct (space c) eqn:E; [|discriminate]. constructor; auto. Qed.
  Lemma line_spec : forall n l, length l <= n -> on_one_line space l (line l).
  Proof.
    induction n as [|n IH]; intros l L.
    - destruct l; [|cbn in L; lia]. apply no_word. constructor.
    - assert (S0 : exists s m, l = s ++ m /\ Forall (fun c => space c = true) s /\ line l = line m /\ length m <= length l /\ (m = [] \/ exists c r, m = c :: r /\ space c = false)).
      { clear L IH. induction l as [|c l (s & m & -> & F & Q & Le & H)]; [exists [], []; repeat split; auto|]. destruct (space c) eqn:E.
        - exists (c :: s), m. repeat split; auto; cbn [line app length]; [now rewrite E|lia].
        - exists [], (c :: s ++ m). repeat split; auto. right. eauto. }
      destruct S0 as (s & m & -> & F & Q & Le & H). rewrite Q. destruct H as [->|(c & r & -> & E)]; [rewrite app_nil_r; now apply no_word|].
      cbn [line]. rewrite E. destruct (rest_word r) as (w & r1 & -> & Fw & [[-> R]|(x & r0 & -> & X & R)]); rewrite R.
      + rewrite app_nil_r. replace (c :: w) with ((c :: w) ++ []) at 1 by apply app_nil_r. apply (last_word space s (c :: w) []); auto. discriminate.
      + destruct (line r0) as [|y l0] eqn:Y.
        * rewrite app_nil_r. apply (last_word space s (c :: w) (x :: r0)); auto; [discriminate|]. constructor; [exact X|]. now apply line_nil.
        * rewrite <- Y. apply (a_word space s (c :: w) x r0 (line r0)); auto; [discriminate|rewrite Y; discriminate|]. apply IH. rewrite app_length in L. cbn in L. rewrite app_length in L. cbn in L. lia.
  Qed.
End Snippet.
