(** * Proof helper: what the count of a hint counts, and the order of the hints *)
From Coq Require Import Ascii String Bool List Arith Lia Permutation Sorted.
From Verif Require Import Base Value Ast Workspace WorkspaceMaps PreferMatch Repeat RepeatSpec RepeatFacts RepeatFacts2.
Import ListNotations.
Local Open Scope string_scope.
Local Open Scope nat_scope.
Local Open Scope list_scope.

Lemma after_from : forall l cov c, In c (after cov l) -> In c cov \/ exists a k f b, l = a ++ (k, f) :: b /\ threshold (fr_ops f) <= length (live (after cov a) f) /\ In c (live (after cov a) f).
Proof.
  induction l as [|[k f] l IH]; intros cov c H; [now left|]. cbn [after fold_left] in H. apply IH in H as [H|(a & k0 & f0 & b & -> & T & H)].
  - unfold step in H. cbn [snd] in H. destruct (_ <? _) eqn:E; [now left|]. apply in_app_iff in H as [H|H]; [now left|]. right. exists [], k, f, l. apply Nat.ltb_ge in E. auto.
  - right. exists ((k, f) :: a), k0, f0, b. split; [reflexivity|]. auto.
Qed.
Lemma report_order : forall t l cov a b c h1 h2, report t cov l = a ++ h1 :: b ++ h2 :: c ->
  exists x y k1 f1 o1 n1 k2 f2 o2 n2, l = x ++ (k1, f1) :: y /\ In (k2, f2) ((k1, f1) :: y) /\ In o1 (fr_occs f1) /\ In o2 (fr_occs f2) /\ h1 = hint_of f1 n1 o1 /\ h2 = hint_of f2 n2 o2.
Proof.
  intros t l. induction l as [|[k f] l IH]; intros cov a b c h1 h2 E; cbn [report] in E; [now destruct a|].
  assert (Skip : forall cov a, report t cov l = a ++ h1 :: b ++ h2 :: c -> exists x y k1 f1 o1 n1 k2 f2 o2 n2, (k, f) :: l = x ++ (k1, f1) :: y /\ In (k2, f2) ((k1, f1) :: y) /\ In o1 (fr_occs f1) /\ In o2 (fr_occs f2) /\ h1 = hint_of f1 n1 o1 /\ h2 = hint_of f2 n2 o2).
  { intros cov0 a0 E0. apply IH in E0 as (x & y & k1 & f1 & o1 & n1 & k2 & f2 & o2 & n2 & -> & H). exists ((k, f) :: x), y, k1, f1, o1, n1, k2, f2, o2, n2. split; [reflexivity|exact H]. }
  destruct (_ <? _); [eapply Skip; eassumption|]. apply app_two in E as [[A B]|[[A B]|(a0 & E)]]; [| |eapply Skip; eassumption].
  - apply in_map_iff in A as (o1 & <- & A). apply in_map_iff in B as (o2 & <- & B). apply filter_In in A as [A _]. apply filter_In in B as [B _]. apply live_in in A as [A _]. apply live_in in B as [B _].
    exists [], l, k, f, o1, (length (live cov f)), k, f, o2, (length (live cov f)). repeat split; auto. now left.
  - apply in_map_iff in A as (o1 & <- & A). apply filter_In in A as [A _]. apply live_in in A as [A _]. apply report_in in B as (x & k0 & f0 & y & o2 & -> & _ & O & _ & ->). apply live_in in O as [O _].
    exists [], (x ++ (k0, f0) :: y), k, f, o1, (length (live cov f)), k0, f0, o2. eexists. split; [reflexivity|]. split; [right; apply in_app_iff; right; now left|]. repeat split; auto.
Qed.

Section Facts3.
  Variable space : ascii -> bool.
  Variable ast : string -> option node.
  Variable span_of : string -> nat -> option span.
  Variable members : list string.
  Variable parsed : string -> option (list rblock).
  Variable hash : list (string * fragment) -> list (string * fragment).
  Hypothesis shuffle : forall l, Permutation (hash l) l.
  Notation counted := (counted space ast span_of members parsed).
  Notation key := (key space).
  Notation chosen := (chosen space ast span_of members parsed hash).
  Notation mine := (mine space ast span_of members parsed).
  Notation check := (check space ast span_of hash members parsed).

  Lemma chosen_occs : forall k f a b, chosen = a ++ (k, f) :: b -> fr_occs f = map occ_of (mine k).
  Proof.
    intros k f a b E. assert (I : In (k, f) chosen) by (rewrite E; apply in_app_iff; right; now left). apply chosen_in in I as [I _]; [|exact shuffle]. now apply collect_in in I as (_ & _ & _ & _ & _ & _ & C).
  Qed.
  Lemma chosen_other : forall a1 k1 f1 a2 k2 f2 b, chosen = (a1 ++ (k1, f1) :: a2) ++ (k2, f2) :: b -> k1 <> k2.
  Proof.
    intros a1 k1 f1 a2 k2 f2 b E D. pose proof (chosen_keys space ast span_of members parsed hash shuffle) as N. rewrite E, map_app in N. cbn [map fst] in N. apply NoDup_remove_2 in N. apply N. apply in_app_iff. left.
    rewrite map_app. apply in_app_iff. right. left. exact D.
  Qed.
  Lemma hint_counts : forall t h, In h (check t) -> exists q d qs, counted q d /\ de_site d = hn_site h /\ de_span d = hn_span h /\ In q qs /\
    NoDup qs /\ length qs = hn_count h /\ (forall q1, In q1 qs -> exists e, counted q1 e /\ same space e d) /\
    forall q1 e, counted q1 e -> same space e d ->
      (In q1 qs -> exists h1, In h1 (check (fst (de_site e))) /\ hn_site h1 = de_site e /\ hn_span h1 = de_span e /\ message h1 = message h) /\
      (~ In q1 qs -> exists q2 g h2, counted q2 g /\ ~ same space g d /\ In h2 (check (fst (de_site g))) /\ hn_site h2 = de_site g /\ hn_span h2 = de_span g /\ lies_in (de_site e) (de_span e) (de_site g) (de_span g)).
  Proof.
    intros t h H. unfold Repeat.check in H. fold chosen in H. apply report_in in H as (a & k & f & b & o & E & T & O & P & ->). pose proof (chosen_occs _ _ _ _ E) as Hc.
    set (cov := after [] a) in *. set (ps := filter (fun qd => negb (existsb (fun c => covers c (occ_of qd)) cov)) (mine k)).
    assert (L : live cov f = map occ_of ps).
    { unfold live, ps. rewrite Hc. clear. induction (mine k) as [|x l IH]; [reflexivity|]. cbn [map filter]. destruct (negb _); cbn [map]; now rewrite IH. }
    rewrite L in O. apply in_map_iff in O as ([q d] & <- & Q). pose proof Q as Q0. apply filter_In in Q0 as [Q0 _]. apply mine_in in Q0 as [Cq Kq].
    exists q, d, (map fst ps). cbn [hint_of hn_site hn_span hn_count oc_site oc_span occ_of snd] in *. split; [exact Cq|]. split; [reflexivity|]. split; [reflexivity|]. split; [apply in_map_iff; exists (q, d); auto|].
    split; [|split; [now rewrite L, !map_length|split]].
    - unfold ps. pose proof (mine_nodup space ast span_of members parsed k) as N. clear - N. induction (mine k) as [|x l IH]; [constructor|]. cbn in N. inversion N; subst. cbn [filter]. destruct (negb _); [|now apply IH].
      cbn. constructor; [|now apply IH]. intros K. apply H1. apply in_map_iff in K as (y & E & K). apply filter_In in K as [K _]. apply in_map_iff. eauto.
    - intros q1 H. apply in_map_iff in H as ([q2 e] & <- & H). apply filter_In in H as [H _]. apply mine_in in H as [H K]. exists e. split; [exact H|]. apply key_same. congruence.
    - intros q1 e C1 S1. assert (M1 : In (q1, e) (mine k)) by (apply mine_in; split; [exact C1|]; apply key_same in S1; congruence). split.
      + intros I. apply in_map_iff in I as ([q2 e2] & Eq & I). cbn in Eq. subst q2. assert (e2 = e).
        { apply filter_In in I as [I _]. pose proof (mine_nodup space ast span_of members parsed k) as N. revert N I M1. clear. generalize (mine k). induction l as [|x l IH]; intros N I J; [contradiction|]. cbn in N. inversion N; subst. destruct I as [I|I], J as [J|J]; subst; auto; try congruence.
          - elim H1. apply in_map_iff. exists (q1, e). auto.
          - elim H1. apply in_map_iff. exists (q1, e2). auto. }
        subst e2. exists (hint_of f (length (live cov f)) (occ_of (q1, e))). split; [|auto]. unfold Repeat.check. fold chosen. apply report_in. exists a, k, f, b, (occ_of (q1, e)). fold cov. repeat split; auto.
        rewrite L. apply in_map_iff. exists (q1, e). auto.
      + intros Ni. destruct (existsb (fun c => covers c (occ_of (q1, e))) cov) eqn:X.
        2:{ elim Ni. apply in_map_iff. exists (q1, e). split; [reflexivity|]. apply filter_In. split; [exact M1|]. now rewrite X. }
        apply existsb_exists in X as (c & Ic & X). apply after_from in Ic as [[]|(a1 & k1 & f1 & b1 & Ea & T1 & I1)]. subst a. pose proof (chosen_other _ _ _ _ _ _ _ E) as D.
        assert (E1 : chosen = a1 ++ (k1, f1) :: (b1 ++ (k, f) :: b)) by (rewrite E, <- app_assoc; reflexivity). pose proof I1 as I2. apply live_in in I2 as [I2 _]. rewrite (chosen_occs _ _ _ _ E1) in I2. apply in_map_iff in I2 as ([q2 g] & Ec & I2).
        apply mine_in in I2 as [C2 K2]. exists q2, g, (hint_of f1 (length (live (after [] a1) f1)) c). split; [exact C2|]. split; [intros S2; apply key_same in S2; congruence|]. subst c. split; [|split; [reflexivity|split; [reflexivity|]]].
        * unfold Repeat.check. fold chosen. apply report_in. exists a1, k1, f1, (b1 ++ (k, f) :: b), (occ_of (q2, g)). repeat split; auto.
        * apply covers_in in X. exact X.
  Qed.
  Lemma hint_order : forall t a h1 b h2 c, check t = a ++ h1 :: b ++ h2 :: c -> exists q1 d1 e1 q2 d2 e2 n1 n2,
    counted q1 d1 /\ de_site d1 = hn_site h1 /\ de_span d1 = hn_span h1 /\ counted q2 d2 /\ de_site d2 = hn_site h2 /\ de_span d2 = hn_span h2 /\
    (exists p, counted p e1) /\ same space e1 d1 /\ size e1 n1 /\ (exists p, counted p e2) /\ same space e2 d2 /\ size e2 n2 /\
    (n2 < n1 \/ n1 = n2 /\ (length (text space d2) < length (text space d1) \/ length (text space d1) = length (text space d2) /\
      (same space d1 d2 \/ String.compare (string_of_list_ascii (text space d1)) (string_of_list_ascii (text space d2)) = Lt))).
  Proof.
    intros t a h1 b h2 c E. unfold Repeat.check in E. fold chosen in E. apply report_order in E as (x & y & k1 & f1 & o1 & m1 & k2 & f2 & o2 & m2 & E & I & O1 & O2 & -> & ->).
    assert (G : forall k f, In (k, f) chosen -> forall o, In o (fr_occs f) -> exists q d p0 d0, counted q d /\ o = occ_of (q, d) /\ key d = k /\ counted p0 d0 /\ same space d0 d /\ size d0 (fr_ops f)).
    { intros k f J o O. apply chosen_in in J as [J _]; [|exact shuffle]. apply collect_in in J as (q0 & d0 & r & M & Ho & _ & C). rewrite C in O. apply in_map_iff in O as ([q d] & <- & O). apply mine_in in O as [Cq Kq].
      assert (J : In (q0, d0) (mine k)) by (rewrite M; now left). apply mine_in in J as [C0 K0]. exists q, d, q0, d0. split; [exact Cq|]. split; [reflexivity|]. split; [exact Kq|]. split; [exact C0|]. split; [apply key_same; congruence|]. apply op_size. exact Ho. }
    assert (J1 : In (k1, f1) chosen) by (rewrite E; apply in_app_iff; right; now left). assert (J2 : In (k2, f2) chosen) by (rewrite E; apply in_app_iff; now right).
    destruct (G _ _ J1 _ O1) as (q1 & d1 & p1 & e1 & C1 & -> & K1 & Ce1 & S1 & N1). destruct (G _ _ J2 _ O2) as (q2 & d2 & p2 & e2 & C2 & -> & K2 & Ce2 & S2 & N2).
    exists q1, d1, e1, q2, d2, e2, (fr_ops f1), (fr_ops f2). split; [exact C1|]. split; [reflexivity|]. split; [reflexivity|]. split; [exact C2|]. split; [reflexivity|]. split; [reflexivity|].
    split; [eauto|]. split; [exact S1|]. split; [exact N1|]. split; [eauto|]. split; [exact S2|]. split; [exact N2|].
    destruct I as [I|I].
    - injection I as Ik If. right. subst. split; [reflexivity|]. assert (Sa : same space d1 d2) by (apply key_same; congruence). right. split; [unfold same in Sa; now rewrite Sa|now left].
    - apply in_split in I as (u & v & ->). pose proof (sorted_split _ _ _ _ _ _ (sort_sorted _) E) as Le. unfold le_frag in Le. rewrite frag_then in Le. cbn [fst snd] in Le. unfold Search.then_cmp in Le.
      destruct (Nat.compare_spec (fr_ops f2) (fr_ops f1)) as [Q|Q|Q]; [right; split; [now symmetry|]|left; exact Q|now elim Le].
      assert (Ln : forall d, String.length (key d) = length (text space d)) by (intros d; apply key_len). subst k1 k2. rewrite !Ln in Le.
      destruct (Nat.compare_spec (length (text space d2)) (length (text space d1))) as [Q1|Q1|Q1]; [right; split; [now symmetry|]|left; exact Q1|now elim Le]. fold (key d1) (key d2).
      destruct (String.compare (key d1) (key d2)) eqn:Q2; [left; apply key_same; now apply ConvertFacts.str_eq|now right|now elim Le].
  Qed.
End Facts3.
