(** * Proof helper: the order of the hits, the limit and the rank of a hit *)
From Coq Require Import Ascii String List Bool Arith NArith ZArith Lia Permutation Sorted.
Import ListNotations.
From Verif Require Import Base Json Workspace WorkspaceMaps Search SearchSpec SearchFacts SearchFacts2.
Require Verif.ConvertFacts.
Local Open Scope nat_scope.
Local Open Scope list_scope.

(** ** Comparisons *)
Definition good_cmp {A} (f : A -> A -> comparison) : Prop :=
  (forall x y, f y x = CompOpp (f x y)) /\ (forall x y z, f x y <> Gt -> f y z <> Gt -> f x z <> Gt).
Lemma good_nat : good_cmp Nat.compare.
Proof. split; [intros; apply Nat.compare_antisym|]. intros x y z A B. rewrite Nat.compare_le_iff in *. lia. Qed.
Lemma good_score : good_cmp (fun a b : N => N.compare b a).
Proof. split; [intros; apply N.compare_antisym|]. intros x y z A B. rewrite N.compare_le_iff in *. lia. Qed.
Lemma good_str : good_cmp String.compare.
Proof.
  split; [intros; apply String.compare_antisym|]. intros x y z A B. destruct (String.compare x y) eqn:E; [|destruct (String.compare y z) eqn:F|]; try congruence.
  - apply String.compare_eq_iff in E. now subst.
  - apply String.compare_eq_iff in F. subst. congruence.
  - rewrite (ConvertFacts.str_lt_trans _ _ _ E F). discriminate.
Qed.
Lemma good_opt : forall {A} (f : A -> A -> comparison), good_cmp f -> good_cmp (opt_cmp f).
Proof.
  intros A f [S0 T]. split.
  - intros [x|] [y|]; cbn; auto.
  - intros [x|] [y|] [z|]; cbn; try congruence. apply T.
Qed.
Lemma good_by : forall {A B} (g : A -> B) f, good_cmp f -> good_cmp (fun x y => f (g x) (g y)).
Proof. intros A B g f [S0 T]. split; intros; [apply S0|eapply T; eassumption]. Qed.
Lemma good_then : forall {A} (f g : A -> A -> comparison), good_cmp f -> good_cmp g -> good_cmp (fun x y => then_cmp (f x y) (g x y)).
Proof.
  intros A f g [S0 T] [S1 T1]. split.
  - intros x y. rewrite S0. destruct (f x y); cbn; auto.
  - intros x y z A0 B0. assert (H : f x z <> Gt) by (apply (T x y z); [intros E; rewrite E in A0; now apply A0|intros E; rewrite E in B0; now apply B0]).
    destruct (f x z) eqn:E; cbn; [|discriminate|congruence].
    assert (E1 : f x y = Eq).
    { destruct (f x y) eqn:F; [reflexivity| |now elim A0]. exfalso. assert (G : f y x <> Gt); [|rewrite S0, F in G; now apply G].
      apply (T y z x); [intros G; rewrite G in B0; now apply B0|rewrite S0, E; discriminate]. }
    assert (E2 : f y z = Eq).
    { destruct (f y z) eqn:F; [reflexivity| |now elim B0]. exfalso. assert (G : f z y <> Gt); [|rewrite S0, F in G; now apply G].
      apply (T z x y); [rewrite S0, E; discriminate|rewrite E1; discriminate]. }
    rewrite E1 in A0. rewrite E2 in B0. cbn in A0, B0. eapply T1; eassumption.
Qed.
Lemma good_hit : good_cmp hit_cmp.
Proof.
  unfold hit_cmp. repeat apply good_then.
  - exact (good_by ht_score _ good_score).
  - exact (good_by ht_path _ good_str).
  - exact (good_by (fun h => st_block (ht_site h)) _ (good_opt _ good_str)).
  - exact (good_by (fun h => st_node (ht_site h)) _ (good_opt _ good_str)).
  - exact (good_by (fun h => st_row (ht_site h)) _ (good_opt _ good_nat)).
  - exact (good_by (fun h => fst (ht_span h)) _ good_nat).
Qed.
Lemma then_le : forall a b, then_cmp a b <> Gt <-> a = Lt \/ a = Eq /\ b <> Gt.
Proof. intros [] b; cbn; intuition congruence. Qed.
Lemma opt_lt : forall {A} (f : A -> A -> comparison) (lt : A -> A -> Prop), (forall x y, f x y = Lt <-> lt x y) -> forall a b, opt_cmp f a b = Lt <-> opt_less lt a b.
Proof. intros A f lt H [x|] [y|]; cbn; try apply H; intuition congruence. Qed.
Lemma opt_eq : forall {A} (f : A -> A -> comparison), (forall x y, f x y = Eq <-> x = y) -> forall a b, opt_cmp f a b = Eq <-> a = b.
Proof. intros A f H [x|] [y|]; cbn; try (intuition congruence). rewrite H. intuition congruence. Qed.
Lemma cmp_not_after : forall a b, hit_cmp a b <> Gt <-> not_after a b.
Proof.
  intros a b. unfold hit_cmp, not_after. rewrite !then_le. unfold str_less.
  rewrite N.compare_lt_iff, N.compare_eq_iff, !ConvertFacts.str_eq, !(opt_lt _ _ (fun x y => iff_refl (String.compare x y = Lt))), !(opt_eq _ ConvertFacts.str_eq),
    (opt_lt _ _ Nat.compare_lt_iff), (opt_eq _ Nat.compare_eq_iff), Nat.compare_le_iff. intuition.
Qed.

(** ** Sorting *)
Lemma place_perm : forall x l, Permutation (place x l) (x :: l).
Proof.
  intros x. induction l as [|y l IH]; [reflexivity|]. cbn [place]. destruct (hit_cmp x y); try reflexivity. rewrite IH. apply perm_swap.
Qed.
Lemma sort_perm : forall l, Permutation (sort_hits l) l.
Proof. induction l as [|x l IH]; [reflexivity|]. unfold sort_hits in *. cbn [fold_right]. rewrite place_perm. now constructor. Qed.
Lemma place_sorted : forall x l, StronglySorted not_after l -> StronglySorted not_after (place x l).
Proof.
  intros x. induction l as [|y l IH]; intros S0; cbn [place]; [repeat constructor|]. inversion S0 as [|? ? S1 F]; subst.
  destruct (hit_cmp x y) eqn:C.
  1,2: constructor; [exact S0|]; assert (A : hit_cmp x y <> Gt) by congruence; constructor; [now apply cmp_not_after|]; eapply Forall_impl; [|exact F]; intros z B; apply cmp_not_after in B; apply cmp_not_after; exact (proj2 good_hit _ _ _ A B).
  constructor; [now apply IH|]. rewrite place_perm. constructor; [|exact F]. apply cmp_not_after. rewrite (proj1 good_hit x y), C. discriminate.
Qed.
Lemma sort_sorted : forall l, StronglySorted not_after (sort_hits l).
Proof. induction l as [|x l IH]; [constructor|]. unfold sort_hits in *. cbn [fold_right]. now apply place_sorted. Qed.
Lemma sorted_firstn : forall {A} (R : A -> A -> Prop) n l, StronglySorted R l -> StronglySorted R (firstn n l).
Proof.
  intros A R. induction n as [|n IH]; intros [|x l] H; cbn [firstn]; try constructor; inversion H; subst; [now apply IH|].
  apply Forall_forall. intros y I. eapply Forall_forall; [eassumption|]. rewrite <- (firstn_skipn n l). apply in_or_app. now left.
Qed.
Lemma max_at_most : forall l, max_hits l = at_most l.
Proof. intros [l|]; unfold max_hits, at_most; [|reflexivity]. destruct (500 <=? l) eqn:E; [apply Nat.leb_le in E|apply Nat.leb_gt in E]; lia. Qed.

(** ** The order in which documents are stored *)
Lemma ordered_eq : forall a b, ordered a -> ordered b -> (forall p, In p a <-> In p b) -> a = b.
Proof.
  induction a as [|x a IH]; intros [|y b] A B E.
  - reflexivity.
  - exfalso. apply (E y). now left.
  - exfalso. apply (E x). now left.
  - cbn in A, B. destruct A as [A A0], B as [B B0]. rewrite Forall_forall in A, B.
    assert (NR : forall z, String.compare z z <> Lt) by (intros z; rewrite (proj2 (ConvertFacts.str_eq z z) eq_refl); discriminate).
    assert (X : x = y).
    { destruct (proj1 (E x) (or_introl eq_refl)) as [->|I]; [reflexivity|]. destruct (proj2 (E y) (or_introl eq_refl)) as [->|J]; [reflexivity|].
      exfalso. apply (NR x). exact (ConvertFacts.str_lt_trans _ _ _ (A _ J) (B _ I)). }
    subst y. f_equal. apply IH; [assumption|assumption|]. intros p. split; intros I.
    + destruct (proj1 (E p) (or_intror I)) as [<-|J]; [exfalso; exact (NR _ (A _ I))|exact J].
    + destruct (proj2 (E p) (or_intror I)) as [<-|J]; [exfalso; exact (NR _ (B _ I))|exact J].
Qed.
Lemma aget_perm : forall {V} (m n : amap V) k, NoDup (map fst m) -> Permutation m n -> aget k m = aget k n.
Proof.
  intros V m n k N0 P. assert (N1 : NoDup (map fst n)) by (eapply Permutation_NoDup; [apply Permutation_map; exact P|exact N0]).
  destruct (aget k m) as [v|] eqn:E.
  - apply aget_Some_in in E. symmetry. apply aget_in_nodup; [exact N1|]. eapply Permutation_in; eassumption.
  - destruct (aget k n) as [v|] eqn:F; [|reflexivity]. apply aget_Some_in in F. apply Permutation_sym in P.
    assert (X : aget k m = Some v) by (apply aget_in_nodup; [exact N0|]; eapply Permutation_in; eassumption). congruence.
Qed.
Lemma hits_perm : forall L docs docs0 ts, NoDup (map fst docs) -> Permutation docs docs0 -> all_hits L docs ts = all_hits L docs0 ts.
Proof.
  intros L docs docs0 ts N0 P. unfold all_hits. replace (sort_paths (map fst docs0)) with (sort_paths (map fst docs)).
  - apply flat_map_ext. intros q. now rewrite (aget_perm docs docs0 q N0 P).
  - apply ordered_eq; try apply sort_paths_ordered. intros p. rewrite !sort_paths_in. split; apply Permutation_in; apply Permutation_map; [exact P|now apply Permutation_sym].
Qed.

(** ** All hits *)
Section All.
  Variable L : letters.
  Variable docs : amap doc.
  Variable ws : list (list ascii).
  Hypothesis full : Forall (fun w => w <> []) ws.
  Hypothesis some : ws <> [].
  Lemma all_sound : forall h, In h (all_hits L docs (map (lower_case L) ws)) ->
    exists cands t, searched L docs (ht_path h) (ht_kind h) cands (ht_site h) /\ In t cands /\ good_text L ws h t.
  Proof.
    intros h I. unfold all_hits in I. apply in_flat_map in I as (q & _ & I). destruct (aget q docs) as [d|] eqn:G; [|contradiction].
    destruct (proj1 (exact_doc L ws full some q docs d G) h I) as (<- & c & t & A & B & C). eauto.
  Qed.
  Lemma key_in : forall p d, aget p docs = Some d -> In p (sort_paths (map fst docs)).
  Proof. intros p d G. apply sort_paths_in. apply aget_Some_in in G. apply in_map_iff. exists (p, d). auto. Qed.
  Lemma all_complete : forall p k cands s t, searched L docs p k cands s -> In t cands -> Forall (stands_in L (chars t)) ws ->
    exists h, In h (all_hits L docs (map (lower_case L) ws)) /\ ht_path h = p /\ ht_kind h = k /\ ht_site h = s.
  Proof.
    intros p k cands s t H I F. assert (G : exists d, aget p docs = Some d) by (destruct H; eauto). destruct G as [d G].
    destruct (proj2 (exact_doc L ws full some p docs d G) k cands s t H I F) as (h & J & K). exists h. split; [|exact K].
    unfold all_hits. apply in_flat_map. exists p. rewrite G. split; [exact (key_in _ _ G)|exact J].
  Qed.
  Lemma search_words : forall q limit, words L (chars q) ws -> search L docs q limit = firstn (at_most limit) (sort_hits (all_hits L docs (map (lower_case L) ws))).
  Proof.
    clear full. intros q limit W. unfold search. rewrite (tokens_words L q ws W), max_at_most. destruct ws; [now elim some|reflexivity].
  Qed.
End All.

(** ** The rank of a hit for one word *)
Lemma one_score : forall L w t x sp, w <> [] -> score L [lower_case L w] t = Some (x, sp) ->
  exists pen, (pen <= 40)%N /\
    ((lower_case L (chars t) = lower_case L w /\ x = (1000 - pen)%N) \/
     ((exists b, b <> [] /\ lower_case L (chars t) = lower_case L w ++ b) /\ x = (800 - pen)%N) \/
     ((forall b, lower_case L (chars t) <> lower_case L w ++ b) /\ (x <= 649)%N)).
Proof.
  intros L w t x sp N0 H. unfold score in H. destruct (chars t) as [|c0 r0] eqn:C; [discriminate|]. rewrite <- C in *. clear C c0 r0.
  change (low L) with (lower_case L) in H. cbn [score_all] in H. set (T := lower_case L (chars t)) in *. clearbody T.
  assert (N1 : lower_case L w <> []) by (destruct w; [now elim N0|discriminate]). set (W := lower_case L w) in *. clearbody W. clear N0 t w.
  exists (N.min (N.of_nat (length T) / 8) 40). split; [lia|]. set (pen := N.min (N.of_nat (length T) / 8) 40) in *. clearbody pen.
  destruct (score_token L T W) as [[y s]|] eqn:E; [|discriminate]. rewrite N.add_0_l in H. injection H as <- <-. unfold score_token in E.
  destruct (find_sub T W) as [k|] eqn:F.
  - match type of E with Some (?u, _) = Some (y, s) => assert (Y : u = y) by congruence end. clear E. subst y. assert (F1 : find_from 0 T W = Some k) by (unfold find_sub in F; destruct W; [discriminate|exact F]).
    destruct (find_some _ _ _ _ F1) as (a & b & E & ->). rewrite Nat.add_0_l in *. destruct a as [|c a].
    + cbn [length Nat.eqb andb]. cbn [app] in E. destruct (length W =? length T) eqn:LE.
      * left. apply Nat.eqb_eq in LE. rewrite E, app_length in LE. destruct b; [|cbn in LE; lia]. rewrite app_nil_r in E. auto.
      * right. left. split; [|reflexivity]. exists b. split; [|exact E]. intros ->. rewrite app_nil_r in E. subst T. now rewrite Nat.eqb_refl in LE.
    + right. right. split.
      * intros b0 E0. pose proof (find_first _ _ _ _ [] b0 F1 E0) as Z. cbn in Z. lia.
      * cbn [length Nat.eqb andb]. set (n := length a). destruct (negb _); lia.
  - right. right. split.
    + intros b E0. unfold find_sub in F. destruct W; [now elim N1|]. exact (find_none _ _ _ F [] b E0).
    + destruct (scan 0 T W None 0) as [[a b]|]; [|discriminate]. destruct (_ <? _); [discriminate|].
      match type of E with Some (?u, _) = Some (y, s) => assert (Y : u = y) by congruence end. rewrite <- Y. match goal with |- context [N.min ?a 100] => generalize a end. intros d. lia.
Qed.
Lemma rank_gap : forall k x y z, (x * weight k / 100 = z -> y + 100 <= x -> y * weight k / 100 < z)%N.
Proof.
  intros k x y z <- H. assert (W : (60 <= weight k)%N) by (destruct k; cbn; lia).
  pose proof (N.div_mod' (x * weight k) 100) as A. pose proof (N.mod_lt (x * weight k) 100 ltac:(lia)) as B.
  pose proof (N.div_mod' (y * weight k) 100) as C. pose proof (N.mod_lt (y * weight k) 100 ltac:(lia)) as D.
  assert (E : (y * weight k + 6000 <= x * weight k)%N) by nia. clear H W.
  set (u := (x * weight k)%N) in *. set (v := (y * weight k)%N) in *. clearbody u v. generalize dependent (u mod 100)%N. generalize dependent (v mod 100)%N. generalize (u / 100)%N (v / 100)%N. intros. lia.
Qed.
