(** * Proof helper: the derivations of a unit and the fragments made of them *)
From Coq Require Import Ascii String Bool List Arith Lia Permutation Sorted.
From Verif Require Import Base Value Ast Workspace WorkspaceMaps PreferMatch Repeat RepeatSpec.
Require Verif.SearchFacts3.
Import ListNotations.
Local Open Scope string_scope.
Local Open Scope nat_scope.
Local Open Scope list_scope.

Lemma op_derives : forall n, is_op n = true <-> derives n.
Proof.
  intros n. split.
  - destruct n as [| | | |l0| |items|items| | | | | | | | | | | | | |]; cbn; intros H; try discriminate; unfold derives;
      try (destruct items; [discriminate|]); eauto 20.
  - intros [(a & o & b & ->)|[(a & o & ->)|[(c & t & f & ->)|[(k & l & ->)|[(k & x & l & ->)|[(l & r & a & b & ->)|[(x & f & t & ->)|[(l & ->)|[(x & l & ->)|(x & l & ->)]]]]]]]]]; reflexivity.
Qed.
Lemma deriving_count : forall l k, deriving l k <-> k = length (filter is_op l).
Proof.
  intros l k. split.
  - induction 1 as [|n l k D _ IH|n l k D _ IH]; [reflexivity| |]; cbn [filter].
    + apply op_derives in D. rewrite D. cbn. now f_equal.
    + destruct (is_op n) eqn:E; [now apply op_derives in E|exact IH].
  - intros ->. induction l as [|n l IH]; [constructor|]. cbn [filter]. destruct (is_op n) eqn:E; cbn [length].
    + constructor; [now apply op_derives|exact IH].
    + constructor; [|exact IH]. intros D. apply op_derives in D. congruence.
Qed.

Lemma nodup_app : forall {A} (a b : list A), NoDup a -> NoDup b -> (forall p, In p a -> In p b -> False) -> NoDup (a ++ b).
Proof.
  intros A a b Na Nb. induction Na as [|p a P _ IH]; intros D; [exact Nb|]. cbn. constructor.
  - rewrite in_app_iff. intros [K|K]; [contradiction|]. apply (D p); [now left|exact K].
  - apply IH. intros q Q. apply D. now right.
Qed.
(** ** Lists with positions *)
Section Index.
  Context {A I B : Type}.
  Variable f : A -> list (I * B).
  Fixpoint idx (i : nat) (l : list A) : list ((nat * I) * B) :=
    match l with [] => [] | x :: r => map (fun jb => ((i, fst jb), snd jb)) (f x) ++ idx (S i) r end.
  Lemma idx_in : forall l i h j b, In ((h, j), b) (idx i l) <-> exists k x, h = i + k /\ nth_error l k = Some x /\ In (j, b) (f x).
  Proof.
    induction l as [|x l IH]; intros i h j b; cbn [idx].
    - split; [contradiction|]. intros (k & x & _ & H & _). now destruct k.
    - rewrite in_app_iff, in_map_iff, IH. split.
      + intros [([j0 b0] & E & H)|(k & y & E & N & H)].
        * cbn in E. injection E as <- <- <-. exists 0, x. repeat split; auto with arith.
        * exists (S k), y. repeat split; auto. lia.
      + intros ([|k] & y & E & N & H); cbn in N.
        * injection N as <-. left. exists (j, b). split; [cbn; repeat f_equal; lia|exact H].
        * right. exists k, y. repeat split; auto. lia.
  Qed.
  Lemma idx_nodup : forall l i, (forall x, In x l -> NoDup (map fst (f x))) -> NoDup (map fst (idx i l)).
  Proof.
    induction l as [|x l IH]; intros i H; cbn [idx]; [constructor|]. rewrite map_app, map_map. cbn [fst].
    assert (N : NoDup (map (fun y => (i, fst y)) (f x))).
    { rewrite <- (map_map fst (pair i)). apply FinFun.Injective_map_NoDup; [intros a b E; congruence|]. apply H. now left. }
    assert (N2 : NoDup (map fst (idx (S i) l))) by (apply IH; intros; apply H; now right).
    assert (D : forall p, In p (map (fun y => (i, fst y)) (f x)) -> In p (map fst (idx (S i) l)) -> False).
    { intros p P Q. apply in_map_iff in P as (y & <- & _). apply in_map_iff in Q as ([[h j] b] & E & Q). cbn in E. apply idx_in in Q as (k & z & K & _). injection E as E _. lia. }
    now apply nodup_app.
  Qed.
  Lemma idx_flat : forall {C} (g : A -> list C) (e : B -> list C) l i, (forall x, g x = flat_map (fun jb => e (snd jb)) (f x)) ->
    flat_map g l = flat_map (fun jb => e (snd jb)) (idx i l).
  Proof.
    intros C g e l i H. revert i. induction l as [|x l IH]; intros i; [reflexivity|]. cbn [idx flat_map]. rewrite flat_map_app, <- IH, H. f_equal.
    induction (f x) as [|y r IHr]; [reflexivity|]. cbn. now rewrite IHr.
  Qed.
End Index.

Section Facts.
  Variable space : ascii -> bool.
  Variable ast : string -> option node.
  Variable span_of : string -> nat -> option span.
  Variable members : list string.
  Variable parsed : string -> option (list rblock).
  Notation at_position := (at_position ast span_of members parsed).
  Notation text := (text space).
  Notation counted := (counted space ast span_of members parsed).

  Fixpoint found_d (source : string) (i : nat) (l : list node) : list (nat * (span * node)) :=
    match l with
    | [] => []
    | n :: r => (if is_op n then match span_of source i with Some p => [(i, (p, n))] | None => [] end else []) ++ found_d source (S i) r
    end.
  Lemma found_d_in : forall s l i h p n, In (h, (p, n)) (found_d s i l) <-> exists k, h = i + k /\ nth_error l k = Some n /\ is_op n = true /\ span_of s h = Some p.
  Proof.
    intros s l. induction l as [|m l IH]; intros i h p n; cbn [found_d].
    - split; [contradiction|]. intros (k & _ & H & _). now destruct k.
    - rewrite in_app_iff, IH. split.
      + intros [H|(k & E & N & O & S0)].
        * destruct (is_op m) eqn:O; [|contradiction]. destruct (span_of s i) as [q|] eqn:S0; [|contradiction]. destruct H as [E|[]]. injection E as <- <- <-.
          exists 0. repeat split; auto with arith.
        * exists (S k). repeat split; auto. lia.
      + intros ([|k] & E & N & O & S0); cbn in N.
        * injection N as <-. left. rewrite O. replace i with h by lia. rewrite S0. now left.
        * right. exists k. repeat split; auto. lia.
  Qed.
  Lemma found_d_nodup : forall s l i, NoDup (map fst (found_d s i l)).
  Proof.
    intros s l. induction l as [|m l IH]; intros i; cbn [found_d]; [constructor|]. destruct (is_op m); [|apply IH]. destruct (span_of s i); [|apply IH].
    cbn. constructor; [|apply IH]. intros H. apply in_map_iff in H as ([h [p n]] & E & H). cbn in E. apply found_d_in in H as (k & K & _). lia.
  Qed.
  Lemma found_d_flat : forall s l i, found_in span_of s i l = map (fun h => (fst (snd h), op_count (snd (snd h)))) (found_d s i l).
  Proof.
    intros s l. induction l as [|m l IH]; intros i; [reflexivity|]. cbn [found_d found_in]. rewrite map_app, <- IH. f_equal.
    destruct (is_op m); [|reflexivity]. now destruct (span_of s i).
  Qed.
  Definition loc_d (path block : string) (l : location) : list (nat * derivation) :=
    if lo_standard l then match ast (lo_source l) with
      | Some root => map (fun h => (fst h, Derivation (path, (block, lo_id l)) (fst (snd h)) (piece (lo_source l) (fst (snd h))) (snd (snd h)))) (found_d (lo_source l) 0 (visits root))
      | None => [] end
    else [].
  Definition blk_d (path : string) (b : rblock) : list ((nat * nat) * derivation) := if rb_table b then [] else idx (loc_d path (rb_id b)) 0 (rb_exprs b).
  Definition pol_d (path : string) : list ((nat * (nat * nat)) * derivation) := match parsed path with Some bs => idx (blk_d path) 0 bs | None => [] end.
  Definition all_d : list (position * derivation) := flat_map (fun path => map (fun jb => ((path, fst jb), snd jb)) (pol_d path)) (sort_paths members).

  Lemma all_d_in : forall q d, In (q, d) all_d <-> at_position q d.
  Proof.
    intros q d. unfold all_d. rewrite in_flat_map. split.
    - intros (path & M & H). apply (proj1 (sort_paths_in _ _)) in M. apply in_map_iff in H as ([[i [j h]] d0] & E & H). cbn in E. injection E as <- <-.
      unfold pol_d in H. destruct (parsed path) as [bs|] eqn:P; [|contradiction]. apply idx_in in H as (i0 & b & -> & B & H).
      unfold blk_d in H. destruct (rb_table b) eqn:T; [contradiction|]. apply idx_in in H as (j0 & l & -> & L & H). cbn [plus] in *.
      unfold loc_d in H. destruct (lo_standard l) eqn:S0; [|contradiction]. destruct (ast (lo_source l)) as [root|] eqn:R; [|contradiction].
      apply in_map_iff in H as ([h0 [p n]] & E & H). cbn in E. injection E as <- <-. apply found_d_in in H as (k & -> & N & O & Sp). cbn [plus] in *.
      econstructor; eauto. now apply op_derives.
    - intros H. destruct H as [path bs i b j l root h n p M P B T L S0 R N D Sp]. exists path. split; [now apply sort_paths_in|]. apply in_map_iff.
      exists ((i, (j, h)), Derivation (path, (rb_id b, lo_id l)) p (piece (lo_source l) p) n). split; [reflexivity|]. unfold pol_d. rewrite P. apply idx_in. exists i, b. repeat split; auto.
      unfold blk_d. rewrite T. apply idx_in. exists j, l. repeat split; auto. unfold loc_d. rewrite S0, R. apply in_map_iff. exists (h, (p, n)). split; [reflexivity|].
      apply found_d_in. exists h. apply op_derives in D. auto.
  Qed.
  Lemma pol_d_nodup : forall path, NoDup (map fst (pol_d path)).
  Proof.
    intros path. unfold pol_d. destruct (parsed path) as [bs|]; [|constructor]. apply idx_nodup. intros b _. unfold blk_d. destruct (rb_table b); [constructor|].
    apply idx_nodup. intros l _. unfold loc_d. destruct (lo_standard l); [|constructor]. destruct (ast (lo_source l)) as [root|]; [|constructor].
    rewrite map_map. cbn [fst]. apply (found_d_nodup (lo_source l) (visits root) 0).
  Qed.
  Lemma ordered_nodup : forall l, ordered l -> NoDup l.
  Proof.
    induction l as [|x l IH]; intros H; [constructor|]. destruct H as [H1 H2]. constructor; [|now apply IH]. intros I. rewrite Forall_forall in H1. apply H1 in I.
    rewrite (proj2 (ConvertFacts.str_eq x x) eq_refl) in I. discriminate.
  Qed.
  Lemma all_d_nodup : NoDup (map fst all_d).
  Proof.
    unfold all_d. pose proof (ordered_nodup _ (sort_paths_ordered members)) as N. induction N as [|x l X _ IH]; [constructor|]. cbn [flat_map]. rewrite map_app, map_map. cbn [fst].
    assert (N1 : NoDup (map (fun y => (x, fst y)) (pol_d x))) by (rewrite <- (map_map fst (pair x)); apply FinFun.Injective_map_NoDup; [intros a b E; congruence|apply pol_d_nodup]).
    assert (D : forall p, In p (map (fun y => (x, fst y)) (pol_d x)) -> In p (map fst (flat_map (fun path => map (fun jb => (path, fst jb, snd jb)) (pol_d path)) l)) -> False).
    { intros p P Q. apply in_map_iff in P as (y & <- & _). apply in_map_iff in Q as (z & E & Q). apply in_flat_map in Q as (w & W & Q). apply in_map_iff in Q as (v & <- & _). cbn in E. injection E as E _. subst w. contradiction. }
    apply nodup_app; [exact N1|exact IH|exact D].
  Qed.

  (** ** Events *)
  Definition shown (l : list ascii) : list ascii * bool := let out := squeeze space [] false l in if 60 <? length out then (firstn 59 out, true) else (out, false).
  Definition key (d : derivation) : string := string_of_list_ascii (text d).
  Definition ev_of (d : derivation) : event := Event (key d) (op_count (de_node d)) (shown (de_chars d)) (Occ (de_site d) (de_span d)).
  Definition long (d : derivation) : bool := negb (length (text d) <? 6).
  Definition cd : list (position * derivation) := filter (fun qd => long (snd qd)) all_d.
  Lemma key_len : forall l, String.length (string_of_list_ascii l) = length l.
  Proof. induction l as [|c l IH]; cbn; auto. Qed.
  Lemma events_cd : events space ast span_of members parsed = map (fun qd => ev_of (snd qd)) cd.
  Proof.
    set (e := fun d => if length (text d) <? 6 then [] else [ev_of d]).
    assert (H : events space ast span_of members parsed = flat_map (fun qd => e (snd qd)) all_d).
    { unfold events, all_d. induction (sort_paths members) as [|path l IH]; [reflexivity|]. cbn [flat_map]. etransitivity; [|symmetry; apply flat_map_app]. apply f_equal2; [clear IH|exact IH].
      transitivity (flat_map (fun jb => e (snd jb)) (pol_d path)).
      2:{ induction (pol_d path) as [|y r IHr]; [reflexivity|]. cbn. now rewrite IHr. }
      unfold pol_d. destruct (parsed path) as [bs|]; [|reflexivity]. apply idx_flat. intros b. unfold of_block, blk_d. destruct (rb_table b); [reflexivity|].
      apply idx_flat. intros lo. unfold of_location, loc_d, found. destruct (lo_standard lo); [|reflexivity]. destruct (ast (lo_source lo)) as [root|]; [|reflexivity].
      rewrite found_d_flat. induction (found_d (lo_source lo) 0 (visits root)) as [|[h [p n]] r IHr]; [reflexivity|]. cbn [map flat_map fst snd]. rewrite IHr. f_equal.
      unfold e, fingerprint. rewrite key_len. reflexivity. }
    rewrite H. clear H. unfold cd. induction all_d as [|qd r IHr]; [reflexivity|]. cbn [flat_map filter]. rewrite IHr. unfold e, long. destruct (length (text (snd qd)) <? 6); reflexivity.
  Qed.
  Lemma cd_in : forall q d, In (q, d) cd <-> counted q d.
  Proof. intros q d. unfold cd, RepeatSpec.counted. rewrite filter_In, all_d_in. unfold long. cbn [snd]. rewrite negb_true_iff, Nat.ltb_ge. reflexivity. Qed.
  Lemma cd_nodup : NoDup (map fst cd).
  Proof.
    unfold cd. pose proof all_d_nodup as N. induction all_d as [|x l IH]; [constructor|]. cbn in N. inversion N; subst. cbn [filter]. destruct (long (snd x)); [|now apply IH].
    cbn. constructor; [|now apply IH]. intros K. apply H1. apply in_map_iff in K as (y & E & K). apply filter_In in K as [K _]. apply in_map_iff. eauto.
  Qed.
  Lemma key_same : forall d e, key d = key e <-> same space d e.
  Proof. intros d e. unfold key, same. split; [|congruence]. intros H. apply (f_equal list_ascii_of_string) in H. now rewrite !list_ascii_of_string_of_list_ascii in H. Qed.
End Facts.

(** ** Fragments *)
Definition starting (e : event) : fragment := Frag (ev_ops e) (ev_display e) [] [].
Definition of_key (k : string) (evs : list event) : list event := filter (fun e => String.eqb k (ev_key e)) evs.
Definition grouped (evs : list event) (m : list (string * fragment)) : Prop :=
  NoDup (map fst m) /\ forall k f, In (k, f) m <-> exists e0 r, of_key k evs = e0 :: r /\ f = fold_left (fun f e => enter e f) (e0 :: r) (starting e0).
Lemma add_in : forall m e k f, NoDup (map fst m) ->
  (In (k, f) (add m e) <-> (k <> ev_key e /\ In (k, f) m) \/ (k = ev_key e /\ ((exists f0, In (k, f0) m /\ f = enter e f0) \/ ((forall f0, ~ In (k, f0) m) /\ f = enter e (starting e))))).
Proof.
  induction m as [|[k1 f1] m IH]; intros e k f N; cbn [add].
  - cbn. split.
    + intros [E|[]]. injection E as <- <-. right. split; [reflexivity|]. right. split; [auto|reflexivity].
    + intros [[_ []]|[-> [(f0 & [] & _)|[_ ->]]]]. now left.
  - cbn in N. inversion N as [|? ? N1 N2]; subst. destruct (String.eqb k1 (ev_key e)) eqn:E.
    + apply String.eqb_eq in E. subst k1. cbn [In]. split.
      * intros [X|X]; [injection X as <- <-; right; split; [reflexivity|]; left; exists f1; auto|]. destruct (string_dec k (ev_key e)) as [->|D].
        -- elim N1. apply in_map_iff. exists (ev_key e, f). auto.
        -- left. auto.
      * intros [[D [X|X]]|[-> [(f0 & [X|X] & ->)|[X _]]]].
        -- injection X as X _. congruence.
        -- auto.
        -- injection X as <-. now left.
        -- elim N1. apply in_map_iff. exists (ev_key e, f0). auto.
        -- elim (X f1). now left.
    + apply String.eqb_neq in E. cbn [In]. rewrite IH by exact N2. split.
      * intros [X|[[D X]|[-> [(f0 & X & ->)|[X ->]]]]].
        -- injection X as <- <-. left. auto.
        -- left. auto.
        -- right. split; [reflexivity|]. left. exists f0. auto.
        -- right. split; [reflexivity|]. right. split; [|reflexivity]. intros f0 [Y|Y]; [congruence|now apply (X f0)].
      * intros [[D [X|X]]|[-> [(f0 & [X|X] & ->)|[X ->]]]]; auto.
        -- congruence.
        -- right. right. split; [reflexivity|]. left. eauto.
        -- right. right. split; [reflexivity|]. right. split; [|reflexivity]. intros f0 Y. apply (X f0). now right.
Qed.
Lemma add_keys : forall m e k, In k (map fst (add m e)) <-> In k (map fst m) \/ k = ev_key e.
Proof.
  induction m as [|[k1 f1] m IH]; intros e k; cbn [add].
  - cbn. intuition.
  - destruct (String.eqb k1 (ev_key e)) eqn:E; cbn [map fst In]; [apply String.eqb_eq in E; subst; intuition|rewrite IH; intuition].
Qed.
Lemma add_nodup : forall m e, NoDup (map fst m) -> NoDup (map fst (add m e)).
Proof.
  induction m as [|[k1 f1] m IH]; intros e N; cbn [add]; [cbn; repeat constructor; auto|]. cbn in N. inversion N; subst. destruct (String.eqb k1 (ev_key e)) eqn:E; cbn; constructor; auto.
  rewrite add_keys. intros [K|K]; [contradiction|]. apply String.eqb_neq in E. congruence.
Qed.
Lemma grouped_fold : forall evs, grouped evs (fold_left add evs []).
Proof.
  intros evs. induction evs as [|e evs [N G]] using rev_ind.
  - split; [constructor|]. intros k f. split; [contradiction|]. intros (e0 & r & H & _). discriminate.
  - rewrite fold_left_app. cbn [fold_left]. split; [now apply add_nodup|]. intros k f. rewrite (add_in _ _ _ _ N). unfold of_key. rewrite filter_app. cbn [filter].
    destruct (String.eqb k (ev_key e)) eqn:E.
    + apply String.eqb_eq in E. split.
      * intros [[D _]|[_ [(f0 & I & ->)|[I ->]]]]; [congruence| |].
        -- apply G in I as (e0 & r & O & ->). exists e0, (r ++ [e]). fold (of_key k evs). rewrite O. split; [reflexivity|]. rewrite app_comm_cons, fold_left_app. reflexivity.
        -- fold (of_key k evs). destruct (of_key k evs) as [|e0 r] eqn:O.
           ++ exists e, []. split; reflexivity.
           ++ exfalso. apply (I (fold_left (fun f e => enter e f) (e0 :: r) (starting e0))). apply G. eauto.
      * intros (e0 & r & O & ->). right. split; [exact E|]. fold (of_key k evs) in O. destruct (of_key k evs) as [|e1 r1] eqn:O1.
        -- right. cbn in O. injection O as <- <-. split; [|reflexivity]. intros f0 I. apply G in I as (e0 & r & O & _). congruence.
        -- left. cbn [app] in O. injection O as <- <-. exists (fold_left (fun f e => enter e f) (e1 :: r1) (starting e1)). split; [apply G; eauto|].
           rewrite app_comm_cons, fold_left_app. reflexivity.
    + apply String.eqb_neq in E. rewrite app_nil_r. fold (of_key k evs). rewrite G. split.
      * intros [[_ I]|[K _]]; [exact I|congruence].
      * intros I. left. auto.
Qed.
Lemma enter_all : forall l f, let g := fold_left (fun f e => enter e f) l f in
  fr_ops g = fr_ops f /\ fr_display g = fr_display f /\ fr_occs g = fr_occs f ++ map ev_occ l.
Proof.
  induction l as [|e l IH]; intros f; cbn [fold_left map]; [rewrite app_nil_r; auto|]. destruct (IH (enter e f)) as (A & B & C). rewrite A, B, C. cbn.
  rewrite <- app_assoc. auto.
Qed.

(** ** The order *)
Lemma frag_then : forall a b, frag_cmp a b = Search.then_cmp (Nat.compare (fr_ops (snd b)) (fr_ops (snd a))) (Search.then_cmp (Nat.compare (String.length (fst b)) (String.length (fst a))) (String.compare (fst a) (fst b))).
Proof. intros a b. unfold frag_cmp, Search.then_cmp. repeat destruct (Nat.compare _ _); reflexivity. Qed.
Lemma good_flip : SearchFacts3.good_cmp (fun a b : nat => Nat.compare b a).
Proof. split; [intros; apply Nat.compare_antisym|]. intros x y z A B. rewrite Nat.compare_le_iff in *. lia. Qed.
Lemma good_frag : SearchFacts3.good_cmp frag_cmp.
Proof.
  assert (H : SearchFacts3.good_cmp (fun a b : string * fragment => Search.then_cmp (Nat.compare (fr_ops (snd b)) (fr_ops (snd a))) (Search.then_cmp (Nat.compare (String.length (fst b)) (String.length (fst a))) (String.compare (fst a) (fst b))))).
  { apply (SearchFacts3.good_then (fun a b : string * fragment => Nat.compare (fr_ops (snd b)) (fr_ops (snd a)))).
    - apply (SearchFacts3.good_by (fun a : string * fragment => fr_ops (snd a)) (fun a b => Nat.compare b a)), good_flip.
    - apply (SearchFacts3.good_then (fun a b : string * fragment => Nat.compare (String.length (fst b)) (String.length (fst a)))).
      + apply (SearchFacts3.good_by (fun a : string * fragment => String.length (fst a)) (fun a b => Nat.compare b a)), good_flip.
      + apply (SearchFacts3.good_by (fun a : string * fragment => fst a)), SearchFacts3.good_str. }
  destruct H as [S0 T]. split.
  - intros x y. rewrite !frag_then. apply S0.
  - intros x y z. rewrite !frag_then. apply T.
Qed.
Definition le_frag (a b : string * fragment) : Prop := frag_cmp a b <> Gt.
Lemma place_perm : forall x l, Permutation (place x l) (x :: l).
Proof. intros x l. induction l as [|y l IH]; [reflexivity|]. cbn. destruct (frag_cmp x y); try reflexivity. rewrite IH. apply perm_swap. Qed.
Lemma sort_perm : forall l, Permutation (sort_frags l) l.
Proof. induction l as [|x l IH]; [reflexivity|]. unfold sort_frags in *. cbn [fold_right]. rewrite place_perm. now constructor. Qed.
Lemma place_sorted : forall x l, StronglySorted le_frag l -> StronglySorted le_frag (place x l).
Proof.
  intros x l S0. induction S0 as [|y l S0 IH F]; [repeat constructor|]. cbn. destruct (frag_cmp x y) eqn:C.
  1,2: constructor; [now constructor|]; constructor; [unfold le_frag; congruence|]; rewrite Forall_forall in *; intros z Z; apply (proj2 good_frag x y z); [congruence|now apply F].
  constructor; [exact IH|]. rewrite Forall_forall in *. intros z Z. apply (Permutation_in _ (place_perm x l)) in Z as [Z|Z]; [|now apply F]. subst z.
  unfold le_frag. rewrite (proj1 good_frag x y), C. discriminate.
Qed.
Lemma sort_sorted : forall l, StronglySorted le_frag (sort_frags l).
Proof. induction l as [|x l IH]; [constructor|]. unfold sort_frags in *. cbn [fold_right]. now apply place_sorted. Qed.
Lemma le_anti : forall a b, le_frag a b -> le_frag b a -> fst a = fst b.
Proof.
  intros a b H K. unfold le_frag in *. rewrite (proj1 good_frag a b) in K. destruct (frag_cmp a b) eqn:E; [|elim K; reflexivity|elim H; reflexivity].
  rewrite frag_then in E. unfold Search.then_cmp in E. destruct (Nat.compare _ _); try discriminate. destruct (Nat.compare _ _); try discriminate. now apply ConvertFacts.str_eq.
Qed.
Lemma key_inj : forall (l : list (string * fragment)) a b, NoDup (map fst l) -> In a l -> In b l -> fst a = fst b -> a = b.
Proof.
  induction l as [|x l IH]; intros a b N A B E; [contradiction|]. cbn in N. inversion N; subst. destruct A as [A|A], B as [B|B]; subst; auto.
  - elim H1. rewrite E. now apply in_map.
  - elim H1. rewrite <- E. now apply in_map.
Qed.
Lemma sorted_eq : forall l m, NoDup (map fst l) -> Permutation l m -> StronglySorted le_frag l -> StronglySorted le_frag m -> l = m.
Proof.
  induction l as [|x l IH]; intros m N P S0 S1.
  - apply Permutation_nil in P. now subst.
  - destruct m as [|y m]; [apply Permutation_sym, Permutation_nil in P; discriminate|]. assert (E : x = y).
    { apply (key_inj (x :: l)); auto; [now left|apply (Permutation_in _ (Permutation_sym P)); now left|]. inversion S0; inversion S1; subst. rewrite Forall_forall in *.
      destruct (Permutation_in _ P (or_introl eq_refl)) as [X|X]; [now subst|]. destruct (Permutation_in _ (Permutation_sym P) (or_introl eq_refl)) as [Y|Y]; [now subst|]. apply le_anti; auto. }
    subst y. f_equal. apply IH.
    + cbn in N. now inversion N.
    + now apply Permutation_cons_inv in P.
    + now inversion S0.
    + now inversion S1.
Qed.
Lemma filter_perm : forall {A} (f : A -> bool) l m, Permutation l m -> Permutation (filter f l) (filter f m).
Proof.
  intros A f l m P. induction P as [|x l m P IH|x y l|l m n P IH Q IH2]; cbn; [constructor| | |eapply Permutation_trans; eassumption].
  - destruct (f x); [now constructor|exact IH].
  - destruct (f x), (f y); try reflexivity. apply perm_swap.
Qed.
Lemma filter_keys : forall (f : string * fragment -> bool) l, NoDup (map fst l) -> NoDup (map fst (filter f l)).
Proof.
  intros f l N. induction l as [|x l IH]; [constructor|]. cbn in N. inversion N; subst. cbn. destruct (f x); [|now apply IH]. cbn. constructor; [|now apply IH].
  intros K. apply H1. apply in_map_iff in K as (y & E & K). apply filter_In in K as [K _]. apply in_map_iff. eauto.
Qed.
Lemma sort_same : forall l m, NoDup (map fst l) -> Permutation l m -> sort_frags l = sort_frags m.
Proof.
  intros l m N P. apply sorted_eq; try apply sort_sorted.
  - apply (Permutation_NoDup (l := map fst l)); [|exact N]. apply Permutation_map, Permutation_sym, sort_perm.
  - rewrite (sort_perm l), P. apply Permutation_sym, sort_perm.
Qed.
