(** * C79: a search in a workspace finds what it should, marks it, and gives the best first
    [search L docs query limit] models [Workspace::search]; what is searched ([searched]), what the words of a query are ([words])
    and when a word stands in a text ([stands_in], [spelled_in]) is said in SearchSpec.v. *)
From Coq Require Import Ascii String List Bool Arith NArith Lia Permutation Sorted.
Import ListNotations.
From Verif Require Import Base Json Workspace Search SearchSpec SearchFacts SearchFacts2 SearchFacts3.
Local Open Scope string_scope.
Local Open Scope nat_scope.
Local Open Scope list_scope.

(** A query has words, one way; without a word nothing is found. *)
Theorem C79_empty : forall L docs q limit, Forall (fun c => lt_space L c = true) (list_ascii_of_string q) -> search L docs q limit = [].
Proof. intros L docs q limit F. unfold search. rewrite (tokens_words L q []); [reflexivity|]. now constructor. Qed.
Print Assumptions C79_empty.

Lemma in_search : forall L docs q ws limit h, words L (chars q) ws -> ws <> [] -> In h (search L docs q limit) -> In h (all_hits L docs (map (lower_case L) ws)).
Proof.
  intros L docs q ws limit h W N0 I. rewrite (search_words L docs ws N0 q limit W) in I.
  apply (Permutation_in _ (sort_perm (all_hits L docs (map (lower_case L) ws)))). rewrite <- (firstn_skipn (at_most limit)). apply in_or_app. now left.
Qed.
Lemma hit_words : forall L docs q ws limit h, words L (chars q) ws -> In h (search L docs q limit) -> ws <> [].
Proof. intros L docs q ws limit h W I ->. unfold search in I. rewrite (tokens_words L q [] W) in I. contradiction. Qed.

(** Every hit stands at a place that is searched, for a text there in which every word of the query is spelled. *)
Theorem C79_sound : forall L docs q ws limit h, words L (list_ascii_of_string q) ws -> In h (search L docs q limit) ->
  exists texts t, searched L docs (ht_path h) (ht_kind h) texts (ht_site h) /\ In t texts /\ Forall (spelled_in L (list_ascii_of_string t)) ws.
Proof.
  intros L docs q ws limit h W I. pose proof (hit_words _ _ _ _ _ _ W I) as N0. pose proof (words_full L _ _ W) as F.
  destruct (all_sound L docs ws F N0 h (in_search _ _ _ _ _ _ W N0 I)) as (c & t & A & B & C & _). eauto.
Qed.
Print Assumptions C79_sound.

(** The text of a hit is the text it stands for, with a mark that spells one of the words and starts no later than any of them
    stands; of a long text it is a run of 200
    characters, and a mark of at most 200 characters is wholly inside it, at the same letters. *)
Theorem C79_mark : forall L docs q ws limit h, words L (list_ascii_of_string q) ws -> In h (search L docs q limit) ->
  exists texts t w s e, searched L docs (ht_path h) (ht_kind h) texts (ht_site h) /\ In t texts /\ In w ws /\ spelled_by L (list_ascii_of_string t) w s e /\
    (forall v a b, In v ws -> lower_case L (list_ascii_of_string t) = a ++ lower_case L v ++ b -> s <= length a) /\
    let n := length (list_ascii_of_string t) in
    (n <= 200 -> ht_text h = t /\ ht_span h = (s, e)) /\
    (200 < n -> exists k, k + 200 <= n /\ list_ascii_of_string (ht_text h) = run k (k + 200) (list_ascii_of_string t) /\
       fst (ht_span h) <= snd (ht_span h) <= 200 /\ (e - s <= 200 -> k <= s /\ e <= k + 200 /\ ht_span h = (s - k, e - k))).
Proof.
  intros L docs q ws limit h W I. pose proof (hit_words _ _ _ _ _ _ W I) as N0. pose proof (words_full L _ _ W) as F.
  destruct (all_sound L docs ws F N0 h (in_search _ _ _ _ _ _ W N0 I)) as (c & t & A & B & _ & w & s & e & x & D & E & G & K & _).
  exists c, t, w, s, e. repeat (split; [assumption|]). split; [|exact G]. exact (score_first L ws t x (s, e) F K).
Qed.
Print Assumptions C79_mark.

(** A search that is not cut off finds every place with a text in which all the words stand. *)
Theorem C79_complete : forall L docs q ws limit p k texts s t, words L (list_ascii_of_string q) ws -> ws <> [] ->
  searched L docs p k texts s -> In t texts -> Forall (stands_in L (list_ascii_of_string t)) ws ->
  length (search L docs q limit) < at_most limit ->
  exists h, In h (search L docs q limit) /\ ht_path h = p /\ ht_kind h = k /\ ht_site h = s.
Proof.
  intros L docs q ws limit p k texts s t W N0 S0 I F LT. pose proof (words_full L _ _ W) as FU.
  destruct (all_complete L docs ws FU N0 p k texts s t S0 I F) as (h & J & K). exists h. split; [|exact K].
  rewrite (search_words L docs ws N0 q limit W) in *. rewrite firstn_length in LT. rewrite firstn_all2 by lia.
  apply (Permutation_in _ (Permutation_sym (sort_perm _))). exact J.
Qed.
Print Assumptions C79_complete.

(** A limit only cuts off the end: no limit is 50, none is above 500, and a smaller limit gives the first hits of a larger one. *)
Theorem C79_limit : forall L docs q,
  (forall limit, length (search L docs q limit) <= at_most limit) /\
  (forall a b, at_most a <= at_most b -> search L docs q a = firstn (at_most a) (search L docs q b)).
Proof.
  intros L docs q. destruct (words_exist L (chars q)) as [ws W]. destruct ws as [|w ws].
  - assert (E : forall limit, search L docs q limit = []) by (intros; unfold search; now rewrite (tokens_words L q [] W)).
    split; [intros; rewrite E; cbn; lia|]. intros a b _. rewrite !E. now rewrite firstn_nil.
  - assert (N0 : w :: ws <> []) by discriminate. split.
    + intros limit. rewrite (search_words L docs _ N0 q limit W). rewrite firstn_length. lia.
    + intros a b H. rewrite !(search_words L docs _ N0 q _ W). rewrite firstn_firstn. f_equal. lia.
Qed.
Print Assumptions C79_limit.

(** The best hit is first; hits of the same score are sorted by path, block, node, row and start of the mark. *)
Theorem C79_order : forall L docs q limit, StronglySorted not_after (search L docs q limit).
Proof. intros L docs q limit. unfold search. destruct (tokens L q); [constructor|]. apply sorted_firstn, sort_sorted. Qed.
Print Assumptions C79_order.

(** Neither the case of the query, nor the white space in it, nor the order in which the documents came matters. *)
Theorem C79_same : forall L docs docs0 q q0 ws ws0 limit, NoDup (map fst docs) -> Permutation docs docs0 ->
  words L (list_ascii_of_string q) ws -> words L (list_ascii_of_string q0) ws0 -> map (lower_case L) ws = map (lower_case L) ws0 ->
  search L docs q limit = search L docs0 q0 limit.
Proof.
  intros L docs docs0 q q0 ws ws0 limit N0 P W W0 E. unfold search. rewrite (tokens_words L q ws W), (tokens_words L q0 ws0 W0), E.
  destruct (map (lower_case L) ws0); [reflexivity|]. now rewrite (hits_perm L docs docs0 _ N0 P).
Qed.
Print Assumptions C79_same.

(** For a query of one word, of two hits of one kind: a text that is the word is before one that is not, and a text that begins
    with the word is before one that does not. (A text of fewer than 200 characters is shown whole.) *)
Definition is_word (L : letters) (w : list ascii) (t : string) : Prop := lower_case L (list_ascii_of_string t) = lower_case L w.
Definition begins (L : letters) (w : list ascii) (t : string) : Prop := exists b, lower_case L (list_ascii_of_string t) = lower_case L w ++ b.
Theorem C79_rank : forall L docs q w limit h g, words L (list_ascii_of_string q) [w] ->
  In h (search L docs q limit) -> In g (search L docs q limit) -> ht_kind h = ht_kind g ->
  String.length (ht_text h) < 200 -> String.length (ht_text g) < 200 ->
  (is_word L w (ht_text h) -> ~ is_word L w (ht_text g) -> (ht_score g < ht_score h)%N) /\
  (begins L w (ht_text h) -> ~ begins L w (ht_text g) -> (ht_score g < ht_score h)%N).
Proof.
  intros L docs q w limit h g W H G K HL GL. assert (N0 : [w] <> []) by discriminate. pose proof (words_full L _ _ W) as F.
  assert (X : forall i, In i (search L docs q limit) -> String.length (ht_text i) < 200 -> exists x sp, score L [lower_case L w] (ht_text i) = Some (x, sp) /\ ht_score i = (x * weight (ht_kind i) / 100)%N).
  { intros i I LI. destruct (all_sound L docs [w] F N0 i (in_search _ _ _ _ _ _ W N0 I)) as (c & t & _ & _ & _ & w0 & s & e & x & _ & _ & S0 & S1 & S2).
    destruct S0 as [S3 S4]. destruct (Nat.le_gt_cases (length (chars t)) 200) as [LT|LT].
    - destruct (S3 LT) as [-> _]. exists x, (s, e). auto.
    - exfalso. destruct (S4 LT) as (k & A & B & _). apply (f_equal (@length _)) in B. unfold run in B. rewrite firstn_length, skipn_length in B.
      assert (LN : forall z, length (chars z) = String.length z) by (unfold chars; induction z as [|zc z IZ]; cbn; congruence). rewrite LN in B. lia. }
  destruct (X h H HL) as (x & sx & A & B). destruct (X g G GL) as (y & sy & C & D). inversion F as [|? ? NW _]; subst.
  destruct (one_score L w _ x sx NW A) as (px & PX & CX). destruct (one_score L w _ y sy NW C) as (py & PY & CY). rewrite D, <- K.
  unfold is_word, begins. fold (chars (ht_text h)) (chars (ht_text g)). split; intros U V.
  - apply (rank_gap _ x); [now symmetry|]. destruct CX as [[_ ->]|[[(b & NB & E) _]|[E _]]].
    + destruct CY as [[E _]|[[_ ->]|[_ Z]]]; [contradiction|lia|lia].
    + exfalso. rewrite U in E. apply (f_equal (@length _)) in E. rewrite app_length in E. destruct b; [now apply NB|cbn in E; lia].
    + exfalso. apply (E []). now rewrite app_nil_r.
  - apply (rank_gap _ x); [now symmetry|]. assert (Z : (y <= 649)%N).
    { destruct CY as [[E _]|[[(b & _ & E) _]|[_ Z]]]; [exfalso; apply V; exists []; now rewrite app_nil_r|exfalso; eauto|exact Z]. }
    destruct CX as [[_ ->]|[[_ ->]|[E _]]]; [lia|lia|]. exfalso. destruct U as [b U]. exact (E b U).
Qed.
Print Assumptions C79_rank.

(** *** A workspace *)
Definition demo_letters : letters := Letters
  (fun c => let n := nat_of_ascii c in if (65 <=? n) && (n <=? 90) then ascii_of_nat (n + 32) else c)
  (fun c => let n := nat_of_ascii c in ((48 <=? n) && (n <=? 57)) || ((65 <=? n) && (n <=? 90)) || ((97 <=? n) && (n <=? 122)))
  (fun c => Ascii.eqb c " ").
Definition demo_docs : amap doc :=
  [("flows/flow.graph", GraphDoc [("n1", ("Discount Router", NSwitch [("s1", "customer.tier == 'gold'")]))]);
   ("pricing.policy", PolicyDoc
     [DIgnored (JObj [("type", JStr "paragraph"); ("id", JStr "b-intro"); ("content", JArr [JObj [("type", JStr "text"); ("text", JStr "Discounts apply to loyal ")]; JObj [("type", JStr "text"); ("text", JStr "customers only.")]])]);
      DTable "b-table" (Grid [Column "c-in" "Customer Tier" (Some "customer.tier")] [Column "c-out" "Discount Amount" (Some "order.discountAmount")]
        [[("_id", "r1"); ("c-in", "'gold'"); ("c-out", "42")]; [("_id", "r2"); ("c-in", "'silver'"); ("c-out", "10")]]);
      DDictionary "b-dict" "Tiers" [("e1", ("Gold Tier", "gold"))];
      DExpression "b-expr" "order.total" "order.discountAmount * 2"])].
Example C79_case :
  words demo_letters (chars " LOYAL customers") [chars "LOYAL"; chars "customers"] /\
  search demo_letters demo_docs " LOYAL customers" None =
    [Hit "pricing.policy" HParagraph (Site (Some "b-intro") None None None None None) "Discounts apply to loyal customers only." (19, 24) 1251] /\
  map (fun h => (ht_kind h, ht_text h, ht_score h)) (search demo_letters demo_docs "gold" None) =
    [(HDictionaryEntry, "gold", 1200%N); (HTableCell, "'gold'", 584%N); (HSwitchCondition, "customer.tier == 'gold'", 567%N)] /\
  map (fun h => (ht_kind h, st_column (ht_site h))) (search demo_letters demo_docs "discount amount" (Some 1)) = [(HTableColumn, Some "c-out")].
Proof.
  split; [|vm_compute; repeat split; reflexivity].
  apply (a_word demo_letters (chars " ") (chars "LOYAL") (chars " customers")); [repeat constructor|discriminate|repeat constructor|right; exists " "%char, (chars "customers"); split; reflexivity|].
  apply (a_word demo_letters (chars " ") (chars "customers") []); [repeat constructor|discriminate|repeat constructor|now left|]. constructor. constructor.
Qed.

(** What the code does not give. The letters of a word may stand close together, and the text is not found: the first letter is
    looked for from the start only. *)
Theorem C79_spelled_refuted : ~ forall L docs q ws limit p k texts s t, words L (list_ascii_of_string q) ws -> ws <> [] ->
  searched L docs p k texts s -> In t texts -> Forall (spelled_in L (list_ascii_of_string t)) ws ->
  length (search L docs q limit) < at_most limit ->
  exists h, In h (search L docs q limit) /\ ht_path h = p /\ ht_kind h = k /\ ht_site h = s.
Proof.
  intros H. destruct (H demo_letters [("x", PolicyDoc [DExpression "b" "k" "amount of tax.rate"])] "txr" [chars "txr"] None "x" HExpression ["amount of tax.rate"]
    (Site (Some "b") None None None None None) "amount of tax.rate") as (h & I & _).
  - apply (a_word demo_letters [] (chars "txr") []); [constructor|discriminate|repeat constructor|now left|]. constructor. constructor.
  - discriminate.
  - eapply at_policy; [reflexivity|now left|]. apply at_value.
  - now left.
  - constructor; [|constructor]. exists 10, 15. split; [lia|]. split; [vm_compute; lia|]. split; [vm_compute; lia|]. vm_compute. repeat constructor.
  - vm_compute. lia.
  - vm_compute in I. exact I.
Qed.
Print Assumptions C79_spelled_refuted.

(** The cells of a rule are in a hash map: two cells of one row with the same score come in the order of that map, and with a
    limit the order decides which of them is found. *)
Theorem C79_cells_refuted : ~ forall L p b g g0 q limit, gr_in g = gr_in g0 -> gr_out g = gr_out g0 -> Forall2 (@Permutation _) (gr_rules g) (gr_rules g0) ->
  Forall (fun r => NoDup (map fst r)) (gr_rules g) ->
  search L [(p, PolicyDoc [DTable b g])] q limit = search L [(p, PolicyDoc [DTable b g0])] q limit.
Proof.
  intros H. specialize (H demo_letters "x" "b" (Grid [] [] [[("c1", "tax"); ("c2", "tax")]]) (Grid [] [] [[("c2", "tax"); ("c1", "tax")]]) "tax" (Some 1) eq_refl eq_refl).
  assert (E : forall A B, A -> B -> (A -> B -> search demo_letters [("x", PolicyDoc [DTable "b" (Grid [] [] [[("c1", "tax"); ("c2", "tax")]])])] "tax" (Some 1) =
    search demo_letters [("x", PolicyDoc [DTable "b" (Grid [] [] [[("c2", "tax"); ("c1", "tax")]])])] "tax" (Some 1)) -> False).
  { intros A B a b0 X. specialize (X a b0). vm_compute in X. discriminate X. }
  refine (E _ _ _ _ H).
  - constructor; [apply perm_swap|constructor].
  - constructor; [|constructor]. cbn. constructor; [intros [X|[]]; discriminate X|]. constructor; [intros []|constructor].
Qed.
Print Assumptions C79_cells_refuted.
