(** C80: the hint that the same derivation is written several times. The specification is RepeatSpec.v. *)
From Coq Require Import Ascii String Bool List Arith ZArith Lia Permutation.
From Verif Require Import Base Dec Value Ast Lexer Parser Print Samples PropSyntax PropGrammar PreferMatch Repeat RepeatSpec RepeatFacts RepeatFacts2 RepeatFacts3.
Import ListNotations.
Local Open Scope string_scope.
Local Open Scope nat_scope.
Local Open Scope list_scope.

(** ** A unit to look at
    [Policy a] writes [price * qty - rebate * 2] twice and [price * qty] a third time; [policy b] writes [price * qty] once more. *)
Definition is_blank (c : ascii) : bool := existsb (Ascii.eqb c) [" "%char; "009"%char; "010"%char; "013"%char].
Definition tree (s : string) : option node := match parse_source read_num FStandard s with Some (Ok n) => Some n | _ => None end.
Definition long_text : string := "price * qty - rebate * 2".
(** The nodes of the tree of [long_text] in the order of the walk: the difference, the product, its names, the other product, its parts. *)
Definition spans (s : string) (i : nat) : option span :=
  if String.eqb s long_text then nth_error [(0, 24); (0, 11); (0, 5); (8, 11); (14, 24); (14, 20); (23, 24)] i
  else if String.eqb s "price*qty" then nth_error [(0, 9); (0, 5); (6, 9)] i
  else if String.eqb s "upper('a b')" then nth_error [(0, 12); (6, 11)] i
  else if String.eqb s "upper('ab')" then nth_error [(0, 11); (6, 10)] i
  else None.
Definition block (id : string) (l : list (string * string)) : rblock := RBlock id false (map (fun e => Location (fst e) true (snd e)) l).
Definition unit_docs (p : string) : option (list rblock) :=
  if String.eqb p "a" then Some [block "one" [("x", long_text); ("y", long_text)]; block "two" [("z", "price*qty")]]
  else if String.eqb p "b" then Some [block "one" [("x", "price*qty")]; RBlock "table" true [Location "c" true "price*qty"]]
  else None.
Definition unit_names : list string := ["b"; "gone"; "a"].
Definition asis (l : list (string * fragment)) : list (string * fragment) := l.

(** *** Every hint is about a derivation of the policy that is written as often as it says. *)
Theorem C80_sound : forall space ast span_of hash members parsed target h, (forall l, Permutation (hash l) l) ->
  In h (check space ast span_of hash members parsed target) -> exists q d qs,
    at_position ast span_of members parsed q d /\ de_site d = hn_site h /\ de_span d = hn_span h /\ fst (hn_site h) = target /\ 6 <= length (text space d) /\
    copies space ast span_of members parsed d qs /\ In q qs /\ length qs = hn_count h /\ 2 <= hn_count h /\
    (hn_count h = 2 -> exists q0 d0 n, at_position ast span_of members parsed q0 d0 /\ same space d0 d /\ size d0 n /\ 3 <= n).
Proof.
  intros space ast span_of hash members parsed target h S0 H. apply hint_sound in H as (q & d & qs & d0 & C & A & B & T & Q & I & L & (q0 & C0 & K0) & _ & Th & _); [|exact S0].
  exists q, d, qs. destruct C as [C C6]. repeat (split; [assumption|]). pose proof (thr_two (op_count (de_node d0))). split; [lia|]. intros E2.
  exists q0, d0, (op_count (de_node d0)). split; [apply C0|]. split; [exact K0|]. split; [now apply op_size|]. unfold threshold in Th. destruct (3 <=? op_count (de_node d0)) eqn:E; [now apply Nat.leb_le|lia].
Qed.
Print Assumptions C80_sound.
Example C80_sound_case : check is_blank tree spans asis unit_names unit_docs "a" =
  [Hint ("a", ("one", "x")) (0, 24) (list_ascii_of_string long_text, false) 2 None; Hint ("a", ("one", "y")) (0, 24) (list_ascii_of_string long_text, false) 2 None].
Proof. vm_compute. reflexivity. Qed.

(** *** The snippet is the words of a copy of the derivation on one line, cut after 59 characters if there are more than 60. *)
Theorem C80_snippet : forall space ast span_of hash members parsed target h, (forall l, Permutation (hash l) l) ->
  In h (check space ast span_of hash members parsed target) -> exists q d line,
    at_position ast span_of members parsed q d /\ (exists q1 e, at_position ast span_of members parsed q1 e /\ de_site e = hn_site h /\ de_span e = hn_span h /\ same space d e) /\
    on_one_line space (de_chars d) line /\
    ((length line <= 60 /\ hn_display h = (line, false)) \/ (60 < length line /\ hn_display h = (firstn 59 line, true))).
Proof.
  intros space ast span_of hash members parsed target h S0 H. apply hint_sound in H as (q & d & qs & d0 & C & A & B & _ & _ & _ & _ & (q0 & C0 & K0) & D & _ & _); [|exact S0].
  exists q0, d0, (squeeze space [] false (de_chars d0)). split; [apply C0|]. split; [exists q, d; split; [apply C|auto]|]. split; [rewrite squeeze_line; now apply line_spec with (n := length (de_chars d0))|].
  rewrite D. unfold shown. destruct (60 <? _) eqn:E; [right; apply Nat.ltb_lt in E|left; apply Nat.ltb_ge in E]; auto.
Qed.
Print Assumptions C80_snippet.
Example C80_snippet_case : is_blank " " = true /\
  display_snippet is_blank "  a  +
   b " (0, 12) = (list_ascii_of_string "a + b", false).
Proof. split; vm_compute; reflexivity. Qed.

(** *** The hint counts the policies of all copies, and names their number if there are several. *)
Theorem C80_policies : forall space ast span_of hash members parsed target h, (forall l, Permutation (hash l) l) ->
  In h (check space ast span_of hash members parsed target) -> exists q d ps,
    at_position ast span_of members parsed q d /\ de_site d = hn_site h /\ de_span d = hn_span h /\ NoDup ps /\
    (forall p, In p ps <-> exists q1 e, counted space ast span_of members parsed q1 e /\ same space e d /\ fst (de_site e) = p) /\
    (length ps = 1 /\ hn_policies h = None \/ 2 <= length ps /\ hn_policies h = Some (length ps)).
Proof.
  intros space ast span_of hash members parsed target h S0 H. apply hint_sound in H as (q & d & qs & d0 & C & A & B & T & _ & _ & _ & _ & _ & _ & (ps & N & P & E)); [|exact S0].
  exists q, d, ps. split; [apply C|]. repeat (split; [assumption|]). rewrite E. assert (L : 1 <= length ps).
  { assert (I : In (fst (de_site d)) ps) by (apply P; exists q, d; split; [exact C|split; reflexivity]). destruct ps; [contradiction|cbn; lia]. }
  destruct (1 <? length ps) eqn:X; [right; apply Nat.ltb_lt in X|left; apply Nat.ltb_ge in X]; split; auto; lia.
Qed.
Print Assumptions C80_policies.

(** *** A derivation that is written three times, or twice with three operations, is reported wherever the policy writes it, with the number of all its copies,
    unless a copy lies in a larger derivation that is repeated as well. *)
Theorem C80_complete : forall space ast span_of hash members parsed q d qs, (forall l, Permutation (hash l) l) ->
  let counted := counted space ast span_of members parsed in
  counted q d -> copies space ast span_of members parsed d qs ->
  (3 <= length qs \/ (2 <= length qs /\ forall q1 e n, counted q1 e -> same space e d -> size e n -> 3 <= n)) ->
  (forall q1 e q2 g q3 q4, counted q1 e -> same space e d -> counted q2 g -> ~ same space g d -> q3 <> q4 -> copies space ast span_of members parsed g [q3; q4] ->
     ~ lies_in (de_site e) (de_span e) (de_site g) (de_span g)) ->
  exists h all, In h (check space ast span_of hash members parsed (fst (de_site d))) /\ hn_site h = de_site d /\ hn_span h = de_span d /\
    copies space ast span_of members parsed d all /\ (forall q1 e, counted q1 e -> same space e d -> In q1 all) /\ hn_count h = length all.
Proof.
  intros space ast span_of hash members parsed q d qs S0 cn C Q En Free. eapply hint_complete; eauto. intros q1 e q2 g C1 S1 C2 S2 (q3 & q4 & D & R). eapply Free; eauto.
Qed.
Print Assumptions C80_complete.
(** In another unit [price * qty] is written three times, in two policies, and nothing larger is repeated. *)
Definition other_docs (p : string) : option (list rblock) :=
  if String.eqb p "a" then Some [block "one" [("x", long_text); ("z", "price*qty")]]
  else if String.eqb p "b" then Some [block "one" [("x", "price*qty")]]
  else None.
Definition times (site0 : site) (p : span) (s : string) : derivation := Derivation site0 p (list_ascii_of_string s) (NBinary (NIdent "price") (OpArith AMul) (NIdent "qty")).
Definition short_tree : node := NBinary (NIdent "price") (OpArith AMul) (NIdent "qty").
Definition long_tree : node := NBinary short_tree (OpArith ASub) (NBinary (NIdent "rebate") (OpArith AMul) (nnum 2)).
Example C80_complete_case :
  map (fun h => (hn_site h, hn_span h, hn_count h, hn_policies h)) (check is_blank tree spans asis unit_names other_docs "a") =
    [(("a", ("one", "x")), (0, 11), 3, Some 2); (("a", ("one", "z")), (0, 9), 3, Some 2)] /\
  (exists q, counted is_blank tree spans unit_names other_docs q (times ("a", ("one", "z")) (0, 9) "price*qty")) /\
  exists qs, copies is_blank tree spans unit_names other_docs (times ("a", ("one", "z")) (0, 9) "price*qty") qs /\ length qs = 3.
Proof.
  assert (P : forall path i b j l root h n p, In path unit_names -> forall bs, other_docs path = Some bs -> nth_error bs i = Some b -> rb_table b = false -> nth_error (rb_exprs b) j = Some l -> lo_standard l = true ->
      tree (lo_source l) = Some root -> nth_error (visits root) h = Some n -> derives n -> spans (lo_source l) h = Some p -> filter (fun c => negb (is_blank c)) (piece (lo_source l) p) = list_ascii_of_string "price*qty" ->
      exists e, counted is_blank tree spans unit_names other_docs (path, (i, (j, h))) e /\ same is_blank e (times ("a", ("one", "z")) (0, 9) "price*qty")).
  { intros path i b j l root h n p M bs B I T J S0 R N D Sp X. exists (Derivation (path, (rb_id b, lo_id l)) p (piece (lo_source l) p) n). split; [split; [econstructor; eauto|]|].
    - unfold text. cbn [de_chars]. rewrite X. cbn. lia.
    - unfold same, text. cbn [de_chars]. rewrite X. vm_compute. reflexivity. }
  split; [vm_compute; reflexivity|]. split.
  - exists ("a", (0, (1, 0))). split; [|vm_compute; lia]. change (list_ascii_of_string "price*qty") with (piece "price*qty" (0, 9)).
    apply (a_derivation tree spans unit_names other_docs "a" [block "one" [("x", long_text); ("z", "price*qty")]] 0 (block "one" [("x", long_text); ("z", "price*qty")]) 1 (Location "z" true "price*qty") short_tree 0 short_tree (0, 9)); try reflexivity; [cbn; auto|left; unfold short_tree; eauto].
  - exists [("a", (0, (0, 1))); ("a", (0, (1, 0))); ("b", (0, (0, 0)))]. split; [|reflexivity]. split; [repeat constructor; cbn; intuition congruence|].
    intros q [<-|[<-|[<-|[]]]].
    + apply (P "a" 0 (block "one" [("x", long_text); ("z", "price*qty")]) 0 (Location "x" true long_text) long_tree 1 (NBinary (NIdent "price") (OpArith AMul) (NIdent "qty")) (0, 11)) with (bs := [block "one" [("x", long_text); ("z", "price*qty")]]); try reflexivity; try (vm_compute; reflexivity); [cbn; auto|left; eauto].
    + apply (P "a" 0 (block "one" [("x", long_text); ("z", "price*qty")]) 1 (Location "z" true "price*qty") short_tree 0 short_tree (0, 9)) with (bs := [block "one" [("x", long_text); ("z", "price*qty")]]); try reflexivity; try (vm_compute; reflexivity); [cbn; auto|left; unfold short_tree; eauto].
    + apply (P "b" 0 (block "one" [("x", "price*qty")]) 0 (Location "x" true "price*qty") short_tree 0 short_tree (0, 9)) with (bs := [block "one" [("x", "price*qty")]]); try reflexivity; try (vm_compute; reflexivity); [cbn; auto|left; unfold short_tree; eauto].
Qed.

(** *** The number of a hint is that of the places in the unit where a hint with the same message is given; each other copy lies in a place of a hint about another text. *)
Theorem C80_counts : forall space ast span_of hash members parsed target h, (forall l, Permutation (hash l) l) ->
  let check := check space ast span_of hash members parsed in let counted := counted space ast span_of members parsed in
  In h (check target) -> exists q d qs, counted q d /\ de_site d = hn_site h /\ de_span d = hn_span h /\ In q qs /\
    NoDup qs /\ length qs = hn_count h /\ (forall q1, In q1 qs -> exists e, counted q1 e /\ same space e d) /\
    forall q1 e, counted q1 e -> same space e d ->
      (In q1 qs -> exists h1, In h1 (check (fst (de_site e))) /\ hn_site h1 = de_site e /\ hn_span h1 = de_span e /\
         hn_display h1 = hn_display h /\ hn_count h1 = hn_count h /\ hn_policies h1 = hn_policies h) /\
      (~ In q1 qs -> exists q2 g h2, counted q2 g /\ ~ same space g d /\ In h2 (check (fst (de_site g))) /\ hn_site h2 = de_site g /\ hn_span h2 = de_span g /\
         lies_in (de_site e) (de_span e) (de_site g) (de_span g)).
Proof.
  intros space ast span_of hash members parsed target h S0 ck cn H. apply hint_counts in H as (q & d & qs & A & B & C & D & E & F & G & K); [|exact S0].
  exists q, d, qs. repeat (split; [assumption|]). intros q1 e C1 S1. destruct (K q1 e C1 S1) as [K1 K2]. split; [|exact K2]. intros I. destruct (K1 I) as (h1 & H1 & H2 & H3 & H4).
  unfold message in H4. injection H4 as M1 M2 M3. exists h1. repeat split; assumption.
Qed.
Print Assumptions C80_counts.
(** *** The hints come by the number of operations, then by the length of the text, both falling, then by the text. *)
Theorem C80_order : forall space ast span_of hash members parsed target a h1 b h2 c, (forall l, Permutation (hash l) l) ->
  let counted := counted space ast span_of members parsed in
  check space ast span_of hash members parsed target = a ++ h1 :: b ++ h2 :: c -> exists q1 d1 e1 q2 d2 e2 n1 n2,
    counted q1 d1 /\ de_site d1 = hn_site h1 /\ de_span d1 = hn_span h1 /\ counted q2 d2 /\ de_site d2 = hn_site h2 /\ de_span d2 = hn_span h2 /\
    (exists p, counted p e1) /\ same space e1 d1 /\ size e1 n1 /\ (exists p, counted p e2) /\ same space e2 d2 /\ size e2 n2 /\
    (n2 < n1 \/ n1 = n2 /\ (length (text space d2) < length (text space d1) \/ length (text space d1) = length (text space d2) /\
      (same space d1 d2 \/ String.compare (string_of_list_ascii (text space d1)) (string_of_list_ascii (text space d2)) = Lt))).
Proof. intros space ast span_of hash members parsed target a h1 b h2 c S0 cn E. eapply hint_order; eauto. Qed.
Print Assumptions C80_order.
(** *** A hint that lies in one given before belongs to the same derivation. *)
Theorem C80_nested : forall space ast span_of hash members parsed target a h1 b h2 c,
  check space ast span_of hash members parsed target = a ++ h1 :: b ++ h2 :: c ->
  lies_in (hn_site h2) (hn_span h2) (hn_site h1) (hn_span h1) ->
  hn_display h1 = hn_display h2 /\ hn_count h1 = hn_count h2 /\ hn_policies h1 = hn_policies h2.
Proof.
  intros space ast span_of hash members parsed target a h1 b h2 c E L. unfold check in E. pose proof (report_two _ _ _ _ _ _ _ _ E L) as M. unfold message in M. injection M as M1 M2 M3. auto.
Qed.
Print Assumptions C80_nested.
(** *** If what lies in a derivation has fewer operations, and the same text has the same number of operations, no hint lies in another, whatever the order. *)
Theorem C80_apart : forall space ast span_of hash members parsed target h1 h2, (forall l, Permutation (hash l) l) ->
  let counted := counted space ast span_of members parsed in
  (forall q1 d1 q2 d2 n1 n2, counted q1 d1 -> counted q2 d2 -> size d1 n1 -> size d2 n2 ->
     (same space d1 d2 -> n1 = n2) /\ (lies_in (de_site d1) (de_span d1) (de_site d2) (de_span d2) -> ~ same space d1 d2 -> n1 < n2)) ->
  In h1 (check space ast span_of hash members parsed target) -> In h2 (check space ast span_of hash members parsed target) ->
  lies_in (hn_site h2) (hn_span h2) (hn_site h1) (hn_span h1) ->
  hn_display h1 = hn_display h2 /\ hn_count h1 = hn_count h2 /\ hn_policies h1 = hn_policies h2.
Proof.
  intros space ast span_of hash members parsed target h1 h2 S0 cn W H1 H2 L.
  assert (M : message h1 = message h2).
  { eapply (hint_apart space ast span_of members parsed hash S0 target); eauto.
    - intros q1 d1 q2 d2 n1 n2 C1 C2 N1 N2 S1. exact (proj1 (W q1 d1 q2 d2 n1 n2 C1 C2 N1 N2) S1).
    - intros q1 d1 q2 d2 n1 n2 C1 C2 N1 N2 L1 S1. exact (proj2 (W q1 d1 q2 d2 n1 n2 C1 C2 N1 N2) L1 S1). }
  unfold message in M. injection M as M1 M2 M3. auto.
Qed.
Print Assumptions C80_apart.
(** The unit above is such a unit, and [price * qty] is not reported in it: the copies in the larger derivation leave only two. *)
Definition grows (x y : position * derivation) : bool :=
  if String.eqb (key is_blank (snd x)) (key is_blank (snd y)) then Nat.eqb (op_count (de_node (snd x))) (op_count (de_node (snd y)))
  else negb (covers (occ_of y) (occ_of x)) || (op_count (de_node (snd x)) <? op_count (de_node (snd y))).
Lemma unit_grows : forallb (fun x => forallb (grows x) (cd is_blank tree spans unit_names unit_docs)) (cd is_blank tree spans unit_names unit_docs) = true.
Proof. vm_compute. reflexivity. Qed.
Example C80_apart_case : forall q1 d1 q2 d2 n1 n2, counted is_blank tree spans unit_names unit_docs q1 d1 -> counted is_blank tree spans unit_names unit_docs q2 d2 -> size d1 n1 -> size d2 n2 ->
  (same is_blank d1 d2 -> n1 = n2) /\ (lies_in (de_site d1) (de_span d1) (de_site d2) (de_span d2) -> ~ same is_blank d1 d2 -> n1 < n2).
Proof.
  intros q1 d1 q2 d2 n1 n2 C1 C2 N1 N2. apply op_size in N1, N2. subst n1 n2. apply cd_in in C1, C2. pose proof unit_grows as A. revert C1 C2 A. generalize (cd is_blank tree spans unit_names unit_docs). intros l C1 C2 A.
  rewrite forallb_forall in A. specialize (A _ C1). rewrite forallb_forall in A. specialize (A _ C2).
  unfold grows in A. cbn [snd] in A. destruct (String.eqb (key is_blank d1) (key is_blank d2)) eqn:E.
  - apply String.eqb_eq in E. apply Nat.eqb_eq in A. split; [auto|]. intros _ D. elim D. now apply key_same.
  - apply String.eqb_neq in E. split; [intros S0; elim E; now apply key_same|]. intros L _. apply orb_prop in A as [A|A]; [|now apply Nat.ltb_lt].
    apply negb_true_iff in A. assert (X : covers (occ_of (q2, d2)) (occ_of (q1, d1)) = true) by (apply covers_in; exact L). congruence.
Qed.

(** *** Neither the order of the hash map nor that of the members of the unit changes the hints. *)
Theorem C80_same : forall space ast span_of members members0 parsed target hash hash0,
  (forall l, Permutation (hash l) l) -> (forall l, Permutation (hash0 l) l) -> (forall p, In p members <-> In p members0) ->
  check space ast span_of hash members parsed target = check space ast span_of hash0 members0 parsed target.
Proof. intros. now apply check_same. Qed.
Print Assumptions C80_same.
Example C80_same_case : (forall l : list (string * fragment), Permutation (rev l) l) /\
  map (fun h => hn_site h) (check is_blank tree spans (@rev _) ["a"; "b"; "a"] other_docs "a") = [("a", ("one", "x")); ("a", ("one", "z"))].
Proof. split; [intros l; apply Permutation_sym, Permutation_rev|vm_compute; reflexivity]. Qed.

(** *** The copies of a hint need not derive the same: white space in texts is dropped as well, so that [upper('a b')] and [upper('ab')] are taken for the same. *)
Definition text_docs (p : string) : option (list rblock) :=
  if String.eqb p "a" then Some [block "one" [("x", "upper('a b')"); ("y", "upper('ab')"); ("z", "upper('ab')")]] else None.
Theorem C80_meaning_refuted : exists ast span_of members parsed h h0, let hints := check is_blank ast span_of asis members parsed "a" in
  In h hints /\ In h0 hints /\ hn_count h = 3 /\ hn_display h = hn_display h0 /\
  exists q d q0 d0, at_position ast span_of members parsed q d /\ de_site d = hn_site h /\ at_position ast span_of members parsed q0 d0 /\ de_site d0 = hn_site h0 /\
    same is_blank d d0 /\ de_node d = NCall (FInternal FUpper) [NString "a b"] /\ de_node d0 = NCall (FInternal FUpper) [NString "ab"].
Proof.
  exists tree, spans, ["a"], text_docs, (Hint ("a", ("one", "x")) (0, 12) (list_ascii_of_string "upper('a b')", false) 3 None), (Hint ("a", ("one", "y")) (0, 11) (list_ascii_of_string "upper('a b')", false) 3 None).
  cbv zeta. split; [vm_compute; auto|]. split; [vm_compute; auto|]. split; [reflexivity|]. split; [reflexivity|].
  exists ("a", (0, (0, 0))), (Derivation ("a", ("one", "x")) (0, 12) (piece "upper('a b')" (0, 12)) (NCall (FInternal FUpper) [NString "a b"])),
    ("a", (0, (1, 0))), (Derivation ("a", ("one", "y")) (0, 11) (piece "upper('ab')" (0, 11)) (NCall (FInternal FUpper) [NString "ab"])).
  assert (A : forall j l s p, nth_error (rb_exprs (block "one" [("x", "upper('a b')"); ("y", "upper('ab')"); ("z", "upper('ab')")])) j = Some l -> lo_standard l = true ->
    tree (lo_source l) = Some (NCall (FInternal FUpper) [NString s]) -> spans (lo_source l) 0 = Some p -> at_position tree spans ["a"] text_docs ("a", (0, (j, 0))) (Derivation ("a", ("one", lo_id l)) p (piece (lo_source l) p) (NCall (FInternal FUpper) [NString s]))).
  { intros j l s p J S0 T Sp. refine (a_derivation tree spans ["a"] text_docs "a" _ 0 (block "one" [("x", "upper('a b')"); ("y", "upper('ab')"); ("z", "upper('ab')")]) j l _ 0 _ p _ _ _ _ J S0 T _ _ Sp); try reflexivity; [cbn; auto|].
    right. right. right. left. eauto. }
  split; [apply (A 0 (Location "x" true "upper('a b')")); try reflexivity; vm_compute; reflexivity|]. split; [reflexivity|].
  split; [apply (A 1 (Location "y" true "upper('ab')")); try reflexivity; vm_compute; reflexivity|]. split; [reflexivity|]. split; [vm_compute; reflexivity|]. split; reflexivity.
Qed.
Print Assumptions C80_meaning_refuted.

(** *** "3 times across 2 policies": the policies are those of all copies, the count leaves out the copies that lie in a larger hint, so that all copies counted can be in one policy. *)
Definition cover_docs (p : string) : option (list rblock) :=
  if String.eqb p "a" then Some [block "one" [("x", "price*qty"); ("y", "price*qty"); ("z", "price*qty")]]
  else if String.eqb p "b" then Some [block "one" [("x", long_text); ("y", long_text)]]
  else None.
Theorem C80_count_refuted : exists ast span_of members parsed, 
  map (fun h => (hn_site h, hn_count h, hn_policies h)) (check is_blank ast span_of asis members parsed "a") =
    [(("a", ("one", "x")), 3, Some 2); (("a", ("one", "y")), 3, Some 2); (("a", ("one", "z")), 3, Some 2)] /\
  map (fun h => (hn_site h, hn_span h, hn_count h)) (check is_blank ast span_of asis members parsed "b") = [(("b", ("one", "x")), (0, 24), 2); (("b", ("one", "y")), (0, 24), 2)].
Proof. exists tree, spans, ["a"; "b"], cover_docs. split; vm_compute; reflexivity. Qed.
Print Assumptions C80_count_refuted.
