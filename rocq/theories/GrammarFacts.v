(** Operator trees can always be written and read back. *)
From Coq Require Import String Ascii ZArith Lia Bool List Arith.
From Verif Require Import Base Dec Value Ast Lexer Parser ParserFacts Print RoundTrip ParensFacts RelexFacts UnaryFacts.
Import ListNotations.
Local Open Scope string_scope.
Local Open Scope list_scope.
Local Open Scope nat_scope.

Lemma plain_not_key : forall s k, plain_name s = true -> In k keywords -> s <> k.
Proof.
  intros s k H I ->. destruct k as [|c r]; [discriminate|]. unfold plain_name in H. apply andb_prop in H. destruct H as [_ H].
  apply negb_true_iff in H. assert (E : existsb (String.eqb (String c r)) keywords = true).
  { apply existsb_exists. exists (String c r). split; [exact I|apply String.eqb_refl]. }
  congruence.
Qed.
Lemma plain_ident : forall s, plain_name s = true -> ident_of_str s = None.
Proof.
  intros s H. unfold ident_of_str. cbn [aget fst snd].
  repeat match goal with |- context [String.eqb ?a ?b] => destruct (String.eqb_spec a b) as [E|]; [exfalso; revert E; try (apply not_eq_sym); apply plain_not_key; [exact H|cbn; tauto]|] end.
  reflexivity.
Qed.
Lemma tree_writable : forall pn hr nt n d, operator_tree n = true -> writable nt pn hr n d.
Proof.
  intros pn hr nt n. induction n using node_ind'; intros d0 T; try discriminate T; try exact I; cbn [operator_tree writable] in *;
    repeat match goal with H : _ && _ = true |- _ => apply andb_prop in H; destruct H end; auto.
  - split; [apply plain_not_key; [assumption|cbn; tauto]|]. split; [apply plain_not_key; [assumption|cbn; tauto]|].
    intros E. exfalso. revert E. apply plain_not_key; [assumption|cbn; tauto].
  - split; [|auto]. destruct (unary_op op); [discriminate|discriminate].
  - split; [|auto]. destruct (binary_op op); [discriminate|discriminate].
Qed.
Lemma tree_words : forall nt n p f, operator_tree n = true -> Forall word_ok (words nt (parens nt n p f)).
Proof.
  intros nt n. induction n using node_ind'; intros p0 f0 T; try discriminate T; cbn [operator_tree] in T;
    repeat match goal with H : _ && _ = true |- _ => apply andb_prop in H; destruct H end;
    cbn [parens]; try (cbn [words]; repeat constructor; fail).
  - cbn [words]. repeat constructor. unfold word_ok, quote_for. destruct (has_byte "'" s) eqn:E; [|reflexivity].
    cbn in T. apply negb_true_iff in T. exact T.
  - cbn [words]. repeat constructor. unfold wname. rewrite plain_ident by assumption. exact T.
  - cbn [words]. constructor; [reflexivity|]. apply Forall_app. split; [apply IHn; assumption|repeat constructor].
  - assert (W : Forall word_ok (words nt (NCond (parens nt n1 1 0) (parens nt n2 0 0) (parens nt n3 0 0)))).
    { cbn [words]. apply Forall_app. split; [auto|]. constructor; [reflexivity|]. apply Forall_app. split; [auto|]. constructor; [reflexivity|auto]. }
    destruct ((p0 =? 0) && (f0 =? 0)); [exact W|]. change (words nt (NParen ?x)) with (wbr LParen :: words nt x ++ [wbr RParen]).
    constructor; [reflexivity|]. apply Forall_app. split; [exact W|repeat constructor].
  - destruct (unary_op op); [|discriminate]. destruct (f0 <? n0); cbn [words].
    + constructor; [reflexivity|auto].
    + constructor; [reflexivity|]. apply Forall_app. split; [constructor; [reflexivity|auto]|repeat constructor].
  - destruct (binary_op op) as [[q la]|]; [|discriminate].
    assert (W : forall a b c d, Forall word_ok (words nt (NBinary (parens nt n1 a b) op (parens nt n2 c d)))).
    { intros. cbn [words]. apply Forall_app. split; [auto|]. constructor; [reflexivity|auto]. }
    destruct ((p0 <=? q) && (f0 <? right_level q la)); [apply W|].
    change (words nt (NParen ?x)) with (wbr LParen :: words nt x ++ [wbr RParen]).
    constructor; [reflexivity|]. apply Forall_app. split; [apply W|repeat constructor].
Qed.
Theorem source_back : forall pn nt n, canon nt pn (has_range (spell (words nt n))) FStandard n 0 CxGlobal 0 0 ->
  Forall word_ok (words nt n) -> parse_source pn FStandard (render (words nt n)) = Some (Ok n).
Proof. intros pn nt n C W. destruct (parse_printed pn nt n C) as [P E]. apply source_read; assumption. Qed.
Theorem tree_back : forall pn nt n, operator_tree n = true ->
  exists m, parse_source pn FStandard (render (words nt (parens nt n 0 0))) = Some (Ok m) /\ strip m = strip n.
Proof.
  intros pn nt n T. exists (parens nt n 0 0). split; [|apply strip_parens].
  apply source_back; [|apply tree_words; assumption]. apply parens_ok. apply tree_writable. assumption.
Qed.
Theorem writable_back : forall pn nt n, let w := spell (words nt (parens nt n 0 0)) in writable nt pn (has_range w) n 0 ->
  exists m, parse_tokens pn FStandard w = Some (m, []) /\ has_error m = false /\ strip m = strip n.
Proof.
  intros pn nt n w H. exists (parens nt n 0 0). destruct (parse_printed pn nt (parens nt n 0 0)) as [P E]; [apply parens_ok; exact H|].
  split; [exact P|]. split; [exact E|apply strip_parens].
Qed.

Lemma name_can : forall pn nt hr s d c p f, plain_name s = true -> canon nt pn hr FStandard (NIdent s) d c p f.
Proof. intros. apply (tree_writable pn hr nt (NIdent s) d). assumption. Qed.
Lemma name_word : forall nt s, plain_name s = true -> Forall word_ok (words nt (NIdent s)).
Proof. intros. apply (tree_words nt (NIdent s) 0 0). assumption. Qed.

Lemma name_can0 : forall s, plain_name s = true -> s <> "null" /\ s <> "$root" /\ (s = "#" -> 0 = 0).
Proof. intros s H. apply (name_can (fun _ => None) (fun _ => "") false s 0 CxGlobal 0 0 H). Qed.

Theorem two_operators : forall pn nt a b c o1 o2 p1 l1 p2 l2, plain_name a = true -> plain_name b = true -> plain_name c = true ->
  binary_op o1 = Some (p1, l1) -> binary_op o2 = Some (p2, l2) ->
  parse_source pn FStandard (render (words nt (NIdent a) ++ wop o1 :: words nt (NIdent b) ++ wop o2 :: words nt (NIdent c))) =
  Some (Ok (if (p2 <? p1) || ((p1 =? p2) && l1)
            then NBinary (NBinary (NIdent a) o1 (NIdent b)) o2 (NIdent c)
            else NBinary (NIdent a) o1 (NBinary (NIdent b) o2 (NIdent c)))).
Proof.
  intros pn nt a b c o1 o2 p1 l1 p2 l2 A B C E1 E2.
  pose proof (binary_pos _ _ _ E1) as Q1. pose proof (binary_pos _ _ _ E2) as Q2.
  assert (W : Forall word_ok (words nt (NIdent a) ++ wop o1 :: words nt (NIdent b) ++ wop o2 :: words nt (NIdent c))).
  { apply Forall_app. split; [apply name_word; assumption|]. constructor; [reflexivity|].
    apply Forall_app. split; [apply name_word; assumption|]. constructor; [reflexivity|apply name_word; assumption]. }
  destruct ((p2 <? p1) || ((p1 =? p2) && l1)) eqn:G.
  - replace (words nt (NIdent a) ++ wop o1 :: words nt (NIdent b) ++ wop o2 :: words nt (NIdent c))
      with (words nt (NBinary (NBinary (NIdent a) o1 (NIdent b)) o2 (NIdent c))) in * by (cbn [words]; rewrite <- app_assoc; reflexivity).
    apply source_back; [|exact W]. generalize (has_range (spell (words nt (NBinary (NBinary (NIdent a) o1 (NIdent b)) o2 (NIdent c))))). intros hr.
    cbn [canon]. exists p2, l2. split; [exact E2|]. split; [lia|]. split; [unfold right_level; destruct l2; lia|]. split; [reflexivity|].
    split; [|apply name_can0; assumption]. exists p1, l1. split; [exact E1|]. split; [lia|].
    split; [|split; [reflexivity|split; apply name_can0; assumption]].
    apply orb_true_iff in G. destruct G as [G|G]; [apply Nat.ltb_lt in G; unfold right_level; destruct l1; lia|].
    apply andb_prop in G. destruct G as [G ->]. apply Nat.eqb_eq in G. unfold right_level. lia.
  - replace (words nt (NIdent a) ++ wop o1 :: words nt (NIdent b) ++ wop o2 :: words nt (NIdent c))
      with (words nt (NBinary (NIdent a) o1 (NBinary (NIdent b) o2 (NIdent c)))) in * by reflexivity.
    apply source_back; [|exact W]. generalize (has_range (spell (words nt (NBinary (NIdent a) o1 (NBinary (NIdent b) o2 (NIdent c)))))). intros hr.
    cbn [canon]. exists p1, l1. split; [exact E1|]. split; [lia|]. split; [unfold right_level; destruct l1; lia|]. split; [reflexivity|].
    split; [apply name_can0; assumption|]. exists p2, l2. split; [exact E2|].
    apply orb_false_iff in G. destruct G as [G1 G2]. apply Nat.ltb_ge in G1.
    split; [|split; [unfold right_level; destruct l2; lia|split; [reflexivity|split; apply name_can0; assumption]]].
    unfold right_level. destruct l1; [|exact G1]. rewrite andb_true_r in G2. apply Nat.eqb_neq in G2. lia.
Qed.
Theorem prefix_operator : forall pn nt a b u o pu p l, plain_name a = true -> plain_name b = true ->
  unary_op u = Some pu -> binary_op o = Some (p, l) ->
  parse_source pn FStandard (render (wop u :: words nt (NIdent a) ++ wop o :: words nt (NIdent b))) =
  Some (Ok (if pu <=? p then NUnary (NBinary (NIdent a) o (NIdent b)) u else NBinary (NUnary (NIdent a) u) o (NIdent b))).
Proof.
  intros pn nt a b u o pu p l A B EU EO. pose proof (binary_pos _ _ _ EO) as Q.
  assert (UP : 0 < pu) by (destruct u as [[]|[]|[]| | | | | | |]; inversion EU; lia).
  assert (W : Forall word_ok (wop u :: words nt (NIdent a) ++ wop o :: words nt (NIdent b))).
  { constructor; [reflexivity|]. apply Forall_app. split; [apply name_word; assumption|]. constructor; [reflexivity|apply name_word; assumption]. }
  destruct (pu <=? p) eqn:G.
  - apply Nat.leb_le in G. change (wop u :: words nt (NIdent a) ++ wop o :: words nt (NIdent b)) with (words nt (NUnary (NBinary (NIdent a) o (NIdent b)) u)) in *.
    apply source_back; [|exact W]. generalize (has_range (spell (words nt (NUnary (NBinary (NIdent a) o (NIdent b)) u)))). intros hr.
    cbn [canon]. exists pu. split; [exact EU|]. split; [lia|]. exists p, l. split; [exact EO|]. split; [exact G|].
    split; [unfold right_level; destruct l; lia|]. split; [reflexivity|]. split; apply name_can0; assumption.
  - apply Nat.leb_gt in G. change (wop u :: words nt (NIdent a) ++ wop o :: words nt (NIdent b)) with (words nt (NBinary (NUnary (NIdent a) u) o (NIdent b))) in *.
    apply source_back; [|exact W]. generalize (has_range (spell (words nt (NBinary (NUnary (NIdent a) u) o (NIdent b))))). intros hr.
    cbn [canon]. exists p, l. split; [exact EO|]. split; [lia|]. split; [unfold right_level; destruct l; lia|]. split; [reflexivity|].
    split; [|apply name_can0; assumption]. exists pu. split; [exact EU|]. split; [lia|]. apply name_can0; assumption.
Qed.
