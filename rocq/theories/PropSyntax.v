(** C17, C19: reading expressions: the lexer and the parser stop on every input and account for all of it. *)
From Coq Require Import String Ascii ZArith Lia Bool List Arith.
From Verif Require Import Base Dec Value Ast Lexer SynSpec LexFacts Parser ParserFacts.
Import ListNotations.
Local Open Scope string_scope.
Local Open Scope list_scope.
Local Open Scope nat_scope.

(** * C17 *)

(** The lexer stops on every source, with tokens or an error. *)
Theorem C17_total : forall src, exists r, lex src = Some r.
Proof. exact lex_total. Qed.
Print Assumptions C17_total.
Example C17_total_case : lex "'a" = Some (Err (EOp "UnexpectedEof")) /\ exists ts, lex "a + 'b'" = Some (Ok ts) /\ length ts = 5.
Proof. split; [vm_compute; reflexivity|]. eexists. split; [vm_compute; reflexivity|reflexivity]. Qed.

(** Every token's span lies inside the source. Its value is the text of the span, but for the brace that
    closes a template's expression and a closing backtick that is not in the source. *)
Theorem C17_tokens_in_bounds : forall src ts t, lex src = Some (Ok ts) -> In t ts ->
  fst (tk_span t) <= snd (tk_span t) /\ snd (tk_span t) <= String.length src /\
  (tk_kind t <> KTplEnd -> tk_kind t <> KQuote QBacktick \/ fst (tk_span t) < snd (tk_span t) ->
   tk_value t = slice src (fst (tk_span t)) (snd (tk_span t))).
Proof. intros src ts t H I. exact (lex_tokens_ok src ts H t I). Qed.
Print Assumptions C17_tokens_in_bounds.
Example C17_tokens_in_bounds_case : exists ts t, lex "`x ${ab} y` + 12" = Some (Ok ts) /\ In t ts /\
  tk_kind t = KLiteral /\ tk_value t = "ab" /\ tk_span t = (5, 7).
Proof. do 2 eexists. split; [vm_compute; reflexivity|]. split; [do 3 right; left; reflexivity|]. repeat split. Qed.

(** Without template strings the source is exactly its tokens, in order, and blanks between them: every
    span is where the text stands and no text is lost, doubled or moved. *)
Theorem C17_covers : forall src ts, lex src = Some (Ok ts) -> no_template ts -> covers 0 src ts.
Proof. exact lex_covers. Qed.
Print Assumptions C17_covers.
Example C17_covers_case : exists ts, lex "a >= 'x y' and not b[1.5e3..]" = Some (Ok ts) /\ no_template ts /\ length ts = 12.
Proof.
  eexists. split; [vm_compute; reflexivity|]. split; [|reflexivity].
  intros t I; repeat (destruct I as [<-|I]; [discriminate|]); destruct I.
Qed.

(** With template strings that are closed, the same holds of the text. *)
Theorem C17_spells : forall src ts, lex src = Some (Ok ts) -> templates_closed ts -> spells src ts.
Proof. exact lex_spells. Qed.
Print Assumptions C17_spells.
Example C17_spells_case : exists ts, lex "`hi ${a + 'x'} !` == b" = Some (Ok ts) /\ templates_closed ts /\ length ts = 13.
Proof. eexists. split; [vm_compute; reflexivity|]. split; vm_compute; reflexivity. Qed.

(** A number token is a number as it is written (SynSpec.v); in particular "1e" is the number 1 and a name. *)
Theorem C17_numbers : forall src ts t, lex src = Some (Ok ts) -> In t ts -> tk_kind t = KNumber -> numeral (tk_value t).
Proof. intros src ts t H I. exact (lex_numbers src ts H t I). Qed.
Print Assumptions C17_numbers.
Example C17_numbers_case : exists a b c d e, lex "1e 1_0.5e-3 7..8" = Some (Ok [a; b; c; d; e; Tok KNumber (15, 16) "8"]) /\
  map tk_value [a; b; c; d; e] = ["1"; "e"; "1_0.5e-3"; "7"; ".."] /\ tk_kind a = KNumber /\ tk_kind c = KNumber.
Proof. do 5 eexists. split; [vm_compute; reflexivity|]. auto. Qed.
(** False in general of templates: the span of the brace that closes an expression is not where the brace
    stands, and spans overlap. *)
Theorem C17_template_spans_refuted : exists (src : string) (ts : list token) (a b : token) (c : list token), lex src = Some (Ok (ts ++ [a; b] ++ c)) /\
  templates_closed (ts ++ [a; b] ++ c) /\ tk_value b = "}" /\ slice src (fst (tk_span b)) (snd (tk_span b)) <> "}" /\
  fst (tk_span b) < fst (tk_span a).
Proof.
  exists "`x ${ab} y`",
    [Tok (KQuote QBacktick) (0, 1) "`"; Tok KLiteral (1, 3) "x "; Tok KTplStart (3, 5) "${"],
    (Tok KLiteral (5, 7) "ab"), (Tok KTplEnd (1, 7) "}"),
    [Tok KLiteral (8, 10) " y"; Tok (KQuote QBacktick) (10, 11) "`"].
  split; [vm_compute; reflexivity|]. split; [vm_compute; reflexivity|]. split; [reflexivity|].
  split; [vm_compute; discriminate|cbn; lia].
Qed.
Print Assumptions C17_template_spans_refuted.

(** A template that is never closed is read as if it were, instead of being rejected as an open quote is. *)
Theorem C17_open_template_refuted : exists src ts us, lex src = Some (Ok ts) /\ ~ templates_closed ts /\
  lex (src ++ "`") = Some (Ok us) /\ map ptok_of ts = map ptok_of us.
Proof.
  exists "`x". do 2 eexists. split; [vm_compute; reflexivity|]. split; [vm_compute; discriminate|].
  split; vm_compute; reflexivity.
Qed.
Print Assumptions C17_open_template_refuted.

(** A backtick inside an expression of a template closes the template, and the text before it is read
    twice: the tokens no longer spell the source. *)
Theorem C17_nested_template_refuted : exists src ts, lex src = Some (Ok ts) /\ ~ spells src ts.
Proof.
  exists "`x ${ab`". eexists. split; [vm_compute; reflexivity|]. intros H.
  assert (L : forall s ts, spells s ts -> fold_right (fun t n => String.length (tk_value t) + n) 0 ts <= String.length s).
  { clear. intros s ts H. induction H as [|ws s t ts _ _ IH]; cbn [fold_right]; [lia|]. rewrite !slen_app. lia. }
  apply L in H. cbn in H. lia.
Qed.
Print Assumptions C17_nested_template_refuted.

(** * C19 *)

(** A parser for the examples: unsigned decimal numbers. *)
Definition digit (c : ascii) : option Z :=
  let n := nat_of_ascii c in if (48 <=? n) && (n <=? 57) then Some (Z.of_nat n - 48)%Z else None.
Fixpoint digits (s : string) (m : Z) (frac : bool) (sc : nat) : option dec :=
  match s with
  | EmptyString => Some (Dec m sc)
  | String c r =>
      match digit c with
      | Some v => digits r (10 * m + v)%Z frac (if frac then S sc else sc)
      | None => if Ascii.eqb c "." && negb frac then digits r m true sc else None
      end
  end.
Definition read_num (s : string) : option dec := digits s 0 false 0.

(** Both parsers stop on every token list, with a tree and the tokens not read, a suffix of the input. *)
Theorem C19_total : forall pn fl ts, exists n rest read,
  parse_tokens pn fl ts = Some (n, rest) /\ ts = read ++ rest.
Proof.
  intros pn fl ts. destruct (parse_tokens_total pn fl ts) as (n & rest & A & read & B). exists n, rest, read. auto.
Qed.
Print Assumptions C19_total.
Example C19_total_case : exists n, parse_tokens read_num FStandard [(KNumber, "1"); (KOp (OpArith AAdd), "+"); (KBracket LSquare, "["); (KLiteral, "a")]
  = Some (n, []) /\ has_error n = true.
Proof. eexists. split; [vm_compute; reflexivity|reflexivity]. Qed.

(** So reading a source always ends: a tree or an error. *)
Theorem C19_source_total : forall pn fl src, exists r, parse_source pn fl src = Some r.
Proof.
  intros pn fl src. unfold parse_source. destruct (lex_total src) as [[ts|e] ->]; [|eauto].
  destruct (parse_tokens_total pn fl (map ptok_of ts)) as (n & rest & -> & _). cbn. eauto.
Qed.
Print Assumptions C19_source_total.

(** An accepted source is read to its end and its tree has no error node anywhere. *)
Theorem C19_accepted : forall pn fl src n, parse_source pn fl src = Some (Ok n) ->
  exists ts, lex src = Some (Ok ts) /\ parse_tokens pn fl (map ptok_of ts) = Some (n, []) /\ has_error n = false.
Proof.
  intros pn fl src n H. unfold parse_source in H. destruct (lex src) as [[ts|e]|]; try discriminate. exists ts. split; [reflexivity|].
  destruct (parse_tokens pn fl (map ptok_of ts)) as [[m rest]|]; [|discriminate]. cbn in H.
  destruct rest; [|discriminate]. destruct (has_error m) eqn:E; inversion H; subst. auto.
Qed.
Print Assumptions C19_accepted.
Example C19_accepted_case : exists n, parse_source read_num FStandard "not a in [1..2.5) ? {x: `t${b}`} : some(c as i, i.k > #[0:])" = Some (Ok n).
Proof. eexists. vm_compute. reflexivity. Qed.

(** The bound on steps the model uses does not show: any larger one gives the same answer. *)
Theorem C19_bound_irrelevant : forall pn hr fl fuel d p c ts, length ts < fuel ->
  p_expr pn hr fl fuel d p c ts = p_expr pn hr fl (S (length ts)) d p c ts.
Proof.
  intros pn hr fl fuel d p c ts L. destruct (enough_expr pn hr fl (S (length ts)) d p c ts) as (n & rest & A & _); [lia|].
  rewrite A. eapply more_expr_le; [|exact A]. lia.
Qed.
Print Assumptions C19_bound_irrelevant.
Example C19_bound_irrelevant_case : p_expr read_num false FStandard 50 0 0 CxGlobal [(KBracket LParen, "("); (KLiteral, "a"); (KBracket RParen, ")")]
  = Some (NParen (NIdent "a"), []).
Proof. reflexivity. Qed.
