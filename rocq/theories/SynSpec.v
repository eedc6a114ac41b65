(** What the claims about reading expressions are stated with. *)
From Coq Require Import String Ascii ZArith Lia Bool List Arith.
From Verif Require Import Base Dec Value Ast Lexer.
Import ListNotations.
Local Open Scope string_scope.
Local Open Scope nat_scope.

(** Only blanks: spaces, newlines, tabs. *)
Fixpoint blank (s : string) : Prop :=
  match s with
  | EmptyString => True
  | String c r => (c = " "%char \/ c = "010"%char \/ c = "009"%char) /\ blank r
  end.

(** [covers i s ts]: the text [s], which begins at offset [i] of the source, is made of the tokens [ts] in
    order and blanks between them; every token's value is the text it covers and its span is exactly
    where that text stands. *)
Inductive covers : nat -> string -> list token -> Prop :=
| cov_nil : forall i ws, blank ws -> covers i ws []
| cov_tok : forall i ws txt s t ts,
    blank ws ->
    tk_value t = txt ->
    tk_span t = (i + String.length ws, i + String.length ws + String.length txt) ->
    covers (i + String.length ws + String.length txt) s ts ->
    covers i (ws ++ txt ++ s) (t :: ts).

(** [spells s ts]: as above without the spans. *)
Inductive spells : string -> list token -> Prop :=
| sp_nil : forall ws, blank ws -> spells ws []
| sp_tok : forall ws s t ts, blank ws -> spells s ts -> spells (ws ++ tk_value t ++ s) (t :: ts).

(** A token list without template strings. *)
Definition no_template (ts : list token) : Prop := forall t, In t ts -> tk_kind t <> KQuote QBacktick.

(** Template strings properly closed: a backtick opens, text and [${ ... }] follow, a backtick outside
    [${ ... }] closes. A closing backtick that is not in the source has an empty span. *)
Inductive tstate := Outside | InText | InExpr.
Definition tstep (st : tstate) (t : token) : option tstate :=
  match tk_kind t, st with
  | KQuote QBacktick, Outside => Some InText
  | KQuote QBacktick, InText => if fst (tk_span t) <? snd (tk_span t) then Some Outside else None
  | KQuote QBacktick, InExpr => None
  | KTplStart, InText => Some InExpr
  | KTplStart, _ => None
  | KTplEnd, InExpr => Some InText
  | KTplEnd, _ => None
  | _, _ => Some st
  end.
Fixpoint tsteps (st : tstate) (ts : list token) : option tstate :=
  match ts with
  | [] => Some st
  | t :: r => match tstep st t with Some st' => tsteps st' r | None => None end
  end.
Definition templates_closed (ts : list token) : Prop := tsteps Outside ts = Some Outside.

(** A number as it is written: a digit, digits and underscores, perhaps a dot and more of them, perhaps an exponent with at
    least one digit. *)
Fixpoint chars (P : ascii -> Prop) (s : string) : Prop := match s with EmptyString => True | String c r => P c /\ chars P r end.
Definition dec_digit (c : ascii) : Prop := 48 <= nat_of_ascii c <= 57.
Definition num_char (c : ascii) : Prop := dec_digit c \/ c = "_"%char.
Definition numeral (s : string) : Prop :=
  exists c a f e, s = String c (a ++ f ++ e) /\ dec_digit c /\ chars num_char a /\
    (f = "" \/ exists b, f = String "." b /\ chars num_char b) /\
    (e = "" \/ exists sg d ds, e = String "e" (sg ++ String d ds) /\ (sg = "" \/ sg = "+" \/ sg = "-") /\ dec_digit d /\ chars dec_digit ds).
