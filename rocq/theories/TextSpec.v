(** Texts of expressions. *)
From Coq Require Import String List.
From Verif Require Import Base Value Ast Lexer Parser.

(** No quoted text of the source is just [$root]. *)
Definition root_unquoted (src : string) : Prop := forall ts, lex src = Some (Ok ts) -> forall t, In t ts -> tk_kind t = KLiteral -> tk_value t <> "$root"%string.
