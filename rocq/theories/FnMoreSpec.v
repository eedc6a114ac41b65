(** Specifications for the further claims of C53: numbers of arguments, order of dates. *)
From Coq Require Import String ZArith List Arith.
From Verif Require Import Base Value Heap Ast Ops Funcs PureFacts RunSpec.
Import ListNotations.
Local Open Scope string_scope.
Local Open Scope list_scope.
Local Open Scope nat_scope.

(** How many arguments each function takes. *)
Definition takes (k : fkind) (n : nat) : Prop :=
  match k with
  | FInternal f =>
      match f with
      | FContains | FStartsWith | FEndsWith | FMatches | FExtract | FSplit | FFuzzyMatch => n = 2
      | FRound | FTrunc => n = 1 \/ n = 2
      | FDate => n <= 2
      | _ => n = 1
      end
  | FDeprecated s =>
      (In s ["date"; "time"; "duration"; "year"; "dayOfWeek"; "dayOfMonth"; "dayOfYear"; "weekOfYear"; "monthOfYear"; "monthString"; "dateString"; "weekdayString"] /\ n = 1) \/
      (In s ["startOf"; "endOf"] /\ n = 2)
  | FClosure _ => False
  end.
(** [a] is not later than [b]; an invalid date is before all valid ones. *)
Definition not_later (a b : vmdate) : Prop :=
  match vd_instant a, vd_instant b with None, _ => True | Some _, None => False | Some x, Some y => (x <= y)%Z end.

(** The text of a value in a template. *)
Inductive text_of : value -> string -> Prop :=
| TO_null : text_of VNull "null"
| TO_true : text_of (VBool true) "true"
| TO_false : text_of (VBool false) "false"
| TO_num : forall d, text_of (VNum d) (dec_to_string d)
| TO_str : forall s, text_of (VStr s) s.
(** The parts of a template from left to right, and the texts of their values one after the other. *)
Inductive spells (X : ext) (root : scope) : heap -> list node -> string -> heap -> Prop :=
| SP_end : forall h, spells X root h [] "" h
| SP_part : forall h n v s h1 r t h2, no_assign n = true -> yields X n root h (Ok v) h1 -> text_of v s -> spells X root h1 r t h2 ->
    spells X root h (n :: r) (s ++ t) h2.
