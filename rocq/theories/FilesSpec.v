(** * What C76 says, without the loader *)
From Coq Require Import String Ascii List Arith Bool.
Import ListNotations.
From Verif Require Import Base Files.
Local Open Scope string_scope.
Local Open Scope nat_scope.
Local Open Scope list_scope.

(** A name that a file can have. *)
Definition file_name (n : string) : Prop := n <> "" /\ n <> "." /\ n <> ".." /\ ~ In "/"%char (list_ascii_of_string n).
(** Walking down from an entry by names, one reaches another. *)
Inductive under {C} : entry C -> list string -> entry C -> Prop :=
| U_here : forall e, under e [] e
| U_in : forall l n e ns f, In (n, e) l -> under e ns f -> under (Dir l) (n :: ns) f.
(** A file system: in every directory, names are names and no two entries have the same. *)
Definition file_system {C} (fs : entry C) : Prop :=
  forall ns l, under fs ns (Dir l) -> NoDup (map fst l) /\ forall n, In n (map fst l) -> file_name n.
(** Names written with slashes between them. *)
Fixpoint slashed (ns : list string) : string :=
  match ns with [] => "" | [n] => n | n :: r => (n ++ "/" ++ slashed r)%string end.
Definition json_name (n : string) : Prop := exists b, b <> "" /\ (n = b ++ ".json")%string.
(** A key that does not leave the directory by itself: not absolute, no part is two dots. *)
Definition tame (key : string) : Prop :=
  (forall r, (key <> "/" ++ r)%string) /\ ~ exists a b, (a = "" \/ exists x, (a = x ++ "/")%string) /\ (b = "" \/ exists y, (b = "/" ++ y)%string) /\ (key = a ++ ".." ++ b)%string.
(** What a loader makes of an entry. *)
Definition answers {C} (e : option (entry C)) (r : loaded C) : Prop :=
  match e with
  | Some (File (Some c)) => r = Found c
  | Some (File None) | Some (Dir _) => r = Internal
  | None => r = NotFound
  end.
