(** * What the hint of repeated derivations should say
    Written without the functions of Repeat.v that gather, sort and cover: of the model only the data types are used, and [visits], the list of
    the nodes of a tree. *)
From Coq Require Import Ascii String Bool List Arith.
From Verif Require Import Base Value Ast PreferMatch Repeat.
Import ListNotations.
Local Open Scope string_scope.
Local Open Scope nat_scope.
Local Open Scope list_scope.

(** The nodes that derive something. *)
Definition derives (n : node) : Prop :=
  (exists a o b, n = NBinary a o b) \/ (exists a o, n = NUnary a o) \/ (exists c t f, n = NCond c t f) \/ (exists k l, n = NCall k l) \/
  (exists k x l, n = NMethod k x l) \/ (exists l r a b, n = NInterval l r a b) \/ (exists x f t, n = NSlice x f t) \/ (exists l, n = NTemplate l) \/
  (exists x l, n = NObject (x :: l)) \/ (exists x l, n = NArray (x :: l)).
(** How many nodes of a list derive something. *)
Inductive deriving : list node -> nat -> Prop :=
| deriving_nil : deriving [] 0
| deriving_one : forall n l k, derives n -> deriving l k -> deriving (n :: l) (S k)
| deriving_skip : forall n l k, ~ derives n -> deriving l k -> deriving (n :: l) k.

Section Spec.
  Variable space : ascii -> bool.
  Variable ast : string -> option node.
  Variable span_of : string -> nat -> option span.
  Variable members : list string.
  Variable parsed : string -> option (list rblock).

  (** A derivation of the unit: where it stands, its characters, its tree. *)
  Record derivation := Derivation { de_site : site; de_span : span; de_chars : list ascii; de_node : node }.
  (** The position of a derivation: policy, block, expression, node. *)
  Definition position := (string * (nat * (nat * nat)))%type.
  Definition piece (s : string) (p : span) : list ascii := firstn (snd p - fst p) (skipn (fst p) (list_ascii_of_string s)).
  Inductive at_position : position -> derivation -> Prop :=
  | a_derivation : forall path bs i b j l root h n p,
      In path members -> parsed path = Some bs -> nth_error bs i = Some b -> rb_table b = false -> nth_error (rb_exprs b) j = Some l -> lo_standard l = true ->
      ast (lo_source l) = Some root -> nth_error (visits root) h = Some n -> derives n -> span_of (lo_source l) h = Some p ->
      at_position (path, (i, (j, h))) (Derivation (path, (rb_id b, lo_id l)) p (piece (lo_source l) p) n).
  (** Its text without white space: derivations with the same text are taken for the same. *)
  Definition text (d : derivation) : list ascii := filter (fun c => negb (space c)) (de_chars d).
  Definition same (d e : derivation) : Prop := text d = text e.
  (** The size of a derivation: the operations in it. *)
  Definition size (d : derivation) (n : nat) : Prop := deriving (visits (de_node d)) n.
  (** One stands within the other in the same expression. *)
  Definition lies_in (s : site) (p : span) (t : site) (q : span) : Prop := s = t /\ fst q <= fst p /\ snd p <= snd q.
  (** A text that is too short is not looked at. *)
  Definition counted (q : position) (d : derivation) : Prop := at_position q d /\ 6 <= length (text d).
  (** Different positions that derive the same as [d]. *)
  Definition copies (d : derivation) (qs : list position) : Prop := NoDup qs /\ forall q, In q qs -> exists e, counted q e /\ same e d.

  (** A text on one line: its words, what white space separates, with one blank between two of them. *)
  Inductive on_one_line : list ascii -> list ascii -> Prop :=
  | no_word : forall s, Forall (fun c => space c = true) s -> on_one_line s []
  | last_word : forall s w e, Forall (fun c => space c = true) s -> w <> [] -> Forall (fun c => space c = false) w -> Forall (fun c => space c = true) e -> on_one_line (s ++ w ++ e) w
  | a_word : forall s w c r line, Forall (fun c => space c = true) s -> w <> [] -> Forall (fun c => space c = false) w -> space c = true -> line <> [] ->
      on_one_line r line -> on_one_line (s ++ w ++ c :: r) (w ++ " "%char :: line).
End Spec.
