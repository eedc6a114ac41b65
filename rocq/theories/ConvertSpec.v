(** What a JSON document says and how a value agrees with it: the specification for C50. *)
From Coq Require Import String Ascii ZArith QArith Bool List Arith.
From Verif Require Import Base Dec Value Json FnSpec Convert.
Import ListNotations.
Local Open Scope string_scope.
Local Open Scope list_scope.

(** The part of a value at a place. *)
Fixpoint tget (p : list step) (t : tree) : option tree :=
  match p with
  | [] => Some t
  | Key k :: p => match t with TObj m => match aget k m with Some x => tget p x | None => None end | _ => None end
  | At i :: p => match t with TArr l => match nth_error l i with Some x => tget p x | None => None end | _ => None end
  end.
(** The number that a number without exponent denotes: its digits and how many of them are after the point. *)
Definition num_parts (n : num) : option (Z * nat) := match n with NInt z => Some (z, 0%nat) | NFloat s => read_numeral s end.
Definition num_val (n : num) : option Q := option_map (fun p => dec_val (Dec (fst p) (snd p))) (num_parts n).
(** At most 96 bits and 28 digits after the point. *)
Definition in_range (n : num) : Prop := exists m k, num_parts n = Some (m, k) /\ (Z.abs m < 2 ^ 96)%Z /\ (k <= 28)%nat.
Definition has_num (j : json) (n : num) : Prop := exists p, jget p j = Some (JNum n).
(** The same kind of thing, with the same size or keys; numbers are compared by [R]. *)
Definition alike (R : num -> tree -> Prop) (j : json) (t : tree) : Prop :=
  match j with
  | JNull => t = TNull
  | JBool b => t = TBool b
  | JNum n => R n t
  | JStr s => t = TStr s
  | JArr l => exists ts, t = TArr ts /\ length ts = length l
  | JObj m => exists ts, t = TObj ts /\ forall k, In k (map fst m) <-> In k (map fst ts)
  end.
(** At every place. *)
Definition agree (R : num -> tree -> Prop) (j : json) (t : tree) : Prop :=
  forall p, match jget p j, tget p t with Some a, Some b => alike R a b | None, None => True | _, _ => False end.
(** The value [t] is the document [j]: every number is the same rational number. *)
Definition means : json -> tree -> Prop := agree (fun n t => exists d q, t = TNum d /\ num_val n = Some q /\ (q == dec_val d)%Q).
(** Two documents that differ in how they write numbers only. *)
Definition same_doc (a b : json) : Prop :=
  forall p, match jget p a, jget p b with
            | Some (JNum x), Some (JNum y) => exists q r, num_val x = Some q /\ num_val y = Some r /\ (q == r)%Q
            | Some (JArr l), Some (JArr l1) => length l = length l1
            | Some (JObj m), Some (JObj m1) => forall k, In k (map fst m) <-> In k (map fst m1)
            | x, y => x = y
            end.
(** No dynamic value (a date or an interval) inside. *)
Definition static (t : tree) : Prop := forall p d, tget p t <> Some (TDyn d).
Definition numbers_fit (t : tree) : Prop := forall p d, tget p t = Some (TNum d) -> (Z.abs (mant d) < 2 ^ 96)%Z /\ (scale d <= 28)%nat.
(** No object begins with the key that stands for a number. *)
Definition no_token (j : json) : Prop := forall p k x m, jget p j = Some (JObj ((k, x) :: m)) -> k <> number_token.
(** Reading [j] gives the value [t], whatever is in memory, and changes nothing that was there. *)
Definition reads (sci : num -> option dec) (j : json) (t : tree) : Prop := forall h, exists h1 v, read_json sci j h = (h1, Ok v) /\ repr h1 v t /\ hext h h1.
