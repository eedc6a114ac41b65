(** Specifications for intervals, slices, closures and aggregates: on rational numbers and lists. *)
From Coq Require Import String Ascii ZArith QArith Lia Bool List Arith Permutation.
From Verif Require Import Base Dec Value Heap Ast Ops Eval.
Import ListNotations.
Local Open Scope nat_scope.

(** The bound written before [..] with an opening bracket, after it with a closing bracket. *)
Definition above (lb : bracket) (a x : Q) : Prop :=
  match lb with LParen => (a < x)%Q | LSquare => (a <= x)%Q | _ => False end.
Definition below (rb : bracket) (b x : Q) : Prop :=
  match rb with RParen => (x < b)%Q | RSquare => (x <= b)%Q | _ => False end.
(** Reversed brackets, as in [)a..b(] and []a..b[]. *)
Definition left_of (lb : bracket) (a x : Q) : Prop :=
  match lb with RParen => (x < a)%Q | RSquare => (x <= a)%Q | _ => False end.
Definition right_of (rb : bracket) (b x : Q) : Prop :=
  match rb with LParen => (b < x)%Q | LSquare => (b <= x)%Q | _ => False end.
Definition opening (b : bracket) : Prop := b = LParen \/ b = LSquare.
Definition closing (b : bracket) : Prop := b = RParen \/ b = RSquare.

(** Evaluating [body] on elements [0 .. k-1] of the array [arr] of length [n], in any memory extending
    [h0], gives a value related by [P] to the element's index. *)
Definition per_element (X : ext) (root : scope) (body : node) (arr : value) (n : nat) (h0 : heap)
  (P : nat -> value -> heap -> Prop) (k : nat) : Prop :=
  forall i c h, i < k -> hext h0 h ->
  exists v h1, eval X root [] [Loop arr n i c] body root h = ORet v root h1 /\ hext h h1 /\ P i v h1.
(** The body gives the i-th of these booleans / a value with the i-th of these contents. *)
Definition gives_bool (gs : list bool) (i : nat) (v : value) (_ : heap) : Prop :=
  exists b, nth_error gs i = Some b /\ v = VBool b.
Definition gives_tree (ts : list tree) (i : nat) (v : value) (h : heap) : Prop :=
  exists t, nth_error ts i = Some t /\ repr h v t.

Definition closure_call (c : closure) (a body : node) : node := NCall (FClosure c) [a; body].
Definition kept {A} (xs : list A) (gs : list bool) : list A := map fst (filter snd (combine xs gs)).

(** Sum and bounds of rational numbers. *)
Definition qsum (l : list Q) : Q := fold_right Qplus 0%Q l.

(** [flatMap]: a per-element result that is an array is spliced in, any other is kept. *)
Definition spliced (ts : list tree) : list tree :=
  flat_map (fun t => match t with TArr a => a | _ => [t] end) ts.

(** Aggregates of a list of numbers, by value. *)
Definition least (ns : list dec) (m : dec) : Prop :=
  In m ns /\ forall x, In x ns -> (dec_val m <= dec_val x)%Q.
Definition greatest (ns : list dec) (m : dec) : Prop :=
  In m ns /\ forall x, In x ns -> (dec_val x <= dec_val m)%Q.
Definition within (ns : list dec) (q : Q) : Prop :=
  exists lo hi, In lo ns /\ In hi ns /\ (dec_val lo <= q <= dec_val hi)%Q.
(** Every addition on the way from [acc] through [ns] is exact (no overflow, no rounding). *)
Fixpoint exact_sums (add : dec -> dec -> option dec) (acc : dec) (ns : list dec) : Prop :=
  match ns with
  | [] => True
  | x :: r => exists s, add acc x = Some s /\ (dec_val s == dec_val acc + dec_val x)%Q /\ exact_sums add s r
  end.
(** Some addition on the way from [acc] through [ns] has no representable result. *)
Inductive overflows (add : dec -> dec -> option dec) : dec -> list dec -> Prop :=
| over_here : forall acc x r, add acc x = None -> overflows add acc (x :: r)
| over_later : forall acc x r s, add acc x = Some s -> overflows add s r -> overflows add acc (x :: r).
(** The mean of any two elements is computed exactly. *)
Definition exact_means (add div : dec -> dec -> option dec) (ns : list dec) : Prop :=
  forall a b, In a ns -> In b ns ->
  exists s m, add a b = Some s /\ div s (dec_of_Z 2) = Some m /\
    (dec_val m == (dec_val a + dec_val b) / inject_Z 2)%Q.
Definition by_value (a b : dec) : Prop := (dec_val a == dec_val b)%Q.
Definition sorted_by_value (s : list dec) : Prop :=
  forall i j a b, i < j -> nth_error s i = Some a -> nth_error s j = Some b -> (dec_val a <= dec_val b)%Q.
(** The middle of the sorted numbers: the central one, or the mean of the central two. *)
Definition is_median (ns : list dec) (q : Q) : Prop :=
  exists s, Permutation ns s /\ sorted_by_value s /\
  ((exists k m, length s = 2 * k + 1 /\ nth_error s k = Some m /\ (q == dec_val m)%Q) \/
   (exists k a b, length s = 2 * (k + 1) /\ nth_error s k = Some a /\ nth_error s (k + 1) = Some b /\
     (q == (dec_val a + dec_val b) / inject_Z 2)%Q)).
Definition occurrences (x : dec) (ns : list dec) : nat := length (filter (dec_eqb x) ns).
(** A most frequent number; the greatest of them when several are equally frequent. *)
Definition is_mode (ns : list dec) (m : dec) : Prop :=
  In m ns /\ forall x, In x ns ->
  occurrences x ns < occurrences m ns \/
  (occurrences x ns = occurrences m ns /\ (dec_val x <= dec_val m)%Q).
Definition agg (f : ifun) (a : node) : node := NCall (FInternal f) [a].

(** Bytes [a..=b] of [s]: the result has that length and those bytes. *)
Definition is_slice (s : string) (a b : nat) (r : string) : Prop :=
  String.length r = b + 1 - a /\ forall i, i < b + 1 - a -> String.get i r = String.get (a + i) s.
(** Both ends in range and on character boundaries; [a = b + 1] gives the empty slice. *)
Definition sliceable (s : string) (a b : nat) : Prop :=
  a <= b + 1 <= String.length s /\ is_char_boundary s a = true /\ is_char_boundary s (b + 1) = true.
(** A number that is exactly the natural [n] and fits 64 bits. *)
Definition u64_of (d : dec) (n : nat) : Prop := (dec_val d == inject_Z (Z.of_nat n))%Q /\ (Z.of_nat n < 2 ^ 64)%Z.
