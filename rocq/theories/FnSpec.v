(** What the built-in functions mean: the specification for C53. *)
From Coq Require Import String Ascii ZArith QArith Qabs Lia Bool List Arith.
From Verif Require Import Base Dec Value Heap Ast Ops Compiler Vm Eval Funcs HeapSpec PureFacts RunSpec.
Import ListNotations.
Local Open Scope string_scope.
Local Open Scope list_scope.
Local Open Scope nat_scope.

(** The argument expressions [ns], evaluated from left to right, give [vs]. *)
Inductive arguments (X : ext) (root : scope) : list node -> heap -> list value -> heap -> Prop :=
| args_nil h : arguments X root [] h [] h
| args_cons n ns v vs h h1 h2 : no_assign n = true -> yields X n root h (Ok v) h1 -> arguments X root ns h1 vs h2 ->
    arguments X root (n :: ns) h (v :: vs) h2.
(** Calling [f] on arguments of values [vs] in memory [h2] gives [r] and leaves memory [h3]. *)
Definition call_gives (L : lib) (f : ifun) (vs : list value) (h2 : heap) (r : res value) (h3 : heap) : Prop :=
  forall ns root h, arguments (std_ext L) root ns h vs h2 -> yields (std_ext L) (NCall (FInternal f) ns) root h r h3.

(** ** Numbers *)
(** 10^-p. *)
Definition unit_at (p : nat) : Q := Qmake 1 (Z.to_pos (pow10 p)).
Definition multiple_of (y u : Q) : Prop := exists k : Z, (y == inject_Z k * u)%Q.
(** [y] is the multiple of [u] nearest to [x]; halfway, the one further from zero. *)
Definition rounded (u x y : Q) : Prop :=
  (multiple_of y u /\ Qabs (y - x) * 2 <= u /\ (Qabs (y - x) * 2 == u -> Qabs x < Qabs y))%Q.
(** [y] is [x] cut to a multiple of [u], towards zero. *)
Definition truncated (u x y : Q) : Prop := (multiple_of y u /\ Qabs y <= Qabs x /\ Qabs (x - y) < u /\ 0 <= x * y)%Q.

(** ** Text *)
(** [s] cut at [sep]: every piece but the last ends where [sep] first occurs. *)
Inductive split_by (sep : string) : string -> list string -> Prop :=
| sb_last s : (forall pre post, s <> (pre ++ sep ++ post)%string) -> split_by sep s [s]
| sb_more p rest l : (forall pre post, (p ++ sep)%string = (pre ++ sep ++ post)%string -> post = "") -> split_by sep rest l ->
    split_by sep (p ++ sep ++ rest)%string (p :: l).
Fixpoint concat_all (l : list string) : string := match l with [] => "" | x :: r => (x ++ concat_all r)%string end.

(** Reading a numeral: an optional minus sign, digits, optionally a dot and digits. The result is the mantissa and
    the number of fractional digits. *)
Definition digit_val (c : ascii) : option Z :=
  let n := nat_of_ascii c in if (48 <=? n) && (n <=? 57) then Some (Z.of_nat (n - 48)) else None.
Fixpoint read_frac (acc : Z) (k : nat) (s : string) : option (Z * nat) :=
  match s with
  | EmptyString => Some (acc, k)
  | String c r => match digit_val c with Some d => read_frac (10 * acc + d)%Z (S k) r | None => None end
  end.
Fixpoint read_unsigned (acc : Z) (s : string) : option (Z * nat) :=
  match s with
  | EmptyString => Some (acc, 0)
  | String c r => if Ascii.eqb c "." then read_frac acc 0 r
                  else match digit_val c with Some d => read_unsigned (10 * acc + d)%Z r | None => None end
  end.
Definition read_numeral (s : string) : option (Z * nat) :=
  match s with
  | String c r => if Ascii.eqb c "-" then option_map (fun p => (- fst p, snd p)%Z) (read_unsigned 0 r) else read_unsigned 0 s
  | EmptyString => None
  end.

(** ** Objects and arrays *)
(** The value of a key in the last object that has it. *)
Fixpoint last_value (k : string) (ms : list (amap value)) : option value :=
  match ms with
  | [] => None
  | m :: r => match last_value k r with Some v => Some v | None => aget k m end
  end.
(** Deep merge of two documents: objects key by key, arrays one after the other, otherwise the second. *)
Fixpoint tdeep (base patch : tree) {struct patch} : tree :=
  match base, patch with
  | TObj b, TObj p =>
      TObj ((fix go p acc := match p with
             | [] => acc
             | (k, x) :: r => go r (aset k (match aget k acc with Some e => tdeep e x | None => x end) acc)
             end) p b)
  | TArr a, TArr b => TArr (a ++ b)
  | _, _ => patch
  end.
