(** What the cells of a decision table say: the specification for C20. *)
From Coq Require Import String Ascii ZArith QArith Lia Bool List Arith.
From Verif Require Import Base Dec Value Heap Ast Ops Compiler Vm Eval HeapSpec PureFacts RunSpec OpFacts FuncSpec Lexer Parser Print.
Import ListNotations.
Local Open Scope string_scope.
Local Open Scope list_scope.
Local Open Scope nat_scope.

(** The test [n] answers [b], whatever has been allocated since. *)
Definition answers (X : ext) (root : scope) (h : heap) (n : node) (b : bool) : Prop :=
  no_assign n = true /\ forall more, exists more', yields X n root (h ++ more) (Ok (VBool b)) (h ++ more ++ more').
Definition join_bool (j : joiner) (a b : bool) : bool := match j with JAnd => a && b | _ => a || b end.

(** A literal and its value. [nt]: how a number is written; [pn]: how the text of a number is read. *)
Definition readable (pn : string -> option dec) (nt : dec -> string) (x : dec) : Prop :=
  pn (nt x) = Some x /\ number_text (nt x).
Inductive literal (pn : string -> option dec) (nt : dec -> string) : node -> value -> Prop :=
| lit_null : literal pn nt NNull VNull
| lit_bool b : literal pn nt (NBool b) (VBool b)
| lit_num x : readable pn nt x -> literal pn nt (NNumber x) (VNum x)
| lit_str s : (if has_byte "'"%char s then has_byte """"%char s = false else True) -> literal pn nt (NString s) (VStr s).

(** [says r t P]: of the reference [r] the test [t] says [P]. *)
Inductive says (pn : string -> option dec) (nt : dec -> string) (r : value) : test -> Prop -> Prop :=
| says_cmp x c y : r = VNum x -> In c [CLt; CLe; CGt; CGe; CEq; CNe] -> readable pn nt y ->
    says pn nt r (TCmp c (NNumber y)) (num_holds c x y)
| says_equal n v : literal pn nt n v -> says pn nt r (TVal n) (scalar_eq r v)
| says_within x a b lb rb : r = VNum x -> readable pn nt a -> readable pn nt b -> opening lb -> closing rb ->
    says pn nt r (TVal (NInterval (NNumber a) (NNumber b) lb rb)) (above lb (dec_val a) (dec_val x) /\ below rb (dec_val b) (dec_val x))
| says_one_of ns vs : scalar r -> ns <> [] -> Forall2 (literal pn nt) ns vs ->
    says pn nt r (TVal (NArray ns)) (exists v, In v vs /\ scalar_eq r v).
