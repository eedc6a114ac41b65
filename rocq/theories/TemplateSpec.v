(** What a template is: texts and expressions between double braces. *)
From Coq Require Import String Ascii ZArith Bool List Arith.
From Verif Require Import Base Dec Value Heap Ast Ops Compiler Vm Eval Funcs Isolate Session Table Template.
Import ListNotations.
Local Open Scope list_scope.
Local Open Scope char_scope.

Inductive piece := Txt (t : chars) | Exp (e : chars).
Definition opens : chars := ["{"; "{"].
Definition closes : chars := ["}"; "}"].
(** How it is written. [closed]: the last expression is closed. *)
Fixpoint written (closed : bool) (ps : list piece) : chars :=
  match ps with
  | [] => []
  | Txt t :: ps => t ++ written closed ps
  | [Exp e] => opens ++ e ++ (if closed then closes else [])
  | Exp e :: ps => opens ++ e ++ closes ++ written closed ps
  end.
(** Two braces in a row. *)
Definition pair_in (c : ascii) (s : chars) : Prop := exists a b, s = a ++ c :: c :: b.
Definition ends_in (c : ascii) (s : chars) : Prop := exists a, s = a ++ [c].
Definition plain (s : chars) : Prop := ~ pair_in "{" s /\ ~ pair_in "}" s.
(** No text or expression contains double braces, texts are not empty and not adjacent, a text before an expression does not end in an opening brace, a closed expression
    does not end in a closing brace. *)
Fixpoint well_written (closed : bool) (ps : list piece) : Prop :=
  match ps with
  | [] => True
  | Txt t :: ps => t <> [] /\ plain t /\ match ps with [] => True | Txt _ :: _ => False | Exp _ :: _ => ~ ends_in "{" t end /\ well_written closed ps
  | [Exp e] => plain e /\ (closed = true -> ~ ends_in "}" e)
  | Exp e :: ps => plain e /\ ~ ends_in "}" e /\ well_written closed ps
  end.
(** Empty expressions are ignored. *)
Fixpoint parts (ps : list piece) : list tnode :=
  match ps with
  | [] => []
  | Txt t :: ps => NText t :: parts ps
  | Exp [] :: ps => parts ps
  | Exp e :: ps => NExpr e :: parts ps
  end.
(** Evaluating the parts from left to right, each expression in the memory the one before it left. *)
Section Evals.
  Variables (X : ext) (parse : ekind -> string -> res node) (ctx : value).
  Inductive part_values : list tnode -> heap -> heap -> list (chars + value) -> Prop :=
  | PvNil : forall h, part_values [] h h []
  | PvText : forall t ns h h1 vs, part_values ns h h1 vs -> part_values (NText t :: ns) h h1 (inl t :: vs)
  | PvExpr : forall e ns h h1 h2 v vs, srun X parse KStandard (string_of_list_ascii e) (scope_new ctx) h = (h1, Ok v) -> part_values ns h1 h2 vs ->
      part_values (NExpr e :: ns) h h2 (inr v :: vs).
End Evals.
(** The text of a value: JSON without escapes and without spaces; [sd] writes dates and intervals. *)
Inductive value_text (sd : dyn -> string) : tree -> string -> Prop :=
| VtNull : value_text sd TNull "null"
| VtTrue : value_text sd (TBool true) "true"
| VtFalse : value_text sd (TBool false) "false"
| VtNum : forall d, value_text sd (TNum d) (dec_to_string d)
| VtStr : forall s, value_text sd (TStr s) ("""" ++ s ++ """")
| VtArr : forall a ss, Forall2 (value_text sd) a ss -> value_text sd (TArr a) ("[" ++ String.concat "," ss ++ "]")
| VtObj : forall m ss, Forall2 (fun e s => exists x, value_text sd (snd e) x /\ s = """" ++ fst e ++ """:" ++ x)%string m ss -> value_text sd (TObj m) ("{" ++ String.concat "," ss ++ "}")
| VtDyn : forall d, value_text sd (TDyn d) (sd d).
(** The text a part shows: strings as they are, other values as their text. *)
Definition shows (sd : dyn -> string) (h : heap) (p : chars + value) (s : string) : Prop :=
  match p with
  | inl t => s = string_of_list_ascii t
  | inr v => exists t, repr h v t /\ ((exists x, t = TStr x /\ s = x) \/ ((forall x, t <> TStr x) /\ value_text sd t s))
  end.
Fixpoint depth (t : tree) : nat :=
  match t with
  | TArr a => S (fold_right (fun x n => Nat.max (depth x) n) 0 a)
  | TObj m => S (fold_right (fun e n => Nat.max (depth (snd e)) n) 0 m)
  | _ => 1
  end.
(** Spaces around a template are ignored: the template [t] is [body] between spaces. *)
Definition tidy (s : chars) : Prop := forall c r, s = c :: r \/ s = r ++ [c] -> is_space c = false.
Definition body_of (t : string) (body : chars) : Prop :=
  tidy body /\ exists a b, list_ascii_of_string t = a ++ body ++ b /\ forallb is_space a = true /\ forallb is_space b = true.
