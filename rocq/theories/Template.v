(** Templates: core/template/src (lexer.rs, parser.rs, interpreter.rs, lib.rs) and [Display for Variable] (types/src/variable/mod.rs:456-488). A source is a list of
    bytes: the delimiters are ASCII, so cutting between bytes is cutting between characters. White space at the ends is ASCII only (Table.v, [trim]). *)
From Coq Require Import String Ascii ZArith Bool List Arith.
From Verif Require Import Base Dec Value Heap Ast Ops Compiler Vm Eval Funcs Isolate Session Table.
Import ListNotations.
Local Open Scope list_scope.

Definition chars := list ascii.
(** lexer.rs:5-9. *)
Inductive ttok := TkText (s : chars) | TkOpen | TkClose.
(** lexer.rs:56-61 [flush]: [text_start] is set exactly when some text has been read. *)
Definition flush (acc : chars) (l : list ttok) : list ttok := match acc with [] => l | _ :: _ => TkText acc :: l end.
(** lexer.rs:35-54 [collect]; [acc]: the text since [text_start]. *)
Fixpoint tlex (acc s : chars) : list ttok :=
  match s with
  | [] => flush acc []
  | c :: r =>
      if Ascii.eqb c "{"%char then
        match r with
        | d :: r2 => if Ascii.eqb d "{"%char then flush acc (TkOpen :: tlex [] r2) else tlex (acc ++ [c]) r
        | [] => tlex (acc ++ [c]) r
        end
      else if Ascii.eqb c "}"%char then
        match r with
        | d :: r2 => if Ascii.eqb d "}"%char then flush acc (TkClose :: tlex [] r2) else tlex (acc ++ [c]) r
        | [] => tlex (acc ++ [c]) r
        end
      else tlex (acc ++ [c]) r
  end.
(** parser.rs:7-10. *)
Inductive tnode := NText (s : chars) | NExpr (s : chars).
(** parser.rs:40-76 [collect]; [inside]: the state Expression. The state at the end is not tested. *)
Fixpoint tparse (inside : bool) (l : list ttok) : res (list tnode) :=
  match l with
  | [] => Ok []
  | TkText s :: l => do ns <- tparse inside l; Ok ((if inside then NExpr s else NText s) :: ns)
  | TkOpen :: l => if inside then Err (EOp "Open bracket") else tparse true l
  | TkClose :: l => if inside then tparse false l else Err (EOp "Close bracket")
  end.

(** variable/mod.rs:456-488, with the text of dates and intervals as a parameter. Strings are not escaped. *)
Section Show.
  Variable sd : dyn -> string.
  Fixpoint sep (l : list string) : string := match l with [] => "" | [x] => x | x :: r => x ++ "," ++ sep r end.
  Definition quoted (s : string) : string := String "034" (s ++ String "034" "").
  Fixpoint show_tree (t : tree) : string :=
    match t with
    | TNull => "null"
    | TBool b => if b then "true" else "false"
    | TNum d => dec_to_string d
    | TStr s => quoted s
    | TArr a => "[" ++ sep (map show_tree a) ++ "]"
    | TObj m => "{" ++ sep (map (fun e => quoted (fst e) ++ ":" ++ show_tree (snd e)) m) ++ "}"
    | TDyn d => sd d
    end%string.
  (** interpreter.rs:87-92 [var_to_string]. *)
  Definition bare_text (t : tree) : string := match t with TStr s => s | t => show_tree t end.
End Show.

Section Render.
  Variable X : ext.
  Variable parse : ekind -> string -> res node.
  Variable sd : dyn -> string.
  (** Fuel for reading a value: [to_string] on a cyclic value does not stop. *)
  Variable fuel : nat.
  (** interpreter.rs:10-13. *)
  Inductive tres := RText (s : chars) | RVal (v : value).
  (** interpreter.rs:40-50, 76-85: all expressions run in one isolate, in order. *)
  Fixpoint tinterp (ns : list tnode) (s : session) (h : heap) : heap * res (list tres) :=
    match ns with
    | [] => (h, Ok [])
    | NText t :: ns => let (h1, r) := tinterp ns s h in (h1, do rs <- r; Ok (RText t :: rs))
    | NExpr e :: ns =>
        match s_std X parse (string_of_list_ascii e) s h with
        | (h1, Err e) => (h1, Err e)
        | (h1, Ok v) => let (h2, r) := tinterp ns s h1 in (h2, do rs <- r; Ok (RVal v :: rs))
        end
    end.
  Definition text_of (h : heap) (r : tres) : option string :=
    match r with RText t => Some (string_of_list_ascii t) | RVal v => option_map (bare_text sd) (reify fuel h v) end.
  Fixpoint join_all (h : heap) (l : list tres) : option string :=
    match l with
    | [] => Some EmptyString
    | r :: l => match text_of h r, join_all h l with Some a, Some b => Some (a ++ b)%string | _, _ => None end
    end.
  (** interpreter.rs:52-73. *)
  Definition tresult (h : heap) (rs : list tres) : res value :=
    match rs with
    | [] => Ok VNull
    | [RVal v] => Ok v
    | [RText t] => Ok (VStr (string_of_list_ascii t))
    | _ => match join_all h rs with Some s => Ok (VStr s) | None => Err (EPanic "does not stop") end
    end.
  (** lib.rs:15-20 [render]. *)
  Definition render (template : string) (ctx : value) (h : heap) : heap * res value :=
    match tparse false (tlex [] (trim template)) with
    | Err e => (h, Err e)
    | Ok ns =>
        match tinterp ns (s_open ctx) h with
        | (h1, Err e) => (h1, Err e)
        | (h1, Ok rs) => (h1, tresult h1 rs)
        end
    end.
End Render.
