(** What decision tables are expected to do. Every expression is judged on its own, in the context the table is given: not in whatever
    state the expressions before it have left behind. *)
From Coq Require Import String Ascii ZArith Lia Bool List Arith.
From Verif Require Import Base Dec Value Heap HeapSpec Ast Ops Compiler Funcs Isolate Session NodeSpec PureFacts RepFacts ContentFacts MemoFacts Table.
Import ListNotations.
Local Open Scope string_scope.
Local Open Scope list_scope.
Local Open Scope nat_scope.

(** The text of a cell, if it is not blank. *)
Definition text (id : string) (r : row) : option string :=
  match aget id r with
  | Some s => if String.eqb s "" then None else Some s
  | None => None
  end.
(** Columns with their numbers. *)
Definition numbered {A} (l : list A) : list (nat * A) := combine (seq 0 (length l)) l.

(** An output cell: column, path, is the column collected, and its expression or its value. *)
Record cell (A : Type) := Cell { cl_col : nat; cl_path : string; cl_coll : bool; cl_val : A }.
Arguments Cell {A}. Arguments cl_col {A}. Arguments cl_path {A}. Arguments cl_coll {A}. Arguments cl_val {A}.
(** The cells of a row that are written: the column has a path and the cell is not blank. *)
Definition written (os : list (nat * out_col)) (r : row) : list (cell string) :=
  flat_map (fun io => match text (oc_id (snd io)) r with
                      | Some src => if String.eqb (fst (write_path (snd io))) "" then []
                                    else [Cell (fst io) (fst (write_path (snd io))) (snd (write_path (snd io))) src]
                      | None => []
                      end) os.
Definition all_ok (cs : list (cell (option tree))) : bool := forallb (fun c => match cl_val c with Some _ => true | None => false end) cs.
(** The object with these cells written in order. *)
Definition write_all (cs : list (cell (option tree))) (t : tree) : tree :=
  fold_left (fun t c => match cl_val c with Some x => twrite (split_dot (cl_path c)) x t | None => t end) cs t.

Section Spec.
  Variable X : ext.
  Variable parse : ekind -> string -> res node.
  Variables (env : value) (nodes : option value) (h : heap).

  (** The table's input, and [$nodes] if given. *)
  Definition start : scope := Scope env (match nodes with Some n => [("$nodes", n)] | None => [] end).
  Definition is_true (r : res value) : bool := match r with Ok (VBool b) => b | _ => false end.
  (** Does an input cell hold? In a column without field the cell is a condition. Otherwise the field is evaluated and the cell tests its value. *)
  Definition cell_holds (c : in_col) (r : row) : bool :=
    match text (ic_id c) r with
    | None => true
    | Some src =>
        match ic_field c with
        | None => is_true (snd (srun X parse KStandard src start h))
        | Some f =>
            match srun X parse KStandard f start h with
            | (h1, Ok v) => is_true (snd (srun X parse KUnary src (set_local start "$" v) h1))
            | (_, Err _) => false
            end
        end
    end.
  Definition holds (t : table) (r : row) : bool := forallb (fun c => cell_holds c r) (tb_in t).
  (** The value of an expression, if it evaluates. *)
  Definition yields (src : string) (o : option tree) : Prop :=
    match srun X parse KStandard src start h with
    | (h1, Ok v) => exists t, o = Some t /\ repr h1 v t
    | (_, Err _) => o = None
    end.
  Definition cells_yield (cs : list (cell string)) (vs : list (cell (option tree))) : Prop :=
    Forall2 (fun c v => cl_col v = cl_col c /\ cl_path v = cl_path c /\ cl_coll v = cl_coll c /\ yields (cl_val c) (cl_val v)) cs vs.
  (** What a row says: its output if all its input cells hold and all its output cells evaluate, nothing otherwise. *)
  Definition row_says (t : table) (r : row) (o : option tree) : Prop :=
    exists vs, cells_yield (written (numbered (tb_out t)) r) vs /\
      o = if holds t r && all_ok vs then Some (write_all vs (TObj [])) else None.
  Fixpoint somes {A} (l : list (option A)) : list A :=
    match l with
    | [] => []
    | Some x :: r => x :: somes r
    | None :: r => somes r
    end.

  (** *** First hit with collected columns. The first row that holds and evaluates completely gives the other columns; it and every later
      row that holds and whose collected cells evaluate contribute to the collected columns. *)
  Definition collects (vs : list (cell (option tree))) : list (cell (option tree)) := filter cl_coll vs.
  Fixpoint scan (rs : list (bool * list (cell (option tree)))) : option (tree * list (cell (option tree))) :=
    match rs with
    | [] => None
    | (m, vs) :: rs =>
        if m && all_ok vs then
          Some (write_all (filter (fun c => negb (cl_coll c)) vs) (TObj []),
                collects vs ++ concat (map (fun mv => collects (snd mv)) (filter (fun mv => fst mv && all_ok (collects (snd mv))) rs)))
        else scan rs
    end.
  (** Each collected column holds the values contributed to it, in order. *)
  Definition collected (t : table) (vs : list (cell (option tree))) (start : tree) : tree :=
    fold_left (fun acc io => let (path, coll) := write_path (snd io) in
      if coll && negb (String.eqb path "") then twrite (split_dot path) (TArr (somes (map cl_val (filter (fun c => Nat.eqb (cl_col c) (fst io)) vs)))) acc else acc)
      (numbered (tb_out t)) start.

  (** *** The expressions of a table. *)
  Definition std_source (t : table) (src : string) : Prop :=
    (exists c, In c (tb_in t) /\ ic_field c = Some src) \/
    (exists c r, In c (tb_in t) /\ In r (tb_rows t) /\ ic_field c = None /\ text (ic_id c) r = Some src) \/
    (exists o r, In o (tb_out t) /\ In r (tb_rows t) /\ text (oc_id o) r = Some src).
  Definition unary_source (t : table) (f src : string) : Prop :=
    exists c r, In c (tb_in t) /\ In r (tb_rows t) /\ ic_field c = Some f /\ text (ic_id c) r = Some src.
  (** They assign nothing, and outside the cells that test a field they do not read [$] (or [$root], which shows it). *)
  Definition quiet (t : table) : Prop :=
    (forall src n, std_source t src -> parse KStandard src = Ok n -> no_assign n = true /\ reads not_dollar false n = true) /\
    (forall f src n, unary_source t f src -> parse KUnary src = Ok n -> no_assign n = true).
  (** None of them panics. *)
  Definition calm (t : table) : Prop :=
    (forall src m, std_source t src -> snd (srun X parse KStandard src start h) <> Err (EPanic m)) /\
    (forall f src h1 v m, unary_source t f src -> srun X parse KStandard f start h = (h1, Ok v) ->
       snd (srun X parse KUnary src (set_local start "$" v) h1) <> Err (EPanic m)).
End Spec.

(** A table in a context: the library's functions do not write to the data they are given; the context is data without cycles; the
    expressions of the table behave as above. *)
Definition in_order (L : lib) (parse : ekind -> string -> res node) (env : value) (nodes : option value) (h : heap) (t : table) : Prop :=
  plain_lib L /\ has_tree h env /\ (forall n, nodes = Some n -> has_tree h n) /\ quiet parse t /\ calm (std_ext L) parse env nodes h t.
(** Evaluating to a tree, leaving the data that was there as it was. *)
Definition gives (h : heap) (r : heap * res value) (t : tree) : Prop :=
  exists h1 v, r = (h1, Ok v) /\ repr h1 v t /\ forall l c, hget h l = Some c -> hget h1 l = Some c.
