(** What the hints about decision tables are expected to mean. *)
From Coq Require Import String Bool List Arith Permutation.
From Verif Require Import Base Value Heap Ast Ops HeapSpec Isolate Session Blocks BlocksSpec PTable PTableSpec.
From Verif Require Table.
Import ListNotations.
Local Open Scope string_scope.
Local Open Scope nat_scope.
Local Open Scope list_scope.

(** The table without some of its rows, and without one of its input columns. *)
Fixpoint keep_rows (i : nat) (ks : list nat) (rs : list row) : list row :=
  match rs with
  | [] => []
  | r :: rs => if existsb (Nat.eqb i) ks then keep_rows (S i) ks rs else r :: keep_rows (S i) ks rs
  end.
Definition without_rows (ks : list nat) (t : ptable) : ptable := PTbl (pt_in t) (pt_out t) (keep_rows 0 ks (pt_rows t)).
Definition without_column (k : nat) (t : ptable) : ptable := PTbl (firstn k (pt_in t) ++ skipn (S k) (pt_in t)) (pt_out t) (pt_rows t).

(** No cell begins or ends with white space. *)
Definition tidy (t : ptable) : Prop := forall r k s, In r (pt_rows t) -> aget k r = Some s -> string_of_list_ascii (Table.trim s) = s.
(** The cells of one row, up to white space around them: a missing cell is an empty one. *)
Definition bare (r : row) (k : string) : string := match aget k r with Some s => string_of_list_ascii (Table.trim s) | None => "" end.
(** Row [e] asks no more than row [l]: every input cell of [e] is empty or the same as [l]'s. *)
Definition asks_less (t : ptable) (e l : row) : Prop := forall c, In c (pt_in t) -> bare e (ic_id c) = "" \/ bare e (ic_id c) = bare l (ic_id c).
(** The two rows ask the same. *)
Definition asks_same (t : ptable) (e l : row) : Prop := forall c, In c (pt_in t) -> bare e (ic_id c) = bare l (ic_id c).
Definition same_row (t : ptable) (e l : row) : Prop :=
  (forall c, In c (pt_in t) -> bare e (ic_id c) = bare l (ic_id c)) /\ (forall o, In o (pt_out t) -> bare e (pc_id o) = bare l (pc_id o)).
(** A row with a value for every column that is written. *)
Definition full_row (t : ptable) (r : row) : Prop := forall o, In o (active t) -> cell_text (pc_id o) r <> None.
(** Tables the hints are about: some inputs, some outputs, nothing collected. *)
Definition one_hit (t : ptable) : Prop := pt_in t <> [] /\ pt_out t <> [] /\ forall o, In o (pt_out t) -> pc_collect o = false.

(** Two tables that do the same in world [w]: both succeed or none does, and if they do, the data are the same afterwards. *)
Definition same_effect (X : ext) (parse : ekind -> string -> res node) (t t' : ptable) (w : pworld) : Prop :=
  forall arrange extras w1 w2 q1 q2, (forall x, Permutation x (arrange x)) ->
  run_table X parse arrange extras t w = (w1, q1) -> run_table X parse arrange extras t' w = (w2, q2) ->
  ((exists l, q1 = Ok l) <-> (exists l, q2 = Ok l)) /\
  ((exists l, q1 = Ok l) -> forall k x, shows (pw_heap w1) (pw_store w) k x <-> shows (pw_heap w2) (pw_store w) k x).

(** Of the rows that would hold without column [k], no two differ in another column. *)
Definition rows_exclude (X : ext) (parse : ekind -> string -> res node) (h : heap) (ctx : value) (k : nat) (t : ptable) : Prop :=
  forall r r' c, In r (pt_rows t) -> In r' (pt_rows t) -> holds_row X parse h ctx (without_column k t) r = true ->
    holds_row X parse h ctx (without_column k t) r' = true -> In c (pt_in (without_column k t)) -> cell_text (ic_id c) r = cell_text (ic_id c) r'.
