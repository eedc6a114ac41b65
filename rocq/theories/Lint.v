(** Hints for the decision tables of policies. Models core/engine/src/policy/linter/table_hygiene.rs.
    Simplifications: a hint keeps the numbers of the rows or of the column, not its text, which follows from them; names of columns are left
    out. *)
From Coq Require Import String Bool List Arith.
From Verif Require Import Base PTable.
From Verif Require Table.
Import ListNotations.
Local Open Scope string_scope.
Local Open Scope nat_scope.
Local Open Scope list_scope.

(** 19-22 [RowView]. *)
Record rview := RView { rv_in : list string; rv_out : list string }.
(** 59-63 [cell]. *)
Definition lint_cell (r : row) (id : string) : string :=
  match aget id r with Some s => string_of_list_ascii (Table.trim s) | None => "" end.
(** 47-54. *)
Definition row_view (t : ptable) (r : row) : rview :=
  RView (map (fun c => lint_cell r (ic_id c)) (pt_in t)) (map (fun o => lint_cell r (pc_id o)) (pt_out t)).
(** 25-57 [first_hit]: only for tables without collected columns, with inputs and outputs. *)
Definition first_hit (t : ptable) : option (list rview) :=
  match pt_out t, pt_in t with
  | [], _ => None
  | _, [] => None
  | _, _ => if existsb pc_collect (pt_out t) then None else Some (map (row_view t) (pt_rows t))
  end.
(** 65-71 [shadows]. *)
Fixpoint cells_shadow (e l : list string) : bool :=
  match e, l with
  | x :: e, y :: l => (String.eqb x "" || String.eqb x y) && cells_shadow e l
  | _, _ => true
  end.
Definition shadows (e l : rview) : bool := cells_shadow (rv_in e) (rv_in l).
(** [Vec<String>] equality. *)
Fixpoint same_cells (a b : list string) : bool :=
  match a, b with
  | [], [] => true
  | x :: a, y :: b => String.eqb x y && same_cells a b
  | _, _ => false
  end.
(** 86-88: the first earlier row. *)
Fixpoint shadowed_by (i : nat) (earlier : list rview) (l : rview) : option nat :=
  match earlier with
  | [] => None
  | e :: r => if shadows e l then Some i else shadowed_by (S i) r l
  end.
(** 74-113 [RedundantTableRow]. *)
Record row_hint := RHint { rh_row : nat; rh_earlier : nat; rh_duplicate : bool }.
Fixpoint row_hints_from (i : nat) (before rows : list rview) : list row_hint :=
  match rows with
  | [] => []
  | l :: rows =>
      match shadowed_by 0 before l with
      | Some j =>
          let e := nth j before (RView [] []) in
          [RHint i j (same_cells (rv_in e) (rv_in l) && same_cells (rv_out e) (rv_out l))]
      | None => []
      end ++ row_hints_from (S i) (before ++ [l]) rows
  end.
Definition row_hints (t : ptable) : list row_hint :=
  match first_hit t with None => [] | Some rows => row_hints_from 0 [] rows end.

(** All but the [k]th. *)
Fixpoint drop_nth {A} (k : nat) (l : list A) : list A :=
  match l, k with
  | [], _ => []
  | _ :: r, O => r
  | x :: r, S k => x :: drop_nth k r
  end.
(** 160-173: rows with the same cells in the other columns; the numbers in a group ascend. *)
Fixpoint put_group (key : list string) (i : nat) (gs : list (list string * list nat)) : list (list string * list nat) :=
  match gs with
  | [] => [(key, [i])]
  | (k, m) :: r => if same_cells k key then (k, m ++ [i]) :: r else (k, m) :: put_group key i r
  end.
Fixpoint groups_from (c i : nat) (rows : list rview) (gs : list (list string * list nat)) : list (list string * list nat) :=
  match rows with
  | [] => gs
  | r :: rows => groups_from c (S i) rows (put_group (drop_nth c (rv_in r)) i gs)
  end.
Section Column.
  Variable rows : list rview.
  Variable c : nat.
  Definition view_at (i : nat) : rview := nth i rows (RView [] []).
  Definition col_cell (r : rview) : string := nth c (rv_in r) "".
  (** 208-235 [fall_through_preserved]. *)
  Fixpoint falls_through (i : nat) (rs : list rview) (key : list string) (members : list nat) (outputs : list string) : bool :=
    match rs with
    | [] => false
    | r :: rs =>
        if cells_shadow (drop_nth c (rv_in r)) key then
          if String.eqb (col_cell r) "" then same_cells (rv_out r) outputs
          else if existsb (Nat.eqb i) members then falls_through (S i) rs key members outputs else false
        else falls_through (S i) rs key members outputs
    end.
  (** How many different cells: 197-201. *)
  Fixpoint distinct (l : list string) : list string :=
    match l with
    | [] => []
    | x :: r => if existsb (String.eqb x) r then distinct r else x :: distinct r
    end.
  (** 176-203, one group: [None] if the column matters, otherwise whether it merges rows. *)
  Definition group_merges (g : list string * list nat) : option bool :=
    let '(key, members) := g in
    let outputs := rv_out (view_at (hd 0 members)) in
    if existsb (fun i => negb (same_cells (rv_out (view_at i)) outputs)) members then None
    else match members with
         | [i] => if String.eqb (col_cell (view_at i)) "" then Some false else None
         | _ =>
             let wildcard := existsb (fun i => String.eqb (col_cell (view_at i)) "") members in
             if negb wildcard && negb (falls_through 0 rows key members outputs) then None
             else Some (1 <? length (distinct (map (fun i => col_cell (view_at i)) members)))
         end.
  Fixpoint groups_merge (gs : list (list string * list nat)) : option bool :=
    match gs with
    | [] => Some false
    | g :: gs =>
        match group_merges g, groups_merge gs with
        | Some a, Some b => Some (a || b)
        | _, _ => None
        end
    end.
  (** 159-206 [never_affects_outcome]. *)
  Definition never_affects : bool := match groups_merge (groups_from c 0 rows []) with Some b => b | None => false end.
  Definition no_conditions : bool := forallb (fun r => String.eqb (col_cell r) "") rows.
End Column.
(** 115-156 [NonDiscriminatingColumn]: [true] if the column has no conditions. *)
Fixpoint col_hints_from (rows : list rview) (c : nat) (n : nat) : list (nat * bool) :=
  match n with
  | 0 => []
  | S n =>
      (if no_conditions rows c then [(c, true)] else if never_affects rows c then [(c, false)] else []) ++ col_hints_from rows (S c) n
  end.
Definition col_hints (t : ptable) : list (nat * bool) :=
  match first_hit t with
  | None => []
  | Some rows => if length rows <? 2 then [] else col_hints_from rows 0 (length (pt_in t))
  end.
