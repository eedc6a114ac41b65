(** Decision tables as blocks of a policy. Models core/engine/src/policy/blocks/decision_table.rs:187-294, 693-856 and 1054-1203,
    and the index of core/engine/src/nodes/decision_table/index.rs (Table.v).
    Simplifications: of the trace only the matched rows and the input bits are kept (not their base64 form); names, declared types,
    diagnostics and positions are left out; the isolate is a scope (Session.v). *)
From Coq Require Import String Ascii Bool List Arith.
From Verif Require Import Base Dec Value Heap Ast Ops Isolate Session Blocks.
From Verif Require Table Discriminant.
Import ListNotations.
Local Open Scope string_scope.
Local Open Scope nat_scope.
Local Open Scope list_scope.

Notation in_col := Table.in_col.
Notation ic_id := Table.ic_id.
Notation ic_field := Table.ic_field.
Notation row := Table.row.
(** 103-110 [OutputColumn], 95-101 [DecisionTableIr]. *)
Record pcol := PCol { pc_id : string; pc_field : string; pc_collect : bool }.
Record ptable := PTbl { pt_in : list in_col; pt_out : list pcol; pt_rows : list row }.

(** *** Reading the document. *)
Definition has_space (s : string) : bool := existsb Table.is_space (list_ascii_of_string s).
(** [str::contains "[]"]. *)
Fixpoint has_brackets (l : list ascii) : bool :=
  match l with
  | "["%char :: (("]"%char :: _) as r) => true
  | _ :: r => has_brackets r
  | [] => false
  end.
(** blocks/mod.rs:59-72 [validate_path]. *)
Definition valid_path (p : string) : bool :=
  negb (String.eqb p "") && forallb (fun s => negb (String.eqb s "") && negb (has_space s)) (split_dot p).
(** 233-293 [parse_output_column]. *)
Definition read_column (all : bool) (o : Table.out_col) : pcol :=
  let (path, marked) := Table.write_path o in
  let field := if String.eqb path "" then ""
               else if has_brackets (list_ascii_of_string path) then ""
               else if valid_path path then path else "" in
  PCol (Table.oc_id o) field (marked || all).
(** 205-217 and 220-230 [parse]: the fields of the inputs are trimmed. *)
Definition read_table (d : Table.table) : ptable :=
  PTbl (map (fun c => Table.InCol (ic_id c) (option_map (fun f => string_of_list_ascii (Table.trim f)) (ic_field c))) (Table.tb_in d))
       (map (read_column (match Table.tb_policy d with Table.PCollect => true | Table.PFirst => false end)) (Table.tb_out d))
       (Table.tb_rows d).

(** [rule.get(&id).filter(|c| !c.is_empty())]. *)
Definition cell_text (id : string) (r : row) : option string :=
  match aget id r with
  | None => None
  | Some s => if String.eqb s "" then None else Some s
  end.
(** [col.field.filter(|f| !f.is_empty())]. *)
Definition field_of (c : in_col) : option string :=
  match ic_field c with
  | None => None
  | Some f => if String.eqb f "" then None else Some f
  end.
(** 697-701. *)
Definition active (t : ptable) : list pcol := filter (fun o => negb (String.eqb (pc_field o) "")) (pt_out t).

(** What [select] works with: the isolate's scope, [col_refs] and the data. *)
Record tstate := TS { ts_scope : scope; ts_refs : list (option value); ts_heap : heap }.
(** 30-34 [TableSelection]; the bits by row and column. *)
Record tsel := TSel { tl_matched : list nat; tl_used : list (nat * string); tl_bits : option (list (list bool)) }.

Section PTable.
  Variable X : ext.
  Variable parse : ekind -> string -> res node.

  (** 1181-1190 and 1081-1090: the value of a column's field, computed once. *)
  Definition field_value (i : nat) (f : string) (s : tstate) : tstate * res value :=
    match nth i (ts_refs s) None with
    | Some v => (s, Ok v)
    | None =>
        match srun X parse KStandard f (ts_scope s) (ts_heap s) with
        | (h1, Ok v) => (TS (ts_scope s) (lupd i (Some v) (ts_refs s)) h1, Ok v)
        | (h1, Err e) => (TS (ts_scope s) (ts_refs s) h1, Err e)
        end
    end.
  (** 1165-1203 [evaluate_cell]. *)
  Definition evaluate_cell (i : nat) (c : in_col) (r : row) (s : tstate) : tstate * res bool :=
    match cell_text (ic_id c) r with
    | None => (s, Ok true)
    | Some src =>
        match field_of c with
        | Some f =>
            match field_value i f s with
            | (s1, Err e) => (s1, Err e)
            | (s1, Ok v) =>
                let sc := set_local (ts_scope s1) dollar v in
                let (h2, o) := srun X parse KUnary src sc (ts_heap s1) in
                (TS sc (ts_refs s1) h2, as_bool o)
            end
        | None =>
            match srun X parse KStandard src (ts_scope s) (ts_heap s) with
            | (h1, Ok v) => (TS (ts_scope s) (ts_refs s) h1, Ok (as_truth v))
            | (h1, Err e) => (TS (ts_scope s) (ts_refs s) h1, Err e)
            end
        end
    end.
  (** 1106-1139 [evaluate_row_inputs_pruned], [evaluate_row_inputs]. [decided]: the columns the index has decided. *)
  Fixpoint row_inputs (decided : nat -> bool) (i : nat) (cs : list in_col) (r : row) (s : tstate) : tstate * res bool :=
    match cs with
    | [] => (s, Ok true)
    | c :: cs =>
        if decided i then row_inputs decided (S i) cs r s
        else match evaluate_cell i c r s with
             | (s1, Ok true) => row_inputs decided (S i) cs r s1
             | x => x
             end
    end.
  (** 1141-1163 [evaluate_row_inputs_full]. *)
  Fixpoint row_full (unreached failed : bool) (i : nat) (cs : list in_col) (r : row) (s : tstate) : tstate * res (list bool) :=
    match cs with
    | [] => (s, Ok [])
    | c :: cs =>
        match evaluate_cell i c r s with
        | (s1, q) =>
            match (match q with Err e => if unreached || failed then Ok false else Err e | Ok b => Ok b end) with
            | Err e => (s1, Err e)
            | Ok b =>
                match row_full unreached (failed || negb b) (S i) cs r s1 with
                | (s2, Ok l) => (s2, Ok (b :: l))
                | (s2, Err e) => (s2, Err e)
                end
            end
        end
    end.
  (** 1060-1104 [candidate_rows]. *)
  Fixpoint candidate_rows (ix : Table.index) (i : nat) (cs : list in_col) (acc : option Table.rowset) (s : tstate)
    : tstate * res (option Table.rowset) :=
    match ix, cs with
    | o :: ix, c :: cs =>
        match o, field_of c with
        | Some x, Some f =>
            match field_value i f s with
            | (s1, Err e) => (s1, Err e)
            | (s1, Ok (VDyn _)) => (s1, Ok None)
            | (s1, Ok v) =>
                let hit := Table.cx_fallback x ++ Table.rows_for x v in
                candidate_rows ix (S i) cs (Some (match acc with None => hit | Some a => filter (Table.has hit) a end)) s1
            end
        | _, _ => candidate_rows ix (S i) cs acc s
        end
    | _, _ => (s, Ok acc)
    end.
  (** 756-768: which cells of a matched row are used. The numbers: how many scalars were pending, and still are. *)
  Fixpoint take_cells (i : nat) (cols : list pcol) (r : row) (taken : list bool) (pending : nat) : list bool * nat * list (nat * string) :=
    match cols, taken with
    | o :: cols, tk :: taken =>
        let '(tk1, p1, u) :=
          match cell_text (pc_id o) r with
          | None => (tk, pending, [])
          | Some _ => if pc_collect o then (tk, pending, [(i, pc_id o)])
                      else if tk then (tk, pending, [])
                      else (true, pred pending, [(i, pc_id o)])
          end in
        let '(taken2, p2, u2) := take_cells i cols r taken p1 in (tk1 :: taken2, p2, u ++ u2)
    | _, _ => (taken, pending, [])
    end.
  (** 716-769: the loop over the rows. [extras]: every row is evaluated completely. [cand], [dec]: what the index says. *)
  Fixpoint select_rows (t : ptable) (extras : bool) (cand : option Table.rowset) (dec : nat -> nat -> bool) (i : nat) (rs : list row)
      (taken : list bool) (pending : nat) (matched : list nat) (used : list (nat * string)) (bits : list (list bool)) (s : tstate)
    : tstate * res (list nat * list (nat * string) * list (list bool)) :=
    match rs with
    | [] => (s, Ok (matched, used, bits))
    | r :: rs =>
        let satisfied := negb (existsb pc_collect (active t)) && Nat.eqb pending 0 && negb (match matched with [] => true | _ => false end) in
        if satisfied && negb extras then (s, Ok (matched, used, bits))
        else
          let '(s1, q) :=
            if extras then
              match row_full satisfied false 0 (pt_in t) r s with
              | (s1, Ok l) => (s1, Ok (forallb (fun b => b) l, l))
              | (s1, Err e) => (s1, Err e)
              end
            else
              let '(s1, q) := match cand with
                              | Some a => if Table.has a i then row_inputs (dec i) 0 (pt_in t) r s else (s, Ok false)
                              | None => row_inputs (fun _ => false) 0 (pt_in t) r s
                              end in
              match q with Ok b => (s1, Ok (b, [])) | Err e => (s1, Err e) end in
          match q with
          | Err e => (s1, Err e)
          | Ok (b, l) =>
              if negb b || satisfied then select_rows t extras cand dec (S i) rs taken pending matched used (bits ++ [l]) s1
              else let '(taken1, p1, u) := take_cells i (active t) r taken pending in
                   select_rows t extras cand dec (S i) rs taken1 p1 (matched ++ [i]) (used ++ u) (bits ++ [l]) s1
          end
    end.
  (** 1054-1058 [table_index]. *)
  Definition table_index (t : ptable) : option Table.index :=
    Table.build_index (Discriminant.index_arm parse) (Table.Table (pt_rows t) (pt_in t) [] Table.PFirst).
  (** 693-777 [select], after evaluator.rs:533-534. *)
  Definition tselect (extras : bool) (t : ptable) (w : pworld) : pworld * res tsel :=
    let w := bind_env w in
    let s0 := TS (scope_new (pw_env w)) (repeat None (length (pt_in t))) (pw_heap w) in
    let '(s1, c) := if extras then (s0, Ok None)
                    else match table_index t with
                         | None => (s0, Ok None)
                         | Some ix => candidate_rows ix 0 (pt_in t) None s0
                         end in
    let out s := PW (ts_heap s) (pw_store w) (pw_env w) in
    match c with
    | Err e => (out s1, Err e)
    | Ok cand =>
        let dec i col := match table_index t with Some ix => Table.decides ix col i | None => false end in
        match select_rows t extras cand dec 0 (pt_rows t) (repeat false (length (active t)))
                (length (filter (fun o => negb (pc_collect o)) (active t))) [] [] [] s1 with
        | (s2, Err e) => (out s2, Err e)
        | (s2, Ok (m, u, b)) => (out s2, Ok (TSel m u (if extras then Some b else None)))
        end
    end.

  (** *** The outputs. *)
  Definition in_used (i : nat) (id : string) (u : list (nat * string)) : bool :=
    existsb (fun x => Nat.eqb (fst x) i && String.eqb (snd x) id) u.
  (** [collected.entry(field).or_default().push(value)]. *)
  Definition push (k : string) (v : value) (m : amap (list value)) : amap (list value) :=
    aset k ((match aget k m with Some l => l | None => [] end) ++ [v]) m.
  (** 806-831: the cells of one row. *)
  Fixpoint commit_cells (u : list (nat * string)) (i : nat) (cols : list pcol) (r : row) (coll : amap (list value)) (wr : list string) (w : pworld)
    : pworld * res (amap (list value) * list string) :=
    match cols with
    | [] => (w, Ok (coll, wr))
    | o :: cols =>
        if in_used i (pc_id o) u then
          match cell_text (pc_id o) r with
          | None => commit_cells u i cols r coll wr w
          | Some src =>
              match gives X parse src w with
              | (w1, Err e) => (w1, Err e)
              | (w1, Ok v) =>
                  if pc_collect o then commit_cells u i cols r (push (pc_field o) v coll) wr w1
                  else commit_cells u i cols r coll (pc_field o :: wr) (write (pc_field o) v w1)
              end
          end
        else commit_cells u i cols r coll wr w
    end.
  (** 800-834. *)
  Fixpoint commit_rows (t : ptable) (u : list (nat * string)) (matched : list nat) (coll : amap (list value)) (wr : list string) (w : pworld)
    : pworld * res (amap (list value) * list string) :=
    match matched with
    | [] => (w, Ok (coll, wr))
    | i :: matched =>
        match nth_error (pt_rows t) i with
        | None => commit_rows t u matched coll wr w
        | Some r =>
            match commit_cells u i (pt_out t) r coll wr w with
            | (w1, Err e) => (w1, Err e)
            | (w1, Ok (coll1, wr1)) => commit_rows t u matched coll1 wr1 w1
            end
        end
    end.
  (** 836-841: scalar columns that were not written become null. *)
  Fixpoint write_nulls (cols : list pcol) (wr : list string) (w : pworld) : pworld :=
    match cols with
    | [] => w
    | o :: cols =>
        if negb (pc_collect o) && negb (String.eqb (pc_field o) "") && negb (existsb (String.eqb (pc_field o)) wr)
        then write_nulls cols (pc_field o :: wr) (write (pc_field o) VNull w)
        else write_nulls cols wr w
    end.
  (** 842-844. *)
  Fixpoint write_arrays (l : list (string * list value)) (w : pworld) : pworld :=
    match l with
    | [] => w
    | (k, vs) :: l =>
        let (h1, a) := new_arr (pw_heap w) vs in
        write_arrays l (write k a (PW h1 (pw_store w) (pw_env w)))
    end.
  (** 793-799. *)
  Definition empty_arrays (cols : list pcol) : amap (list value) :=
    fold_left (fun m o => if pc_collect o && negb (String.eqb (pc_field o) "")
                          then match aget (pc_field o) m with Some _ => m | None => aset (pc_field o) [] m end else m) cols [].
  (** 779-856 [commit], after evaluator.rs:544. [arrange]: the order in which the hash map of the collected columns is iterated. *)
  Definition tcommit (arrange : list (string * list value) -> list (string * list value)) (t : ptable) (l : tsel) (w : pworld) : pworld * res unit :=
    match commit_rows t (tl_used l) (tl_matched l) (empty_arrays (pt_out t)) [] (bind_env w) with
    | (w1, Err e) => (w1, Err e)
    | (w1, Ok (coll, wr)) => (write_arrays (arrange coll) (write_nulls (pt_out t) wr w1), Ok tt)
    end.
  (** 858-861 [execute], as evaluator.rs:517-545 does it. *)
  Definition run_table (arrange : list (string * list value) -> list (string * list value)) (extras : bool) (t : ptable) (w : pworld) : pworld * res tsel :=
    match tselect extras t w with
    | (w1, Err e) => (w1, Err e)
    | (w1, Ok l) => match tcommit arrange t l w1 with
                    | (w2, Err e) => (w2, Err e)
                    | (w2, Ok _) => (w2, Ok l)
                    end
    end.
End PTable.
