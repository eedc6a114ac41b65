(** Decision tables. Models core/engine/src/nodes/decision_table/mod.rs and index.rs, and the table types of
    core/types/src/decision/mod.rs. What a trace contains is dropped; the expressions run to fill it are kept. *)
From Coq Require Import String Ascii ZArith Lia Bool List Arith.
From Verif Require Import Base Dec Value Heap Ast Ops Compiler Vm Eval Isolate Session Graph Walker Nodes.
Import ListNotations.
Local Open Scope string_scope.
Local Open Scope list_scope.
Local Open Scope nat_scope.

(** types/decision/mod.rs:126-152: input and output columns. *)
Record in_col := InCol { ic_id : string; ic_field : option string }.
Record out_col := OutCol { oc_id : string; oc_field : string }.
(** A row: the text of its cells by column id. The hash map is only looked up, never iterated. *)
Definition row := amap string.
(** types/decision/mod.rs:118-124. *)
Inductive policy := PFirst | PCollect.
(** types/decision/mod.rs:106-116, without the transform attributes (Nodes.v, [run_with]). *)
Record table := Table { tb_rows : list row; tb_in : list in_col; tb_out : list out_col; tb_policy : policy }.

(** [str::trim], [str::trim_end], [str::strip_suffix "[]"] on byte strings. White space is ASCII white space; Rust also trims the
    other Unicode spaces. *)
Definition is_space (c : ascii) : bool := existsb (Ascii.eqb c) [" "; "009"; "010"; "011"; "012"; "013"]%char.
Fixpoint drop_space (l : list ascii) : list ascii :=
  match l with
  | c :: r => if is_space c then drop_space r else l
  | [] => []
  end.
Definition trim_end (l : list ascii) : list ascii := rev (drop_space (rev l)).
Definition trim (s : string) : list ascii := trim_end (drop_space (list_ascii_of_string s)).
Definition strip_brackets (l : list ascii) : option (list ascii) :=
  match rev l with
  | "]"%char :: "["%char :: r => Some (rev r)
  | _ => None
  end.
(** types/decision/mod.rs:154-160 [write_path]. *)
Definition write_path (o : out_col) : string * bool :=
  let f := trim (oc_field o) in
  match strip_brackets f with
  | Some b => (string_of_list_ascii (trim_end b), true)
  | None => (string_of_list_ascii f, false)
  end.
(** The cell of an output column that is written: path, expression, collect. *)
Definition out_cell (o : out_col) (r : row) : option (string * string * bool) :=
  let (path, collect) := write_path o in
  if String.eqb path "" then None
  else match aget (oc_id o) r with
       | None => None
       | Some src => if String.eqb src "" then None else Some (path, src, collect)
       end.
(** The cell of an input column that is tested. *)
Definition in_cell (c : in_col) (r : row) : option string :=
  match aget (ic_id c) r with
  | None => None
  | Some src => if String.eqb src "" then None else Some src
  end.

(** *** The index (index.rs). [FixedBitSet]s are lists of row numbers; hash maps are association lists. *)
(** What the cell analyser says about a cell, as far as the index uses it (index.rs:74-108). *)
Inductive arm := AStrings (l : list string) | ABools (l : list bool) | ANumbers (l : list dec) | AOther.
Definition rowset := list nat.
Definition has (s : rowset) (i : nat) : bool := existsb (Nat.eqb i) s.
Section Map.
  Context {K : Type}.
  Variable eqb : K -> K -> bool.
  (** [entry(k).or_insert_with(..).insert(i)]. *)
  Fixpoint madd (k : K) (i : nat) (m : list (K * rowset)) : list (K * rowset) :=
    match m with
    | [] => [(k, [i])]
    | (k', s) :: r => if eqb k' k then (k', i :: s) :: r else (k', s) :: madd k i r
    end.
  Fixpoint mget (k : K) (m : list (K * rowset)) : option rowset :=
    match m with
    | [] => None
    | (k', s) :: r => if eqb k' k then Some s else mget k r
    end.
End Map.
(** index.rs:16-23. Number keys are normalised decimals (index.rs:96,122): equal keys are equal numbers. *)
Record column := Column { cx_strings : list (string * rowset); cx_numbers : list (dec * rowset); cx_bools : list (bool * rowset);
  cx_captured : rowset; cx_fallback : rowset }.
Definition index := list (option column).

Section Index.
  Variable classify : string -> arm.
  (** index.rs:69-109: one row. *)
  Definition index_row (c : in_col) (i : nat) (r : row) (x : column) : column :=
    let '(Column ss ns bs cap fb) := x in
    match in_cell c r with
    | None => Column ss ns bs cap (i :: fb)
    | Some src =>
        match classify src with
        | AStrings l => Column (fold_left (fun m k => madd String.eqb k i m) l ss) ns bs (i :: cap) fb
        | ABools l => Column ss ns (fold_left (fun m k => madd Bool.eqb k i m) l bs) (i :: cap) fb
        | ANumbers l => Column ss (fold_left (fun m k => madd dec_eqb k i m) l ns) bs (i :: cap) fb
        | AOther => Column ss ns bs cap (i :: fb)
        end
    end.
  Fixpoint index_rows (c : in_col) (i : nat) (rs : list row) (x : column) : column :=
    match rs with
    | [] => x
    | r :: rs => index_rows c (S i) rs (index_row c i r x)
    end.
  (** index.rs:53-118 [ColumnIndex::build]. *)
  Definition build_column (rs : list row) (c : in_col) : option column :=
    match ic_field c with
    | None => None
    | Some f =>
        if String.eqb f "" then None
        else let x := index_rows c 0 rs (Column [] [] [] [] []) in
             match cx_captured x with [] => None | _ => Some x end
    end.
  (** index.rs:26-42 [TableIndex::build]. *)
  Definition build_index (t : table) : option index :=
    if length (tb_rows t) <? 8 then None
    else let cols := map (build_column (tb_rows t)) (tb_in t) in
         if existsb (fun c => match c with Some _ => true | None => false end) cols then Some cols else None.
End Index.
(** index.rs:44-49 [decides]. *)
Definition decides (ix : index) (col row : nat) : bool :=
  match nth_error ix col with
  | Some (Some x) => has (cx_captured x) row
  | _ => false
  end.
(** index.rs:120-128 [rows_for]. *)
Definition rows_for (x : column) (v : value) : rowset :=
  match match v with
        | VStr s => mget String.eqb s (cx_strings x)
        | VNum n => mget dec_eqb n (cx_numbers x)
        | VBool b => mget Bool.eqb b (cx_bools x)
        | _ => None
        end with
  | Some s => s
  | None => []
  end.

(** What the index rules out: rows that are skipped, cells that are not tested. *)
Record pruning := Pruning { skipped : nat -> bool; decided : nat -> nat -> bool }.
Definition no_pruning : pruning := Pruning (fun _ => false) (fun _ _ => false).

Section Table.
  Variable X : ext.
  Variable parse : ekind -> string -> res node.

  (** [.ok().and_then(as_bool).unwrap_or(false)]: anything but true is false; a panic is not caught. *)
  Definition truth (r : res value) : res bool :=
    match r with
    | Ok (VBool b) => Ok b
    | Err (EPanic m) => Err (EPanic m)
    | _ => Ok false
    end.
  (** mod.rs:144-166 [cell_passes]; the same test is in row_matches, mod.rs:294-310. *)
  Definition cell_passes (c : in_col) (r : row) (s : session) (h : heap) : session * heap * res bool :=
    match in_cell c r with
    | None => (s, h, Ok true)
    | Some src =>
        match ic_field c with
        | None => let (h1, o) := s_std X parse src s h in (s, h1, truth o)
        | Some f =>
            match s_ref X parse f s h with
            | (s1, h1, Err e) => (s1, h1, truth (Err e))
            | (s1, h1, Ok _) => let (h2, o) := s_unary X parse src s1 h1 in
                (s1, h2, match o with Ok b => Ok b | Err e => truth (Err e) end)
            end
        end
    end.
  (** mod.rs:279-317 [row_matches]. [dec]: columns the index has decided for this row; [i]: number of the first column of [cs]. *)
  Fixpoint row_matches (dec : nat -> bool) (i : nat) (cs : list in_col) (r : row) (s : session) (h : heap) : session * heap * res bool :=
    match cs with
    | [] => (s, h, Ok true)
    | c :: cs =>
        if dec i then row_matches dec (S i) cs r s h
        else match cell_passes c r s h with
             | (s1, h1, Ok true) => row_matches dec (S i) cs r s1 h1
             | x => x
             end
    end.
  (** mod.rs:403-419: the outputs of one row. [Ok false]: an output fails, the row is given up. *)
  Fixpoint run_outputs (os : list out_col) (r : row) (s : session) (out : value) (h : heap) : heap * res bool :=
    match os with
    | [] => (h, Ok true)
    | o :: os =>
        match out_cell o r with
        | None => run_outputs os r s out h
        | Some (path, src, _) =>
            match s_std X parse src s h with
            | (h1, Err (EPanic m)) => (h1, Err (EPanic m))
            | (h1, Err _) => (h1, Ok false)
            | (h1, Ok v) =>
                match copy h1 v with
                | (h2, Err e) => (h2, Err e)
                | (h2, Ok v1) => run_outputs os r s out (fst (dot_insert h2 out path v1))
                end
            end
        end
    end.
  (** mod.rs:368-384 in [row_trace_parts]: the references a trace shows; those not remembered are evaluated. *)
  Fixpoint trace_parts (cs : list in_col) (r : row) (s : session) (h : heap) : heap * res unit :=
    match cs with
    | [] => (h, Ok tt)
    | c :: cs =>
        match aget (ic_id c) r, ic_field c with
        | Some _, Some f =>
            match aget f (ss_refs s) with
            | Some _ => trace_parts cs r s h
            | None => match s_std X parse f s h with
                      | (h1, Err (EPanic m)) => (h1, Err (EPanic m))
                      | (h1, _) => trace_parts cs r s h1
                      end
            end
        | _, _ => trace_parts cs r s h
        end
    end.
  Definition trace_row (trace : bool) (cs : list in_col) (r : row) (s : session) (h : heap) : heap * res unit :=
    if trace then trace_parts cs r s h else (h, Ok tt).
  (** mod.rs:391-431 [evaluate_row]. *)
  Definition evaluate_row (trace : bool) (t : table) (dec : nat -> bool) (r : row) (s : session) (h : heap) : session * heap * res (option value) :=
    match row_matches dec 0 (tb_in t) r s h with
    | (s1, h1, Err e) => (s1, h1, Err e)
    | (s1, h1, Ok false) => (s1, h1, Ok None)
    | (s1, h1, Ok true) =>
        let (h2, out) := new_obj h1 [] in
        match run_outputs (tb_out t) r s1 out h2 with
        | (h3, Err e) => (s1, h3, Err e)
        | (h3, Ok false) => (s1, h3, Ok None)
        | (h3, Ok true) =>
            match trace_row trace (tb_in t) r s1 h3 with
            | (h4, Err e) => (s1, h4, Err e)
            | (h4, Ok _) => (s1, h4, Ok (Some out))
            end
        end
    end.
  (** mod.rs:59-71 and 78-104: rows from number [i] on. *)
  Fixpoint first_hit (trace : bool) (t : table) (p : pruning) (i : nat) (rs : list row) (s : session) (h : heap) : heap * res value :=
    match rs with
    | [] => (h, Ok VNull)
    | r :: rs =>
        if skipped p i then first_hit trace t p (S i) rs s h
        else match evaluate_row trace t (decided p i) r s h with
             | (s1, h1, Err e) => (h1, Err e)
             | (s1, h1, Ok (Some v)) => (h1, Ok v)
             | (s1, h1, Ok None) => first_hit trace t p (S i) rs s1 h1
             end
    end.
  (** mod.rs:118-141. *)
  Fixpoint collect (trace : bool) (t : table) (p : pruning) (i : nat) (rs : list row) (s : session) (h : heap) : heap * res (list value) :=
    match rs with
    | [] => (h, Ok [])
    | r :: rs =>
        if skipped p i then collect trace t p (S i) rs s h
        else match evaluate_row trace t (decided p i) r s h with
             | (s1, h1, Err e) => (h1, Err e)
             | (s1, h1, Ok o) =>
                 match collect trace t p (S i) rs s1 h1 with
                 | (h2, Ok vs) => (h2, Ok (match o with Some v => v :: vs | None => vs end))
                 | (h2, Err e) => (h2, Err e)
                 end
             end
    end.
  (** mod.rs:319-350 [evaluate_row_cells]. [scal]: the object for the columns that are not collected, if wanted. The collected values
      come with their column. *)
  Fixpoint run_cells (i : nat) (os : list out_col) (r : row) (s : session) (scal : option value) (h : heap) : heap * res (option (list (nat * value))) :=
    match os with
    | [] => (h, Ok (Some []))
    | o :: os =>
        match out_cell o r with
        | None => run_cells (S i) os r s scal h
        | Some (path, src, coll) =>
            if negb coll && match scal with None => true | Some _ => false end then run_cells (S i) os r s scal h
            else match s_std X parse src s h with
                 | (h1, Err (EPanic m)) => (h1, Err (EPanic m))
                 | (h1, Err _) => (h1, Ok None)
                 | (h1, Ok v) =>
                     match copy h1 v with
                     | (h2, Err e) => (h2, Err e)
                     | (h2, Ok v1) =>
                         if coll then
                           match run_cells (S i) os r s scal h2 with
                           | (h3, Ok (Some vs)) => (h3, Ok (Some ((i, v1) :: vs)))
                           | x => x
                           end
                         else run_cells (S i) os r s scal (match scal with Some o => fst (dot_insert h2 o path v1) | None => h2 end)
                     end
                 end
        end
    end.
  (** mod.rs:233-266: the loop of [handle_first_hit_collect]. [scal]: the object found so far; the result has it and the collected values in order. *)
  Fixpoint gather (trace : bool) (t : table) (p : pruning) (i : nat) (rs : list row) (s : session) (scal : option value) (h : heap)
      : heap * res (option value * list (nat * value)) :=
    match rs with
    | [] => (h, Ok (scal, []))
    | r :: rs =>
        if skipped p i then gather trace t p (S i) rs s scal h
        else match row_matches (decided p i) 0 (tb_in t) r s h with
             | (s1, h1, Err e) => (h1, Err e)
             | (s1, h1, Ok false) => gather trace t p (S i) rs s1 scal h1
             | (s1, h1, Ok true) =>
                 let (h2, fresh) := match scal with
                                    | Some _ => (h1, None)
                                    | None => let (h2, o) := new_obj h1 [] in (h2, Some o)
                                    end in
                 match run_cells 0 (tb_out t) r s1 fresh h2 with
                 | (h3, Err e) => (h3, Err e)
                 | (h3, Ok None) => gather trace t p (S i) rs s1 scal h3
                 | (h3, Ok (Some vs)) =>
                     match trace_row trace (tb_in t) r s1 h3 with
                     | (h4, Err e) => (h4, Err e)
                     | (h4, Ok _) =>
                         match gather trace t p (S i) rs s1 (match scal with Some o => Some o | None => fresh end) h4 with
                         | (h5, Ok (o, ws)) => (h5, Ok (o, vs ++ ws))
                         | x => x
                         end
                     end
                 end
             end
    end.
  (** mod.rs:276-285: the collected columns are written at the end. [i]: number of the first column of [os]. *)
  Fixpoint write_collected (i : nat) (os : list out_col) (vs : list (nat * value)) (out : value) (h : heap) : heap :=
    match os with
    | [] => h
    | o :: os =>
        let (path, coll) := write_path o in
        if negb coll || String.eqb path "" then write_collected (S i) os vs out h
        else let (h1, a) := new_arr h (map snd (filter (fun iv => Nat.eqb (fst iv) i) vs)) in
             write_collected (S i) os vs out (fst (dot_insert h1 out path a))
    end.

  (** mod.rs:172-215 [candidate_rows]. [None]: the index cannot be used. *)
  Fixpoint candidates (ix : index) (cs : list in_col) (acc : option rowset) (s : session) (h : heap) : session * heap * res (option rowset) :=
    match ix, cs with
    | o :: ix, c :: cs =>
        match o, ic_field c with
        | Some x, Some f =>
            if String.eqb f "" then candidates ix cs acc s h
            else match s_ref X parse f s h with
                 | (s1, h1, Err (EPanic m)) => (s1, h1, Err (EPanic m))
                 | (s1, h1, Err _) => (s1, h1, Ok None)
                 | (s1, h1, Ok _) =>
                     match aget f (ss_refs s1) with
                     | None => (s1, h1, Ok None)
                     | Some (VDyn _) => (s1, h1, Ok None)
                     | Some v =>
                         let hit := cx_fallback x ++ rows_for x v in
                         candidates ix cs (Some (match acc with None => hit | Some a => filter (has hit) a end)) s1 h1
                     end
                 end
        | _, _ => candidates ix cs acc s h
        end
    | _, _ => (s, h, Ok acc)
    end.
  Definition prune (ix : option index) (t : table) (s : session) (h : heap) : session * heap * res pruning :=
    match ix with
    | None => (s, h, Ok no_pruning)
    | Some ix =>
        match candidates ix (tb_in t) None s h with
        | (s1, h1, Err e) => (s1, h1, Err e)
        | (s1, h1, Ok None) => (s1, h1, Ok no_pruning)
        | (s1, h1, Ok (Some a)) => (s1, h1, Ok (Pruning (fun i => negb (has a i)) (fun i col => decides ix col i)))
        end
    end.

  (** mod.rs:37-46 [handle] with 49-290. [ix]: the index of this table, if there is one; a traced evaluation does not use it. *)
  Definition table_node (trace : bool) (ix : option index) (t : table) (env : value) (nodes : option value) (h : heap) : heap * res value :=
    match prune (if trace then None else ix) t (node_session env nodes) h with
    | (s, h1, Err e) => (h1, Err e)
    | (s, h1, Ok p) =>
        match tb_policy t with
        | PCollect =>
            match collect trace t p 0 (tb_rows t) s h1 with
            | (h2, Err e) => (h2, Err e)
            | (h2, Ok vs) => let (h3, a) := new_arr h2 vs in (h3, Ok a)
            end
        | PFirst =>
            if existsb (fun o => snd (write_path o)) (tb_out t) then
              match gather trace t p 0 (tb_rows t) s None h1 with
              | (h2, Err e) => (h2, Err e)
              | (h2, Ok (None, _)) => (h2, Ok VNull)
              | (h2, Ok (Some o, vs)) => (write_collected 0 (tb_out t) vs o h2, Ok o)
              end
            else first_hit trace t p 0 (tb_rows t) s h1
        end
    end.
End Table.
