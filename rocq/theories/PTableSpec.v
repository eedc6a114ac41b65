(** What a decision table of a policy is expected to do, said without the way it is evaluated. Every cell is judged on its own, in the
    context the block is given. *)
From Coq Require Import String Bool List Arith.
From Verif Require Import Base Dec Value Heap Ast Ops HeapSpec Isolate Session PureFacts MemoFacts Blocks BlocksSpec PTable.
From Verif Require RepFacts Table.
Import ListNotations.
Local Open Scope string_scope.
Local Open Scope nat_scope.
Local Open Scope list_scope.

Section Spec.
  Variable X : ext.
  Variable parse : ekind -> string -> res node.
  Variables (h : heap) (ctx : value).

  (** What an input cell says: [None] if it cannot be evaluated. A blank cell holds. In a column with a field the cell tests the field's
      value; otherwise it is a condition of its own, and only [true] counts. *)
  Definition cell_says (c : in_col) (r : row) : option bool :=
    match cell_text (ic_id c) r with
    | None => Some true
    | Some src =>
        match field_of c with
        | Some f =>
            match srun X parse KStandard f (scope_new ctx) h with
            | (h1, Ok v) =>
                match snd (srun X parse KUnary src (set_local (scope_new ctx) "$" v) h1) with
                | Ok (VBool b) => Some b
                | _ => None
                end
            | (_, Err _) => None
            end
        | None => match outcome X parse h ctx src with
                  | Ok (VBool true) => Some true
                  | Ok _ => Some false
                  | Err _ => None
                  end
        end
    end.
  (** What a row says: its cells from left to right, up to the first that does not hold. *)
  Fixpoint row_says (cs : list in_col) (r : row) : option bool :=
    match cs with
    | [] => Some true
    | c :: cs => match cell_says c r with Some true => row_says cs r | x => x end
    end.

  Variable t : ptable.
  Definition holds_row (r : row) : bool := match row_says (pt_in t) r with Some true => true | _ => false end.
  (** A row counts unless everything has been said before: no column is collected, some row before it holds and every column has
      got its value from one of them. *)
  Definition reached (i : nat) : Prop :=
    (exists o, In o (active t) /\ pc_collect o = true) \/
    (forall j r, j < i -> nth_error (pt_rows t) j = Some r -> holds_row r = false) \/
    (exists o, In o (active t) /\ pc_collect o = false /\
       forall j r, j < i -> nth_error (pt_rows t) j = Some r -> holds_row r = true -> cell_text (pc_id o) r = None).
  (** The expressions the rows that hold have for a column, from top to bottom. *)
  Definition sources (o : pcol) : list string :=
    flat_map (fun r => if holds_row r then match cell_text (pc_id o) r with Some src => [src] | None => [] end else []) (pt_rows t).
  (** The value of a column: all of them if it is collected, otherwise the first, or null. *)
  Definition column_says (o : pcol) (x : tree) : Prop :=
    if pc_collect o then exists ts, Forall2 (evaluates X parse h ctx) (sources o) ts /\ x = TArr ts
    else match sources o with
         | [] => x = TNull
         | src :: _ => evaluates X parse h ctx src x
         end.
  (** What makes a table fail: a row that counts cannot be evaluated, or the value of a column cannot. *)
  Definition fails : Prop :=
    (exists i r, nth_error (pt_rows t) i = Some r /\ reached i /\ row_says (pt_in t) r = None) \/
    (exists o, In o (active t) /\ forall x, ~ column_says o x).
  (** All its input cells can be evaluated. *)
  Definition smooth : Prop := forall c r, In c (pt_in t) -> In r (pt_rows t) -> cell_says c r <> None.
End Spec.

Section Plain.
  Variable parse : ekind -> string -> res node.
  (** The properties a table writes. *)
  Definition table_fields (t : ptable) : list string := map pc_field (active t).
  (** An expression that assigns nothing, uses only names that [P] allows and not the whole context. *)
  Definition uses_only (P : string -> bool) (k : ekind) (src : string) : Prop :=
    forall n, parse k src = Ok n -> no_assign n = true /\ RepFacts.reads P false n = true.
  Definition not_among (l : list string) (k : string) : bool := negb (existsb (String.eqb k) l).
  (** A table whose columns have different names and write different top-level properties; its expressions assign nothing and do not use
      [$root]; fields and conditions do not use [$]; the output cells do not use the properties the table writes. *)
  Record plain_table (t : ptable) : Prop := {
    pl_ids : NoDup (map pc_id (pt_out t));
    pl_fields : NoDup (table_fields t);
    pl_flat : forall k, In k (table_fields t) -> flat_key k;
    pl_in : forall c f, In c (pt_in t) -> field_of c = Some f -> uses_only not_dollar KStandard f;
    pl_cond : forall c r src, In c (pt_in t) -> In r (pt_rows t) -> field_of c = None -> cell_text (ic_id c) r = Some src -> uses_only not_dollar KStandard src;
    pl_test : forall c r src, In c (pt_in t) -> In r (pt_rows t) -> field_of c <> None -> cell_text (ic_id c) r = Some src -> uses_only (fun _ => true) KUnary src;
    pl_out : forall o r src, In o (active t) -> In r (pt_rows t) -> cell_text (pc_id o) r = Some src -> uses_only (not_among (table_fields t)) KStandard src }.
End Plain.
