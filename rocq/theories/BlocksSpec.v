(** What the blocks of a policy are expected to do, said without the way they are evaluated. *)
From Coq Require Import String Bool List Arith.
From Verif Require Import Base Dec Value Heap Ast Ops HeapSpec Isolate Session PureFacts Blocks KeepFacts.
From Verif Require RepFacts.
Import ListNotations.
Local Open Scope string_scope.
Local Open Scope nat_scope.
Local Open Scope list_scope.

(** *** The formula an assertion stands for. Indentation makes groups; an item is combined with what stands before it by the
    operator of the condition written last before it. *)
Inductive item :=
| ICond (id expr : string) (op : bop)
| IGroup (l : list item).

(** The operator written at the end of an item. *)
Fixpoint op_after (i : item) : bop :=
  match i with
  | ICond _ _ o => o
  | IGroup l => (fix go l := match l with [] => BAnd | [i] => op_after i | _ :: r => go r end) l
  end.
Definition join (o : bop) (l r : bool) : bool := match o with BAnd => l && r | BOr => l || r end.
(** The value of a formula: left to right within a group, groups first. *)
Fixpoint value_of (truth : string -> bool) (i : item) : bool :=
  match i with
  | ICond _ e _ => truth e
  | IGroup l =>
      match l with
      | [] => false
      | i0 :: r =>
          (fix go acc o l := match l with
                             | [] => acc
                             | i :: r => go (join o acc (value_of truth i)) (op_after i) r
                             end) (value_of truth i0) (op_after i0) r
      end
  end.
(** How a formula is written: the conditions with their indentation. *)
Fixpoint lines (d : nat) (i : item) : list acond :=
  match i with
  | ICond id e o => [ACond id e o d]
  | IGroup l => (fix go l := match l with [] => [] | i :: r => lines (S d) i ++ go r end) l
  end.
Fixpoint all_lines (d : nat) (l : list item) : list acond :=
  match l with [] => [] | i :: r => lines d i ++ all_lines d r end.
(** Formulas that indentation can express: no empty group, no two groups in a row. *)
Fixpoint apart (l : list item) : bool :=
  match l with
  | IGroup _ :: ((IGroup _ :: _) as r) => false
  | _ :: r => apart r
  | [] => true
  end.
Fixpoint written (i : item) : bool :=
  match i with
  | ICond _ _ _ => true
  | IGroup l => match l with [] => false | _ => true end && apart l &&
                (fix go l := match l with [] => true | i :: r => written i && go r end) l
  end.

Section Spec.
  Variable X : ext.
  Variable parse : ekind -> string -> res node.

  (** What an expression evaluates to in a context. *)
  Definition outcome (h : heap) (ctx : value) (e : string) : res value := snd (srun X parse KStandard e (scope_new ctx) h).
  (** Only [true] counts. *)
  Definition holds_in (h : heap) (ctx : value) (e : string) : bool :=
    match outcome h ctx e with Ok (VBool true) => true | _ => false end.
  Definition works (h : heap) (ctx : value) (e : string) : Prop := exists v, outcome h ctx e = Ok v.

  (** *** The arm of a match: the first one without condition, or whose condition holds. *)
  Inductive arm_chosen (h : heap) (ctx : value) : list marm -> option marm -> Prop :=
  | AC_none : arm_chosen h ctx [] None
  | AC_here : forall a r, ma_cond a = "" \/ holds_in h ctx (ma_cond a) = true -> arm_chosen h ctx (a :: r) (Some a)
  | AC_next : forall a r o, ma_cond a <> "" -> works h ctx (ma_cond a) -> holds_in h ctx (ma_cond a) = false ->
      arm_chosen h ctx r o -> arm_chosen h ctx (a :: r) o.

  (** *** What a block computes in a context. *)
  Definition evaluates (h : heap) (ctx : value) (e : string) (t : tree) : Prop :=
    exists h1 v, srun X parse KStandard e (scope_new ctx) h = (h1, Ok v) /\ repr h1 v t.
  Inductive computes (h : heap) (ctx : value) : block -> tree -> Prop :=
  | CP_expr : forall k e t, evaluates h ctx e t -> computes h ctx (BExpression k e) t
  | CP_assert : forall k l, Forall (fun i => written i = true) l -> apart l = true -> l <> [] ->
      (forall c, In c (all_lines 0 l) -> works h ctx (ac_expr c)) ->
      computes h ctx (BAssertion k (all_lines 0 l)) (TBool (value_of (holds_in h ctx) (IGroup l)))
  | CP_empty : forall k, computes h ctx (BAssertion k []) (TBool false)
  | CP_match : forall k arms a t, arm_chosen h ctx arms (Some a) -> ma_value a <> "" -> evaluates h ctx (ma_value a) t ->
      computes h ctx (BMatch k arms) t
  | CP_blank : forall k arms a, arm_chosen h ctx arms (Some a) -> ma_value a = "" -> computes h ctx (BMatch k arms) TNull
  | CP_unmatched : forall k arms, arm_chosen h ctx arms None -> computes h ctx (BMatch k arms) TNull.

  (** A block whose expressions assign nothing and do not use the whole context. *)
  Definition reads_only (src : string) : Prop :=
    forall n, parse KStandard src = Ok n -> no_assign n = true /\ RepFacts.reads (fun _ => true) false n = true.
  Definition block_sources (b : block) : list string :=
    match b with
    | BExpression _ e => [e]
    | BAssertion _ l => map ac_expr l
    | BMatch _ arms => map ma_cond arms ++ map ma_value arms
    end.
  Definition plain_block (b : block) : Prop :=
    (forall e, In e (block_sources b) -> reads_only e) /\
    match b with
    | BExpression _ e => e <> ""
    | BAssertion _ _ => True
    | BMatch _ arms => NoDup (map ma_id arms)
    end.
  (** A block run on its own: the selection, then the rest. *)
  Definition run_alone (extras : bool) (b : block) (w : pworld) : pworld * res unit :=
    match bselect X parse extras b w with
    | (w1, Ok p) => bcommit X parse b p w1
    | (w1, Err e) => (w1, Err e)
    end.
End Spec.

(** *** Store and environment. *)
Definition block_key (b : block) : string :=
  match b with BExpression k _ => k | BAssertion k _ => k | BMatch k _ => k end.
(** The store and the environment are different objects with the same properties, except [$]; no property contains either of them, and all
    have a finite content. *)
Definition in_step (w : pworld) : Prop :=
  exists ls le ms me, pw_store w = VObj ls /\ pw_env w = VObj le /\ ls <> le /\
    hget (pw_heap w) ls = Some (CObj ms) /\ hget (pw_heap w) le = Some (CObj me) /\
    NoDup (akeys ms) /\ NoDup (akeys me) /\
    (forall k, k <> "$" -> aget k me = aget k ms) /\
    (forall k v, In (k, v) (ms ++ me) -> exists t, repr (pw_heap w) v t /\ clear (fun l => l = ls \/ l = le) (pw_heap w) v).
(** What stands at a top-level property of an object. *)
Definition shows (h : heap) (o : value) (k : string) (t : tree) : Prop := exists v, dot_parts h o [k] = Some v /\ repr h v t.
(** A name without dots, other than [$]. *)
Definition flat_key (k : string) : Prop := split_dot k = [k] /\ k <> "" /\ k <> "$".
