(** What expression nodes, loops and the final clean-up are expected to do. *)
From Coq Require Import String Ascii ZArith Lia Bool List Arith.
From Verif Require Import Base Dec Value Heap HeapSpec Ast Ops Isolate Session.
Import ListNotations.
Local Open Scope string_scope.
Local Open Scope list_scope.
Local Open Scope nat_scope.

(** Entries with a key and an expression. *)
Definition nonblank (es : list (string * string)) : list (string * string) :=
  filter (fun e => negb (String.eqb (fst e) "") && negb (String.eqb (snd e) "")) es.
(** Of any two keys, neither leads into the other ([a] and [a.b] are not allowed together; repeating a key is). *)
Definition independent (keys : list string) : Prop :=
  forall a b, In a keys -> In b keys -> a = b \/ diverge (split_dot a) (split_dot b).
(** The object [v] holds exactly these values under these dotted keys; of a repeated key, the last. *)
Definition assembled (h : heap) (v : value) (kvs : list (string * value)) : Prop :=
  (exists l, v = VObj l) /\
  (forall key x, aget key (rev kvs) = Some x -> forall rest, dot_parts h v (split_dot key ++ rest) = dot_parts h x rest) /\
  (forall key x q r, In (key, x) kvs -> split_dot key = q ++ r -> r <> [] -> exists l, dot_parts h v q = Some (VObj l)) /\
  (forall q w, dot_parts h v q = Some w -> q = [] \/ exists key x, In (key, x) kvs /\ (is_prefix q (split_dot key) \/ is_prefix (split_dot key) q)).
(** The scope of an expression in a node: the node's input, [$nodes] if given, and under [$] the entries so far. *)
Definition sees (env : value) (nodes : option value) (h : heap) (sc : scope) (kvs : list (string * value)) : Prop :=
  sc_base sc = env /\ local_str sc "$nodes" = nodes /\
  (forall k, k <> "$" -> k <> "$nodes" -> local_str sc k = None) /\
  match kvs with
  | [] => local_str sc "$" = None
  | _ => exists d, local_str sc "$" = Some d /\ assembled h d kvs
  end.

(** *** Writing under a path, on plain trees: missing objects are created, anything else in the way blocks the write. *)
Fixpoint twrite (path : list string) (x : tree) (t : tree) : tree :=
  match path with
  | [] => t
  | k :: r =>
      match t with
      | TObj m =>
          match r with
          | [] => TObj (aset k x m)
          | _ => TObj (aset k (twrite r x (match aget k m with Some y => y | None => TObj [] end)) m)
          end
      | _ => t
      end
  end.

(** *** Removing a key everywhere. *)
Fixpoint strip (k : string) (t : tree) : tree :=
  match t with
  | TArr a => TArr (map (strip k) a)
  | TObj m => TObj ((fix go m := match m with
                                  | [] => []
                                  | (k', x) :: r => if String.eqb k' k then go r else (k', strip k x) :: go r
                                  end) m)
  | _ => t
  end.

(** *** Loops. What a node computes on one element, as a function on plain trees: [F] for the node [f], started anywhere after [h0]. *)
Definition acts (f : value -> bool -> heap -> heap * res value) (h0 : heap) (F : tree -> res tree) : Prop :=
  forall x b h t, hext h0 h -> repr h x t -> wf_tree t ->
  match F t with
  | Ok t' => exists h1 v t1, f x b h = (h1, Ok v) /\ hext h h1 /\ repr h1 v t1 /\ wf_tree t1 /\ wf_tree t' /\ teq t1 t' = true /\ share_ok h1 x v
  | Err e => exists h1, f x b h = (h1, Err e) /\ hext h h1
  end.
(** Map with the first error winning. *)
Fixpoint traverse (F : tree -> res tree) (ts : list tree) : res (list tree) :=
  match ts with
  | [] => Ok []
  | t :: r => do t1 <- F t; do r1 <- traverse F r; Ok (t1 :: r1)
  end.
(** With pass-through the output is merged over its element. *)
Definition over (pass : bool) (F : tree -> res tree) (t : tree) : res tree :=
  do o <- F t; Ok (if pass then tmerge_top t o else o).
(** The output moved under its path. *)
Definition placed (path : option string) (t : tree) : tree :=
  match path with None => t | Some p => twrite (split_dot p) t (TObj []) end.

(** *** What can be reached without going through an entry named [k]. *)
Inductive reach_but (k : string) (h : heap) : value -> value -> Prop :=
| RBHere : forall v, reach_but k h v v
| RBArr : forall l a x w, hget h l = Some (CArr a) -> In x a -> reach_but k h x w -> reach_but k h (VArr l) w
| RBObj : forall l m k' x w, hget h l = Some (CObj m) -> In (k', x) m -> k' <> k -> reach_but k h x w -> reach_but k h (VObj l) w.
