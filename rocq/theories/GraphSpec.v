(** What graphs are for the user: the specification behind C31-C35. *)
From Coq Require Import String Lia Bool List Arith.
From Verif Require Import Base Graph.
Import ListNotations.
Local Open Scope list_scope.
Local Open Scope nat_scope.

Section Spec.
  Context {T : Type}.
  Implicit Types g : graph T.
  (** The graph has an edge from [a] to [b]. *)
  Definition edge g (a b : nat) : Prop := exists i e, In (i, e) (g_edges g) /\ ge_src e = a /\ ge_tgt e = b.
  (** A chain of one or more edges. *)
  Inductive reaches g : nat -> nat -> Prop :=
  | re_one a b : edge g a b -> reaches g a b
  | re_step a b c : edge g a b -> reaches g b c -> reaches g a c.
  Definition cyclic g : Prop := exists n, reaches g n n.
  (** Every index is used once and edges join nodes of the graph. *)
  Definition wf_graph g : Prop :=
    NoDup (node_ids g) /\ NoDup (map fst (g_edges g)) /\ forall i e, In (i, e) (g_edges g) -> In (ge_src e) (node_ids g) /\ In (ge_tgt e) (node_ids g).
  (** The input nodes. *)
  Definition inputs g : list nat := map fst (filter (fun x => is_input (snd x)) (g_nodes g)).
  (** Where the edges into [n] come from, in the order in which the edges were declared. *)
  Definition sources g (n : nat) : list nat := map (fun x => ge_src (snd x)) (filter (fun x => ge_tgt (snd x) =? n) (g_edges g)).
  (** Connected to an input node, following edges in either direction. *)
  Inductive connected g : nat -> Prop :=
  | co_input n : In n (inputs g) -> connected g n
  | co_succ a b : edge g a b -> connected g a -> connected g b
  | co_pred a b : edge g a b -> connected g b -> connected g a.
  (** [n] has no edge in direction [d]. *)
  Definition no_edge g (n : nat) (d : dir) : Prop := forall x, In x (g_edges g) -> at_end d (snd x) <> n.
  (** Pruning. [D]: the edges struck out. A node is fed when a chain of edges that are not struck out leads to it from a
      node without incoming edges; it is used when such a chain leads from it to a node without outgoing edges. *)
  Inductive fed g (D : nat -> Prop) : nat -> Prop :=
  | fed_root n : no_edge g n Incoming -> fed g D n
  | fed_step i e : In (i, e) (g_edges g) -> ~ D i -> fed g D (ge_src e) -> fed g D (ge_tgt e).
  Inductive used g (D : nat -> Prop) : nat -> Prop :=
  | used_end n : no_edge g n Outgoing -> used g D n
  | used_step i e : In (i, e) (g_edges g) -> ~ D i -> used g D (ge_tgt e) -> used g D (ge_src e).
  (** What is left of [g] when [D] is struck out: the edges on a complete chain, and the nodes at their ends; nodes that
      had no edge to begin with stay. *)
  Definition left_edge g (D : nat -> Prop) (i : nat) (e : gedge) : Prop :=
    In (i, e) (g_edges g) /\ ~ D i /\ fed g D (ge_src e) /\ used g D (ge_tgt e).
  Definition left_node g (D : nat -> Prop) (n : nat) : Prop :=
    In n (node_ids g) /\ ((forall d, no_edge g n d) \/ exists i e, left_edge g D i e /\ (ge_src e = n \/ ge_tgt e = n)).
  (** [g'] is [g] with some nodes and edges left out. *)
  Definition part g' g : Prop := exists pn pe, g_nodes g' = filter pn (g_nodes g) /\ g_edges g' = filter pe (g_edges g).
  Definition pruned_to g (D : nat -> Prop) g' : Prop :=
    part g' g /\ (forall i e, In (i, e) (g_edges g') <-> left_edge g D i e) /\ (forall n, In n (node_ids g') <-> left_node g D n).
End Spec.
