(** What it means to walk a decision graph properly: the specification behind C32-C35. *)
From Coq Require Import String Lia Bool List Arith.
From Verif Require Import Base Value Heap HeapSpec Graph GraphSpec Walker.
Import ListNotations.
Local Open Scope list_scope.
Local Open Scope nat_scope.

Section Spec.
  Context {T : Type}.
  Implicit Types g : graph T.
  (** An edge is struck out by the decided switches when it leaves one of them and does not carry the id of a statement
      that holds there. *)
  Definition selects (valid : list statement) (e : gedge) : Prop := exists s, In s valid /\ ge_handle e = Some (st_id s).
  Definition struck g (cs : list (choice T)) (i : nat) : Prop :=
    exists c e, In c cs /\ In (i, e) (g_edges g) /\ ge_src e = ch_node c /\ ~ selects (ch_valid c) e.
  (** The outputs of the nodes in a log. *)
  Definition ran (log : list (event T)) (n : nat) (out : value) : Prop := exists ev, In ev log /\ ev_node ev = n /\ ev_out ev = Ok out.
  (** The output of the last node of that name in a log. *)
  Fixpoint output_named g (log : list (event T)) (k : string) : option value :=
    match log with
    | [] => None
    | ev :: r =>
        match output_named g r k with
        | Some v => Some v
        | None =>
            match ev_out ev, find (fun x => fst x =? ev_node ev) (g_nodes g) with
            | Ok v, Some (_, nd) => if String.eqb (gn_name nd) k then Some v else None
            | _, _ => None
            end
        end
    end.
End Spec.

(** Testing statements one after the other on the same isolate; a blank condition holds. *)
Inductive tested {IS : Type} (run : IS -> string -> heap -> IS * heap * bool) : IS -> heap -> list statement -> list bool -> Prop :=
| te_nil i h : tested run i h [] []
| te_blank i h s l bs : st_cond s = ""%string -> tested run i h l bs -> tested run i h (s :: l) (true :: bs)
| te_run i h s l b bs i1 h1 : st_cond s <> ""%string -> run i (st_cond s) h = (i1, h1, b) -> tested run i1 h1 l bs -> tested run i h (s :: l) (b :: bs).
(** The statements that hold, by hit policy. *)
Definition hits {IS : Type} (run : IS -> string -> heap -> IS * heap * bool) (p : hit_policy) (sts : list statement) (i : IS) (h : heap) (valid : list statement) : Prop :=
  match p with
  | HCollect => exists bs, tested run i h sts bs /\ valid = map fst (filter snd (combine sts bs))
  | HFirst => (exists pre s post, sts = pre ++ s :: post /\ tested run i h (pre ++ [s]) (repeat false (length pre) ++ [true]) /\ valid = [s]) \/
              (tested run i h sts (repeat false (length sts)) /\ valid = [])
  end.


(** The merge of several values, the last winning: the first counts if it is an object or an array. *)
Definition merge_trees (ts : list tree) : tree :=
  match ts with
  | [] => TObj []
  | t :: r => fold_left tmerge_top r (match t with TObj _ | TArr _ => t | _ => TObj [] end)
  end.
(** Any two of them share only objects without null entries. *)
Fixpoint apart (h : heap) (vs : list value) : Prop :=
  match vs with [] => True | v :: r => Forall (share_ok h v) r /\ apart h r end.
