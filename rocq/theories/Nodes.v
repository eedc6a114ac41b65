(** What the nodes of a decision graph do. Models core/engine/src/nodes/context.rs (the isolate a node works with),
    nodes/expression/mod.rs, nodes/transform_attributes.rs and decision_graph/cleaner.rs. Traces are dropped. *)
From Coq Require Import String Ascii ZArith Lia Bool List Arith.
From Verif Require Import Base Dec Value Heap Ast Ops Compiler Vm Eval Isolate Session Graph Walker Lexer Parser.
Import ListNotations.
Local Open Scope string_scope.
Local Open Scope list_scope.
Local Open Scope nat_scope.

(** The parser of Parser.v as the isolate uses it (isolate.rs:118-135). [pn] reads number tokens. *)
Definition parser (pn : string -> option dec) (k : ekind) (s : string) : res node :=
  match parse_source pn (match k with KStandard => FStandard | KUnary => FUnary end) s with
  | Some r => r
  | None => Err (EPanic "unreachable")
  end.

(** variable/mod.rs:311-327 [deep_clone] with enough fuel for every value without a cycle. *)
Definition copy (h : heap) (v : value) : heap * res value :=
  match deep_clone (S (length h)) h v with
  | Some (h1, v1) => (h1, Ok v1)
  | None => (h, Err (EPanic "stack overflow"))
  end.

(** nodes/context.rs:220-233 [make_isolate]. *)
Definition node_session (env : value) (nodes : option value) : session :=
  match nodes with
  | None => s_open env
  | Some n => s_local "$nodes" n (s_open env)
  end.

(** types/decision/mod.rs:206-225. *)
Inductive exec_mode := MSingle | MLoop.
Record transform := Transform { ta_field : option string; ta_path : option string; ta_mode : exec_mode; ta_pass : bool }.
Definition plain_transform : transform := Transform None None MSingle false.

Section Nodes.
  Variable X : ext.
  Variable parse : ekind -> string -> res node.

  (** expression/mod.rs:32-54. *)
  Fixpoint run_entries (es : list (string * string)) (s : session) (out : value) (h : heap) : heap * res unit :=
    match es with
    | [] => (h, Ok tt)
    | (key, src) :: r =>
        if String.eqb key "" || String.eqb src "" then run_entries r s out h
        else
          match s_std X parse src s h with
          | (h1, Err e) => (h1, Err e)
          | (h1, Ok v) =>
              let (s1, h2) := s_dollar key v s h1 in
              run_entries r s1 out (fst (dot_insert h2 out key v))
          end
    end.
  (** expression/mod.rs:28-57. *)
  Definition expression_node (es : list (string * string)) (env : value) (nodes : option value) (h : heap) : heap * res value :=
    let (h1, out) := new_obj h [] in
    match run_entries es (node_session env nodes) out h1 with
    | (h2, Ok _) => (h2, Ok out)
    | (h2, Err e) => (h2, Err e)
    end.

  (** transform_attributes.rs:52-70. [f] evaluates the node on one element; its flag says that more elements follow. The
      elements are read once, before the first run: the array is borrowed for the whole loop, so a handler that tried to
      write it would panic. *)
  Fixpoint loop_over (f : value -> bool -> heap -> heap * res value) (pass : bool) (xs : list value) (h : heap) : heap * res (list value) :=
    match xs with
    | [] => (h, Ok [])
    | x :: r =>
        match f x (match r with [] => false | _ => true end) h with
        | (h1, Err e) => (h1, Err e)
        | (h1, Ok o) =>
            match (if pass then merge_clone h1 x o else (h1, Ok o)) with
            | (h2, Err e) => (h2, Err e)
            | (h2, Ok y) =>
                match loop_over f pass r h2 with
                | (h3, Ok ys) => (h3, Ok (y :: ys))
                | (h3, Err e) => (h3, Err e)
                end
            end
        end
    end.
  (** transform_attributes.rs:15-91 [run_with]. *)
  Definition run_with (t : transform) (env : value) (nodes : option value)
      (f : value -> bool -> heap -> heap * res value) (h : heap) : heap * res value :=
    match (match ta_field t with
           | None => (h, Ok env)
           | Some src => s_std X parse src (node_session env nodes) h
           end) with
    | (h1, Err e) => (h1, Err e)
    | (h1, Ok input) =>
        match (match ta_mode t with
               | MSingle => f input false h1
               | MLoop =>
                   match input with
                   | VArr l =>
                       match loop_over f (ta_pass t) (match harr h1 l with Some xs => xs | None => [] end) h1 with
                       | (h2, Ok ys) => let (h3, a) := new_arr h2 ys in (h3, Ok a)
                       | (h2, Err e) => (h2, Err e)
                       end
                   | _ => (h1, Err (EOp "Expected an array"))
                   end
               end) with
        | (h2, Err e) => (h2, Err e)
        | (h2, Ok out) =>
            let (h3, out1) :=
              match ta_path t with
              | None => (h2, out)
              | Some p => let (h3, o) := new_obj h2 [] in (fst (dot_insert h3 o p out), o)
              end in
            if ta_pass t then merge_clone h3 env out1 else (h3, Ok out1)
        end
    end.
End Nodes.

(** cleaner.rs:19-52: [seen] is the set of visited addresses. Fuel: every call that goes deeper visits a new address. *)
Definition reserved : string := "$nodes".
Fixpoint clean (fuel : nat) (h : heap) (seen : list loc) (v : value) : heap * list loc :=
  match fuel with
  | O => (h, seen)
  | S n =>
      let each (l : list value) (h : heap) (seen : list loc) :=
        fold_left (fun st x => clean n (fst st) (snd st) x) l (h, seen) in
      match v with
      | VArr l =>
          if existsb (Nat.eqb l) seen then (h, seen)
          else match harr h l with
               | Some a => each a h (l :: seen)
               | None => (h, l :: seen)
               end
      | VObj l =>
          if existsb (Nat.eqb l) seen then (h, seen)
          else match hobj h l with
               | Some m => let m1 := adel reserved m in each (map snd m1) (hset h l (CObj m1)) (l :: seen)
               | None => (h, l :: seen)
               end
      | _ => (h, seen)
      end
  end.
Definition clean_value (h : heap) (v : value) : heap := fst (clean (S (length h)) h [] v).
