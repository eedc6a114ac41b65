(** How a policy is evaluated: blocks run when what they write is demanded (core/engine/src/policy/evaluator.rs, queries/dependency.rs). What a block does to the store is a parameter. *)
From Coq Require Import String Ascii Bool List Arith.
From Verif Require Import Base.
Import ListNotations.
Local Open Scope string_scope.
Local Open Scope list_scope.

(** workspace/types.rs [BlockRef]: the policy and the block's id. *)
Definition bref := (string * string)%type.
Definition beqb (a b : bref) : bool := String.eqb (fst a) (fst b) && String.eqb (snd a) (snd b).
Definition bmem (b : bref) (l : list bref) : bool := existsb (beqb b) l.
(** evaluator.rs:445-452, dependency.rs:227-234: the parts of a path before its dots, the shortest first. *)
Fixpoint dot_prefixes (s : string) : list string :=
  match s with
  | EmptyString => []
  | String c r => let rest := map (String c) (dot_prefixes r) in if Ascii.eqb c "." then "" :: rest else rest
  end.
(** dependency.rs:659-666 [PathPrefix::extends]. *)
Definition extends (prefix path : string) : bool := String.eqb prefix path || String.prefix (prefix ++ ".")%string path.
(** dependency.rs:695-702 [DataModelPaths::matches_prefix]. [dm] is the set [all] of the paths the data models declare. *)
Definition in_model (dm : list string) (p : string) : bool := existsb (fun m => extends m p || extends p m) dm.
(** dependency.rs:413-492 [compute_graph], the part that finds who writes a path: [written_by] of its nodes. A block is listed with the paths it writes. The nodes of read paths and the edges are not modelled here. *)
Definition note_writer (b : bref) (w : amap bref) (p : string) : amap bref := match aget p w with Some _ => w | None => aset p b w end.
Definition path_writers (dm : list string) (b : bref) (w : amap bref) (p : string) : amap bref :=
  if in_model dm p then w
  else fold_left (fun w q => if in_model dm q then w else note_writer b w q) (dot_prefixes p) (note_writer b w p).
Definition found_writers (dm : list string) (blocks : list (bref * list string)) : amap bref :=
  fold_left (fun w e => fold_left (path_writers dm (fst e)) (snd e) w) blocks [].
(** dependency.rs:218-219: sorted by path. *)
Fixpoint put_sorted (e : string * bref) (l : amap bref) : amap bref :=
  match l with
  | [] => [e]
  | x :: r => match String.compare (fst e) (fst x) with Gt => x :: put_sorted e r | _ => e :: l end
  end.
Definition sort_writers (l : amap bref) : amap bref := fold_right put_sorted [] l.
Definition graph_writers (dm : list string) (blocks : list (bref * list string)) : amap bref := sort_writers (found_writers dm blocks).
(** dependency.rs:214-239 [collect_demand_writers]. [writers] is the map of writers as a list sorted by path. *)
Definition push_writer (owner : bref) (out : amap (list bref)) (target : string) : amap (list bref) :=
  let l := match aget target out with Some l => l | None => [] end in
  aset target (if bmem owner l then l else l ++ [owner]) out.
Definition demand_writers (writers : amap bref) : amap (list bref) :=
  fold_left (fun out e =>
    let '(path, owner) := e in
    fold_left (fun out p => if match aget p writers with Some _ => true | None => false end then push_writer owner out p else out) (dot_prefixes path) (push_writer owner out path))
    writers [].
(** dependency.rs:245-250 [demand_writers_for]. *)
Definition writers_for (writers : amap bref) (p : string) : list bref := match aget p (demand_writers writers) with Some l => l | None => [] end.
(** evaluator.rs:439-454 [writers_of_longest_prefix]. *)
Definition longest (writers : amap bref) (p : string) : list bref :=
  match writers_for writers p with
  | [] => match find (fun q => match writers_for writers q with [] => false | _ => true end) (rev (dot_prefixes p)) with Some q => writers_for writers q | None => [] end
  | l => l
  end.

Section Driver.
  (** The store and environment; what a block selected (an arm, rows); an error. *)
  Variables W P E : Type.
  Variable writers : amap bref.
  (** [rule_by_ref] has the block. *)
  Variable known : bref -> bool.
  (** [read_plans]: the paths read in any case, and those read for a selection. *)
  Variable always : bref -> list string.
  Variable reads : bref -> P -> list string.
  (** Selecting ([None]: the block has no instances and does nothing) and committing. For a block that runs for every instance of an entity these stand for all instances. *)
  Variable select : bref -> W -> W * (option P + E).
  Variable commit : bref -> P -> W -> W * (unit + E).
  (** evaluator.rs:247-258 [Driver]. [log] stands for [executions]: the blocks that have run, the first one first, with what they selected. *)
  Record dstate := DState { world : W; ran : list bref; busy : list bref; log : list (bref * option P) }.
  Definition answer := option (dstate * (unit + E)).
  Fixpoint each {A} (f : A -> dstate -> answer) (l : list A) (s : dstate) : answer :=
    match l with
    | [] => Some (s, inl tt)
    | x :: r => match f x s with Some (s1, inl _) => each f r s1 | o => o end
    end.
  Section Step.
    Variable run : bref -> dstate -> answer.
    (** evaluator.rs:433-437 [demand]. *)
    Definition demand (p : string) (s : dstate) : answer := each run (longest writers p) s.
    (** evaluator.rs:468-499, 517-563, 565-675 [run_block_inner], [run_singleton], [run_iterated]; the sorting of demanded paths for instances is in [reads]. *)
    Definition run_inner (b : bref) (s : dstate) : answer :=
      if known b then
        match each demand (always b) s with
        | Some (s1, inl _) =>
            let '(w, o) := select b (world s1) in
            match o with
            | inr e => Some (DState w (ran s1) (busy s1) (log s1), inr e)
            | inl None => Some (DState w (ran s1) (busy s1) (log s1 ++ [(b, None)]), inl tt)
            | inl (Some pick) =>
                match each demand (reads b pick) (DState w (ran s1) (busy s1) (log s1)) with
                | Some (s2, inl _) =>
                    let '(w2, o2) := commit b pick (world s2) in
                    match o2 with
                    | inr e => Some (DState w2 (ran s2) (busy s2) (log s2), inr e)
                    | inl _ => Some (DState w2 (ran s2) (busy s2) (log s2 ++ [(b, Some pick)]), inl tt)
                    end
                | o => o
                end
            end
        | o => o
        end
      else Some (s, inl tt).
  End Step.
  (** evaluator.rs:456-466 [run_block]. The number bounds the nesting; [None] when it is used up. *)
  Fixpoint run_block (fuel : nat) (b : bref) (s : dstate) : answer :=
    match fuel with
    | 0 => None
    | S f =>
        if bmem b (ran s) || bmem b (busy s) then Some (s, inl tt)
        else match run_inner (run_block f) b (DState (world s) (ran s) (b :: busy s) (log s)) with
             | None => None
             | Some (s1, r) =>
                 let rest := filter (fun x => negb (beqb b x)) (busy s1) in
                 Some (DState (world s1) (match r with inl _ => b :: ran s1 | inr _ => ran s1 end) rest (log s1), r)
             end
    end.
  (** evaluator.rs:132-138: the goals (or the sinks of the graph) are demanded one after the other. *)
  Definition run_goals (fuel : nat) (goals : list string) (w : W) : answer := each (demand (run_block fuel)) goals (DState w [] [] []).
End Driver.
