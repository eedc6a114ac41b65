(** * Properties written by policies that do not know each other
    Models engine/src/policy/queries/components.rs:17-50 [cross_component_write_conflicts] on the snapshot of Workspace.v.
    The paths a rule writes (dependency.rs [RuleDeps::writes]) are a parameter. *)
From Coq Require Import String List Bool Arith NArith.
Import ListNotations.
From Verif Require Import Base Convert Workspace.
Local Open Scope nat_scope.
Local Open Scope list_scope.

Section Conflicts.
  Context {PD GC PP SC RU UN EN SG AN DG AR FT DI : Type}.
  Variable rw : RU -> list path.
  (** components.rs:20-33: the writes of every rule, with the policy and its component. *)
  Definition all_writes (cs : list (list path)) (rules : amap (list RU)) : list (path * (path * nat)) :=
    flat_map (fun e => match comp_index (fst e) cs 0 with
                       | None => []
                       | Some c => flat_map (fun r => map (fun x => (x, (fst e, c))) (filter (fun x => negb (String.eqb x "")) (rw r))) (snd e)
                       end) rules.
  (** [by_path.entry(..).or_default().push(..)]. *)
  Definition push (m : amap (list (path * nat))) (w : path * (path * nat)) : amap (list (path * nat)) :=
    aset (fst w) (match aget (fst w) m with Some l => l | None => [] end ++ [snd w]) m.
  (** components.rs:35-48; [HashSet::len]. The map is left in the order of insertion: what comes out of it is sorted. *)
  Definition conflict_list (cs : list (list path)) (rules : amap (list RU)) : list (path * list path) :=
    sort_map (flat_map (fun e => if length (nodup Nat.eq_dec (map snd (snd e))) <? 2 then [] else [(fst e, sort_paths (map fst (snd e)))])
                       (fold_left push (all_writes cs rules) [])).
  Variable T : @tools PD GC PP SC RU UN EN SG AN DG AR FT DI.
  Variable M : @arcs PD GC.
  Definition write_conflicts (b : @db PP RU UN EN AN DG AR FT) : list (path * list path) :=
    let s := fst (snapshot T M b) in conflict_list (s_components s) (s_shallow s).
End Conflicts.
