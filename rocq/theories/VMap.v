(** The object map [VariableMap]: a vector of entries up to 32 keys, a hash map above.
    Models core/types/src/variable/map.rs. *)
From Coq Require Import String Lia Bool List Arith.
From Verif Require Import Base.
Import ListNotations.
Local Open Scope nat_scope.

(** map.rs:9 SPILL_AT. *)
Definition spill_at : nat := 32.

Section VMap.
  Variable V : Type.
  (** Where the hash map puts a new key in its iteration order: arbitrary. External: [ahash::HashMap]
      is modelled as a list of entries with unique keys in an arbitrary order; its own operations are
      trusted to be those of a finite map. *)
  Variable place : string -> nat.

  (** map.rs:13-17 [Repr]. *)
  Inductive vmap :=
  | Small (entries : list (string * V))
  | Large (m : list (string * V)).

  (** Entry at an arbitrary position. *)
  Fixpoint put_at (n : nat) (e : string * V) (l : list (string * V)) : list (string * V) :=
    match n, l with
    | S k, x :: r => x :: put_at k e r
    | _, _ => e :: l
    end.
  Definition hm_insert (k : string) (v : V) (m : list (string * V)) : list (string * V) * option V :=
    match aget k m with
    | Some old => (aset k v m, Some old)
    | None => (put_at (place k) (k, v) m, None)
    end.
  Definition hm_remove (k : string) (m : list (string * V)) : list (string * V) * option V :=
    (adel k m, aget k m).

  (** map.rs:23-32 [new], [with_capacity]. *)
  Definition vm_new : vmap := Small [].
  Definition vm_with_capacity (n : nat) : vmap := if spill_at <? n then Large [] else Small [].
  (** map.rs:34-50. *)
  Definition vm_len (m : vmap) : nat := match m with Small l => length l | Large l => length l end.
  Definition vm_clear (m : vmap) : vmap := match m with Small _ => Small [] | Large _ => Large [] end.
  (** map.rs:52-99 [get], [get_str], [get_mut], [contains_key]: the first entry with that key. *)
  Fixpoint find_entry (k : string) (l : list (string * V)) : option V :=
    match l with
    | [] => None
    | (k', v) :: r => if String.eqb k' k then Some v else find_entry k r
    end.
  Definition vm_get (k : string) (m : vmap) : option V :=
    match m with Small l => find_entry k l | Large l => aget k l end.
  (** [mem::replace] in the slot found. *)
  Fixpoint replace_entry (k : string) (v : V) (l : list (string * V)) : list (string * V) :=
    match l with
    | [] => []
    | (k', v') :: r => if String.eqb k' k then (k', v) :: r else (k', v') :: replace_entry k v r
    end.
  (** map.rs:147-156 [spill]. *)
  Definition vm_spill (m : vmap) : vmap :=
    match m with
    | Small l => Large (fold_left (fun h kv => fst (hm_insert (fst kv) (snd kv) h)) l [])
    | Large _ => m
    end.
  (** map.rs:115-135 [insert]. *)
  Definition vm_insert (k : string) (v : V) (m : vmap) : vmap * option V :=
    match m with
    | Small l =>
        match find_entry k l with
        | Some old => (Small (replace_entry k v l), Some old)
        | None =>
            if spill_at <=? length l then
              match vm_spill m with
              | Large h => let (h1, o) := hm_insert k v h in (Large h1, o)
              | Small _ => (m, None)
              end
            else (Small (l ++ [(k, v)]), None)
        end
    | Large h => let (h1, o) := hm_insert k v h in (Large h1, o)
    end.
  (** [entries.remove(position)]. *)
  Fixpoint remove_entry (k : string) (l : list (string * V)) : list (string * V) :=
    match l with
    | [] => []
    | (k', v') :: r => if String.eqb k' k then r else (k', v') :: remove_entry k r
    end.
  (** map.rs:137-145 [remove], 105-113 [remove_str]. *)
  Definition vm_remove (k : string) (m : vmap) : vmap * option V :=
    match m with
    | Small l => (Small (remove_entry k l), find_entry k l)
    | Large h => let (h1, o) := hm_remove k h in (Large h1, o)
    end.
  (** map.rs:158-169 [entry]: spills first when a new key would not fit. *)
  Definition vm_entry (k : string) (m : vmap) : vmap :=
    match m with
    | Small l => if (spill_at <=? length l) && (match find_entry k l with None => true | _ => false end)
                 then vm_spill m else m
    | Large _ => m
    end.
  (** map.rs:208-222 [entry(k).or_insert(v)]: the map and the value behind the returned reference. *)
  Definition vm_or_insert (k : string) (v : V) (m : vmap) : vmap * option V :=
    let m1 := vm_entry k m in
    match vm_get k m1 with
    | Some x => (m1, Some x)
    | None => let m2 := fst (vm_insert k v m1) in (m2, vm_get k m2)
    end.
  (** map.rs:225-240 [OccupiedEntry::insert] / [VacantEntry::insert] through [entry(k)]: the map and the
      replaced value. *)
  Definition vm_entry_insert (k : string) (v : V) (m : vmap) : vmap * option V :=
    let m1 := vm_entry k m in
    match vm_get k m1 with
    | Some x => (match m1 with
                 | Small l => Small (replace_entry k v l)
                 | Large h => Large (aset k v h)
                 end, Some x)
    | None => (fst (vm_insert k v m1), None)
    end.
  (** map.rs:171-193 [iter], [keys], [values]. *)
  Definition vm_entries (m : vmap) : list (string * V) := match m with Small l => l | Large l => l end.
  (** [values_mut], [iter_mut]. *)
  Definition vm_map_values (f : V -> V) (m : vmap) : vmap :=
    let g := map (fun kv => (fst kv, f (snd kv))) in
    match m with Small l => Small (g l) | Large l => Large (g l) end.
  (** map.rs:336-342 [Extend]; 325-334 [FromIterator] is [with_capacity] followed by it. *)
  Definition vm_extend (l : list (string * V)) (m : vmap) : vmap :=
    fold_left (fun m kv => fst (vm_insert (fst kv) (snd kv) m)) l m.

  (** *** Histories *)
  Inductive mop :=
  | MInsert (k : string) (v : V)
  | MRemove (k : string)
  | MOrInsert (k : string) (v : V)
  | MEntryInsert (k : string) (v : V)
  | MExtend (l : list (string * V))
  | MMapValues (f : V -> V)
  | MClear
  | MGet (k : string)
  | MLen
  | MIter.
  Inductive mobs := BUnit | BVal (o : option V) | BLen (n : nat) | BIter (l : list (string * V)).

  Definition vm_step (m : vmap) (o : mop) : vmap * mobs :=
    match o with
    | MInsert k v => let (m1, r) := vm_insert k v m in (m1, BVal r)
    | MRemove k => let (m1, r) := vm_remove k m in (m1, BVal r)
    | MOrInsert k v => let (m1, r) := vm_or_insert k v m in (m1, BVal r)
    | MEntryInsert k v => let (m1, r) := vm_entry_insert k v m in (m1, BVal r)
    | MExtend l => (vm_extend l m, BUnit)
    | MMapValues f => (vm_map_values f m, BUnit)
    | MClear => (vm_clear m, BUnit)
    | MGet k => (m, BVal (vm_get k m))
    | MLen => (m, BLen (vm_len m))
    | MIter => (m, BIter (vm_entries m))
    end.
  Fixpoint vm_trace (m : vmap) (ops : list mop) : list mobs :=
    match ops with
    | [] => []
    | o :: r => let (m1, b) := vm_step m o in b :: vm_trace m1 r
    end.
  Fixpoint vm_after (m : vmap) (ops : list mop) : vmap :=
    match ops with [] => m | o :: r => vm_after (fst (vm_step m o)) r end.
End VMap.
Arguments Small {V}. Arguments Large {V}.
Arguments vm_new {V}. Arguments vm_with_capacity {V}.
Arguments MInsert {V}. Arguments MRemove {V}. Arguments MOrInsert {V}. Arguments MEntryInsert {V}.
Arguments MExtend {V}. Arguments MMapValues {V}. Arguments MClear {V}. Arguments MGet {V}. Arguments MLen {V}.
Arguments MIter {V}. Arguments BUnit {V}. Arguments BVal {V}. Arguments BLen {V}. Arguments BIter {V}.

(** ** Specification: a finite map is a partial function with finitely many keys *)
Section Spec.
  Variable V : Type.
  Definition fmap := string -> option V.
  Definition fput (k : string) (v : V) (f : fmap) : fmap := fun x => if String.eqb x k then Some v else f x.
  Definition fdrop (k : string) (f : fmap) : fmap := fun x => if String.eqb x k then None else f x.
  (** [l] lists the map: every binding once, and nothing else. *)
  Definition lists (f : fmap) (l : list (string * V)) : Prop :=
    NoDup (map fst l) /\ forall k v, In (k, v) l <-> f k = Some v.
  Definition same (f g : fmap) : Prop := forall k, f k = g k.
  (** What each operation may show, and the map it leaves. *)
  Definition fstep (f : fmap) (o : mop V) (b : mobs V) (f1 : fmap) : Prop :=
    match o with
    | MInsert k v => b = BVal (f k) /\ same f1 (fput k v f)
    | MRemove k => b = BVal (f k) /\ same f1 (fdrop k f)
    | MOrInsert k v =>
        match f k with
        | Some x => b = BVal (Some x) /\ same f1 (f)
        | None => b = BVal (Some v) /\ same f1 (fput k v f)
        end
    | MEntryInsert k v => b = BVal (f k) /\ same f1 (fput k v f)
    | MExtend l => b = BUnit /\ same f1 (fold_left (fun f kv => fput (fst kv) (snd kv) f) l f)
    | MMapValues g => b = BUnit /\ same f1 ((fun k => option_map g (f k)))
    | MClear => b = BUnit /\ same f1 ((fun _ => None))
    | MGet k => b = BVal (f k) /\ same f1 (f)
    | MLen => (exists l, lists f l /\ b = BLen (length l)) /\ same f1 (f)
    | MIter => (exists l, lists f l /\ b = BIter l) /\ same f1 (f)
    end.
  Fixpoint fallows (f : fmap) (ops : list (mop V)) (bs : list (mobs V)) : Prop :=
    match ops, bs with
    | [], [] => True
    | o :: r, b :: bs1 => exists f1, fstep f o b f1 /\ fallows f1 r bs1
    | _, _ => False
    end.
End Spec.
