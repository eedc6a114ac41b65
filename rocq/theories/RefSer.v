(** Serialisation with references: core/types/src/variable/ref_ser.rs and ref_deser.rs. An [RcValue] (rcvalue/mod.rs:9-18) is a tree without dynamic values; a hash map is
    an association list. *)
From Coq Require Import String Ascii ZArith NArith Bool List Arith DecimalString.
From Verif Require Import Base Dec Value.
Import ListNotations.
Local Open Scope string_scope.
Local Open Scope list_scope.
Local Open Scope nat_scope.

(** What has an address: a string (equal strings share one address, ref_ser.rs:38-45 [intern_string_addr]), an array or an object. *)
Inductive addr := AStr (s : string) | ALoc (l : loc).
Definition addr_eqb (a b : addr) : bool :=
  match a, b with AStr s, AStr t => String.eqb s t | ALoc l, ALoc m => l =? m | _, _ => false end.
Definition addr_dec : forall a b : addr, {a = b} + {a <> b}.
Proof. decide equality; [apply string_dec|apply Nat.eq_dec]. Defined.
(** ref_ser.rs:31-36 [escape_at_string]. *)
Definition escape (s : string) : string := match s with String "@" _ => String "@" s | _ => s end.
(** ref_ser.rs:64-97 [count_refs], as the list of the addresses counted. A cyclic value does not stop: [None] when the fuel runs out. *)
Fixpoint counted (n : nat) (h : heap) (v : value) : option (list addr) :=
  match n with
  | O => None
  | S n =>
      match v with
      | VStr s => Some (if String.length s <? 5 then [] else [AStr s])
      | VArr l =>
          match harr h l with
          | None => None
          | Some a =>
              match (fix go a := match a with [] => Some [] | x :: r => match counted n h x, go r with Some p, Some q => Some (p ++ q) | _, _ => None end end) a with
              | Some p => Some (ALoc l :: p)
              | None => None
              end
          end
      | VObj l =>
          match hobj h l with
          | None => None
          | Some m =>
              match (fix go m := match m with [] => Some [] | (k, x) :: r => match counted n h x, go r with Some p, Some q => Some (AStr k :: p ++ q) | _, _ => None end end) m with
              | Some p => Some (ALoc l :: p)
              | None => None
              end
          end
      | _ => Some []
      end
  end.
Definition shared (l : list addr) : list addr := filter (fun a => 2 <=? count_occ addr_dec l a) (nodup addr_dec l).
(** The place of an address in the table (ref_ser.rs:110-117). *)
Fixpoint idx (tbl : list addr) (a : addr) : option nat :=
  match tbl with [] => None | b :: r => if addr_eqb b a then Some 0 else option_map S (idx r a) end.
Definition show_ref (i : nat) : string := String "@" (NilEmpty.string_of_uint (N.to_uint (N.of_nat i))).
(** ref_ser.rs:128-130: a slot is filled once. *)
Definition fill (i : nat) (x : tree) (data : list tree) : list tree := match nth_error data i with Some TNull => lupd i x data | _ => data end.
Section Ser.
  Variable dv : dyn -> tree.
  Variable tbl : list addr.
  (** ref_ser.rs:122-133, 159-170: a string as a value or a key. *)
  Definition ser_str (s : string) (data : list tree) : string * list tree :=
    match idx tbl (AStr s) with None => (escape s, data) | Some i => (show_ref i, fill i (TStr (escape s)) data) end.
  (** ref_ser.rs:147-153, 179-187. *)
  Definition ser_loc (l : loc) (x : tree) (data : list tree) : tree * list tree :=
    match idx tbl (ALoc l) with None => (x, data) | Some i => (TStr (show_ref i), fill i x data) end.
  (** ref_ser.rs:120-191 [serialize_with_refs]; dynamic values by [RcValue::from] (rcvalue/conv.rs:46), the parameter [dv]. *)
  Fixpoint ser (n : nat) (h : heap) (v : value) (data : list tree) : option (tree * list tree) :=
    match n with
    | O => None
    | S n =>
        match v with
        | VNull => Some (TNull, data)
        | VBool b => Some (TBool b, data)
        | VNum d => Some (TNum d, data)
        | VDyn d => Some (dv d, data)
        | VStr s => let (r, data) := ser_str s data in Some (TStr r, data)
        | VArr l =>
            match harr h l with
            | None => None
            | Some a =>
                match (fix go a data := match a with
                                        | [] => Some ([], data)
                                        | x :: r => match ser n h x data with
                                                    | Some (j, data) => match go r data with Some (js, data) => Some (j :: js, data) | None => None end
                                                    | None => None
                                                    end
                                        end) a data with
                | Some (js, data) => Some (ser_loc l (TArr js) data)
                | None => None
                end
            end
        | VObj l =>
            match hobj h l with
            | None => None
            | Some m =>
                match (fix go m (out : amap tree) data := match m with
                                        | [] => Some (out, data)
                                        | (k, x) :: r => let (key, data) := ser_str k data in
                                                         match ser n h x data with
                                                         | Some (j, data) => go r (aset key j out) data
                                                         | None => None
                                                         end
                                        end) m [] data with
                | Some (js, data) => Some (ser_loc l (TObj js) data)
                | None => None
                end
            end
        end
    end.
End Ser.
(** ref_ser.rs:47-62 [serialize] and 99-118 [assign_ref_ids]. [order] puts the addresses used at least twice in an order (by count and pointer in the source). *)
Definition serialize (dv : dyn -> tree) (order : list addr -> list addr) (n : nat) (h : heap) (v : value) : option tree :=
  match counted n h v with
  | None => None
  | Some occ =>
      let tbl := order (shared occ) in
      match ser dv tbl n h v (repeat TNull (length tbl)) with
      | None => None
      | Some (j, data) => Some (TObj ((match data with [] => [] | _ => [("$refs", TArr data)] end) ++ [("$root", j)]))
      end
  end.

(** ref_deser.rs:146-149 [parse_ref_id]: [usize::from_str] takes an optional plus sign and decimal digits. *)
Definition parse_usize (s : string) : option nat :=
  let s := match s with String "+" r => r | _ => s end in
  match s with
  | EmptyString => None
  | _ => match NilEmpty.uint_of_string s with
         | Some u => if N.ltb (N.of_uint u) (2 ^ 64) then Some (N.to_nat (N.of_uint u)) else None
         | None => None
         end
  end.
Definition parse_ref_id (s : string) : option nat := match s with String "@" r => parse_usize r | _ => None end.
(** ref_deser.rs:139-144 [unescape_at_string]. *)
Definition unescape (s : string) : string := match s with String "@" ((String "@" _) as r) => r | _ => s end.
Section Deser.
  Variable refs : list (option value).
  (** ref_deser.rs:70-86 [deserialize_key]. *)
  Definition deser_key (k : string) : res string :=
    match parse_ref_id k with
    | Some i =>
        match nth_error refs i with
        | None => Err (EOp "InvalidReference")
        | Some (Some (VStr s)) => Ok s
        | Some (Some _) => Err (EOp "InvalidFormat")
        | Some None => Err (EOp "UnresolvedReference")
        end
    | None => Ok (unescape k)
    end.
  Definition deser_str (s : string) : res value :=
    match parse_ref_id s with
    | Some i => match nth_error refs i with None => Err (EOp "InvalidReference") | Some (Some v) => Ok v | Some None => Err (EOp "UnresolvedReference") end
    | None => Ok (VStr (unescape s))
    end.
  (** ref_deser.rs:88-123 [deserialize_value]; there are no dynamic values in an [RcValue]. *)
  Fixpoint deser (j : tree) (h : heap) : heap * res value :=
    match j with
    | TNull => (h, Ok VNull)
    | TBool b => (h, Ok (VBool b))
    | TNum d => (h, Ok (VNum d))
    | TStr s => (h, deser_str s)
    | TArr js =>
        match (fix go js h := match js with
                              | [] => (h, Ok [])
                              | j :: r => match deser j h with
                                          | (h, Err e) => (h, Err e)
                                          | (h, Ok v) => match go r h with (h, Ok vs) => (h, Ok (v :: vs)) | (h, Err e) => (h, Err e) end
                                          end
                              end) js h with
        | (h, Ok vs) => let (h, v) := new_arr h vs in (h, Ok v)
        | (h, Err e) => (h, Err e)
        end
    | TObj js =>
        match (fix go js out h := match js with
                              | [] => (h, Ok out)
                              | (k, j) :: r => match deser_key k with
                                               | Err e => (h, Err e)
                                               | Ok k => match deser j h with
                                                         | (h, Err e) => (h, Err e)
                                                         | (h, Ok v) => go r (aset k v out) h
                                                         end
                                               end
                              end) js [] h with
        | (h, Ok m) => let (h, v) := new_obj h m in (h, Ok v)
        | (h, Err e) => (h, Err e)
        end
    | TDyn _ => (h, Err (EOp "no such value"))
    end.
  Fixpoint deser_items (js : list tree) (h : heap) : heap * res (list value) :=
    match js with
    | [] => (h, Ok [])
    | j :: r => match deser j h with
                | (h, Err e) => (h, Err e)
                | (h, Ok v) => match deser_items r h with (h, Ok vs) => (h, Ok (v :: vs)) | (h, Err e) => (h, Err e) end
                end
    end.
  Fixpoint deser_entries (js : list (string * tree)) (out : amap value) (h : heap) : heap * res (amap value) :=
    match js with
    | [] => (h, Ok out)
    | (k, j) :: r => match deser_key k with
                     | Err e => (h, Err e)
                     | Ok k => match deser j h with
                               | (h, Err e) => (h, Err e)
                               | (h, Ok v) => deser_entries r (aset k v out) h
                               end
                     end
    end.
End Deser.
(** ref_deser.rs:24-38, the first pass: containers are created empty, other entries are read with the entries before them ([done]). *)
Fixpoint pass1 (rest : list tree) (done : list (option value)) (h : heap) : heap * res (list (option value)) :=
  match rest with
  | [] => (h, Ok done)
  | j :: r =>
      match j with
      | TArr _ => let (h, v) := new_arr h [] in pass1 r (done ++ [Some v]) h
      | TObj _ => let (h, v) := new_obj h [] in pass1 r (done ++ [Some v]) h
      | _ =>
          match deser (done ++ repeat None (S (length r))) j h with
          | (h, Ok v) => pass1 r (done ++ [Some v]) h
          | (h, Err e) => (h, Err e)
          end
      end
  end.
(** ref_deser.rs:40-65, the second pass: the containers are filled. *)
Fixpoint pass2 (refs : list (option value)) (l : list (tree * option value)) (h : heap) : heap * res unit :=
  match l with
  | [] => (h, Ok tt)
  | (TArr js, Some (VArr lc)) :: r =>
      match deser_items refs js h with
      | (h, Ok vs) => pass2 refs r (hset h lc (CArr vs))
      | (h, Err e) => (h, Err e)
      end
  | (TObj js, Some (VObj lc)) :: r =>
      match deser_entries refs js [] h with
      | (h, Ok m) => pass2 refs r (hset h lc (CObj m))
      | (h, Err e) => (h, Err e)
      end
  | _ :: r => pass2 refs r h
  end.
(** ref_deser.rs:16-72 [deserialize]. *)
Definition deserialize (doc : tree) (h : heap) : heap * res value :=
  match doc with
  | TObj m =>
      let read refs h := match aget "$root" m with None => (h, Err (EOp "Missing $root")) | Some j => deser refs j h end in
      match aget "$refs" m with
      | Some (TArr data) =>
          match pass1 data [] h with
          | (h, Err e) => (h, Err e)
          | (h, Ok refs) => match pass2 refs (combine data refs) h with (h, Ok _) => read refs h | (h, Err e) => (h, Err e) end
          end
      | _ => read [] h
      end
  | _ => (h, Err (EOp "Expected root object"))
  end.
