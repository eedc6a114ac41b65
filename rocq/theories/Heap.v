(** Operations on shared values: dotted paths, clones, equality, merges, scopes.
    Models core/types/src/variable/mod.rs and core/expression/src/scope.rs. *)
From Coq Require Import String Ascii ZArith Lia Bool List Arith.
From Verif Require Import Base Dec Value.
Import ListNotations.
Local Open Scope nat_scope.

(** ** Dotted paths *)

(** variable/mod.rs:190-199 [Variable::dot], on the already split path. *)
Fixpoint dot_parts (h : heap) (v : value) (parts : list string) : option value :=
  match parts with
  | [] => Some v
  | p :: r =>
      match v with
      | VObj l => match hobj h l with
                  | Some m => match aget p m with Some x => dot_parts h x r | None => None end
                  | None => None
                  end
      | _ => None
      end
  end.
Definition dot (h : heap) (v : value) (key : string) : option value :=
  dot_parts h v (split_dot key).

(** The [try_fold] shared by [dot_remove] and [dot_insert] (variable/mod.rs:234-243,255-264): walk down,
    creating empty objects for missing parts; stop at a non-object. The heap is returned in every case
    because created objects persist even when the walk fails. *)
Fixpoint dot_walk (h : heap) (v : value) (parts : list string) : heap * option value :=
  match parts with
  | [] => (h, Some v)
  | p :: r =>
      match v with
      | VObj l =>
          match hobj h l with
          | Some m =>
              match aget p m with
              | Some x => dot_walk h x r
              | None =>
                  let (h1, x) := new_obj h [] in
                  dot_walk (hset h1 l (CObj (aset p x m))) x r
              end
          | None => (h, None)
          end
      | _ => (h, None)
      end
  end.

(** Split a non-empty list into its front and its last element ([next_back]). *)
Fixpoint split_last (l : list string) : option (list string * string) :=
  match l with
  | [] => None
  | [x] => Some ([], x)
  | x :: r => match split_last r with
              | Some (i, z) => Some (x :: i, z)
              | None => None
              end
  end.

(** variable/mod.rs:252-271 [dot_insert]. Returns the heap and the value the API returns (the replaced
    value, if any; also [None] when the walk fails). *)
Definition dot_insert_parts (h : heap) (v : value) (parts : list string) (x : value)
  : heap * option value :=
  match split_last parts with
  | None => (h, None)
  | Some (front, last) =>
      match dot_walk h v front with
      | (h1, Some (VObj l)) =>
          match hobj h1 l with
          | Some m => (hset h1 l (CObj (aset last x m)), aget last m)
          | None => (h1, None)
          end
      | (h1, _) => (h1, None)
      end
  end.
Definition dot_insert (h : heap) (v : value) (key : string) (x : value) : heap * option value :=
  dot_insert_parts h v (split_dot key) x.

(** variable/mod.rs:231-250 [dot_remove]. *)
Definition dot_remove (h : heap) (v : value) (key : string) : heap * option value :=
  match split_last (split_dot key) with
  | None => (h, None)
  | Some (front, last) =>
      match dot_walk h v front with
      | (h1, Some (VObj l)) =>
          match hobj h1 l with
          | Some m => (hset h1 l (CObj (adel last m)), aget last m)
          | None => (h1, None)
          end
      | (h1, _) => (h1, None)
      end
  end.

(** variable/mod.rs:329-348 [depth_clone(1)]: a fresh cell with the same children. *)
Definition depth_clone1 (h : heap) (v : value) : heap * value :=
  match v with
  | VArr l => match harr h l with Some a => new_arr h a | None => (h, v) end
  | VObj l => match hobj h l with Some m => new_obj h m | None => (h, v) end
  | _ => (h, v)
  end.

(** The [try_fold] of variable/mod.rs:206-226 [dot_head_detach]: each object on the path is replaced by
    a fresh shallow copy (or a fresh empty object when the slot holds no object). *)
Fixpoint detach_walk (h : heap) (v : value) (parts : list string) : heap * option value :=
  match parts with
  | [] => (h, Some v)
  | p :: r =>
      match v with
      | VObj l =>
          match hobj h l with
          | Some m =>
              let (h1, x) :=
                match aget p m with
                | Some (VObj l') => depth_clone1 h (VObj l')
                | _ => new_obj h []
                end in
              detach_walk (hset h1 l (CObj (aset p x m))) x r
          | None => (h, None)
          end
      | _ => (h, None)
      end
  end.

(** variable/mod.rs:273-284 [dot_insert_detached]. *)
Definition dot_insert_detached_parts (h : heap) (v : value) (parts : list string) (x : value)
  : heap * option value :=
  match split_last parts with
  | None => (h, None)
  | Some (front, last) =>
      let (h0, c) := depth_clone1 h v in
      match detach_walk h0 c front with
      | (h1, Some (VObj l)) =>
          match hobj h1 l with
          | Some m => (hset h1 l (CObj (aset last x m)), Some c)
          | None => (h1, None)
          end
      | (h1, _) => (h1, None)
      end
  end.
Definition dot_insert_detached (h : heap) (v : value) (key : string) (x : value)
  : heap * option value :=
  dot_insert_detached_parts h v (split_dot key) x.

(** ** Clones. variable/mod.rs:311-327 [deep_clone]; fuel bounds the recursion (Rust would overflow the
    stack on a cyclic value). *)
Fixpoint deep_clone (fuel : nat) (h : heap) (v : value) : option (heap * value) :=
  match fuel with
  | O => None
  | S n =>
      match v with
      | VArr l =>
          match harr h l with
          | None => None
          | Some a =>
              match (fix go h a := match a with
                     | [] => Some (h, [])
                     | x :: r => match deep_clone n h x with
                                 | Some (h1, y) => match go h1 r with
                                                   | Some (h2, ys) => Some (h2, y :: ys)
                                                   | None => None
                                                   end
                                 | None => None
                                 end
                     end) h a with
              | Some (h1, ys) => Some (new_arr h1 ys)
              | None => None
              end
          end
      | VObj l =>
          match hobj h l with
          | None => None
          | Some m =>
              match (fix go h m := match m with
                     | [] => Some (h, [])
                     | (k, x) :: r => match deep_clone n h x with
                                 | Some (h1, y) => match go h1 r with
                                                   | Some (h2, ys) => Some (h2, (k, y) :: ys)
                                                   | None => None
                                                   end
                                 | None => None
                                 end
                     end) h m with
              | Some (h1, ys) => Some (new_obj h1 ys)
              | None => None
              end
          end
      | _ => Some (h, v)
      end
  end.

(** ** Equality of the leaves of [Dynamic]: simplification, see Value.v. *)
Definition bracket_eqb (a b : bracket) : bool :=
  match a, b with
  | LParen, LParen | RParen, RParen | LSquare, LSquare | RSquare, RSquare
  | LCurly, LCurly | RCurly, RCurly => true
  | _, _ => false
  end.
(** VmDate derives Ord on [Option<DateTime>]: invalid before valid, then by instant. *)
Definition vmdate_cmp (a b : vmdate) : comparison :=
  match vd_instant a, vd_instant b with
  | None, None => Eq
  | None, Some _ => Lt
  | Some _, None => Gt
  | Some x, Some y => Z.compare x y
  end.
Definition vmdate_eqb (a b : vmdate) : bool :=
  match vmdate_cmp a b with Eq => true | _ => false end.
Definition idata_eqb (a b : idata) : bool :=
  match a, b with
  | INum x, INum y => dec_eqb x y
  | IDate x, IDate y => vmdate_eqb x y
  | _, _ => false
  end.
Definition dyn_eqb (a b : dyn) : bool :=
  match a, b with
  | DDate x, DDate y => vmdate_eqb x y
  | DInterval x, DInterval y =>
      bracket_eqb (iv_lb x) (iv_lb y) && bracket_eqb (iv_rb x) (iv_rb y)
      && idata_eqb (iv_left x) (iv_left y) && idata_eqb (iv_right x) (iv_right y)
  | _, _ => false
  end.

(** variable/mod.rs:496-509 [PartialEq for Variable] and map.rs:352-359 [PartialEq for VariableMap],
    on trees. *)
Fixpoint teq (a b : tree) {struct a} : bool :=
  match a, b with
  | TNull, TNull => true
  | TBool x, TBool y => Bool.eqb x y
  | TNum x, TNum y => dec_eqb x y
  | TStr x, TStr y => String.eqb x y
  | TArr x, TArr y =>
      (fix go x y := match x, y with
                     | [], [] => true
                     | a :: x', b :: y' => teq a b && go x' y'
                     | _, _ => false
                     end) x y
  | TObj x, TObj y =>
      (length x =? length y) &&
      (fix go x := match x with
                   | [] => true
                   | (k, v) :: r => match aget k y with
                                    | Some w => teq v w && go r
                                    | None => false
                                    end
                   end) x
  | TDyn x, TDyn y => dyn_eqb x y
  | _, _ => false
  end.

(** The same function on shared values, with the [RefCell] borrow check: [lk] are the locations that
    are mutably borrowed while the comparison runs; reading one of them panics. [None] = out of fuel.
    Arrays ([Vec<Variable>: Eq]) are compared through [Rc]'s pointer shortcut, objects
    ([VariableMap] is not [Eq]) are not. (The source compares map entries as [other == self]; the order
    of the two operands is swapped here, the function is symmetric.) *)
Fixpoint veq (fuel : nat) (lk : list loc) (h : heap) (a b : value) : option (res bool) :=
  match fuel with
  | O => None
  | S n =>
      match a, b with
      | VNull, VNull => Some (Ok true)
      | VBool x, VBool y => Some (Ok (Bool.eqb x y))
      | VNum x, VNum y => Some (Ok (dec_eqb x y))
      | VStr x, VStr y => Some (Ok (String.eqb x y))
      | VDyn x, VDyn y => Some (Ok (dyn_eqb x y))
      | VArr l1, VArr l2 =>
          if Nat.eqb l1 l2 then Some (Ok true) else
          if existsb (Nat.eqb l1) lk || existsb (Nat.eqb l2) lk
          then Some (Err (EPanic "already mutably borrowed")) else
          match harr h l1, harr h l2 with
          | Some x, Some y =>
              if length x =? length y then
                (fix go x y := match x, y with
                   | a :: x', b :: y' =>
                       match veq n lk h a b with
                       | Some (Ok true) => go x' y'
                       | o => o
                       end
                   | _, _ => Some (Ok true)
                   end) x y
              else Some (Ok false)
          | _, _ => None
          end
      | VObj l1, VObj l2 =>
          if existsb (Nat.eqb l1) lk || existsb (Nat.eqb l2) lk
          then Some (Err (EPanic "already mutably borrowed")) else
          match hobj h l1, hobj h l2 with
          | Some x, Some y =>
              if length x =? length y then
                (fix go x := match x with
                   | (k, v) :: r =>
                       match aget k y with
                       | Some w => match veq n lk h v w with
                                   | Some (Ok true) => go r
                                   | o => o
                                   end
                       | None => Some (Ok false)
                       end
                   | [] => Some (Ok true)
                   end) x
              else Some (Ok false)
          | _, _ => None
          end
      | _, _ => Some (Ok false)
      end
  end.

(** ** Merging *)

(** variable/mod.rs:363-448 [merge_variables] with [MergeStrategy::CloneOnWrite]. The [&mut doc] slot is
    passed by value and returned. The fuel also bounds the embedded equality test. *)
Fixpoint merge_cow (fuel : nat) (h : heap) (doc patch : value) (top : bool)
  : option (heap * value * bool) :=
  match fuel with
  | O => None
  | S n =>
      match patch, top with
      | VArr _, true => Some (h, patch, true)
      | (VNull | VBool _ | VNum _ | VStr _ | VDyn _), true => Some (h, doc, false)
      | _, _ =>
          match doc, patch with
          | VObj ld, VObj lp =>
              if Nat.eqb ld lp then Some (h, doc, false) else
              match hobj h ld, hobj h lp with
              | Some dm, Some pm =>
                  match (fix go h m changed pm :=
                     match pm with
                     | [] => Some (h, m, changed)
                     | (k, VNull) :: r =>
                         go h (adel k m) (changed || amem k m) r
                     | (k, x) :: r =>
                         let entry := match aget k m with Some e => e | None => VNull end in
                         match merge_cow n h entry x false with
                         | Some (h1, e', c) => go h1 (aset k e' m) (changed || c) r
                         | None => None
                         end
                     end) h dm false pm with
                  | Some (h1, m', true) =>
                      let (h2, v) := new_obj h1 m' in Some (h2, v, true)
                  | Some (h1, _, false) => Some (h1, doc, false)
                  | None => None
                  end
              | _, _ => None
              end
          | _, _ =>
              match veq n [] h doc patch with
              | Some (Ok true) => Some (h, doc, false)
              | Some (Ok false) => Some (h, patch, true)
              | _ => None
              end
          end
      end
  end.

(** variable/mod.rs:363-448 with [MergeStrategy::InPlace], including the [RefCell] borrow discipline:
    [lk] mutably borrowed locations, [sh] immutably borrowed ones. *)
Fixpoint merge_ip (fuel : nat) (lk sh : list loc) (h : heap) (doc patch : value) (top : bool)
  : option (res (heap * value * bool)) :=
  match fuel with
  | O => None
  | S n =>
      match patch, top with
      | VArr _, true => Some (Ok (h, patch, true))
      | (VNull | VBool _ | VNum _ | VStr _ | VDyn _), true => Some (Ok (h, doc, false))
      | _, _ =>
          match doc, patch with
          | VObj ld, VObj lp =>
              if Nat.eqb ld lp then Some (Ok (h, doc, false)) else
              if existsb (Nat.eqb lp) lk then Some (Err (EPanic "already mutably borrowed")) else
              if existsb (Nat.eqb ld) lk || existsb (Nat.eqb ld) (lp :: sh)
              then Some (Err (EPanic "already borrowed")) else
              match hobj h lp with
              | Some pm =>
                  match (fix go h pm :=
                     match pm with
                     | [] => Some (Ok h)
                     | (k, VNull) :: r =>
                         match hobj h ld with
                         | Some m => go (hset h ld (CObj (adel k m))) r
                         | None => None
                         end
                     | (k, x) :: r =>
                         match hobj h ld with
                         | Some m =>
                             let entry := match aget k m with Some e => e | None => VNull end in
                             let h0 := hset h ld (CObj (aset k entry m)) in
                             match merge_ip n (ld :: lk) (lp :: sh) h0 entry x false with
                             | Some (Ok (h1, e', _)) =>
                                 match hobj h1 ld with
                                 | Some m1 => go (hset h1 ld (CObj (aset k e' m1))) r
                                 | None => None
                                 end
                             | Some (Err e) => Some (Err e)
                             | None => None
                             end
                         | None => None
                         end
                     end) h pm with
                  | Some (Ok h1) => Some (Ok (h1, doc, true))
                  | Some (Err e) => Some (Err e)
                  | None => None
                  end
              | None => None
              end
          | _, _ =>
              match veq n lk h doc patch with
              | Some (Ok true) => Some (Ok (h, doc, false))
              | Some (Ok false) => Some (Ok (h, patch, true))
              | Some (Err e) => Some (Err e)
              | None => None
              end
          end
      end
  end.

(** ** Scope (core/expression/src/scope.rs) *)
Record scope := Scope { sc_base : value; sc_locals : amap value }.

(** scope.rs:18-23 [Scope::new]. *)
Definition scope_new (b : value) : scope := Scope b [].
(** scope.rs:46-55 [set_local]: replace the slot of that name or push. *)
Definition set_local (s : scope) (k : string) (v : value) : scope :=
  Scope (sc_base s) (aset k v (sc_locals s)).
(** scope.rs:64-69 [local_str]. *)
Definition local_str (s : scope) (k : string) : option value := aget k (sc_locals s).
(** scope.rs:71-80 [get_str]. *)
Definition scope_get (h : heap) (s : scope) (k : string) : option value :=
  match local_str s k with
  | Some v => Some v
  | None => match sc_base s with
            | VObj l => match hobj h l with Some m => aget k m | None => None end
            | _ => None
            end
  end.
(** scope.rs:93-108 [materialize]. *)
Definition materialize (h : heap) (s : scope) : heap * value :=
  match sc_locals s, sc_base s with
  | [], b => (h, b)
  | ls, VObj l =>
      match hobj h l with
      | Some m => new_obj h (fold_left (fun acc kv => aset (fst kv) (snd kv) acc) ls m)
      | None => (h, VObj l)
      end
  | _, b => (h, b)
  end.
