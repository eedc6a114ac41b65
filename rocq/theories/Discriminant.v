(** The cell analyser: recognises conditions that test one path against literals, and decides whether numeric ranges cover everything.
    Models core/expression/src/intellisense/discriminant.rs and intellisense/mod.rs:370-416. *)
From Coq Require Import String Ascii ZArith Lia Bool List Arith.
From Verif Require Import Base Dec Value Ast Isolate Table.
Import ListNotations.
Local Open Scope string_scope.
Local Open Scope list_scope.

(** discriminant.rs:37-42. *)
Inductive bound := Unbounded | Inclusive (n : dec) | Exclusive (n : dec).
(** discriminant.rs:31-35. *)
Record segment := Seg { sg_lo : bound; sg_hi : bound }.
(** discriminant.rs:26-29. *)
Definition cover := list segment.
(** discriminant.rs:8-24. *)
Inductive arm_test :=
| TEnum (path values : list string)
| TBools (path : list string) (values : list bool)
| TNumber (path : list string) (c : cover)
| TDefault
| TUnrecognized.
(** discriminant.rs:44-50. *)
Inductive operand := OPath (p : list string) | ONum (n : dec) | OStr (s : string) | OBool (b : bool) | OOther.

(** *** Bounds (discriminant.rs:417-472). Tuples are compared lexicographically. *)
Definition lex (a b : comparison) : comparison := match a with Eq => b | c => c end.
(** 418-424 [lo_rank], as the comparison of two ranks. *)
Definition lo_cmp (a b : bound) : comparison :=
  match a, b with
  | Unbounded, Unbounded => Eq
  | Unbounded, _ => Lt
  | _, Unbounded => Gt
  | Inclusive x, Inclusive y | Exclusive x, Exclusive y => dec_cmp x y
  | Inclusive x, Exclusive y => lex (dec_cmp x y) Lt
  | Exclusive x, Inclusive y => lex (dec_cmp x y) Gt
  end.
(** 426-432 [hi_rank], likewise. It is only compared for bounds that are not [Unbounded]: the rank of that one is not modelled. *)
Definition hi_cmp (a b : bound) : comparison :=
  match a, b with
  | Inclusive x, Inclusive y | Exclusive x, Exclusive y => dec_cmp x y
  | Inclusive x, Exclusive y => lex (dec_cmp x y) Gt
  | Exclusive x, Inclusive y => lex (dec_cmp x y) Lt
  | Unbounded, Unbounded => Eq
  | Unbounded, _ => Gt
  | _, Unbounded => Lt
  end.
(** 434-440, 442-448, 450-456. *)
Definition tighter_lo (a b : bound) : bound :=
  match a, b with
  | Unbounded, o => o
  | o, Unbounded => o
  | _, _ => match lo_cmp a b with Lt => b | _ => a end
  end.
Definition tighter_hi (a b : bound) : bound :=
  match a, b with
  | Unbounded, o => o
  | o, Unbounded => o
  | _, _ => match hi_cmp a b with Gt => b | _ => a end
  end.
Definition wider_hi (a b : bound) : bound :=
  match a, b with
  | Unbounded, _ | _, Unbounded => Unbounded
  | _, _ => match hi_cmp a b with Lt => b | _ => a end
  end.
(** 458-471 [connects]. *)
Definition connects (frontier next : bound) : bool :=
  match frontier, next with
  | (Inclusive f | Exclusive f), (Inclusive l | Exclusive l) =>
      if dec_ltb l f then true
      else if dec_ltb f l then false
      else negb (match frontier, next with Exclusive _, Exclusive _ => true | _, _ => false end)
  | _, _ => true
  end.

(** *** Covers (discriminant.rs:317-415). *)
(** 318-325. *)
Definition point (n : dec) : cover := [Seg (Inclusive n) (Inclusive n)].
(** 327-341. *)
Definition interval_cover (lo : dec) (l : bracket) (hi : dec) (r : bracket) : option cover :=
  match (match l with LSquare => Some (Inclusive lo) | LParen => Some (Exclusive lo) | _ => None end),
        (match r with RSquare => Some (Inclusive hi) | RParen => Some (Exclusive hi) | _ => None end) with
  | Some a, Some b => Some [Seg a b]
  | _, _ => None
  end.
(** 343-366. *)
Definition single (op : comparison_op) (n : dec) : option cover :=
  match op with
  | CLt => Some [Seg Unbounded (Exclusive n)]
  | CLe => Some [Seg Unbounded (Inclusive n)]
  | CGt => Some [Seg (Exclusive n) Unbounded]
  | CGe => Some [Seg (Inclusive n) Unbounded]
  | _ => None
  end.
(** 368-376. *)
Fixpoint points (c : cover) : option (list dec) :=
  match c with
  | [] => Some []
  | Seg (Inclusive a) (Inclusive b) :: r => if dec_eqb a b then option_map (cons a) (points r) else None
  | _ => None
  end.
(** 382-392. *)
Definition intersect (a b : cover) : option cover :=
  match a, b with
  | [x], [y] => Some [Seg (tighter_lo (sg_lo x) (sg_lo y)) (tighter_hi (sg_hi x) (sg_hi y))]
  | _, _ => None
  end.
(** 396: [sort_by] is a stable sort; this is one. *)
Fixpoint insert_seg (x : segment) (l : cover) : cover :=
  match l with
  | [] => [x]
  | y :: r => match lo_cmp (sg_lo x) (sg_lo y) with Gt => y :: insert_seg x r | _ => x :: l end
  end.
Definition sort_segs (c : cover) : cover := fold_right insert_seg [] c.
(** 403-413: the frontier moves over the sorted segments. *)
Fixpoint sweep (frontier : bound) (l : cover) : bool :=
  match frontier with
  | Unbounded => true
  | _ =>
      match l with
      | [] => false
      | s :: r => if connects frontier (sg_lo s) then sweep (wider_hi frontier (sg_hi s)) r else false
      end
  end.
(** 394-414 [is_total]. *)
Definition is_total (c : cover) : bool :=
  match sort_segs c with
  | [] => false
  | first :: rest => match sg_lo first with Unbounded => sweep (sg_hi first) rest | _ => false end
  end.

(** *** Recognising a condition (discriminant.rs:52-315). *)
(** 292-297. *)
Fixpoint unwrap (n : node) : node := match n with NParen m => unwrap m | _ => n end.
(** 299-314. *)
Fixpoint extract_path (n : node) : option (list string) :=
  match n with
  | NIdent s => Some [s]
  | NMember m (NString k) => match extract_path m with Some p => Some (p ++ [k]) | None => None end
  | _ => None
  end.
(** 273-290. *)
Definition operand_of (n : node) : operand :=
  match unwrap n with
  | NNumber d => ONum d
  | NString s => OStr s
  | NBool b => OBool b
  | NUnary m (OpArith ASub) => match unwrap m with NNumber d => ONum (dec_neg d) | _ => OOther end
  | m => match extract_path m with Some p => OPath p | None => OOther end
  end.
(** 261-269. *)
Definition flip_cmp (op : comparison_op) : comparison_op :=
  match op with CLt => CGt | CLe => CGe | CGt => CLt | CGe => CLe | o => o end.
(** 85-106. *)
Definition equality (l r : node) : arm_test :=
  match (match operand_of l, operand_of r with
         | OPath p, o => Some (p, o)
         | o, OPath p => Some (p, o)
         | _, _ => None
         end) with
  | Some (p, OStr s) => TEnum p [s]
  | Some (p, OBool b) => TBools p [b]
  | Some (p, ONum n) => TNumber p (point n)
  | _ => TUnrecognized
  end.
(** [Iterator::collect] into an [Option]: all or nothing. *)
Fixpoint all_some {A B} (f : A -> option B) (l : list A) : option (list B) :=
  match l with
  | [] => Some []
  | x :: r => match f x with Some y => option_map (cons y) (all_some f r) | None => None end
  end.
(** 108-174. *)
Definition in_set (l r : node) : arm_test :=
  match operand_of l with
  | OPath p =>
      match unwrap r with
      | NInterval lo hi lb rb =>
          match operand_of lo, operand_of hi with
          | ONum a, ONum b => match interval_cover a lb b rb with Some c => TNumber p c | None => TUnrecognized end
          | _, _ => TUnrecognized
          end
      | NArray items =>
          match items with
          | [] => TUnrecognized
          | _ =>
              match all_some (fun n => match unwrap n with NString s => Some s | _ => None end) items with
              | Some vs => TEnum p vs
              | None =>
                  match all_some (fun n => match unwrap n with NBool b => Some b | _ => None end) items with
                  | Some vs => TBools p vs
                  | None =>
                      match all_some (fun n => match operand_of n with ONum d => Some d | _ => None end) items with
                      | Some (d :: ds) => TNumber p (fold_left (fun c n => c ++ point n) ds (point d))
                      | _ => TUnrecognized
                      end
                  end
              end
          end
      | _ => TUnrecognized
      end
  | _ => TUnrecognized
  end.
(** 176-186. *)
Definition numeric (l : node) (op : comparison_op) (r : node) : arm_test :=
  match (match operand_of l, operand_of r with
         | OPath p, ONum n => Some (p, n, op)
         | ONum n, OPath p => Some (p, n, flip_cmp op)
         | _, _ => None
         end) with
  | Some (p, n, o) => match single o n with Some c => TNumber p c | None => TUnrecognized end
  | None => TUnrecognized
  end.
Definition path_eqb (a b : list string) : bool := if list_eq_dec string_dec a b then true else false.
(** 188-205. *)
Definition arm_and (a b : arm_test) : arm_test :=
  match a, b with
  | TNumber pa ca, TNumber pb cb =>
      if path_eqb pa pb then match intersect ca cb with Some c => TNumber pa c | None => TUnrecognized end else TUnrecognized
  | _, _ => TUnrecognized
  end.
(** 207-259. *)
Definition arm_or (a b : arm_test) : arm_test :=
  match a, b with
  | TEnum pa va, TEnum pb vb => if path_eqb pa pb then TEnum pa (va ++ vb) else TUnrecognized
  | TBools pa va, TBools pb vb => if path_eqb pa pb then TBools pa (va ++ vb) else TUnrecognized
  | TNumber pa ca, TNumber pb cb => if path_eqb pa pb then TNumber pa (ca ++ cb) else TUnrecognized
  | _, _ => TUnrecognized
  end.
(** 53-83. *)
Fixpoint from_node (n : node) : arm_test :=
  match n with
  | NParen m => from_node m
  | NBinary l op r =>
      match op with
      | OpCmp CEq => equality l r
      | OpCmp CIn => in_set l r
      | OpCmp CLt => numeric l CLt r
      | OpCmp CLe => numeric l CLe r
      | OpCmp CGt => numeric l CGt r
      | OpCmp CGe => numeric l CGe r
      | OpLogic LAnd => arm_and (from_node l) (from_node r)
      | OpLogic LOr => arm_or (from_node l) (from_node r)
      | _ => TUnrecognized
      end
  | _ => TUnrecognized
  end.

Section Source.
  Variable parse : ekind -> string -> res node.
  (** intellisense/mod.rs:370-388 [arm_test]. A source that does not parse completely and without errors is [Err]. *)
  Definition arm_test_of (src : string) : arm_test :=
    match trim src with
    | [] => TDefault
    | _ => match parse KStandard src with Ok n => from_node n | Err _ => TUnrecognized end
    end.
  (** intellisense/mod.rs:390-416 [cell_test]. *)
  Definition cell_test (src : string) : arm_test :=
    match trim src with
    | [] => TDefault
    | _ =>
        match parse KUnary src with
        | Err _ => TUnrecognized
        | Ok n =>
            let t := from_node n in
            match t with
            | TEnum p _ | TBools p _ | TNumber p _ => if path_eqb p ["$"] then t else TUnrecognized
            | _ => t
            end
        end
    end.
  (** decision_table/index.rs:74-108: what the index makes of it. *)
  Definition index_arm (src : string) : arm :=
    match cell_test src with
    | TEnum _ l => AStrings l
    | TBools _ l => ABools l
    | TNumber _ c => match points c with Some l => ANumbers l | None => AOther end
    | _ => AOther
    end.
End Source.
