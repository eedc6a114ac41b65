(** What it means that the type checker is right: the specification for C69. *)
From Coq Require Import String ZArith Bool List Arith.
From Verif Require Import Base Dec Value Heap Ast Ops VarType TypeSpec Infer.
Import ListNotations.
Local Open Scope string_scope.
Local Open Scope list_scope.

(** The type the strict checker gives, and that it reports no error. *)
Definition type_of (sc : iscope) (n : node) : vtype := fst (determine true sc n).
Definition faultless (sc : iscope) (n : node) : Prop := forall tag, ~ In (LError, tag) (snd (determine true sc n)).
(** The scope in which a whole expression is checked (intellisense/mod.rs:163-168). *)
Definition top (t : vtype) : iscope := IScope t t [].

(** The subexpressions, each with the scope it is checked in. The callback of a closure function sees the type of an element. *)
Definition element_scope (sc : iscope) (x y : node) : iscope :=
  let p := match iterator (type_of sc x) with Some i => i | None => KAny end in
  IScope (is_root sc) p match y with NClosure _ (Some name) => aset name p (is_alias sc) | _ => is_alias sc end.
Definition parts (sc : iscope) (n : node) : list (iscope * node) :=
  match n with
  | NTemplate l | NArray l => map (pair sc) l
  | NObject l => flat_map (fun kv => [(sc, fst kv); (sc, snd kv)]) l
  | NClosure x _ | NParen x | NUnary x _ => [(sc, x)]
  | NMember x y | NInterval x y _ _ | NBinary x _ y => [(sc, x); (sc, y)]
  | NSlice x f t => (sc, x) :: match f with Some y => [(sc, y)] | None => [] end ++ match t with Some y => [(sc, y)] | None => [] end
  | NCond x y z => [(sc, x); (sc, y); (sc, z)]
  | NCall (FClosure _) (x :: y :: _) => [(sc, x); (element_scope sc x y, match y with NClosure b _ => b | _ => y end)]
  | NCall _ l => map (pair sc) l
  | NMethod _ x l => (sc, x) :: map (pair sc) l
  | _ => []
  end.
Inductive within : iscope -> node -> iscope -> node -> Prop :=
| Whole : forall sc n, within sc n sc n
| Part : forall sc n sc1 n1 sc2 n2, In (sc1, n1) (parts sc n) -> within sc1 n1 sc2 n2 -> within sc n sc2 n2.

(** Two types that can be merged without loss: where both have an object type it lists the same keys; where both have an array type, both or none of them are of unknown elements. *)
Definition agree (a b : vtype) : Prop :=
  forall p x y, at_place p a = Some x -> at_place p b = Some y ->
    match x, y with
    | KObject m, KObject n => forall k, In k (map fst m) <-> In k (map fst n)
    | KArray u, KArray v => u = KAny <-> v = KAny
    | _, _ => True
    end.
(** Each type agrees with the merge of those before it. *)
Fixpoint agree_with (acc : vtype) (l : list vtype) : Prop :=
  match l with [] => True | t :: r => agree acc t /\ agree_with (merge acc t) r end.
Definition agree_all (l : list vtype) : Prop := match l with [] => True | t :: r => agree_with t r end.

(** A division by a literal that always has a result. *)
Definition divisor (f : dec -> dec -> option dec) (n : node) : Prop := exists d, n = NNumber d /\ forall x, f x d <> None.
(** Methods whose result does not depend on the date being valid. *)
Definition reliable : list mkind := ["add"; "sub"; "set"; "tz"; "format"; "startOf"; "endOf"; "isSame"; "isBefore"; "isAfter"; "isSameOrBefore"; "isSameOrAfter"; "isValid"].
(** Where the result of a function can be told from the types of its arguments. *)
Definition telling (f : ifun) (args : list vtype) : Prop :=
  match f with
  | FMerge | FMergeDeep | FValues => False
  | FMin | FMax => ~ In KAny args /\ ~ In (KArray KAny) args
  | FFuzzyMatch | FKeys => hd KNull args <> KAny
  | FFlatten => forall a e, In a args -> iterator a = Some e -> bare e <> KInterval
  | _ => True
  end.
(** Constructs the checker is right about. A callback stands as the second argument of a closure function only. The rest is refuted in PropInfer.v or (assignments, deprecated functions) not considered. *)
Definition covered (X : ext) (sc : iscope) (n : node) : Prop :=
  match n with
  | NAssign _ _ => False
  | NClosure _ _ => False
  | NArray l => agree_all (map (type_of sc) l)
  | NObject l => exists ks, map (fun kv => type_of sc (fst kv)) l = map KConst ks /\ NoDup ks
  | NBinary _ (OpArith ADiv) r => divisor (x_div X) r
  | NBinary _ (OpArith AMod) r => divisor (x_rem X) r
  | NBinary _ (OpLogic LAnd) r | NBinary _ (OpLogic LOr) r => type_of sc r <> KAny
  | NBinary l (OpLogic LNullish) r => forall t, type_of sc l = KNullable t -> agree t (type_of sc r)
  | NBinary _ (OpLogic LNot) _ => False
  | NCond _ x y => agree (type_of sc x) (type_of sc y)
  | NUnary x (OpArith AAdd) => type_of sc x <> KAny
  | NCall (FInternal f) l => telling f (map (type_of sc) l)
  | NCall (FDeprecated _) _ => False
  | NCall (FClosure c) l =>
      exists x b name, l = [x; NClosure b name] /\
        match c with
        | ClFilter => type_of sc x <> KInterval
        | ClFlatMap => let t := type_of (element_scope sc x (NClosure b name)) b in iterator t <> None -> exists i, t = KArray i
        | _ => True
        end
  | NMethod k _ _ => In k reliable
  | _ => True
  end.
Definition all_covered (X : ext) (sc : iscope) (n : node) : Prop := forall sc1 n1, within sc n sc1 n1 -> covered X sc1 n1.
(** Every subexpression has a type, not "any". *)
Definition all_known (sc : iscope) (n : node) : Prop := forall sc1 n1, within sc n sc1 n1 -> type_of sc1 n1 <> KAny.

(** What can still go wrong: an arithmetic result that does not exist, an index that is no index, a slice outside, an interval that cannot be listed, [#] outside every closure function,
    a value that [in] or an interval does not take, and what functions and methods reject. Nothing else: no operator, condition, callback or lookup meets a value of a wrong kind. *)
Definition left_over : list string := ["Fetch"; "Slice"; "Begin"; "Pointer"; "In"; "Interval"; "CallMethod"].
Definition out_of_range (X : ext) (s : string) : Prop :=
  exists a b, (s = "Add" /\ x_add X a b = None) \/ (s = "Subtract" /\ x_sub X a b = None) \/ (s = "Multiply" /\ x_mul X a b = None) \/ (s = "Exponent" /\ x_pow X a b = None).
(** [P]: functions may fail. *)
Definition excusable (X : ext) (P : Prop) (e : err) : Prop := (exists w, e = EPanic w) \/ exists s, e = EOp s /\ (In s left_over \/ out_of_range X s \/ s = "CallFunction" /\ P).

(** ** What functions take *)
Definition is_text (t : tree) : Prop := exists s, t = TStr s.
Definition is_number (t : tree) : Prop := exists d, t = TNum d.
Definition is_record (t : tree) : Prop := exists m, t = TObj m.
Definition is_date (t : tree) : Prop := exists d, t = TDyn (DDate d).
Definition is_interval (t : tree) : Prop := exists i, t = TDyn (DInterval i).
Definition list_of (P : tree -> Prop) (t : tree) : Prop := exists l, t = TArr l /\ forall x, In x l -> P x.
Definition whatever (t : tree) : Prop := True.
Definition either (P Q : tree -> Prop) (t : tree) : Prop := P t \/ Q t.
Definition null_or (P : tree -> Prop) (t : tree) : Prop := t = TNull \/ P t.
(** The arguments an accepted call can have, one line for each way to call the function. Three things are looser than the function: the second argument of [round] and [trunc] and those of [d] are anything;
    text stands for dates in [min] and [max]; [flatten] takes an interval, and [values], [merge] and [mergeDeep] take null. *)
Definition ways (f : ifun) : list (list (tree -> Prop)) :=
  match f with
  | FLen => [[is_text]; [list_of whatever]]
  | FContains => [[is_text; is_text]; [list_of whatever; whatever]]
  | FUpper | FLower | FTrim => [[is_text]]
  | FStartsWith | FEndsWith | FMatches | FExtract | FSplit => [[is_text; is_text]]
  | FFuzzyMatch => [[is_text; is_text]; [list_of is_text; is_text]]
  | FAbs | FRand | FFloor | FCeil => [[is_number]]
  | FRound | FTrunc => [[is_number]; [is_number; whatever]]
  | FSum | FAvg | FMedian | FMode => [[list_of is_number]]
  | FMin | FMax => [[list_of is_number]; [list_of (either is_date is_text)]]
  | FType | FString | FBool | FIsNumeric | FNumber => [[whatever]]
  | FKeys => [[is_record]; [list_of whatever]]
  | FDate => [[]; [whatever]; [whatever; whatever]]
  | FValues => [[null_or is_record]]
  | FFlatten => [[either (list_of whatever) is_interval]]
  | FMerge => [[null_or (list_of (null_or is_record))]; [null_or (list_of (null_or (list_of whatever)))]]
  | FMergeDeep => [[null_or (list_of (null_or is_record))]]
  end.
Definition taken (f : ifun) (args : list tree) : Prop := exists ps, In ps (ways f) /\ Forall2 (fun P t => P t) ps args.
(** Functions that give a value for whatever they take. *)
Definition sure : list ifun := [FLen; FContains; FUpper; FLower; FTrim; FStartsWith; FEndsWith; FSplit; FFuzzyMatch; FAbs; FFloor; FCeil; FIsNumeric; FBool; FType; FKeys].
(** A type that says what its values, and the elements of its values, are. *)
Definition told (t : vtype) : Prop := base t <> KAny /\ forall e, iterator t = Some e -> base e <> KAny.
(** Every function called is one of these, [fuzzyMatch] knows what it compares, and a template holds nothing but scalars. *)
Definition scalar_type (t : vtype) : Prop := match base t with KNull | KBool | KNumber | KString | KConst _ | KEnum _ _ => True | _ => False end.
Definition sure_call (sc : iscope) (n : node) : Prop :=
  match n with
  | NCall (FInternal f) l => In f sure /\ (f = FFuzzyMatch -> forall x, In x l -> told (type_of sc x))
  | NTemplate l => forall x, In x l -> scalar_type (type_of sc x)
  | _ => True
  end.
Definition sure_calls (sc : iscope) (n : node) : Prop := forall sc1 n1, within sc n sc1 n1 -> sure_call sc1 n1.
(** An interval with square or round brackets. *)
Definition rounded (i : interval) : Prop := match iv_lb i with LCurly | RCurly => False | _ => True end /\ match iv_rb i with LCurly | RCurly => False | _ => True end.
