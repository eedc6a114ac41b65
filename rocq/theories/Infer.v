(** The type checker of expressions. Models core/expression/src/intellisense/type_provider.rs, the type signatures of functions/internal.rs, functions/deprecated.rs,
    functions/date_method.rs with [check_types] of functions/defs.rs, and the levels of messages of intellisense/diagnostic.rs.
    Simplifications: a message is a level and a tag, the node it is attached to is left out; a message that is later replaced by another one at the same node is kept (only errors replace,
    so whether there is a message, and whether there is an error, is exact). [current_data] of the scope is never read. *)
From Coq Require Import String ZArith Bool List Arith.
From Verif Require Import Base Dec Value Heap Ast VarType.
Import ListNotations.
Local Open Scope string_scope.
Local Open Scope list_scope.

(** diagnostic.rs:21-27, 93-99: a message is an error unless it begins with "Hint:" (a warning) or "Lint:" (a hint). *)
Inductive level := LError | LWarning | LHint.
Definition complaint := (level * string)%type.
Definition typed := (vtype * list complaint)%type.
Definition plain (t : vtype) : typed := (t, []).
(** 126-129 [Error]. *)
Definition wrong (tag : string) : typed := (KAny, [(LError, tag)]).
Definition unless (b : bool) (l : level) (tag : string) : list complaint := if b then [] else [(l, tag)].

(** intellisense/scope.rs:5-11. *)
Record iscope := IScope { is_root : vtype; is_ptr : vtype; is_alias : amap vtype }.

(** ** Functions on types *)
(** variable_type/util.rs:25-31 [as_const_str]. *)
Fixpoint as_const (t : vtype) : option string := match t with KConst s => Some s | KNullable i => as_const i | _ => None end.
(** util.rs:94-100 [is_iterable]. *)
Fixpoint is_iterable (t : vtype) : bool := match t with KAny | KInterval | KArray _ => true | KNullable i => is_iterable i | _ => false end.
(** util.rs:118-131 [is_null], [is_nullable]. *)
Definition is_null (t : vtype) : bool := match t with KNull => true | _ => false end.
Definition is_nullable (t : vtype) : bool := match t with KNullable _ | KNull => true | _ => false end.
(** util.rs:283-345 [dot_head_detach], [dot_insert_detached], on the already split path. *)
Fixpoint type_insert (path : list string) (last : string) (t v : vtype) : option vtype :=
  match t with
  | KObject m =>
      match path with
      | [] => Some (KObject (aset last v m))
      | p :: ps =>
          match type_insert ps last match aget p m with Some (KObject o) => KObject o | _ => KObject [] end v with
          | Some x => Some (KObject (aset p x m))
          | None => None
          end
      end
  | _ => None
  end.
Definition dot_insert_type (t : vtype) (key : string) (v : vtype) : option vtype :=
  match split_last (split_dot key) with Some (path, last) => type_insert path last t v | None => None end.

(** type_provider.rs:105-116 [maybe_nullable]. *)
Definition maybe_nullable (t : vtype) (b : bool) : vtype :=
  if b && negb match t with KAny | KNull | KNullable _ => true | _ => false end then KNullable t else t.
(** 713-719 [value_set]. *)
Definition value_set (t : vtype) : option (list string) := match t with KConst c => Some [c] | KEnum _ l => Some l | _ => None end.
(** 704-711 [types_disjoint]. *)
Definition disjoint (a b : vtype) : bool :=
  match value_set (base a), value_set (base b) with
  | Some l, Some r => negb (existsb (contains r) l)
  | _, _ => negb (satisfies (base a) (base b))
  end.
(** 721-751 [check_enum_comparison]: nothing to say, or whether the value is possible. *)
Definition check_enum (a b : vtype) : option bool :=
  match base a, base b with
  | KEnum _ l, KConst c | KConst c, KEnum _ l => Some (contains l c)
  | KConst c, KConst d => Some (String.eqb c d)
  | _, _ => None
  end.
(** 877-883 [structured_comparison]. *)
Definition structured (a b : vtype) : bool := match a, b with KObject _, KObject _ | KArray _, KArray _ => true | _, _ => false end.
(** 989-999 [flatten_contribution_for]. *)
Fixpoint flatten_contribution (t : vtype) : vtype :=
  match t with KNullable i => merge KNull (flatten_contribution i) | KArray i => i | KInterval => KNumber | s => s end.

(** ** Signatures *)
(** functions/defs.rs: [StaticFunction], [CompositeFunction]. *)
Definition signature := (list vtype * vtype)%type.
Inductive fdef := Static (s : signature) | Composite (l : list signature).
Definition one (p r : vtype) : fdef := Static ([p], r).
Definition strings : vtype := KArray KString.
Definition numbers : vtype := KArray KNumber.
Definition anys : vtype := KArray KAny.
(** internal.rs:54-320; the functions with a check of their own ([flatten], [merge], [mergeDeep], [values]) are not looked up. *)
Definition internal_def (f : ifun) : fdef :=
  match f with
  | FLen => Composite [([KString], KNumber); ([anys], KNumber)]
  | FContains => Composite [([KString; KString], KBool); ([anys; KAny], KBool)]
  | FFlatten => one anys anys
  | FMerge => Composite [([anys], anys); ([KArray (KObject [])], KObject [])]
  | FMergeDeep => one (KArray (KObject [])) (KObject [])
  | FUpper | FLower | FTrim => one KString KString
  | FStartsWith | FEndsWith | FMatches => Static ([KString; KString], KBool)
  | FExtract | FSplit => Static ([KString; KString], strings)
  | FFuzzyMatch => Composite [([KString; KString], KNumber); ([strings; KString], numbers)]
  | FAbs | FRand | FFloor | FCeil => one KNumber KNumber
  | FRound | FTrunc => Composite [([KNumber], KNumber); ([KNumber; KNumber], KNumber)]
  | FSum | FAvg | FMedian | FMode => one numbers KNumber
  | FMin | FMax => Composite [([numbers], KNumber); ([KArray KDate], KDate)]
  | FType | FString => one KAny KString
  | FBool | FIsNumeric => one KAny KBool
  | FNumber => one KAny KNumber
  | FKeys => Composite [([KObject []], strings); ([anys], numbers)]
  | FValues => one (KObject []) anys
  | FDate => Composite [([], KDate); ([KAny], KDate); ([KAny; KString], KDate)]
  end.
(** deprecated.rs:30-111. *)
Definition deprecated_def (name : string) : option fdef :=
  if existsb (String.eqb name) ["date"; "time"; "duration"; "year"; "dayOfWeek"; "dayOfMonth"; "dayOfYear"; "weekOfYear"; "monthOfYear"] then Some (one KAny KNumber)
  else if existsb (String.eqb name) ["monthString"; "dateString"; "weekdayString"] then Some (one KAny KString)
  else if existsb (String.eqb name) ["startOf"; "endOf"] then Some (Static ([KAny; KString], KNumber))
  else None.
(** vm/date/duration_unit.rs:17-30. *)
Definition unit_type : vtype :=
  KEnum (Some "DurationUnit") ["seconds"; "second"; "secs"; "sec"; "s"; "minutes"; "minute"; "min"; "mins"; "m"; "hours"; "hour"; "hr"; "hrs"; "h"; "days"; "day"; "d"; "weeks"; "week"; "w";
    "months"; "month"; "mo"; "M"; "quarters"; "quarter"; "qtr"; "q"; "years"; "year"; "y"].
(** date_method.rs:78-184, 311-322, 346-369. *)
Definition method_def (k : mkind) : option fdef :=
  if existsb (String.eqb k) ["add"; "sub"] then Some (Composite [([KDate; KString], KDate); ([KDate; KNumber; unit_type], KDate)])
  else if String.eqb k "set" then Some (Static ([KDate; unit_type; KNumber], KDate))
  else if String.eqb k "tz" then Some (Static ([KDate; KString], KDate))
  else if String.eqb k "format" then Some (Composite [([KDate], KString); ([KDate; KString], KString)])
  else if existsb (String.eqb k) ["startOf"; "endOf"] then Some (Static ([KDate; unit_type], KDate))
  else if String.eqb k "diff" then Some (Composite [([KDate; KDate], KNumber); ([KDate; KDate; unit_type], KNumber)])
  else if existsb (String.eqb k) ["isSame"; "isBefore"; "isAfter"; "isSameOrBefore"; "isSameOrAfter"] then Some (Composite [([KDate; KDate], KBool); ([KDate; KDate; unit_type], KBool)])
  else if existsb (String.eqb k) ["second"; "minute"; "hour"; "day"; "weekday"; "dayOfYear"; "week"; "month"; "quarter"; "year"; "timestamp"] then Some (one KDate KNumber)
  else if existsb (String.eqb k) ["isValid"; "isYesterday"; "isToday"; "isTomorrow"; "isLeapYear"] then Some (one KDate KBool)
  else if String.eqb k "offsetName" then Some (one KDate KString)
  else None.

(** defs.rs:53-84, 136-203: each argument against its parameter, as far as there are both ([zip]). *)
Fixpoint args_match (args params : list vtype) : bool :=
  match args, params with a :: r, p :: ps => satisfies a p && args_match r ps | _, _ => true end.
Fixpoint args_errors (args params : list vtype) : list complaint :=
  match args, params with a :: r, p :: ps => unless (satisfies a p) LError "argument" ++ args_errors r ps | _, _ => [] end.
(** defs.rs:136-203: the parameters that some signature has at position [i]. *)
Definition params_at (l : list signature) (i : nat) : list vtype :=
  flat_map (fun s => match nth_error (fst s) i with Some p => [p] | None => [] end) l.
Fixpoint overload_errors (l : list signature) (i : nat) (args : list vtype) : list complaint :=
  match args with
  | [] => []
  | a :: r => unless (existsb (satisfies a) (params_at l i)) LError "argument" ++ overload_errors l (S i) r
  end.
Definition fewest (l : list signature) : nat := match map (fun s => length (fst s)) l with [] => 0 | x :: r => fold_left Nat.min r x end.
Definition most (l : list signature) : nat := fold_left Nat.max (map (fun s => length (fst s)) l) 0.
Definition check_types (d : fdef) (args : list vtype) : typed :=
  match d with
  | Static (ps, r) => (r, unless (Nat.eqb (length args) (length ps)) LError "count" ++ args_errors args ps)
  | Composite [] => (KNull, [(LError, "no implementation")])
  | Composite l =>
      let count := unless (Nat.leb (fewest l) (length args) && Nat.leb (length args) (most l)) LError "count" in
      match find (fun s => args_match args (fst s)) l with
      | Some s => (snd s, count)
      | None => (KNull, overload_errors l 0 args ++ [(LError, "overload")])
      end
  end.

Section Strict.
  Variable strict : bool.

  (** 885-940 [merge_kind_from_types], of the one type of the elements. *)
  Definition merge_kind (t : vtype) : typed :=
    match base t with
    | KObject m => plain (KObject m)
    | KArray _ => match iterator t with Some i => plain (KArray i) | None => plain (KArray KAny) end
    | KAny | KNull => plain KAny
    | _ => wrong "merge"
    end.
  (** 942-967 [merge_deep_from_types], of the one type of the elements. *)
  Definition merge_deep_kind (t : vtype) : typed :=
    match base t with
    | KObject m => plain (KObject m)
    | KAny | KNull => plain (KObject [])
    | _ => wrong "mergeDeep"
    end.
  (** 759-875: the functions with a check of their own. *)
  Definition check_own (f : ifun) (args : list vtype) : typed :=
    match args with
    | [a] =>
        match f with
        | FMerge => match iterator a with Some e => merge_kind e | None => wrong "merge" end
        | FMergeDeep => match iterator a with Some e => merge_deep_kind e | None => wrong "mergeDeep" end
        | FFlatten =>
            match iterator a with
            | Some e => (KArray (flatten_contribution e), unless (negb (strict && nullable a)) LError "may be null")
            | None => wrong "flatten"
            end
        | _ =>
            match base a with
            | KObject m => plain (KArray match map snd m with [] => KAny | x :: r => fold_left merge r x end)
            | KAny => plain (KArray KAny)
            | _ => (KArray KAny, [(LError, "values")])
            end
        end
    | _ => wrong "count"
    end.
  Definition own_check (f : ifun) : bool := match f with FMerge | FMergeDeep | FFlatten | FValues => true | _ => false end.
  Definition check_call (k : fkind) (args : list vtype) : typed :=
    match k with
    | FInternal f => if own_check f then check_own f args else check_types (internal_def f) args
    | FDeprecated name => match deprecated_def name with Some d => check_types d args | None => plain KAny end
    | FClosure _ => plain KAny
    end.
  (** 588-643: closure functions; [a] is the type of the first argument, [b] the type of the body. *)
  Definition check_closure (c : closure) (a b : vtype) : typed :=
    (match c with
     | ClAll | ClSome | ClNone | ClOne => KBool
     | ClFilter => a
     | ClCount => KNumber
     | ClMap => KArray b
     | ClFlatMap => KArray match iterator b with Some i => i | None => b end
     end,
     (if is_iterable a then unless (negb (strict && nullable a)) LError "may be null" else [(LError, "iterable")]) ++
     match c with
     | ClAll | ClNone | ClSome | ClOne | ClFilter | ClCount => unless (satisfies b KBool) LError "callback"
     | ClMap | ClFlatMap => []
     end).

  (** 235-296: member access. *)
  Definition check_member (a p : vtype) : typed :=
    match base a with
    | KAny => plain KAny
    | KNull => plain KNull
    | KArray i => (maybe_nullable i strict, unless (satisfies p KNumber) LError "index")
    | KString | KConst _ | KEnum _ _ => (maybe_nullable KString strict, unless (satisfies p KNumber) LError "index")
    | KObject m =>
        let found := match as_const p with
                     | None => plain KAny
                     | Some key =>
                         match aget key m with
                         | Some t => plain t
                         | None => (KAny, unless (negb strict || match m with [] => true | _ => false end) LError "member")
                         end
                     end in
        (maybe_nullable (fst found) (strict && nullable a), unless (satisfies p KString) LError "index" ++ snd found)
    | _ => wrong "index"
    end.

  (** 361-395: equality. *)
  Definition check_equal (a b : vtype) : list complaint :=
    match check_enum a b with
    | Some ok => unless ok LError "value"
    | None =>
        unless (negb (structured a b || (disjoint a b && negb (is_nullable a) && negb (is_nullable b) && negb (is_null a) && negb (is_null b)))) LWarning "always"
    end.
  (** 406-435: [in]. *)
  Definition check_in (a b : vtype) : typed :=
    match widen a, widen b with
    | _, KArray i =>
        (KBool, match check_enum a i with Some ok => unless ok LError "value" | None => unless (negb (disjoint a i)) LWarning "always" end)
    | KNumber, KInterval | KDate, KInterval => plain KBool
    | KString, KObject _ => plain KBool
    | KAny, _ => plain KBool
    | _, KAny => plain KBool
    | _, _ => wrong "operator"
    end.
  (** 297-438: binary operators. *)
  Definition check_binary (op : operator) (a b : vtype) : typed :=
    match op with
    | OpArith AAdd =>
        match widen a, widen b with
        | KNumber, KNumber => plain KNumber
        | KString, KString => plain KString
        | KAny, KNumber | KAny, KString | KAny, KAny => plain KAny
        | KNumber, KAny | KString, KAny => plain KAny
        | _, _ => wrong "operator"
        end
    | OpArith _ =>
        match a, b with
        | KNumber, KNumber | KNumber, KAny | KAny, KNumber | KAny, KAny => plain KNumber
        | _, _ => wrong "operator"
        end
    | OpLogic LNullish =>
        match a with
        | KNullable i => plain (merge i b)
        | KNull => (b, unless (negb strict) LHint "always null")
        | KAny => plain KAny
        | _ => (a, unless (negb strict) LHint "never null")
        end
    | OpLogic _ =>
        match a, b with
        | KBool, KBool | KBool, KAny | KAny, KBool | KAny, KAny => plain KBool
        | _, _ => wrong "operator"
        end
    | OpCmp CEq | OpCmp CNe => (KBool, check_equal a b)
    | OpCmp CLt | OpCmp CGt | OpCmp CLe | OpCmp CGe =>
        match a, b with
        | KDate, KDate | KDate, KAny | KAny, KDate | KAny, KAny => plain KBool
        | KNumber, KNumber | KNumber, KAny | KAny, KNumber => plain KBool
        | _, _ => wrong "operator"
        end
    | OpCmp CIn | OpCmp CNotIn => check_in a b
    | _ => plain KAny
    end.
  (** 457-497: unary operators; the error is attached to the operand. *)
  Definition check_unary (op : operator) (a : vtype) : typed :=
    match op with
    | OpArith AAdd | OpArith ASub => (KNumber, unless (satisfies a KNumber) LError "operator")
    | OpLogic LNot => (KBool, unless (satisfies a KBool) LError "operator")
    | _ => wrong "unsupported"
    end.
  (** 148-176: slices. *)
  Definition check_slice (a : vtype) : typed :=
    match widen a with KAny => plain KAny | KArray i => plain (KArray i) | KString => plain KString | _ => wrong "slice" end.
  Definition numberish (t : vtype) : bool := satisfies t KNumber || satisfies t KDate.

  Definition complaints (l : list typed) : list complaint := flat_map snd l.
  (** 178-185: the type of the elements. *)
  Definition elements (l : list vtype) : vtype := match l with [] => KAny | x :: r => fold_left merge r x end.
  (** 187-200: objects; a value whose key is not a constant is not looked at. *)
  Definition fields (l : list (typed * typed)) : list (string * vtype) :=
    fold_left (fun m kv => match as_const (fst (fst kv)) with Some k => aset k (fst (snd kv)) m | None => m end) l [].
  Definition field_complaints (l : list (typed * typed)) : list complaint :=
    flat_map (fun kv => snd (fst kv) ++ match as_const (fst (fst kv)) with Some _ => snd (snd kv) | None => [] end) l.

  (** 119-701 [determine]. Where the code would index a missing argument of a closure function (the parser makes no such call), the result is an error. *)
  Fixpoint determine (sc : iscope) (n : node) {struct n} : typed :=
    match n with
    | NNull => plain KNull
    | NBool _ => plain KBool
    | NNumber _ => plain KNumber
    | NString s => plain (KConst s)
    | NTemplate l => (KString, complaints (map (determine sc) l))
    | NPointer => plain (is_ptr sc)
    | NRoot => plain (is_root sc)
    | NSlice x f t =>
        let a := determine sc x in
        let index o := match o with None => [] | Some (ty, c) => c ++ unless (satisfies ty KNumber) LError "slice index" end in
        let r := check_slice (fst a) in
        (fst r, snd a ++ index (match f with Some y => Some (determine sc y) | None => None end) ++ index (match t with Some y => Some (determine sc y) | None => None end) ++ snd r)
    | NArray l => let ts := map (determine sc) l in (KArray (elements (map fst ts)), complaints ts)
    | NObject l => let ts := map (fun kv => (determine sc (fst kv), determine sc (snd kv))) l in (KObject (fields ts), field_complaints ts)
    | NAssign l o =>
        let start := IScope match is_root sc with KAny | KNull => KObject [] | r => r end (is_ptr sc) (is_alias sc) in
        let '(sc1, m, cs) :=
          (fix go l sc m cs := match l with
                               | [] => (sc, m, cs)
                               | (k, v) :: r =>
                                   let kt := determine sc k in
                                   match as_const (fst kt) with
                                   | None => go r sc m (cs ++ snd kt)
                                   | Some key =>
                                       let vt := determine sc v in
                                       let sc1 := match dot_insert_type (is_root sc) key (fst vt) with Some x => IScope x (is_ptr sc) (is_alias sc) | None => sc end in
                                       go r sc1 (aset key (fst vt) m) (cs ++ snd kt ++ snd vt)
                                   end
                               end) l start [] [] in
        match o with
        | Some x => let r := determine sc1 x in (fst r, cs ++ snd r)
        | None => (KObject m, cs)
        end
    | NIdent i => plain match aget i (is_alias sc) with Some t => t | None => type_get (is_root sc) i end
    | NMember x p =>
        let a := determine sc x in
        let b := determine sc p in
        let r := check_member (fst a) (fst b) in
        (fst r, snd a ++ snd b ++ snd r)
    | NBinary l op r =>
        let a := determine sc l in
        let b := determine sc r in
        let t := check_binary op (fst a) (fst b) in
        (fst t, snd a ++ snd b ++ snd t)
    | NCond c t f =>
        let a := determine sc c in
        let x := determine sc t in
        let y := determine sc f in
        (merge (fst x) (fst y), snd a ++ unless (satisfies (fst a) KBool) LError "condition" ++ snd x ++ snd y)
    | NUnary x op => let a := determine sc x in let r := check_unary op (fst a) in (fst r, snd a ++ snd r)
    | NInterval l r _ _ =>
        let a := determine sc l in
        let b := determine sc r in
        (KInterval, snd a ++ unless (numberish (fst a)) LError "interval" ++ snd b ++ unless (numberish (fst b)) LError "interval")
    | NCall (FClosure c) args =>
        match args with
        | x :: y :: rest =>
            let a := determine sc x in
            let p := match iterator (fst a) with Some i => i | None => KAny end in
            let al := match y with NClosure _ (Some name) => aset name p (is_alias sc) | _ => is_alias sc end in
            let b := determine (IScope (is_root sc) p al) y in
            let r := check_closure c (fst a) (fst b) in
            (fst r, snd a ++ snd b ++ complaints (map (determine sc) rest) ++ snd r)
        | _ => wrong "panic"
        end
    | NCall k args =>
        let ts := map (determine sc) args in
        let r := check_call k (map fst ts) in
        (fst r, complaints ts ++ snd r)
    | NMethod k x args =>
        let a := determine sc x in
        let ts := map (determine sc) args in
        let r := match method_def k with Some d => check_types d (fst a :: map fst ts) | None => plain KAny end in
        (fst r, snd a ++ complaints ts ++ snd r)
    | NClosure b _ => determine sc b
    | NParen x => determine sc x
    | NError o => match o with Some x => let a := determine sc x in (fst a, snd a ++ [(LError, "syntax")]) | None => (KAny, [(LError, "syntax")]) end
    end.
End Strict.
