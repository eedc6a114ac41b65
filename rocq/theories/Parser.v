(** The parser. Models core/expression/src/parser/{parser,standard,unary,constants,ast}.rs.

    A parser state is the list of tokens from [position] on. Backtracking ([set_position] to an earlier
    position) is returning the earlier list. The code can step past the end ([next] on no token); that is
    not observable and is dropped. Token spans and node metadata only feed error messages and are
    dropped, and so are the messages: an error node is [NError]. [depth] is unbounded (u8 in the code: the
    256th nested closure overflows). Every expression parser returns [None] only when out of fuel. *)
From Coq Require Import String Ascii ZArith Lia Bool List Arith.
From Verif Require Import Base Dec Value Ast Lexer.
Import ListNotations.
Local Open Scope string_scope.
Local Open Scope list_scope.
Local Open Scope nat_scope.

(** What the parser looks at in a token. *)
Notation ptok := (tkind * string)%type.
Definition ptok_of (t : token) : ptok := (tk_kind t, tk_value t).
(** The parser flavours: standard.rs, unary.rs. *)
Inductive flavor := FStandard | FUnary.
(** parser.rs:1345-1349 ParserContext. *)
Inductive pctx := CxGlobal | CxClosure.
(** parser.rs:1306-1323 PostfixCombination. *)
Inductive comb := CbMixed | CbComputed | CbProperty | CbInherit.
Definition comb_and (self other : comb) : comb :=
  match self, other with
  | CbComputed, CbComputed => CbComputed
  | CbProperty, CbProperty => CbProperty
  | CbInherit, o => o
  | _, _ => CbMixed
  end.

Definition operator_eq_dec (a b : operator) : {a = b} + {a <> b}.
Proof. repeat decide equality. Defined.
Definition tkind_eq_dec (a b : tkind) : {a = b} + {a <> b}.
Proof. repeat decide equality. Defined.
(** [self.current_kind() == Some(k)]. *)
Definition head_is (k : tkind) (ts : list ptok) : bool :=
  match ts with (k', _) :: _ => if tkind_eq_dec k' k then true else false | [] => false end.

(** constants.rs:50-72: precedence, and whether the operator is left-associative. *)
Definition binary_op (o : operator) : option (nat * bool) :=
  match o with
  | OpLogic LOr => Some (10, true)
  | OpLogic LAnd => Some (15, true)
  | OpCmp _ => Some (20, true)
  | OpArith AAdd | OpArith ASub => Some (30, true)
  | OpArith AMul | OpArith ADiv | OpArith AMod => Some (60, true)
  | OpArith APow => Some (70, false)
  | OpLogic LNullish => Some (80, true)
  | _ => None
  end.
(** constants.rs:74-82. *)
Definition unary_op (o : operator) : option nat :=
  match o with
  | OpLogic LNot => Some 50
  | OpArith AAdd | OpArith ASub => Some 200
  | _ => None
  end.

(** functions/internal.rs:9-55, functions/deprecated.rs:13-28, functions/mod.rs:45-57 (camelCase names),
    looked up in this order (functions/mod.rs:25-34). *)
Definition internal_names : list (string * ifun) :=
  [ ("len", FLen); ("contains", FContains); ("flatten", FFlatten); ("merge", FMerge); ("mergeDeep", FMergeDeep);
    ("upper", FUpper); ("lower", FLower); ("trim", FTrim); ("startsWith", FStartsWith); ("endsWith", FEndsWith);
    ("matches", FMatches); ("extract", FExtract); ("fuzzyMatch", FFuzzyMatch); ("split", FSplit);
    ("abs", FAbs); ("sum", FSum); ("avg", FAvg); ("min", FMin); ("max", FMax); ("rand", FRand);
    ("median", FMedian); ("mode", FMode); ("floor", FFloor); ("ceil", FCeil); ("round", FRound);
    ("trunc", FTrunc); ("isNumeric", FIsNumeric); ("string", FString); ("number", FNumber); ("bool", FBool);
    ("type", FType); ("keys", FKeys); ("values", FValues); ("d", FDate) ].
Definition deprecated_names : list string :=
  [ "date"; "time"; "duration"; "year"; "dayOfWeek"; "dayOfMonth"; "dayOfYear"; "weekOfYear"; "monthOfYear";
    "monthString"; "dateString"; "weekdayString"; "startOf"; "endOf" ].
Definition closure_names : list (string * closure) :=
  [ ("all", ClAll); ("none", ClNone); ("some", ClSome); ("one", ClOne); ("filter", ClFilter); ("map", ClMap);
    ("flatMap", ClFlatMap); ("count", ClCount) ].
Definition function_kind (s : string) : option fkind :=
  match aget s internal_names with
  | Some f => Some (FInternal f)
  | None =>
      if existsb (String.eqb s) deprecated_names then Some (FDeprecated s)
      else option_map FClosure (aget s closure_names)
  end.
(** functions/date_method.rs:10-46. *)
Definition method_names : list string :=
  [ "add"; "sub"; "set"; "format"; "startOf"; "endOf"; "diff"; "tz"; "isSame"; "isBefore"; "isAfter";
    "isSameOrBefore"; "isSameOrAfter"; "second"; "minute"; "hour"; "day"; "dayOfYear"; "week"; "weekday";
    "month"; "quarter"; "year"; "timestamp"; "offsetName"; "isValid"; "isYesterday"; "isToday"; "isTomorrow";
    "isLeapYear" ].
Definition method_kind (s : string) : option mkind :=
  if existsb (String.eqb s) method_names then Some s else None.

(** ast.rs:75-168 [walk], [first_error], [has_error]. *)
Fixpoint has_error (n : node) : bool :=
  let any := fix go l := match l with [] => false | x :: r => has_error x || go r end in
  let anyp := fix go (l : list (node * node)) :=
    match l with [] => false | x :: r => has_error (fst x) || has_error (snd x) || go r end in
  let opt o := match o with Some x => has_error x | None => false end in
  match n with
  | NError _ => true
  | NTemplate l | NArray l | NCall _ l => any l
  | NObject l => anyp l
  | NAssign l o => anyp l || opt o
  | NClosure b _ => has_error b
  | NParen c => has_error c
  | NMember a b => has_error a || has_error b
  | NSlice a f t => has_error a || opt t || opt f
  | NInterval l r _ _ => has_error l || has_error r
  | NCond c t f => has_error c || has_error t || has_error f
  | NUnary a _ => has_error a
  | NBinary l _ r => has_error l || has_error r
  | NMethod _ a l => has_error a || any l
  | NNull | NBool _ | NNumber _ | NString _ | NPointer | NIdent _ | NRoot => false
  end.

(** ast.rs:192-218 [member_key], joined by dots (parser.rs:932-951). *)
Fixpoint member_key (n : node) : option (list string) :=
  match n with
  | NMember a p =>
      match member_key a with
      | None => None
      | Some ks =>
          match p with
          | NString k => Some (ks ++ [k])
          | NRoot => Some (ks ++ ["$root"])
          | _ => None
          end
      end
  | NIdent s => Some [s]
  | NRoot => Some ["$root"]
  | _ => None
  end.
Definition transform_key (n : node) : node :=
  match member_key n with Some ks => NString (String.concat "." ks) | None => NError (Some n) end.

Definition ident_text (i : ident) : string :=
  match i with IContext => "$" | IRoot => "$root" | ICallback => "#" | INull => "null" end.

Definition obind {A B} (o : option A) (f : A -> option B) : option B :=
  match o with Some a => f a | None => None end.
Definition presult := option (node * list ptok).

(** parser.rs:1277-1289 [is_valid_property]. *)
Definition valid_property (k : tkind) : bool :=
  match k with
  | KIdent _ | KLiteral | KOp (OpLogic _) | KOp (OpCmp CIn) => true
  | _ => false
  end.

Section WithExpr.
  (** [Decimal::from_str_exact], then [from_scientific] (rust_decimal, not modelled). *)
  Variable pn : string -> option dec.
  (** [has_range_operator]. *)
  Variable hr : bool.
  (** The parser's [expression_parser]: depth, context, tokens. *)
  Variable E : nat -> pctx -> list ptok -> presult.

  (** parser.rs:270-290 [simple_string]. *)
  Definition p_string (q : quote) (ts : list ptok) : node * list ptok :=
    match ts with
    | (k, _) :: r =>
        if tkind_eq_dec k (KQuote q) then
          match r with
          | (KLiteral, s) :: r1 =>
              if head_is (KQuote q) r1 then (NString s, tl r1) else (NError None, r1)
          | _ => (NError None, if head_is (KQuote q) r then tl r else r)
          end
        else (NError None, ts)
    | [] => (NError None, ts)
    end.

  Section AtDepth.
    Variable d : nat.
    Definition G (ts : list ptok) : presult := E d CxGlobal ts.

    (** parser.rs:336-379 [template_string], after the opening backtick. *)
    Fixpoint p_template (lf : nat) (acc : list node) (ts : list ptok) : presult :=
      match lf with
      | O => None
      | S k =>
          match ts with
          | (KQuote QBacktick, _) :: r => Some (NTemplate acc, r)
          | (KTplStart, _) :: r =>
              obind (G r) (fun '(n, ts1) =>
                if head_is KTplEnd ts1 then p_template k (acc ++ [n]) (tl ts1)
                else p_template k (acc ++ [n; NError None]) ts1)
          | (KTplEnd, _) :: r => p_template k acc r
          | (KLiteral, s) :: r => p_template k (acc ++ [NString s]) r
          | _ => Some (NError None, ts)
          end
      end.

    (** parser.rs:399-413, 785-799: comma separated arguments up to the closing parenthesis. *)
    Fixpoint p_args (lf : nat) (acc : list node) (ts : list ptok) : option (list node * list ptok) :=
      match lf with
      | O => None
      | S k =>
          if head_is (KBracket RParen) ts then Some (acc, ts)
          else obind (G ts) (fun '(n, ts1) =>
            if head_is (KOp OpComma) ts1 then p_args k (acc ++ [n]) (tl ts1) else Some (acc ++ [n], ts1))
      end.
    (** ... and the parenthesis itself (parser.rs:415-417, 801-803). *)
    Definition p_call_args (ts : list ptok) : option (list node * list ptok) :=
      obind (p_args (S (length ts)) [] ts) (fun '(args, ts1) =>
        if head_is (KBracket RParen) ts1 then Some (args, tl ts1) else Some (args ++ [NError None], ts1)).

    (** parser.rs:479-596 [with_property_access]; [ts] begins with the left square bracket. *)
    Definition p_computed (n : node) (ts : list ptok) : presult :=
      let ts1 := tl ts in
      match ts1 with
      | [] => Some (NError (Some n), [])
      | _ =>
          if head_is (KOp OpSlice) ts1 then
            let ts2 := tl ts1 in
            match ts2 with
            | [] => Some (NError (Some n), [])
            | _ =>
                obind (if head_is (KBracket RSquare) ts2 then Some (None, ts2)
                       else obind (G ts2) (fun '(t, ts3) => Some (Some t, ts3)))
                  (fun '(to, ts3) =>
                     if head_is (KBracket RSquare) ts3 then Some (NSlice n None to, tl ts3) else Some (NError None, ts3))
            end
          else
            obind (G ts1) (fun '(from, ts2) =>
              match ts2 with
              | [] => Some (NError (Some (NMember n from)), [])
              | _ =>
                  if head_is (KOp OpSlice) ts2 then
                    let ts3 := tl ts2 in
                    match ts3 with
                    | [] => Some (NError (Some (NSlice n (Some from) None)), [])
                    | _ =>
                        obind (if head_is (KBracket RSquare) ts3 then Some (None, ts3)
                               else obind (G ts3) (fun '(t, ts4) => Some (Some t, ts4)))
                          (fun '(to, ts4) =>
                             if head_is (KBracket RSquare) ts4 then Some (NSlice n (Some from) to, tl ts4)
                             else Some (NError None, ts4))
                    end
                  else if head_is (KBracket RSquare) ts2 then Some (NMember n from, tl ts2)
                  else Some (NError None, ts2)
              end)
      end.

    (** parser.rs:381-436 [method_call]: [ts] begins with the left parenthesis; [pf] is [with_postfix]. *)
    Definition p_method (pf : node -> list ptok -> option (node * comb * list ptok)) (n : node) (name : string)
      (ts : list ptok) : presult :=
      match method_kind name with
      | None => Some (NError None, ts)
      | Some k =>
          obind (p_call_args (tl ts)) (fun '(args, ts1) =>
            obind (pf (NMethod k n args) ts1) (fun '(m, _, ts2) => Some (m, ts2)))
      end.
    (** parser.rs:438-477 [with_member_access]; [ts] begins with the dot. *)
    Definition p_member (pf : node -> list ptok -> option (node * comb * list ptok)) (n : node)
      (ts : list ptok) : presult :=
      match tl ts with
      | [] => Some (NMember n (NError (Some n)), [])
      | (k, v) :: r =>
          if valid_property k then
            if head_is (KBracket LParen) r then p_method pf n v r else Some (NMember n (NString v), r)
          else Some (NMember n (NError (Some n)), (k, v) :: r)
      end.
    (** parser.rs:598-627 [with_postfix]. *)
    Fixpoint p_postfix (lf : nat) (n : node) (ts : list ptok) : option (node * comb * list ptok) :=
      match lf with
      | O => None
      | S k =>
          match ts with
          | [] => Some (n, CbMixed, [])
          | (KBracket LSquare, _) :: _ =>
              obind (p_computed n ts) (fun '(n1, ts1) =>
                obind (p_postfix k n1 ts1) (fun '(n2, c, ts2) => Some (n2, comb_and c CbComputed, ts2)))
          | (KOp OpDot, _) :: _ =>
              obind (p_member (p_postfix k) n ts) (fun '(n1, ts1) =>
                obind (p_postfix k n1 ts1) (fun '(n2, c, ts2) => Some (n2, comb_and c CbProperty, ts2)))
          | _ => Some (n, CbInherit, ts)
          end
      end.
    Definition postfix (n : node) (ts : list ptok) : presult :=
      obind (p_postfix (S (length ts)) n ts) (fun '(m, _, ts1) => Some (m, ts1)).

    (** parser.rs:957-1023 [assigned_object]: the pairs after the first. *)
    Fixpoint p_assign (lf : nat) (acc : list (node * node)) (ts : list ptok) : presult :=
      match lf with
      | O => None
      | S k =>
          match ts with
          | [] => Some (NAssign acc None, [])
          | _ =>
              if head_is (KOp OpSemi) ts then
                match tl ts with
                | [] => Some (NAssign acc None, [])
                | (_, v) :: ts2 =>
                    obind (p_postfix (S (length ts2)) (NIdent v) ts2) (fun '(kn, c, ts3) =>
                      if head_is (KOp OpAssign) ts3 then
                        match c with
                        | CbProperty | CbInherit =>
                            obind (G (tl ts3)) (fun '(w, ts4) => p_assign k (acc ++ [(transform_key kn, w)]) ts4)
                        | _ => Some (NError (Some kn), tl ts3)
                        end
                      else obind (G (tl ts)) (fun '(o, ts4) => Some (NAssign acc (Some o), ts4)))
                end
              else Some (NError None, ts)
          end
      end.
    (** [ts] begins with the assignment operator. *)
    Definition p_assigned (key : node) (ts : list ptok) : presult :=
      obind (G (tl ts)) (fun '(v, ts1) => p_assign (S (length ts1)) [(transform_key key, v)] ts1).

    (** parser.rs:633-651, 733-783: a closure function's arguments, after the parenthesis. *)
    Definition p_closure_args (ts : list ptok) : option (list node * list ptok) :=
      obind (G ts) (fun '(a, ts1) =>
        let '(extra, alias, ts2) :=
          match ts1 with
          | (KLiteral, w) :: r =>
              if String.eqb w "as" then
                match r with
                | (KLiteral, x) :: r1 => ([], Some x, r1)
                | _ => ([NError None], None, r)
                end
              else ([], None, ts1)
          | _ => ([], None, ts1)
          end in
        let '(extra2, ts3) :=
          if head_is (KOp OpComma) ts2 then (extra, tl ts2) else (extra ++ [NError None], ts2) in
        obind (E (S d) CxClosure ts3) (fun '(b, ts4) =>
          let args := a :: extra2 ++ [NClosure b alias] in
          if head_is (KBracket RParen) ts4 then Some (args, tl ts4) else Some (args ++ [NError None], ts4))).

    (** parser.rs:653-823 [identifier]; [ts] begins with an identifier or a literal token. *)
    Definition p_identifier (ts : list ptok) : presult :=
      match ts with
      | [] => Some (NError None, [])
      | (k, v) :: r =>
          if head_is (KBracket LParen) r then
            match function_kind v with
            | None => Some (NError None, r)
            | Some f =>
                obind (match f with
                       | FClosure _ => p_closure_args (tl r)
                       | _ => p_call_args (tl r)
                       end)
                  (fun '(args, ts1) => postfix (NCall f args) ts1)
            end
          else
            let n := match k with KIdent IRoot => NRoot | _ => NIdent v end in
            obind (p_postfix (S (length r)) n r) (fun '(m, c, ts1) =>
              if head_is (KOp OpAssign) ts1 then
                match c with
                | CbProperty | CbInherit => p_assigned m ts1
                | _ => Some (NError (Some m), ts1)
                end
              else Some (m, ts1))
      end.

    (** parser.rs:826-880 [interval]: no interval, and where that leaves the position, or an interval. *)
    Definition p_interval (ts : list ptok) : option (option node * list ptok) :=
      if hr then
        match ts with
        | (KBracket lb, _) :: r =>
            obind (G r) (fun '(l, ts1) =>
              if has_error l then Some (None, ts)
              else if head_is (KOp OpRange) ts1 then
                obind (G (tl ts1)) (fun '(rn, ts2) =>
                  if has_error rn then Some (None, ts)
                  else match ts2 with
                       | (KBracket rb, _) :: ts3 =>
                           obind (postfix (NInterval l rn lb rb) ts3) (fun '(m, ts4) => Some (Some m, ts4))
                       | [] => Some (None, [])
                       | _ => Some (None, ts)
                       end)
              else Some (None, ts))
        | _ => Some (None, ts)
        end
      else Some (None, ts).

    (** parser.rs:883-925 [array], after the left square bracket. *)
    Fixpoint p_array (lf : nat) (acc : list node) (ts : list ptok) : presult :=
      match lf with
      | O => None
      | S k =>
          if head_is (KBracket RSquare) ts then postfix (NArray acc) (tl ts)
          else
            match acc with
            | [] => obind (G ts) (fun '(n, ts1) => p_array k [n] ts1)
            | _ =>
                if head_is (KOp OpComma) ts then
                  let ts1 := tl ts in
                  if head_is (KBracket RSquare) ts1 then postfix (NArray acc) (tl ts1)
                  else obind (G ts1) (fun '(n, ts2) => p_array k (acc ++ [n]) ts2)
                else Some (NError None, ts)
            end
      end.

    (** parser.rs:1079-1174 [object_key]. *)
    Definition p_key (ts : list ptok) : presult :=
      match ts with
      | (KIdent i, _) :: r => Some (NString (ident_text i), r)
      | (KBool b, _) :: r => Some (NString (if b then "true" else "false"), r)
      | (KNumber, v) :: r | (KLiteral, v) :: r => Some (NString v, r)
      | (KBracket LSquare, _) :: r =>
          obind (G r) (fun '(n, ts1) =>
            if head_is (KBracket RSquare) ts1 then Some (n, tl ts1) else Some (NError None, ts1))
      | (KQuote QSingle, _) :: _ => Some (p_string QSingle ts)
      | (KQuote QDouble, _) :: _ => Some (p_string QDouble ts)
      | _ => Some (NError None, ts)
      end.
    (** parser.rs:1043-1076 [object], after the left curly bracket. *)
    Fixpoint p_object (lf : nat) (acc : list (node * node)) (ts : list ptok) : presult :=
      match lf with
      | O => None
      | S k =>
          obind (p_key ts) (fun '(key, ts1) =>
            if head_is (KOp OpSlice) ts1 then
              obind (G (tl ts1)) (fun '(v, ts2) =>
                let acc1 := acc ++ [(key, v)] in
                match ts2 with
                | [] => Some (NObject (acc1 ++ [(NNull, NError None)]), [])
                | (KOp OpComma, _) :: r => p_object k acc1 r
                | (KBracket RCurly, _) :: r => Some (NObject acc1, r)
                | _ => Some (NError None, ts2)
                end)
            else Some (NError None, ts1))
      end.

    (** parser.rs:1177-1217 [conditional]. *)
    Definition p_conditional (c : node) (ts : list ptok) : presult :=
      if head_is (KOp OpQuestion) ts then
        obind (G (tl ts)) (fun '(t, ts1) =>
          if head_is (KOp OpSlice) ts1 then
            obind (G (tl ts1)) (fun '(f, ts2) => Some (NCond c t f, ts2))
          else Some (NError None, ts1))
      else Some (c, ts).

    (** parser.rs:1220-1273 [literal]. *)
    Definition p_literal (ts : list ptok) : presult :=
      match ts with
      | [] => Some (NError None, [])
      | (KIdent INull, _) :: r => Some (NNull, r)
      | (KIdent _, _) :: _ | (KLiteral, _) :: _ => p_identifier ts
      | (KBool b, _) :: r => Some (NBool b, r)
      | (KNumber, v) :: r =>
          (* parser.rs:221-240 *)
          match pn v with Some x => Some (NNumber x, r) | None => Some (NError None, ts) end
      | (KQuote QSingle, _) :: _ => Some (p_string QSingle ts)
      | (KQuote QDouble, _) :: _ => Some (p_string QDouble ts)
      | (KQuote QBacktick, _) :: r =>
          match r with [] => Some (NError None, []) | _ => p_template (S (length r)) [] r end
      | (KBracket LParen, _) :: _ | (KBracket RParen, _) :: _ | (KBracket RSquare, _) :: _ =>
          obind (p_interval ts) (fun '(o, ts1) =>
            Some (match o with Some n => n | None => NError None end, ts1))
      | (KBracket LSquare, _) :: _ =>
          obind (p_interval ts) (fun '(o, ts1) =>
            match o with
            | Some n => Some (n, ts1)
            | None => if head_is (KBracket LSquare) ts1 then p_array (S (length ts1)) [] (tl ts1) else Some (NError None, ts1)
            end)
      | (KBracket LCurly, _) :: r =>
          match r with
          | (KBracket RCurly, _) :: r1 => Some (NObject [], r1)
          | _ => p_object (S (length r)) [] r
          end
      | _ => Some (NError None, ts)
      end.
  End AtDepth.
End WithExpr.

Section Parse.
  Variable pn : string -> option dec.
  Variable hr : bool.
  Variable fl : flavor.

  (** standard.rs:75-141, unary.rs:188-257 [unary_expression]; [R] is [binary_expression]: depth,
      precedence, context. *)
  Definition p_unary (R : nat -> nat -> pctx -> list ptok -> presult) (d : nat) (ts : list ptok) : presult :=
    let E := fun d c ts => R d 0 c ts in
    match ts with
    | [] => Some (NError None, [])
    | (k, v) :: r =>
        if (0 <? d) && head_is (KIdent ICallback) ts then postfix E d NPointer r
        else
          match k with
          | KOp o =>
              match unary_op o with
              | None => Some (NError None, ts)
              | Some u => obind (R d u CxGlobal r) (fun '(n, ts1) => Some (NUnary n o, ts1))
              end
          | _ =>
              obind (p_interval hr E d ts) (fun '(o, ts1) =>
                match o with
                | Some n => Some (n, ts1)
                | None =>
                    if head_is (KBracket LParen) ts then
                      obind (R d 0 CxGlobal (tl ts1)) (fun '(n, ts2) =>
                        if head_is (KBracket RParen) ts2 then postfix E d (NParen n) (tl ts2)
                        else Some (NError None, ts2))
                    else p_literal pn hr E d ts1
                end)
          end
    end.

  (** unary.rs:142-152: where the unary flavour leaves the loop. *)
  Definition joins (c : pctx) (o : operator) : bool :=
    match fl, c, o with
    | FUnary, CxGlobal, OpComma | FUnary, CxGlobal, OpLogic LAnd | FUnary, CxGlobal, OpLogic LOr => true
    | _, _, _ => false
    end.

  (** standard.rs:29-60, unary.rs:136-174: the loop of [binary_expression]; [R] parses a right operand. *)
  Fixpoint p_loop (R : nat -> list ptok -> presult) (lf p : nat) (c : pctx) (l : node) (ts : list ptok) : presult :=
    match lf with
    | O => None
    | S k =>
        match ts with
        | (KOp o, _) :: r =>
            if joins c o then Some (l, ts)
            else
              match binary_op o with
              | None => Some (l, ts)
              | Some (q, la) =>
                  if q <? p then Some (l, ts)
                  else obind (R (if la then q + 1 else q) r) (fun '(x, ts1) => p_loop R k p c (NBinary l o x) ts1)
              end
        | _ => Some (l, ts)
        end
    end.

  (** standard.rs:23-73, unary.rs:129-186 [binary_expression]. *)
  Fixpoint p_expr (fuel d p : nat) (c : pctx) (ts : list ptok) {struct fuel} : presult :=
    match fuel with
    | O => None
    | S k =>
        obind (p_unary (p_expr k) d ts) (fun '(l, ts1) =>
          match ts1 with
          | [] => Some (l, [])
          | _ =>
              obind (p_loop (fun q r => p_expr k d q CxGlobal r) (S (length ts1)) p c l ts1) (fun '(l2, ts2) =>
                if p =? 0 then p_conditional (fun d c ts => p_expr k d 0 c ts) d l2 ts2 else Some (l2, ts2))
          end)
    end.
  (** [binary_expression] at the top level. *)
  Definition p_top (ts : list ptok) : presult := p_expr (S (length ts)) 0 0 CxGlobal ts.

  (** unary.rs:262-445 [UnaryNodeBehaviour]: [Some c]: compare with the reference by [c]; [None]: as a
      boolean. *)
  Definition internal_behaviour (f : ifun) : option comparison_op :=
    match f with
    | FFlatten | FMerge | FMergeDeep | FExtract | FSplit | FKeys | FValues => Some CIn
    | FContains | FStartsWith | FEndsWith | FMatches | FIsNumeric => None
    | _ => Some CEq
    end.
  Definition closure_behaviour (c : closure) : option comparison_op :=
    match c with
    | ClAll | ClSome | ClNone | ClOne => None
    | ClFilter | ClMap | ClFlatMap => Some CIn
    | ClCount => Some CEq
    end.
  Definition method_behaviour (m : mkind) : option comparison_op :=
    if existsb (String.eqb m) ["isSame"; "isBefore"; "isAfter"; "isSameOrBefore"; "isSameOrAfter"; "isValid";
      "isYesterday"; "isToday"; "isTomorrow"; "isLeapYear"] then None else Some CEq.
  Definition both (a b : option comparison_op) : option comparison_op :=
    match a, b with
    | None, None => None
    | Some CIn, Some CIn => Some CIn
    | _, _ => Some CEq
    end.
  Fixpoint behaviour (n : node) : option comparison_op :=
    match n with
    | NNull | NRoot | NBool _ | NNumber _ | NString _ | NTemplate _ | NObject _ | NAssign _ _ | NIdent _
    | NMember _ _ => Some CEq
    | NPointer | NClosure _ _ | NError _ => None
    | NArray _ | NSlice _ _ _ | NInterval _ _ _ _ => Some CIn
    | NCond _ t f => both (behaviour t) (behaviour f)
    | NUnary a _ => behaviour a
    | NParen a => behaviour a
    | NBinary a o b =>
        match o with
        | OpArith _ => both (behaviour a) (behaviour b)
        | OpRange | OpSlice => Some CIn
        | _ => None
        end
    | NCall k _ =>
        match k with
        | FInternal f => internal_behaviour f
        | FDeprecated _ => Some CEq
        | FClosure c => closure_behaviour c
        end
    | NMethod m _ _ => method_behaviour m
    end.

  Definition reference : node := NIdent "$".
  Definition cmp_kind (k : tkind) : option comparison_op := match k with KOp (OpCmp c) => Some c | _ => None end.
  Definition head_cmp (ts : list ptok) : option comparison_op :=
    match ts with (k, _) :: _ => cmp_kind k | [] => None end.

  (** unary.rs:68-126 [expression_pair]. *)
  Definition p_pair (fuel : nat) (ts : list ptok) : presult :=
    obind (match head_cmp ts with
           | Some _ => Some (reference, ts)
           | None => p_expr fuel 0 0 CxGlobal ts
           end) (fun '(l, ts1) =>
      match head_cmp ts1 with
      | Some c => obind (p_expr fuel 0 0 CxGlobal (tl ts1)) (fun '(r, ts2) => Some (NBinary l (OpCmp c) r, ts2))
      | None =>
          Some (match behaviour l with
                | Some c => NBinary reference (OpCmp c) l
                | None => NCall (FInternal FBool) [l]
                end, ts1)
      end).
  (** unary.rs:27-66 [root_expression]. *)
  Definition join_op (k : tkind) : option operator :=
    match k with
    | KOp (OpLogic LAnd) => Some (OpLogic LAnd)
    | KOp (OpLogic LOr) | KOp OpComma => Some (OpLogic LOr)
    | _ => None
    end.
  Fixpoint p_root (fuel lf : nat) (l : node) (ts : list ptok) : presult :=
    match lf with
    | O => None
    | S k =>
        match ts with
        | [] => Some (l, [])
        | (kd, _) :: r =>
            match join_op kd with
            | None => Some (NError None, ts)
            | Some o => obind (p_pair fuel r) (fun '(x, ts1) => p_root fuel k (NBinary l o x) ts1)
            end
        end
    end.
  Definition p_unary_top (ts : list ptok) : presult :=
    obind (p_pair (S (length ts)) ts) (fun '(l, ts1) => p_root (S (length ts)) (S (length ts1)) l ts1).
End Parse.

(** parser.rs:53-57. *)
Definition has_range (ts : list ptok) : bool := existsb (fun t => head_is (KOp OpRange) [t]) ts.

Definition parse_tokens (pn : string -> option dec) (fl : flavor) (ts : list ptok) : presult :=
  match fl with
  | FStandard => p_top pn (has_range ts) FStandard ts
  | FUnary => p_unary_top pn (has_range ts) FUnary ts
  end.
(** result.rs:17-27 [ParserResult::error]. [None]: out of fuel. *)
Definition parse_result (r : presult) : option (res node) :=
  option_map (fun '(n, rest) =>
    match rest with
    | _ :: _ => Err (EOp "Incomplete")
    | [] => if has_error n then Err (EOp "NodeError") else Ok n
    end) r.
(** isolate.rs:136-165, 190-222: lex, parse, check. *)
Definition parse_source (pn : string -> option dec) (fl : flavor) (src : string) : option (res node) :=
  match lex src with
  | None => None
  | Some (Err e) => Some (Err e)
  | Some (Ok ts) => parse_result (parse_tokens pn fl (map ptok_of ts))
  end.
