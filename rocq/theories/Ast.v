(** Syntax trees, functions and opcodes. Models core/expression/src/parser/ast.rs,
    lexer/token.rs (operators), functions/{mod,internal,method}.rs (kinds), compiler/opcode.rs. *)
From Coq Require Import String Ascii ZArith Lia Bool List Arith.
From Verif Require Import Base Dec Value.
Import ListNotations.

(** lexer/token.rs:112-190. *)
Inductive arith := AAdd | ASub | AMul | ADiv | AMod | APow.
Inductive logic := LAnd | LOr | LNot | LNullish.
Inductive comparison_op := CEq | CNe | CLt | CGt | CLe | CGe | CIn | CNotIn.
(** lexer/token.rs:67-79. *)
Inductive operator :=
| OpArith (a : arith)
| OpLogic (l : logic)
| OpCmp (c : comparison_op)
| OpRange | OpComma | OpSlice | OpDot | OpQuestion | OpAssign | OpSemi.

(** functions/internal.rs:9-51 InternalFunction. *)
Inductive ifun :=
| FLen | FContains | FFlatten | FMerge | FMergeDeep
| FUpper | FLower | FTrim | FStartsWith | FEndsWith | FMatches | FExtract | FFuzzyMatch | FSplit
| FAbs | FSum | FAvg | FMin | FMax | FRand | FMedian | FMode | FFloor | FCeil | FRound | FTrunc
| FIsNumeric | FString | FNumber | FBool | FType | FKeys | FValues | FDate.

(** functions/mod.rs ClosureFunction. *)
Inductive closure := ClAll | ClNone | ClSome | ClOne | ClFilter | ClMap | ClFlatMap | ClCount.

(** functions/mod.rs FunctionKind; deprecated functions are kept by name. *)
Inductive fkind := FInternal (f : ifun) | FDeprecated (name : string) | FClosure (c : closure).
(** functions/method.rs MethodKind: a date method, by name. *)
Definition mkind := string.

(** ast.rs:10-72 Node. Simplification: the payload of Error nodes is not represented. *)
Inductive node :=
| NNull
| NBool (b : bool)
| NNumber (d : dec)
| NString (s : string)
| NTemplate (parts : list node)
| NPointer
| NArray (items : list node)
| NObject (items : list (node * node))
| NAssign (items : list (node * node)) (output : option node)
| NIdent (s : string)
| NClosure (body : node) (alias : option string)
| NParen (n : node)
| NRoot
| NMember (n p : node)
| NSlice (n : node) (from to : option node)
| NInterval (l r : node) (lb rb : bracket)
| NCond (c t f : node)
| NUnary (n : node) (op : operator)
| NBinary (l : node) (op : operator) (r : node)
| NCall (k : fkind) (args : list node)
| NMethod (k : mkind) (this : node) (args : list node)
| NError (n : option node).

(** opcode.rs:8-13 FetchFastTarget. *)
Inductive target := TgRoot | TgBegin | TgString (s : string) | TgNumber (n : Z).
Inductive jump := JForward | JBackward | JIfTrue | JIfFalse | JIfNotNull | JIfEnd.
Inductive compare_op := CmpMore | CmpLess | CmpMoreEq | CmpLessEq.

(** opcode.rs:17-70 Opcode. *)
Inductive opcode :=
| PushNull
| PushBool (b : bool)
| PushString (s : string)
| PushNumber (d : dec)
| OPop
| OFlatten
| OJoin
| OFetch
| OFetchRootEnv
| OFetchEnv (s : string)
| OFetchFast (p : list target)
| ONegate
| ONot
| OEqual
| OJump (j : jump) (n : nat)
| OIn
| OCompare (c : compare_op)
| OAdd
| OSubtract
| OMultiply
| ODivide
| OModulo
| OExponent
| OSlice
| OArray
| OObject
| OAssignBegin
| OAssignStep
| OAssignEnd (with_return : bool)
| OLen
| OIncIt
| OIncCount
| OGetCount
| OGetLen
| OPointer (depth : nat)
| OBegin
| OEnd
| OCallFunction (k : fkind) (argc : nat)
| OCallMethod (k : mkind) (argc : nat)
| OInterval (lb rb : bracket).

(** Induction over syntax trees. *)
Definition opt_all (P : node -> Prop) (o : option node) : Prop :=
  match o with Some n => P n | None => True end.

Section NodeInd.
  Variable P : node -> Prop.
  Hypothesis HNull : P NNull.
  Hypothesis HBool : forall b, P (NBool b).
  Hypothesis HNumber : forall d, P (NNumber d).
  Hypothesis HString : forall s, P (NString s).
  Hypothesis HTemplate : forall l, Forall P l -> P (NTemplate l).
  Hypothesis HPointer : P NPointer.
  Hypothesis HArray : forall l, Forall P l -> P (NArray l).
  Hypothesis HObject : forall l, Forall (fun kv => P (fst kv) /\ P (snd kv)) l -> P (NObject l).
  Hypothesis HAssign : forall l o, Forall (fun kv => P (fst kv) /\ P (snd kv)) l -> opt_all P o ->
    P (NAssign l o).
  Hypothesis HIdent : forall s, P (NIdent s).
  Hypothesis HClosure : forall b a, P b -> P (NClosure b a).
  Hypothesis HParen : forall n, P n -> P (NParen n).
  Hypothesis HRoot : P NRoot.
  Hypothesis HMember : forall n p, P n -> P p -> P (NMember n p).
  Hypothesis HSlice : forall n f t, P n -> opt_all P f -> opt_all P t -> P (NSlice n f t).
  Hypothesis HInterval : forall l r lb rb, P l -> P r -> P (NInterval l r lb rb).
  Hypothesis HCond : forall c t f, P c -> P t -> P f -> P (NCond c t f).
  Hypothesis HUnary : forall n op, P n -> P (NUnary n op).
  Hypothesis HBinary : forall l op r, P l -> P r -> P (NBinary l op r).
  Hypothesis HCall : forall k l, Forall P l -> P (NCall k l).
  Hypothesis HMethod : forall k n l, P n -> Forall P l -> P (NMethod k n l).
  Hypothesis HError : forall o, opt_all P o -> P (NError o).
  Fixpoint node_ind' (n : node) : P n :=
    let all := fix go l : Forall P l :=
      match l with [] => Forall_nil _ | x :: r => Forall_cons x (node_ind' x) (go r) end in
    let allp := fix go l : Forall (fun kv => P (fst kv) /\ P (snd kv)) l :=
      match l with
      | [] => Forall_nil _
      | x :: r => Forall_cons x (conj (node_ind' (fst x)) (node_ind' (snd x))) (go r)
      end in
    let opt o : opt_all P o :=
      match o with Some x => node_ind' x | None => I end in
    match n with
    | NNull => HNull
    | NBool b => HBool b
    | NNumber d => HNumber d
    | NString s => HString s
    | NTemplate l => HTemplate l (all l)
    | NPointer => HPointer
    | NArray l => HArray l (all l)
    | NObject l => HObject l (allp l)
    | NAssign l o => HAssign l o (allp l) (opt o)
    | NIdent s => HIdent s
    | NClosure b a => HClosure b a (node_ind' b)
    | NParen x => HParen x (node_ind' x)
    | NRoot => HRoot
    | NMember x p => HMember x p (node_ind' x) (node_ind' p)
    | NSlice x f t => HSlice x f t (node_ind' x) (opt f) (opt t)
    | NInterval l r lb rb => HInterval l r lb rb (node_ind' l) (node_ind' r)
    | NCond c t f => HCond c t f (node_ind' c) (node_ind' t) (node_ind' f)
    | NUnary x op => HUnary x op (node_ind' x)
    | NBinary l op r => HBinary l op r (node_ind' l) (node_ind' r)
    | NCall k l => HCall k l (all l)
    | NMethod k x l => HMethod k x l (node_ind' x) (all l)
    | NError o => HError o (opt o)
    end.
End NodeInd.
