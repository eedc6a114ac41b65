(** Writing a syntax tree down: the specification the parser is compared with. Nothing here is taken
    from the parser except the two tables of operator precedences and the tables of names. *)
From Coq Require Import String Ascii ZArith Lia Bool List Arith.
From Verif Require Import Base Dec Value Ast Lexer Parser.
Import ListNotations.
Local Open Scope string_scope.
Local Open Scope list_scope.
Local Open Scope nat_scope.

(** A word of the text: one token, or a quoted string. *)
Inductive word := WTok (k : tkind) (v : string) | WStr (q : quote) (s : string).
Definition toks_of (w : word) : list ptok :=
  match w with
  | WTok k v => [(k, v)]
  | WStr q s => [(KQuote q, quote_text q); (KLiteral, s); (KQuote q, quote_text q)]
  end.
Definition spell (l : list word) : list ptok := flat_map toks_of l.

(** Quotes for a text: double quotes when it contains a single one. *)
Fixpoint has_byte (c : ascii) (s : string) : bool :=
  match s with EmptyString => false | String x r => Ascii.eqb x c || has_byte c r end.
Definition quote_for (s : string) : quote := if has_byte "'" s then QDouble else QSingle.

Definition op_text (o : operator) : string :=
  match o with
  | OpArith AAdd => "+" | OpArith ASub => "-" | OpArith AMul => "*" | OpArith ADiv => "/"
  | OpArith AMod => "%" | OpArith APow => "^"
  | OpLogic LAnd => "and" | OpLogic LOr => "or" | OpLogic LNot => "!" | OpLogic LNullish => "??"
  | OpCmp CEq => "==" | OpCmp CNe => "!=" | OpCmp CLt => "<" | OpCmp CGt => ">" | OpCmp CLe => "<="
  | OpCmp CGe => ">=" | OpCmp CIn => "in" | OpCmp CNotIn => "not in"
  | OpRange => ".." | OpComma => "," | OpSlice => ":" | OpDot => "." | OpQuestion => "?"
  | OpAssign => "=" | OpSemi => ";"
  end.
Definition bracket_text (b : bracket) : string :=
  match b with LParen => "(" | RParen => ")" | LSquare => "[" | RSquare => "]" | LCurly => "{" | RCurly => "}" end.
Definition wop (o : operator) : word := WTok (KOp o) (op_text o).
Definition wbr (b : bracket) : word := WTok (KBracket b) (bracket_text b).
Definition wname (s : string) : word :=
  WTok (match ident_of_str s with Some i => KIdent i | None => KLiteral end) s.

(** Names of functions. *)
Definition ifun_eq_dec (a b : ifun) : {a = b} + {a <> b}.
Proof. decide equality. Defined.
Definition closure_eq_dec (a b : closure) : {a = b} + {a <> b}.
Proof. decide equality. Defined.
Fixpoint name_in {A} (dec : forall a b : A, {a = b} + {a <> b}) (x : A) (l : list (string * A)) : string :=
  match l with [] => "" | (s, y) :: r => if dec y x then s else name_in dec x r end.
Definition fname (k : fkind) : string :=
  match k with
  | FInternal f => name_in ifun_eq_dec f internal_names
  | FDeprecated n => n
  | FClosure c => name_in closure_eq_dec c closure_names
  end.

(** Reserved words; what can follow a dot. *)
Definition keywords : list string := ["and"; "or"; "in"; "not"; "true"; "false"; "null"; "$"; "$root"; "#"].
Fixpoint all_bytes (f : ascii -> bool) (s : string) : bool :=
  match s with EmptyString => true | String c r => f c && all_bytes f r end.
Definition plain_name (s : string) : bool :=
  match s with
  | EmptyString => false
  | String c r => is_alpha c && all_bytes is_alnum r && negb (existsb (String.eqb s) keywords)
  end.

Fixpoint seps (s : word) (l : list (list word)) : list word :=
  match l with
  | [] => []
  | [x] => x
  | x :: r => x ++ s :: seps s r
  end.
Definition comma := wop OpComma.

(** The text of a word, and of a list of words: each word followed by a space. *)
Definition text (w : word) : string :=
  match w with
  | WTok _ v => v
  | WStr q s => String.append (quote_text q) (String.append s (quote_text q))
  end.
Fixpoint render (l : list word) : string :=
  match l with
  | [] => ""
  | w :: r => String.append (text w) (String " " (render r))
  end.
(** Words that can be written: names that are not keywords, decimal numbers, strings that do not contain
    their own quote. Templates are left out. *)
Definition number_text (v : string) : Prop :=
  exists d e, d <> "" /\ all_bytes is_digit d = true /\ all_bytes is_digit e = true /\
    (v = d \/ v = String.append d (String "." e)).
Definition word_ok (w : word) : Prop :=
  match w with
  | WTok (KIdent i) v => v = ident_text i
  | WTok (KBool b) v => v = (if b then "true" else "false")
  | WTok KNumber v => number_text v
  | WTok KLiteral v => plain_name v = true
  | WTok (KOp o) v => v = op_text o
  | WTok (KBracket b) v => v = bracket_text b
  | WTok (KQuote _) _ | WTok KTplStart _ | WTok KTplEnd _ => False
  | WStr q s => match q with
                | QSingle => has_byte "'" s = false
                | QDouble => has_byte """" s = false
                | QBacktick => False
                end
  end.

Section Print.
  (** How a number is written. *)
  Variable nt : dec -> string.

  Fixpoint words (n : node) : list word :=
    match n with
    | NNull => [WTok (KIdent INull) "null"]
    | NBool b => [WTok (KBool b) (if b then "true" else "false")]
    | NNumber x => [WTok KNumber (nt x)]
    | NString s => [WStr (quote_for s) s]
    | NTemplate l =>
        WTok (KQuote QBacktick) "`" ::
        flat_map (fun x => match x with
                           | NString s => [WTok KLiteral s]
                           | _ => WTok KTplStart "${" :: words x ++ [WTok KTplEnd "}"]
                           end) l ++ [WTok (KQuote QBacktick) "`"]
    | NPointer => [WTok (KIdent ICallback) "#"]
    | NArray l => wbr LSquare :: seps comma (map words l) ++ [wbr RSquare]
    | NObject l =>
        wbr LCurly ::
        seps comma (map (fun kv => match fst kv with
                                   | NString s => [WStr (quote_for s) s]
                                   | _ => wbr LSquare :: words (fst kv) ++ [wbr RSquare]
                                   end ++ wop OpSlice :: words (snd kv)) l) ++ [wbr RCurly]
    | NIdent s => [wname s]
    | NParen m => wbr LParen :: words m ++ [wbr RParen]
    | NRoot => [WTok (KIdent IRoot) "$root"]
    | NMember m p =>
        words m ++ match p with
                   | NString s => if plain_name s then [wop OpDot; WTok KLiteral s]
                                  else wbr LSquare :: words p ++ [wbr RSquare]
                   | _ => wbr LSquare :: words p ++ [wbr RSquare]
                   end
    | NSlice m f t =>
        let opt o := match o with Some x => words x | None => [] end in
        words m ++ wbr LSquare :: opt f ++ wop OpSlice :: opt t ++ [wbr RSquare]
    | NInterval l r lb rb => wbr lb :: words l ++ wop OpRange :: words r ++ [wbr rb]
    | NCond c t f => words c ++ wop OpQuestion :: words t ++ wop OpSlice :: words f
    | NUnary m o => wop o :: words m
    | NBinary l o r => words l ++ wop o :: words r
    | NCall (FClosure c) [x; NClosure b alias] =>
        WTok KLiteral (fname (FClosure c)) :: wbr LParen :: words x ++
        match alias with Some a => [WTok KLiteral "as"; WTok KLiteral a] | None => [] end ++
        comma :: words b ++ [wbr RParen]
    | NCall k args => WTok KLiteral (fname k) :: wbr LParen :: seps comma (map words args) ++ [wbr RParen]
    | NMethod k m args =>
        words m ++ wop OpDot :: WTok KLiteral k :: wbr LParen :: seps comma (map words args) ++ [wbr RParen]
    | NAssign _ _ | NClosure _ _ | NError _ => []
    end.

  (** What can be followed by [.name], [[...]], [.method(...)]. *)
  Definition postfixable (n : node) : bool :=
    match n with
    | NIdent _ | NRoot | NPointer | NParen _ | NArray _ | NCall _ _ | NMethod _ _ _ | NInterval _ _ _ _
    | NMember _ _ | NSlice _ _ _ => true
    | _ => false
    end.
  Definition opt_prop (P : node -> Prop) (o : option node) : Prop := match o with Some x => P x | None => True end.

  (** Operators that end an expression of the given flavour outside closures: in a unary test [and],
      [or] and commas join tests. *)
  Definition ends (fl : flavor) (c : pctx) (o : operator) : bool :=
    match fl, c with
    | FUnary, CxGlobal => match o with OpComma | OpLogic LAnd | OpLogic LOr => true | _ => false end
    | _, _ => false
    end.
  (** The level from which a right operand is read. *)
  Definition right_level (q : nat) (la : bool) : nat := if la then q + 1 else q.

  (** [canon hr fl n d c p f]: [n] is written with enough parentheses to be read back: at closure depth [d],
      as an operand of level [p] in context [c], followed by an operator of precedence at most [f] (0:
      none). [hr]: the text has an interval somewhere. *)
  Variable pn : string -> option dec.
  Variable hr : bool.
  Variable fl : flavor.
  (** The text of [n] does not begin with bracket [b] (an interval can begin with any bracket). *)
  Definition not_led (b : bracket) (n : node) : Prop := head_is (KBracket b) (spell (words n)) = false.
  Fixpoint canon (n : node) (d : nat) (c : pctx) (p f : nat) : Prop :=
    let sub x := canon x d CxGlobal 0 0 in
    let all := fix go l := match l with [] => True | x :: r => sub x /\ go r end in
    let allb := fun b => fix go l := match l with [] => True | x :: r => (sub x /\ not_led b x) /\ go r end in
    match n with
    | NNull | NBool _ | NString _ | NRoot => True
    | NNumber x => pn (nt x) = Some x
    | NTemplate l => all l
    | NPointer => 0 < d
    | NArray l => (hr = true -> l <> []) /\ allb RSquare l
    | NObject l =>
        (hr = true -> l <> []) /\
        (fix go (l : list (node * node)) := match l with [] => True | kv :: r => (sub (fst kv) /\ not_led RSquare (fst kv) /\ sub (snd kv)) /\ go r end) l
    | NIdent s => s <> "null" /\ s <> "$root" /\ (s = "#" -> d = 0)
    | NParen m => sub m
    | NMember m q => postfixable m = true /\ sub m /\ sub q
    | NSlice m a b =>
        postfixable m = true /\ sub m /\
        match a with Some x => sub x | None => True end /\ match b with Some x => sub x /\ not_led RSquare x | None => True end
    | NInterval l r _ rb =>
        hr = true /\ sub l /\ sub r /\
        (match rb with LParen | LSquare => match r with NNumber _ => True | _ => False end | _ => True end)
    | NCond a t e => p = 0 /\ f = 0 /\ canon a d c 1 0 /\ sub t /\ sub e
    | NUnary m o => exists u, unary_op o = Some u /\ f < u /\ canon m d CxGlobal u f
    | NBinary l o r =>
        exists q la, binary_op o = Some (q, la) /\ p <= q /\ f < right_level q la /\ ends fl c o = false /\
          canon l d c p q /\ canon r d CxGlobal (right_level q la) f
    | NCall k args =>
        match k with
        | FClosure _ =>
            match args with
            | [x; NClosure b _] => sub x /\ canon b (S d) CxClosure 0 0
            | _ => False
            end
        | FInternal _ => allb RParen args
        | FDeprecated s => In s deprecated_names /\ allb RParen args
        end
    | NMethod k m args => postfixable m = true /\ sub m /\ In k method_names /\ allb RParen args
    | NAssign _ _ | NClosure _ _ | NError _ => False
    end.

  (** Trees that can be written at all, whatever the grouping of their operators. *)
  Fixpoint writable (n : node) (d : nat) : Prop :=
    let all := fix go l := match l with [] => True | x :: r => writable x d /\ go r end in
    match n with
    | NNull | NBool _ | NString _ | NRoot => True
    | NNumber x => pn (nt x) = Some x
    | NTemplate l => all l
    | NPointer => 0 < d
    | NArray l => (hr = true -> l <> []) /\ all l
    | NObject l =>
        (hr = true -> l <> []) /\
        (fix go (l : list (node * node)) := match l with [] => True | kv :: r => (writable (fst kv) d /\ writable (snd kv) d) /\ go r end) l
    | NIdent s => s <> "null" /\ s <> "$root" /\ (s = "#" -> d = 0)
    | NParen m => writable m d
    | NMember m q => writable m d /\ writable q d
    | NSlice m a b =>
        writable m d /\ match a with Some x => writable x d | None => True end /\
        match b with Some x => writable x d | None => True end
    | NInterval l r _ rb =>
        hr = true /\ writable l d /\ writable r d /\
        (match rb with LParen | LSquare => match r with NNumber _ => True | _ => False end | _ => True end)
    | NCond a t e => writable a d /\ writable t d /\ writable e d
    | NUnary m o => unary_op o <> None /\ writable m d
    | NBinary l o r => binary_op o <> None /\ writable l d /\ writable r d
    | NCall k args =>
        match k with
        | FClosure _ => match args with [x; NClosure b _] => writable x d /\ writable b (S d) | _ => False end
        | FInternal _ => all args
        | FDeprecated s => In s deprecated_names /\ all args
        end
    | NMethod k m args => writable m d /\ In k method_names /\ all args
    | NAssign _ _ | NClosure _ _ | NError _ => False
    end.

  (** [guard b x]: in parentheses if the text would begin with bracket [b]. *)
  Definition guard (b : bracket) (x : node) : node := if head_is (KBracket b) (spell (words x)) then NParen x else x.
  Definition based (orig x : node) : node := if postfixable orig then x else NParen x.
  (** Parentheses where the precedences require them, and only there: [n] as an operand of level [p] followed
      by an operator of precedence [f]. *)
  Fixpoint parens (n : node) (p f : nat) : node :=
    let top x := parens x 0 0 in
    match n with
    | NBinary l o r =>
        match binary_op o with
        | None => n
        | Some (q, la) =>
            let rp := right_level q la in
            if (p <=? q) && (f <? rp) then NBinary (parens l p q) o (parens r rp f)
            else NParen (NBinary (parens l 0 q) o (parens r rp 0))
        end
    | NUnary m o =>
        match unary_op o with
        | None => n
        | Some u => if f <? u then NUnary (parens m u f) o else NParen (NUnary (parens m u 0) o)
        end
    | NCond a t e =>
        let c := NCond (parens a 1 0) (top t) (top e) in
        if (p =? 0) && (f =? 0) then c else NParen c
    | NTemplate l => NTemplate (map (fun x => parens x 0 0) l)
    | NArray l => NArray (map (fun x => guard RSquare (parens x 0 0)) l)
    | NObject l => NObject (map (fun kv => (guard RSquare (parens (fst kv) 0 0), parens (snd kv) 0 0)) l)
    | NParen m => NParen (top m)
    | NMember m q => NMember (based m (top m)) (top q)
    | NSlice m a b =>
        NSlice (based m (top m)) (match a with Some x => Some (top x) | None => None end)
          (match b with Some x => Some (guard RSquare (top x)) | None => None end)
    | NInterval l r lb rb => NInterval (top l) (top r) lb rb
    | NCall k args => NCall k (map (fun x => guard RParen (parens x 0 0)) args)
    | NMethod k m args => NMethod k (based m (top m)) (map (fun x => guard RParen (parens x 0 0)) args)
    | NClosure b a => NClosure (top b) a
    | NNull | NBool _ | NNumber _ | NString _ | NPointer | NIdent _ | NRoot | NAssign _ _ | NError _ => n
    end.
  (** A tree without its parentheses. *)
  Fixpoint strip (n : node) : node :=
    match n with
    | NParen m => strip m
    | NBinary l o r => NBinary (strip l) o (strip r)
    | NUnary m o => NUnary (strip m) o
    | NCond a t e => NCond (strip a) (strip t) (strip e)
    | NTemplate l => NTemplate (map strip l)
    | NArray l => NArray (map strip l)
    | NObject l => NObject (map (fun kv => (strip (fst kv), strip (snd kv))) l)
    | NMember m q => NMember (strip m) (strip q)
    | NSlice m a b =>
        NSlice (strip m) (match a with Some x => Some (strip x) | None => None end)
          (match b with Some x => Some (strip x) | None => None end)
    | NInterval l r lb rb => NInterval (strip l) (strip r) lb rb
    | NCall k args => NCall k (map strip args)
    | NMethod k m args => NMethod k (strip m) (map strip args)
    | NClosure b a => NClosure (strip b) a
    | NNull | NBool _ | NNumber _ | NString _ | NPointer | NIdent _ | NRoot | NAssign _ _ | NError _ => n
    end.

  (** ** Cells of decision tables: tests of the reference [$] *)
  Inductive test := TCmp (c : comparison_op) (n : node) | TVal (n : node).
  Definition test_words (t : test) : list word :=
    match t with TCmp c n => wop (OpCmp c) :: words n | TVal n => words n end.
  Definition test_canon (t : test) : Prop :=
    match t with TCmp _ n | TVal n => canon n 0 CxGlobal 0 0 end.
  (** What a cell says: a comparison compares the reference; a value is compared with it as its kind
      demands ([behaviour]), or is taken as a condition. *)
  Definition dollar : node := NIdent "$".
  Definition test_node (t : test) : node :=
    match t with
    | TCmp c n => NBinary dollar (OpCmp c) n
    | TVal n => match behaviour n with
                | Some c => NBinary dollar (OpCmp c) n
                | None => NCall (FInternal FBool) [n]
                end
    end.
  (** Tests are joined by commas, [and], [or]. *)
  Inductive joiner := JComma | JAnd | JOr.
  Definition joiner_op (j : joiner) : operator :=
    match j with JComma => OpComma | JAnd => OpLogic LAnd | JOr => OpLogic LOr end.
  Definition joined (j : joiner) : operator := match j with JAnd => OpLogic LAnd | _ => OpLogic LOr end.
  Definition cell_words (t : test) (l : list (joiner * test)) : list word :=
    test_words t ++ flat_map (fun jt => wop (joiner_op (fst jt)) :: test_words (snd jt)) l.
  Definition cell_node (t : test) (l : list (joiner * test)) : node :=
    fold_left (fun acc jt => NBinary acc (joined (fst jt)) (test_node (snd jt))) l (test_node t).
End Print.

(** Trees of operators over names, constants and strings. *)
Fixpoint operator_tree (n : node) : bool :=
  match n with
  | NIdent s => plain_name s
  | NNull | NBool _ | NRoot => true
  | NString s => negb (has_byte "'" s && has_byte """" s)
  | NParen m => operator_tree m
  | NUnary m o => (match unary_op o with Some _ => true | None => false end) && operator_tree m
  | NBinary l o r => (match binary_op o with Some _ => true | None => false end) && operator_tree l && operator_tree r
  | NCond a t e => operator_tree a && operator_tree t && operator_tree e
  | _ => false
  end.
