(** The lexer. Models core/expression/src/lexer/{lexer,cursor,codes,token}.rs. A source is a byte string;
    the cursor's [current] is the number of bytes consumed, here the offset [i] with the bytes that
    remain. Simplifications: spans are unbounded numbers (u32 in the code, so sources above 4 GiB are
    outside the model); moving the cursor past the end is not observable and is dropped. *)
From Coq Require Import String Ascii ZArith Lia Bool List Arith.
From Verif Require Import Base Dec Value Ast.
Import ListNotations.
Local Open Scope string_scope.
Local Open Scope nat_scope.

(** token.rs:29-57. *)
Inductive ident := IContext | IRoot | ICallback | INull.
Inductive quote := QSingle | QDouble | QBacktick.
(** token.rs:17-27, the two [TemplateString] kinds as [KTplStart], [KTplEnd]. *)
Inductive tkind :=
| KIdent (i : ident)
| KBool (b : bool)
| KNumber
| KQuote (q : quote)
| KLiteral
| KOp (o : operator)
| KBracket (b : bracket)
| KTplStart
| KTplEnd.
(** token.rs:8-14. *)
Record token := Tok { tk_kind : tkind; tk_span : nat * nat; tk_value : string }.

(** codes.rs:1-10. *)
Definition is_space (c : ascii) : bool :=
  Ascii.eqb c " " || Ascii.eqb c "010" || Ascii.eqb c "009".
Definition in_range (a b c : ascii) : bool :=
  (nat_of_ascii a <=? nat_of_ascii c) && (nat_of_ascii c <=? nat_of_ascii b).
Definition is_digit (c : ascii) : bool := in_range "0" "9" c.
Definition is_alpha (c : ascii) : bool :=
  in_range "A" "Z" c || in_range "a" "z" c || Ascii.eqb c "$" || Ascii.eqb c "_" || Ascii.eqb c "#".
Definition is_alnum (c : ascii) : bool := is_alpha c || is_digit c.
Definition is_bracket (c : ascii) : bool :=
  existsb (Ascii.eqb c) ["("; ")"; "["; "]"; "{"; "}"]%char.
Definition is_cmp (c : ascii) : bool := existsb (Ascii.eqb c) [">"; "<"; "!"]%char.
Definition is_oper (c : ascii) : bool := existsb (Ascii.eqb c) [","; ":"; "+"; "-"; "/"; "*"; "^"; "%"]%char.

(** token.rs:98-154 [Operator::from_str]. *)
Definition op_table : list (string * operator) :=
  [ ("..", OpRange); (",", OpComma); (":", OpSlice); (".", OpDot); ("?", OpQuestion);
    ("+", OpArith AAdd); ("-", OpArith ASub); ("*", OpArith AMul); ("/", OpArith ADiv);
    ("%", OpArith AMod); ("^", OpArith APow);
    ("and", OpLogic LAnd); ("or", OpLogic LOr); ("not", OpLogic LNot); ("!", OpLogic LNot);
    ("??", OpLogic LNullish);
    ("==", OpCmp CEq); ("!=", OpCmp CNe); ("<", OpCmp CLt); (">", OpCmp CGt); ("<=", OpCmp CLe);
    (">=", OpCmp CGe); ("in", OpCmp CIn); ("not in", OpCmp CNotIn) ].
Definition op_of_str (s : string) : option operator := aget s op_table.
(** token.rs:164-178. *)
Definition bracket_of_str (s : string) : option bracket :=
  aget s [("(", LParen); (")", RParen); ("[", LSquare); ("]", RSquare); ("{", LCurly); ("}", RCurly)].
(** token.rs:29-39 [Identifier::try_from]. *)
Definition ident_of_str (s : string) : option ident :=
  aget s [("$", IContext); ("$root", IRoot); ("#", ICallback); ("null", INull)].

(** [&source[a..b]]. *)
Definition slice (src : string) (a b : nat) : string := substring a (b - a) src.
Definition tok (k : tkind) (src : string) (a b : nat) : token := Tok k (a, b) (slice src a b).
Definition quote_text (q : quote) : string :=
  match q with QSingle => "'" | QDouble => """" | QBacktick => "`" end.

(** The bytes after the first [n]. *)
Fixpoint skip (n : nat) (s : string) : string :=
  match n, s with
  | O, _ => s
  | S k, String _ r => skip k r
  | S _, EmptyString => EmptyString
  end.
(** [while let Some(_) = cursor.next_if(f)]: how many bytes it consumes. *)
Fixpoint count_while (f : ascii -> bool) (s : string) : nat :=
  match s with
  | String c r => if f c then S (count_while f r) else 0
  | EmptyString => 0
  end.
(** lexer.rs:188-196: bytes before the closing quote. *)
Fixpoint find_byte (q : ascii) (s : string) : option nat :=
  match s with
  | EmptyString => None
  | String c r => if Ascii.eqb c q then Some 0 else option_map S (find_byte q r)
  end.
(** lexer.rs:226-245: bytes of the mantissa after its first digit. A second dot, or a dot followed by a
    dot, is put back. *)
Fixpoint count_mantissa (fractal : bool) (s : string) : nat :=
  match s with
  | EmptyString => 0
  | String c r =>
      if is_digit c || Ascii.eqb c "_" then S (count_mantissa fractal r)
      else if Ascii.eqb c "." then
        if fractal then 0
        else match r with
             | EmptyString => S (count_mantissa false r)
             | String p _ => if Ascii.eqb p "." then 0 else S (count_mantissa true r)
             end
      else 0
  end.
(** lexer.rs:247-268: bytes of the exponent; none if it has no digit (the cursor goes back). *)
Definition count_exponent (s : string) : nat :=
  match s with
  | String c r =>
      if Ascii.eqb c "e" then
        let sign := match r with
                    | String d _ => if Ascii.eqb d "+" || Ascii.eqb d "-" then 1 else 0
                    | EmptyString => 0
                    end in
        match count_while is_digit (skip sign r) with
        | O => 0
        | n => 1 + sign + n
        end
      else 0
  | EmptyString => 0
  end.

(** A scan of one item returns its tokens and the number of bytes consumed. *)
Definition scanned := res (list token * nat).

(** lexer.rs:183-215. *)
Definition scan_string (src : string) (i : nat) (c : ascii) (q : quote) (r : string) : scanned :=
  match find_byte c r with
  | None => Err (EOp "UnexpectedEof")
  | Some n =>
      let e := i + 1 + n in
      Ok ([Tok (KQuote q) (i, i + 1) (quote_text q); tok KLiteral src (i + 1) e;
           Tok (KQuote q) (e, e + 1) (quote_text q)], n + 2)
  end.
(** lexer.rs:217-275. *)
Definition scan_number (src : string) (i : nat) (r : string) : scanned :=
  let m := count_mantissa false r in
  let n := 1 + m + count_exponent (skip m r) in
  Ok ([tok KNumber src i (i + n)], n).
(** lexer.rs:277-318,346-355,395-414: one token whose kind is looked up from its text. *)
Definition scan_op (src : string) (i n : nat) : scanned :=
  match op_of_str (slice src i (i + n)) with
  | Some o => Ok ([tok (KOp o) src i (i + n)], n)
  | None => Err (EOp "UnexpectedSymbol")
  end.
Definition scan_bracket (src : string) (i : nat) : scanned :=
  match bracket_of_str (slice src i (i + 1)) with
  | Some b => Ok ([tok (KBracket b) src i (i + 1)], 1)
  | None => Err (EOp "UnexpectedSymbol")
  end.
Definition next_is (c : ascii) (r : string) : bool :=
  match r with String d _ => Ascii.eqb d c | EmptyString => false end.
(** lexer.rs:416-484. *)
Definition scan_ident (src : string) (i : nat) (r : string) : scanned :=
  let n := 1 + count_while is_alnum r in
  let value := slice src i (i + n) in
  if String.eqb value "and" then Ok ([tok (KOp (OpLogic LAnd)) src i (i + n)], n)
  else if String.eqb value "or" then Ok ([tok (KOp (OpLogic LOr)) src i (i + n)], n)
  else if String.eqb value "in" then Ok ([tok (KOp (OpCmp CIn)) src i (i + n)], n)
  else if String.eqb value "true" then Ok ([tok (KBool true) src i (i + n)], n)
  else if String.eqb value "false" then Ok ([tok (KBool false) src i (i + n)], n)
  else if String.eqb value "not" then
    if String.prefix " in " (skip (n - 1) r)
    then Ok ([Tok (KOp (OpCmp CNotIn)) (i, i + n + 3) "not in"], n + 4)
    else Ok ([Tok (KOp (OpLogic LNot)) (i, i + n) "not"], n)
  else Ok ([tok (match ident_of_str value with Some d => KIdent d | None => KLiteral end) src i (i + n)], n).

(** lexer.rs:58-84, all but the template string. [c] is the byte at offset [i], [r] the bytes after it. *)
Definition scan_char (src : string) (i : nat) (c : ascii) (r : string) : scanned :=
  if is_space c then Ok ([], 1)
  else if Ascii.eqb c "'" then scan_string src i c QSingle r
  else if Ascii.eqb c """" then scan_string src i c QDouble r
  else if is_digit c then scan_number src i r
  else if is_bracket c then scan_bracket src i
  else if is_cmp c then scan_op src i (if next_is "=" r then 2 else 1)
  else if is_oper c then scan_op src i 1
  else if Ascii.eqb c "?" then
    (* lexer.rs:377-393 *)
    if next_is "?" r then Ok ([tok (KOp (OpLogic LNullish)) src i (i + 2)], 2)
    else Ok ([tok (KOp OpQuestion) src i (i + 1)], 1)
  else if Ascii.eqb c "=" then
    (* lexer.rs:357-375 *)
    if next_is "=" r then Ok ([tok (KOp (OpCmp CEq)) src i (i + 2)], 2)
    else Ok ([tok (KOp OpAssign) src i (i + 1)], 1)
  else if Ascii.eqb c "." then scan_op src i (if next_is "." r then 2 else 1)
  else if Ascii.eqb c ";" then Ok ([tok (KOp OpSemi) src i (i + 1)], 1)
  else if is_alpha c then scan_ident src i r
  else Err (EOp "UnmatchedSymbol").

(** lexer.rs:101-181, after the opening backtick: tokens and the offset after the template. [None]: out
    of fuel. A backtick always closes the template, also inside [${ }], so [scan_cursor_item] is never
    entered with one and templates do not nest. *)
Fixpoint scan_template (fuel : nat) (src : string) (i : nat) (rest : string) (in_expr : bool)
  (str_start : nat) (acc : list token) : option scanned :=
  match fuel with
  | O => None
  | S k =>
      match rest with
      | EmptyString =>
          let e := String.length src in
          Some (Ok (acc ++ (if negb in_expr && (str_start <? e) then [tok KLiteral src str_start e] else [])
                        ++ [Tok (KQuote QBacktick) (e, e) "`"], i))%list
      | String c r =>
          if Ascii.eqb c "`" then
            Some (Ok (acc ++ (if str_start <? i then [tok KLiteral src str_start i] else [])
                          ++ [Tok (KQuote QBacktick) (i, i + 1) "`"], i + 1))%list
          else if in_expr then
            if Ascii.eqb c "}" then
              scan_template k src (i + 1) r false (i + 1) (acc ++ [Tok KTplEnd (str_start, i) "}"])%list
            else
              match scan_char src i c r with
              | Err e => Some (Err e)
              | Ok (ts, n) => scan_template k src (i + n) (skip n rest) true str_start (acc ++ ts)%list
              end
          else if Ascii.eqb c "$" && next_is "{" r then
            scan_template k src (i + 2) (skip 1 r) true str_start
              (acc ++ [tok KLiteral src str_start i; Tok KTplStart (i, i + 2) "${"])%list
          else scan_template k src (i + 1) r false str_start acc
      end
  end.

(** lexer.rs:50-56 [scan]. *)
Fixpoint scan (fuel : nat) (src : string) (i : nat) (rest : string) (acc : list token) : option (res (list token)) :=
  match fuel with
  | O => None
  | S k =>
      match rest with
      | EmptyString => Some (Ok acc)
      | String c r =>
          if Ascii.eqb c "`" then
            match scan_template k src (i + 1) r false (i + 1) (acc ++ [Tok (KQuote QBacktick) (i, i + 1) "`"])%list with
            | None => None
            | Some (Err e) => Some (Err e)
            | Some (Ok (ts, j)) => scan k src j (skip (j - i) rest) ts
            end
          else
            match scan_char src i c r with
            | Err e => Some (Err e)
            | Ok (ts, n) => scan k src (i + n) (skip n rest) (acc ++ ts)%list
            end
      end
  end.
(** lexer.rs:22-32 [Lexer::tokenize]. *)
Definition lex (src : string) : option (res (list token)) := scan (S (String.length src)) src 0 src [].
