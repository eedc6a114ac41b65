(** Built-in functions. Models core/expression/src/functions/internal.rs (module [imp]) and the
    argument accessors of functions/arguments.rs. Error texts are dropped. *)
From Coq Require Import String Ascii ZArith Lia Bool List Arith.
From Verif Require Import Base Dec Value Heap Ast Ops.
Import ListNotations.
Local Open Scope nat_scope.

(** Library calls that are parameters: decimal arithmetic that may round or overflow, Unicode case and
    white space, regular expressions, string similarity, randomness, number parsing, dates, and the
    deprecated functions and date methods. None of them can reach the heap: they take and return plain
    data. *)
Record lib := Lib {
  l_add : dec -> dec -> option dec;
  l_sub : dec -> dec -> option dec;
  l_mul : dec -> dec -> option dec;
  l_div : dec -> dec -> option dec;
  l_rem : dec -> dec -> option dec;
  l_pow : dec -> dec -> option dec;
  l_upper : string -> string;
  l_lower : string -> string;
  l_trim : string -> string;
  l_matches : string -> string -> option bool;            (* None: invalid pattern *)
  l_captures : string -> string -> option (list string);  (* None: invalid pattern *)
  l_similarity : string -> string -> dec;
  l_rand : Z -> option dec;                                (* None: panic on an empty range *)
  l_parse : string -> option dec;
  l_date : list value -> res vmdate;
  l_deprecated : string -> list value -> res value;
  l_method : mkind -> list value -> res value;
  l_marity : mkind -> option (nat * nat)
}.

(** ** Arguments (functions/arguments.rs:16-110) *)
Definition arg (args : list value) (i : nat) : res value :=
  of_option (nth_error args i) (EOp "argument").
Definition arg_str (args : list value) (i : nat) : res string :=
  match nth_error args i with Some (VStr s) => Ok s | _ => Err (EOp "argument") end.
Definition arg_num (args : list value) (i : nat) : res dec :=
  match nth_error args i with Some (VNum d) => Ok d | _ => Err (EOp "argument") end.
Definition arg_onum (args : list value) (i : nat) : res (option dec) :=
  match nth_error args i with
  | Some (VNum d) => Ok (Some d)
  | Some _ => Err (EOp "argument")
  | None => Ok None
  end.
Definition arg_arr (h : heap) (args : list value) (i : nat) : res (list value) :=
  match nth_error args i with
  | Some (VArr l) => of_option (harr h l) (EOp "argument")
  | _ => Err (EOp "argument")
  end.
Definition arg_obj (h : heap) (args : list value) (i : nat) : res (amap value) :=
  match nth_error args i with
  | Some (VObj l) => of_option (hobj h l) (EOp "argument")
  | _ => Err (EOp "argument")
  end.

(** internal.rs:345-353 [__internal_number_array]. *)
Fixpoint all_nums (l : list value) : option (list dec) :=
  match l with
  | [] => Some []
  | VNum d :: r => option_map (cons d) (all_nums r)
  | _ => None
  end.
Fixpoint all_dates (l : list value) : option (list vmdate) :=
  match l with
  | [] => Some []
  | VDyn (DDate d) :: r => option_map (cons d) (all_dates r)
  | _ => None
  end.
Definition arg_nums (h : heap) (args : list value) (i : nat) : res (list dec) :=
  do a <- arg_arr h args i; of_option (all_nums a) (EOp "Expected a number array").

(** internal.rs:360-385 [__internal_number_or_date_array]: the first element decides. *)
Definition arg_nums_or_dates (h : heap) (args : list value) (i : nat)
  : res (list dec + list vmdate) :=
  do a <- arg_arr h args i;
  match a with
  | VNum _ :: _ => do ns <- of_option (all_nums a) (EOp "Expected a number array"); Ok (inl ns)
  | _ => do ds <- of_option (all_dates a) (EOp "Expected a number array"); Ok (inr ds)
  end.

(** ** Strings *)

(** internal.rs:387-399: [str::starts_with], [str::ends_with]. *)
Definition starts_with (a b : string) : bool := String.prefix b a.
Definition ends_with (a b : string) : bool :=
  (String.length b <=? String.length a) &&
  String.eqb (substring (String.length a - String.length b) (String.length b) a) b.
(** [str::contains(&str)]. *)
Fixpoint str_contains (a b : string) : bool :=
  String.prefix b a || match a with EmptyString => false | String _ r => str_contains r b end.

Fixpoint sdrop (n : nat) (s : string) : string :=
  match n, s with
  | O, _ => s
  | S k, String _ r => sdrop k r
  | S _, EmptyString => EmptyString
  end.

(** [str::split(&str)] with a non-empty separator, scanning left to right; [skip] bytes belong to a
    separator already found. *)
Fixpoint split_str (sep : string) (skip : nat) (s : string) : list string :=
  match s with
  | EmptyString => [EmptyString]
  | String a r =>
      match skip with
      | S k => split_str sep k r
      | O =>
          if String.prefix sep s
          then EmptyString :: split_str sep (String.length sep - 1) r
          else match split_str sep 0 r with
               | [] => [String a EmptyString]
               | x :: t => String a x :: t
               end
      end
  end.
(** The characters of a UTF-8 string: a new one starts at every non-continuation byte. *)
Fixpoint chars (s : string) : list string :=
  match s with
  | EmptyString => []
  | String a r =>
      match chars r with
      | String b x :: t =>
          if is_cont_byte b then String a (String b x) :: t else String a EmptyString :: String b x :: t
      | l => String a EmptyString :: l
      end
  end.
(** internal.rs:444-455 [split]; an empty separator matches at every character boundary. *)
Definition str_split (a b : string) : list string :=
  match b with
  | EmptyString => EmptyString :: chars a ++ [EmptyString]
  | _ => split_str b 0 a
  end.

(** ** Numbers *)

(** [Decimal::abs], [ceil], [floor]. *)
Definition dec_abs (a : dec) : dec := Dec (Z.abs (mant a)) (scale a).
Definition dec_floor (a : dec) : dec := dec_of_Z (Z.div (mant a) (pow10 (scale a))).
Definition dec_ceil (a : dec) : dec := dec_of_Z (- Z.div (- mant a) (pow10 (scale a))).
(** [Decimal::round_dp_with_strategy(dp, MidpointAwayFromZero)]. *)
Definition dec_round_dp (a : dec) (dp : nat) : dec :=
  if scale a <=? dp then a
  else
    let p := pow10 (scale a - dp) in
    let q := ((2 * Z.abs (mant a) + p) / (2 * p))%Z in
    Dec (Z.sgn (mant a) * q) dp.
(** [Decimal::trunc_with_scale(dp)]. *)
Definition dec_trunc_dp (a : dec) (dp : nat) : dec :=
  if scale a <=? dp then a else Dec (Z.quot (mant a) (pow10 (scale a - dp))) dp.

(** [Iterator::min] / [max] on decimals: the first of the least, the last of the greatest. *)
Fixpoint min_by {A} (cmp : A -> A -> comparison) (x : A) (l : list A) : A :=
  match l with
  | [] => x
  | y :: r => min_by cmp (match cmp y x with Lt => y | _ => x end) r
  end.
Fixpoint max_by {A} (cmp : A -> A -> comparison) (x : A) (l : list A) : A :=
  match l with
  | [] => x
  | y :: r => max_by cmp (match cmp y x with Lt => x | _ => y end) r
  end.

(** [slice::sort]: a stable sort; the result of a stable sort does not depend on the algorithm. *)
Fixpoint insert_sorted (x : dec) (l : list dec) : list dec :=
  match l with
  | [] => [x]
  | y :: r => if dec_leb x y then x :: l else y :: insert_sorted x r
  end.
Fixpoint sort_decs (l : list dec) : list dec :=
  match l with [] => [] | x :: r => insert_sorted x (sort_decs r) end.

(** The [BTreeMap] of counts in [mode] (internal.rs:709-713): sorted by number, one entry per value. *)
Fixpoint bump (x : dec) (m : list (dec * nat)) : list (dec * nat) :=
  match m with
  | [] => [(x, 1)]
  | (y, c) :: r =>
      match dec_cmp x y with
      | Lt => (x, 1) :: m
      | Eq => (y, S c) :: r
      | Gt => (y, c) :: bump x r
      end
  end.
Definition count_decs (l : list dec) : list (dec * nat) := fold_left (fun m x => bump x m) l [].

(** Decimal's [Display]: sign, integer part, and exactly [scale] fractional digits. *)
Definition digit (n : Z) : ascii := ascii_of_nat (48 + Z.to_nat n).
Fixpoint digits (fuel : nat) (n : Z) (acc : string) : string :=
  match fuel with
  | O => acc
  | S k => let acc' := String (digit (n mod 10)) acc in
           if (n / 10 =? 0)%Z then acc' else digits k (n / 10) acc'
  end.
Definition z_to_string (n : Z) : string := digits (S (Z.to_nat (Z.log2 n))) n EmptyString.
Fixpoint frac_digits (k : nat) (n : Z) (acc : string) : string :=
  match k with
  | O => acc
  | S j => frac_digits j (n / 10) (String (digit (n mod 10)) acc)
  end.
Definition dec_to_string (a : dec) : string :=
  let m := Z.abs (mant a) in
  let p := pow10 (scale a) in
  ((if (mant a <? 0)%Z then "-" else "") ++ z_to_string (m / p) ++
   (match scale a with O => "" | _ => String dot_char (frac_digits (scale a) (m mod p) EmptyString) end))%string.

(** variable/mod.rs:167-177 [type_name]; vm/date/mod.rs:21-23, vm/interval.rs:21-23. *)
Definition type_name (v : value) : string :=
  match v with
  | VNull => "null" | VBool _ => "bool" | VNum _ => "number" | VStr _ => "string"
  | VArr _ => "array" | VObj _ => "object"
  | VDyn (DDate _) => "date" | VDyn (DInterval _) => "interval"
  end.

(** ** Merging functions *)

(** internal.rs:476-537 [merge]: shallow; the first item that is not null decides the kind. *)
Fixpoint merge_arrays (h : heap) (items : list value) : res (list value) :=
  match items with
  | [] => Ok []
  | VArr l :: r =>
      match harr h l with
      | Some a => do t <- merge_arrays h r; Ok (a ++ t)
      | None => Err (EOp "merge")
      end
  | VNull :: r => merge_arrays h r
  | _ => Err (EOp "merge")
  end.
Definition insert_all {V} (src : amap V) (dst : amap V) : amap V :=
  fold_left (fun m kv => aset (fst kv) (snd kv) m) src dst.
Fixpoint merge_objects (h : heap) (items : list value) (acc : amap value) : res (amap value) :=
  match items with
  | [] => Ok acc
  | VObj l :: r =>
      match hobj h l with
      | Some m => merge_objects h r (insert_all m acc)
      | None => Err (EOp "merge")
      end
  | VNull :: r => merge_objects h r acc
  | _ => Err (EOp "merge")
  end.
Definition first_non_null (items : list value) : option value :=
  find (fun v => match v with VNull => false | _ => true end) items.
Definition f_merge (h : heap) (items : list value) : heap * res value :=
  match first_non_null items with
  | None => let (h1, v) := new_obj h [] in (h1, Ok v)
  | Some (VArr _) =>
      match merge_arrays h items with
      | Ok a => let (h1, v) := new_arr h a in (h1, Ok v)
      | Err e => (h, Err e)
      end
  | Some (VObj _) =>
      match merge_objects h items [] with
      | Ok m => let (h1, v) := new_obj h m in (h1, Ok v)
      | Err e => (h, Err e)
      end
  | Some _ => (h, Err (EOp "merge"))
  end.

(** internal.rs:556-585 [deep_merge_variables]. Fuel: Rust recurses without bound and overflows the
    stack on a cyclic value; here that is [EPanic]. *)
Fixpoint deep_merge (fuel : nat) (h : heap) (base patch : value) : heap * res value :=
  match fuel with
  | O => (h, Err (EPanic "stack overflow"))
  | S n =>
      match base, patch with
      | VObj la, VObj lb =>
          match hobj h la, hobj h lb with
          | Some a, Some b =>
              match (fix go h m b := match b with
                     | [] => (h, Ok m)
                     | (k, x) :: r =>
                         match aget k m with
                         | None => go h (aset k x m) r
                         | Some e =>
                             match deep_merge n h e x with
                             | (h1, Ok y) => go h1 (aset k y m) r
                             | (h1, Err e) => (h1, Err e)
                             end
                         end
                     end) h (insert_all a []) b with
              | (h1, Ok m) => let (h2, v) := new_obj h1 m in (h2, Ok v)
              | (h1, Err e) => (h1, Err e)
              end
          | _, _ => (h, Err (EOp "mergeDeep"))
          end
      | VArr la, VArr lb =>
          match harr h la, harr h lb with
          | Some a, Some b => let (h1, v) := new_arr h (a ++ b) in (h1, Ok v)
          | _, _ => (h, Err (EOp "mergeDeep"))
          end
      | _, _ => (h, Ok patch)
      end
  end.
(** internal.rs:539-554 [merge_deep]. *)
Fixpoint merge_deep_items (fuel : nat) (h : heap) (acc : value) (items : list value)
  : heap * res value :=
  match items with
  | [] => (h, Ok acc)
  | VObj l :: r =>
      match deep_merge fuel h acc (VObj l) with
      | (h1, Ok v) => merge_deep_items fuel h1 v r
      | (h1, Err e) => (h1, Err e)
      end
  | VNull :: r => merge_deep_items fuel h acc r
  | _ => (h, Err (EOp "mergeDeep"))
  end.
Definition f_merge_deep (h : heap) (items : list value) : heap * res value :=
  let (h1, o) := new_obj h [] in
  merge_deep_items (S (S (length h))) h1 o items.

(** internal.rs:808-837 [contains]. *)
Definition same_scalar (a b : value) : bool :=
  match a, b with
  | VNum x, VNum y => dec_eqb x y
  | VStr x, VStr y => String.eqb x y
  | VBool x, VBool y => Bool.eqb x y
  | VNull, VNull => true
  | _, _ => false
  end.

Section WithLib.
  Variable L : lib.

  (** [try_fold(Decimal::ZERO, checked_add)] (internal.rs:666-669,681-684). *)
  Fixpoint sum_from (acc : dec) (l : list dec) : option dec :=
    match l with
    | [] => Some acc
    | x :: r => match l_add L acc x with Some s => sum_from s r | None => None end
    end.
  Definition f_sum (l : list dec) : res dec := of_option (sum_from dec_zero l) (EOp "Number overflow").
  (** internal.rs:663-676 [avg]. *)
  Definition f_avg (l : list dec) : res dec :=
    do s <- f_sum l; of_option (l_div L s (dec_of_nat (length l))) (EOp "Empty array").
  (** internal.rs:637-661. *)
  Definition f_min {A} (cmp : A -> A -> comparison) (l : list A) : res A :=
    match l with [] => Err (EOp "Empty array") | x :: r => Ok (min_by cmp x r) end.
  Definition f_max {A} (cmp : A -> A -> comparison) (l : list A) : res A :=
    match l with [] => Err (EOp "Empty array") | x :: r => Ok (max_by cmp x r) end.
  (** internal.rs:689-707 [median]; [center - 1] underflows on an empty array, and [/ dec!(2)] panics
      where the checked division fails. *)
  Definition f_median (l : list dec) : res dec :=
    let a := sort_decs l in
    let center := length a / 2 in
    if Nat.eqb (length a mod 2) 1 then of_option (nth_error a center) (EOp "Index out of bounds")
    else match center with
         | O => Err (EPanic "attempt to subtract with overflow")
         | S c =>
             do x <- of_option (nth_error a c) (EOp "Index out of bounds");
             do y <- of_option (nth_error a center) (EOp "Index out of bounds");
             do s <- of_option (l_add L x y) (EOp "Number overflow");
             of_option (l_div L s (dec_of_Z 2)) (EPanic "division")
         end.
  (** internal.rs:709-724 [mode]: [max_by_key] keeps the last of the most frequent. *)
  Definition f_mode (l : list dec) : res dec :=
    match count_decs l with
    | [] => Err (EOp "Empty array")
    | x :: r => Ok (fst (max_by (fun a b => Nat.compare (snd a) (snd b)) x r))
    end.

  (** internal.rs:731-745 [to_bool]. *)
  Definition f_bool (v : value) : bool :=
    match v with
    | VNull => false
    | VBool b => b
    | VNum d => negb (dec_is_zero d)
    | VArr _ | VObj _ | VDyn _ => true
    | VStr s =>
        let t := l_trim L s in
        if String.eqb t "true" then true
        else if String.eqb t "false" then false
        else String.eqb s ""
    end.
  (** internal.rs:747-758 [to_string]. *)
  Definition f_string (v : value) : res string :=
    match v with
    | VNull => Ok "null"%string
    | VBool b => Ok (if b then "true" else "false")%string
    | VNum d => Ok (dec_to_string d)
    | VStr s => Ok s
    | _ => Err (EOp "string")
    end.
  (** internal.rs:760-790. *)
  Definition f_number (v : value) : res dec :=
    match v with
    | VNum d => Ok d
    | VStr s => of_option (l_parse L (l_trim L s)) (EOp "Invalid number")
    | VBool b => Ok (if b then dec_one else dec_zero)
    | _ => Err (EOp "number")
    end.
  Definition f_is_numeric (v : value) : bool :=
    match v with
    | VNum _ => true
    | VStr s => match l_parse L (l_trim L s) with Some _ => true | None => false end
    | _ => false
    end.
  Definition f_contains (h : heap) (a b : value) : res bool :=
    match a, b with
    | VStr x, VStr y => Ok (str_contains x y)
    | VArr l, _ => match harr h l with
                   | Some arr => Ok (existsb (fun e => same_scalar e b) arr)
                   | None => Err (EOp "contains")
                   end
    | _, _ => Err (EOp "contains")
    end.
  (** internal.rs:839-871 [fuzzy_match]. *)
  Definition f_fuzzy (h : heap) (a : value) (b : string) : heap * res value :=
    match a with
    | VStr s => (h, Ok (VNum (l_similarity L s b)))
    | VArr l =>
        match harr h l with
        | Some arr =>
            match all_strs arr with
            | Some ss => let (h1, v) := new_arr h (map (fun s => VNum (l_similarity L s b)) ss) in (h1, Ok v)
            | None => (h, Err (EOp "Expected string array"))
            end
        | None => (h, Err (EOp "fuzzyMatch"))
        end
    | _ => (h, Err (EOp "fuzzyMatch"))
    end.

  (** Number of decimal places of [round] and [trunc] (internal.rs:602-628). Simplification: more than
      1000 places behave like 1000 (a Decimal has at most 28). *)
  Definition arg_places (args : list value) : res nat :=
    do o <- arg_onum args 1;
    match o with
    | None => Ok 0
    | Some d => do u <- of_option (dec_to_u32 d) (EOp "Invalid number of decimal places");
                Ok (Z.to_nat (Z.min u 1000))
    end.

  Definition pure (h : heap) (r : res value) : heap * res value := (h, r).
  Definition ret_arr (h : heap) (r : res (list value)) : heap * res value :=
    match r with
    | Ok a => let (h1, v) := new_arr h a in (h1, Ok v)
    | Err e => (h, Err e)
    end.

  (** Dispatch: internal.rs:53-330 pairs every function with its implementation. *)
  Definition call_internal (f : ifun) (args : list value) (h : heap) : heap * res value :=
    match f with
    | FLen => pure h (do a <- arg args 0; op_len h a)
    | FContains => pure h (do a <- arg args 0; do b <- arg args 1; do r <- f_contains h a b; Ok (VBool r))
    | FFlatten => ret_arr h (do a <- arg_arr h args 0; Ok (flatten1 h a))
    | FMerge => match arg_arr h args 0 with Ok a => f_merge h a | Err e => (h, Err e) end
    | FMergeDeep => match arg_arr h args 0 with Ok a => f_merge_deep h a | Err e => (h, Err e) end
    | FUpper => pure h (do a <- arg_str args 0; Ok (VStr (l_upper L a)))
    | FLower => pure h (do a <- arg_str args 0; Ok (VStr (l_lower L a)))
    | FTrim => pure h (do a <- arg_str args 0; Ok (VStr (l_trim L a)))
    | FStartsWith => pure h (do a <- arg_str args 0; do b <- arg_str args 1; Ok (VBool (starts_with a b)))
    | FEndsWith => pure h (do a <- arg_str args 0; do b <- arg_str args 1; Ok (VBool (ends_with a b)))
    | FMatches =>
        pure h (do a <- arg_str args 0; do b <- arg_str args 1;
                do r <- of_option (l_matches L a b) (EOp "Invalid regular expression"); Ok (VBool r))
    | FExtract =>
        ret_arr h (do a <- arg_str args 0; do b <- arg_str args 1;
                   do r <- of_option (l_captures L a b) (EOp "Invalid regular expression");
                   Ok (map VStr r))
    | FFuzzyMatch =>
        match (do a <- arg args 0; do b <- arg_str args 1; Ok (a, b)) with
        | Ok (a, b) => f_fuzzy h a b
        | Err e => (h, Err e)
        end
    | FSplit => ret_arr h (do a <- arg_str args 0; do b <- arg_str args 1; Ok (map VStr (str_split a b)))
    | FAbs => pure h (do a <- arg_num args 0; Ok (VNum (dec_abs a)))
    | FSum => pure h (do a <- arg_nums h args 0; do r <- f_sum a; Ok (VNum r))
    | FAvg => pure h (do a <- arg_nums h args 0; do r <- f_avg a; Ok (VNum r))
    | FMin =>
        pure h (do a <- arg_nums_or_dates h args 0;
                match a with
                | inl ns => do r <- f_min dec_cmp ns; Ok (VNum r)
                | inr ds => do r <- f_min vmdate_cmp ds; Ok (VDyn (DDate r))
                end)
    | FMax =>
        pure h (do a <- arg_nums_or_dates h args 0;
                match a with
                | inl ns => do r <- f_max dec_cmp ns; Ok (VNum r)
                | inr ds => do r <- f_max vmdate_cmp ds; Ok (VDyn (DDate r))
                end)
    | FRand =>
        pure h (do a <- arg_num args 0;
                do u <- of_option (dec_to_i64 (dec_round a)) (EOp "Invalid upper range");
                do r <- of_option (l_rand L u) (EPanic "empty range"); Ok (VNum r))
    | FMedian => pure h (do a <- arg_nums h args 0; do r <- f_median a; Ok (VNum r))
    | FMode => pure h (do a <- arg_nums h args 0; do r <- f_mode a; Ok (VNum r))
    | FFloor => pure h (do a <- arg_num args 0; Ok (VNum (dec_floor a)))
    | FCeil => pure h (do a <- arg_num args 0; Ok (VNum (dec_ceil a)))
    | FRound => pure h (do a <- arg_num args 0; do p <- arg_places args; Ok (VNum (dec_round_dp a p)))
    | FTrunc => pure h (do a <- arg_num args 0; do p <- arg_places args; Ok (VNum (dec_trunc_dp a p)))
    | FIsNumeric => pure h (do a <- arg args 0; Ok (VBool (f_is_numeric a)))
    | FString => pure h (do a <- arg args 0; do s <- f_string a; Ok (VStr s))
    | FNumber => pure h (do a <- arg args 0; do d <- f_number a; Ok (VNum d))
    | FBool => pure h (do a <- arg args 0; Ok (VBool (f_bool a)))
    | FType => pure h (do a <- arg args 0; Ok (VStr (type_name a)))
    | FKeys =>
        ret_arr h (do a <- arg args 0;
                   match a with
                   | VArr l => do arr <- of_option (harr h l) (EOp "keys");
                               Ok (map (fun i => VNum (dec_of_nat i)) (seq 0 (length arr)))
                   | VObj l => do m <- of_option (hobj h l) (EOp "keys"); Ok (map VStr (akeys m))
                   | _ => Err (EOp "keys")
                   end)
    | FValues => ret_arr h (do m <- arg_obj h args 0; Ok (map snd m))
    | FDate => pure h (do d <- l_date L args; Ok (VDyn (DDate d)))
    end.

  (** internal.rs:53-330, deprecated.rs:30-111: required and maximal argument counts. *)
  Definition internal_arity (f : ifun) : nat * nat :=
    match f with
    | FContains | FStartsWith | FEndsWith | FMatches | FExtract | FSplit | FFuzzyMatch => (2, 2)
    | FRound | FTrunc => (1, 2)
    | FDate => (0, 2)
    | _ => (1, 1)
    end.
  Definition deprecated_arity (name : string) : option (nat * nat) :=
    if existsb (String.eqb name)
         ["date"; "time"; "duration"; "year"; "dayOfWeek"; "dayOfMonth"; "dayOfYear"; "weekOfYear";
          "monthOfYear"; "monthString"; "dateString"; "weekdayString"]%string then Some (1, 1)
    else if existsb (String.eqb name) ["startOf"; "endOf"]%string then Some (2, 2)
    else None.

  (** The engine's function registry (functions/registry.rs) over these implementations. Closure
      functions are compiled, not registered. *)
  Definition std_ext : ext := {|
    x_add := l_add L; x_sub := l_sub L; x_mul := l_mul L; x_div := l_div L; x_rem := l_rem L;
    x_pow := l_pow L;
    x_arity := fun k => match k with
                        | FInternal f => Some (internal_arity f)
                        | FDeprecated n => deprecated_arity n
                        | FClosure _ => None
                        end;
    x_marity := l_marity L;
    x_call := fun k args h => match k with
                              | FInternal f => call_internal f args h
                              | FDeprecated n => (h, l_deprecated L n args)
                              | FClosure _ => (h, Err (EOp "CallFunction"))
                              end;
    x_method := fun k args h => (h, l_method L k args)
  |}.
End WithLib.

(** A concrete library for examples: exact decimal arithmetic, ASCII text, no regular expressions,
    dates or methods. *)
Definition dec_add (a b : dec) : dec :=
  let s := Nat.max (scale a) (scale b) in
  Dec (mant a * pow10 (s - scale a) + mant b * pow10 (s - scale b))%Z s.
Definition dec_mul (a b : dec) : dec := Dec (mant a * mant b)%Z (scale a + scale b).
Definition dec_div (a b : dec) : option dec :=
  if dec_is_zero b then None
  else let n := (mant a * pow10 (scale b) * pow10 6)%Z in
       let d := (mant b * pow10 (scale a))%Z in
       Some (if (n mod (d * pow10 6) =? 0)%Z then dec_of_Z (n / (d * pow10 6)) else Dec (Z.quot n d) 6).
Fixpoint map_chars (f : ascii -> ascii) (s : string) : string :=
  match s with EmptyString => EmptyString | String a r => String (f a) (map_chars f r) end.
Definition up (a : ascii) : ascii :=
  let n := nat_of_ascii a in if (97 <=? n) && (n <=? 122) then ascii_of_nat (n - 32) else a.
Definition low (a : ascii) : ascii :=
  let n := nat_of_ascii a in if (65 <=? n) && (n <=? 90) then ascii_of_nat (n + 32) else a.
Definition demo_lib : lib := {|
  l_add := fun a b => Some (dec_add a b);
  l_sub := fun a b => Some (dec_add a (dec_neg b));
  l_mul := fun a b => Some (dec_mul a b);
  l_div := dec_div;
  l_rem := fun a b => None;
  l_pow := fun a b => None;
  l_upper := map_chars up; l_lower := map_chars low; l_trim := fun s => s;
  l_matches := fun _ _ => None; l_captures := fun _ _ => None;
  l_similarity := fun _ _ => dec_zero;
  l_rand := fun n => if (n <? 0)%Z then None else Some dec_zero;
  l_parse := fun _ => None;
  l_date := fun _ => Err (EOp "date");
  l_deprecated := fun _ _ => Err (EOp "deprecated");
  l_method := fun _ _ => Err (EOp "method");
  l_marity := fun _ => None
|}.
Definition demo : ext := std_ext demo_lib.
