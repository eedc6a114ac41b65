(** Values from and to JSON: core/types/src/variable/conv.rs, ser.rs and de.rs. *)
From Coq Require Import String Ascii ZArith Bool List Arith.
From Verif Require Import Base Dec Value Json Funcs.
Import ListNotations.
Local Open Scope string_scope.
Local Open Scope list_scope.
Local Open Scope Z_scope.

(** ** Numbers. The bounds of [Decimal]: a mantissa of 96 bits and at most 28 digits after the point. *)
Definition fits (m : Z) (k : nat) : bool := (Z.abs m <? 2 ^ 96) && (k <=? 28)%nat.
Definition digit_value (c : ascii) : option Z := let n := nat_of_ascii c in if (48 <=? n)%nat && (n <=? 57)%nat then Some (Z.of_nat n - 48) else None.
(** [Decimal::from_str_exact], for the texts JSON allows: too many digits are an error. *)
Fixpoint scan (s : string) (m : Z) (k : nat) (point : bool) : option dec :=
  match s with
  | EmptyString => Some (Dec m k)
  | String c r =>
      if negb point && Ascii.eqb c "." then scan r m k true
      else match digit_value c with
           | None => None
           | Some v => let m := m * 10 + v in let k := if point then S k else k in if fits m k then scan r m k point else None
           end
  end.
Definition exact (s : string) : option dec :=
  match s with
  | EmptyString => None
  | String "-" r => option_map dec_neg (scan r 0 0 false)
  | _ => scan s 0 0 false
  end.
(** [Decimal::normalize]: no zeros at the end. *)
Fixpoint strip (k : nat) (m : Z) : dec := match k with O => Dec m 0 | S j => if m mod 10 =? 0 then strip j (m / 10) else Dec m k end.
Definition normalize (d : dec) : dec := if mant d =? 0 then Dec 0 0 else strip (scale d) (mant d).
(** conv.rs:114-127, ser.rs:19-26: the text of the normalised number; without a fraction it is an integer. *)
Definition number_out (d : dec) : num := let d := normalize d in match scale d with O => NInt (mant d) | _ => NFloat (dec_to_string d) end.
(** ser.rs:27-42, without [arbitrary_precision]: [to_u64], else [to_i64], else [to_f64] (the parameter [fl]). *)
Definition plain_out (fl : dec -> num) (d : dec) : num :=
  match dec_to_usize d with Some u => NInt u | None => match dec_to_i64 d with Some i => NInt i | None => fl d end end.
(** [BTreeMap::insert]: an object of [serde_json] (without [preserve_order]) is sorted by key. *)
Fixpoint bset {V} (k : string) (v : V) (m : list (string * V)) : list (string * V) :=
  match m with
  | [] => [(k, v)]
  | (k1, v1) :: r => match String.compare k k1 with Lt => (k, v) :: m | Eq => (k, v) :: r | Gt => (k1, v1) :: bset k v r end
  end.
(** constant.rs:2. *)
Definition number_token : string := "$serde_json::private::Number".
Section Convert.
  (** [Decimal::from_scientific] and, after it, [Decimal::from_f64] (conv.rs:22-24, de.rs:104-106), for numbers that are not exact; [dj], [dt]: [to_value] and [to_string] of dynamic values. *)
  Context (sci : num -> option dec) (dj : dyn -> json) (dt : dyn -> string).
  (** conv.rs:17-25 [decimal_from_number]. *)
  Definition number_in (n : num) : option dec :=
    match match n with NInt z => if fits z 0 then Some (Dec z 0) else None | NFloat s => exact s end with Some d => Some d | None => sci n end.
  (** conv.rs:67-104 [From<Value>], [From<&Value>]. *)
  Fixpoint of_json (j : json) (h : heap) : heap * value :=
    match j with
    | JNull => (h, VNull)
    | JBool b => (h, VBool b)
    | JNum n => (h, match number_in n with Some d => VNum d | None => VNull end)
    | JStr s => (h, VStr s)
    | JArr l =>
        let (h, vs) := (fix go l h := match l with [] => (h, []) | j :: r => let (h, v) := of_json j h in let (h, vs) := go r h in (h, v :: vs) end) l h in
        new_arr h vs
    | JObj m =>
        let (h, o) := (fix go m (o : amap value) h := match m with [] => (h, o) | (k, j) :: r => let (h, v) := of_json j h in go r (aset k v o) h end) m [] h in
        new_obj h o
    end.
  (** conv.rs:40-65 [try_from_value]. *)
  Fixpoint try_json (j : json) (h : heap) : heap * res value :=
    match j with
    | JNull => (h, Ok VNull)
    | JBool b => (h, Ok (VBool b))
    | JNum n => (h, match number_in n with Some d => Ok (VNum d) | None => Err (EOp "NumberOutOfRange") end)
    | JStr s => (h, Ok (VStr s))
    | JArr l =>
        match (fix go l h := match l with
                             | [] => (h, Ok [])
                             | j :: r => match try_json j h with
                                         | (h, Ok v) => match go r h with (h, Ok vs) => (h, Ok (v :: vs)) | (h, Err e) => (h, Err e) end
                                         | (h, Err e) => (h, Err e)
                                         end
                             end) l h with
        | (h, Ok vs) => let (h, v) := new_arr h vs in (h, Ok v)
        | (h, Err e) => (h, Err e)
        end
    | JObj m =>
        match (fix go m (o : amap value) h := match m with
                             | [] => (h, Ok o)
                             | (k, j) :: r => match try_json j h with (h, Ok v) => go r (aset k v o) h | (h, Err e) => (h, Err e) end
                             end) m [] h with
        | (h, Ok o) => let (h, v) := new_obj h o in (h, Ok v)
        | (h, Err e) => (h, Err e)
        end
    end.
  (** de.rs:18-122, from the text of a document: a key may occur again. [serde_json] gives a number as an object with one entry, the token and the text (de.rs:95-111). *)
  Fixpoint read_json (j : json) (h : heap) : heap * res value :=
    match j with
    | JNull => (h, Ok VNull)
    | JBool b => (h, Ok (VBool b))
    | JNum n => (h, match number_in n with Some d => Ok (VNum d) | None => Err (EOp "number out of range") end)
    | JStr s => (h, Ok (VStr s))
    | JArr l =>
        match (fix go l h := match l with
                             | [] => (h, Ok [])
                             | j :: r => match read_json j h with
                                         | (h, Ok v) => match go r h with (h, Ok vs) => (h, Ok (v :: vs)) | (h, Err e) => (h, Err e) end
                                         | (h, Err e) => (h, Err e)
                                         end
                             end) l h with
        | (h, Ok vs) => let (h, v) := new_arr h vs in (h, Ok v)
        | (h, Err e) => (h, Err e)
        end
    | JObj m =>
        match (fix go m (o : amap value) (first : bool) h := match m with
                             | [] => let (h, v) := new_obj h o in (h, Ok v)
                             | (k, j) :: r =>
                                 match read_json j h with
                                 | (h, Ok v) =>
                                     if first && String.eqb k number_token then
                                       (h, match v with
                                           | VStr s => match number_in (NFloat s) with Some d => Ok (VNum d) | None => Err (EOp "number out of range") end
                                           | _ => Err (EOp "failed to deserialize number")
                                           end)
                                     else go r (aset k v o) false h
                                 | (h, Err e) => (h, Err e)
                                 end
                             end) m [] true h with
        | r => r
        end
    end.
  (** conv.rs:151-196 [From<Variable> for Value]. A cyclic value does not stop: [None] when the fuel runs out. *)
  Fixpoint to_json (n : nat) (h : heap) (v : value) : option json :=
    match n with
    | O => None
    | S n =>
        match v with
        | VNull => Some JNull
        | VBool b => Some (JBool b)
        | VNum d => Some (JNum (number_out d))
        | VStr s => Some (JStr s)
        | VDyn d => Some (dj d)
        | VArr l =>
            match harr h l with
            | None => None
            | Some a =>
                option_map JArr ((fix go a := match a with [] => Some [] | x :: r => match to_json n h x, go r with Some j, Some js => Some (j :: js) | _, _ => None end end) a)
            end
        | VObj l =>
            match hobj h l with
            | None => None
            | Some m =>
                option_map JObj ((fix go m (o : list (string * json)) := match m with [] => Some o | (k, x) :: r => match to_json n h x with Some j => go r (bset k j o) | None => None end end) m [])
            end
        end
    end.
  (** ser.rs:11-57 [Serialize]: the document written; [out] is the text of a number. *)
  Fixpoint write_json (out : dec -> num) (n : nat) (h : heap) (v : value) : option json :=
    match n with
    | O => None
    | S n =>
        match v with
        | VNull => Some JNull
        | VBool b => Some (JBool b)
        | VNum d => Some (JNum (out d))
        | VStr s => Some (JStr s)
        | VDyn d => Some (JStr (dt d))
        | VArr l =>
            match harr h l with
            | None => None
            | Some a =>
                option_map JArr ((fix go a := match a with [] => Some [] | x :: r => match write_json out n h x, go r with Some j, Some js => Some (j :: js) | _, _ => None end end) a)
            end
        | VObj l =>
            match hobj h l with
            | None => None
            | Some m =>
                option_map JObj ((fix go m := match m with [] => Some [] | (k, x) :: r => match write_json out n h x, go r with Some j, Some js => Some ((k, j) :: js) | _, _ => None end end) m)
            end
        end
    end.
End Convert.
