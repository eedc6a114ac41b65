(** Decimal numbers. Models [rust_decimal::Decimal] as used by the engine: a mantissa and a power-of-ten
    scale. External crate: only comparison, negation, truncation and integer conversion are modelled,
    and exactly; the 96-bit bound and the separate negative zero are not represented. Arithmetic that
    can round or overflow is a parameter ([ext] in Ops.v). *)
From Coq Require Import ZArith Lia Bool QArith List Arith Qfield.
From Verif Require Import Base.
Local Open Scope Z_scope.

Record dec := Dec { mant : Z; scale : nat }.

Definition pow10 (n : nat) : Z := 10 ^ Z.of_nat n.

Lemma pow10_pos : forall n, 0 < pow10 n.
Proof. intros. unfold pow10. apply Z.pow_pos_nonneg; lia. Qed.

(** [Ord]/[PartialEq] for Decimal: comparison by value, independent of scale. *)
Definition dec_cmp (a b : dec) : comparison :=
  (mant a * pow10 (scale b)) ?= (mant b * pow10 (scale a)).
Definition dec_eqb (a b : dec) : bool := match dec_cmp a b with Eq => true | _ => false end.
Definition dec_ltb (a b : dec) : bool := match dec_cmp a b with Lt => true | _ => false end.
Definition dec_leb (a b : dec) : bool := match dec_cmp a b with Gt => false | _ => true end.

Definition dec_of_Z (z : Z) : dec := Dec z 0.
Definition dec_of_nat (n : nat) : dec := Dec (Z.of_nat n) 0.
Definition dec_zero : dec := Dec 0 0.
Definition dec_one : dec := Dec 1 0.

(** [Neg for Decimal]. *)
Definition dec_neg (a : dec) : dec := Dec (- mant a) (scale a).
Definition dec_is_zero (a : dec) : bool := Z.eqb (mant a) 0.

(** [Decimal::trunc]: towards zero. *)
Definition dec_trunc (a : dec) : Z := Z.quot (mant a) (pow10 (scale a)).

(** [ToPrimitive::to_usize] (= to_u64 on 64-bit): negative or too large -> None, else truncation. *)
Definition dec_to_usize (a : dec) : option Z :=
  if mant a <? 0 then None
  else let q := dec_trunc a in if q <? 2 ^ 64 then Some q else None.
Definition dec_to_u32 (a : dec) : option Z :=
  match dec_to_usize a with
  | Some q => if q <? 2 ^ 32 then Some q else None
  | None => None
  end.
(** [ToPrimitive::to_i64]. *)
Definition dec_to_i64 (a : dec) : option Z :=
  let q := dec_trunc a in
  if (- (2 ^ 63) <=? q) && (q <? 2 ^ 63) then Some q else None.

(** [Decimal::round]: nearest integer, ties to even. *)
Definition dec_round (a : dec) : dec :=
  let p := pow10 (scale a) in
  let q := Z.div (mant a) p in
  let r := Z.modulo (mant a) p in
  match (2 * r) ?= p with
  | Lt => dec_of_Z q
  | Gt => dec_of_Z (q + 1)
  | Eq => dec_of_Z (if Z.even q then q else q + 1)
  end.

(** The rational value: the specification of comparison. *)
Definition dec_val (a : dec) : Q := Qmake (mant a) (Z.to_pos (pow10 (scale a))).

Lemma pos_pow10 : forall n, Zpos (Z.to_pos (pow10 n)) = pow10 n.
Proof. intros. apply Z2Pos.id. apply pow10_pos. Qed.

Lemma dec_cmp_val : forall a b, dec_cmp a b = Qcompare (dec_val a) (dec_val b).
Proof. intros. unfold dec_cmp, Qcompare, dec_val; cbn. now rewrite !pos_pow10. Qed.

Lemma dec_eqb_val : forall a b, dec_eqb a b = true <-> (dec_val a == dec_val b)%Q.
Proof.
  intros. unfold dec_eqb. rewrite dec_cmp_val, Qeq_alt. destruct (_ ?= _)%Q; intuition congruence.
Qed.
Lemma dec_ltb_val : forall a b, dec_ltb a b = true <-> (dec_val a < dec_val b)%Q.
Proof.
  intros. unfold dec_ltb. rewrite dec_cmp_val, Qlt_alt. destruct (_ ?= _)%Q; intuition congruence.
Qed.
Lemma dec_leb_val : forall a b, dec_leb a b = true <-> (dec_val a <= dec_val b)%Q.
Proof.
  intros. unfold dec_leb. rewrite dec_cmp_val, Qle_alt. destruct (_ ?= _)%Q; intuition congruence.
Qed.

Lemma dec_eqb_refl : forall a, dec_eqb a a = true.
Proof. intros. apply dec_eqb_val. reflexivity. Qed.
Lemma dec_eqb_sym : forall a b, dec_eqb a b = dec_eqb b a.
Proof.
  intros. apply eq_true_iff_eq. rewrite !dec_eqb_val. split; intros; now symmetry.
Qed.
Lemma dec_eqb_trans : forall a b c, dec_eqb a b = true -> dec_eqb b c = true -> dec_eqb a c = true.
Proof. intros a b c. rewrite !dec_eqb_val. intros H1 H2. now rewrite H1. Qed.

Lemma dec_leb_refl : forall a, dec_leb a a = true.
Proof. intros. apply dec_leb_val. apply Qle_refl. Qed.
Lemma dec_leb_trans : forall a b c, dec_leb a b = true -> dec_leb b c = true -> dec_leb a c = true.
Proof. intros a b c. rewrite !dec_leb_val. apply Qle_trans. Qed.
Lemma dec_leb_total : forall a b, dec_leb a b = true \/ dec_leb b a = true.
Proof.
  intros. rewrite !dec_leb_val. destruct (Qlt_le_dec (dec_val a) (dec_val b)); auto.
  left. now apply Qlt_le_weak.
Qed.
Lemma dec_leb_antisym : forall a b, dec_leb a b = true -> dec_leb b a = true -> dec_eqb a b = true.
Proof. intros a b. rewrite !dec_leb_val, dec_eqb_val. apply Qle_antisym. Qed.
Lemma dec_ltb_leb : forall a b, dec_ltb a b = negb (dec_leb b a).
Proof.
  intros. apply eq_true_iff_eq. rewrite negb_true_iff, <- not_true_iff_false, dec_ltb_val, dec_leb_val.
  split; [apply Qlt_not_le | apply Qnot_le_lt].
Qed.
Lemma dec_eqb_leb : forall a b, dec_eqb a b = dec_leb a b && dec_leb b a.
Proof.
  intros. apply eq_true_iff_eq. rewrite andb_true_iff, dec_eqb_val, !dec_leb_val. split.
  - intros H. split; rewrite H; apply Qle_refl.
  - intros []. now apply Qle_antisym.
Qed.

Lemma dec_leb_eq_l : forall a a' b, dec_eqb a a' = true -> dec_leb a b = dec_leb a' b.
Proof.
  intros a a' b H. apply dec_eqb_val in H. apply eq_true_iff_eq. rewrite !dec_leb_val. now rewrite H.
Qed.
Lemma dec_leb_eq_r : forall a b b', dec_eqb b b' = true -> dec_leb a b = dec_leb a b'.
Proof.
  intros a b b' H. apply dec_eqb_val in H. apply eq_true_iff_eq. rewrite !dec_leb_val. now rewrite H.
Qed.

Lemma dec_of_Z_val : forall z, (dec_val (dec_of_Z z) == inject_Z z)%Q.
Proof. intros. unfold dec_val, dec_of_Z, Qeq; cbn. lia. Qed.
Lemma dec_of_Z_leb : forall x y, dec_leb (dec_of_Z x) (dec_of_Z y) = (x <=? y).
Proof.
  intros. apply eq_true_iff_eq. rewrite dec_leb_val, !dec_of_Z_val, Z.leb_le.
  rewrite <- Zle_Qle. reflexivity.
Qed.
Lemma dec_of_Z_eqb : forall x y, dec_eqb (dec_of_Z x) (dec_of_Z y) = (x =? y).
Proof.
  intros. rewrite dec_eqb_leb, !dec_of_Z_leb. apply eq_true_iff_eq.
  rewrite andb_true_iff, !Z.leb_le, Z.eqb_eq. lia.
Qed.

Lemma dec_trunc_of_Z : forall z, dec_trunc (dec_of_Z z) = z.
Proof. intros. unfold dec_trunc; cbn. change (pow10 0) with 1. apply Z.quot_1_r. Qed.

Lemma dec_round_of_Z : forall z, dec_round (dec_of_Z z) = dec_of_Z z.
Proof.
  intros. unfold dec_round; cbn. change (pow10 0) with 1.
  rewrite Z.div_1_r, Z.mod_1_r. reflexivity.
Qed.

(** Element counts that the VM itself pushed ([Decimal::from(len)], then [round().to_usize()], vm.rs:740,762).
    Simplification: a count of in-memory elements always fits 64 bits, so the upper bound is dropped. *)
Definition dec_to_count (a : dec) : option nat :=
  let r := dec_round a in
  if mant r <? 0 then None else Some (Z.to_nat (dec_trunc r)).

Lemma dec_to_count_of_nat : forall n, dec_to_count (dec_of_nat n) = Some n.
Proof.
  intros. unfold dec_to_count. change (dec_of_nat n) with (dec_of_Z (Z.of_nat n)).
  rewrite dec_round_of_Z, dec_trunc_of_Z. cbn [mant dec_of_Z].
  destruct (Z.ltb_spec (Z.of_nat n) 0); [lia|]. now rewrite Nat2Z.id.
Qed.

Lemma dec_to_usize_of_nat : forall n, (Z.of_nat n < 2 ^ 64) ->
  dec_to_usize (dec_of_nat n) = Some (Z.of_nat n).
Proof.
  intros. change (dec_of_nat n) with (dec_of_Z (Z.of_nat n)).
  unfold dec_to_usize. rewrite dec_trunc_of_Z. cbn [mant dec_of_Z].
  destruct (Z.ltb_spec (Z.of_nat n) 0); [lia|].
  destruct (Z.ltb_spec (Z.of_nat n) (2^64)); [auto|lia].
Qed.
