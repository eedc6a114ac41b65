From Coq Require Import String Ascii ZArith QArith Qabs Lia Bool List Arith Lqa.
From Verif Require Import Base Dec Value Heap Ast Ops Compiler Vm Eval CompilerFacts Funcs HeapSpec HeapFacts TreeFacts PureFacts ContentFacts RunSpec OpFacts FnSpec.
Import ListNotations.
Local Open Scope string_scope.
Local Open Scope list_scope.
Local Open Scope nat_scope.

(** ** Calls *)
Lemma arguments_seq : forall X root ns h vs h2, arguments X root ns h vs h2 ->
  eval_seq (eval X root [] []) ns root h = ORet vs root h2 /\ (exists c, rconcat (cgen X []) ns = Ok c) /\ length ns = length vs.
Proof.
  intros X root ns h vs h2 H. induction H as [h|n ns v vs h h1 h2 N Y A IH].
  - split; [reflexivity|]. split; [eexists; reflexivity|reflexivity].
  - destruct IH as (E & (c & C) & Ln).
    assert (U : forall f (n : node) l, eval_seq f (n :: l) root h = Eval.obind (f n root h) (fun v env h0 =>
      Eval.obind (eval_seq f l env h0) (fun vs env h0 => ORet (A := list value) (v :: vs) env h0))) by reflexivity.
    rewrite U, (yields_eval _ _ _ _ _ _ N Y). cbn [Eval.obind]. rewrite E. split; [reflexivity|]. split; [|cbn; congruence].
    destruct (yields_compiles _ _ _ _ _ _ Y) as [k K]. rewrite compile_cgen in K. cbn. rewrite K, C. cbn. eexists. reflexivity.
Qed.
Lemma call_ok : forall L f vs h2 r h3, arity_ok (internal_arity f) (length vs) = true ->
  call_internal L f vs h2 = (h3, r) -> call_gives L f vs h2 (match r with Err (EPanic w) => Err (EPanic w) | Err _ => Err (EOp "CallFunction") | _ => r end) h3.
Proof.
  intros L f vs h2 r h3 Ar C ns root h A. destruct (arguments_seq _ _ _ _ _ _ A) as (E & (c & K) & Ln).
  apply yields_iff. split.
  - unfold compiles. setoid_rewrite compile_cgen. cbn [cgen x_arity std_ext]. rewrite Ln, Ar, K. cbn. eexists. reflexivity.
  - unfold evaluate. cbn [eval]. rewrite E. cbn [Eval.obind]. unfold op_call, hlift. cbn [x_call std_ext]. rewrite C. destruct r as [v|[]]; reflexivity.
Qed.

(** ** Numbers *)
Definition F (a : Z) (s : nat) : Q := Qmake a (Z.to_pos (pow10 s)).
Lemma F_le : forall a b s, (F a s <= F b s)%Q <-> (a <= b)%Z.
Proof. intros. unfold F, Qle. cbn. rewrite pos_pow10. pose proof (pow10_pos s). nia. Qed.
Lemma F_lt : forall a b s, (F a s < F b s)%Q <-> (a < b)%Z.
Proof. intros. unfold F, Qlt. cbn. rewrite pos_pow10. pose proof (pow10_pos s). nia. Qed.
Lemma F_eq : forall a b s, (F a s == F b s)%Q <-> a = b.
Proof. intros. unfold F, Qeq. cbn. rewrite pos_pow10. pose proof (pow10_pos s). nia. Qed.
Lemma F_sub : forall a b s, (F a s - F b s == F (a - b) s)%Q.
Proof. intros. unfold F, Qeq, Qminus, Qplus, Qopp. cbn. rewrite Pos2Z.inj_mul, pos_pow10. ring. Qed.
Lemma F_mul : forall a k s, (F a s * inject_Z k == F (a * k) s)%Q.
Proof. intros. unfold F, Qeq, Qmult. cbn. rewrite Pos2Z.inj_mul, pos_pow10. ring. Qed.
Lemma F_abs : forall a s, (Qabs (F a s) == F (Z.abs a) s)%Q.
Proof. intros. reflexivity. Qed.
Lemma pow10_split : forall a b, pow10 (a + b) = (pow10 a * pow10 b)%Z.
Proof. intros. unfold pow10. rewrite Nat2Z.inj_add. apply Z.pow_add_r; lia. Qed.
Lemma F_scale : forall a d s, d <= s -> (F a d == F (a * pow10 (s - d)) s)%Q.
Proof.
  intros a d s H. unfold F, Qeq. cbn. rewrite !pos_pow10. replace (pow10 s) with (pow10 (s - d) * pow10 d)%Z; [ring|].
  rewrite <- pow10_split. f_equal. lia.
Qed.
Lemma F_multiple : forall a p, multiple_of (F a p) (unit_at p).
Proof. intros a p. exists a. change (unit_at p) with (F 1 p). rewrite Qmult_comm, F_mul, Z.mul_1_l. reflexivity. Qed.
Lemma multiple_eq : forall y y' u, (y == y')%Q -> multiple_of y u -> multiple_of y' u.
Proof. intros y y' u E [k H]. exists k. rewrite <- E. exact H. Qed.
Lemma two_unit : forall q, (q * 2 == q * inject_Z 2)%Q.
Proof. intros. reflexivity. Qed.

Lemma round_ok : forall x p, rounded (unit_at p) (dec_val x) (dec_val (dec_round_dp x p)).
Proof.
  intros [m s] p. unfold dec_round_dp. cbn [scale mant]. change (dec_val (Dec m s)) with (F m s). change (unit_at p) with (F 1 p).
  destruct (s <=? p) eqn:E.
  - apply Nat.leb_le in E. change (dec_val (Dec m s)) with (F m s). split.
    + eapply multiple_eq; [symmetry; apply F_scale; exact E|]. apply F_multiple.
    + rewrite F_sub, F_abs, two_unit, F_mul. rewrite Z.sub_diag. cbn [Z.abs Z.mul].
      rewrite (F_scale 0 s p E). rewrite Z.mul_0_l. split; [apply F_le; lia|]. intros H. apply F_eq in H. lia.
  - apply Nat.leb_gt in E. set (P := pow10 (s - p)). set (q := ((2 * Z.abs m + P) / (2 * P))%Z).
    assert (HP : (0 < P)%Z) by apply pow10_pos.
    change (dec_val (Dec (Z.sgn m * q) p)) with (F (Z.sgn m * q) p).
    assert (D : (2 * P * q <= 2 * Z.abs m + P < 2 * P * q + 2 * P)%Z).
    { unfold q. pose proof (Z.div_mod (2 * Z.abs m + P) (2 * P) ltac:(lia)) as K.
      pose proof (Z.mod_pos_bound (2 * Z.abs m + P) (2 * P) ltac:(lia)). lia. }
    assert (Q0 : (0 <= q)%Z) by (apply Z.div_pos; lia).
    split; [apply F_multiple|]. pose proof (F_scale (Z.sgn m * q) p s ltac:(lia)) as S1. pose proof (F_scale 1 p s ltac:(lia)) as S2.
    fold P in S1, S2. rewrite S1, S2, F_sub, !F_abs, two_unit, F_mul, Z.mul_1_l.
    assert (M0 : m = 0%Z -> q = 0%Z) by (intros ->; cbn [Z.abs] in D; nia).
    assert (A : (Z.abs (Z.sgn m * q * P - m) = Z.abs (q * P - Z.abs m))%Z).
    { clearbody q P. clear D. destruct m; cbn [Z.sgn Z.abs]; [rewrite M0 by reflexivity; reflexivity|lia|].
      replace (-1 * q * P)%Z with (- (q * P))%Z by ring. lia. }
    split.
    + apply F_le. rewrite A. nia.
    + intros H. apply F_eq in H. rewrite A in H. apply F_lt.
      assert (B : (Z.abs (Z.sgn m * q * P) = Z.abs (Z.sgn m) * (q * P))%Z) by (rewrite !Z.abs_mul, (Z.abs_eq q), (Z.abs_eq P) by lia; ring).
      rewrite B. assert (q * P > Z.abs m)%Z by nia.
      destruct m; cbn [Z.sgn Z.abs] in *; nia.
Qed.
Lemma trunc_ok : forall x p, truncated (unit_at p) (dec_val x) (dec_val (dec_trunc_dp x p)).
Proof.
  intros [m s] p. unfold dec_trunc_dp. cbn [scale mant]. change (dec_val (Dec m s)) with (F m s). change (unit_at p) with (F 1 p).
  assert (SQ : forall a b d, (0 <= a * b)%Z -> (0 <= F a d * F b d)%Q).
  { intros a b d H. unfold F, Qle, Qmult. cbn. lia. }
  destruct (s <=? p) eqn:E.
  - apply Nat.leb_le in E. change (dec_val (Dec m s)) with (F m s). split; [|split; [|split]].
    + eapply multiple_eq; [symmetry; apply F_scale; exact E|]. apply F_multiple.
    + rewrite F_abs. apply F_le. lia.
    + rewrite F_sub, F_abs. rewrite Z.sub_diag. cbn [Z.abs]. rewrite (F_scale 0 s p E). apply F_lt. lia.
    + apply SQ. nia.
  - apply Nat.leb_gt in E. set (P := pow10 (s - p)). set (q := Z.quot m P).
    assert (HP : (0 < P)%Z) by apply pow10_pos.
    change (dec_val (Dec q p)) with (F q p). split; [apply F_multiple|].
    pose proof (F_scale q p s ltac:(lia)) as S1. pose proof (F_scale 1 p s ltac:(lia)) as S2. fold P in S1, S2.
    pose proof (Z.quot_rem' m P) as K. fold q in K.
    assert (R : (Z.abs (Z.rem m P) < P /\ (0 <= m -> 0 <= Z.rem m P) /\ (m <= 0 -> Z.rem m P <= 0))%Z).
    { split; [|split; intros].
      - pose proof (Z.rem_bound_abs m P ltac:(lia)) as B. lia.
      - apply Z.rem_nonneg; lia.
      - apply Z.rem_nonpos; lia. }
    assert (SG : (0 <= m -> 0 <= q)%Z /\ (m <= 0 -> q <= 0)%Z).
    { split; intros; unfold q; [apply Z.quot_pos; lia|]. rewrite <- (Z.opp_involutive m), Z.quot_opp_l by lia.
      pose proof (Z.quot_pos (- m) P ltac:(lia) HP). lia. }
    split; [|split].
    + rewrite S1, !F_abs. apply F_le. nia.
    + rewrite S1, S2, F_sub, F_abs. apply F_lt. lia.
    + rewrite S1. apply SQ. destruct (Z.le_ge_cases 0 m); nia.
Qed.
Lemma floor_ok : forall x, exists z : Z, (dec_val (dec_floor x) == inject_Z z /\ inject_Z z <= dec_val x /\ dec_val x < inject_Z (z + 1))%Q.
Proof.
  intros [m s]. unfold dec_floor. cbn [mant scale]. exists (m / pow10 s)%Z. split; [apply dec_of_Z_val|].
  pose proof (pow10_pos s) as P. pose proof (Z.div_mod m (pow10 s) ltac:(lia)) as K. pose proof (Z.mod_pos_bound m (pow10 s) P) as B.
  unfold dec_val, Qle, Qlt, inject_Z. cbn. rewrite pos_pow10. split; lia.
Qed.
Lemma ceil_ok : forall x, exists z : Z, (dec_val (dec_ceil x) == inject_Z z /\ dec_val x <= inject_Z z /\ inject_Z (z - 1) < dec_val x)%Q.
Proof.
  intros [m s]. unfold dec_ceil. cbn [mant scale]. exists (- (- m / pow10 s))%Z. split; [apply dec_of_Z_val|].
  pose proof (pow10_pos s) as P. pose proof (Z.div_mod (- m) (pow10 s) ltac:(lia)) as K. pose proof (Z.mod_pos_bound (- m) (pow10 s) P) as B.
  unfold dec_val, Qle, Qlt, inject_Z. cbn. rewrite pos_pow10. split; lia.
Qed.
Lemma places_nat : forall x p, p <= 1000 -> arg_places [VNum x; VNum (dec_of_nat p)] = Ok p.
Proof.
  intros x p H. unfold arg_places, arg_onum, dec_to_u32, dec_to_usize. cbn [nth_error bind].
  change (mant (dec_of_nat p)) with (Z.of_nat p). replace (Z.of_nat p <? 0)%Z with false by (symmetry; apply Z.ltb_ge; lia).
  change (dec_of_nat p) with (dec_of_Z (Z.of_nat p)). rewrite dec_trunc_of_Z.
  replace (Z.of_nat p <? 2 ^ 64)%Z with true by (symmetry; apply Z.ltb_lt; lia).
  replace (Z.of_nat p <? 2 ^ 32)%Z with true by (symmetry; apply Z.ltb_lt; lia).
  cbn [of_option bind]. f_equal. rewrite Z.min_l by lia. apply Nat2Z.id.
Qed.

(** ** Text *)
Lemma app_assoc_s : forall a b c : string, ((a ++ b) ++ c = a ++ (b ++ c))%string.
Proof. induction a as [|x a IH]; intros; cbn; [reflexivity|]. rewrite IH. reflexivity. Qed.
Lemma app_nil_s : forall a : string, (a ++ "" = a)%string.
Proof. induction a as [|x a IH]; cbn; [reflexivity|]. rewrite IH. reflexivity. Qed.
Lemma len_app_s : forall a b : string, String.length (a ++ b) = String.length a + String.length b.
Proof. induction a as [|x a IH]; intros; cbn; [reflexivity|]. rewrite IH. reflexivity. Qed.
Lemma prefix_iff : forall b a, String.prefix b a = true <-> exists post, a = (b ++ post)%string.
Proof.
  induction b as [|x b IH]; intros a.
  - split; [intros; exists a; reflexivity|intros; destruct a; reflexivity].
  - destruct a as [|y a]; [split; [discriminate|intros [p H]; discriminate]|].
    cbn [String.prefix]. destruct (ascii_dec x y) as [->|N].
    + rewrite IH. split; intros [p H]; exists p; [rewrite H; reflexivity|inversion H; reflexivity].
    + split; [discriminate|]. intros [p H]. inversion H; congruence.
Qed.
Lemma contains_iff : forall a b, str_contains a b = true <-> exists pre post, a = (pre ++ b ++ post)%string.
Proof.
  induction a as [|x a IH]; intros b; cbn [str_contains]; rewrite orb_true_iff, prefix_iff.
  - split.
    + intros [[p H]|H]; [exists "", p; exact H|discriminate].
    + intros (pre & post & H). left. destruct pre; [exists post; exact H|discriminate].
  - rewrite IH. split.
    + intros [[p H]|(pre & post & ->)]; [exists "", p; exact H|exists (String x pre), post; reflexivity].
    + intros (pre & post & H). destruct pre as [|y pre]; [left; exists post; exact H|right]. inversion H. eauto.
Qed.
Lemma app_inj_len : forall a b c d : string, (a ++ b = c ++ d)%string -> String.length a = String.length c -> a = c /\ b = d.
Proof.
  induction a as [|x a IH]; intros b c d H L; destruct c as [|y c]; try discriminate; [auto|]. cbn in *. inversion H.
  destruct (IH b c d) as [-> ->]; auto.
Qed.
Lemma substring_app : forall pre b, substring (String.length pre) (String.length b) (pre ++ b) = b.
Proof.
  induction pre as [|x pre IH]; intros b; cbn; [|apply IH]. induction b as [|y b IHb]; cbn; [reflexivity|]. rewrite IHb. reflexivity.
Qed.
Lemma substring_split : forall n a, n <= String.length a -> exists pre, String.length pre = n /\ a = (pre ++ substring n (String.length a - n) a)%string.
Proof.
  induction n as [|n IH]; intros a H.
  - exists "". split; [reflexivity|]. cbn. rewrite Nat.sub_0_r. clear H. induction a as [|x a IHa]; cbn; [reflexivity|]. rewrite <- IHa. reflexivity.
  - destruct a as [|x a]; cbn in H; [lia|]. destruct (IH a ltac:(lia)) as (pre & L & E). exists (String x pre). cbn. split; [congruence|]. rewrite <- E. reflexivity.
Qed.
Lemma ends_iff : forall a b, ends_with a b = true <-> exists pre, a = (pre ++ b)%string.
Proof.
  intros a b. unfold ends_with. rewrite andb_true_iff, Nat.leb_le, String.eqb_eq. split.
  - intros [L E]. destruct (substring_split (String.length a - String.length b) a ltac:(lia)) as (pre & Lp & Ea). exists pre.
    replace (String.length a - (String.length a - String.length b)) with (String.length b) in Ea by lia. rewrite E in Ea. exact Ea.
  - intros [pre ->]. rewrite len_app_s. split; [lia|]. replace (_ - _) with (String.length pre) by lia. apply substring_app.
Qed.
Lemma split_skip : forall sep k s, k <= String.length s -> split_str sep k s = split_str sep 0 (sdrop k s).
Proof.
  intros sep k. induction k as [|k IH]; intros s L; [reflexivity|]. destruct s as [|x s]; cbn in L; [lia|].
  cbn [split_str sdrop]. apply IH. lia.
Qed.
Lemma sdrop_app : forall a b, sdrop (String.length a) (a ++ b)%string = b.
Proof. induction a as [|x a IH]; intros; cbn; [reflexivity|apply IH]. Qed.
Lemma split_ok : forall sep, sep <> "" -> forall n s, String.length s <= n -> split_by sep s (split_str sep 0 s).
Proof.
  intros sep NE. induction n as [|n IH]; intros s L.
  - destruct s; [|cbn in L; lia]. cbn. constructor. intros pre post H. destruct pre; [|discriminate]. destruct sep; [congruence|discriminate].
  - destruct s as [|x s].
    + cbn. constructor. intros pre post H. destruct pre; [|discriminate]. destruct sep; [congruence|discriminate].
    + cbn in L. cbn [split_str]. destruct (String.prefix sep (String x s)) eqn:P.
      * apply prefix_iff in P. destruct P as [post E]. destruct sep as [|c sep]; [congruence|]. cbn [append] in E. inversion E; subst c s.
        cbn [String.length]. rewrite Nat.sub_succ, Nat.sub_0_r. rewrite split_skip by (rewrite len_app_s; lia). rewrite sdrop_app.
        change (String x (sep ++ post)) with (("" ++ String x sep ++ post)%string). constructor.
        -- intros pre po H. assert (LL := f_equal String.length H). rewrite !len_app_s in LL. destruct po; [reflexivity|cbn in LL; lia].
        -- apply IH. rewrite len_app_s in L. lia.
      * assert (NP : forall pre post, String x s = (pre ++ sep ++ post)%string -> exists pre', pre = String x pre' /\ s = (pre' ++ sep ++ post)%string).
        { intros pre post H. destruct pre as [|y pre].
          - assert (String.prefix sep (String x s) = true) by (apply prefix_iff; exists post; exact H). congruence.
          - inversion H. eauto. }
        pose proof (IH s ltac:(lia)) as B. clear L P. remember (split_str sep 0 s) as pieces eqn:EP. clear EP.
        destruct B as [s NO|p rest l Fst Bl].
        -- constructor. intros pre post H. destruct (NP _ _ H) as (pre' & _ & K). exact (NO _ _ K).
        -- change (String x (p ++ sep ++ rest)) with ((String x p ++ sep ++ rest)%string). constructor; [|exact Bl].
           intros pre post H.
           assert (HX : String x (p ++ sep ++ rest) = (pre ++ sep ++ (post ++ rest))%string).
           { change (String x (p ++ sep ++ rest)) with ((String x p ++ sep ++ rest)%string). rewrite <- app_assoc_s, H, !app_assoc_s. reflexivity. }
           destruct (NP _ _ HX) as (pre' & -> & _). cbn in H. inversion H as [K]. exact (Fst _ _ K).
Qed.
Lemma chars_ok : forall s, concat_all (chars s) = s.
Proof.
  induction s as [|c s IH]; [reflexivity|]. cbn [chars]. destruct (chars s) as [|[|b x] t]; cbn in *.
  - subst. reflexivity.
  - rewrite IH. reflexivity.
  - destruct (is_cont_byte b); cbn; rewrite IH; reflexivity.
Qed.

(** ** Numerals *)
Lemma digit_read : forall n, (0 <= n < 10)%Z -> digit_val (digit n) = Some n /\ Ascii.eqb (digit n) "." = false /\ Ascii.eqb (digit n) "-" = false.
Proof.
  intros n H. assert (E : (n = 0 \/ n = 1 \/ n = 2 \/ n = 3 \/ n = 4 \/ n = 5 \/ n = 6 \/ n = 7 \/ n = 8 \/ n = 9)%Z) by lia.
  repeat (destruct E as [->|E]; [vm_compute; auto|]). subst. vm_compute. auto.
Qed.
Lemma read_digits : forall fuel n acc a, (0 <= n < 10 ^ Z.of_nat fuel)%Z -> fuel <> 0 ->
  exists k, (0 <= k)%nat /\ read_unsigned a (digits fuel n acc) = read_unsigned (a * 10 ^ Z.of_nat k + n) acc.
Proof.
  induction fuel as [|fuel IH]; intros n acc a H N; [congruence|]. cbn [digits].
  pose proof (Z.div_mod n 10 ltac:(lia)) as DM. pose proof (Z.mod_pos_bound n 10 ltac:(lia)) as MB.
  destruct (digit_read (n mod 10) MB) as (DV & ND & _).
  destruct (n / 10 =? 0)%Z eqn:E.
  - apply Z.eqb_eq in E. exists 1. split; [lia|]. cbn [read_unsigned]. rewrite ND, DV. f_equal. rewrite DM at 2. rewrite E. change (10 ^ Z.of_nat 1)%Z with 10%Z. lia.
  - apply Z.eqb_neq in E. destruct fuel as [|fuel].
    { exfalso. apply E. apply Z.div_small. change (10 ^ Z.of_nat 1)%Z with 10%Z in H. lia. }
    assert (B : (0 <= n / 10 < 10 ^ Z.of_nat (S fuel))%Z).
    { split; [apply Z.div_pos; lia|]. apply Z.div_lt_upper_bound; [lia|]. rewrite (Nat2Z.inj_succ (S fuel)), Z.pow_succ_r in H by lia. lia. }
    destruct (IH (n / 10)%Z (String (digit (n mod 10)) acc) a B ltac:(discriminate)) as (k & _ & R).
    exists (S k). split; [lia|]. rewrite R. cbn [read_unsigned]. rewrite ND, DV. f_equal. rewrite Nat2Z.inj_succ, Z.pow_succ_r by lia. lia.
Qed.
Lemma read_fracs : forall k n acc a j, (0 <= n < 10 ^ Z.of_nat k)%Z ->
  read_frac a j (frac_digits k n acc) = read_frac (a * 10 ^ Z.of_nat k + n)%Z (j + k) acc.
Proof.
  induction k as [|k IH]; intros n acc a j H; cbn [frac_digits].
  - change (10 ^ Z.of_nat 0)%Z with 1%Z in *. f_equal; lia.
  - pose proof (Z.div_mod n 10 ltac:(lia)) as DM. pose proof (Z.mod_pos_bound n 10 ltac:(lia)) as MB.
    destruct (digit_read (n mod 10) MB) as (DV & _ & _). rewrite (Nat2Z.inj_succ k), Z.pow_succ_r in * by lia.
    rewrite IH; [|split; [apply Z.div_pos; lia|apply Z.div_lt_upper_bound; lia]]. cbn [read_frac]. rewrite DV. f_equal; lia.
Qed.
Lemma z_to_string_ok : forall n acc a, (0 <= n)%Z ->
  exists k, read_unsigned a (z_to_string n ++ acc) = read_unsigned (a * 10 ^ Z.of_nat k + n) acc /\
    exists c r, (z_to_string n ++ acc)%string = String c r /\ Ascii.eqb c "-" = false.
Proof.
  intros n acc a H. unfold z_to_string. set (f := S (Z.to_nat (Z.log2 n))).
  assert (APP : forall fuel n s acc, (digits fuel n s ++ acc = digits fuel n (s ++ acc))%string).
  { induction fuel as [|fuel IH]; intros m s t; [reflexivity|]. cbn [digits]. destruct (m / 10 =? 0)%Z; [reflexivity|]. apply IH. }
  rewrite APP. cbn [append].
  assert (B : (0 <= n < 10 ^ Z.of_nat f)%Z).
  { split; [exact H|]. unfold f. rewrite Nat2Z.inj_succ, Z2Nat.id by apply Z.log2_nonneg.
    destruct (Z.eq_dec n 0) as [->|N]; [vm_compute; reflexivity|]. pose proof (Z.log2_spec n ltac:(lia)) as [_ U].
    eapply Z.lt_le_trans; [exact U|]. apply Z.pow_le_mono_l. lia. }
  destruct (read_digits f n acc a B ltac:(unfold f; discriminate)) as (k & _ & R). exists k. split; [exact R|].
  assert (HD : forall fuel m s, (0 <= m)%Z -> fuel <> 0 -> exists c r, digits fuel m s = String c r /\ Ascii.eqb c "-" = false).
  { induction fuel as [|fuel IH]; intros m s M N; [congruence|]. cbn [digits].
    pose proof (Z.mod_pos_bound m 10 ltac:(lia)) as MB. destruct (digit_read (m mod 10) MB) as (_ & _ & D).
    destruct (m / 10 =? 0)%Z; [eauto|]. destruct fuel; [cbn; eauto|]. apply IH; [apply Z.div_pos; lia|discriminate]. }
  apply HD; [exact H|unfold f; discriminate].
Qed.
Lemma numeral_ok : forall d, read_numeral (dec_to_string d) = Some (mant d, scale d).
Proof.
  intros [m s]. unfold dec_to_string. cbn [mant scale]. set (p := pow10 s). assert (P : (0 < p)%Z) by apply pow10_pos.
  pose proof (Z.div_mod (Z.abs m) p ltac:(lia)) as DM. pose proof (Z.mod_pos_bound (Z.abs m) p P) as MB.
  set (tail := match s with O => "" | S _ => String dot_char (frac_digits s (Z.abs m mod p) "") end).
  assert (U : exists c r, (z_to_string (Z.abs m / p) ++ tail)%string = String c r /\ Ascii.eqb c "-" = false /\
    read_unsigned 0 (z_to_string (Z.abs m / p) ++ tail) = Some (Z.abs m, s)).
  { destruct (z_to_string_ok (Z.abs m / p) tail 0 ltac:(apply Z.div_pos; lia)) as (k & R & c & r & E & N).
    exists c, r. split; [exact E|]. split; [exact N|]. rewrite R. rewrite Z.mul_0_l, Z.add_0_l. unfold tail. destruct s as [|s].
    - cbn. unfold p. change (pow10 0) with 1%Z. rewrite Z.div_1_r. reflexivity.
    - cbn [read_unsigned]. change (Ascii.eqb dot_char ".") with true. cbn iota.
      rewrite read_fracs by exact MB. cbn [read_frac]. do 2 f_equal. change (10 ^ Z.of_nat (S s))%Z with p. lia. }
  destruct U as (c & r & E & N & R). destruct (m <? 0)%Z eqn:S.
  - apply Z.ltb_lt in S. cbn [append read_numeral]. change (Ascii.eqb "-" "-") with true. cbn iota. rewrite R. cbn. f_equal. f_equal. lia.
  - apply Z.ltb_ge in S. cbn [append]. rewrite E. unfold read_numeral. rewrite N, <- E, R. rewrite Z.abs_eq by lia. reflexivity.
Qed.

(** ** Merging *)
Lemma entries_hext : forall h h1 m ts, hext h h1 -> entries h m ts -> entries h1 m ts.
Proof. intros h h1 m ts E H. eapply Forall2_imp; [|exact H]. intros a b [A B]. split; [exact A|]. eapply repr_hext; eauto. Qed.
Lemma entries_aset : forall h m ts k v t, entries h m ts -> repr h v t -> entries h (aset k v m) (aset k t ts).
Proof.
  intros h m ts k v t H R. induction H as [|[k1 x] [k2 y] m ts [E R1] H IH]; cbn in *.
  - repeat constructor; assumption.
  - subst. destruct (String.eqb k2 k); constructor; cbn; auto.
Qed.
Lemma insert_all_new : forall {V} (a b : amap V), NoDup (akeys (b ++ a)) -> insert_all a b = b ++ a.
Proof.
  intros V a. induction a as [|[k v] a IH]; intros b N; [unfold insert_all; cbn; rewrite app_nil_r; reflexivity|].
  unfold insert_all. cbn [fold_left fst snd]. fold (insert_all a (aset k v b)).
  assert (A : aset k v b = b ++ [(k, v)]).
  { unfold akeys in N. rewrite map_app in N. cbn in N. apply NoDup_remove_2 in N.
    assert (NI : ~ In k (map fst b)) by (intros I; apply N; apply in_or_app; auto). clear N IH.
    induction b as [|[k' v'] b IHb]; [reflexivity|]. cbn in *. destruct (String.eqb_spec k' k); [subst; tauto|]. rewrite IHb by tauto. reflexivity. }
  rewrite A, IH; rewrite <- app_assoc; [reflexivity|exact N].
Qed.
Lemma tdeep_obj : forall b p, tdeep (TObj b) (TObj p) = TObj ((fix go p acc := match p with
   | [] => acc
   | (k, x) :: r => go r (aset k (match aget k acc with Some e => tdeep e x | None => x end) acc)
   end) p b).
Proof. reflexivity. Qed.
Lemma wf_aset : forall ts k t, wf_tree (TObj ts) -> wf_tree t -> wf_tree (TObj (aset k t ts)).
Proof.
  intros ts k t W H. inversion W as [| | | | | |? N F]; subst. constructor.
  - change (map fst (aset k t ts)) with (akeys (aset k t ts)). apply aset_nodup. exact N.
  - apply Forall_forall. intros x I. apply aset_in in I. rewrite Forall_forall in F. destruct I as [->|I]; [exact H|auto].
Qed.
Lemma deep_merge_ok : forall n h base patch tb tp, repr h base tb -> repr h patch tp -> wf_tree tb -> wf_tree tp -> height tp < n ->
  exists h1 v, deep_merge n h base patch = (h1, Ok v) /\ hext h h1 /\ repr h1 v (tdeep tb tp) /\ wf_tree (tdeep tb tp).
Proof.
  induction n as [|n IH]; intros h base patch tb tp Rb Rp Wb Wp Hn; [lia|].
  assert (PLAIN : forall r, r = (h, Ok patch) -> tdeep tb tp = tp -> exists h1 v, r = (h1, Ok v) /\ hext h h1 /\ repr h1 v (tdeep tb tp) /\ wf_tree (tdeep tb tp)).
  { intros r -> E. exists h, patch. rewrite E. split; [reflexivity|]. split; [apply hext_refl|]. split; assumption. }
  inversion Rb as [| | | |lb ab tsb Gb Fb|lb mb tsb Gb Fb|]; subst; inversion Rp as [| | | |lp ap tsp Gp Fp|lp mp tsp Gp Fp|]; subst;
    try (apply PLAIN; reflexivity).
  - cbn [deep_merge]. rewrite (proj2 (harr_hget _ _ _) Gb), (proj2 (harr_hget _ _ _) Gp). unfold new_arr, halloc.
    do 2 eexists. split; [reflexivity|]. split; [apply hext_alloc|]. cbn [tdeep]. split.
    + eapply RArr; [unfold hget; rewrite nth_error_app2, Nat.sub_diag by lia; reflexivity|].
      apply Forall2_app; (eapply Forall2_imp; [|eassumption]); intros; eapply repr_hext; eauto; apply hext_alloc.
    + inversion Wb; inversion Wp; subst. constructor. apply Forall_app. auto.
  - cbn [deep_merge]. rewrite (proj2 (hobj_hget _ _ _) Gb), (proj2 (hobj_hget _ _ _) Gp).
    match goal with |- context [match ?f h (insert_all mb []) mp with _ => _ end] => set (go := f) end.
    rewrite tdeep_obj. match goal with |- context [TObj (?f tsp tsb)] => set (tgo := f) end.
    assert (NB : NoDup (akeys mb)).
    { inversion Wb as [| | | | | |? N F]; subst. replace (akeys mb) with (map fst tsb); [exact N|]. clear -Fb. induction Fb as [|? ? ? ? [E _] Fb IHF]; cbn; [reflexivity|]. f_equal; auto. }
    rewrite insert_all_new by exact NB. cbn [app].
    assert (Hht : forall k x, In (k, x) tsp -> height x < n /\ wf_tree x).
    { intros k x I. split; [pose proof (height_obj tsp k x I); lia|]. inversion Wp as [| | | | | |? N F]; subst. rewrite Forall_forall in F. exact (F _ I). }
    assert (LOOP : forall tsp mp h0 m tm, entries h mp tsp -> (forall k x, In (k, x) tsp -> height x < n /\ wf_tree x) -> hext h h0 ->
      entries h0 m tm -> wf_tree (TObj tm) -> exists h1 m1, go h0 m mp = (h1, Ok m1) /\ hext h0 h1 /\ entries h1 m1 (tgo tsp tm) /\ wf_tree (TObj (tgo tsp tm))).
    { clear Gp Fp Gb Fb Hht Wp Wb Rb Rp PLAIN Hn NB lb mb tsb lp mp tsp.
      induction tsp as [|[k tx] tsp IHl]; intros mp h0 m tm E Hht X Em W; inversion E as [|[k1 x] ? mp' ? [K R] E']; subst; cbn [go tgo].
      - exists h0, m. split; [reflexivity|]. split; [apply hext_refl|]. split; assumption.
      - cbn in K. subst k1. destruct (Hht k tx (or_introl eq_refl)) as [H1 W1]. cbn [snd] in R.
        assert (Rx : repr h0 x tx) by (eapply repr_hext; eauto).
        pose proof (entries_get h0 m tm k Em) as AG.
        fold go. fold tgo. destruct (aget k m) as [e|], (aget k tm) as [te|] eqn:ET; try contradiction.
        + assert (We : wf_tree te).
          { inversion W as [| | | | | |? N F]; subst. rewrite Forall_forall in F. exact (F _ (proj2 (proj2 AG))). }
          destruct (IH h0 e x te tx (proj1 AG) Rx We W1 H1) as (h1 & v & D & X1 & R1 & W2). rewrite D.
          destruct (IHl mp' h1 (aset k v m) (aset k (tdeep te tx) tm) E' (fun k' x' I => Hht k' x' (or_intror I))) as (h2 & m2 & G2 & X2 & E2 & W3).
          { eapply hext_trans; eauto. } { apply entries_aset; [eapply entries_hext; eauto|exact R1]. } { apply wf_aset; assumption. }
          exists h2, m2. split; [exact G2|]. split; [eapply hext_trans; eauto|]. split; assumption.
        + destruct (IHl mp' h0 (aset k x m) (aset k tx tm) E' (fun k' x' I => Hht k' x' (or_intror I)) X) as (h2 & m2 & G2 & X2 & E2 & W3).
          { apply entries_aset; assumption. } { apply wf_aset; assumption. }
          exists h2, m2. split; [exact G2|]. split; [exact X2|]. split; assumption. }
    destruct (LOOP tsp mp h mb tsb Fp Hht (hext_refl h) Fb Wb) as (h1 & m1 & G & X & E & W). rewrite G. unfold new_obj, halloc.
    do 2 eexists. split; [reflexivity|]. split; [eapply hext_trans; [exact X|apply hext_alloc]|]. split; [|exact W].
    eapply RObj; [unfold hget; rewrite nth_error_app2, Nat.sub_diag by lia; reflexivity|]. eapply entries_hext; [apply hext_alloc|exact E].
Qed.
Definition deep_item (h : heap) (v : value) (t : tree) : Prop := (v = VNull /\ t = TNull) \/ (repr h v t /\ wf_tree t /\ exists m, t = TObj m).
Lemma merge_deep_ok : forall items ts fuel h0 h acc ta, Forall2 (deep_item h0) items ts -> hext h0 h -> length h0 < fuel ->
  repr h acc ta -> wf_tree ta ->
  exists h1 v, merge_deep_items fuel h acc items = (h1, Ok v) /\ hext h h1 /\
    repr h1 v (fold_left (fun a t => match t with TNull => a | _ => tdeep a t end) ts ta).
Proof.
  induction items as [|x items IH]; intros ts fuel h0 h acc ta H X L R W; inversion H as [|? t ? ts' D H']; subst; cbn [merge_deep_items fold_left].
  - exists h, acc. split; [reflexivity|]. split; [apply hext_refl|exact R].
  - destruct D as [[-> ->]|(Rx & Wx & m & ->)].
    + eapply IH; eauto.
    + inversion Rx as [| | | | |l mm ? G F|]; subst.
      destruct (deep_merge_ok fuel h acc (VObj l) ta (TObj m) R (repr_hext _ _ _ _ X Rx) W Wx) as (h1 & v & E & X1 & R1 & W1).
      { pose proof (height_le _ _ _ Rx). lia. }
      rewrite E. destruct (IH ts' fuel h0 h1 v (tdeep ta (TObj m)) H' (hext_trans _ _ _ X X1) L R1 W1) as (h2 & v2 & E2 & X2 & R2).
      exists h2, v2. split; [exact E2|]. split; [eapply hext_trans; eauto|exact R2].
Qed.
Lemma merge_arrays_ok : forall h items parts, Forall2 (fun v p => (v = VNull /\ p = []) \/ exists l, v = VArr l /\ hget h l = Some (CArr p)) items parts ->
  merge_arrays h items = Ok (concat parts).
Proof.
  intros h items parts H. induction H as [|v p items parts [[-> ->]|(l & -> & G)] H IH]; cbn; [reflexivity|exact IH|].
  rewrite (proj2 (harr_hget _ _ _) G), IH. reflexivity.
Qed.
Lemma insert_all_get : forall k (src dst : amap value), NoDup (akeys src) -> aget k (insert_all src dst) = match aget k src with Some v => Some v | None => aget k dst end.
Proof.
  intros k src. induction src as [|[k' v] src IH]; intros dst N; [reflexivity|]. unfold insert_all. cbn [fold_left fst snd]. fold (insert_all src (aset k' v dst)).
  inversion N as [|? ? NI N']; subst. rewrite IH by exact N'. cbn [aget]. destruct (String.eqb_spec k' k) as [->|NE].
  - replace (aget k src) with (@None value); [apply aget_aset_eq|]. symmetry. clear -NI. induction src as [|[a b] src IHs]; [reflexivity|].
    cbn in *. destruct (String.eqb_spec a k); [subst; tauto|]. apply IHs. tauto.
  - destruct (aget k src); [reflexivity|]. apply aget_aset_ne. exact NE.
Qed.
Lemma merge_objects_ok : forall h items parts acc, Forall2 (fun v p => (v = VNull /\ p = []) \/ exists l, v = VObj l /\ hget h l = Some (CObj p) /\ NoDup (akeys p)) items parts ->
  exists m, merge_objects h items acc = Ok m /\ forall k, aget k m = match last_value k parts with Some v => Some v | None => aget k acc end.
Proof.
  intros h items parts acc H. revert acc. induction H as [|v p items parts D H IH]; intros acc; cbn.
  - exists acc. auto.
  - destruct D as [[-> ->]|(l & -> & G & N)].
    + destruct (IH acc) as (m & E & P). exists m. split; [exact E|]. intros k. rewrite P. cbn. destruct (last_value k parts); reflexivity.
    + rewrite (proj2 (hobj_hget _ _ _) G). destruct (IH (insert_all p acc)) as (m & E & P). exists m. split; [exact E|].
      intros k. rewrite P. destruct (last_value k parts); [reflexivity|]. rewrite insert_all_get by exact N. reflexivity.
Qed.
