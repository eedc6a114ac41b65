(** Intervals and slices. *)
From Coq Require Import String Ascii ZArith QArith Lia Bool List Arith Sorted.
From Verif Require Import Base Dec Value Heap Ast Ops Compiler Vm Eval CompilerFacts VmFacts ExprFacts Funcs
  HeapSpec HeapFacts PureFacts RunSpec FuncSpec.
Import ListNotations.
Local Open Scope nat_scope.

Lemma cmp_dec : forall a b,
  (cmp_lt (dec_cmp a b) = true <-> (dec_val a < dec_val b)%Q) /\
  (cmp_le (dec_cmp a b) = true <-> (dec_val a <= dec_val b)%Q) /\
  (cmp_gt (dec_cmp a b) = true <-> (dec_val b < dec_val a)%Q) /\
  (cmp_ge (dec_cmp a b) = true <-> (dec_val b <= dec_val a)%Q).
Proof.
  intros. rewrite dec_cmp_val. rewrite !Qlt_alt, !Qle_alt.
  rewrite <- (Qcompare_antisym (dec_val a) (dec_val b)).
  destruct (dec_val a ?= dec_val b)%Q; cbn; repeat split; intros; congruence.
Qed.

Lemma includes_inside : forall lb rb a b x, opening lb -> closing rb ->
  exists r, interval_includes (Interval lb rb (INum a) (INum b)) (INum x) = Some r /\
    (r = true <-> above lb (dec_val a) (dec_val x) /\ below rb (dec_val b) (dec_val x)).
Proof.
  intros lb rb a b x Hl Hr. destruct (cmp_dec a x) as (A1 & A2 & _ & _). destruct (cmp_dec b x) as (_ & _ & B3 & B4).
  destruct Hl as [-> | ->], Hr as [-> | ->]; cbn; eexists; (split; [reflexivity|]);
    rewrite andb_true_iff; tauto.
Qed.
Lemma includes_outside : forall lb rb a b x, closing lb -> opening rb ->
  exists r, interval_includes (Interval lb rb (INum a) (INum b)) (INum x) = Some r /\
    (r = true <-> left_of lb (dec_val a) (dec_val x) \/ right_of rb (dec_val b) (dec_val x)).
Proof.
  intros lb rb a b x Hl Hr. destruct (cmp_dec a x) as (_ & _ & A3 & A4). destruct (cmp_dec b x) as (B1 & B2 & _ & _).
  destruct Hl as [-> | ->], Hr as [-> | ->]; cbn; eexists; (split; [reflexivity|]);
    rewrite orb_false_r, orb_true_iff; tauto.
Qed.

Section In.
  Variable X : ext.
  Variables (nx na nb : node) (root : scope) (h h1 h2 h3 : heap) (x a b : dec) (lb rb : bracket).
  Hypothesis Nx : no_assign nx = true.
  Hypothesis Na : no_assign na = true.
  Hypothesis Nb : no_assign nb = true.
  Hypothesis Yx : yields X nx root h (Ok (VNum x)) h1.
  Hypothesis Ya : yields X na root h1 (Ok (VNum a)) h2.
  Hypothesis Yb : yields X nb root h2 (Ok (VNum b)) h3.

  Lemma in_compiles : forall op, simple_binop op <> None ->
    compiles X (NBinary nx op (NInterval na nb lb rb)).
  Proof.
    intros. apply compiles_binary; [eapply yields_compiles; eauto| |auto].
    apply compiles_interval; eapply yields_compiles; eauto.
  Qed.
  Lemma in_eval : forall r, interval_includes (Interval lb rb (INum a) (INum b)) (INum x) = Some r ->
    yields X (NBinary nx (OpCmp CIn) (NInterval na nb lb rb)) root h (Ok (VBool r)) h3 /\
    yields X (NBinary nx (OpCmp CNotIn) (NInterval na nb lb rb)) root h (Ok (VBool (negb r))) h3.
  Proof.
    intros r E. pose proof (yields_eval _ _ _ _ _ _ Nx Yx) as Ex. pose proof (yields_eval _ _ _ _ _ _ Na Ya) as Ea.
    pose proof (yields_eval _ _ _ _ _ _ Nb Yb) as Eb.
    split; eapply eval_yields with (o := ORet _ root h3);
      try (apply in_compiles; cbn; congruence); cbn [eval]; rewrite Ex; cbn [obind];
      cbn [eval]; rewrite Ea; cbn [obind]; rewrite Eb; cbn [obind lift op_interval bin_value op_in of_option bind];
      rewrite E; reflexivity.
  Qed.
  Lemma in_inside : opening lb -> closing rb ->
    exists r, yields X (NBinary nx (OpCmp CIn) (NInterval na nb lb rb)) root h (Ok (VBool r)) h3 /\
      yields X (NBinary nx (OpCmp CNotIn) (NInterval na nb lb rb)) root h (Ok (VBool (negb r))) h3 /\
      (r = true <-> above lb (dec_val a) (dec_val x) /\ below rb (dec_val b) (dec_val x)).
  Proof.
    intros Hl Hr. destruct (includes_inside lb rb a b x Hl Hr) as (r & E & S).
    destruct (in_eval r E). eauto.
  Qed.
  Lemma in_outside : closing lb -> opening rb ->
    exists r, yields X (NBinary nx (OpCmp CIn) (NInterval na nb lb rb)) root h (Ok (VBool r)) h3 /\
      yields X (NBinary nx (OpCmp CNotIn) (NInterval na nb lb rb)) root h (Ok (VBool (negb r))) h3 /\
      (r = true <-> left_of lb (dec_val a) (dec_val x) \/ right_of rb (dec_val b) (dec_val x)).
  Proof.
    intros Hl Hr. destruct (includes_outside lb rb a b x Hl Hr) as (r & E & S).
    destruct (in_eval r E). eauto.
  Qed.
End In.

(** ** Iterating an interval *)
Lemma zrange_from_in : forall n s z, In z (zrange_from s n) <-> (s <= z < s + Z.of_nat n)%Z.
Proof.
  induction n; intros s z; cbn [zrange_from In]; [lia|]. rewrite IHn. lia.
Qed.
Lemma zrange_in : forall a b z, In z (zrange a b) <-> (a <= z <= b)%Z.
Proof.
  intros a b z. unfold zrange. destruct (Z.leb_spec a b); [|cbn; lia]. rewrite zrange_from_in. lia.
Qed.
Lemma zrange_from_sorted : forall n s, StronglySorted Z.lt (zrange_from s n).
Proof.
  induction n; intros s; cbn; constructor; auto. apply Forall_forall. intros z Hz.
  apply zrange_from_in in Hz. lia.
Qed.
Lemma zrange_sorted : forall a b, StronglySorted Z.lt (zrange a b).
Proof. intros. unfold zrange. destruct (a <=? b)%Z; [apply zrange_from_sorted|constructor]. Qed.

Lemma dec_trunc_Z : forall d z, (dec_val d == inject_Z z)%Q -> dec_trunc d = z.
Proof.
  intros d z E. unfold dec_val, Qeq in E. cbn in E. rewrite pos_pow10 in E. unfold dec_trunc.
  replace (mant d) with (z * pow10 (scale d))%Z by lia. apply Z.quot_mul. pose proof (pow10_pos (scale d)). lia.
Qed.
Lemma dec_val_Z : forall z, (dec_val (dec_of_Z z) == inject_Z z)%Q.
Proof. intros. unfold dec_val, dec_of_Z, Qeq. cbn. lia. Qed.

(** The visited numbers. *)
Definition first_of (lb : bracket) (a : Z) : Z := match lb with LParen => (a + 1)%Z | _ => a end.
Definition last_of (rb : bracket) (b : Z) : Z := match rb with RParen => (b - 1)%Z | _ => b end.
Lemma to_array_ints : forall lb rb a b za zb, opening lb -> closing rb ->
  (dec_val a == inject_Z za)%Q -> (dec_val b == inject_Z zb)%Q ->
  (- 2 ^ 63 <= za < 2 ^ 63)%Z -> (- 2 ^ 63 <= zb < 2 ^ 63)%Z ->
  interval_to_array (Interval lb rb (INum a) (INum b)) =
    Some (map (fun z => VNum (dec_of_Z z)) (zrange (first_of lb za) (last_of rb zb))).
Proof.
  intros lb rb a b za zb Hl Hr Ea Eb Ra Rb.
  assert (A : dec_to_i64 a = Some za).
  { unfold dec_to_i64. rewrite (dec_trunc_Z _ _ Ea). destruct Ra as [R1 R2].
    apply Z.leb_le in R1. apply Z.ltb_lt in R2. now rewrite R1, R2. }
  assert (B : dec_to_i64 b = Some zb).
  { unfold dec_to_i64. rewrite (dec_trunc_Z _ _ Eb). destruct Rb as [R1 R2].
    apply Z.leb_le in R1. apply Z.ltb_lt in R2. now rewrite R1, R2. }
  unfold interval_to_array. cbn [iv_left iv_right iv_lb iv_rb].
  destruct Hl as [-> | ->], Hr as [-> | ->]; rewrite A, B; reflexivity.
Qed.
Lemma visited_iff : forall lb rb za zb z, opening lb -> closing rb ->
  (In z (zrange (first_of lb za) (last_of rb zb)) <->
   above lb (inject_Z za) (inject_Z z) /\ below rb (inject_Z zb) (inject_Z z)).
Proof.
  intros lb rb za zb z Hl Hr. rewrite zrange_in.
  destruct Hl as [-> | ->], Hr as [-> | ->]; cbn; rewrite <- ?Zlt_Qlt, <- ?Zle_Qle; lia.
Qed.

(** [map(I, #)] lists the visited numbers. *)
Lemma iterate_map_self : forall X root arr l n xs env, n = length xs -> arr = VArr l ->
  forall m i acc c h, m + i = n -> harr h l = Some xs ->
  iterate ClMap (fun lp => eval X root [] [lp] NPointer) m (Loop arr n i c) acc env h =
  LDone (Loop arr n n c) (acc ++ skipn i xs) env h.
Proof.
  intros X root arr l n xs env Hn Ha. induction m as [|m IH]; intros i acc c h Hi Hh.
  - cbn. replace i with n by lia. rewrite (skipn_all2 xs) by lia. now rewrite app_nil_r.
  - destruct (nth_error xs i) as [x|] eqn:E; [|apply nth_error_None in E; lia].
    assert (A : advance ClMap (fun lp => eval X root [] [lp] NPointer) (Loop arr n i c) acc env h =
                LDone (Loop arr n i c) (acc ++ [x]) env h).
    { unfold advance. cbn [eval]. unfold op_pointer. cbn [nth_error lp_array lp_iter]. subst arr. rewrite Hh, E.
      reflexivity. }
    cbn [iterate]. rewrite A. unfold bump_it. cbn [lp_array lp_len lp_iter lp_count].
    rewrite IH by (auto; lia). f_equal. rewrite <- app_assoc. f_equal. cbn.
    clear -E. revert i E. induction xs as [|y xs IH]; intros [|i] E; try discriminate.
    + cbn in *. congruence.
    + cbn [skipn nth_error] in *. rewrite (IH _ E). reflexivity.
Qed.

Lemma map_self_array : forall X root n l xs h h1, no_assign n = true ->
  (exists v, yields X n root h (Ok v) h1 /\
    op_begin h1 v = (match v with VArr _ => h1 | _ => h1 ++ [CArr xs] end, Ok (Loop (VArr l) (length xs) 0 0)) /\
    harr (match v with VArr _ => h1 | _ => h1 ++ [CArr xs] end) l = Some xs) ->
  exists h2 l2, yields X (closure_call ClMap n (NClosure NPointer None)) root h (Ok (VArr l2)) h2 /\
    hget h2 l2 = Some (CArr xs) /\ hext h1 h2.
Proof.
  intros X root n l xs h h1 N (v & Y & B & Hx).
  set (hb := match v with VArr _ => h1 | _ => h1 ++ [CArr xs] end) in *.
  assert (He : hext h1 hb) by (unfold hb; destruct v; try apply hext_alloc; apply hext_refl).
  exists (hb ++ [CArr xs]), (length hb). split; [|split; [apply hget_alloc_new|eapply hext_trans; [exact He|apply hext_alloc]]].
  eapply eval_yields with (o := ORet _ root _).
  - pose proof (yields_compiles _ _ _ _ _ _ Y) as [c C]. unfold compiles, closure_call. setoid_rewrite compile_cgen.
    rewrite compile_cgen in C. cbn [cgen]. rewrite C. cbn. eauto.
  - unfold closure_call. cbn [eval]. rewrite (yields_eval _ _ _ _ _ _ N Y). cbn [obind]. rewrite B.
    cbn [lp_len]. 
    change (fun lp : loop => eval X root [None] [lp] NPointer) with (fun lp : loop => eval X root [] [lp] NPointer).
    erewrite (iterate_map_self X root (VArr l) l (length xs) xs); eauto; try lia; reflexivity.
Qed.

Lemma interval_visits : forall X na nb lb rb root h h1 h2 a b za zb,
  no_assign na = true -> no_assign nb = true ->
  yields X na root h (Ok (VNum a)) h1 -> yields X nb root h1 (Ok (VNum b)) h2 ->
  (dec_val a == inject_Z za)%Q -> (dec_val b == inject_Z zb)%Q ->
  (- 2 ^ 63 <= za < 2 ^ 63)%Z -> (- 2 ^ 63 <= zb < 2 ^ 63)%Z -> opening lb -> closing rb ->
  exists h3 l zs,
    yields X (closure_call ClMap (NInterval na nb lb rb) (NClosure NPointer None)) root h (Ok (VArr l)) h3 /\
    hget h3 l = Some (CArr (map (fun z => VNum (dec_of_Z z)) zs)) /\
    StronglySorted Z.lt zs /\
    (forall z, In z zs <-> above lb (inject_Z za) (inject_Z z) /\ below rb (inject_Z zb) (inject_Z z)).
Proof.
  intros X na nb lb rb root h h1 h2 a b za zb Na Nb Ya Yb Ea Eb Ra Rb Hl Hr.
  pose proof (to_array_ints lb rb a b za zb Hl Hr Ea Eb Ra Rb) as T.
  set (zs := zrange (first_of lb za) (last_of rb zb)) in *.
  set (xs := map (fun z => VNum (dec_of_Z z)) zs) in *.
  destruct (map_self_array X root (NInterval na nb lb rb) (length h2) xs h h2) as (h3 & l & Y & G & _).
  - cbn. now rewrite Na, Nb.
  - exists (VDyn (DInterval (Interval lb rb (INum a) (INum b)))). split; [|split].
    + eapply eval_yields with (o := ORet _ root h2).
      * apply compiles_interval; eapply yields_compiles; eauto.
      * cbn [eval]. rewrite (yields_eval _ _ _ _ _ _ Na Ya). cbn [obind].
        rewrite (yields_eval _ _ _ _ _ _ Nb Yb). reflexivity.
    + cbn [op_begin]. rewrite T. reflexivity.
    + apply harr_hget. apply hget_alloc_new.
  - exists h3, l, zs. split; auto. split; auto. split; [apply zrange_sorted|].
    intros. now apply visited_iff.
Qed.

(** ** Slices *)
Lemma substring_length : forall s a n, a + n <= String.length s -> String.length (substring a n s) = n.
Proof.
  induction s as [|c s IH]; intros a n H.
  - cbn in H. assert (a = 0 /\ n = 0) as [-> ->] by lia. reflexivity.
  - destruct a; destruct n; cbn in *; auto. + now rewrite (IH 0 n) by lia. + apply IH; lia. + apply IH; lia.
Qed.
Lemma substring_get : forall s a n i, i < n -> String.get i (substring a n s) = String.get (a + i) s.
Proof. intros. rewrite Nat.add_comm. now apply substring_correct1. Qed.


Lemma slice_string : forall s a b,
  (sliceable s a b -> exists r, zstr_get s (Z.of_nat a) (Z.of_nat b + 1) = Some r /\ is_slice s a b r) /\
  (~ sliceable s a b -> zstr_get s (Z.of_nat a) (Z.of_nat b + 1) = None).
Proof.
  intros s a b. unfold zstr_get, sliceable, str_get.
  replace (Z.of_nat b + 1)%Z with (Z.of_nat (b + 1)) by lia. rewrite !Nat2Z.id. split.
  - intros ([L1 L2] & B1 & B2).
    replace (Z.of_nat a <=? Z.of_nat (String.length s))%Z with true by (symmetry; apply Z.leb_le; lia).
    replace (Z.of_nat (b + 1) <=? Z.of_nat (String.length s))%Z with true by (symmetry; apply Z.leb_le; lia).
    rewrite B1, B2. replace (a <=? b + 1) with true by (symmetry; apply Nat.leb_le; lia). cbn.
    eexists. split; [reflexivity|]. split; [apply substring_length; lia|]. intros. now apply substring_get.
  - intros N.
    destruct (Z.leb_spec (Z.of_nat a) (Z.of_nat (String.length s))); cbn; auto.
    destruct (Z.leb_spec (Z.of_nat (b + 1)) (Z.of_nat (String.length s))); cbn; auto.
    destruct (Nat.leb_spec a (b + 1)); cbn; auto.
    destruct (is_char_boundary s a) eqn:B1; cbn; auto. destruct (is_char_boundary s (b + 1)) eqn:B2; cbn; auto.
    exfalso. apply N. repeat split; auto; lia.
Qed.

Lemma to_usize_nat : forall d n, u64_of d n -> dec_to_usize d = Some (Z.of_nat n).
Proof.
  intros d n [E B]. unfold dec_to_usize. rewrite (dec_trunc_Z _ _ E).
  assert (0 <= mant d)%Z.
  { unfold dec_val, Qeq in E. cbn in E. rewrite pos_pow10 in E. pose proof (pow10_pos (scale d)). nia. }
  replace (mant d <? 0)%Z with false by (symmetry; apply Z.ltb_ge; lia).
  replace (Z.of_nat n <? 2 ^ 64)%Z with true by (symmetry; apply Z.ltb_lt; lia). reflexivity.
Qed.

Section Slice.
  Variable X : ext.
  Variables (ns na nb : node) (root : scope) (h h1 h2 h3 : heap) (s : string) (a b : nat) (da db : dec).
  Hypothesis Ns : no_assign ns = true.
  Hypothesis Na : no_assign na = true.
  Hypothesis Nb : no_assign nb = true.
  Hypothesis Ys : yields X ns root h (Ok (VStr s)) h1.
  (** The upper end is evaluated first. *)
  Hypothesis Yb : yields X nb root h1 (Ok (VNum db)) h2.
  Hypothesis Ya : yields X na root h2 (Ok (VNum da)) h3.
  Hypothesis Ua : u64_of da a.
  Hypothesis Ub : u64_of db b.

  Lemma slice_ok : sliceable s a b -> exists r, is_slice s a b r /\
    yields X (NSlice ns (Some na) (Some nb)) root h (Ok (VStr r)) h3.
  Proof.
    intros S. destruct (proj1 (slice_string s a b) S) as (r & E & Sr). exists r. split; auto.
    eapply eval_yields with (o := ORet _ root h3).
    - apply compiles_slice; eapply yields_compiles; eauto.
    - cbn [eval]. rewrite (yields_eval _ _ _ _ _ _ Ns Ys). cbn [obind].
      rewrite (yields_eval _ _ _ _ _ _ Nb Yb). cbn [obind].
      rewrite (yields_eval _ _ _ _ _ _ Na Ya). cbn [obind op_slice].
      rewrite (to_usize_nat _ _ Ua), (to_usize_nat _ _ Ub), E. reflexivity.
  Qed.
  Lemma slice_err : ~ sliceable s a b ->
    exists e, yields X (NSlice ns (Some na) (Some nb)) root h (Err e) h3.
  Proof.
    intros S. pose proof (proj2 (slice_string s a b) S) as E. eexists.
    eapply eval_yields with (o := OErr _ h3).
    - apply compiles_slice; eapply yields_compiles; eauto.
    - cbn [eval]. rewrite (yields_eval _ _ _ _ _ _ Ns Ys). cbn [obind].
      rewrite (yields_eval _ _ _ _ _ _ Nb Yb). cbn [obind].
      rewrite (yields_eval _ _ _ _ _ _ Na Ya). cbn [obind op_slice].
      rewrite (to_usize_nat _ _ Ua), (to_usize_nat _ _ Ub), E. reflexivity.
  Qed.
End Slice.

(** Omitted ends: [0] and, given a subtraction that is exact there, [len - 1]. *)
Lemma slice_from_default : forall X ns nb root h r h1, no_assign ns = true -> no_assign nb = true ->
  (yields X (NSlice ns None (Some nb)) root h r h1 <->
   yields X (NSlice ns (Some (NNumber dec_zero)) (Some nb)) root h r h1).
Proof.
  intros. rewrite !yields_iff. unfold compiles. setoid_rewrite compile_cgen. unfold evaluate. cbn [cgen eval].
  split; intros [A B]; split; auto.
Qed.
Lemma slice_to_default : forall X ns na root h h1 s r h2 d, no_assign ns = true ->
  yields X ns root h (Ok (VStr s)) h1 -> x_sub X (dec_of_nat (String.length s)) dec_one = Some d ->
  (yields X (NSlice ns (Some na) None) root h r h2 <->
   yields X (NSlice ns (Some na) (Some (NNumber d))) root h r h2).
Proof.
  intros X ns na root h h1 s r h2 d N Y S. rewrite !yields_iff. unfold compiles. setoid_rewrite compile_cgen.
  unfold evaluate. cbn [cgen eval]. rewrite (yields_eval _ _ _ _ _ _ N Y). cbn [obind op_len bind op_sub].
  rewrite S. cbn [of_option lift obind bind].
  split; intros [(c & A) B]; (split; [|exact B]);
    (destruct (cgen X [] ns); cbn in *; [|discriminate]); (destruct (cgen X [] na); cbn in *; [|discriminate]); eauto.
Qed.
(** A whole-string slice is the string. *)
Lemma substring_all : forall s, substring 0 (String.length s) s = s.
Proof. induction s; cbn; congruence. Qed.

(** Arrays. *)
Lemma slice_array : forall X ns na nb root h h1 h2 h3 l xs a b da db,
  no_assign ns = true -> no_assign na = true -> no_assign nb = true ->
  yields X ns root h (Ok (VArr l)) h1 -> yields X nb root h1 (Ok (VNum db)) h2 ->
  yields X na root h2 (Ok (VNum da)) h3 -> u64_of da a -> u64_of db b -> hget h3 l = Some (CArr xs) ->
  (a <= b + 1 /\ b < length xs -> exists l4,
     yields X (NSlice ns (Some na) (Some nb)) root h (Ok (VArr l4)) (h3 ++ [CArr (firstn (b + 1 - a) (skipn a xs))]) /\
     l4 = length h3) /\
  (~ (a <= b + 1 /\ b < length xs) -> exists e, yields X (NSlice ns (Some na) (Some nb)) root h (Err e) h3).
Proof.
  intros X ns na nb root h h1 h2 h3 l xs a b da db Ns Na Nb Ys Yb Ya Ua Ub G.
  assert (C : compiles X (NSlice ns (Some na) (Some nb)))
    by (apply compiles_slice; eapply yields_compiles; eauto).
  assert (E : eval X root [] [] (NSlice ns (Some na) (Some nb)) root h =
    hlift root (op_slice h3 (VArr l) (VNum db) (VNum da))).
  { cbn [eval]. rewrite (yields_eval _ _ _ _ _ _ Ns Ys). cbn [obind].
    rewrite (yields_eval _ _ _ _ _ _ Nb Yb). cbn [obind].
    rewrite (yields_eval _ _ _ _ _ _ Na Ya). reflexivity. }
  unfold op_slice in E. rewrite (to_usize_nat _ _ Ua), (to_usize_nat _ _ Ub) in E.
  rewrite (proj2 (harr_hget _ _ _) G) in E. unfold zsub in E. split.
  - intros [A B]. replace (Z.of_nat a <=? Z.of_nat b + 1)%Z with true in E by (symmetry; apply Z.leb_le; lia).
    replace (Z.of_nat b <? Z.of_nat (length xs))%Z with true in E by (symmetry; apply Z.ltb_lt; lia).
    cbn [andb] in E. rewrite Nat2Z.id in E. replace (Z.to_nat (Z.of_nat b + 1 - Z.of_nat a)) with (b + 1 - a) in E by lia.
    exists (length h3). split; auto. exact (eval_yields _ _ _ _ _ C E).
  - intros N. assert (F : (Z.of_nat a <=? Z.of_nat b + 1)%Z && (Z.of_nat b <? Z.of_nat (length xs))%Z = false).
    { apply andb_false_iff. destruct (Z.leb_spec (Z.of_nat a) (Z.of_nat b + 1)); auto.
      right. apply Z.ltb_ge. lia. }
    rewrite F in E. eexists. exact (eval_yields _ _ _ _ _ C E).
Qed.
