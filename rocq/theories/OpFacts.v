(** What the operators compute. *)
From Coq Require Import String Ascii ZArith Lia Bool List Arith QArith Lqa.
From Verif Require Import Base Dec Value Heap Ast Ops Compiler Vm Eval CompilerFacts ExprFacts Funcs Samples HeapSpec TreeFacts
  PureFacts RunSpec FuncClaims.
Import ListNotations.
Local Open Scope string_scope.
Local Open Scope nat_scope.

(** ** Specification *)
(** The operands [na] and [nb] evaluate, in this order, to [a] and [b]. *)
Definition operands (X : ext) (na nb : node) (root : scope) (h : heap) (a b : value) (h2 : heap) : Prop :=
  no_assign na = true /\ no_assign nb = true /\
  exists h1, yields X na root h (Ok a) h1 /\ yields X nb root h1 (Ok b) h2.
(** Numbers compare by value. *)
Definition num_holds (c : comparison_op) (x y : dec) : Prop :=
  match c with
  | CLt => dec_val x < dec_val y
  | CLe => dec_val x <= dec_val y
  | CGt => dec_val y < dec_val x
  | CGe => dec_val y <= dec_val x
  | CEq => dec_val x == dec_val y
  | CNe => ~ dec_val x == dec_val y
  | _ => False
  end%Q.
(** Dates compare by instant; an invalid date precedes every valid one. *)
Definition date_lt (x y : vmdate) : Prop :=
  match vd_instant x, vd_instant y with
  | Some a, Some b => (a < b)%Z
  | None, Some _ => True
  | _, None => False
  end.
Definition date_holds (c : comparison_op) (x y : vmdate) : Prop :=
  match c with
  | CLt => date_lt x y
  | CLe => ~ date_lt y x
  | CGt => date_lt y x
  | CGe => ~ date_lt x y
  | CEq => vd_instant x = vd_instant y
  | CNe => vd_instant x <> vd_instant y
  | _ => False
  end.
(** Equality of scalars: same kind and same value. *)
Definition scalar_eq (a b : value) : Prop :=
  match a, b with
  | VNull, VNull => True
  | VBool x, VBool y => x = y
  | VNum x, VNum y => (dec_val x == dec_val y)%Q
  | VStr x, VStr y => x = y
  | VDyn (DDate x), VDyn (DDate y) => vd_instant x = vd_instant y
  | _, _ => False
  end.
Definition scalar (a : value) : Prop :=
  match a with VArr _ | VObj _ | VDyn (DInterval _) => False | _ => True end.
Definition ordered_cmp (c : comparison_op) : Prop := In c [CLt; CLe; CGt; CGe].
Definition both_nums (a b : value) : Prop := exists x y, a = VNum x /\ b = VNum y.
Definition both_dates (a b : value) : Prop := exists x y, a = VDyn (DDate x) /\ b = VDyn (DDate y).
Definition both_strs (a b : value) : Prop := exists x y, a = VStr x /\ b = VStr y.

(** ** Proofs *)
Lemma binary_yields : forall X na op nb root h a b h2 c, operands X na nb root h a b h2 ->
  simple_binop op = Some c ->
  yields X (NBinary na op nb) root h (bin_value X op h2 a b) h2.
Proof.
  intros X na op nb root h a b h2 c (Na & Nb & h1 & Ya & Yb) Ho.
  pose proof (yields_eval _ _ _ _ _ _ Na Ya) as Ea. pose proof (yields_eval _ _ _ _ _ _ Nb Yb) as Eb.
  assert (C : compiles X (NBinary na op nb)).
  { apply compiles_binary; [eapply yields_compiles; eauto..|]. left. congruence. }
  assert (E : eval X root [] [] (NBinary na op nb) root h = lift root h2 (bin_value X op h2 a b)).
  { cbn [eval]. rewrite Ea. cbn [obind].
    destruct op as [o|o|o| | | | | | |]; try discriminate; try (destruct o; try discriminate); rewrite Eb; reflexivity. }
  pose proof (eval_yields _ _ _ _ _ C E) as Y. destruct (bin_value X op h2 a b); exact Y.
Qed.
Lemma dec_cmp_spec : forall x y, match dec_cmp x y with
  | Lt => (dec_val x < dec_val y)%Q | Eq => (dec_val x == dec_val y)%Q | Gt => (dec_val y < dec_val x)%Q end.
Proof.
  intros. rewrite dec_cmp_val. destruct (Qcompare (dec_val x) (dec_val y)) eqn:E.
  - now apply Qeq_alt. - now apply Qlt_alt. - now apply Qgt_alt.
Qed.
Lemma compare_numbers : forall X na nb root h h2 x y c, operands X na nb root h (VNum x) (VNum y) h2 ->
  In c [CLt; CLe; CGt; CGe; CEq; CNe] ->
  exists b, yields X (NBinary na (OpCmp c) nb) root h (Ok (VBool b)) h2 /\ (b = true <-> num_holds c x y).
Proof.
  intros X na nb root h h2 x y c O Hc. pose proof (dec_cmp_spec x y) as S.
  cbn in Hc. destruct Hc as [<-|[<-|[<-|[<-|[<-|[<-|[]]]]]]];
    (match goal with |- exists b, yields _ (NBinary _ ?op _) _ _ _ _ /\ _ =>
      eexists; split; [exact (binary_yields X na op nb root h _ _ h2 _ O eq_refl)|] end);
    cbn; unfold dec_eqb; destruct (dec_cmp x y); cbn; (split; [intros F|intros F]); try discriminate F; auto; try (exfalso; lra); lra.
Qed.
Lemma vmdate_cmp_spec : forall x y, match vmdate_cmp x y with
  | Lt => date_lt x y | Eq => vd_instant x = vd_instant y | Gt => date_lt y x end.
Proof.
  intros [[a|] ta] [[b|] tb]; unfold vmdate_cmp, date_lt; cbn; auto.
  destruct (Z.compare_spec a b); subst; auto.
Qed.
Lemma date_lt_irrefl : forall x y, date_lt x y -> vd_instant x = vd_instant y -> False.
Proof. intros [[a|] ta] [[b|] tb] H E; cbn in *; try contradiction; try discriminate. injection E as ->. lia. Qed.
Lemma date_lt_asym : forall x y, date_lt x y -> date_lt y x -> False.
Proof. intros [[a|] ta] [[b|] tb]; cbn; auto. lia. Qed.
Lemma compare_dates : forall X na nb root h h2 x y c, operands X na nb root h (VDyn (DDate x)) (VDyn (DDate y)) h2 ->
  In c [CLt; CLe; CGt; CGe; CEq; CNe] ->
  exists b, yields X (NBinary na (OpCmp c) nb) root h (Ok (VBool b)) h2 /\ (b = true <-> date_holds c x y).
Proof.
  intros X na nb root h h2 x y c O Hc. pose proof (vmdate_cmp_spec x y) as S.
  assert (D : forall x y, vd_instant x = vd_instant y -> date_lt x y -> False) by (intros; eapply date_lt_irrefl; eauto).
  assert (D' : forall x y, vd_instant x = vd_instant y -> date_lt y x -> False) by (intros; eapply date_lt_irrefl; eauto; congruence).
  cbn in Hc. destruct Hc as [<-|[<-|[<-|[<-|[<-|[<-|[]]]]]]];
    (match goal with |- exists b, yields _ (NBinary _ ?op _) _ _ _ _ /\ _ =>
      eexists; split; [exact (binary_yields X na op nb root h _ _ h2 _ O eq_refl)|] end);
    cbn; unfold vmdate_eqb, cmp_lt, cmp_le, cmp_gt, cmp_ge; destruct (vmdate_cmp x y); cbn;
    (split; [intros F; try discriminate F|intros F]); auto; try (exfalso; eauto using date_lt_asym; fail);
    try (intros F2; eauto using date_lt_asym; fail).
Qed.
Lemma compare_others : forall X na nb root h h2 a b c, operands X na nb root h a b h2 -> ordered_cmp c ->
  ~ both_nums a b -> ~ both_dates a b ->
  yields X (NBinary na (OpCmp c) nb) root h (Err (EOp "Compare")) h2.
Proof.
  intros X na nb root h h2 a b c O Hc Hn Hd.
  assert (E : forall k, op_compare k a b = Err (EOp "Compare")).
  { intros k. unfold op_compare. destruct a; auto.
    - destruct b; auto. exfalso. apply Hn. repeat eexists.
    - destruct d; auto. destruct b; auto. destruct d0; auto. exfalso. apply Hd. repeat eexists. }
  cbn in Hc. destruct Hc as [<-|[<-|[<-|[<-|[]]]]];
    match goal with |- yields _ (NBinary _ ?op _) _ _ _ _ => pose proof (binary_yields X na op nb root h a b h2 _ O eq_refl) as Y end;
    cbn [bin_value] in Y; rewrite E in Y; exact Y.
Qed.
Lemma op_equal_spec : forall a b, exists r, op_equal a b = VBool r /\ (r = true <-> scalar_eq a b).
Proof.
  intros a b. unfold op_equal. eexists. split; [reflexivity|].
  destruct a as [|x|x|x|x|x|[x|x]], b as [|y|y|y|y|y|[y|y]]; cbn; try (split; [discriminate|contradiction]).
  - tauto.
  - apply Bool.eqb_true_iff.
  - apply dec_eqb_val.
  - apply String.eqb_eq.
  - apply vmdate_eqb_iff.
Qed.
Lemma equal_scalars : forall X na nb root h h2 a b, operands X na nb root h a b h2 ->
  exists r, yields X (NBinary na (OpCmp CEq) nb) root h (Ok (VBool r)) h2 /\
    yields X (NBinary na (OpCmp CNe) nb) root h (Ok (VBool (negb r))) h2 /\ (r = true <-> scalar_eq a b).
Proof.
  intros X na nb root h h2 a b O. destruct (op_equal_spec a b) as (r & E & S). exists r.
  pose proof (binary_yields X na (OpCmp CEq) nb root h a b h2 _ O eq_refl) as Y1.
  pose proof (binary_yields X na (OpCmp CNe) nb root h a b h2 _ O eq_refl) as Y2.
  cbn [bin_value] in Y1, Y2. rewrite E in Y1, Y2. auto.
Qed.
Lemma in_array : forall X na nb root h h2 a l xs, operands X na nb root h a (VArr l) h2 -> hget h2 l = Some (CArr xs) ->
  scalar a ->
  exists r, yields X (NBinary na (OpCmp CIn) nb) root h (Ok (VBool r)) h2 /\
    yields X (NBinary na (OpCmp CNotIn) nb) root h (Ok (VBool (negb r))) h2 /\
    (r = true <-> exists x, In x xs /\ scalar_eq a x).
Proof.
  intros X na nb root h h2 a l xs O G Sa. apply harr_hget in G.
  assert (E : exists r, op_in h2 a (VArr l) = Ok (VBool r) /\ (r = true <-> exists x, In x xs /\ scalar_eq a x)).
  { assert (F : forall f : value -> bool, (forall x, f x = true <-> scalar_eq a x) ->
      arr_any h2 l f = true <-> exists x, In x xs /\ scalar_eq a x).
    { intros f Hf. unfold arr_any. rewrite G. rewrite existsb_exists. split; intros (x & A & B); exists x; split; auto; now apply Hf. }
    destruct a as [|x|x|x|x|x|[x|x]]; cbn in Sa; try contradiction; cbn [op_in]; eexists; (split; [reflexivity|]); apply F;
      intros [|y|y|y|y|y|[y|y]]; cbn; try (split; [discriminate|contradiction]); try tauto.
    - apply Bool.eqb_true_iff.
    - apply dec_eqb_val.
    - apply String.eqb_eq.
    - apply vmdate_eqb_iff. }
  destruct E as (r & E & S). exists r.
  pose proof (binary_yields X na (OpCmp CIn) nb root h _ _ h2 _ O eq_refl) as Y1.
  pose proof (binary_yields X na (OpCmp CNotIn) nb root h _ _ h2 _ O eq_refl) as Y2.
  cbn [bin_value] in Y1, Y2. rewrite E in Y1, Y2. auto.
Qed.
Lemma in_object : forall X na nb root h h2 k l m, operands X na nb root h (VStr k) (VObj l) h2 -> hget h2 l = Some (CObj m) ->
  exists r, yields X (NBinary na (OpCmp CIn) nb) root h (Ok (VBool r)) h2 /\ (r = true <-> In k (map fst m)).
Proof.
  intros X na nb root h h2 k l m O G. apply hobj_hget in G. exists (amem k m).
  pose proof (binary_yields X na (OpCmp CIn) nb root h _ _ h2 _ O eq_refl) as Y. cbn [bin_value op_in] in Y. rewrite G in Y.
  split; [exact Y|]. unfold amem. clear. induction m as [|[k' v] m IH]; cbn; [split; [discriminate|tauto]|].
  destruct (String.eqb_spec k' k); [subst; tauto|]. rewrite IH. intuition congruence.
Qed.

Definition arith_of (X : ext) (o : arith) : dec -> dec -> option dec :=
  match o with AAdd => x_add X | ASub => x_sub X | AMul => x_mul X | ADiv => x_div X | AMod => x_rem X | APow => x_pow X end.
(** The exact result of [+ - * /] as a rational. *)
Definition exact_result (o : arith) (x y : Q) : option Q :=
  match o with
  | AAdd => Some (x + y) | ASub => Some (x - y) | AMul => Some (x * y)
  | ADiv => Some (x / y) | _ => None
  end%Q.
Lemma arith_exact : forall L na nb root h h2 x y o r, operands (std_ext L) na nb root h (VNum x) (VNum y) h2 ->
  In o [AAdd; ASub; AMul; ADiv] ->
  (* the decimal library computes this operation exactly on these operands *)
  (let f := match o with AAdd => l_add L | ASub => l_sub L | AMul => l_mul L | _ => l_div L end in
   exists s, f x y = Some s /\ exact_result o (dec_val x) (dec_val y) = Some r /\ (dec_val s == r)%Q) ->
  exists s, yields (std_ext L) (NBinary na (OpArith o) nb) root h (Ok (VNum s)) h2 /\ (dec_val s == r)%Q.
Proof.
  intros L na nb root h h2 x y o r O Ho (s & E & _ & V). exists s. split; auto.
  cbn in Ho. destruct Ho as [<-|[<-|[<-|[<-|[]]]]];
    match goal with |- yields _ (NBinary _ ?op _) _ _ _ _ => pose proof (binary_yields _ na op nb root h _ _ h2 _ O eq_refl) as Y end;
    cbn in Y; rewrite E in Y; exact Y.
Qed.
Lemma arith_undefined : forall X na nb root h h2 x y o, operands X na nb root h (VNum x) (VNum y) h2 ->
  arith_of X o x y = None ->
  yields X (NBinary na (OpArith o) nb) root h
    (match o with ADiv | AMod => Ok VNull
     | AAdd => Err (EOp "Add") | ASub => Err (EOp "Subtract") | AMul => Err (EOp "Multiply") | APow => Err (EOp "Exponent") end) h2.
Proof.
  intros X na nb root h h2 x y o O E.
  destruct o; match goal with |- yields _ (NBinary _ ?op _) _ _ _ _ => pose proof (binary_yields _ na op nb root h _ _ h2 _ O eq_refl) as Y end;
    cbn in Y, E; rewrite E in Y; exact Y.
Qed.
Lemma arith_type_error : forall X na nb root h h2 a b o, operands X na nb root h a b h2 -> ~ both_nums a b ->
  (o = AAdd -> ~ both_strs a b) -> exists w, yields X (NBinary na (OpArith o) nb) root h (Err (EOp w)) h2.
Proof.
  intros X na nb root h h2 a b o O Hn Hs.
  assert (E : exists w, bin_value X (OpArith o) h2 a b = Err (EOp w)).
  { destruct o, a, b; cbn; eauto; exfalso; try (apply Hn; repeat eexists; fail); apply (Hs eq_refl); repeat eexists. }
  destruct E as [w E]. exists w.
  assert (So : exists c, simple_binop (OpArith o) = Some c) by (destruct o; cbn; eauto). destruct So as [c So].
  pose proof (binary_yields X na (OpArith o) nb root h a b h2 c O So) as Y. rewrite E in Y. exact Y.
Qed.
Lemma concat_strings : forall X na nb root h h2 x y, operands X na nb root h (VStr x) (VStr y) h2 ->
  yields X (NBinary na (OpArith AAdd) nb) root h (Ok (VStr (x ++ y))) h2.
Proof. intros. exact (binary_yields X na (OpArith AAdd) nb root h _ _ h2 _ H eq_refl). Qed.

(** Logic, with both operands boolean. *)
Lemma logic_table : forall X na nb root h h2 p q, operands X na nb root h (VBool p) (VBool q) h2 ->
  (exists h', yields X (NBinary na (OpLogic LAnd) nb) root h (Ok (VBool (p && q))) h') /\
  (exists h', yields X (NBinary na (OpLogic LOr) nb) root h (Ok (VBool (p || q))) h').
Proof.
  intros X na nb root h h2 p q (Na & Nb & h1 & Ya & Yb).
  pose proof (yields_eval _ _ _ _ _ _ Na Ya) as Ea. pose proof (yields_eval _ _ _ _ _ _ Nb Yb) as Eb.
  assert (C : forall o, short_binop (OpLogic o) <> None -> compiles X (NBinary na (OpLogic o) nb))
    by (intros o Ho; apply compiles_binary; [eapply yields_compiles; eauto..|now right]).
  split; [exists (if p then h2 else h1)|exists (if p then h1 else h2)].
  - assert (E : eval X root [] [] (NBinary na (OpLogic LAnd) nb) root h = ORet (VBool (p && q)) root (if p then h2 else h1)).
    { cbn [eval]. rewrite Ea. cbn [obind]. destruct p; [exact Eb|reflexivity]. }
    exact (eval_yields _ _ _ _ _ (C LAnd ltac:(discriminate)) E).
  - assert (E : eval X root [] [] (NBinary na (OpLogic LOr) nb) root h = ORet (VBool (p || q)) root (if p then h1 else h2)).
    { cbn [eval]. rewrite Ea. cbn [obind]. destruct p; [reflexivity|exact Eb]. }
    exact (eval_yields _ _ _ _ _ (C LOr ltac:(discriminate)) E).
Qed.
Lemma not_value : forall X na root h h1 a, no_assign na = true -> yields X na root h (Ok a) h1 ->
  yields X (NUnary na (OpLogic LNot)) root h
    (match a with VBool b => Ok (VBool (negb b)) | _ => Err (EOp "Not") end) h1.
Proof.
  intros X na root h h1 a Na Ya. pose proof (yields_eval _ _ _ _ _ _ Na Ya) as Ea.
  assert (E : eval X root [] [] (NUnary na (OpLogic LNot)) root h = lift root h1 (op_not a)) by (cbn [eval]; rewrite Ea; reflexivity).
  pose proof (eval_yields _ _ _ _ _ (compiles_not _ _ (yields_compiles _ _ _ _ _ _ Ya)) E) as Y. destruct a; exact Y.
Qed.
Lemma compiles_neg : forall X a, compiles X a -> compiles X (NUnary a (OpArith ASub)).
Proof.
  intros X a [ca A]. unfold compiles. setoid_rewrite compile_cgen. rewrite compile_cgen in A.
  cbn [cgen]. rewrite A. cbn. eauto.
Qed.
Lemma negate_value : forall X na root h h1 x, no_assign na = true -> yields X na root h (Ok (VNum x)) h1 ->
  exists s, yields X (NUnary na (OpArith ASub)) root h (Ok (VNum s)) h1 /\ (dec_val s == - dec_val x)%Q.
Proof.
  intros X na root h h1 x Na Ya. pose proof (yields_eval _ _ _ _ _ _ Na Ya) as Ea. exists (dec_neg x). split.
  - assert (E : eval X root [] [] (NUnary na (OpArith ASub)) root h = lift root h1 (op_negate (VNum x))) by (cbn [eval]; rewrite Ea; reflexivity).
    exact (eval_yields _ _ _ _ _ (compiles_neg _ _ (yields_compiles _ _ _ _ _ _ Ya)) E).
  - unfold dec_val, dec_neg, Qopp. cbn. reflexivity.
Qed.
Lemma nullish_value : forall X na nb root h h2 a b, operands X na nb root h a b h2 ->
  exists h', yields X (NBinary na (OpLogic LNullish) nb) root h (Ok (match a with VNull => b | _ => a end)) h'.
Proof.
  intros X na nb root h h2 a b (Na & Nb & h1 & Ya & Yb).
  pose proof (yields_eval _ _ _ _ _ _ Na Ya) as Ea. pose proof (yields_eval _ _ _ _ _ _ Nb Yb) as Eb.
  assert (C : compiles X (NBinary na (OpLogic LNullish) nb))
    by (apply compiles_binary; [eapply yields_compiles; eauto..|right; discriminate]).
  exists (match a with VNull => h2 | _ => h1 end).
  assert (E : eval X root [] [] (NBinary na (OpLogic LNullish) nb) root h =
    ORet (match a with VNull => b | _ => a end) root (match a with VNull => h2 | _ => h1 end)).
  { cbn [eval]. rewrite Ea. cbn [obind]. destruct a; try reflexivity. exact Eb. }
  exact (eval_yields _ _ _ _ _ C E).
Qed.
Lemma compiles_cond : forall X a b c, compiles X a -> compiles X b -> compiles X c -> compiles X (NCond a b c).
Proof.
  intros X a b c [ca A] [cb B] [cc C]. unfold compiles. setoid_rewrite compile_cgen. rewrite compile_cgen in A, B, C.
  cbn [cgen]. rewrite A, B, C. cbn. eauto.
Qed.
Lemma cond_value : forall X na nb nc root h h1 p v h2, no_assign na = true -> no_assign nb = true -> no_assign nc = true ->
  compiles X nb -> compiles X nc ->
  yields X na root h (Ok (VBool p)) h1 -> yields X (if p then nb else nc) root h1 (Ok v) h2 ->
  yields X (NCond na nb nc) root h (Ok v) h2.
Proof.
  intros X na nb nc root h h1 p v h2 Na Nb Nc Cb Cc Ya Yb.
  pose proof (yields_eval _ _ _ _ _ _ Na Ya) as Ea.
  assert (Eb : eval X root [] [] (if p then nb else nc) root h1 = ORet v root h2) by (apply yields_eval; auto; now destruct p).
  assert (E : eval X root [] [] (NCond na nb nc) root h = ORet v root h2).
  { cbn [eval]. rewrite Ea. cbn [obind]. destruct p; exact Eb. }
  exact (eval_yields _ _ _ _ _ (compiles_cond _ _ _ _ (yields_compiles _ _ _ _ _ _ Ya) Cb Cc) E).
Qed.
(** Containers are never equal, not even to themselves. *)
Lemma self_unequal : exists n root h h1 v t, no_assign n = true /\ yields demo n root h (Ok v) h1 /\ repr h1 v t /\
  yields demo (NBinary n (OpCmp CEq) n) root h (Ok (VBool false)) h1.
Proof.
  exists (NIdent "nested"), s_root, s_heap, s_heap, (VObj 1), (TObj [("x", TNum (dec_of_Z 1))]).
  split; [reflexivity|]. assert (C : compiles demo (NIdent "nested")) by (eexists; reflexivity).
  assert (E : eval demo s_root [] [] (NIdent "nested") s_root s_heap = ORet (VObj 1) s_root s_heap) by reflexivity.
  pose proof (eval_yields _ _ _ _ _ C E) as Y. split; [exact Y|]. split.
  - eapply RObj; [reflexivity|]. constructor; [split; [reflexivity|constructor]|constructor].
  - assert (O : operands demo (NIdent "nested") (NIdent "nested") s_root s_heap (VObj 1) (VObj 1) s_heap)
      by (split; [reflexivity|split; [reflexivity|exists s_heap; auto]]).
    exact (binary_yields demo _ (OpCmp CEq) _ _ _ _ _ _ _ O eq_refl).
Qed.
