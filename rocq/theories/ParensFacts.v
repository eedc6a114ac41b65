(** [Print.parens] puts enough parentheses, and changes nothing else. *)
From Coq Require Import String Ascii ZArith Lia Bool List Arith.
From Verif Require Import Base Dec Value Ast Lexer Parser ParserFacts Print RoundTrip.
Import ListNotations.
Local Open Scope string_scope.
Local Open Scope list_scope.
Local Open Scope nat_scope.

Section Parens.
  Variable pn : string -> option dec.
  Variable hr : bool.
  Variable nt : dec -> string.
  Notation can := (canon nt pn hr FStandard).
  Notation wr := (writable nt pn hr).
  Notation par := (parens nt).

  Lemma no_ends : forall c o, ends FStandard c o = false.
  Proof. intros [] o; reflexivity. Qed.
  Lemma strip_guard : forall b x, strip (guard nt b x) = strip x.
  Proof. intros b x. unfold guard. destruct (head_is _ _); reflexivity. Qed.
  Lemma strip_based : forall m x, strip (based m x) = strip x.
  Proof. intros m x. unfold based. destruct (postfixable m); reflexivity. Qed.

  Lemma strip_parens : forall n p f, strip (par n p f) = strip n.
  Proof.
    assert (M : forall l g, (forall x, strip (g x) = strip x) -> map strip (map g l) = map strip l).
    { intros l g H. rewrite map_map. apply map_ext. assumption. }
    assert (MF : forall l (g : node -> node), Forall (fun x => strip (g x) = strip x) l -> map strip (map g l) = map strip l).
    { intros l g H. rewrite map_map. induction H as [|x l Hx Hl IH]; [reflexivity|]. cbn [map]. rewrite Hx, IH. reflexivity. }
    induction n using node_ind'; intros p0 f0; try reflexivity; cbn [parens strip].
    - f_equal. apply MF. eapply Forall_impl; [|exact H]. auto.
    - f_equal. apply MF. eapply Forall_impl; [|exact H]. intros x Hx. rewrite strip_guard. apply Hx.
    - f_equal. rewrite map_map. cbn [fst snd]. induction H as [|x l [Hx Hy] Hl IH]; [reflexivity|].
      cbn [map]. rewrite strip_guard, Hx, Hy, IH. reflexivity.
    - rewrite IHn. reflexivity.
    - apply IHn.
    - rewrite strip_based, IHn1, IHn2. reflexivity.
    - rewrite strip_based, IHn. destruct f, t; cbn in *; rewrite ?strip_guard; rewrite ?H, ?H0; reflexivity.
    - rewrite IHn1, IHn2. reflexivity.
    - destruct ((p0 =? 0) && (f0 =? 0)); cbn [strip]; rewrite IHn1, IHn2, IHn3; reflexivity.
    - destruct (unary_op op); [|reflexivity]. destruct (f0 <? n0); cbn [strip]; rewrite IHn; reflexivity.
    - destruct (binary_op op) as [[q la]|]; [|reflexivity].
      destruct ((p0 <=? q) && (f0 <? right_level q la)); cbn [strip]; rewrite IHn1, IHn2; reflexivity.
    - f_equal. apply MF. eapply Forall_impl; [|exact H]. intros x Hx. rewrite strip_guard. apply Hx.
    - rewrite strip_based, IHn. f_equal. apply MF. eapply Forall_impl; [|exact H]. intros x Hx. rewrite strip_guard. apply Hx.
  Qed.

  Lemma par_postfixable : forall n p f, postfixable n = true -> postfixable (par n p f) = true.
  Proof. intros n p f H. destruct n; try discriminate; reflexivity. Qed.
  Lemma based_ok : forall m x d, (forall c p f, can (par m p f) d c p f) -> x = par m 0 0 ->
    postfixable (based m x) = true /\ can (based m x) d CxGlobal 0 0.
  Proof.
    intros m x d H ->. unfold based. destruct (postfixable m) eqn:E.
    - split; [apply par_postfixable; assumption|apply H].
    - split; [reflexivity|]. cbn [canon]. apply H.
  Qed.
  Lemma guard_ok : forall b x d, b <> LParen -> can x d CxGlobal 0 0 -> can (guard nt b x) d CxGlobal 0 0 /\ not_led nt b (guard nt b x).
  Proof.
    intros b x d N H. unfold guard. destruct (head_is (KBracket b) (spell (words nt x))) eqn:E.
    - split; [exact H|]. unfold not_led. cbn [words]. apply head_is_other. congruence.
    - split; [exact H|exact E].
  Qed.

  Definition fine (n : node) : Prop := forall d c p f, wr n d -> can (par n p f) d c p f.
  Lemma all_wr : forall l d, (fix go l := match l with [] => True | x :: r => wr x d /\ go r end) l -> Forall (fun x => wr x d) l.
  Proof. induction l as [|x l IH]; intros d H; [constructor|]. destruct H. constructor; [assumption|]. apply IH. assumption. Qed.
  Lemma all_can : forall b l d, b <> LParen -> Forall fine l -> Forall (fun x => wr x d) l ->
    (fix go l := match l with [] => True | x :: r => (can x d CxGlobal 0 0 /\ not_led nt b x) /\ go r end) (map (fun x => guard nt b (par x 0 0)) l).
  Proof.
    intros b l d N H W. induction l as [|x l IH]; [exact I|]. inversion H; subst. inversion W; subst. cbn [map]. split; [|apply IH; assumption].
    apply guard_ok; [assumption|]. auto.
  Qed.
  Lemma fine_list : forall l, Forall (fun n => fine n /\ body_ok fine n) l -> Forall fine l.
  Proof. intros l H. eapply Forall_impl; [|exact H]. intros x [A _]. exact A. Qed.

  Theorem parens_ok_ : forall n, fine n /\ body_ok fine n.
  Proof.
    induction n using node_ind'; (split; [|try exact I; try exact (proj1 IHn)]);
      repeat match goal with IH : fine _ /\ _ |- _ => destruct IH as [IH _] end;
      intros d0 c0 p0 f0 W; cbn [parens]; try exact W; try (destruct W; fail).
    - (* template *) apply all_wr in W. apply fine_list in H. cbn [canon].
      induction l as [|x l IH]; [exact I|]. inversion H; subst. inversion W; subst. cbn [map]. split; [auto|]. apply IH; assumption.
    - (* array *) destruct W as [NE W]. apply all_wr in W. apply fine_list in H. cbn [canon]. split.
      + intros Hr. specialize (NE Hr). destruct l; [congruence|discriminate].
      + apply all_can; [discriminate|assumption|assumption].
    - (* object *) destruct W as [NE W]. cbn [canon]. split.
      + intros Hr. specialize (NE Hr). destruct l; [congruence|discriminate].
      + clear NE. induction l as [|x l IH]; [exact I|]. inversion H as [|? ? [[Hx _] [Hy _]] Hl]; subst. destruct W as [[Wx Wy] W].
        cbn [map fst snd]. split; [|apply IH; assumption].
        assert (G : can (guard nt RSquare (par (fst x) 0 0)) d0 CxGlobal 0 0 /\ not_led nt RSquare (guard nt RSquare (par (fst x) 0 0)))
          by (apply guard_ok; [discriminate|apply Hx; assumption]).
        destruct G as [G1 G2]. split; [exact G1|]. split; [exact G2|]. apply Hy; assumption.
    - (* paren *) cbn [canon]. apply IHn. exact W.
    - (* member *) destruct W as [W1 W2]. destruct (based_ok n1 (par n1 0 0) d0) as [P C]; [intros; apply IHn1; assumption|reflexivity|].
      split; [exact P|]. split; [exact C|]. apply IHn2. assumption.
    - (* slice *) destruct W as (W1 & Wf & Wt). destruct (based_ok n (par n 0 0) d0) as [P C]; [intros; apply IHn; assumption|reflexivity|].
      split; [exact P|]. split; [exact C|]. split.
      + destruct f; [|exact I]. cbn in H. apply (proj1 H). assumption.
      + destruct t; [|exact I]. cbn in H0. apply guard_ok; [discriminate|]. apply (proj1 H0). assumption.
    - (* interval *) destruct W as (Hr & W1 & W2 & RB). split; [exact Hr|]. split; [apply IHn1; assumption|]. split; [apply IHn2; assumption|].
      destruct rb; try exact I; destruct n2; try (destruct RB; fail); exact I.
    - (* conditional *) destruct W as (W1 & W2 & W3).
      assert (C : can (NCond (par n1 1 0) (par n2 0 0) (par n3 0 0)) d0 c0 0 0).
      { split; [reflexivity|]. split; [reflexivity|]. split; [apply IHn1; assumption|]. split; [apply IHn2; assumption|apply IHn3; assumption]. }
      destruct ((p0 =? 0) && (f0 =? 0)) eqn:E.
      + apply andb_prop in E. destruct E as [E1 E2]. apply Nat.eqb_eq in E1. apply Nat.eqb_eq in E2. subst. exact C.
      + cbn [canon]. split; [reflexivity|]. split; [reflexivity|]. split; [apply IHn1; assumption|]. split; [apply IHn2; assumption|apply IHn3; assumption].
    - (* unary *) destruct W as [U W]. destruct (unary_op op) as [u|] eqn:EU; [|congruence].
      assert (UP : 0 < u) by (destruct op as [[]|[]|[]| | | | | | |]; inversion EU; lia).
      destruct (f0 <? u) eqn:E.
      + apply Nat.ltb_lt in E. exists u. split; [exact EU|]. split; [exact E|]. apply IHn. assumption.
      + cbn [canon]. exists u. split; [exact EU|]. split; [exact UP|]. apply IHn. assumption.
    - (* binary *) destruct W as (B & W1 & W2). destruct (binary_op op) as [[q la]|] eqn:EB; [|congruence].
      pose proof (binary_pos _ _ _ EB) as Hq.
      destruct ((p0 <=? q) && (f0 <? right_level q la)) eqn:E.
      + apply andb_prop in E. destruct E as [E1 E2]. apply Nat.leb_le in E1. apply Nat.ltb_lt in E2.
        exists q, la. split; [exact EB|]. split; [exact E1|]. split; [exact E2|]. split; [apply no_ends|].
        split; [apply IHn1; assumption|apply IHn2; assumption].
      + cbn [canon]. exists q, la. split; [exact EB|]. split; [lia|].
        split; [unfold right_level; destruct la; lia|]. split; [reflexivity|].
        split; [apply IHn1; assumption|apply IHn2; assumption].
    - (* call *) destruct k.
      + cbn [writable] in W. apply all_wr in W. apply fine_list in H. cbn [canon]. apply all_can; [discriminate|assumption|assumption].
      + destruct W as [K W]. apply all_wr in W. apply fine_list in H. split; [exact K|]. apply all_can; [discriminate|assumption|assumption].
      + destruct l as [|x [|y [|z l]]]; try (destruct W; fail); destruct y; try (destruct W; fail).
        destruct W as [Wx Wb]. inversion H as [|? ? [Hx _] Hl]; subst. inversion Hl as [|? ? [_ Hb] _]; subst. cbn [body_ok] in Hb.
        assert (Gc : guard nt RParen (NClosure (par y 0 0) alias) = NClosure (par y 0 0) alias) by reflexivity.
        cbn [map parens]. rewrite Gc. cbn [canon]. split; [apply guard_ok; [discriminate|apply Hx; assumption]|apply Hb; assumption].
    - (* method *) destruct W as (W1 & K & W). destruct (based_ok n (par n 0 0) d0) as [P C]; [intros; apply IHn; assumption|reflexivity|].
      apply all_wr in W. apply fine_list in H. split; [exact P|]. split; [exact C|]. split; [exact K|].
      apply all_can; [discriminate|assumption|assumption].
  Qed.
  Theorem parens_ok : forall n d c p f, wr n d -> can (par n p f) d c p f.
  Proof. intros n d c p f. apply (proj1 (parens_ok_ n)). Qed.
End Parens.

(** ** From the top *)
Theorem parse_printed : forall pn nt n, canon nt pn (has_range (spell (words nt n))) FStandard n 0 CxGlobal 0 0 ->
  parse_tokens pn FStandard (spell (words nt n)) = Some (n, []) /\ has_error n = false.
Proof.
  intros pn nt n H. split; [|eapply no_error; exact H].
  pose proof (reads_back pn (has_range (spell (words nt n))) FStandard nt n 0 CxGlobal 0 0 [] H) as R. rewrite app_nil_r in R.
  apply R; [auto|apply follow_nil|reflexivity].
Qed.
