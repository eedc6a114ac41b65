(** Facts about the parser: more fuel changes nothing, and there is always enough. *)
From Coq Require Import String Ascii ZArith Lia Bool List Arith.
From Verif Require Import Base Dec Value Ast Lexer Parser.
Import ListNotations.
Local Open Scope list_scope.
Local Open Scope nat_scope.

(** ** Suffixes *)
Definition suffix (r ts : list ptok) : Prop := exists p, ts = p ++ r.
Lemma suffix_refl : forall ts, suffix ts ts.
Proof. intros ts. exists []. reflexivity. Qed.
Lemma suffix_trans : forall a b c, suffix a b -> suffix b c -> suffix a c.
Proof. intros a b c [p ->] [q ->]. exists (q ++ p). rewrite app_assoc. reflexivity. Qed.
Lemma suffix_tl : forall ts, suffix (tl ts) ts.
Proof. intros [|t ts]; [apply suffix_refl|]. exists [t]. reflexivity. Qed.
Lemma suffix_cons : forall t a b, suffix a b -> suffix a (t :: b).
Proof. intros t a b [p ->]. exists (t :: p). reflexivity. Qed.
Lemma suffix_nil : forall ts, suffix [] ts.
Proof. intros ts. exists ts. rewrite app_nil_r. reflexivity. Qed.
Lemma suffix_len : forall a b, suffix a b -> length a <= length b.
Proof. intros a b [p ->]. rewrite app_length. lia. Qed.
Lemma head_is_tl : forall k ts, head_is k ts = true -> S (length (tl ts)) = length ts.
Proof. intros k [|[k' v] ts] H; [discriminate|reflexivity]. Qed.
Lemma head_is_self : forall k v ts, head_is k ((k, v) :: ts) = true.
Proof. intros k v ts. cbn. destruct (tkind_eq_dec k k); [reflexivity|congruence]. Qed.
Lemma head_is_other : forall k k' v ts, k' <> k -> head_is k ((k', v) :: ts) = false.
Proof. intros k k' v ts H. cbn. destruct (tkind_eq_dec k' k); [congruence|reflexivity]. Qed.

(** ** More fuel *)
Definition more {A} (a b : option A) : Prop := forall r, a = Some r -> b = Some r.
Lemma more_refl : forall A (a : option A), more a a.
Proof. intros A a r H. exact H. Qed.
Lemma more_bind : forall A B (a a' : option A) (f f' : A -> option B),
  more a a' -> (forall x, more (f x) (f' x)) -> more (obind a f) (obind a' f').
Proof.
  intros A B a a' f f' Ha Hf r H. destruct a as [x|]; [|discriminate]. rewrite (Ha x eq_refl). cbn in *. apply Hf. assumption.
Qed.
Lemma more_none : forall A (b : option A), more None b.
Proof. intros A b r H. discriminate. Qed.

Ltac more_step :=
  match goal with
  | |- more ?a ?a => apply more_refl
  | |- more None _ => apply more_none
  | |- more (obind _ _) (obind _ _) => apply more_bind
  | |- forall _, _ => intro
  | |- more (let '(_, _) := ?x in _) _ => destruct x
  | |- more (match ?x with _ => _ end) (match ?x with _ => _ end) => destruct x
  | |- more (if ?x then _ else _) (if ?x then _ else _) => destruct x
  end.
Ltac more_tac := repeat (auto; more_step).

Section More.
  Variable pn : string -> option dec.
  Variable hr : bool.
  Variables E E' : nat -> pctx -> list ptok -> presult.
  Hypothesis HE : forall d c ts, more (E d c ts) (E' d c ts).

  Lemma more_G : forall d ts, more (G E d ts) (G E' d ts).
  Proof. intros. apply HE. Qed.
  Hint Resolve more_G : core.
  Lemma more_template : forall d lf acc ts, more (p_template E d lf acc ts) (p_template E' d lf acc ts).
  Proof.
    intros d. induction lf as [|k IH]; intros acc ts; cbn [p_template]; more_tac.
  Qed.
  Lemma more_args : forall d lf acc ts, more (p_args E d lf acc ts) (p_args E' d lf acc ts).
  Proof. intros d. induction lf as [|k IH]; intros acc ts; cbn [p_args]; more_tac. Qed.
  Hint Resolve more_args : core.
  Lemma more_call_args : forall d ts, more (p_call_args E d ts) (p_call_args E' d ts).
  Proof. intros. unfold p_call_args. more_tac. Qed.
  Hint Resolve more_call_args : core.
  Lemma more_computed : forall d n ts, more (p_computed E d n ts) (p_computed E' d n ts).
  Proof. intros. unfold p_computed. more_tac. Qed.
  Hint Resolve more_computed : core.
  Lemma more_member : forall d pf pf' n ts, (forall m us, more (pf m us) (pf' m us)) ->
    more (p_member E d pf n ts) (p_member E' d pf' n ts).
  Proof. intros d pf pf' n ts Hp. unfold p_member, p_method. more_tac. Qed.
  Lemma more_ppostfix : forall d lf n ts, more (p_postfix E d lf n ts) (p_postfix E' d lf n ts).
  Proof.
    intros d. induction lf as [|k IH]; intros n ts; cbn [p_postfix]; [more_tac|].
    destruct ts as [|[[| | | | |[]|[]| |] v] r]; more_tac; apply more_member; auto.
  Qed.
  Hint Resolve more_ppostfix : core.
  Lemma more_postfix : forall d n ts, more (postfix E d n ts) (postfix E' d n ts).
  Proof. intros. unfold postfix. more_tac. Qed.
  Hint Resolve more_postfix : core.
  Lemma more_assign : forall d lf acc ts, more (p_assign E d lf acc ts) (p_assign E' d lf acc ts).
  Proof. intros d. induction lf as [|k IH]; intros acc ts; cbn [p_assign]; more_tac. Qed.
  Hint Resolve more_assign : core.
  Lemma more_assigned : forall d n ts, more (p_assigned E d n ts) (p_assigned E' d n ts).
  Proof. intros. unfold p_assigned. more_tac. Qed.
  Hint Resolve more_assigned : core.
  Lemma more_closure_args : forall d ts, more (p_closure_args E d ts) (p_closure_args E' d ts).
  Proof. intros. unfold p_closure_args. more_tac. Qed.
  Hint Resolve more_closure_args : core.
  Lemma more_identifier : forall d ts, more (p_identifier E d ts) (p_identifier E' d ts).
  Proof. intros. unfold p_identifier. more_tac. Qed.
  Hint Resolve more_identifier : core.
  Lemma more_interval : forall d ts, more (p_interval hr E d ts) (p_interval hr E' d ts).
  Proof. intros. unfold p_interval. more_tac. Qed.
  Hint Resolve more_interval : core.
  Lemma more_array : forall d lf acc ts, more (p_array E d lf acc ts) (p_array E' d lf acc ts).
  Proof. intros d. induction lf as [|k IH]; intros acc ts; cbn [p_array]; more_tac. Qed.
  Hint Resolve more_array : core.
  Lemma more_key : forall d ts, more (p_key E d ts) (p_key E' d ts).
  Proof. intros. unfold p_key. more_tac. Qed.
  Hint Resolve more_key : core.
  Lemma more_object : forall d lf acc ts, more (p_object E d lf acc ts) (p_object E' d lf acc ts).
  Proof. intros d. induction lf as [|k IH]; intros acc ts; cbn [p_object]; more_tac. Qed.
  Hint Resolve more_object more_template : core.
  Lemma more_conditional : forall d n ts, more (p_conditional E d n ts) (p_conditional E' d n ts).
  Proof. intros. unfold p_conditional. more_tac. Qed.
  Lemma more_literal : forall d ts, more (p_literal pn hr E d ts) (p_literal pn hr E' d ts).
  Proof. intros. unfold p_literal. more_tac. Qed.
End More.

Section MoreExpr.
  Variable pn : string -> option dec.
  Variable hr : bool.
  Variable fl : flavor.
  Lemma more_unary : forall R R', (forall d p c ts, more (R d p c ts) (R' d p c ts)) ->
    forall d ts, more (p_unary pn hr R d ts) (p_unary pn hr R' d ts).
  Proof.
    intros R R' HR d ts. unfold p_unary.
    assert (HE : forall d c ts, more ((fun d c ts => R d 0 c ts) d c ts) ((fun d c ts => R' d 0 c ts) d c ts)) by (intros; apply HR).
    destruct ts as [|[k v] r]; [apply more_refl|].
    match goal with |- more (if ?b then _ else _) _ => destruct b end; [apply more_postfix; assumption|].
    assert (HI : forall ts, more (p_interval hr (fun d c ts => R d 0 c ts) d ts) (p_interval hr (fun d c ts => R' d 0 c ts) d ts))
      by (intros; apply more_interval; assumption).
    assert (HP : forall n ts, more (postfix (fun d c ts => R d 0 c ts) d n ts) (postfix (fun d c ts => R' d 0 c ts) d n ts))
      by (intros; apply more_postfix; assumption).
    assert (HL : forall ts, more (p_literal pn hr (fun d c ts => R d 0 c ts) d ts) (p_literal pn hr (fun d c ts => R' d 0 c ts) d ts))
      by (intros; apply more_literal; assumption).
    destruct k; more_tac.
  Qed.
  Lemma more_loop : forall R R', (forall q ts, more (R q ts) (R' q ts)) ->
    forall lf p c l ts, more (p_loop fl R lf p c l ts) (p_loop fl R' lf p c l ts).
  Proof. intros R R' HR. induction lf as [|k IH]; intros p c l ts; cbn [p_loop]; more_tac. Qed.
  Lemma more_expr : forall k d p c ts, more (p_expr pn hr fl k d p c ts) (p_expr pn hr fl (S k) d p c ts).
  Proof.
    induction k as [|k IH]; intros d p c ts; [intros r H; discriminate|].
    change (p_expr pn hr fl (S k) d p c ts) with
      (obind (p_unary pn hr (p_expr pn hr fl k) d ts) (fun '(l, ts1) =>
          match ts1 with
          | [] => Some (l, [])
          | _ =>
              obind (p_loop fl (fun q r => p_expr pn hr fl k d q CxGlobal r) (S (length ts1)) p c l ts1) (fun '(l2, ts2) =>
                if p =? 0 then p_conditional (fun d c ts => p_expr pn hr fl k d 0 c ts) d l2 ts2 else Some (l2, ts2))
          end)).
    remember (S k) as k' eqn:Ek. cbn [p_expr]. 
    apply more_bind; [apply more_unary; assumption|]. intros [l ts1]. destruct ts1 as [|t ts1]; [apply more_refl|].
    apply more_bind; [apply more_loop; auto|]. intros [l2 ts2]. destruct (p =? 0); [|apply more_refl].
    apply more_conditional. auto.
  Qed.
  Lemma more_expr_le : forall k k' d p c ts, k <= k' -> more (p_expr pn hr fl k d p c ts) (p_expr pn hr fl k' d p c ts).
  Proof.
    intros k k' d p c ts H. induction H as [|k' H IH]; [apply more_refl|].
    intros r Hr. apply more_expr. apply IH. assumption.
  Qed.
End MoreExpr.

(** ** Enough fuel *)
Definition returns (ts : list ptok) (r : presult) : Prop := exists n rest, r = Some (n, rest) /\ suffix rest ts.
Definition returns3 {A} (ts : list ptok) (r : option (A * list ptok)) : Prop :=
  exists n rest, r = Some (n, rest) /\ suffix rest ts.
Lemma ret : forall A (n : A) rest ts, suffix rest ts -> returns3 ts (Some (n, rest)).
Proof. intros. exists n, rest. auto. Qed.
Lemma ret_bind : forall A B (a : option (A * list ptok)) (f : A * list ptok -> option (B * list ptok)) ts0 ts,
  returns3 ts0 a -> (forall x rest, suffix rest ts0 -> returns3 ts (f (x, rest))) -> returns3 ts (obind a f).
Proof. intros A B a f ts0 ts (n & rest & -> & Hs) Hf. cbn. apply Hf. assumption. Qed.
Lemma ret_suffix : forall A (a : option (A * list ptok)) ts0 ts, returns3 ts0 a -> suffix ts0 ts -> returns3 ts a.
Proof. intros A a ts0 ts (n & rest & -> & Hs) H. exists n, rest. split; [reflexivity|]. eapply suffix_trans; eauto. Qed.

#[export] Hint Resolve suffix_refl suffix_tl suffix_nil suffix_cons : sfx.
Ltac sfx := eauto 6 using suffix_trans, suffix_refl, suffix_tl, suffix_nil, suffix_cons.
Lemma len_tl : forall (ts : list ptok), length (tl ts) = length ts - 1.
Proof. intros [|t ts]; cbn; lia. Qed.
Ltac lens :=
  repeat match goal with
  | H : suffix ?a ?b |- _ => apply suffix_len in H
  | H : head_is ?k ?ts = true |- _ => apply head_is_tl in H
  end; rewrite ?len_tl in *; cbn [length tl] in *; rewrite ?len_tl in *; lia.
Ltac ret_step :=
  match goal with
  | |- returns3 _ (Some (_, _)) => apply ret; solve [sfx]
  | |- returns3 _ (if ?b then _ else _) => destruct b eqn:?
  | |- returns3 _ (let '(_, _) := ?x in _) => destruct x eqn:?
  | |- returns3 _ (match ?x with _ => _ end) => destruct x eqn:?
  | |- forall _, _ => intro
  end.

Section Enough.
  Variable pn : string -> option dec.
  Variable hr : bool.
  Variable E : nat -> pctx -> list ptok -> presult.
  Variable N : nat.
  Hypothesis HE : forall d c ts, length ts < N -> returns3 ts (E d c ts).

  Ltac useG := eapply ret_bind; [apply HE; lens|intros ? ? ?].

  Lemma enough_template : forall d lf acc ts, length ts <= N -> length ts < lf -> returns3 ts (p_template E d lf acc ts).
  Proof.
    intros d. induction lf as [|k IH]; intros acc ts Hn Hl; [lia|]. cbn [p_template].
    destruct ts as [|[kd v] r]; [apply ret; sfx|]. cbn [length] in *.
    destruct kd as [|b| |[]| | | | |]; try (apply ret; sfx).
    - eapply ret_suffix; [apply IH; lia|sfx].
    - useG. destruct (head_is KTplEnd rest) eqn:Hh; (eapply ret_suffix; [apply IH; lens|sfx]).
    - eapply ret_suffix; [apply IH; lia|sfx].
  Qed.
  Lemma enough_args : forall d lf acc ts, length ts < N -> length ts < lf -> returns3 ts (p_args E d lf acc ts).
  Proof.
    intros d. induction lf as [|k IH]; intros acc ts Hn Hl; [lia|]. cbn [p_args].
    destruct (head_is (KBracket RParen) ts); [apply ret; sfx|]. useG.
    destruct (head_is (KOp OpComma) rest) eqn:Hh; [|apply ret; sfx].
    eapply ret_suffix; [apply IH; lens|sfx].
  Qed.
  Lemma enough_call_args : forall d ts, length ts < N -> returns3 ts (p_call_args E d ts).
  Proof.
    intros d ts Hn. unfold p_call_args. eapply ret_bind; [apply enough_args; lia|]. intros a rest Hs. repeat ret_step.
  Qed.
  Lemma enough_computed : forall d n ts, length ts <= N -> 1 <= length ts -> returns3 (tl ts) (p_computed E d n ts).
  Proof.
    intros d n ts Hn H1. unfold p_computed. destruct (tl ts) as [|t1 ts1] eqn:Et; [apply ret; sfx|].
    assert (L : S (length (t1 :: ts1)) <= N) by (rewrite <- Et, len_tl; lia).
    destruct (head_is (KOp OpSlice) (t1 :: ts1)) eqn:Hh.
    - cbn [tl]. destruct ts1 as [|t2 ts2]; [apply ret; sfx|].
      destruct (head_is (KBracket RSquare) (t2 :: ts2)) eqn:H2; cbn [obind].
      + rewrite H2. apply ret; sfx.
      + eapply ret_bind; [eapply ret_bind; [apply HE; lens|intros x rest Hs; apply ret; exact Hs]|].
        intros x rest Hs. destruct (head_is (KBracket RSquare) rest); apply ret; sfx.
    - useG. destruct rest as [|t2 ts2]; [apply ret; sfx|].
      destruct (head_is (KOp OpSlice) (t2 :: ts2)) eqn:H3.
      + cbn [tl]. destruct ts2 as [|t3 ts3]; [apply ret; sfx|].
        destruct (head_is (KBracket RSquare) (t3 :: ts3)) eqn:H2; cbn [obind].
        * rewrite H2. apply ret; cbn [tl]. eapply suffix_trans; [|eassumption]. sfx.
        * assert (S1 : suffix (t3 :: ts3) (t1 :: ts1)) by (eapply suffix_trans; [|eassumption]; sfx).
          eapply ret_bind; [eapply ret_bind; [apply HE; lens|intros y rest Hs; apply ret; exact Hs]|].
          intros y rest Hs. destruct (head_is (KBracket RSquare) rest); apply ret; sfx.
      + destruct (head_is (KBracket RSquare) (t2 :: ts2)); apply ret; cbn [tl]; sfx.
  Qed.
  Definition pf_ok (pf : node -> list ptok -> option (node * comb * list ptok)) (M : nat) : Prop :=
    forall n ts, length ts < M -> returns3 ts (pf n ts).
  Lemma enough_member : forall d pf n ts, length ts <= N -> 1 <= length ts -> pf_ok pf (length ts) ->
    returns3 (tl ts) (p_member E d pf n ts).
  Proof.
    intros d pf n ts Hn H1 Hp. unfold p_member. destruct (tl ts) as [|[k v] r] eqn:Et; [apply ret; sfx|].
    assert (L : S (length ((k, v) :: r)) = length ts).
    { apply (f_equal (@length (tkind * string))) in Et. rewrite len_tl in Et. cbn [length] in *. lia. }
    destruct (valid_property k); [|apply ret; sfx].
    destruct (head_is (KBracket LParen) r) eqn:Hh; [|apply ret; sfx].
    unfold p_method. destruct (method_kind v); [|apply ret; sfx].
    eapply ret_bind; [apply enough_call_args; lens|]. intros a rest Hs.
    assert (S1 : suffix rest ((k, v) :: r)) by sfx.
    eapply ret_bind; [apply Hp; lens|]. intros [m1 c] rest2 Hs2. apply ret; sfx.
  Qed.
  Lemma enough_ppostfix : forall d lf n ts, length ts <= N -> length ts < lf -> returns3 ts (p_postfix E d lf n ts).
  Proof.
    intros d. induction lf as [|k IH]; intros n ts Hn Hl; [lia|]. cbn [p_postfix].
    destruct ts as [|[kd v] r]; [apply ret; sfx|].
    assert (Hrec : forall (a : presult) (ff : comb -> comb), returns3 (tl ((kd, v) :: r)) a ->
      returns3 ((kd, v) :: r) (obind a (fun '(n1, ts1) => obind (p_postfix E d k n1 ts1) (fun '(n2, c, ts2) => Some (n2, ff c, ts2))))).
    { intros a ff Ha. cbn [tl] in Ha. eapply ret_bind; [exact Ha|]. intros x rest Hs. cbn [length] in *.
      eapply ret_bind; [apply IH; lens|]. intros [m c] rest2 Hs2. apply ret; sfx. }
    assert (H1 : returns3 (tl ((kd, v) :: r)) (p_computed E d n ((kd, v) :: r))) by (apply enough_computed; [assumption|cbn; lia]).
    assert (H2 : returns3 (tl ((kd, v) :: r)) (p_member E d (p_postfix E d k) n ((kd, v) :: r))).
    { apply enough_member; [assumption|cbn; lia|]. intros m us Hu. cbn [length] in *. apply IH; lia. }
    destruct kd as [| | | | |[]|[]| |]; try (apply ret; sfx); [apply (Hrec _ (fun c => comb_and c CbProperty))|apply (Hrec _ (fun c => comb_and c CbComputed))]; assumption.
  Qed.
  Lemma enough_postfix : forall d n ts, length ts <= N -> returns3 ts (postfix E d n ts).
  Proof.
    intros d n ts Hn. unfold postfix. eapply ret_bind; [apply enough_ppostfix; lia|]. intros [m c] rest Hs. apply ret; sfx.
  Qed.
  Lemma enough_assign : forall d lf acc ts, length ts <= N -> length ts < lf -> returns3 ts (p_assign E d lf acc ts).
  Proof.
    intros d. induction lf as [|k IH]; intros acc ts Hn Hl; [lia|]. cbn [p_assign].
    destruct ts as [|t ts1]; [apply ret; sfx|]. destruct (head_is (KOp OpSemi) (t :: ts1)); [|apply ret; sfx].
    cbn [tl length] in *. destruct ts1 as [|[k2 v] ts2]; [apply ret; sfx|]. cbn [length] in *.
    eapply ret_bind; [apply enough_ppostfix; lia|]. intros [kn c] ts3 Hs3.
    assert (S3 : suffix ts3 (t :: (k2, v) :: ts2)) by sfx.
    destruct (head_is (KOp OpAssign) ts3) eqn:Ha.
    - assert (S4 : suffix (tl ts3) ts2) by (eapply suffix_trans; [apply suffix_tl|assumption]).
      assert (Hc : returns3 (t :: (k2, v) :: ts2) (obind (G E d (tl ts3)) (fun '(w, ts4) => p_assign E d k (acc ++ [(transform_key kn, w)]) ts4))).
      { useG. assert (S5 : suffix rest ts2) by sfx. eapply ret_suffix; [apply IH; lens|]. sfx. }
      destruct c; try exact Hc; apply ret; eapply suffix_trans; [apply suffix_tl|assumption|apply suffix_tl|assumption].
    - eapply ret_bind; [apply HE; lens|]. intros x rest Hs. apply ret. sfx.
  Qed.
  Lemma enough_assigned : forall d n ts, length ts <= N -> 1 <= length ts -> returns3 ts (p_assigned E d n ts).
  Proof.
    intros d n ts Hn H1. unfold p_assigned. useG. eapply ret_suffix; [apply enough_assign; lens|]. sfx.
  Qed.
  Lemma enough_closure_args : forall d ts, length ts < N -> returns3 ts (p_closure_args E d ts).
  Proof.
    intros d ts Hn. unfold p_closure_args. useG.
    set (p := match rest with (KLiteral, w) :: r => _ | _ => _ end).
    assert (Hp : suffix (snd p) ts).
    { subst p. destruct rest as [|[kd w] r]; [cbn; sfx|]. destruct kd; cbn; try sfx.
      destruct (String.eqb w "as"); cbn; [|sfx]. destruct r as [|[k2 x2] r2]; cbn; [sfx|].
      assert (S1 : suffix ((k2, x2) :: r2) ts) by (eapply suffix_trans; [|eassumption]; sfx).
      destruct k2; cbn; try assumption. eapply suffix_trans; [|exact S1]. sfx. }
    clearbody p. destruct p as [[extra alias] ts2]. cbn [snd] in Hp.
    set (p := if head_is (KOp OpComma) ts2 then _ else _).
    assert (Hp2 : suffix (snd p) ts).
    { subst p. destruct (head_is (KOp OpComma) ts2); cbn [snd]; sfx. }
    clearbody p. destruct p as [extra2 ts3]. cbn [snd] in Hp2.
    useG. destruct (head_is (KBracket RParen) rest0); apply ret; sfx.
  Qed.
  Lemma enough_identifier : forall d ts, length ts <= N -> returns3 ts (p_identifier E d ts).
  Proof.
    intros d ts Hn. unfold p_identifier. destruct ts as [|[k v] r]; [apply ret; sfx|]. cbn [length] in Hn.
    destruct (head_is (KBracket LParen) r) eqn:Hh.
    - destruct (function_kind v) as [f|]; [|apply ret; sfx].
      eapply ret_bind with (ts0 := tl r).
      + pose proof (head_is_tl _ _ Hh). destruct f; first [apply enough_call_args; lia|apply enough_closure_args; lia].
      + intros a rest Hs. assert (S1 : suffix rest r) by sfx. eapply ret_suffix; [apply enough_postfix; lens|]. sfx.
    - eapply ret_bind; [apply enough_ppostfix; lia|]. intros [m c] rest Hs.
      destruct (head_is (KOp OpAssign) rest) eqn:Ha; [|apply ret; sfx].
      assert (Hc : returns3 ((k, v) :: r) (p_assigned E d m rest)).
      { eapply ret_suffix; [apply enough_assigned; [lens|pose proof (head_is_tl _ _ Ha); lia]|]. sfx. }
      destruct c; try exact Hc; apply ret; sfx.
  Qed.
  Lemma enough_interval : forall d ts, length ts <= N -> returns3 ts (p_interval hr E d ts).
  Proof.
    intros d ts Hn. unfold p_interval. destruct hr; [|apply ret; sfx].
    destruct ts as [|[k v] r]; [apply ret; sfx|]. destruct k; try (apply ret; sfx). cbn [length] in Hn.
    useG. destruct (has_error x); [apply ret; sfx|]. destruct (head_is (KOp OpRange) rest) eqn:Hh; [|apply ret; sfx].
    assert (S1 : suffix (tl rest) r) by (eapply suffix_trans; [apply suffix_tl|assumption]).
    eapply ret_bind; [apply HE; lens|]. intros y rest2 Hs2. assert (S2 : suffix rest2 r) by sfx.
    destruct (has_error y); [apply ret; sfx|]. destruct rest2 as [|[k2 v2] r2]; [apply ret; sfx|].
    destruct k2; try (apply ret; sfx).
    assert (S3 : suffix r2 r) by (eapply suffix_trans; [|exact S2]; sfx).
    eapply ret_bind; [apply enough_postfix; lens|]. intros m rest3 Hs3. apply ret; sfx.
  Qed.
  Lemma enough_array : forall d lf acc ts, length ts < N -> S (length ts) < lf \/ (acc <> [] /\ length ts < lf) ->
    returns3 ts (p_array E d lf acc ts).
  Proof.
    intros d. induction lf as [|k IH]; intros acc ts Hn Hl; [lia|]. cbn [p_array].
    destruct (head_is (KBracket RSquare) ts) eqn:Hh.
    - eapply ret_suffix; [apply enough_postfix; lens|]. sfx.
    - destruct acc as [|a acc].
      + useG. eapply ret_suffix; [apply IH; [lens|]|exact H].
        right. split; [discriminate|]. destruct Hl as [Hl|[Hl _]]; [lens|congruence].
      + destruct (head_is (KOp OpComma) ts) eqn:Hc; [|apply ret; sfx].
        destruct (head_is (KBracket RSquare) (tl ts)) eqn:H2.
        * eapply ret_suffix; [apply enough_postfix; lens|]. sfx.
        * useG. assert (S1 : suffix rest ts) by sfx. eapply ret_suffix; [apply IH; [lens|]|exact S1].
          right. split; [destruct acc; discriminate|]. lens.
  Qed.
  Lemma enough_string : forall q ts, suffix (snd (p_string q ts)) ts.
  Proof.
    intros q ts. unfold p_string. destruct ts as [|[k v] r]; [cbn; sfx|]. destruct (tkind_eq_dec k (KQuote q)); [|cbn; sfx].
    destruct r as [|[k2 v2] r2]; [cbn; sfx|].
    assert (Hd : suffix (snd (NError None, if head_is (KQuote q) ((k2, v2) :: r2) then tl ((k2, v2) :: r2) else (k2, v2) :: r2)) ((k, v) :: (k2, v2) :: r2)).
    { destruct (head_is (KQuote q) ((k2, v2) :: r2)); cbn; sfx. }
    destruct k2; try exact Hd. destruct (head_is (KQuote q) r2); cbn; sfx.
  Qed.
  Lemma ret_pair : forall ts (p : node * list ptok), suffix (snd p) ts -> returns3 ts (Some p).
  Proof. intros ts [n r] H. apply ret. exact H. Qed.
  Lemma enough_key : forall d ts, length ts < N -> returns3 ts (p_key E d ts).
  Proof.
    intros d ts Hn. unfold p_key. destruct ts as [|[k v] r]; [apply ret; sfx|]. cbn [length] in Hn.
    destruct k as [| | |[]| | |[]| |]; try (apply ret; sfx); try (apply ret_pair; apply enough_string).
    useG. destruct (head_is (KBracket RSquare) rest); apply ret; sfx.
  Qed.
  Lemma enough_object : forall d lf acc ts, length ts < N -> length ts < lf -> returns3 ts (p_object E d lf acc ts).
  Proof.
    intros d. induction lf as [|k IH]; intros acc ts Hn Hl; [lia|]. cbn [p_object].
    eapply ret_bind; [apply enough_key; lia|]. intros key ts1 Hs1.
    destruct (head_is (KOp OpSlice) ts1) eqn:Hh; [|apply ret; sfx].
    assert (L : length (tl ts1) < length ts) by lens.
    eapply ret_bind; [apply HE; lia|]. intros v ts2 Hs2.
    assert (S2 : suffix ts2 ts) by sfx.
    destruct ts2 as [|[k2 v2] r2]; [apply ret; sfx|].
    assert (S3 : suffix r2 ts) by (eapply suffix_trans; [|exact S2]; sfx).
    destruct k2 as [| | | | |[]|[]| |]; try (apply ret; sfx).
    eapply ret_suffix; [apply IH; lens|exact S3].
  Qed.
  Lemma enough_conditional : forall d n ts, length ts <= N -> returns3 ts (p_conditional E d n ts).
  Proof.
    intros d n ts Hn. unfold p_conditional. destruct (head_is (KOp OpQuestion) ts) eqn:Hh; [|apply ret; sfx].
    useG. destruct (head_is (KOp OpSlice) rest) eqn:H2; [|apply ret; sfx].
    eapply ret_bind; [apply HE; lens|]. intros y rest2 Hs2. apply ret; sfx.
  Qed.
  Lemma enough_literal : forall d ts, length ts <= N -> returns3 ts (p_literal pn hr E d ts).
  Proof.
    intros d ts Hn. unfold p_literal. destruct ts as [|[k v] r]; [apply ret; sfx|].
    assert (Hi : returns3 ((k, v) :: r) (p_interval hr E d ((k, v) :: r))) by (apply enough_interval; assumption).
    assert (Hid : returns3 ((k, v) :: r) (p_identifier E d ((k, v) :: r))) by (apply enough_identifier; assumption).
    cbn [length] in Hn.
    assert (Hb : returns3 ((k, v) :: r) (obind (p_interval hr E d ((k, v) :: r)) (fun '(o, ts1) =>
            Some (match o with Some n => n | None => NError None end, ts1)))).
    { eapply ret_bind; [exact Hi|]. intros o rest Hs. apply ret; sfx. }
    destruct k as [[]|b| |[]| | |[]| |]; try (apply ret; sfx); try exact Hid; try exact Hb; try (apply ret_pair; apply enough_string).
    - destruct (pn v); apply ret; sfx.
    - destruct r as [|t r]; [apply ret; sfx|]. eapply ret_suffix; [apply enough_template; cbn [length] in *; lia|sfx].
    - eapply ret_bind; [exact Hi|]. intros o rest Hs. destruct o; [apply ret; sfx|].
      destruct (head_is (KBracket LSquare) rest) eqn:Hh; [|apply ret; sfx].
      eapply ret_suffix; [apply enough_array; [lens|left; pose proof (head_is_tl _ _ Hh); lia]|]. sfx.
    - assert (Ho : returns3 ((KBracket LCurly, v) :: r) (p_object E d (S (length r)) [] r)).
      { eapply ret_suffix; [apply enough_object; lia|]. sfx. }
      destruct r as [|[k2 v2] r2]; [exact Ho|]. destruct k2 as [| | | | | |[]| |]; try exact Ho. apply ret; sfx.
  Qed.
End Enough.

Section EnoughExpr.
  Variable pn : string -> option dec.
  Variable hr : bool.
  Variable fl : flavor.
  Lemma enough_unary : forall R N, (forall d p c ts, length ts < N -> returns3 ts (R d p c ts)) ->
    forall d ts, length ts <= N -> returns3 ts (p_unary pn hr R d ts).
  Proof.
    intros R N HR d ts Hn. unfold p_unary.
    assert (HE : forall d c ts, length ts < N -> returns3 ts ((fun d c ts => R d 0 c ts) d c ts)) by (intros; apply HR; assumption).
    destruct ts as [|[k v] r]; [apply ret; sfx|].
    match goal with |- returns3 _ (if ?b then _ else _) => destruct b end.
    { cbn [length] in Hn. eapply ret_suffix; [eapply enough_postfix; [exact HE|lia]|sfx]. }
    assert (Hi : returns3 ((k, v) :: r)
      (obind (p_interval hr (fun d c ts => R d 0 c ts) d ((k, v) :: r)) (fun '(o, ts1) =>
                match o with
                | Some n => Some (n, ts1)
                | None =>
                    if head_is (KBracket LParen) ((k, v) :: r) then
                      obind (R d 0 CxGlobal (tl ts1)) (fun '(n, ts2) =>
                        if head_is (KBracket RParen) ts2 then postfix (fun d c ts => R d 0 c ts) d (NParen n) (tl ts2)
                        else Some (NError None, ts2))
                    else p_literal pn hr (fun d c ts => R d 0 c ts) d ts1
                end))).
    { eapply ret_bind; [eapply enough_interval; [exact HE|exact Hn]|]. intros o rest Hs. destruct o; [apply ret; sfx|].
      destruct (head_is (KBracket LParen) ((k, v) :: r)).
      - cbn [length] in Hn. eapply ret_bind; [apply HR; lens|]. intros x rest2 Hs2.
        assert (S2 : suffix rest2 ((k, v) :: r)) by sfx.
        destruct (head_is (KBracket RParen) rest2) eqn:Hh; [|apply ret; sfx].
        eapply ret_suffix; [eapply enough_postfix; [exact HE|lens]|]. sfx.
      - eapply ret_suffix; [eapply enough_literal; [exact HE|lens]|]. sfx. }
    destruct k; try exact Hi.
    destruct (unary_op o); [|apply ret; sfx]. cbn [length] in Hn. eapply ret_bind; [apply HR; lia|].
    intros x rest Hs. apply ret; sfx.
  Qed.
  Lemma enough_loop : forall R N, (forall q ts, length ts < N -> returns3 ts (R q ts)) ->
    forall lf p c l ts, length ts <= N -> length ts < lf -> returns3 ts (p_loop fl R lf p c l ts).
  Proof.
    intros R N HR. induction lf as [|k IH]; intros p c l ts Hn Hl; [lia|]. cbn [p_loop].
    destruct ts as [|[kd v] r]; [apply ret; sfx|]. destruct kd; try (apply ret; sfx).
    destruct (joins fl c o); [apply ret; sfx|]. destruct (binary_op o) as [[q la]|]; [|apply ret; sfx].
    destruct (q <? p); [apply ret; sfx|]. cbn [length] in *.
    eapply ret_bind; [apply HR; lia|]. intros x rest Hs. eapply ret_suffix; [apply IH; lens|]. sfx.
  Qed.
  Theorem enough_expr : forall fuel d p c ts, length ts < fuel -> returns3 ts (p_expr pn hr fl fuel d p c ts).
  Proof.
    induction fuel as [|k IH]; intros d p c ts Hl; [lia|]. cbn [p_expr].
    assert (HR : forall d p c us, length us < length ts -> returns3 us (p_expr pn hr fl k d p c us)) by (intros; apply IH; lia).
    eapply ret_bind; [eapply enough_unary; [exact HR|lia]|]. intros l ts1 Hs1.
    destruct ts1 as [|t ts1]; [apply ret; sfx|]. set (us := t :: ts1) in *.
    eapply ret_bind; [eapply enough_loop with (N := length ts); [intros; apply IH; lia|lens|lia]|]. intros l2 ts2 Hs2.
    destruct (p =? 0); [|apply ret; sfx].
    eapply ret_suffix; [eapply enough_conditional with (N := length ts); [intros; apply IH; lia|lens]|]. sfx.
  Qed.
  Theorem enough_pair : forall fuel ts, length ts < fuel -> returns3 ts (p_pair pn hr fl fuel ts).
  Proof.
    intros fuel ts Hl. unfold p_pair. eapply ret_bind with (ts0 := ts).
    - destruct (head_cmp ts); [apply ret; sfx|apply enough_expr; assumption].
    - intros l ts1 Hs. destruct (head_cmp ts1) eqn:Hc; [|apply ret; sfx].
      assert (L : 1 <= length ts1) by (destruct ts1; [discriminate|cbn; lia]).
      eapply ret_bind; [apply enough_expr; lens|]. intros r ts2 Hs2. apply ret; sfx.
  Qed.
  Theorem enough_root : forall fuel lf l ts, length ts < fuel -> length ts < lf -> returns3 ts (p_root pn hr fl fuel lf l ts).
  Proof.
    intros fuel. induction lf as [|k IH]; intros l ts Hf Hl; [lia|]. cbn [p_root].
    destruct ts as [|[kd v] r]; [apply ret; sfx|]. destruct (join_op kd); [|apply ret; sfx]. cbn [length] in *.
    eapply ret_bind; [apply enough_pair; lia|]. intros x rest Hs. eapply ret_suffix; [apply IH; lens|]. sfx.
  Qed.
  Theorem enough_unary_top : forall ts, returns3 ts (p_unary_top pn hr fl ts).
  Proof.
    intros ts. unfold p_unary_top. eapply ret_bind; [apply enough_pair; lia|]. intros l rest Hs.
    eapply ret_suffix; [apply enough_root; lens|exact Hs].
  Qed.
End EnoughExpr.

Theorem parse_tokens_total : forall pn fl ts, returns3 ts (parse_tokens pn fl ts).
Proof. intros pn [] ts; cbn [parse_tokens]; [apply enough_expr; lia|apply enough_unary_top]. Qed.
