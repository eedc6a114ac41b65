(** What [Print] writes, [Parser] reads back. *)
From Coq Require Import String Ascii ZArith Lia Bool List Arith.
From Verif Require Import Base Dec Value Ast Lexer Parser ParserFacts Print.
Import ListNotations.
Local Open Scope string_scope.
Local Open Scope list_scope.
Local Open Scope nat_scope.

Lemma spell_app : forall a b, spell (a ++ b) = spell a ++ spell b.
Proof. intros a b. unfold spell. apply flat_map_app. Qed.
Lemma spell_tok : forall k v l, spell (WTok k v :: l) = (k, v) :: spell l.
Proof. reflexivity. Qed.
Lemma spell_str : forall q s l, spell (WStr q s :: l) = (KQuote q, quote_text q) :: (KLiteral, s) :: (KQuote q, quote_text q) :: spell l.
Proof. reflexivity. Qed.
Lemma spell_nil : spell [] = [].
Proof. reflexivity. Qed.

Lemma spell_seps : forall a b l, spell (seps comma (a :: b :: l)) = spell a ++ (KOp OpComma, ",") :: spell (seps comma (b :: l)).
Proof. intros a b l. change (seps comma (a :: b :: l)) with (a ++ comma :: seps comma (b :: l)). rewrite spell_app. reflexivity. Qed.

Section Total.
  Variable pn : string -> option dec.
  Variable hr : bool.
  Variable fl : flavor.

  Definition PE (d p : nat) (c : pctx) (ts : list ptok) : presult := p_expr pn hr fl (S (length ts)) d p c ts.
  Definition EE (d : nat) (c : pctx) (ts : list ptok) : presult := PE d 0 c ts.
  Lemma PE_total : forall d p c ts, returns3 ts (PE d p c ts).
  Proof. intros. apply enough_expr. lia. Qed.
  Lemma PE_more : forall k d p c ts, more (p_expr pn hr fl k d p c ts) (PE d p c ts).
  Proof.
    intros k d p c ts r H. destruct (PE_total d p c ts) as (n & rest & A & _). rewrite A. unfold PE in A.
    assert (X : p_expr pn hr fl (k + S (length ts)) d p c ts = Some (n, rest)) by (eapply more_expr_le; [|exact A]; lia).
    assert (Y : p_expr pn hr fl (k + S (length ts)) d p c ts = Some r) by (eapply more_expr_le; [|exact H]; lia).
    congruence.
  Qed.
  Definition LP (d p : nat) (c : pctx) (l : node) (ts : list ptok) : presult :=
    p_loop fl (fun q r => PE d q CxGlobal r) (S (length ts)) p c l ts.
  Definition UL (d p : nat) (c : pctx) (ts : list ptok) : presult :=
    obind (p_unary pn hr PE d ts) (fun '(l, ts1) => LP d p c l ts1).

  Lemma PE_unfold : forall d p c ts, PE d p c ts =
    obind (UL d p c ts) (fun '(l, ts1) => if p =? 0 then p_conditional EE d l ts1 else Some (l, ts1)).
  Proof.
    intros d p c ts. destruct (PE_total d p c ts) as (n & rest & A & _). rewrite A. symmetry.
    unfold PE in A. cbn [p_expr] in A.
    assert (M : more (p_unary pn hr (p_expr pn hr fl (length ts)) d ts) (p_unary pn hr PE d ts))
      by (apply more_unary; intros; apply PE_more).
    unfold UL. destruct (p_unary pn hr (p_expr pn hr fl (length ts)) d ts) as [[l ts1]|] eqn:U; [|discriminate].
    rewrite (M _ eq_refl). cbn [obind] in *. unfold LP.
    destruct ts1 as [|t ts1].
    - inversion A; subst. cbn. destruct (p =? 0); reflexivity.
    - set (us := t :: ts1) in *.
      assert (M2 : more (p_loop fl (fun q r => p_expr pn hr fl (length ts) d q CxGlobal r) (S (length us)) p c l us)
        (p_loop fl (fun q r => PE d q CxGlobal r) (S (length us)) p c l us)) by (apply more_loop; intros; apply PE_more).
      destruct (p_loop fl (fun q r => p_expr pn hr fl (length ts) d q CxGlobal r) (S (length us)) p c l us) as [[l2 ts2]|]; [|discriminate].
      rewrite (M2 _ eq_refl). cbn [obind] in *. destruct (p =? 0); [|exact A].
      eapply more_conditional; [|exact A]. intros; apply PE_more.
  Qed.

  (** Loop bounds do not matter. *)
  Lemma loop_more : forall k d p c l ts,
    more (p_loop fl (fun q r => PE d q CxGlobal r) k p c l ts) (p_loop fl (fun q r => PE d q CxGlobal r) (S k) p c l ts).
  Proof.
    induction k as [|k IH]; intros d p c l ts; [intros r H; discriminate|]. remember (S k) as k' eqn:Ek.
    rewrite Ek at 1. cbn [p_loop]. more_tac.
  Qed.
  Lemma loop_fuel : forall lf d p c l ts, length ts < lf ->
    p_loop fl (fun q r => PE d q CxGlobal r) lf p c l ts = LP d p c l ts.
  Proof.
    intros lf d p c l ts H. unfold LP.
    destruct (enough_loop fl (fun q r => PE d q CxGlobal r) (S (length ts)) (fun q us _ => PE_total d q CxGlobal us)
      (S (length ts)) p c l ts) as (n & rest & A & _); [lia|lia|]. rewrite A.
    revert A. induction H as [|lf H IH]; [auto|]. intros A. apply loop_more. apply IH. assumption.
  Qed.
  Lemma postfix_more : forall k d n ts, more (p_postfix EE d k n ts) (p_postfix EE d (S k) n ts).
  Proof.
    induction k as [|k IH]; intros d n ts; [intros r H; discriminate|]. remember (S k) as k' eqn:Ek.
    rewrite Ek at 1. cbn [p_postfix].
    destruct ts as [|[[| | | | |[]|[]| |] v] r]; more_tac.
    apply more_member; [intros; apply more_refl|]. intros. apply IH.
  Qed.
  Lemma postfix_fuel : forall lf d n ts, length ts < lf -> p_postfix EE d lf n ts = p_postfix EE d (S (length ts)) n ts.
  Proof.
    intros lf d n ts H.
    destruct (enough_ppostfix EE (S (length ts)) (fun d c us _ => PE_total d 0 c us) d (S (length ts)) n ts)
      as (x & rest & A & _); [lia|lia|]. rewrite A.
    revert A. induction H as [|lf H IH]; [auto|]. intros A. apply postfix_more. apply IH. assumption.
  Qed.

  (** ** One step of each *)
  Definition PF d n ts := p_postfix EE d (S (length ts)) n ts.
  Definition nopost (ts : list ptok) : Prop := head_is (KBracket LSquare) ts = false /\ head_is (KOp OpDot) ts = false.
  Lemma PF_stop : forall d n ts, nopost ts -> exists cb, PF d n ts = Some (n, cb, ts).
  Proof.
    intros d n ts [A B]. unfold PF. destruct ts as [|[k v] r]; [eexists; reflexivity|].
    destruct k; try (eexists; reflexivity).
    - destruct o; try (eexists; reflexivity). rewrite head_is_self in B. discriminate.
    - destruct b; try (eexists; reflexivity). rewrite head_is_self in A. discriminate.
  Qed.

  (** What may follow an expression. *)
  Definition follow (c : pctx) (f : nat) (ts : list ptok) : Prop :=
    nopost ts /\ head_is (KBracket LParen) ts = false /\ head_is (KOp OpAssign) ts = false /\
    forall o v r q la, ts = (KOp o, v) :: r -> binary_op o = Some (q, la) -> q <= f \/ joins fl c o = true.

  Lemma binary_pos : forall o q la, binary_op o = Some (q, la) -> 10 <= q.
  Proof. intros o q la H. destruct o as [[]|[]|[]| | | | | | |]; inversion H; lia. Qed.
  Lemma LP_stop : forall d p c n f ts, follow c f ts -> f < p \/ f = 0 -> LP d p c n ts = Some (n, ts).
  Proof.
    intros d p c n f ts (_ & _ & _ & H) L. unfold LP. cbn [p_loop]. destruct ts as [|[k v] r]; [reflexivity|].
    destruct k; try reflexivity. destruct (joins fl c o) eqn:J; [reflexivity|].
    destruct (binary_op o) as [[q la]|] eqn:Q; [|reflexivity].
    destruct (H o v r q la eq_refl Q) as [X|X]; [|congruence]. pose proof (binary_pos _ _ _ Q).
    replace (q <? p) with true; [reflexivity|]. symmetry. apply Nat.ltb_lt. lia.
  Qed.
  Lemma joins_ends : forall c o, joins fl c o = ends fl c o.
  Proof. intros c o. unfold joins, ends. destruct fl, c; try reflexivity. Qed.
  Lemma follow_global : forall c f ts, follow c f ts -> follow CxGlobal f ts.
  Proof.
    intros c f ts (A & B & C & H). split; [exact A|split; [exact B|split; [exact C|]]].
    intros o v r q la E Q. destruct (H o v r q la E Q) as [X|X]; [auto|]. right.
    destruct c; [exact X|]. unfold joins in X. destruct fl; discriminate.
  Qed.
  Lemma follow_br : forall c b v r, b <> LSquare -> b <> LParen -> follow c 0 ((KBracket b, v) :: r).
  Proof.
    intros c b v r A B. split; [split; apply head_is_other; congruence|]. split; [apply head_is_other; congruence|].
    split; [apply head_is_other; congruence|]. intros; congruence.
  Qed.
  Lemma follow_op : forall c o v r, o <> OpDot -> o <> OpAssign -> binary_op o = None -> follow c 0 ((KOp o, v) :: r).
  Proof.
    intros c o v r A B C. split; [split; apply head_is_other; congruence|]. split; [apply head_is_other; congruence|].
    split; [apply head_is_other; congruence|]. intros; congruence.
  Qed.
  Lemma follow_bin : forall c o v r q la, binary_op o = Some (q, la) -> follow c q ((KOp o, v) :: r).
  Proof.
    intros c o v r q la A. split; [split; apply head_is_other; intros E; inversion E; subst; discriminate|].
    split; [apply head_is_other; congruence|].
    split; [apply head_is_other; intros E; inversion E; subst; discriminate|].
    intros o' v' r' q' la' E Q. inversion E; subst. left. rewrite A in Q. inversion Q. lia.
  Qed.
  Lemma follow_nil : forall c f, follow c f [].
  Proof. intros c f. split; [split; reflexivity|split; [reflexivity|split; [reflexivity|]]]. intros; discriminate. Qed.
  Lemma follow_tok : forall c k v r, match k with KLiteral | KTplEnd => True | _ => False end -> follow c 0 ((k, v) :: r).
  Proof.
    intros c k v r H. split; [split; apply head_is_other; intros ->; destruct H|]. split; [apply head_is_other; intros ->; destruct H|].
    split; [apply head_is_other; intros ->; destruct H|]. intros o v' r' q la E _. inversion E; subst. destruct H.
  Qed.

  Variable nt : dec -> string.
  Definition T (n : node) : list ptok := spell (words nt n).
  Notation can := (canon nt pn hr fl).

  (** ** The shape of written expressions *)
  Definition starter (k : tkind) : Prop :=
    match k with
    | KOp o => unary_op o <> None
    | KTplStart | KTplEnd => False
    | _ => True
    end.
  Definition started (ts : list ptok) : Prop := exists k v r, ts = (k, v) :: r /\ starter k.
  Lemma started_app : forall a b, started a -> started (a ++ b).
  Proof. intros a b (k & v & r & -> & H). exists k, v, (r ++ b). auto. Qed.
  Lemma T_started : forall n d c p f, can n d c p f -> started (T n).
  Proof.
    induction n using node_ind'; intros d0 c0 p0 f0 HC; unfold T; cbn [words];
      try (do 3 eexists; split; [reflexivity|exact I]).
    - destruct HC.
    - cbn [canon] in HC. do 3 eexists. split; [reflexivity|]. cbn [starter]. destruct (ident_of_str s); exact I.
    - destruct HC.
    - destruct HC as (_ & HC & _). rewrite spell_app. apply started_app. eapply IHn1; exact HC.
    - destruct HC as (_ & HC & _). rewrite spell_app. apply started_app. eapply IHn; exact HC.
    - destruct HC as (_ & _ & HC & _). rewrite spell_app. apply started_app. eapply IHn1; exact HC.
    - destruct HC as (u & A & _). do 3 eexists. split; [reflexivity|]. cbn [starter]. congruence.
    - destruct HC as (q & la & _ & _ & _ & _ & HC & _). rewrite spell_app. apply started_app. eapply IHn1; exact HC.
    - destruct k; [do 3 eexists; split; [reflexivity|exact I]|do 3 eexists; split; [reflexivity|exact I]|].
      destruct l as [|x [|y [|z l]]]; try (destruct HC; fail). destruct y; try (destruct HC; fail).
      do 3 eexists; split; [reflexivity|exact I].
      destruct y; destruct HC.
    - destruct HC as (_ & HC & _). rewrite spell_app. apply started_app. eapply IHn; exact HC.
    - destruct HC.
  Qed.
  Lemma started_not : forall k ts, started ts -> ~ starter k -> head_is k ts = false.
  Proof. intros k ts (k' & v & r & -> & H) N. apply head_is_other. intros ->. auto. Qed.

  (** ** The conditions on lists *)
  Definition sub (d : nat) (x : node) : Prop := can x d CxGlobal 0 0.
  Definition subl (d : nat) (b : bracket) (x : node) : Prop := sub d x /\ not_led nt b x.
  Lemma can_template : forall l d c p f, can (NTemplate l) d c p f -> Forall (sub d) l.
  Proof. induction l as [|x l IH]; intros d c p f H; [constructor|]. destruct H as [A B]. constructor; [exact A|]. apply (IH d c p f). exact B. Qed.
  Lemma can_array : forall l d c p f, can (NArray l) d c p f -> (hr = true -> l <> []) /\ Forall (subl d RSquare) l.
  Proof.
    intros l d c p f [N H]. split; [exact N|]. clear N. induction l as [|x l IH]; [constructor|]. destruct H as [A B].
    constructor; [exact A|]. apply IH. exact B.
  Qed.
  Lemma can_object : forall l d c p f, can (NObject l) d c p f -> (hr = true -> l <> []) /\
    Forall (fun kv => subl d RSquare (fst kv) /\ sub d (snd kv)) l.
  Proof.
    intros l d c p f [N H]. split; [exact N|]. clear N. induction l as [|x l IH]; [constructor|]. destruct H as [(A & A1 & A2) B].
    constructor; [|apply IH; exact B]. split; [split|]; assumption.
  Qed.
  Lemma all_args : forall l d,
    (fix go l := match l with [] => True | x :: r => (can x d CxGlobal 0 0 /\ not_led nt RParen x) /\ go r end) l ->
    Forall (subl d RParen) l.
  Proof. induction l as [|x l IH]; intros d H; [constructor|]. destruct H as [A B]. constructor; [exact A|]. apply IH. exact B. Qed.
  Lemma can_method : forall k m l d c p f, can (NMethod k m l) d c p f ->
    postfixable m = true /\ sub d m /\ In k method_names /\ Forall (subl d RParen) l.
  Proof. intros k m l d c p f (A & B & C & D). repeat (split; [assumption|]). apply all_args. exact D. Qed.
  Lemma can_post : forall n d c p f, postfixable n = true -> can n d c p f -> sub d n.
  Proof. intros n d c p f H. destruct n; try discriminate; exact (fun x => x). Qed.
  Lemma can_down : forall n d c p f p', can n d c p f -> p' <= p -> can n d c p' f.
  Proof.
    induction n using node_ind'; intros d0 c0 p0 f0 p' HC L; try exact HC.
    - destruct HC as (A & B & C). split; [lia|]. split; assumption.
    - destruct HC as (q & la & A & B & C & D & E & F). exists q, la. repeat (split; [first [assumption|lia]|]).
      split; [|exact F]. eapply IHn1; [exact E|lia].
  Qed.


  (** Induction that reaches the bodies of closures. *)
  Definition body_ok (P : node -> Prop) (n : node) : Prop := match n with NClosure b _ => P b | _ => True end.

  (** ** No error node *)
  Definition sound (n : node) : Prop := forall d c p f, can n d c p f -> has_error n = false.
  Lemma no_error_ : forall n, sound n /\ body_ok sound n.
  Proof.
    induction n using node_ind'; split; try exact I; try (intros d0 c0 p0 f0 HC; first [reflexivity|destruct HC; fail]);
      try (exact (proj1 IHn));
      repeat match goal with IH : sound _ /\ _ |- _ => destruct IH as [IH _] end;
      intros d0 c0 p0 f0 HC.
    - apply can_template in HC. cbn [has_error]. induction l as [|x l IHl]; [reflexivity|].
      inversion H as [|? ? [Hx _] Hl]; subst. inversion HC as [|? ? Cx Cl]; subst. rewrite (Hx _ _ _ _ Cx). apply IHl; assumption.
    - apply can_array in HC. destruct HC as [_ HC]. cbn [has_error]. induction l as [|x l IHl]; [reflexivity|].
      inversion H as [|? ? [Hx _] Hl]; subst. inversion HC as [|? ? [Cx _] Cl]; subst. rewrite (Hx _ _ _ _ Cx). apply IHl; assumption.
    - apply can_object in HC. destruct HC as [_ HC]. cbn [has_error]. induction l as [|x l IHl]; [reflexivity|].
      inversion H as [|? ? [[Hx _] [Hy _]] Hl]; subst. inversion HC as [|? ? [[Cx _] Cy] Cl]; subst.
      rewrite (Hx _ _ _ _ Cx), (Hy _ _ _ _ Cy). apply IHl; assumption.
    - cbn [has_error]. eapply IHn; exact HC.
    - destruct HC as (_ & A & B). cbn [has_error]. rewrite (IHn1 _ _ _ _ A). exact (IHn2 _ _ _ _ B).
    - destruct HC as (_ & A & B & C). cbn [has_error]. rewrite (IHn _ _ _ _ A).
      destruct f as [x|]; destruct t as [y|]; cbn in *;
        try (rewrite (proj1 H0 _ _ _ _ (proj1 C))); try (rewrite (proj1 H _ _ _ _ B)); reflexivity.
    - destruct HC as (_ & A & B & _). cbn [has_error]. rewrite (IHn1 _ _ _ _ A). exact (IHn2 _ _ _ _ B).
    - destruct HC as (_ & _ & A & B & C). cbn [has_error]. rewrite (IHn1 _ _ _ _ A), (IHn2 _ _ _ _ B). exact (IHn3 _ _ _ _ C).
    - destruct HC as (u & _ & _ & A). cbn [has_error]. exact (IHn _ _ _ _ A).
    - destruct HC as (q & la & _ & _ & _ & _ & A & B). cbn [has_error]. rewrite (IHn1 _ _ _ _ A). exact (IHn2 _ _ _ _ B).
    - assert (G : Forall (subl d0 RParen) l -> has_error (NCall k l) = false).
      { clear HC. intros HC. cbn [has_error]. induction l as [|x l IHl]; [reflexivity|].
        inversion H as [|? ? [Hx _] Hl]; subst. inversion HC as [|? ? [Cx _] Cl]; subst. rewrite (Hx _ _ _ _ Cx). apply IHl; assumption. }
      destruct k.
      + apply G. apply all_args. exact HC.
      + apply G. apply all_args. exact (proj2 HC).
      + destruct l as [|x [|y [|z l]]]; try (destruct HC; fail); destruct y; try (destruct HC; fail).
        destruct HC as [A B]. inversion H as [|? ? [Hx _] Hl]; subst. inversion Hl as [|? ? [_ Hy] Hl2]; subst.
        cbn [has_error]. rewrite (Hx _ _ _ _ A). cbn [body_ok] in Hy. rewrite (Hy _ _ _ _ B). reflexivity.
    - apply can_method in HC. destruct HC as (_ & A & _ & HC). cbn [has_error]. rewrite (IHn _ _ _ _ A). cbn [orb].
      induction l as [|x l IHl]; [reflexivity|].
      inversion H as [|? ? [Hx _] Hl]; subst. inversion HC as [|? ? [Cx _] Cl]; subst. rewrite (Hx _ _ _ _ Cx). apply IHl; assumption.
  Qed.
  Lemma no_error : forall n d c p f, can n d c p f -> has_error n = false.
  Proof. intros n. exact (proj1 (no_error_ n)). Qed.

  (** ** The claims *)
  Definition is_cond (n : node) : bool := match n with NCond _ _ _ => true | _ => false end.
  Definition atomic (n : node) : bool := match n with NCond _ _ _ | NBinary _ _ _ => false | _ => true end.
  Definition Bc (n : node) : Prop := forall d c p f rest, can n d c p f -> f < p \/ f = 0 -> follow c f rest ->
    (p = 0 -> head_is (KOp OpQuestion) rest = false) -> PE d p c (T n ++ rest) = Some (n, rest).
  Definition Ac (n : node) : Prop := forall d c p f rest, can n d c p f -> follow c f rest ->
    UL d p c (T n ++ rest) = LP d p c n rest.
  Definition Uc (n : node) : Prop := forall d c p f rest, can n d c p f -> follow c f rest ->
    p_unary pn hr PE d (T n ++ rest) = Some (n, rest).
  Definition Qc (n : node) : Prop := forall d rest m cb rest', sub d n ->
    PF d n rest = Some (m, cb, rest') -> nopost rest' -> head_is (KOp OpAssign) rest' = false ->
    head_is (KBracket LParen) rest = false -> p_unary pn hr PE d (T n ++ rest) = Some (m, rest').
  Definition good (n : node) : Prop :=
    (postfixable n = true -> Qc n) /\ (atomic n = true -> Uc n) /\ (is_cond n = false -> Ac n) /\ Bc n.

  Lemma U_of_Q : forall n, postfixable n = true -> Qc n -> Uc n.
  Proof.
    intros n Hp Q d c p f rest HC (N & P & A & _). destruct (PF_stop d n rest N) as [cb S].
    eapply Q; [eapply can_post; eassumption|exact S|exact N|exact A|exact P].
  Qed.
  Lemma A_of_U : forall n, Uc n -> Ac n.
  Proof. intros n U d c p f rest HC F. unfold UL. rewrite (U d c p f rest HC F). reflexivity. Qed.
  Lemma B_of_A : forall n, Ac n -> Bc n.
  Proof.
    intros n A d c p f rest HC L F Q. rewrite PE_unfold, (A d c p f rest HC F), (LP_stop d p c n f rest F L). cbn [obind].
    destruct (p =? 0) eqn:E; [|reflexivity]. unfold p_conditional. rewrite Q; [reflexivity|]. apply Nat.eqb_eq. assumption.
  Qed.
  Lemma good_Q : forall n, postfixable n = true -> Qc n -> good n.
  Proof.
    intros n Hp Q. pose proof (U_of_Q n Hp Q) as U. pose proof (A_of_U n U) as A. pose proof (B_of_A n A) as B.
    repeat split; intros; assumption.
  Qed.
  Lemma good_U : forall n, postfixable n = false -> Uc n -> good n.
  Proof.
    intros n Hp U. pose proof (A_of_U n U) as A. pose proof (B_of_A n A) as B.
    repeat split; intros; first [assumption|congruence].
  Qed.

  (** An expression where anything may stand, before a closing token. *)
  Definition closing (ts : list ptok) : Prop := follow CxGlobal 0 ts /\ head_is (KOp OpQuestion) ts = false.
  Lemma closing_br : forall b v r, b <> LSquare -> b <> LParen -> closing ((KBracket b, v) :: r).
  Proof. intros b v r A B. split; [apply follow_br; assumption|apply head_is_other; congruence]. Qed.
  Lemma closing_op : forall o v r, match o with OpComma | OpSlice | OpRange => True | _ => False end -> closing ((KOp o, v) :: r).
  Proof.
    intros o v r H. destruct o; try (destruct H; fail);
      (split; [apply follow_op; [discriminate|discriminate|reflexivity]|apply head_is_other; discriminate]).
  Qed.
  Lemma closing_tok : forall k v r, match k with KLiteral | KTplEnd => True | _ => False end -> closing ((k, v) :: r).
  Proof. intros k v r H. split; [apply follow_tok; assumption|apply head_is_other; intros ->; destruct H]. Qed.
  Lemma G_ok : forall n d rest, Bc n -> sub d n -> closing rest -> G EE d (T n ++ rest) = Some (n, rest).
  Proof. intros n d rest B S [F Q]. unfold G, EE. apply (B d CxGlobal 0 0); auto. Qed.

  Lemma head_app : forall k a b, started a -> head_is k (a ++ b) = head_is k a.
  Proof. intros k a b (x & v & r & -> & _). reflexivity. Qed.
  Lemma T_len : forall n d, sub d n -> 1 <= length (T n).
  Proof. intros n d H. destruct (T_started _ _ _ _ _ H) as (k & v & r & -> & _). cbn. lia. Qed.
  Lemma T_not_led : forall n d b rest, sub d n -> not_led nt b n -> head_is (KBracket b) (T n ++ rest) = false.
  Proof. intros n d b rest H N. rewrite head_app; [exact N|]. eapply T_started; exact H. Qed.

  Lemma args_ok : forall l d, Forall Bc l -> Forall (subl d RParen) l -> forall lf acc v rest,
    length (spell (seps comma (map (words nt) l))) < lf ->
    p_args EE d lf acc (spell (seps comma (map (words nt) l)) ++ (KBracket RParen, v) :: rest) = Some (acc ++ l, (KBracket RParen, v) :: rest).
  Proof.
    induction l as [|x l IH]; intros d HB HC lf acc v rest L; (destruct lf as [|k]; [cbn in L; lia|]).
    - cbn. rewrite app_nil_r. reflexivity.
    - inversion HB as [|? ? Bx Bl]; subst. inversion HC as [|? ? [Sx Nx] Cl]; subst.
      destruct l as [|y l].
      + change (spell (seps comma (map (words nt) [x]))) with (T x) in *. cbn [p_args].
        rewrite (T_not_led x d RParen _ Sx Nx), (G_ok x d _ Bx Sx); [|apply closing_br; discriminate]. cbn [obind].
        rewrite head_is_other by discriminate. reflexivity.
      + change (map (words nt) (x :: y :: l)) with (words nt x :: words nt y :: map (words nt) l) in *.
        rewrite spell_seps in *. change (spell (words nt x)) with (T x) in *.
        change (words nt y :: map (words nt) l) with (map (words nt) (y :: l)) in *.
        rewrite <- app_assoc. cbn [p_args app].
        rewrite (T_not_led x d RParen _ Sx Nx), (G_ok x d _ Bx Sx); [|apply closing_op; exact I]. cbn [obind].
        rewrite head_is_self. cbn [tl]. rewrite app_length in L. cbn [length] in L.
        rewrite IH; [|assumption|assumption|lia]. rewrite <- app_assoc. reflexivity.
  Qed.

  Lemma call_args_ok : forall l d v rest, Forall Bc l -> Forall (subl d RParen) l ->
    p_call_args EE d (spell (seps comma (map (words nt) l)) ++ (KBracket RParen, v) :: rest) = Some (l, rest).
  Proof.
    intros l d v rest HB HC. unfold p_call_args. rewrite args_ok; [|assumption|assumption|rewrite app_length; lia]. cbn [obind app].
    rewrite head_is_self. reflexivity.
  Qed.

  (** The rest of an array, after at least one item. *)
  Lemma array_rest : forall l d, Forall Bc l -> Forall (subl d RSquare) l -> forall lf a acc v rest,
    length (spell (seps comma (map (words nt) l))) + 1 < lf ->
    p_array EE d lf (a :: acc) (match l with [] => [] | _ => (KOp OpComma, ",") :: spell (seps comma (map (words nt) l)) end
       ++ (KBracket RSquare, v) :: rest)
    = postfix EE d (NArray ((a :: acc) ++ l)) rest.
  Proof.
    induction l as [|x l IH]; intros d HB HC lf a acc v rest L; (destruct lf as [|k]; [cbn in L; lia|]).
    - cbn [p_array app]. rewrite head_is_self. rewrite app_nil_r. reflexivity.
    - inversion HB as [|? ? Bx Bl]; subst. inversion HC as [|? ? [Sx Nx] Cl]; subst.
      cbn [p_array app]. rewrite head_is_other by discriminate. rewrite head_is_self. cbn [tl].
      destruct l as [|y l].
      + change (spell (seps comma (map (words nt) [x]))) with (T x) in *.
        rewrite (T_not_led x d RSquare _ Sx Nx), (G_ok x d _ Bx Sx); [|apply closing_br; discriminate]. cbn [obind].
        specialize (IH d Bl Cl k a (acc ++ [x]) v rest). cbn [app] in IH. rewrite app_nil_r in IH.
        change (a :: acc ++ [x]) with ((a :: acc) ++ [x]) in *. cbn [app] in *. apply IH. cbn. pose proof (T_len x d Sx). lia.
      + change (map (words nt) (x :: y :: l)) with (words nt x :: words nt y :: map (words nt) l) in *.
        rewrite spell_seps in *. change (spell (words nt x)) with (T x) in *.
        change (words nt y :: map (words nt) l) with (map (words nt) (y :: l)) in *.
        rewrite <- app_assoc. cbn [app].
        rewrite (T_not_led x d RSquare _ Sx Nx), (G_ok x d _ Bx Sx); [|apply closing_op; exact I]. cbn [obind].
        specialize (IH d Bl Cl k a (acc ++ [x]) v rest). cbn [app] in IH. 
        rewrite IH; [|rewrite app_length in L; cbn [length] in L; pose proof (T_len x d Sx); lia].
        rewrite <- app_assoc. reflexivity.
  Qed.
  Lemma array_ok : forall l d, Forall Bc l -> Forall (subl d RSquare) l -> forall v rest lf,
    length (spell (seps comma (map (words nt) l))) + 1 < lf ->
    p_array EE d lf [] (spell (seps comma (map (words nt) l)) ++ (KBracket RSquare, v) :: rest) = postfix EE d (NArray l) rest.
  Proof.
    intros [|x l] d HB HC v rest lf L; (destruct lf as [|k]; [lia|]).
    - cbn. reflexivity.
    - inversion HB as [|? ? Bx Bl]; subst. inversion HC as [|? ? [Sx Nx] Cl]; subst.
      pose proof (array_rest l d Bl Cl k x [] v rest) as R. cbn [app] in R.
      assert (Z : spell (seps comma (map (words nt) (x :: l))) ++ (KBracket RSquare, v) :: rest =
        T x ++ (match l with [] => [] | _ => (KOp OpComma, ",") :: spell (seps comma (map (words nt) l)) end ++ (KBracket RSquare, v) :: rest)).
      { destruct l as [|y l]; [reflexivity|].
        change (map (words nt) (x :: y :: l)) with (words nt x :: words nt y :: map (words nt) l).
        rewrite spell_seps. rewrite <- app_assoc. reflexivity. }
      assert (W : length (T x) + length (spell (seps comma (map (words nt) l))) <= length (spell (seps comma (map (words nt) (x :: l))))).
      { destruct l as [|y l]; [change (length (T x) + 0 <= length (T x)); lia|]. change (map (words nt) (x :: y :: l)) with (words nt x :: words nt y :: map (words nt) l).
        rewrite spell_seps, app_length. cbn [length]. change (spell (words nt x)) with (T x). cbn [map]. lia. }
      rewrite Z. cbn [p_array].
      rewrite (T_not_led x d RSquare _ Sx Nx), (G_ok x d _ Bx Sx).
      + cbn [obind]. apply R. pose proof (T_len x d Sx). lia.
      + destruct l; [apply closing_br; discriminate|apply closing_op; exact I].
  Qed.

  (** No interval here. *)
  Lemma no_interval : forall d b v r, (hr = true -> exists l ts1, G EE d r = Some (l, ts1) /\ head_is (KOp OpRange) ts1 = false) ->
    p_interval hr EE d ((KBracket b, v) :: r) = Some (None, (KBracket b, v) :: r).
  Proof.
    intros d b v r H. unfold p_interval. destruct hr; [|reflexivity]. destruct (H eq_refl) as (l & ts1 & -> & N). cbn [obind].
    destruct (has_error l); [reflexivity|]. rewrite N. reflexivity.
  Qed.
  Definition not_bracket (k : tkind) : Prop := match k with KOp _ | KBracket _ => False | _ => True end.
  Lemma unary_literal : forall d k v r, not_bracket k -> (k = KIdent ICallback -> d = 0) ->
    p_unary pn hr PE d ((k, v) :: r) = p_literal pn hr EE d ((k, v) :: r).
  Proof.
    intros d k v r H C. unfold p_unary.
    replace ((0 <? d) && head_is (KIdent ICallback) ((k, v) :: r)) with false.
    - destruct k; try (destruct H; fail); unfold p_interval; destruct hr; cbn [obind]; rewrite ?head_is_other by discriminate; reflexivity.
    - symmetry. destruct (tkind_eq_dec k (KIdent ICallback)) as [->|N]; [rewrite (C eq_refl); reflexivity|].
      rewrite head_is_other by assumption. apply andb_false_r.
  Qed.
  Lemma unary_bracket : forall d b v r, p_unary pn hr PE d ((KBracket b, v) :: r) =
    obind (p_interval hr EE d ((KBracket b, v) :: r)) (fun '(o, ts1) =>
      match o with
      | Some n => Some (n, ts1)
      | None =>
          if head_is (KBracket LParen) ((KBracket b, v) :: r) then
            obind (PE d 0 CxGlobal (tl ts1)) (fun '(n, ts2) =>
              if head_is (KBracket RParen) ts2 then postfix EE d (NParen n) (tl ts2) else Some (NError None, ts2))
          else p_literal pn hr EE d ts1
      end).
  Proof.
    intros d b v r. unfold p_unary.
    replace ((0 <? d) && head_is (KIdent ICallback) ((KBracket b, v) :: r)) with false; [reflexivity|].
    rewrite head_is_other by discriminate. rewrite andb_false_r. reflexivity.
  Qed.
  Lemma postfix_PF : forall d n rest m cb rest', PF d n rest = Some (m, cb, rest') -> postfix EE d n rest = Some (m, rest').
  Proof. intros d n rest m cb rest' H. unfold postfix. unfold PF in H. rewrite H. reflexivity. Qed.
  Lemma PF_any : forall d n ts lf, nopost ts -> length ts < lf -> exists cb, p_postfix EE d lf n ts = Some (n, cb, ts).
  Proof. intros d n ts lf N L. rewrite postfix_fuel by assumption. apply PF_stop. assumption. Qed.

  (** Steps of the postfix loop. *)
  Lemma PF_property : forall d n s rest m cb rest', head_is (KBracket LParen) rest = false ->
    PF d (NMember n (NString s)) rest = Some (m, cb, rest') ->
    exists cb', PF d n ((KOp OpDot, ".") :: (KLiteral, s) :: rest) = Some (m, cb', rest').
  Proof.
    intros d n s rest m cb rest' P H. eexists. unfold PF. cbn [p_postfix p_member tl valid_property]. rewrite P. cbn [obind].
    rewrite postfix_fuel by (cbn [length]; lia). unfold PF in H. rewrite H. reflexivity.
  Qed.
  Lemma PF_method : forall d n k args v rest m cb rest', In k method_names ->
    Forall Bc args -> Forall (subl d RParen) args -> nopost rest' ->
    PF d (NMethod k n args) rest = Some (m, cb, rest') ->
    exists cb', PF d n ((KOp OpDot, ".") :: (KLiteral, k) :: (KBracket LParen, v) :: spell (seps comma (map (words nt) args)) ++ (KBracket RParen, ")") :: rest)
      = Some (m, cb', rest').
  Proof.
    intros d n k args v rest m cb rest' K HB HC NP H.
    set (tail := spell (seps comma (map (words nt) args)) ++ (KBracket RParen, ")") :: rest).
    assert (LT : length rest < length tail) by (unfold tail; rewrite app_length; cbn [length]; lia).
    assert (LR : length rest' <= length rest).
    { unfold PF in H. destruct (enough_ppostfix EE (S (length rest)) (fun d c us _ => PE_total d 0 c us) d (S (length rest)) (NMethod k n args) rest)
        as (x & r2 & A & [pre B]); [lia|lia|]. rewrite A in H. inversion H; subst. rewrite app_length. lia. }
    destruct (PF_any d m rest' (S (S (S (length tail)))) NP) as [cb2 P2]; [lia|].
    eexists. unfold PF. cbn [length].
    remember (S (S (S (length tail)))) as N eqn:EN. cbn [p_postfix p_member tl valid_property].
    rewrite head_is_self. unfold p_method, method_kind.
    replace (existsb (String.eqb k) method_names) with true.
    2:{ symmetry. apply existsb_exists. exists k. split; [assumption|apply String.eqb_refl]. }
    cbn [tl]. unfold tail at 1. rewrite call_args_ok by assumption. cbn [obind].
    rewrite postfix_fuel by lia. unfold PF in H. rewrite H. cbn [obind]. rewrite P2. cbn [obind]. reflexivity.
  Qed.
  Lemma PF_square : forall d n v ts n1 ts1 m cb rest', p_computed EE d n ((KBracket LSquare, v) :: ts) = Some (n1, ts1) ->
    length ts1 <= length ts -> PF d n1 ts1 = Some (m, cb, rest') ->
    exists cb', PF d n ((KBracket LSquare, v) :: ts) = Some (m, cb', rest').
  Proof.
    intros d n v ts n1 ts1 m cb rest' C L H. eexists. unfold PF. cbn [length].
    remember (S (length ts)) as N eqn:EN. cbn [p_postfix]. rewrite C. cbn [obind].
    rewrite postfix_fuel by lia. unfold PF in H. rewrite H. reflexivity.
  Qed.
  Lemma T_no_slice : forall x d rest, sub d x -> head_is (KOp OpSlice) (T x ++ rest) = false.
  Proof.
    intros x d rest Sx. destruct (T_started _ _ _ _ _ Sx) as (k0 & v0 & r0 & ET & St).
    rewrite ET. cbn [app]. apply head_is_other. intros ->. apply St. reflexivity.
  Qed.
  Lemma cons_match : forall A (ts : list ptok) (a b : A), 1 <= length ts -> match ts with [] => a | _ :: _ => b end = b.
  Proof. intros A [|t ts] a b H; [cbn in H; lia|reflexivity]. Qed.
  Lemma computed_member : forall d n x v rest, Bc x -> sub d x ->
    p_computed EE d n ((KBracket LSquare, v) :: T x ++ (KBracket RSquare, "]") :: rest) = Some (NMember n x, rest).
  Proof.
    intros d n x v rest Bx Sx. unfold p_computed. cbn [tl].
    rewrite cons_match by (rewrite app_length; cbn [length]; lia).
    rewrite (T_no_slice x d _ Sx), (G_ok x d _ Bx Sx) by (apply closing_br; discriminate). cbn [obind].
    rewrite head_is_other by discriminate. rewrite head_is_self. reflexivity.
  Qed.
  Definition To (o : option node) : list ptok := match o with Some x => T x | None => [] end.
  Lemma computed_slice : forall d n a b v rest,
    match a with Some x => Bc x /\ sub d x | None => True end ->
    match b with Some x => Bc x /\ sub d x /\ not_led nt RSquare x | None => True end ->
    p_computed EE d n ((KBracket LSquare, v) :: To a ++ (KOp OpSlice, ":") :: To b ++ (KBracket RSquare, "]") :: rest) = Some (NSlice n a b, rest).
  Proof.
    intros d n a b v rest Ha Hb. unfold p_computed. cbn [tl].
    assert (L : forall ts : list ptok, 1 <= length (ts ++ (KBracket RSquare, "]") :: rest)) by (intros; rewrite app_length; cbn [length]; lia).
    destruct a as [x|]; cbn [To app].
    - destruct Ha as [Bx Sx].
      rewrite cons_match by (rewrite app_length; cbn [length]; lia).
      rewrite (T_no_slice x d _ Sx), (G_ok x d _ Bx Sx) by (apply closing_op; exact I). cbn [obind].
      rewrite head_is_self. cbn [tl]. rewrite cons_match by apply L.
      destruct b as [y|]; cbn [To app].
      + destruct Hb as (By & Sy & Ny). rewrite (T_not_led y d RSquare _ Sy Ny), (G_ok y d _ By Sy) by (apply closing_br; discriminate).
        cbn [obind]. rewrite head_is_self. reflexivity.
      + rewrite !head_is_self. cbn [obind]. rewrite head_is_self. reflexivity.
    - rewrite head_is_self. cbn [tl]. rewrite cons_match by apply L.
      destruct b as [y|]; cbn [To app].
      + destruct Hb as (By & Sy & Ny). rewrite (T_not_led y d RSquare _ Sy Ny), (G_ok y d _ By Sy) by (apply closing_br; discriminate).
        cbn [obind]. rewrite head_is_self. reflexivity.
      + rewrite !head_is_self. cbn [obind]. rewrite head_is_self. reflexivity.
  Qed.

  (** ** Templates and objects *)
  Definition part_words (x : node) : list word :=
    match x with NString s => [WTok KLiteral s] | _ => WTok KTplStart "${" :: words nt x ++ [WTok KTplEnd "}"] end.
  Lemma template_ok : forall l d, Forall Bc l -> Forall (sub d) l -> forall lf acc v rest,
    length (spell (flat_map part_words l)) < lf ->
    p_template EE d lf acc (spell (flat_map part_words l) ++ (KQuote QBacktick, v) :: rest) = Some (NTemplate (acc ++ l), rest).
  Proof.
    induction l as [|x l IH]; intros d HB HC lf acc v rest L; (destruct lf as [|k]; [cbn in L; lia|]).
    - cbn. rewrite app_nil_r. reflexivity.
    - inversion HB as [|? ? Bx Bl]; subst. inversion HC as [|? ? Sx Cl]; subst.
      cbn [flat_map] in *. rewrite spell_app in *. rewrite app_length in L.
      assert (D : (exists s, x = NString s) \/ part_words x = WTok KTplStart "${" :: words nt x ++ [WTok KTplEnd "}"]).
      { destruct x; try (right; reflexivity). left. eexists; reflexivity. }
      destruct D as [[s ->]|D].
      + cbn [part_words] in *. rewrite spell_tok, spell_nil in *. cbn [app p_template length] in *.
        rewrite IH; [|assumption|assumption|lia]. rewrite <- app_assoc. reflexivity.
      + rewrite D in *. rewrite spell_tok, spell_app in *. change (spell (words nt x)) with (T x) in *.
        change (spell [WTok KTplEnd "}"]) with [(KTplEnd, "}")] in *. cbn [app] in *. rewrite <- !app_assoc. cbn [app p_template].
        rewrite (G_ok x d _ Bx Sx) by (apply closing_tok; exact I). cbn [obind]. rewrite head_is_self. cbn [tl].
        cbn [length] in L. rewrite app_length in L.
        rewrite IH; [|assumption|assumption|lia]. rewrite <- app_assoc. reflexivity.
  Qed.

  Definition pair_words (kv : node * node) : list word :=
    match fst kv with
    | NString s => [WStr (quote_for s) s]
    | _ => wbr LSquare :: words nt (fst kv) ++ [wbr RSquare]
    end ++ wop OpSlice :: words nt (snd kv).
  Definition key_toks (k : node) : list ptok :=
    match k with
    | NString s => T k
    | _ => (KBracket LSquare, "[") :: T k ++ [(KBracket RSquare, "]")]
    end.
  Lemma pair_spell : forall kv, spell (pair_words kv) = key_toks (fst kv) ++ (KOp OpSlice, ":") :: T (snd kv).
  Proof.
    intros [k v]. unfold pair_words. cbn [fst snd]. rewrite spell_app. f_equal.
    destruct k; try (unfold key_toks, wbr; rewrite spell_tok, spell_app; reflexivity). reflexivity.
  Qed.
  Lemma key_ok : forall k d rest, Bc k -> sub d k -> p_key EE d (key_toks k ++ rest) = Some (k, rest).
  Proof.
    intros k d rest Bk Sk.
    assert (D : (exists s, k = NString s) \/ key_toks k = (KBracket LSquare, "[") :: T k ++ [(KBracket RSquare, "]")]).
    { destruct k; try (right; reflexivity). left. eexists; reflexivity. }
    destruct D as [[s ->]|D].
    - unfold key_toks, T. cbn [words]. rewrite spell_str, spell_nil. cbn [app]. unfold quote_for.
      destruct (has_byte "'" s); cbn [p_key p_string]; rewrite head_is_self;
        (match goal with |- context[tkind_eq_dec ?a ?a] => destruct (tkind_eq_dec a a) as [_|NE]; [reflexivity|congruence] end).
    - rewrite D. cbn [app p_key]. rewrite <- app_assoc. cbn [app]. rewrite (G_ok k d _ Bk Sk) by (apply closing_br; discriminate).
      cbn [obind]. rewrite head_is_self. reflexivity.
  Qed.
  Lemma key_len : forall k d, sub d k -> 1 <= length (key_toks k).
  Proof. intros k d H. pose proof (T_len k d H) as L. destruct k; try exact L; cbn; lia. Qed.
  Lemma object_ok : forall l x d, Forall (fun kv => Bc (fst kv) /\ Bc (snd kv)) (x :: l) ->
    Forall (fun kv => subl d RSquare (fst kv) /\ sub d (snd kv)) (x :: l) -> forall lf acc v rest,
    length (spell (seps comma (map pair_words (x :: l)))) < lf ->
    p_object EE d lf acc (spell (seps comma (map pair_words (x :: l))) ++ (KBracket RCurly, v) :: rest) = Some (NObject (acc ++ x :: l), rest).
  Proof.
    induction l as [|y l IH]; intros x d HB HC lf acc v rest L; (destruct lf as [|k]; [lia|]);
      inversion HB as [|? ? [Bk Bv] Bl]; subst; inversion HC as [|? ? [[Sk _] Sv] Cl]; subst.
    - change (seps comma (map pair_words [x])) with (pair_words x) in *. rewrite pair_spell in *.
      rewrite <- app_assoc. cbn [app p_object]. rewrite (key_ok _ d _ Bk Sk). cbn [obind]. rewrite head_is_self. cbn [tl].
      rewrite (G_ok _ d _ Bv Sv) by (apply closing_br; discriminate). cbn [obind]. destruct x; reflexivity.
    - change (map pair_words (x :: y :: l)) with (pair_words x :: pair_words y :: map pair_words l) in *.
      rewrite spell_seps, pair_spell in *. change (pair_words y :: map pair_words l) with (map pair_words (y :: l)) in *.
      rewrite <- !app_assoc. cbn [app p_object]. rewrite (key_ok _ d _ Bk Sk). cbn [obind]. rewrite head_is_self. cbn [tl].
      rewrite (G_ok _ d _ Bv Sv) by (apply closing_op; exact I). cbn [obind].
      rewrite IH; [|assumption|assumption|].
      + rewrite <- app_assoc. destruct x; reflexivity.
      + rewrite !app_length in L. cbn [length] in L. pose proof (key_len _ d Sk). lia.
  Qed.

  (** ** The main induction *)
  Lemma good_never : forall n, postfixable n = false -> (forall d c p f, ~ can n d c p f) -> good n.
  Proof.
    intros n P H. split; [intros; congruence|]. split; [|split]; intros; try intros d c p f rest HC; try (destruct (H _ _ _ _ HC)).
    
  Qed.
  Lemma good_B : forall l, Forall (fun n => good n /\ body_ok good n) l -> Forall Bc l.
  Proof. intros l H. eapply Forall_impl; [|exact H]. intros x [(_ & _ & _ & B) _]. exact B. Qed.
  Lemma ident_done : forall d n v k rest m cb rest',
    n = match k with KIdent IRoot => NRoot | _ => NIdent v end ->
    PF d n rest = Some (m, cb, rest') -> head_is (KOp OpAssign) rest' = false -> head_is (KBracket LParen) rest = false ->
    p_identifier EE d ((k, v) :: rest) = Some (m, rest').
  Proof.
    intros d n v k rest m cb rest' -> H A P. unfold p_identifier. rewrite P. cbv zeta. unfold PF in H. rewrite H. cbn [obind].
    rewrite A. reflexivity.
  Qed.
  Lemma function_kind_ok : forall k, match k with FDeprecated s => In s deprecated_names | _ => True end -> function_kind (fname k) = Some k.
  Proof.
    intros [f|s|c] H; [destruct f; reflexivity| |destruct c; reflexivity].
    cbn in H. repeat (destruct H as [<-|H]; [reflexivity|]). destruct H.
  Qed.

  Theorem good_all : forall n, good n /\ body_ok good n.
  Proof.
    induction n using node_ind'; (split; [|try exact I]).
    - (* null *) apply good_U; [reflexivity|]. intros d c p f rest HC F. unfold T. cbn [words]. rewrite spell_tok, spell_nil. cbn [app].
      rewrite unary_literal; [reflexivity|exact I|discriminate].
    - (* bool *) apply good_U; [reflexivity|]. intros d c p f rest HC F. unfold T. cbn [words]. rewrite spell_tok, spell_nil. cbn [app].
      rewrite unary_literal; [reflexivity|exact I|discriminate].
    - (* number *) apply good_U; [reflexivity|]. intros d0 c p f rest HC F. unfold T. cbn [words]. rewrite spell_tok, spell_nil. cbn [app].
      rewrite unary_literal; [|exact I|discriminate]. cbn [canon] in HC. cbn [p_literal]. rewrite HC. reflexivity.
    - (* string *) apply good_U; [reflexivity|]. intros d c p f rest HC F. unfold T. cbn [words]. rewrite spell_str, spell_nil. cbn [app].
      rewrite unary_literal; [|exact I|discriminate]. unfold quote_for.
      destruct (has_byte "'" s); cbn [p_literal p_string]; rewrite head_is_self;
        (match goal with |- context[tkind_eq_dec ?a ?a] => destruct (tkind_eq_dec a a) as [_|NE]; [reflexivity|congruence] end).
    - (* template *) apply good_U; [reflexivity|]. intros d c p f rest HC F. apply can_template in HC. unfold T. cbn [words].
      change (flat_map _ l) with (flat_map part_words l). rewrite spell_tok, spell_app, spell_tok, spell_nil. cbn [app].
      rewrite <- app_assoc. cbn [app]. rewrite unary_literal; [|exact I|discriminate]. cbn [p_literal].
      rewrite cons_match by (rewrite app_length; cbn [length]; lia).
      rewrite template_ok; [reflexivity|apply good_B; assumption|assumption|rewrite app_length; lia].
    - (* pointer *) apply good_Q; [reflexivity|]. intros d rest m cb rest' HC H N A P. unfold T. cbn [words]. rewrite spell_tok, spell_nil. cbn [app].
      unfold p_unary. cbn [sub canon] in HC. rewrite head_is_self.
      replace (0 <? d) with true by (symmetry; apply Nat.ltb_lt; exact HC). cbn [andb].
      change (fun d c ts => PE d 0 c ts) with EE. eapply postfix_PF; exact H.
    - (* array *) apply good_Q; [reflexivity|]. intros d rest m cb rest' HC PFH N A P. apply (can_array l d CxGlobal 0 0) in HC. destruct HC as [NE HC].
      apply good_B in H. unfold T. cbn [words]. unfold wbr. rewrite spell_tok, spell_app, spell_tok, spell_nil. cbn [app]. rewrite <- app_assoc. cbn [app].
      set (tail := (KBracket RSquare, bracket_text RSquare) :: rest).
      assert (NI : p_interval hr EE d ((KBracket LSquare, bracket_text LSquare) :: spell (seps comma (map (words nt) l)) ++ tail) =
        Some (None, (KBracket LSquare, bracket_text LSquare) :: spell (seps comma (map (words nt) l)) ++ tail)).
      { apply no_interval. intros Hr. destruct l as [|x l]; [destruct (NE Hr); reflexivity|].
        inversion H as [|? ? Bx Bl]; subst. inversion HC as [|? ? [Sx Nx] Cl]; subst.
        destruct l as [|y l].
        - change (spell (seps comma (map (words nt) [x]))) with (T x). do 2 eexists.
          split; [apply (G_ok x d _ Bx Sx); apply closing_br; discriminate|apply head_is_other; discriminate].
        - change (map (words nt) (x :: y :: l)) with (words nt x :: words nt y :: map (words nt) l). rewrite spell_seps, <- app_assoc.
          change (spell (words nt x)) with (T x). do 2 eexists.
          split; [apply (G_ok x d _ Bx Sx); apply closing_op; exact I|apply head_is_other; discriminate]. }
      rewrite unary_bracket, NI. cbn [obind]. rewrite head_is_other by discriminate. cbn [p_literal]. rewrite NI. cbn [obind].
      rewrite head_is_self. cbn [tl]. unfold tail. rewrite array_ok; [|assumption|assumption|].
      + eapply postfix_PF; exact PFH.
      + cbn [length]. rewrite app_length. cbn [length]. lia.
    - (* object *) apply good_U; [reflexivity|]. intros d c p f rest HC F. apply can_object in HC. destruct HC as [NE HC].
      assert (HB : Forall (fun kv => Bc (fst kv) /\ Bc (snd kv)) l).
      { eapply Forall_impl; [|exact H]. intros kv [[(_ & _ & _ & X) _] [(_ & _ & _ & Y) _]]. auto. }
      unfold T. cbn [words]. change (map _ l) with (map pair_words l). unfold wbr.
      rewrite spell_tok, spell_app. rewrite spell_tok, spell_nil. cbn [app]. rewrite <- app_assoc. cbn [app].
      destruct l as [|x l].
      + rewrite unary_bracket, no_interval; [|intros Hr; destruct (NE Hr); reflexivity]. cbn [obind]. reflexivity.
      + assert (HD : exists k0 v0 r0, spell (seps comma (map pair_words (x :: l))) = (k0, v0) :: r0 /\ k0 <> KBracket RCurly /\
          forall tail, exists n1 ts1, G EE d (((k0, v0) :: r0) ++ tail) = Some (n1, ts1) /\ head_is (KOp OpRange) ts1 = false).
        { inversion HB as [|? ? [Bk _] _]; subst. inversion HC as [|? ? [[Sk Nk] _] _]; subst.
          assert (Z : exists us, spell (seps comma (map pair_words (x :: l))) = key_toks (fst x) ++ (KOp OpSlice, ":") :: us).
          { destruct l as [|y l].
            - change (seps comma (map pair_words [x])) with (pair_words x). rewrite pair_spell. eexists. reflexivity.
            - change (map pair_words (x :: y :: l)) with (pair_words x :: pair_words y :: map pair_words l).
              rewrite spell_seps, pair_spell, <- app_assoc. eexists. reflexivity. }
          destruct Z as [us Z]. rewrite Z.
          assert (D : (exists s, fst x = NString s) \/ key_toks (fst x) = (KBracket LSquare, "[") :: T (fst x) ++ [(KBracket RSquare, "]")]).
          { destruct (fst x); try (right; reflexivity). left. eexists; reflexivity. }
          destruct D as [[s D]|D].
          - rewrite D. do 3 eexists. split; [reflexivity|]. split; [discriminate|]. intros tail.
            exists (NString s). rewrite D in Bk, Sk. eexists. split.
            + pose proof (G_ok (NString s) d ((KOp OpSlice, ":") :: us ++ tail) Bk Sk) as GG. apply GG. apply closing_op. exact I.
            + apply head_is_other. discriminate.
          - rewrite D. do 3 eexists. split; [reflexivity|]. split; [discriminate|]. intros tail.
            exists (NArray [fst x]), ((KOp OpSlice, ":") :: us ++ tail). split; [|apply head_is_other; discriminate].
            cbn [app]. rewrite <- !app_assoc. cbn [app].
            assert (NI : p_interval hr EE d ((KBracket LSquare, "[") :: T (fst x) ++ (KBracket RSquare, "]") :: (KOp OpSlice, ":") :: us ++ tail) =
              Some (None, (KBracket LSquare, "[") :: T (fst x) ++ (KBracket RSquare, "]") :: (KOp OpSlice, ":") :: us ++ tail)).
            { apply no_interval. intros _. do 2 eexists. split; [apply (G_ok _ d _ Bk Sk); apply closing_br; discriminate|].
              apply head_is_other; discriminate. }
            unfold G, EE. rewrite PE_unfold. unfold UL. rewrite unary_bracket, NI. cbn [obind].
            rewrite head_is_other by discriminate. cbn [p_literal]. rewrite NI. cbn [obind]. rewrite head_is_self. cbn [tl].
            pose proof (array_ok [fst x] d) as AR. change (spell (seps comma (map (words nt) [fst x]))) with (T (fst x)) in AR.
            rewrite AR; [|constructor; [exact Bk|constructor]|constructor; [split; assumption|constructor]|cbn [length]; rewrite app_length; cbn [length]; lia].
            destruct (PF_stop d (NArray [fst x]) ((KOp OpSlice, ":") :: us ++ tail)) as [cb S]; [split; apply head_is_other; discriminate|].
            rewrite (postfix_PF _ _ _ _ _ _ S). cbn [obind].
            rewrite (LP_stop d 0 CxGlobal (NArray [fst x]) 0); [|apply follow_op; [discriminate|discriminate|reflexivity]|auto].
            cbn [obind]. cbn [Nat.eqb]. unfold p_conditional. rewrite head_is_other by discriminate. reflexivity. }
        destruct HD as (k0 & v0 & r0 & E0 & NK & HG).
        rewrite unary_bracket, no_interval.
        2:{ intros _. rewrite E0. apply HG. }
        cbn [obind]. rewrite head_is_other by discriminate. cbn [p_literal].
        pose proof (object_ok l x d HB HC (S (length (spell (seps comma (map pair_words (x :: l))) ++ (KBracket RCurly, bracket_text RCurly) :: rest))) []
          (bracket_text RCurly) rest) as OB. cbn [app] in OB.
        rewrite <- OB; [|rewrite app_length; lia].
        rewrite E0. cbn [app]. destruct k0 as [| | | | | |b| |]; try reflexivity. destruct b; try reflexivity. congruence.
    - (* assign *) apply good_never; [reflexivity|]. intros d c p f HC. exact HC.
    - (* ident *) apply good_Q; [reflexivity|]. intros d rest m cb rest' (N1 & N2 & N3) H N A P. unfold T. cbn [words].
      unfold wname. rewrite spell_tok, spell_nil. cbn [app]. destruct (ident_of_str s) as [i|] eqn:EI.
      + assert (I : (i = IContext /\ s = "$") \/ (i = ICallback /\ s = "#")).
        { unfold ident_of_str in EI. cbn [aget] in EI.
          repeat match type of EI with (if ?b then _ else _) = _ => let E := fresh in destruct b eqn:E; [apply String.eqb_eq in E|] end;
            inversion EI; subst; auto; congruence. }
        destruct I as [[-> ->]|[-> ->]]; (rewrite unary_literal; [|exact Logic.I|auto; discriminate]); cbn [p_literal];
          (eapply ident_done; [reflexivity|exact H|exact A|exact P]).
      + rewrite unary_literal; [|exact Logic.I|discriminate]. cbn [p_literal]. eapply ident_done; [reflexivity|exact H|exact A|exact P].
    - (* closure *) apply good_never; [reflexivity|]. intros d c p f HC. exact HC.
    - exact (proj1 IHn).
    - (* paren *) apply good_Q; [reflexivity|]. destruct IHn as [(_ & _ & _ & Bn) _].
      intros d rest m cb rest' HC H N A P. change (sub d n) in HC. unfold T. cbn [words]. unfold wbr.
      rewrite spell_tok, spell_app, spell_tok, spell_nil. change (spell (words nt n)) with (T n). cbn [app]. rewrite <- app_assoc. cbn [app].
      rewrite unary_bracket, no_interval.
      2:{ intros _. do 2 eexists. split; [apply (G_ok n d _ Bn HC); apply closing_br; discriminate|apply head_is_other; discriminate]. }
      cbn [obind]. rewrite head_is_self. cbn [tl]. change (PE d 0 CxGlobal) with (G EE d).
      rewrite (G_ok n d _ Bn HC) by (apply closing_br; discriminate). cbn [obind]. rewrite head_is_self. cbn [tl].
      eapply postfix_PF; exact H.
    - (* root *) apply good_Q; [reflexivity|]. intros d rest m cb rest' HC H N A P. unfold T. cbn [words]. rewrite spell_tok, spell_nil. cbn [app].
      rewrite unary_literal; [|exact I|discriminate]. cbn [p_literal]. eapply ident_done; [reflexivity|exact H|exact A|exact P].
    - (* member *) apply good_Q; [reflexivity|]. destruct IHn1 as [(Q1 & _) _]. destruct IHn2 as [(_ & _ & _ & B2) _].
      intros d rest m cb rest' (PX & S1 & S2) H N A P. change (sub d n1) in S1. change (sub d n2) in S2.
      unfold T. cbn [words]. rewrite spell_app, <- app_assoc. change (spell (words nt n1)) with (T n1).
      assert (D : (exists s, n2 = NString s /\ plain_name s = true) \/
        match n2 with NString s => if plain_name s then [wop OpDot; WTok KLiteral s] else wbr LSquare :: words nt n2 ++ [wbr RSquare]
        | _ => wbr LSquare :: words nt n2 ++ [wbr RSquare] end = wbr LSquare :: words nt n2 ++ [wbr RSquare]).
      { destruct n2; try (right; reflexivity). destruct (plain_name s) eqn:E; [left; eauto|right; reflexivity]. }
      destruct D as [(s & -> & E)|D].
      + rewrite E. destruct (PF_property d n1 s rest m cb rest' P H) as [cb' PF'].
        eapply (Q1 PX d _ m cb' rest' S1); [exact PF'|exact N|exact A|reflexivity].
      + rewrite D. unfold wbr. rewrite spell_tok, spell_app, spell_tok, spell_nil. cbn [app]. rewrite <- app_assoc.
        destruct (PF_square d n1 "[" (T n2 ++ (KBracket RSquare, "]") :: rest) (NMember n1 n2) rest m cb rest') as [cb' PF'];
          [apply computed_member; assumption|rewrite app_length; cbn [length]; lia|exact H|].
        eapply (Q1 PX d _ m cb' rest' S1); [exact PF'|exact N|exact A|reflexivity].
    - (* slice *) apply good_Q; [reflexivity|]. destruct IHn as [(Q1 & _) _].
      intros d rest m cb rest' (PX & S1 & Sf & St) PH N A P. change (sub d n) in S1.
      assert (E : T (NSlice n f t) ++ rest = T n ++ (KBracket LSquare, "[") :: To f ++ (KOp OpSlice, ":") :: To t ++ (KBracket RSquare, "]") :: rest).
      { unfold T. cbn [words]. unfold wbr, wop. rewrite spell_app, spell_tok, spell_app, spell_tok, spell_app, spell_tok, spell_nil, <- app_assoc.
        cbn [app]. rewrite <- app_assoc. cbn [app]. rewrite <- app_assoc. destruct f, t; reflexivity. }
      rewrite E.
      destruct (PF_square d n "[" (To f ++ (KOp OpSlice, ":") :: To t ++ (KBracket RSquare, "]") :: rest) (NSlice n f t) rest m cb rest') as [cb' PF'].
      { apply computed_slice.
        - destruct f; [|exact I]. cbn in H. split; [apply H|exact Sf].
        - destruct t; [|exact I]. cbn in H0. split; [apply H0|exact St]. }
      { rewrite !app_length. cbn [length]. rewrite app_length. cbn [length]. lia. }
      { exact PH. }
      eapply (Q1 PX d _ m cb' rest' S1); [exact PF'|exact N|exact A|reflexivity].
    - (* interval *) apply good_Q; [reflexivity|]. destruct IHn1 as [(_ & _ & _ & B1) _]. destruct IHn2 as [(_ & _ & _ & B2) _].
      intros d rest m cb rest' (Hr & S1 & S2 & RB) H N A P. pose proof (no_error _ _ _ _ _ S1) as E1. pose proof (no_error _ _ _ _ _ S2) as E2.
      change (sub d n1) in S1. change (sub d n2) in S2.
      unfold T. cbn [words]. unfold wbr, wop. rewrite spell_tok, spell_app, spell_tok, spell_app, spell_tok, spell_nil.
      change (spell (words nt n1)) with (T n1). change (spell (words nt n2)) with (T n2). cbn [app]. rewrite <- app_assoc. cbn [app]. rewrite <- app_assoc. cbn [app].
      rewrite unary_bracket. unfold p_interval. rewrite Hr.
      rewrite (G_ok n1 d _ B1 S1) by (apply closing_op; exact I). cbn [obind]. rewrite E1, head_is_self. cbn [tl].
      assert (G2 : G EE d (T n2 ++ (KBracket rb, bracket_text rb) :: rest) = Some (n2, (KBracket rb, bracket_text rb) :: rest)).
      { assert (D : (rb <> LSquare /\ rb <> LParen) \/ (exists x, n2 = NNumber x)).
        { destruct rb; try (left; split; discriminate); right; destruct n2; try (destruct RB; fail); eauto. }
        destruct D as [[D1 D2]|[x ->]]; [apply (G_ok n2 d _ B2 S2); apply closing_br; assumption|].
        cbn [sub canon] in S2. unfold G, EE. rewrite PE_unfold. unfold UL, T. cbn [words]. rewrite spell_tok, spell_nil. cbn [app].
        rewrite unary_literal; [|exact I|discriminate]. cbn [p_literal]. unfold sub in S2. cbn [canon] in S2. rewrite S2. cbn [obind].
        unfold LP. cbn [p_loop obind Nat.eqb]. unfold p_conditional. rewrite head_is_other by discriminate. reflexivity. }
      rewrite G2. cbn [obind]. rewrite E2. rewrite (postfix_PF _ _ _ _ _ _ H). reflexivity.
    - (* conditional *) destruct IHn1 as [(_ & _ & A1 & _) _]. destruct IHn2 as [(_ & _ & _ & B2) _]. destruct IHn3 as [(_ & _ & _ & B3) _].
      split; [discriminate|]. split; [discriminate|]. split; [discriminate|].
      intros d c p f rest (-> & -> & S1 & S2 & S3) _ F Q. change (sub d n2) in S2. change (sub d n3) in S3.
      assert (NC : is_cond n1 = false) by (destruct n1; try reflexivity; destruct S1 as (X & _); discriminate).
      rewrite PE_unfold. unfold T. cbn [words]. unfold wop. rewrite spell_app, spell_tok, spell_app, spell_tok.
      change (spell (words nt n1)) with (T n1). change (spell (words nt n2)) with (T n2). change (spell (words nt n3)) with (T n3).
      rewrite <- app_assoc. cbn [app]. rewrite <- app_assoc. cbn [app].
      rewrite (A1 NC d c 0 0); [|eapply can_down; [exact S1|lia]|apply follow_op; [discriminate|discriminate|reflexivity]].
      rewrite (LP_stop d 0 c n1 0); [|apply follow_op; [discriminate|discriminate|reflexivity]|auto]. cbn [obind Nat.eqb].
      unfold p_conditional. rewrite head_is_self. cbn [tl].
      rewrite (G_ok n2 d _ B2 S2) by (apply closing_op; exact I). cbn [obind]. rewrite head_is_self. cbn [tl].
      rewrite (G_ok n3 d _ B3 S3); [reflexivity|]. split; [eapply follow_global; exact F|apply Q; reflexivity].
    - (* unary *) apply good_U; [reflexivity|]. destruct IHn as [(_ & _ & _ & Bn) _].
      intros d c p f rest (u & EU & L & S) F. unfold T. cbn [words]. unfold wop. rewrite spell_tok. change (spell (words nt n)) with (T n). cbn [app].
      unfold p_unary. rewrite head_is_other by discriminate. rewrite andb_false_r. rewrite EU.
      rewrite (Bn d CxGlobal u f rest S); [reflexivity|auto|eapply follow_global; exact F|]. intros ->. lia.
    - (* binary *) destruct IHn1 as [(_ & _ & A1 & _) _]. destruct IHn2 as [(_ & _ & _ & B2) _].
      assert (AC : Ac (NBinary n1 op n2)).
      { intros d c p f rest (q & la & EB & Lp & Lf & J & S1 & S2) F. pose proof (binary_pos _ _ _ EB) as Hq.
        assert (NC : is_cond n1 = false) by (destruct n1; try reflexivity; destruct S1 as (_ & X & _); lia).
        unfold T. cbn [words]. unfold wop. rewrite spell_app, spell_tok. change (spell (words nt n1)) with (T n1). change (spell (words nt n2)) with (T n2).
        rewrite <- app_assoc. cbn [app].
        rewrite (A1 NC d c p q _ S1) by (eapply follow_bin; exact EB).
        unfold LP at 1. cbn [length]. remember (S (length (T n2 ++ rest))) as N eqn:EN. cbn [p_loop]. rewrite joins_ends, J, EB.
        replace (q <? p) with false by (symmetry; apply Nat.ltb_ge; exact Lp).
        change (if la then q + 1 else q) with (right_level q la).
        rewrite (B2 d CxGlobal (right_level q la) f rest S2); [|auto|eapply follow_global; exact F|].
        - cbn [obind]. apply loop_fuel. rewrite EN, app_length. lia.
        - intros Z. unfold right_level in Z. destruct la; lia. }
      split; [discriminate|]. split; [discriminate|]. split; [intros _; exact AC|apply B_of_A; exact AC].
    - (* call *) apply good_Q; [reflexivity|]. intros d rest m cb rest' HC PH N A P.
      assert (CK : match k with FDeprecated s => In s deprecated_names | _ => True end) by (destruct k; [exact I|exact (proj1 HC)|exact I]).
      pose proof (function_kind_ok k CK) as FK.
      assert (D : (exists c x b al, k = FClosure c /\ l = [x; NClosure b al]) \/
        ((match k with FClosure _ => False | _ => True end) /\ Forall (subl d RParen) l)).
      { destruct k; [right; split; [exact I|apply all_args; exact HC]|right; split; [exact I|apply all_args; exact (proj2 HC)]|left].
        destruct l as [|x [|y [|z l]]]; try (destruct HC; fail); destruct y; try (destruct HC; fail). repeat eexists. }
      destruct D as [(c & x & b & al & -> & ->)|[D HA]].
      + destruct HC as [Sx Sb]. change (sub d x) in Sx.
        inversion H as [|? ? [(_ & _ & _ & Bx) _] Hl]; subst. inversion Hl as [|? ? [_ Hb] _]; subst. cbn [body_ok] in Hb. destruct Hb as (_ & _ & _ & Bb).
        unfold T. cbn [words]. unfold wbr. rewrite spell_tok, spell_tok, spell_app. change (spell (words nt x)) with (T x).
        rewrite spell_app. unfold comma, wop. rewrite spell_tok, spell_app, spell_tok, spell_nil. change (spell (words nt b)) with (T b).
        cbn [app]. rewrite <- !app_assoc. cbn [app].
        rewrite unary_literal; [|exact I|discriminate]. cbn [p_literal]. unfold p_identifier. rewrite head_is_self, FK. cbn [tl].
        unfold p_closure_args. rewrite (G_ok x d _ Bx Sx).
        2:{ destruct al; [apply closing_tok; exact I|apply closing_op; exact I]. }
        cbn [obind].
        assert (EB : EE (S d) CxClosure (T b ++ (KBracket RParen, bracket_text RParen) :: rest) = Some (b, (KBracket RParen, bracket_text RParen) :: rest)).
        { apply (Bb (S d) CxClosure 0 0); [exact Sb|auto|apply follow_br; discriminate|]. intros _. apply head_is_other; discriminate. }
        destruct al as [a|].
        * rewrite !spell_tok, spell_nil. cbn [app]. rewrite String.eqb_refl. rewrite head_is_self. cbn [tl].
          rewrite <- app_assoc. cbn [app]. rewrite EB. cbn [obind]. rewrite head_is_self. cbn [tl obind app]. eapply postfix_PF; exact PH.
        * rewrite spell_nil. cbn [app]. rewrite head_is_self. cbn [tl].
          rewrite <- app_assoc. cbn [app]. rewrite EB. cbn [obind]. rewrite head_is_self. cbn [tl obind app]. eapply postfix_PF; exact PH.
      + apply good_B in H.
        assert (E : T (NCall k l) ++ rest = (KLiteral, fname k) :: (KBracket LParen, "(") :: spell (seps comma (map (words nt) l)) ++ (KBracket RParen, ")") :: rest).
        { destruct k; try (destruct D; fail); unfold T; cbn [words]; unfold wbr; rewrite spell_tok, spell_tok, spell_app, spell_tok, spell_nil;
            cbn [app]; rewrite <- app_assoc; reflexivity. }
        rewrite E. rewrite unary_literal; [|exact I|discriminate]. cbn [p_literal]. unfold p_identifier. rewrite head_is_self, FK. cbn [tl].
        destruct k; try (destruct D; fail); (rewrite call_args_ok by assumption; cbn [obind]; eapply postfix_PF; exact PH).
    - (* method *) apply good_Q; [reflexivity|]. destruct IHn as [(Q1 & _) _]. apply good_B in H.
      intros d rest m cb rest' HC PH N A P. apply (can_method k n l d CxGlobal 0 0) in HC. destruct HC as (PX & S1 & K & HA).
      assert (E : T (NMethod k n l) ++ rest = T n ++ (KOp OpDot, ".") :: (KLiteral, k) :: (KBracket LParen, "(") :: spell (seps comma (map (words nt) l)) ++ (KBracket RParen, ")") :: rest).
      { unfold T; cbn [words]. unfold wbr, wop. rewrite spell_app, spell_tok, spell_tok, spell_tok, spell_app, spell_tok, spell_nil.
        rewrite <- app_assoc. cbn [app]. rewrite <- app_assoc. reflexivity. }
      rewrite E. destruct (PF_method d n k l "(" rest m cb rest' K H HA N PH) as [cb' PF'].
      eapply (Q1 PX d _ m cb' rest' S1); [exact PF'|exact N|exact A|reflexivity].
    - (* error *) apply good_never; [reflexivity|]. intros d c p f HC. exact HC.
  Qed.

  Theorem reads_back : forall n d c p f rest, can n d c p f -> f < p \/ f = 0 -> follow c f rest ->
    (p = 0 -> head_is (KOp OpQuestion) rest = false) -> PE d p c (T n ++ rest) = Some (n, rest).
  Proof. intros n. exact (proj2 (proj2 (proj2 (proj1 (good_all n))))). Qed.
End Total.
