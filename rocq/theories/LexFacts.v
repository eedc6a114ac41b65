(** Facts about the lexer. *)
From Coq Require Import String Ascii ZArith Lia Bool List Arith.
From Verif Require Import Base Dec Value Ast Lexer SynSpec.
Import ListNotations.
Local Open Scope string_scope.
Local Open Scope nat_scope.

Lemma sapp_assoc : forall a b c : string, ((a ++ b) ++ c) = (a ++ b ++ c).
Proof. induction a as [|x a IH]; intros b c; cbn; [reflexivity|]. rewrite IH. reflexivity. Qed.
Lemma sapp_nil : forall a : string, (a ++ "") = a.
Proof. induction a as [|x a IH]; cbn; [reflexivity|]. rewrite IH. reflexivity. Qed.
Lemma slen_app : forall a b : string, String.length (a ++ b) = String.length a + String.length b.
Proof. induction a as [|x a IH]; intros b; cbn; [reflexivity|]. rewrite IH. reflexivity. Qed.

Fixpoint stake (n : nat) (s : string) : string :=
  match n, s with
  | S k, String c r => String c (stake k r)
  | _, _ => EmptyString
  end.
Lemma stake_skip : forall n s, s = (stake n s ++ skip n s).
Proof. induction n as [|n IH]; intros [|c r]; cbn; try reflexivity. rewrite <- IH. reflexivity. Qed.
Lemma stake_len : forall n s, n <= String.length s -> String.length (stake n s) = n.
Proof. induction n as [|n IH]; intros [|c r] Hn; cbn in *; try lia. rewrite IH; lia. Qed.
Lemma skip_len : forall n s, String.length (skip n s) = String.length s - n.
Proof. induction n as [|n IH]; intros [|c r]; cbn; auto. Qed.
Lemma skip_app : forall a b, skip (String.length a) (a ++ b) = b.
Proof. induction a as [|x a IH]; intros b; cbn; [destruct b; reflexivity|apply IH]. Qed.
Lemma skip_skip : forall a b s, skip a (skip b s) = skip (b + a) s.
Proof. intros a b; revert a. induction b as [|b IH]; intros a [|c r]; cbn; auto. destruct a; reflexivity. Qed.

Lemma substring_skip : forall p n s, substring p n s = stake n (skip p s).
Proof.
  induction p as [|p IH]; intros n s.
  - revert s. induction n as [|n IHn]; intros [|c r]; cbn; try reflexivity. f_equal. exact (IHn r).
  - destruct s as [|c r]; cbn; [destruct n; reflexivity|]. apply IH.
Qed.
Lemma stake_app : forall a b, stake (String.length a) (a ++ b) = a.
Proof. induction a as [|x a IH]; intros b; cbn; [destruct b; reflexivity|]. f_equal. apply IH. Qed.
Lemma slice_app : forall pre txt post,
  slice (pre ++ txt ++ post) (String.length pre) (String.length pre + String.length txt) = txt.
Proof.
  intros pre txt post. unfold slice. rewrite substring_skip, skip_app.
  replace (String.length pre + String.length txt - String.length pre) with (String.length txt) by lia.
  apply stake_app.
Qed.
Lemma slice_rest : forall pre rest n,
  slice (pre ++ rest) (String.length pre) (String.length pre + n) = stake n rest.
Proof.
  intros pre rest n. unfold slice. rewrite substring_skip, skip_app. f_equal. lia.
Qed.

(** ** Blanks and covers *)
Lemma blank_app : forall a b, blank a -> blank b -> blank (a ++ b).
Proof. induction a as [|x a IH]; intros b Ha Hb; cbn in *; [assumption|]. intuition. Qed.
Lemma is_space_iff : forall c, is_space c = true <-> (c = " "%char \/ c = "010"%char \/ c = "009"%char).
Proof.
  intros c. unfold is_space. rewrite !orb_true_iff, !Ascii.eqb_eq. tauto.
Qed.
Lemma covers_blank : forall ws i s ts, blank ws -> covers (i + String.length ws) s ts -> covers i (ws ++ s) ts.
Proof.
  intros ws i s ts Hw Hc. inversion Hc as [j w Hb|j w txt s' t ts' Hb Hv Hs Hr]; subst.
  - constructor. apply blank_app; assumption.
  - rewrite <- sapp_assoc.
    apply cov_tok; [apply blank_app; assumption|reflexivity| |]; rewrite ?slen_app, ?Nat.add_assoc; assumption.
Qed.
Lemma covers_app : forall i a ts, covers i a ts -> forall b us, covers (i + String.length a) b us -> covers i (a ++ b) (ts ++ us).
Proof.
  intros i a ts Hc. induction Hc as [i ws Hb|i ws txt s t ts Hb Hv Hs Hr IH]; intros b us Hu.
  - cbn. apply covers_blank; assumption.
  - cbn. rewrite !sapp_assoc. apply cov_tok; try assumption. apply IH.
    rewrite !slen_app in Hu. replace (i + String.length ws + String.length txt + String.length s) with
      (i + (String.length ws + (String.length txt + String.length s))) by lia. assumption.
Qed.
Lemma covers_one : forall i t txt, tk_value t = txt -> tk_span t = (i, i + String.length txt) -> covers i txt [t].
Proof.
  intros i t txt Hv Hs. rewrite <- (sapp_nil txt). change (txt ++ "") with ("" ++ txt ++ "").
  apply cov_tok; cbn; rewrite ?Nat.add_0_r; auto. constructor. exact I.
Qed.

(** ** One item *)
Lemma find_byte_ok : forall q s n, find_byte q s = Some n ->
  exists a b, s = (a ++ String q b) /\ String.length a = n.
Proof.
  intros q. induction s as [|c r IH]; intros n H; cbn in H; [discriminate|].
  destruct (Ascii.eqb c q) eqn:E.
  - inversion H; subst. apply Ascii.eqb_eq in E. subst. exists "", r. split; reflexivity.
  - destruct (find_byte q r) as [m|] eqn:F; cbn in H; [|discriminate]. inversion H; subst.
    destruct (IH m eq_refl) as (a & b & Hs & Hl). exists (String c a), b. subst. split; reflexivity.
Qed.
Lemma count_while_le : forall f s, count_while f s <= String.length s.
Proof. intros f. induction s as [|c r IH]; cbn; [lia|]. destruct (f c); cbn; lia. Qed.
Lemma count_mantissa_le : forall s fr, count_mantissa fr s <= String.length s.
Proof.
  induction s as [|c r IH]; intros fr; cbn; [lia|].
  destruct (is_digit c || Ascii.eqb c "_").
  - specialize (IH fr). lia.
  - destruct (Ascii.eqb c "."); [|lia]. destruct fr; [lia|].
    destruct r as [|p r']; [cbn; lia|]. destruct (Ascii.eqb p "."); [lia|]. specialize (IH true). lia.
Qed.
Lemma count_exponent_le : forall s, count_exponent s <= String.length s.
Proof.
  intros [|c r]; cbn; [lia|]. destruct (Ascii.eqb c "e"); [|lia].
  set (sg := match r with String d _ => if Ascii.eqb d "+" || Ascii.eqb d "-" then 1 else 0 | EmptyString => 0 end).
  assert (Hs : sg <= String.length r).
  { subst sg. destruct r as [|d r']; cbn; [lia|]. destruct (Ascii.eqb d "+" || Ascii.eqb d "-"); lia. }
  pose proof (count_while_le is_digit (skip sg r)) as Hc. rewrite skip_len in Hc.
  destruct (count_while is_digit (skip sg r)); lia.
Qed.
Lemma next_is_ok : forall c r, next_is c r = true -> exists r', r = String c r'.
Proof. intros c [|d r] H; cbn in H; [discriminate|]. apply Ascii.eqb_eq in H. subst. eauto. Qed.

(** The tokens of one item cover what the scan consumed. *)
Definition item_ok (i : nat) (s : string) (ts : list token) (n : nat) : Prop :=
  1 <= n /\ n <= String.length s /\ covers i (stake n s) ts.

Lemma item_tok : forall src pre s k n, src = (pre ++ s) -> 1 <= n -> n <= String.length s ->
  item_ok (String.length pre) s [tok k src (String.length pre) (String.length pre + n)] n.
Proof.
  intros src pre s k n Hs Hn Hl. split; [assumption|]. split; [assumption|]. subst src.
  apply covers_one; cbn [tok tk_value tk_span].
  - apply slice_rest.
  - rewrite stake_len; auto.
Qed.

Lemma prefix_app : forall p s, String.prefix p s = true -> exists r, s = (p ++ r).
Proof.
  induction p as [|x p IH]; intros s H; [exists s; reflexivity|].
  destruct s as [|y s]; cbn in H; [discriminate|].
  destruct (ascii_dec x y) as [->|]; [|discriminate]. destruct (IH s H) as [r ->]. exists r. reflexivity.
Qed.
Lemma stake_add : forall a b s, stake (a + b) s = (stake a s ++ stake b (skip a s)).
Proof. induction a as [|a IH]; intros b [|c r]; cbn; try reflexivity; [destruct b; reflexivity|]. f_equal. apply IH. Qed.

Lemma scan_string_ok : forall src pre c q r ts n,
  src = (pre ++ String c r) -> quote_text q = String c "" ->
  scan_string src (String.length pre) c q r = Ok (ts, n) ->
  item_ok (String.length pre) (String c r) ts n.
Proof.
  intros src pre c q r ts n Hs Hq H. unfold scan_string in H.
  destruct (find_byte c r) as [m|] eqn:F; [|discriminate]. inversion H; subst ts n; clear H.
  destruct (find_byte_ok _ _ _ F) as (a & b & Hr & Hl). subst r m.
  split; [lia|]. split; [cbn; rewrite slen_app; cbn; lia|].
  replace (stake (String.length a + 2) (String c (a ++ String c b))) with (String c "" ++ a ++ String c "").
  2:{ replace (String.length a + 2) with (S (String.length a + 1)) by lia. cbn. f_equal.
      rewrite stake_add, stake_app, skip_app. destruct b; reflexivity. }
  change ([Tok (KQuote q) (String.length pre, String.length pre + 1) (quote_text q);
    tok KLiteral src (String.length pre + 1) (String.length pre + 1 + String.length a);
    Tok (KQuote q) (String.length pre + 1 + String.length a, String.length pre + 1 + String.length a + 1) (quote_text q)])
   with ([Tok (KQuote q) (String.length pre, String.length pre + 1) (quote_text q)] ++
    [tok KLiteral src (String.length pre + 1) (String.length pre + 1 + String.length a)] ++
    [Tok (KQuote q) (String.length pre + 1 + String.length a, String.length pre + 1 + String.length a + 1) (quote_text q)])%list.
  apply covers_app; [apply covers_one; [exact Hq|reflexivity]|].
  apply covers_app; apply covers_one.
  - cbn [tok tk_value]. subst src.
    replace (pre ++ String c (a ++ String c b)) with ((pre ++ String c "") ++ a ++ String c b) by (rewrite sapp_assoc; reflexivity).
    replace (String.length pre + 1) with (String.length (pre ++ String c "")) by (rewrite slen_app; reflexivity).
    apply slice_app.
  - reflexivity.
  - exact Hq.
  - reflexivity.
Qed.

Lemma scan_op_ok : forall src pre s n ts m, src = (pre ++ s) -> 1 <= n -> n <= String.length s ->
  scan_op src (String.length pre) n = Ok (ts, m) -> item_ok (String.length pre) s ts m.
Proof.
  intros src pre s n ts m Hs H1 Hn H. unfold scan_op in H.
  destruct (op_of_str _) as [o|]; [|discriminate]. inversion H; subst ts m. apply item_tok; assumption.
Qed.

Lemma scan_ident_ok : forall src pre c r ts n, src = (pre ++ String c r) ->
  scan_ident src (String.length pre) r = Ok (ts, n) -> item_ok (String.length pre) (String c r) ts n.
Proof.
  intros src pre c r ts n Hs H. unfold scan_ident in H.
  set (m := 1 + count_while is_alnum r) in *.
  assert (Hm : 1 <= m /\ m <= String.length (String c r)).
  { subst m. pose proof (count_while_le is_alnum r). cbn. lia. }
  assert (Hv : slice src (String.length pre) (String.length pre + m) = stake m (String c r)).
  { subst src. apply slice_rest. }
  assert (Hk : skip m (String c r) = skip (m - 1) r).
  { subst m. cbn [Nat.add skip]. rewrite Nat.sub_succ, Nat.sub_0_r. reflexivity. }
  destruct Hm as [Hm1 Hm2]. clearbody m.
  repeat match type of H with
  | (if String.eqb ?v ?w then _ else _) = _ => destruct (String.eqb v w) eqn:?E
  end; try (inversion H; subst ts n; apply item_tok; assumption).
  apply String.eqb_eq in E4. rewrite Hv in E4.
  destruct (String.prefix " in " (skip (m - 1) r)) eqn:P; inversion H; subst ts n.
  - apply prefix_app in P. destruct P as [q Hq].
    assert (Hsk : skip m (String c r) = " in " ++ q).
    { rewrite Hk. exact Hq. }
    assert (Hlen : m = 3).
    { pose proof (stake_len m (String c r) Hm2) as L. rewrite E4 in L. cbn in L. lia. }
    assert (Hcr : String c r = "not" ++ " in " ++ q).
    { rewrite (stake_skip m (String c r)), E4, Hsk. reflexivity. }
    split; [lia|]. split; [rewrite Hcr; cbn; lia|].
    rewrite Hcr, Hlen. cbn [Nat.add stake append].
    replace (stake 0 q) with "" by (destruct q; reflexivity).
    change "not in " with ("" ++ "not in" ++ " ").
    apply cov_tok; cbn; auto; [f_equal; lia|]. constructor. cbn. auto.
  - split; [assumption|]. split; [assumption|]. rewrite E4. apply covers_one; cbn; [reflexivity|].
    f_equal. pose proof (stake_len m (String c r) Hm2) as L. rewrite E4 in L. cbn in L. lia.
Qed.

Theorem scan_char_ok : forall src pre c r ts n, src = (pre ++ String c r) ->
  scan_char src (String.length pre) c r = Ok (ts, n) -> item_ok (String.length pre) (String c r) ts n.
Proof.
  intros src pre c r ts n Hs H. unfold scan_char in H.
  destruct (is_space c) eqn:Esp.
  { inversion H; subst ts n. split; [lia|]. split; [cbn; lia|]. cbn [stake].
    replace (stake 0 r) with "" by (destruct r; reflexivity). constructor. cbn. split; [|exact I].
    apply is_space_iff. assumption. }
  destruct (Ascii.eqb c "'") eqn:E1.
  { apply Ascii.eqb_eq in E1. subst c. eapply scan_string_ok; [eassumption| |exact H]; reflexivity. }
  destruct (Ascii.eqb c """") eqn:E2.
  { apply Ascii.eqb_eq in E2. subst c. eapply scan_string_ok; [eassumption| |exact H]; reflexivity. }
  destruct (is_digit c) eqn:E3.
  { unfold scan_number in H. inversion H; subst ts n. apply item_tok; [assumption|lia|].
    pose proof (count_mantissa_le r false) as L1. pose proof (count_exponent_le (skip (count_mantissa false r) r)) as L2.
    rewrite skip_len in L2. cbn [String.length]. lia. }
  destruct (is_bracket c) eqn:E4.
  { unfold scan_bracket in H. destruct (bracket_of_str _); [|discriminate]. inversion H; subst ts n.
    apply item_tok; [assumption|lia|cbn; lia]. }
  destruct (is_cmp c) eqn:E5.
  { destruct (next_is "=" r) eqn:N.
    - apply next_is_ok in N. destruct N as [r' ->]. eapply scan_op_ok; [eassumption| | |exact H]; cbn; lia.
    - eapply scan_op_ok; [eassumption| | |exact H]; cbn; lia. }
  destruct (is_oper c) eqn:E6.
  { eapply scan_op_ok; [eassumption| | |exact H]; cbn; lia. }
  destruct (Ascii.eqb c "?") eqn:E7.
  { destruct (next_is "?" r) eqn:N; inversion H; subst ts n; apply item_tok; auto; try lia; cbn; try lia.
    apply next_is_ok in N. destruct N as [r' ->]. cbn. lia. }
  destruct (Ascii.eqb c "=") eqn:E8.
  { destruct (next_is "=" r) eqn:N; inversion H; subst ts n; apply item_tok; auto; try lia; cbn; try lia.
    apply next_is_ok in N. destruct N as [r' ->]. cbn. lia. }
  destruct (Ascii.eqb c ".") eqn:E9.
  { destruct (next_is "." r) eqn:N.
    - apply next_is_ok in N. destruct N as [r' ->]. eapply scan_op_ok; [eassumption| | |exact H]; cbn; lia.
    - eapply scan_op_ok; [eassumption| | |exact H]; cbn; lia. }
  destruct (Ascii.eqb c ";") eqn:E10.
  { inversion H; subst ts n. apply item_tok; [assumption|lia|cbn; lia]. }
  destruct (is_alpha c) eqn:E11; [|discriminate].
  eapply scan_ident_ok; eauto.
Qed.

(** An item is never part of a template. *)
Definition plain_kind (k : tkind) : Prop :=
  match k with KQuote QBacktick | KTplStart | KTplEnd => False | _ => True end.
Lemma scan_char_plain : forall src i c r ts n, scan_char src i c r = Ok (ts, n) ->
  forall t, In t ts -> plain_kind (tk_kind t).
Proof.
  intros src i c r ts n H t Ht.
  unfold scan_char, scan_string, scan_number, scan_bracket, scan_op, scan_ident in H.
  set (ik := ident_of_str _) in H. clearbody ik.
  repeat match type of H with
  | (if ?b then _ else _) = _ => destruct b
  | match ?x with _ => _ end = Ok _ => destruct x
  end; try discriminate H; inversion H; subst ts n; cbn in Ht; intuition subst; cbn; auto;
    destruct ik; exact I.
Qed.

(** ** The loops *)
Lemma skip_string : forall n c r, 1 <= n -> String.length (skip n (String c r)) <= String.length r.
Proof. intros n c r Hn. rewrite skip_len. cbn [String.length]. lia. Qed.

Definition src_at (src : string) (i : nat) (rest : string) : Prop :=
  exists pre, src = (pre ++ rest) /\ String.length pre = i.
Lemma src_at_skip : forall src i rest n, src_at src i rest -> n <= String.length rest -> src_at src (i + n) (skip n rest).
Proof.
  intros src i rest n (pre & Hs & Hi) Hn. exists (pre ++ stake n rest). split.
  - rewrite sapp_assoc, <- stake_skip. assumption.
  - rewrite slen_app, stake_len, Hi; auto.
Qed.
Lemma src_at_1 : forall src i c r, src_at src i (String c r) -> src_at src (i + 1) r.
Proof. intros src i c r H. apply (src_at_skip _ _ _ 1) in H; cbn in *; [|lia]. destruct r; assumption. Qed.
Lemma src_at_len : forall src i rest, src_at src i rest -> String.length src = i + String.length rest.
Proof. intros src i rest (pre & -> & <-). apply slen_app. Qed.

Lemma scan_char_at : forall src i c r ts n, src_at src i (String c r) ->
  scan_char src i c r = Ok (ts, n) -> item_ok i (String c r) ts n.
Proof. intros src i c r ts n (pre & Hs & <-) H. eapply scan_char_ok; eauto. Qed.

(** A template needs no more fuel than there are bytes, and ends at an offset inside the source. *)
Lemma template_total : forall fuel src i rest e st acc, src_at src i rest -> String.length rest < fuel ->
  exists r, scan_template fuel src i rest e st acc = Some r /\
    (forall ts j, r = Ok (ts, j) -> i <= j /\ j <= String.length src).
Proof.
  induction fuel as [|k IH]; intros src i rest e st acc Hat Hf; [lia|]. cbn [scan_template].
  pose proof (src_at_len _ _ _ Hat) as Hlen.
  destruct rest as [|c r].
  { eexists. split; [reflexivity|]. intros ts j H. inversion H; subst. cbn in Hlen. lia. }
  cbn [String.length] in Hf, Hlen.
  destruct (Ascii.eqb c "`").
  { eexists. split; [reflexivity|]. intros ts j H. inversion H; subst. lia. }
  assert (Hnext : forall n e' st' acc', 1 <= n -> n <= String.length (String c r) ->
    exists r0, scan_template k src (i + n) (skip n (String c r)) e' st' acc' = Some r0 /\
      (forall ts j, r0 = Ok (ts, j) -> i <= j /\ j <= String.length src)).
  { intros n e' st' acc' Hn Hl.
    destruct (IH src (i + n) (skip n (String c r)) e' st' acc') as (r0 & Hr0 & Hj).
    - apply src_at_skip; assumption.
    - pose proof (skip_string n c r Hn). lia.
    - exists r0. split; [assumption|]. intros ts j E. specialize (Hj ts j E). lia. }
  destruct e.
  - destruct (Ascii.eqb c "}").
    + change r with (skip 0 r). change (skip 0 r) with (skip 1 (String c r)). apply Hnext; cbn; lia.
    + destruct (scan_char src i c r) as [[ts n]|er] eqn:Sc.
      * pose proof (scan_char_at _ _ _ _ _ _ Hat Sc) as (H1 & H2 & _). apply Hnext; assumption.
      * eexists. split; [reflexivity|]. intros ts j E. discriminate.
  - destruct (Ascii.eqb c "$" && next_is "{" r) eqn:E.
    + apply andb_true_iff in E. destruct E as [_ E]. apply next_is_ok in E. destruct E as [r' ->].
      change (skip 1 (String "{" r')) with (skip 2 (String c (String "{" r'))). apply Hnext; cbn; lia.
    + change r with (skip 0 r). change (skip 0 r) with (skip 1 (String c r)). apply Hnext; cbn; lia.
Qed.

Lemma skip_at : forall src i rest j, src_at src i rest -> i <= j -> j <= String.length src ->
  src_at src j (skip (j - i) rest).
Proof.
  intros src i rest j Hat Hj Hl. pose proof (src_at_len _ _ _ Hat).
  replace j with (i + (j - i)) at 1 by lia. apply src_at_skip; [assumption|lia].
Qed.

Lemma scan_total : forall fuel src i rest acc, src_at src i rest -> String.length rest < fuel ->
  exists r, scan fuel src i rest acc = Some r.
Proof.
  induction fuel as [|k IH]; intros src i rest acc Hat Hf; [lia|]. cbn [scan].
  destruct rest as [|c r]; [eauto|]. cbn [String.length] in Hf.
  destruct (Ascii.eqb c "`").
  - destruct (template_total k src (i + 1) r false (i + 1) (acc ++ [Tok (KQuote QBacktick) (i, i + 1) "`"]))
      as (q & Hq & Hj); [eapply src_at_1; eauto|lia|]. rewrite Hq.
    destruct q as [[ts j]|e]; [|eauto]. destruct (Hj ts j eq_refl) as [H1 H2].
    apply IH; [apply skip_at; auto; lia|]. rewrite skip_len. cbn [String.length]. lia.
  - destruct (scan_char src i c r) as [[ts n]|e] eqn:Sc; [|eauto].
    pose proof (scan_char_at _ _ _ _ _ _ Hat Sc) as (H1 & H2 & _).
    apply IH; [apply src_at_skip; assumption|]. pose proof (skip_string n c r H1). lia.
Qed.

Lemma src_at_0 : forall src, src_at src 0 src.
Proof. intros src. exists "". split; reflexivity. Qed.

Theorem lex_total : forall src, exists r, lex src = Some r.
Proof. intros src. apply scan_total; [apply src_at_0|lia]. Qed.

(** ** What is kept of the text *)
Lemma template_acc : forall fuel src i rest e st acc ts j,
  scan_template fuel src i rest e st acc = Some (Ok (ts, j)) -> exists new, ts = (acc ++ new)%list.
Proof.
  induction fuel as [|k IH]; intros src i rest e st acc ts j H; [discriminate|]. cbn [scan_template] in H.
  destruct rest as [|c r]; [inversion H; subst; eauto|].
  destruct (Ascii.eqb c "`"); [inversion H; subst; eauto|].
  destruct e.
  - destruct (Ascii.eqb c "}").
    + apply IH in H. destruct H as [new ->]. rewrite <- app_assoc. eauto.
    + destruct (scan_char src i c r) as [[us n]|er]; [|discriminate].
      apply IH in H. destruct H as [new ->]. rewrite <- app_assoc. eauto.
  - destruct (Ascii.eqb c "$" && next_is "{" r).
    + apply IH in H. destruct H as [new ->]. rewrite <- app_assoc. eauto.
    + apply IH in H. assumption.
Qed.

Lemma template_bound : forall k src i rest e st acc ts j, src_at src i rest ->
  scan_template k src i rest e st acc = Some (Ok (ts, j)) -> i <= j /\ j <= String.length src.
Proof.
  induction k as [|k IH]; intros src i rest e st acc ts j Hat H; [discriminate|]. cbn [scan_template] in H.
  pose proof (src_at_len _ _ _ Hat) as L.
  destruct rest as [|c r]; [inversion H; subst; cbn in L; lia|]. cbn [String.length] in L.
  destruct (Ascii.eqb c "`"); [inversion H; subst; lia|].
  destruct e.
  - destruct (Ascii.eqb c "}").
    + apply IH in H; [lia|]. eapply src_at_1; eauto.
    + destruct (scan_char src i c r) as [[us n]|er] eqn:Sc; [|discriminate].
      pose proof (scan_char_at _ _ _ _ _ _ Hat Sc) as (H1 & H2 & _).
      apply IH in H; [lia|]. apply src_at_skip; assumption.
  - destruct (Ascii.eqb c "$" && next_is "{" r) eqn:E.
    + apply andb_true_iff in E. destruct E as [_ E]. apply next_is_ok in E. destruct E as [r' ->].
      apply IH in H; [lia|].
      change (skip 1 (String "{" r')) with (skip 2 (String c (String "{" r'))). apply src_at_skip; [assumption|cbn; lia].
    + apply IH in H; [lia|]. eapply src_at_1; eauto.
Qed.

Lemma scan_covers : forall fuel src i rest acc ts, src_at src i rest ->
  scan fuel src i rest acc = Some (Ok ts) ->
  exists new, ts = (acc ++ new)%list /\ (no_template new -> covers i rest new).
Proof.
  induction fuel as [|k IH]; intros src i rest acc ts Hat H; [discriminate|]. cbn [scan] in H.
  destruct rest as [|c r].
  { inversion H; subst. exists []. rewrite app_nil_r. split; [reflexivity|]. intros _. constructor. exact I. }
  destruct (Ascii.eqb c "`") eqn:Eb.
  - destruct (scan_template _ _ _ _ _ _ _) as [[[us j]|er]|] eqn:St; try discriminate.
    pose proof (template_acc _ _ _ _ _ _ _ _ _ St) as [n1 ->].
    assert (Hj : i + 1 <= j /\ j <= String.length src).
    { eapply template_bound; [|exact St]. eapply src_at_1; eauto. }
    apply IH in H; [|apply skip_at; auto; lia].
    destruct H as (n2 & -> & _). rewrite <- !app_assoc. eexists. split; [reflexivity|].
    intros Hn. exfalso. apply (Hn (Tok (KQuote QBacktick) (i, i + 1) "`")); [left; reflexivity|reflexivity].
  - destruct (scan_char src i c r) as [[us n]|er] eqn:Sc; [|discriminate].
    pose proof (scan_char_at _ _ _ _ _ _ Hat Sc) as (H1 & H2 & H3).
    apply IH in H; [|apply src_at_skip; assumption].
    destruct H as (n2 & -> & Hc). rewrite <- app_assoc. eexists. split; [reflexivity|].
    intros Hn. rewrite (stake_skip n (String c r)). apply covers_app; [assumption|].
    rewrite stake_len by assumption. apply Hc. intros t Ht. apply Hn. apply in_or_app. auto.
Qed.

Theorem lex_covers : forall src ts, lex src = Some (Ok ts) -> no_template ts -> covers 0 src ts.
Proof.
  intros src ts H Hn. unfold lex in H. apply scan_covers in H; [|apply src_at_0].
  destruct H as (new & -> & Hc). apply Hc. assumption.
Qed.

(** ** Bounds and values of every token *)
Definition token_ok (src : string) (t : token) : Prop :=
  fst (tk_span t) <= snd (tk_span t) /\ snd (tk_span t) <= String.length src /\
  (tk_kind t <> KTplEnd -> tk_kind t <> KQuote QBacktick \/ fst (tk_span t) < snd (tk_span t) ->
   tk_value t = slice src (fst (tk_span t)) (snd (tk_span t))).

Lemma covers_ok : forall i s ts, covers i s ts -> forall src pre post, src = (pre ++ s ++ post) -> String.length pre = i ->
  forall t, In t ts -> token_ok src t.
Proof.
  intros i s ts Hc. induction Hc as [i ws Hb|i ws txt s t ts Hb Hv Hs Hr IH]; intros src pre post Hsrc Hi u Hu; [contradiction|].
  destruct Hu as [<-|Hu].
  - unfold token_ok. rewrite Hs. cbn [fst snd]. split; [lia|]. split.
    + subst src. rewrite !slen_app. lia.
    + intros _ _. rewrite Hv. subst src i.
      replace (pre ++ (ws ++ txt ++ s) ++ post) with ((pre ++ ws) ++ txt ++ (s ++ post)) by (rewrite !sapp_assoc; reflexivity).
      rewrite <- slen_app. symmetry. apply slice_app.
  - eapply (IH src ((pre ++ ws) ++ txt) post); [|rewrite !slen_app; lia|exact Hu].
    rewrite Hsrc, !sapp_assoc. reflexivity.
Qed.
Lemma item_tokens_ok : forall src i c r ts n, src_at src i (String c r) -> scan_char src i c r = Ok (ts, n) ->
  forall t, In t ts -> token_ok src t.
Proof.
  intros src i c r ts n Hat H. pose proof (scan_char_at _ _ _ _ _ _ Hat H) as (_ & _ & Hc).
  destruct Hat as (pre & Hs & Hi).
  eapply (covers_ok _ _ _ Hc src pre (skip n (String c r))); [|assumption].
  rewrite <- stake_skip. assumption.
Qed.
Lemma tok_ok : forall k src a b, a <= b -> b <= String.length src -> token_ok src (tok k src a b).
Proof. intros k src a b H1 H2. unfold token_ok. cbn. auto. Qed.
Lemma lit_ok : forall k src i s v n, src_at src i (v ++ s) -> String.length v = n -> token_ok src (Tok k (i, i + n) v).
Proof.
  intros k src i s v n (pre & Hs & Hi) Hn. subst n. unfold token_ok. cbn [tk_span fst snd tk_value]. subst src i. split; [lia|]. split.
  - rewrite !slen_app. lia.
  - intros _ _. symmetry. apply slice_app.
Qed.

Lemma template_ok : forall k src i rest e st acc ts j, src_at src i rest -> st <= i ->
  (forall t, In t acc -> token_ok src t) ->
  scan_template k src i rest e st acc = Some (Ok (ts, j)) -> forall t, In t ts -> token_ok src t.
Proof.
  induction k as [|k IH]; intros src i rest e st acc ts j Hat Hst Ha H; [discriminate|]. cbn [scan_template] in H.
  pose proof (src_at_len _ _ _ Hat) as L.
  destruct rest as [|c r].
  { inversion H; subst ts j. intros t Ht. apply in_app_or in Ht. destruct Ht as [Ht|Ht]; [auto|].
    apply in_app_or in Ht. destruct Ht as [Ht|Ht].
    - destruct (negb e && (st <? String.length src)) eqn:E; [|contradiction]. destruct Ht as [<-|[]].
      apply andb_true_iff in E. destruct E as [_ E]. apply Nat.ltb_lt in E. apply tok_ok; lia.
    - destruct Ht as [<-|[]]. unfold token_ok. cbn [tk_span fst snd tk_value tk_kind]. split; [lia|]. split; [lia|].
      intros _ [C|C]; [congruence|lia]. }
  cbn [String.length] in L.
  destruct (Ascii.eqb c "`") eqn:Eb.
  { apply Ascii.eqb_eq in Eb. subst c. inversion H; subst ts j. intros t Ht. apply in_app_or in Ht. destruct Ht as [Ht|Ht]; [auto|].
    apply in_app_or in Ht. destruct Ht as [Ht|Ht].
    - destruct (st <? i) eqn:E; [|contradiction]. destruct Ht as [<-|[]]. apply tok_ok; lia.
    - destruct Ht as [<-|[]]. apply (lit_ok _ _ _ r); [assumption|reflexivity]. }
  destruct e.
  - destruct (Ascii.eqb c "}") eqn:Ec.
    + eapply IH; [| | |exact H]; [eapply src_at_1; eauto|lia|]. intros t Ht. apply in_app_or in Ht.
      destruct Ht as [Ht|[<-|[]]]; [auto|]. unfold token_ok. cbn [tk_span fst snd tk_value tk_kind]. split; [lia|]. split; [lia|]. congruence.
    + destruct (scan_char src i c r) as [[us n]|er] eqn:Sc; [|discriminate].
      pose proof (scan_char_at _ _ _ _ _ _ Hat Sc) as (H1 & H2 & _).
      eapply IH; [| | |exact H]; [apply src_at_skip; assumption|lia|]. intros t Ht. apply in_app_or in Ht.
      destruct Ht as [Ht|Ht]; [auto|]. eapply item_tokens_ok; eauto.
  - destruct (Ascii.eqb c "$" && next_is "{" r) eqn:E.
    + apply andb_true_iff in E. destruct E as [E1 E]. apply next_is_ok in E. destruct E as [r' ->]. apply Ascii.eqb_eq in E1. subst c.
      eapply IH; [| | |exact H]; [|lia|].
      * change (skip 1 (String "{" r')) with (skip 2 (String "$" (String "{" r'))). apply src_at_skip; [assumption|cbn; lia].
      * intros t Ht. apply in_app_or in Ht. destruct Ht as [Ht|[<-|[<-|[]]]]; [auto| |].
        -- apply tok_ok; lia.
        -- apply (lit_ok _ _ _ r'); [assumption|reflexivity].
    + eapply IH; [| | |exact H]; [eapply src_at_1; eauto|lia|assumption].
Qed.

Lemma scan_ok : forall fuel src i rest acc ts, src_at src i rest -> (forall t, In t acc -> token_ok src t) ->
  scan fuel src i rest acc = Some (Ok ts) -> forall t, In t ts -> token_ok src t.
Proof.
  induction fuel as [|k IH]; intros src i rest acc ts Hat Ha H; [discriminate|]. cbn [scan] in H.
  destruct rest as [|c r]; [inversion H; subst; assumption|].
  destruct (Ascii.eqb c "`") eqn:Eb.
  - destruct (scan_template _ _ _ _ _ _ _) as [[[us j]|er]|] eqn:St; try discriminate.
    assert (Hj : i + 1 <= j /\ j <= String.length src).
    { eapply template_bound; [|exact St]. eapply src_at_1; eauto. }
    eapply IH; [| |exact H]; [apply skip_at; auto; lia|].
    eapply template_ok; [| |  |exact St]; [eapply src_at_1; eauto|lia|].
    intros t Ht. apply in_app_or in Ht. destruct Ht as [Ht|[<-|[]]]; [auto|].
    apply Ascii.eqb_eq in Eb. subst c. apply (lit_ok _ _ _ r); [assumption|reflexivity].
  - destruct (scan_char src i c r) as [[us n]|er] eqn:Sc; [|discriminate].
    pose proof (scan_char_at _ _ _ _ _ _ Hat Sc) as (H1 & H2 & H3).
    eapply IH; [| |exact H]; [apply src_at_skip; assumption|].
    intros t Ht. apply in_app_or in Ht. destruct Ht as [Ht|Ht]; [auto|]. eapply item_tokens_ok; eauto.
Qed.
Theorem lex_tokens_ok : forall src ts, lex src = Some (Ok ts) -> forall t, In t ts -> token_ok src t.
Proof. intros src ts H. eapply scan_ok; [apply src_at_0| |exact H]. intros t []. Qed.

(** ** The values spell the source *)
Lemma spells_blank : forall ws s ts, blank ws -> spells s ts -> spells (ws ++ s) ts.
Proof.
  intros ws s ts Hw Hs. inversion Hs as [w Hb|w s' t ts' Hb Hr]; subst.
  - constructor. apply blank_app; assumption.
  - rewrite <- sapp_assoc. constructor; [apply blank_app; assumption|assumption].
Qed.
Lemma spells_app : forall a ts, spells a ts -> forall b us, spells b us -> spells (a ++ b) (ts ++ us).
Proof.
  intros a ts H. induction H as [ws Hb|ws s t ts Hb Hr IH]; intros b us Hu.
  - apply spells_blank; assumption.
  - rewrite !sapp_assoc. cbn. constructor; auto.
Qed.
Lemma covers_spells : forall i s ts, covers i s ts -> spells s ts.
Proof.
  intros i s ts H. induction H as [i ws Hb|i ws txt s t ts Hb Hv Hs Hr IH]; [constructor; assumption|].
  subst txt. constructor; assumption.
Qed.
Lemma spells_cons : forall v t s ts, tk_value t = v -> spells s ts -> spells (v ++ s) (t :: ts).
Proof. intros v t s ts <- H. change (tk_value t ++ s) with ("" ++ tk_value t ++ s). constructor; [exact I|assumption]. Qed.
Lemma tsteps_app : forall a b st, tsteps st (a ++ b) = match tsteps st a with Some s => tsteps s b | None => None end.
Proof. induction a as [|t a IH]; intros b st; cbn; [reflexivity|]. destruct (tstep st t); [apply IH|reflexivity]. Qed.
Lemma tsteps_plain : forall ts st, (forall t, In t ts -> plain_kind (tk_kind t)) -> tsteps st ts = Some st.
Proof.
  induction ts as [|t ts IH]; intros st H; [reflexivity|]. cbn [tsteps].
  assert (E : tstep st t = Some st).
  { pose proof (H t (or_introl eq_refl)) as P. unfold tstep. destruct (tk_kind t) as [| | |[]| | | | |]; cbn in P; try contradiction; reflexivity. }
  rewrite E. apply IH. intros u Hu. apply H. right. assumption.
Qed.
Lemma slice_same : forall s a, slice s a a = "".
Proof. intros s a. unfold slice. rewrite Nat.sub_diag, substring_skip. destruct (skip a s); reflexivity. Qed.
Lemma skip_drop1 : forall p c r, skip (String.length p) (p ++ String c r) = String c r.
Proof. intros p c r. apply skip_app. Qed.
Lemma slice_snoc : forall src i c r st, src_at src i (String c r) -> st <= i ->
  slice src st (i + 1) = (slice src st i ++ String c "").
Proof.
  intros src i c r st Hat Hst. unfold slice. rewrite !substring_skip.
  replace (i + 1 - st) with ((i - st) + 1) by lia. rewrite stake_add, skip_skip.
  replace (st + (i - st)) with i by lia. f_equal. destruct Hat as (pre & -> & <-). rewrite skip_app. destruct r; reflexivity.
Qed.
Lemma stake_S : forall a b c r, a <= b -> 1 <= a ->
  stake (b - (a - 1)) (String c r) = String c (stake (b - a) r).
Proof. intros a b c r H H1. replace (b - (a - 1)) with (S (b - a)) by lia. reflexivity. Qed.

Lemma template_spells : forall k src i rest e st acc ts j, src_at src i rest -> st <= i ->
  scan_template k src i rest e st acc = Some (Ok (ts, j)) ->
  exists new, ts = (acc ++ new)%list /\
    (forall s, tsteps (if e then InExpr else InText) new = Some s ->
       s = Outside /\ spells ((if e then "" else slice src st i) ++ stake (j - i) rest) new).
Proof.
  induction k as [|k IH]; intros src i rest e st acc ts j Hat Hst H; [discriminate|]. cbn [scan_template] in H.
  destruct rest as [|c r].
  { inversion H; subst ts j. eexists. split; [reflexivity|]. intros s Hs. exfalso. revert Hs.
    rewrite tsteps_app, tsteps_plain.
    - destruct e; cbn [tsteps tstep tk_kind tk_span fst snd]; [discriminate|]. rewrite Nat.ltb_irrefl. discriminate.
    - intros t Ht. destruct (negb e && (st <? String.length src)); [|contradiction]. destruct Ht as [<-|[]]. exact I. }
  destruct (Ascii.eqb c "`") eqn:Eb.
  { apply Ascii.eqb_eq in Eb. subst c. inversion H; subst ts j. eexists. split; [reflexivity|]. intros s Hs. revert Hs.
    rewrite tsteps_app, tsteps_plain.
    2:{ intros t Ht. destruct (st <? i); [|contradiction]. destruct Ht as [<-|[]]. exact I. }
    destruct e; [discriminate|]. cbn [tsteps tstep tk_kind tk_span fst snd].
    replace (i <? i + 1) with true by (symmetry; apply Nat.ltb_lt; lia). intros Hs. inversion Hs; subst s. split; [reflexivity|].
    replace (i + 1 - i) with 1 by lia. cbn [stake]. replace (stake 0 r) with "" by (destruct r; reflexivity).
    apply spells_app.
    - destruct (st <? i) eqn:E.
      + rewrite <- (sapp_nil (slice src st i)). apply (spells_cons (slice src st i)); [reflexivity|]. constructor. exact I.
      + apply Nat.ltb_ge in E. replace i with st by lia. rewrite slice_same. constructor. exact I.
    - change "`" with ("`" ++ "") at 1. apply spells_cons; [reflexivity|]. constructor. exact I. }
  destruct e.
  - destruct (Ascii.eqb c "}") eqn:Ec.
    + apply Ascii.eqb_eq in Ec. subst c.
      assert (Hat1 : src_at src (i + 1) r) by (eapply src_at_1; eauto).
      pose proof (template_bound _ _ _ _ _ _ _ _ _ Hat1 H) as [Hb _].
      apply IH in H; auto. destruct H as (new & -> & Hn). rewrite <- app_assoc. eexists. split; [reflexivity|].
      intros s Hs. cbn [app tsteps tstep tk_kind] in Hs. destruct (Hn s Hs) as [-> Hsp]. split; [reflexivity|].
      rewrite slice_same in Hsp. replace (j - i) with (S (j - (i + 1))) by lia. cbn [stake append app].
      change (String "}" (stake (j - (i + 1)) r)) with ("}" ++ stake (j - (i + 1)) r). apply spells_cons; [reflexivity|exact Hsp].
    + destruct (scan_char src i c r) as [[us n]|er] eqn:Sc; [|discriminate].
      pose proof (scan_char_at _ _ _ _ _ _ Hat Sc) as (H1 & H2 & H3).
      assert (Hat1 : src_at src (i + n) (skip n (String c r))) by (apply src_at_skip; assumption).
      pose proof (template_bound _ _ _ _ _ _ _ _ _ Hat1 H) as [Hb _].
      apply IH in H; auto; [|lia]. destruct H as (new & -> & Hn). rewrite <- app_assoc. eexists. split; [reflexivity|].
      intros s Hs. rewrite tsteps_app, tsteps_plain in Hs by (eapply scan_char_plain; eauto).
      destruct (Hn s Hs) as [-> Hsp]. split; [reflexivity|].
      replace (j - i) with (n + (j - (i + n))) by lia. rewrite stake_add. cbn [append] in *. apply spells_app; [|exact Hsp].
      eapply covers_spells; eauto.
  - destruct (Ascii.eqb c "$" && next_is "{" r) eqn:E.
    + apply andb_true_iff in E. destruct E as [E1 E]. apply next_is_ok in E. destruct E as [r' ->]. apply Ascii.eqb_eq in E1. subst c.
      assert (Hat1 : src_at src (i + 2) (skip 2 (String "$" (String "{" r')))) by (apply src_at_skip; [assumption|cbn; lia]).
      change (skip 1 (String "{" r')) with (skip 2 (String "$" (String "{" r'))) in H.
      pose proof (template_bound _ _ _ _ _ _ _ _ _ Hat1 H) as [Hb _].
      apply IH in H; auto; [|lia]. destruct H as (new & -> & Hn). rewrite <- app_assoc. eexists. split; [reflexivity|].
      intros s Hs. cbn [app tsteps tstep tk_kind tok] in Hs. destruct (Hn s Hs) as [-> Hsp]. split; [reflexivity|].
      replace (j - i) with (S (S (j - (i + 2)))) by lia. cbn [app].
      apply (spells_cons (slice src st i)); [reflexivity|].
      change (stake (S (S (j - (i + 2)))) (String "$" (String "{" r'))) with ("${" ++ stake (j - (i + 2)) r').
      apply spells_cons; [reflexivity|]. cbn [append] in Hsp. change (skip 2 (String "$" (String "{" r'))) with (skip 0 r') in Hsp.
      destruct r'; exact Hsp.
    + assert (Hat1 : src_at src (i + 1) r) by (eapply src_at_1; eauto).
      pose proof (template_bound _ _ _ _ _ _ _ _ _ Hat1 H) as [Hb _].
      apply IH in H; auto; [|lia]. destruct H as (new & -> & Hn). eexists. split; [reflexivity|].
      intros s Hs. destruct (Hn s Hs) as [-> Hsp]. split; [reflexivity|].
      rewrite (slice_snoc _ _ _ _ _ Hat Hst), sapp_assoc in Hsp.
      replace (j - i) with (S (j - (i + 1))) by lia. exact Hsp.
Qed.

Lemma scan_spells : forall fuel src i rest acc ts, src_at src i rest ->
  scan fuel src i rest acc = Some (Ok ts) ->
  exists new, ts = (acc ++ new)%list /\ (tsteps Outside new = Some Outside -> spells rest new).
Proof.
  induction fuel as [|k IH]; intros src i rest acc ts Hat H; [discriminate|]. cbn [scan] in H.
  destruct rest as [|c r].
  { inversion H; subst. exists []. rewrite app_nil_r. split; [reflexivity|]. intros _. constructor. exact I. }
  destruct (Ascii.eqb c "`") eqn:Eb.
  - apply Ascii.eqb_eq in Eb. subst c.
    destruct (scan_template _ _ _ _ _ _ _) as [[[us j]|er]|] eqn:St; try discriminate.
    assert (Hat1 : src_at src (i + 1) r) by (eapply src_at_1; eauto).
    pose proof (template_bound _ _ _ _ _ _ _ _ _ Hat1 St) as [Hb Hl].
    destruct (template_spells _ _ _ _ _ _ _ _ _ Hat1 (le_n _) St) as (n1 & -> & Hn1).
    apply IH in H; [|apply skip_at; auto; lia].
    destruct H as (n2 & -> & Hn2). rewrite <- !app_assoc. eexists. split; [reflexivity|].
    intros Hs. cbn [app tsteps tstep tk_kind] in Hs. rewrite tsteps_app in Hs.
    destruct (tsteps InText n1) as [s|] eqn:T; [|discriminate].
    destruct (Hn1 s eq_refl) as [-> Hsp]. rewrite slice_same in Hsp. cbn [append] in Hsp.
    cbn [app]. change (String "`" r) with ("`" ++ r). apply spells_cons; [reflexivity|].
    rewrite (stake_skip (j - (i + 1)) r). apply spells_app; [exact Hsp|].
    replace (j - i) with (S (j - (i + 1))) in Hn2 by lia. apply Hn2. assumption.
  - destruct (scan_char src i c r) as [[us n]|er] eqn:Sc; [|discriminate].
    pose proof (scan_char_at _ _ _ _ _ _ Hat Sc) as (H1 & H2 & H3).
    apply IH in H; [|apply src_at_skip; assumption].
    destruct H as (n2 & -> & Hc). rewrite <- app_assoc. eexists. split; [reflexivity|].
    intros Hs. rewrite tsteps_app, tsteps_plain in Hs by (eapply scan_char_plain; eauto).
    rewrite (stake_skip n (String c r)). apply spells_app; [eapply covers_spells; eauto|auto].
Qed.
Theorem lex_spells : forall src ts, lex src = Some (Ok ts) -> templates_closed ts -> spells src ts.
Proof.
  intros src ts H Hn. unfold lex in H. apply scan_spells in H; [|apply src_at_0].
  destruct H as (new & -> & Hc). apply Hc. assumption.
Qed.

(** ** Number tokens *)
Lemma is_digit_ok : forall c, is_digit c = true <-> dec_digit c.
Proof.
  intros c. unfold is_digit, in_range, dec_digit. rewrite andb_true_iff, !Nat.leb_le. change (nat_of_ascii "0") with 48. change (nat_of_ascii "9") with 57. lia.
Qed.
Lemma digits_ok : forall s, chars dec_digit (stake (count_while is_digit s) s).
Proof. induction s as [|c r IH]; cbn; [exact I|]. destruct (is_digit c) eqn:E; cbn; [|exact I]. split; [apply is_digit_ok; exact E|exact IH]. Qed.
Lemma mantissa_ok : forall s fr, exists a f, stake (count_mantissa fr s) s = (a ++ f) /\ chars num_char a /\
  (f = "" \/ (fr = false /\ exists b, f = String "." b /\ chars num_char b)).
Proof.
  induction s as [|c r IH]; intros fr; [exists "", ""; cbn; auto|]. cbn [count_mantissa].
  destruct (is_digit c || Ascii.eqb c "_") eqn:E.
  - destruct (IH fr) as (a & f & H1 & H2 & H3). exists (String c a), f. cbn [stake append chars]. rewrite H1. split; [reflexivity|]. split; [|exact H3]. split; [|exact H2].
    apply orb_true_iff in E. destruct E as [E|E]; [left; apply is_digit_ok; exact E|right; apply Ascii.eqb_eq; exact E].
  - destruct (Ascii.eqb c ".") eqn:Ed; [|exists "", ""; cbn; auto]. apply Ascii.eqb_eq in Ed. subst c. destruct fr; [exists "", ""; cbn; auto|].
    destruct r as [|p r']; [exists "", "."; cbn; split; [reflexivity|]; split; [exact I|]; right; split; [reflexivity|]; exists ""; cbn; auto|].
    destruct (Ascii.eqb p "."); [exists "", ""; cbn; auto|].
    destruct (IH true) as (a & f & H1 & H2 & [->|[H3 _]]); [|discriminate]. exists "", (String "." a). cbn [stake append]. rewrite H1, sapp_nil. split; [reflexivity|]. split; [exact I|]. right. split; [reflexivity|]. exists a. auto.
Qed.
Lemma exponent_ok : forall s, let e := stake (count_exponent s) s in
  e = "" \/ exists sg d ds, e = String "e" (sg ++ String d ds) /\ (sg = "" \/ sg = "+" \/ sg = "-") /\ dec_digit d /\ chars dec_digit ds.
Proof.
  intros s. destruct s as [|c r]; [left; reflexivity|]. cbn [count_exponent]. destruct (Ascii.eqb c "e") eqn:E; [|left; reflexivity]. apply Ascii.eqb_eq in E. subst c. cbn zeta.
  assert (G : forall sg r', (sg = "" \/ sg = "+" \/ sg = "-") ->
    match count_while is_digit r' with O => 0 | S k => 1 + String.length sg + S k end = 0 \/
    exists d ds, stake (match count_while is_digit r' with O => 0 | S k => 1 + String.length sg + S k end) (String "e" (sg ++ r')) = String "e" (sg ++ String d ds) /\ dec_digit d /\ chars dec_digit ds).
  { intros sg r' Hs. pose proof (digits_ok r') as D. destruct (count_while is_digit r') as [|k] eqn:C; [left; reflexivity|]. right. destruct r' as [|d r2]; [discriminate|]. cbn [stake] in D. destruct D as [D1 D2].
    exists d, (stake k r2). split; [|auto]. destruct Hs as [->|[->| ->]]; reflexivity. }
  destruct r as [|d r]; [left; reflexivity|]. destruct (Ascii.eqb d "+" || Ascii.eqb d "-") eqn:Sg.
  - assert (X : exists sg, (sg = "" \/ sg = "+" \/ sg = "-") /\ String d r = (sg ++ r) /\ String.length sg = 1).
    { apply orb_true_iff in Sg. destruct Sg as [Sg|Sg]; apply Ascii.eqb_eq in Sg; subst d; [exists "+"|exists "-"]; auto. }
    destruct X as (sg & Hs & -> & L). destruct (G sg r Hs) as [Z|(x & ds & E & D)]; rewrite L in *.
    + left. destruct Hs as [->|[->| ->]]; try discriminate; cbn [append skip] in *; destruct (count_while is_digit r); (reflexivity || discriminate).
    + right. exists sg, x, ds. split; [|auto]. destruct Hs as [->|[->| ->]]; try discriminate; cbn [append skip] in *; destruct (count_while is_digit r); exact E.
  - destruct (G "" (String d r) (or_introl eq_refl)) as [Z|(x & ds & E & D)]; cbn [skip append String.length] in *.
    + left. destruct (count_while is_digit (String d r)); [reflexivity|discriminate].
    + right. exists "", x, ds. split; [|auto]. destruct (count_while is_digit (String d r)); exact E.
Qed.
Lemma stake_stake : forall a b s, stake (a + b) s = (stake a s ++ stake b (skip a s)).
Proof. induction a as [|a IH]; intros b [|c r]; cbn; try reflexivity; [destruct b; reflexivity|]. rewrite IH. reflexivity. Qed.
Definition number_ok (t : token) : Prop := tk_kind t = KNumber -> numeral (tk_value t).
Lemma char_number : forall src i c r ts n, src_at src i (String c r) -> scan_char src i c r = Ok (ts, n) -> forall t, In t ts -> number_ok t.
Proof.
  intros src i c r ts n Hat H t Ht K. unfold scan_char in H. destruct (is_space c); [injection H as <- <-; contradiction|].
  assert (Sq : forall q, scan_string src i c q r = Ok (ts, n) -> False).
  { intros q E. unfold scan_string in E. destruct (find_byte c r); [|discriminate]. injection E as <- <-. destruct Ht as [<-|[<-|[<-|[]]]]; discriminate K. }
  assert (So : forall m, scan_op src i m = Ok (ts, n) -> False).
  { intros m E. unfold scan_op in E. destruct (op_of_str _); [|discriminate]. injection E as <- <-. destruct Ht as [<-|[]]. discriminate K. }
  destruct (Ascii.eqb c "'"); [destruct (Sq _ H)|]. destruct (Ascii.eqb c """"); [destruct (Sq _ H)|].
  destruct (is_digit c) eqn:D.
  { unfold scan_number in H. injection H as <- <-. destruct Ht as [<-|[]]. cbn [tok tk_value]. destruct Hat as (pre & -> & <-).
    match goal with |- numeral (slice _ _ (_ + ?k)) => set (m := k) end. rewrite (slice_rest pre (String c r)). change m with ((1 + count_mantissa false r) + count_exponent (skip (count_mantissa false r) r)). clear m. rewrite stake_stake.
    destruct (mantissa_ok r false) as (a & f & H1 & H2 & H3). exists c, a, f, (stake (count_exponent (skip (count_mantissa false r) r)) (skip (count_mantissa false r) r)).
    cbn [Nat.add stake skip append]. rewrite H1, sapp_assoc. split; [reflexivity|]. split; [apply is_digit_ok; exact D|]. split; [exact H2|]. split; [destruct H3 as [H3|[_ H3]]; auto|]. apply exponent_ok. }
  destruct (is_bracket c); [unfold scan_bracket in H; destruct (bracket_of_str _); [|discriminate]; injection H as <- <-; destruct Ht as [<-|[]]; discriminate K|].
  destruct (is_cmp c); [destruct (So _ H)|]. destruct (is_oper c); [destruct (So _ H)|].
  destruct (Ascii.eqb c "?"); [destruct (next_is "?" r); injection H as <- <-; destruct Ht as [<-|[]]; discriminate K|].
  destruct (Ascii.eqb c "="); [destruct (next_is "=" r); injection H as <- <-; destruct Ht as [<-|[]]; discriminate K|].
  destruct (Ascii.eqb c "."); [destruct (So _ H)|]. destruct (Ascii.eqb c ";"); [injection H as <- <-; destruct Ht as [<-|[]]; discriminate K|].
  destruct (is_alpha c); [|discriminate]. unfold scan_ident in H. cbn zeta in H.
  repeat match type of H with
  | (if ?b then _ else _) = _ => destruct b
  end; injection H as <- <-; destruct Ht as [<-|[]]; cbn [tok tk_kind] in K; try discriminate K. destruct (ident_of_str _) in K; discriminate K.
Qed.
Lemma template_number : forall k src i rest e st acc ts j, src_at src i rest -> (forall t, In t acc -> number_ok t) ->
  scan_template k src i rest e st acc = Some (Ok (ts, j)) -> forall t, In t ts -> number_ok t.
Proof.
  induction k as [|k IH]; intros src i rest e st acc ts j Hat Ha H; [discriminate|]. cbn [scan_template] in H.
  assert (Q : forall l, (forall t, In t l -> tk_kind t <> KNumber) -> forall t, In t (acc ++ l)%list -> number_ok t).
  { intros l Hl t Ht. apply in_app_or in Ht. destruct Ht as [Ht|Ht]; [auto|]. intros K. destruct (Hl t Ht K). }
  destruct rest as [|c r].
  { injection H as <- <-. apply Q. intros t Ht. destruct (negb e && _); cbn in Ht; intuition (subst; discriminate). }
  destruct (Ascii.eqb c "`").
  { injection H as <- <-. apply Q. intros t Ht. destruct (st <? i); cbn in Ht; intuition (subst; discriminate). }
  destruct e.
  - destruct (Ascii.eqb c "}").
    + eapply IH; [| |exact H]; [eapply src_at_1; eauto|]. apply Q. intros t [<-|[]]. discriminate.
    + destruct (scan_char src i c r) as [[us n]|er] eqn:Sc; [|discriminate]. pose proof (scan_char_at _ _ _ _ _ _ Hat Sc) as (H1 & H2 & _).
      eapply IH; [| |exact H]; [apply src_at_skip; assumption|]. intros t Ht. apply in_app_or in Ht. destruct Ht as [Ht|Ht]; [auto|]. eapply char_number; eauto.
  - destruct (Ascii.eqb c "$" && next_is "{" r) eqn:E.
    + apply andb_true_iff in E. destruct E as [E1 E]. apply next_is_ok in E. destruct E as [r' ->]. apply Ascii.eqb_eq in E1. subst c.
      eapply IH; [| |exact H].
      * change (skip 1 (String "{" r')) with (skip 2 (String "$" (String "{" r'))). apply src_at_skip; [assumption|cbn; lia].
      * apply Q. intros t [<-|[<-|[]]]; discriminate.
    + eapply IH; [| |exact H]; [eapply src_at_1; eauto|assumption].
Qed.
Lemma scan_numbers : forall fuel src i rest acc ts, src_at src i rest -> (forall t, In t acc -> number_ok t) ->
  scan fuel src i rest acc = Some (Ok ts) -> forall t, In t ts -> number_ok t.
Proof.
  induction fuel as [|k IH]; intros src i rest acc ts Hat Ha H; [discriminate|]. cbn [scan] in H.
  destruct rest as [|c r]; [inversion H; subst; assumption|].
  destruct (Ascii.eqb c "`") eqn:Eb.
  - destruct (scan_template _ _ _ _ _ _ _) as [[[us j]|er]|] eqn:St; try discriminate.
    assert (Hj : i + 1 <= j /\ j <= String.length src) by (eapply template_bound; [|exact St]; eapply src_at_1; eauto).
    eapply IH; [| |exact H]; [apply skip_at; auto; lia|].
    eapply template_number; [| |exact St]; [eapply src_at_1; eauto|]. intros t Ht. apply in_app_or in Ht. destruct Ht as [Ht|[<-|[]]]; [auto|]. intros K. discriminate K.
  - destruct (scan_char src i c r) as [[us n]|er] eqn:Sc; [|discriminate]. pose proof (scan_char_at _ _ _ _ _ _ Hat Sc) as (H1 & H2 & H3).
    eapply IH; [| |exact H]; [apply src_at_skip; assumption|]. intros t Ht. apply in_app_or in Ht. destruct Ht as [Ht|Ht]; [auto|]. eapply char_number; eauto.
Qed.
Theorem lex_numbers : forall src ts, lex src = Some (Ok ts) -> forall t, In t ts -> tk_kind t = KNumber -> numeral (tk_value t).
Proof. intros src ts H t Ht. exact (scan_numbers _ _ _ _ _ _ (src_at_0 src) (fun t (F : In t []) => match F with end) H t Ht). Qed.
