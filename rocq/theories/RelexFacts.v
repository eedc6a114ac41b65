(** What [Print.render] writes, [Lexer.lex] reads back as the same words. *)
From Coq Require Import String Ascii ZArith Lia Bool List Arith.
From Verif Require Import Base Dec Value Ast Lexer SynSpec LexFacts Parser ParserFacts Print RoundTrip.
Import ListNotations.
Local Open Scope list_scope.
Local Open Scope string_scope.
Local Open Scope nat_scope.

Lemma alpha_class : forall c, is_alpha c = true ->
  is_space c = false /\ Ascii.eqb c "'" = false /\ Ascii.eqb c """" = false /\ is_digit c = false /\ is_bracket c = false /\
  is_cmp c = false /\ is_oper c = false /\ Ascii.eqb c "?" = false /\ Ascii.eqb c "=" = false /\ Ascii.eqb c "." = false /\
  Ascii.eqb c ";" = false /\ Ascii.eqb c "`" = false.
Proof. intros [[] [] [] [] [] [] [] []] H; vm_compute in H |- *; try discriminate; repeat split; reflexivity. Qed.
Lemma digit_class : forall c, is_digit c = true ->
  is_space c = false /\ Ascii.eqb c "'" = false /\ Ascii.eqb c """" = false /\ Ascii.eqb c "`" = false.
Proof. intros [[] [] [] [] [] [] [] []] H; vm_compute in H |- *; try discriminate; repeat split; reflexivity. Qed.

Lemma count_while_all : forall f r c rest, all_bytes f r = true -> f c = false ->
  count_while f (r ++ String c rest) = String.length r.
Proof.
  induction r as [|x r IH]; intros c rest H N; cbn in *; [rewrite N; reflexivity|]. apply andb_prop in H. destruct H as [A B].
  rewrite A, IH by assumption. reflexivity.
Qed.
Lemma mantissa_frac : forall e rest, all_bytes is_digit e = true -> count_mantissa true (e ++ String " " rest) = String.length e.
Proof.
  induction e as [|x e IH]; intros rest H; [reflexivity|]. cbn [all_bytes] in H. apply andb_prop in H. destruct H as [A B].
  cbn [append count_mantissa]. rewrite A. cbn [orb]. rewrite IH by assumption. reflexivity.
Qed.
Lemma mantissa_int : forall d rest, all_bytes is_digit d = true -> count_mantissa false (d ++ String " " rest) = String.length d.
Proof.
  induction d as [|x e IH]; intros rest H; [reflexivity|]. cbn [all_bytes] in H. apply andb_prop in H. destruct H as [A B].
  cbn [append count_mantissa]. rewrite A. cbn [orb]. rewrite IH by assumption. reflexivity.
Qed.
Lemma not_digit_space : is_digit " " = false /\ Ascii.eqb " " "_" = false.
Proof. split; reflexivity. Qed.
Lemma mantissa_dec : forall d e rest, all_bytes is_digit d = true -> all_bytes is_digit e = true ->
  count_mantissa false (d ++ String "." (e ++ String " " rest)) = String.length d + 1 + String.length e.
Proof.
  induction d as [|x d IH]; intros e rest H He.
  - cbn [append count_mantissa String.length]. change (is_digit ".") with false. change (Ascii.eqb "." "_") with false.
    change (Ascii.eqb "." ".") with true. cbn [orb].
    destruct e as [|y e]; cbn [append].
    + reflexivity.
    + assert (Y : Ascii.eqb y "." = false).
      { cbn in He. apply andb_prop in He. destruct He as [A _]. destruct (Ascii.eqb y ".") eqn:E; [|reflexivity].
        apply Ascii.eqb_eq in E. subst. discriminate. }
      rewrite Y. change (String y (e ++ String " " rest)) with (String y e ++ String " " rest).
      rewrite mantissa_frac by assumption. lia.
  - cbn [all_bytes] in H. apply andb_prop in H. destruct H as [A B].
    cbn [append count_mantissa]. rewrite A. cbn [orb]. rewrite IH by assumption. cbn [String.length]. lia.
Qed.

Lemma at_slice : forall src i v rest, src_at src i (v ++ rest) -> slice src i (i + String.length v) = v.
Proof. intros src i v rest (pre & -> & <-). apply slice_app. Qed.

Lemma scan_ident_value : forall src i c r rest, all_bytes is_alnum r = true ->
  src_at src i (String c (r ++ String " " rest)) ->
  scan_ident src i (r ++ String " " rest) =
    let n := 1 + String.length r in let value := String c r in
    if String.eqb value "and" then Ok ([Tok (KOp (OpLogic LAnd)) (i, i + n) value], n)
    else if String.eqb value "or" then Ok ([Tok (KOp (OpLogic LOr)) (i, i + n) value], n)
    else if String.eqb value "in" then Ok ([Tok (KOp (OpCmp CIn)) (i, i + n) value], n)
    else if String.eqb value "true" then Ok ([Tok (KBool true) (i, i + n) value], n)
    else if String.eqb value "false" then Ok ([Tok (KBool false) (i, i + n) value], n)
    else if String.eqb value "not" then
      if String.prefix " in " (String " " rest)
      then Ok ([Tok (KOp (OpCmp CNotIn)) (i, i + n + 3) "not in"], n + 4)
      else Ok ([Tok (KOp (OpLogic LNot)) (i, i + n) "not"], n)
    else Ok ([Tok (match ident_of_str value with Some d => KIdent d | None => KLiteral end) (i, i + n) value], n).
Proof.
  intros src i c r rest H At. unfold scan_ident, tok. rewrite count_while_all by (assumption || reflexivity).
  change (String c (r ++ String " " rest)) with (String c r ++ String " " rest) in At.
  pose proof (at_slice _ _ _ _ At) as SL. cbn [String.length] in SL. change (1 + String.length r) with (S (String.length r)).
  rewrite !SL. cbn [Nat.sub]. rewrite Nat.sub_0_r, skip_app. reflexivity.
Qed.

Lemma find_byte_all : forall q s rest, has_byte q s = false -> find_byte q (s ++ String q rest) = Some (String.length s).
Proof.
  induction s as [|x s IH]; intros rest H; cbn in *; [rewrite Ascii.eqb_refl; reflexivity|].
  apply orb_false_iff in H. destruct H as [A B]. rewrite A, IH by assumption. reflexivity.
Qed.

Ltac decide_if :=
  repeat match goal with
  | |- context [if ?b then _ else _] =>
      let v := eval vm_compute in b in
      match v with true => change b with true | false => change b with false end; cbv iota
  end.

(** A word whose text is a name. *)
Lemma scan_alpha : forall src i c r rest, is_alpha c = true -> scan_char src i c (r ++ String " " rest) = scan_ident src i (r ++ String " " rest).
Proof.
  intros src i c r rest H. pose proof (alpha_class c H) as K. unfold scan_char.
  repeat match goal with K : _ /\ _ |- _ => destruct K as [-> K] end. rewrite H. reflexivity.
Qed.
Definition reads (w : word) : Prop := forall src i rest, src_at src i (text w ++ String " " rest) ->
  exists c r ts, text w = String c r /\ Ascii.eqb c "`" = false /\
    scan_char src i c (r ++ String " " rest) = Ok (ts, String.length (text w)) /\ map ptok_of ts = toks_of w.
Lemma reads_name : forall k c r, is_alpha c = true -> all_bytes is_alnum r = true ->
  (forall src i rest, src_at src i (String c (r ++ String " " rest)) -> exists sp,
     scan_ident src i (r ++ String " " rest) = Ok ([Tok k sp (String c r)], S (String.length r))) ->
  reads (WTok k (String c r)).
Proof.
  intros k c r Hc Hr H src i rest At. cbn [text append] in *. destruct (H src i rest At) as [sp E].
  exists c, r. eexists. split; [reflexivity|]. split; [apply alpha_class; assumption|]. rewrite scan_alpha by assumption.
  rewrite E. split; reflexivity.
Qed.
Lemma reads_literal : forall v, plain_name v = true -> reads (WTok KLiteral v).
Proof.
  intros [|c r] H; [discriminate|]. cbn [plain_name] in H. apply andb_prop in H. destruct H as [H K].
  apply andb_prop in H. destruct H as [Hc Hr]. apply negb_true_iff in K.
  apply reads_name; [assumption|assumption|]. intros src i rest At. rewrite (scan_ident_value _ _ c) by assumption.
  cbv zeta. set (v := String c r) in *. unfold keywords in K. cbn [existsb] in K.
  repeat (apply orb_false_iff in K; let A := fresh in destruct K as [A K]).
  repeat match goal with A : String.eqb v ?x = false |- _ => rewrite A end.
  unfold ident_of_str. cbn [aget].
  repeat match goal with A : String.eqb v ?x = false |- _ => rewrite (String.eqb_sym v x) in A; try rewrite A end.
  eexists. reflexivity.
Qed.
Ltac by_name := apply reads_name; [reflexivity|reflexivity|];
  intros src i rest At; eexists; erewrite scan_ident_value; [|reflexivity|exact At]; cbv zeta; decide_if; reflexivity.
Lemma reads_ident : forall i, reads (WTok (KIdent i) (ident_text i)).
Proof. intros []; by_name. Qed.
Lemma reads_bool : forall b : bool, reads (WTok (KBool b) (if b then "true" else "false")).
Proof. intros []; by_name. Qed.
Ltac by_symbol := intros src i rest At; destruct At as (pre & -> & <-); do 3 eexists; split; [reflexivity|]; split; [reflexivity|];
  cbn [text op_text bracket_text append];
  unfold scan_char; decide_if; unfold scan_op, scan_bracket, tok;
  rewrite ?slice_rest; cbn [stake]; split; reflexivity.
Lemma reads_bracket : forall b, reads (WTok (KBracket b) (bracket_text b)).
Proof. intros []; by_symbol. Qed.
Lemma reads_op : forall o, o <> OpCmp CNotIn -> reads (WTok (KOp o) (op_text o)).
Proof.
  intros [[]|[]|[]| | | | | | |] N; try congruence; cbn [op_text];
    first [by_name|by_symbol].
Qed.
Lemma reads_number : forall v, number_text v -> reads (WTok KNumber v).
Proof.
  intros v (d & e & Nd & Hd & He & Hv). destruct d as [|c r]; [congruence|].
  assert (Hc : is_digit c = true) by (cbn in Hd; apply andb_prop in Hd; tauto).
  assert (Hr : all_bytes is_digit r = true) by (cbn in Hd; apply andb_prop in Hd; tauto).
  assert (X : exists r2, v = String c r2 /\ forall rest, count_mantissa false (r2 ++ String " " rest) = String.length r2).
  { destruct Hv as [->| ->].
    - exists r. split; [reflexivity|]. intros rest. apply mantissa_int. assumption.
    - exists (r ++ String "." e). split; [reflexivity|]. intros rest. rewrite sapp_assoc. cbn [append].
      rewrite mantissa_dec by assumption. rewrite slen_app. cbn [String.length]. lia. }
  destruct X as (r2 & -> & M). intros src i rest At. cbn [text append] in At |- *.
  do 3 eexists. split; [reflexivity|]. split; [apply digit_class; assumption|].
  pose proof (digit_class c Hc) as (A & B & C & _). unfold scan_char. rewrite A, B, C, Hc. unfold scan_number, tok. rewrite M, skip_app.
  change (count_exponent (String " " rest)) with 0. rewrite Nat.add_0_r.
  change (String c (r2 ++ String " " rest)) with (String c r2 ++ String " " rest) in At. pose proof (at_slice _ _ _ _ At) as SL.
  cbn [String.length] in *. change (1 + String.length r2) with (S (String.length r2)). rewrite SL. split; reflexivity.
Qed.
Lemma reads_str : forall q s, word_ok (WStr q s) -> reads (WStr q s).
Proof.
  intros q s H src i rest At. cbn [text] in *.
  assert (Z : exists c, quote_text q = String c "" /\ has_byte c s = false /\
    scan_char src i c (s ++ String c (String " " rest)) = scan_string src i c q (s ++ String c (String " " rest)) /\ Ascii.eqb c "`" = false).
  { destruct q; cbn in H; [exists "'"%char|exists """"%char|destruct H]; repeat split; assumption. }
  destruct Z as (c & EQ & NB & SC & NB2). rewrite EQ in *. cbn [append] in At |- *. rewrite sapp_assoc in At. cbn [append] in At.
  do 3 eexists. split; [reflexivity|]. split; [assumption|]. rewrite sapp_assoc. cbn [append]. rewrite SC. unfold scan_string.
  rewrite find_byte_all by assumption. cbn [String.length]. rewrite slen_app. cbn [String.length].
  split; [f_equal; f_equal; lia|]. cbn. unfold ptok_of, tok. cbn [tk_kind tk_value]. rewrite EQ.
  assert (S : slice src (i + 1) (i + 1 + String.length s) = s).
  { destruct At as (pre & -> & <-). change (String c (s ++ String c (String " " rest))) with (String c "" ++ (s ++ String c (String " " rest))).
    rewrite <- sapp_assoc. replace (String.length pre + 1) with (String.length (pre ++ String c "")) by (rewrite slen_app; reflexivity).
    apply slice_app. }
  rewrite S. reflexivity.
Qed.

Lemma scan_fuel_cons : forall k src i w rest acc, word_ok w -> src_at src i (text w ++ String " " rest) ->
  String.length (text w ++ String " " rest) < k ->
  exists k' i' ts, scan k src i (text w ++ String " " rest) acc = scan k' src i' rest (acc ++ ts)%list /\
    String.length rest < k' /\ src_at src i' rest /\ map ptok_of ts = toks_of w.
Proof.
  intros k src i w rest acc Hw At L.
  assert (D : w = WTok (KOp (OpCmp CNotIn)) "not in" \/ reads w).
  { destruct w as [kd v|q s]; [|right; apply reads_str; assumption].
    destruct kd; cbn in Hw; try (destruct Hw; fail); subst.
    - right; apply reads_ident.
    - right; apply reads_bool.
    - right; apply reads_number; assumption.
    - right; apply reads_literal; assumption.
    - destruct (operator_eq_dec o (OpCmp CNotIn)) as [->|N]; [left; reflexivity|right; apply reads_op; assumption].
    - right; apply reads_bracket. }
  destruct D as [->|D].
  - cbn [text append] in *. destruct k as [|k]; [lia|]. 
    assert (E : scan_char src i "n" ("ot" ++ String " " ("in" ++ String " " rest)) = Ok ([Tok (KOp (OpCmp CNotIn)) (i, i + 6) "not in"], 7)).
    { rewrite scan_alpha by reflexivity. rewrite (scan_ident_value _ _ "n"); [|reflexivity|exact At]. cbv zeta.
      assert (PX : String.prefix " in " (String " " ("in" ++ String " " rest)) = true) by (destruct rest; reflexivity).
      rewrite PX. decide_if. cbn [append String.length Nat.add]; (replace (i + 3 + 3) with (i + 6) by lia); reflexivity. }
    cbn [scan]. change (Ascii.eqb "n" "`") with false. cbv iota. cbn [append] in E. rewrite E. cbn [skip].
    exists k, (i + 7), [Tok (KOp (OpCmp CNotIn)) (i, i + 6) "not in"]. split; [reflexivity|].
    cbn [String.length] in L. split; [lia|]. split; [|reflexivity].
    exact (src_at_skip _ _ _ 7 At ltac:(cbn [String.length]; lia)).
  - destruct (D src i rest At) as (c & r & ts & ET & NB & SC & M). 
    destruct k as [|k]; [lia|]. rewrite ET in *. cbn [append scan]. rewrite NB, SC. 
    change (String c (r ++ String " " rest)) with (String c r ++ String " " rest) in *. rewrite skip_app.
    rewrite slen_app in L. cbn [String.length] in L. destruct k as [|k]; [lia|].
    exists k, (i + String.length (String c r) + 1), ts. split.
    + cbn [scan]. change (Ascii.eqb " " "`") with false. cbv iota. unfold scan_char. change (is_space " ") with true. cbv iota.
      cbn [skip]. rewrite app_nil_r. reflexivity.
    + split; [lia|]. split; [|assumption].
      pose proof (src_at_skip _ _ _ (String.length (String c r) + 1) At) as S. rewrite slen_app in S. cbn [String.length] in S.
      rewrite <- Nat.add_assoc. rewrite <- (skip_app (String c r ++ " ") rest). rewrite slen_app, sapp_assoc. cbn [append String.length] in *.
      apply S. lia.
Qed.
Lemma scan_words : forall ws k src i acc, Forall word_ok ws -> src_at src i (render ws) -> String.length (render ws) < k ->
  exists ts, scan k src i (render ws) acc = Some (Ok (acc ++ ts)%list) /\ map ptok_of ts = spell ws.
Proof.
  induction ws as [|w ws IH]; intros k src i acc H At L; cbn [render] in *.
  - destruct k as [|k]; [lia|]. exists []. rewrite app_nil_r. split; reflexivity.
  - inversion H as [|? ? Hw Hws]; subst.
    destruct (scan_fuel_cons k src i w (render ws) acc Hw At L) as (k' & i' & ts & -> & L' & At' & M).
    destruct (IH k' src i' (acc ++ ts)%list Hws At' L') as (us & -> & M2). exists (ts ++ us)%list.
    rewrite app_assoc. split; [reflexivity|]. rewrite map_app, M, M2. reflexivity.
Qed.
Theorem relex : forall ws, Forall word_ok ws -> exists ts, lex (render ws) = Some (Ok ts) /\ map ptok_of ts = spell ws.
Proof.
  intros ws H. unfold lex. destruct (scan_words ws (S (String.length (render ws))) (render ws) 0 [] H) as (ts & E & M);
    [apply src_at_0|lia|]. exists ts. auto.
Qed.
