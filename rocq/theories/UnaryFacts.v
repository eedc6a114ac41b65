(** The unary flavour reads cells. *)
From Coq Require Import String Ascii ZArith Lia Bool List Arith.
From Verif Require Import Base Dec Value Heap Ast Ops Compiler Vm Eval ExprFacts Funcs HeapSpec PureFacts RunSpec OpFacts Lexer Parser ParserFacts Print RoundTrip ParensFacts RelexFacts FuncSpec FuncClaims IntervalFacts CompilerFacts CellSpec.
Import ListNotations.
Local Open Scope string_scope.
Local Open Scope list_scope.
Local Open Scope nat_scope.

Section Cells.
  Variable pn : string -> option dec.
  Variable hr : bool.
  Variable nt : dec -> string.
  Notation can := (canon nt pn hr FUnary).
  Notation PE := (PE pn hr FUnary).

  Lemma PE_any : forall fuel d p c ts, length ts < fuel -> p_expr pn hr FUnary fuel d p c ts = PE d p c ts.
  Proof.
    intros fuel d p c ts L. destruct (PE_total pn hr FUnary d p c ts) as (n & rest & A & _). rewrite A.
    eapply more_expr_le; [|exact A]. lia.
  Qed.
  Definition join_head (ts : list ptok) : Prop := ts = [] \/ exists j v r, ts = (KOp (joiner_op j), v) :: r.
  Lemma join_follow : forall ts, join_head ts -> follow FUnary CxGlobal 0 ts /\ head_is (KOp OpQuestion) ts = false /\ head_cmp ts = None.
  Proof.
    intros ts [->|(j & v & r & ->)]; [split; [apply follow_nil|split; reflexivity]|].
    destruct j; (split; [|split; reflexivity]);
      (split; [split; reflexivity|]; split; [reflexivity|]; split; [reflexivity|]);
      intros o v' r' q la E _; inversion E; subst; right; reflexivity.
  Qed.
  Lemma T_no_cmp : forall n d c p f rest, can n d c p f -> head_cmp (T nt n ++ rest) = None.
  Proof.
    intros n d c p f rest H. destruct (T_started _ _ _ _ _ _ _ _ _ H) as (k & v & r & -> & St). cbn.
    destruct k; try reflexivity. destruct o; try reflexivity. destruct St. reflexivity.
  Qed.
  Lemma pair_ok : forall t rest fuel, test_canon nt pn hr FUnary t -> join_head rest ->
    length (spell (test_words nt t) ++ rest) < fuel ->
    p_pair pn hr FUnary fuel (spell (test_words nt t) ++ rest) = Some (test_node t, rest).
  Proof.
    intros t rest fuel C J L. pose proof (join_follow rest J) as (F & Q & HC). unfold p_pair. destruct t as [c n|n]; cbn [test_words test_canon test_node] in *.
    - unfold wop in *. rewrite spell_tok in *. cbn [app head_cmp cmp_kind obind tl] in *. cbn [length] in L.
      rewrite PE_any by lia. change (spell (words nt n)) with (T nt n).
      rewrite (reads_back pn hr FUnary nt n 0 CxGlobal 0 0 rest C); [reflexivity|auto|exact F|auto].
    - change (spell (words nt n)) with (T nt n) in *. rewrite (T_no_cmp _ _ _ _ _ _ C). rewrite PE_any by assumption.
      rewrite (reads_back pn hr FUnary nt n 0 CxGlobal 0 0 rest C); [|auto|exact F|auto]. cbn [obind]. rewrite HC. reflexivity.
  Qed.
  Definition rest_words (l : list (joiner * test)) : list word :=
    flat_map (fun jt => wop (joiner_op (fst jt)) :: test_words nt (snd jt)) l.
  Lemma rest_head : forall l, join_head (spell (rest_words l)).
  Proof. intros [|[j t] l]; [left; reflexivity|right]. do 3 eexists. reflexivity. Qed.
  Lemma root_ok : forall l fuel lf acc, Forall (fun jt => test_canon nt pn hr FUnary (snd jt)) l ->
    length (spell (rest_words l)) < fuel -> length (spell (rest_words l)) < lf ->
    p_root pn hr FUnary fuel lf acc (spell (rest_words l)) =
      Some (fold_left (fun acc jt => NBinary acc (joined (fst jt)) (test_node (snd jt))) l acc, []).
  Proof.
    induction l as [|[j t] l IH]; intros fuel lf acc H Lf L; (destruct lf as [|k]; [lia|]); [reflexivity|].
    inversion H as [|? ? Ht Hl]; subst. cbn [snd] in Ht.
    assert (E : spell (rest_words ((j, t) :: l)) = (KOp (joiner_op j), op_text (joiner_op j)) :: spell (test_words nt t) ++ spell (rest_words l)).
    { unfold rest_words at 1. cbn [flat_map fst snd]. change (flat_map _ l) with (rest_words l). cbn [app]. unfold wop. rewrite spell_tok, spell_app. reflexivity. }
    rewrite E in *. cbn [length] in *. cbn [p_root].
    replace (join_op (KOp (joiner_op j))) with (Some (joined j)) by (destruct j; reflexivity).
    rewrite (pair_ok t _ fuel Ht (rest_head l)) by lia. cbn [obind]. rewrite app_length in *. rewrite IH; [reflexivity|assumption|lia|lia].
  Qed.
End Cells.

Theorem cell_read : forall pn nt t l, let w := spell (cell_words nt t l) in
  test_canon nt pn (has_range w) FUnary t -> Forall (fun jt => test_canon nt pn (has_range w) FUnary (snd jt)) l ->
  parse_tokens pn FUnary w = Some (cell_node t l, []).
Proof.
  intros pn nt t l w Ht Hl. cbn [parse_tokens]. unfold p_unary_top. set (hr := has_range w) in *. clearbody hr. subst w.
  unfold cell_words in *. rewrite spell_app in *. fold (rest_words nt l) in *.
  rewrite (pair_ok pn hr nt t _ _ Ht (rest_head nt l)) by lia. cbn [obind].
  rewrite root_ok; [reflexivity|assumption|rewrite app_length; lia|lia].
Qed.
Lemma test_no_error : forall pn hr nt t, test_canon nt pn hr FUnary t -> has_error (test_node t) = false.
Proof.
  intros pn hr nt [c n|n] H; cbn [test_node test_canon] in *; pose proof (no_error _ _ _ _ _ _ _ _ _ H) as E.
  - cbn. exact E.
  - destruct (behaviour n); cbn; rewrite E; reflexivity.
Qed.
Lemma cell_no_error : forall pn hr nt l t, test_canon nt pn hr FUnary t -> Forall (fun jt => test_canon nt pn hr FUnary (snd jt)) l ->
  has_error (cell_node t l) = false.
Proof.
  intros pn hr nt l t Ht Hl. unfold cell_node. pose proof (test_no_error _ _ _ _ Ht) as E. revert E. generalize (test_node t).
  induction Hl as [|[j u] l Hu Hl IH]; intros acc E; [exact E|]. cbn [fold_left]. apply IH. cbn. rewrite E. exact (test_no_error _ _ _ _ Hu).
Qed.

(** ** What a cell computes *)
Lemma answers_join : forall X root h a b na nb j, answers X root h na a -> answers X root h nb b ->
  answers X root h (NBinary na (joined j) nb) (join_bool j a b).
Proof.
  intros X root h a b na nb j [Na Ha] [Nb Hb]. split.
  { destruct j; cbn; rewrite Na, Nb; reflexivity. }
  intros more. destruct (Ha more) as [m1 Y1]. destruct (Hb (more ++ m1)) as [m2 Y2].
  pose proof (yields_eval _ _ _ _ _ _ Na Y1) as Ea. pose proof (yields_eval _ _ _ _ _ _ Nb Y2) as Eb.
  assert (C : forall o, short_binop (OpLogic o) <> None -> compiles X (NBinary na (OpLogic o) nb))
    by (intros o Ho; apply compiles_binary; [eapply yields_compiles; eauto..|now right]).
  rewrite <- app_assoc in Y2, Eb.
  assert (E : eval X root [] [] (NBinary na (joined j) nb) root (h ++ more) =
    ORet (VBool (join_bool j a b)) root (h ++ more ++ (if (match j with JAnd => a | _ => negb a end) then m1 ++ m2 else m1))).
  { destruct j; cbn [joined join_bool eval]; rewrite Ea; cbn [Eval.obind]; destruct a; cbn [negb andb orb]; try reflexivity; exact Eb. }
  assert (K : compiles X (NBinary na (joined j) nb)) by (destruct j; cbn [joined]; apply C; discriminate).
  eexists. exact (eval_yields _ _ _ _ _ K E).
Qed.
Lemma cell_answers : forall X root h l t b bs, answers X root h (test_node t) b ->
  Forall2 (fun jt b => answers X root h (test_node (snd jt)) b) l bs ->
  answers X root h (cell_node t l) (fold_left (fun acc jb => join_bool (fst jb) acc (snd jb)) (combine (map fst l) bs) b).
Proof.
  intros X root h l t b bs Ht H. unfold cell_node. revert b Ht. generalize (test_node t).
  induction H as [|[j u] c l bs Hu Hl IH]; intros acc b Ha; [exact Ha|].
  cbn [fold_left map combine fst snd]. apply IH. apply answers_join; assumption.
Qed.

(** ** Literal tests *)
Lemma source_read : forall pn fl ws n, Forall word_ok ws -> parse_tokens pn fl (spell ws) = Some (n, []) ->
  has_error n = false -> parse_source pn fl (render ws) = Some (Ok n).
Proof.
  intros pn fl ws n W P E. destruct (relex ws W) as (ts & L & M). unfold parse_source. rewrite L, M, P. cbn. rewrite E. reflexivity.
Qed.

Section Literals.
  Variable pn : string -> option dec.
  Variable nt : dec -> string.

  Lemma literal_can : forall hr n v, literal pn nt n v -> canon nt pn hr FUnary n 0 CxGlobal 0 0.
  Proof. intros hr n v H. destruct H; try exact I. exact (proj1 H). Qed.
  Lemma literal_words : forall n v, literal pn nt n v -> Forall word_ok (words nt n).
  Proof.
    intros n v H. destruct H; cbn [words]; repeat constructor; try assumption; try exact (proj2 H).
    unfold word_ok, quote_for. destruct (has_byte "'" s); [exact H|reflexivity].
  Qed.
  Lemma literal_led : forall b n v, literal pn nt n v -> not_led nt b n.
  Proof. intros b n v H. destruct H; reflexivity. Qed.
  Lemma literal_yields : forall X root h n v, literal pn nt n v -> yields X n root h (Ok v) h /\ no_assign n = true.
  Proof.
    intros X root h n v H. split; [|destruct H; reflexivity].
    apply yields_iff. split; [destruct H; eexists; reflexivity|destruct H; reflexivity].
  Qed.
  Lemma dollar_yields : forall X root h r, local_str root "$" = Some r -> yields X (NIdent "$") root h (Ok r) h.
  Proof.
    intros X root h r H. apply yields_iff. split; [eexists; reflexivity|]. unfold evaluate. cbn. unfold op_fetch_env. rewrite H. reflexivity.
  Qed.
  Lemma array_literal : forall X root h ns vs, Forall2 (literal pn nt) ns vs ->
    yields X (NArray ns) root h (Ok (VArr (length h))) (h ++ [CArr vs]).
  Proof.
    intros X root h ns vs H. apply yields_iff. split.
    - unfold compiles. setoid_rewrite compile_cgen. cbn [cgen].
      assert (C : exists c, rconcat (cgen X []) ns = Ok c).
      { induction H as [|n v ns vs Hn Hs IH]; [eexists; reflexivity|]. destruct IH as [c E]. cbn. rewrite E.
        destruct Hn; cbn; eexists; reflexivity. }
      destruct C as [c ->]. eexists. reflexivity.
    - unfold evaluate. cbn [eval].
      assert (E : eval_seq (eval X root [] []) ns root h = ORet vs root h).
      { induction H as [|n v ns vs Hn Hs IH]; [reflexivity|].
        assert (U : forall f (n : node) l, eval_seq f (n :: l) root h = Eval.obind (f n root h) (fun v env h0 =>
          Eval.obind (eval_seq f l env h0) (fun vs env h0 => ORet (A := list value) (v :: vs) env h0))) by reflexivity.
        rewrite U. destruct Hn; cbn [eval Eval.obind]; rewrite IH; reflexivity. }
      rewrite E. reflexivity.
  Qed.
  Lemma forallb_literals : forall ns vs, Forall2 (literal pn nt) ns vs -> forallb no_assign ns = true.
  Proof. intros ns vs H. induction H as [|n v ns vs Hn Hs IH]; [reflexivity|]. cbn. rewrite IH. destruct Hn; reflexivity. Qed.

  Lemma hget_last : forall (h : heap) c, hget (h ++ [c]) (length h) = Some c.
  Proof. intros h c. unfold hget. rewrite nth_error_app2 by lia. rewrite Nat.sub_diag. reflexivity. Qed.

  (** A literal test answers what it says. *)
  Lemma says_answers : forall X root h r t P, local_str root "$" = Some r -> says pn nt r t P ->
    exists b, answers X root h (test_node t) b /\ (b = true <-> P).
  Proof.
    intros X root h r t P L S.
    assert (D : forall h', yields X (NIdent "$") root h' (Ok r) h') by (intros; apply dollar_yields; assumption).
    assert (O : forall n v h', literal pn nt n v -> operands X (NIdent "$") n root h' r v h').
    { intros n v h' Hn. destruct (literal_yields X root h' n v Hn) as [Y N]. split; [reflexivity|]. split; [exact N|]. exists h'. auto. }
    assert (ST : forall (c : comparison_op) n P, no_assign n = true ->
      (forall h', exists more' b, yields X (NBinary (NIdent "$") (OpCmp c) n) root h' (Ok (VBool b)) (h' ++ more') /\ (b = true <-> P)) ->
      exists b, answers X root h (NBinary (NIdent "$") (OpCmp c) n) b /\ (b = true <-> P)).
    { intros c n P0 N A. destruct (A h) as (m0 & b0 & Y0 & B0). exists b0. split; [|exact B0]. split; [cbn; exact N|].
      intros more. destruct (A (h ++ more)) as (m1 & b1 & Y1 & B1). exists m1. rewrite <- app_assoc in Y1.
      replace b0 with b1; [exact Y1|]. destruct b0, b1; try reflexivity; exfalso; intuition congruence. }
    destruct S as [x c y E Ic Ry|n v Hn|x a b lb rb E Ra Rb Ol Cr|ns vs Sc NE Hs]; cbn [test_node].
    - subst r. apply ST; [reflexivity|]. intros h'.
      destruct (compare_numbers X (NIdent "$") (NNumber y) root h' h' x y c) as (b & Y & B); [apply O; constructor; assumption|assumption|].
      exists [], b. rewrite app_nil_r. auto.
    - replace (behaviour n) with (Some CEq) by (destruct Hn; reflexivity). apply ST; [destruct Hn; reflexivity|]. intros h'.
      destruct (equal_scalars X (NIdent "$") n root h' h' r v (O _ _ _ Hn)) as (b & Y & _ & B). exists [], b. rewrite app_nil_r. auto.
    - subst r. cbn [behaviour]. apply ST; [reflexivity|]. intros h'.
      destruct (in_inside X (NIdent "$") (NNumber a) (NNumber b) root h' h' h' h' x a b lb rb) as (r & Y & _ & B);
        try reflexivity; try assumption; try apply D; try (eapply literal_yields; constructor; assumption).
      exists [], r. rewrite app_nil_r. auto.
    - cbn [behaviour]. apply ST; [cbn; eapply forallb_literals; eassumption|]. intros h'.
      destruct (in_array X (NIdent "$") (NArray ns) root h' (h' ++ [CArr vs]) r (length h') vs) as (b & Y & _ & B).
      + split; [reflexivity|]. split; [cbn; eapply forallb_literals; eassumption|]. exists h'. split; [apply D|]. apply array_literal. assumption.
      + apply hget_last.
      + assumption.
      + exists [CArr vs], b. auto.
  Qed.
  Lemma seps_words : forall ns vs, Forall2 (literal pn nt) ns vs -> Forall word_ok (seps comma (map (words nt) ns)).
  Proof.
    intros ns vs H. induction H as [|n v ns vs Hn Hs IH]; [constructor|]. cbn [map seps].
    pose proof (literal_words _ _ Hn) as W. destruct ns as [|m ns]; cbn [map] in *; [exact W|].
    apply Forall_app. split; [exact W|]. constructor; [reflexivity|]. exact IH.
  Qed.
  Lemma says_words : forall r t P, says pn nt r t P -> Forall word_ok (test_words nt t).
  Proof.
    intros r t P S. destruct S as [x c y E Ic Ry|n v Hn|x a b lb rb E Ra Rb Ol Cr|ns vs Sc NE Hs]; cbn [test_words].
    - constructor; [reflexivity|]. eapply literal_words. constructor; eassumption.
    - eapply literal_words. eassumption.
    - cbn [words]. constructor; [reflexivity|]. apply Forall_app. split; [apply (literal_words (NNumber a) (VNum a)); constructor; assumption|].
      constructor; [reflexivity|]. apply Forall_app. split; [apply (literal_words (NNumber b) (VNum b)); constructor; assumption|]. repeat constructor.
    - cbn [words]. constructor; [reflexivity|]. apply Forall_app. split; [eapply seps_words; eassumption|repeat constructor].
  Qed.
  Lemma says_can : forall hr r t P, says pn nt r t P -> (has_range (spell (test_words nt t)) = true -> hr = true) ->
    test_canon nt pn hr FUnary t.
  Proof.
    intros hr r t P S HR. destruct S as [x c y E Ic Ry|n v Hn|x a b lb rb E Ra Rb Ol Cr|ns vs Sc NE Hs]; cbn [test_canon].
    - eapply literal_can. constructor; eassumption.
    - eapply literal_can. eassumption.
    - cbn [canon]. split; [apply HR; reflexivity|]. split; [apply Ra|]. split; [apply Rb|]. destruct Cr; subst; exact I.
    - cbn [canon]. split; [auto|]. clear NE HR. induction Hs as [|n v ns vs Hn Hs IH]; [exact I|].
      split; [|exact IH]. split; [eapply literal_can; eassumption|eapply literal_led; eassumption].
  Qed.
End Literals.

Lemma has_range_app : forall a b, has_range (a ++ b) = has_range a || has_range b.
Proof. intros a b. apply existsb_app. Qed.
Lemma rest_range : forall nt l jt, In jt l -> has_range (spell (test_words nt (snd jt))) = true -> has_range (spell (rest_words nt l)) = true.
Proof.
  intros nt l jt H R. induction l as [|x l IH]; [destruct H|]. unfold rest_words. cbn [flat_map]. fold (rest_words nt l).
  rewrite spell_app, has_range_app. destruct H as [->|H]; apply orb_true_iff; [left|right; auto].
  unfold wop. rewrite spell_tok. destruct (fst jt); exact R.
Qed.

Theorem literal_cell : forall X pn nt root h r t l P Ps, local_str root "$" = Some r ->
  says pn nt r t P -> Forall2 (says pn nt r) l Ps ->
  let w := cell_words nt t (map (pair JComma) l) in
  exists n b h1, parse_source pn FUnary (render w) = Some (Ok n) /\ yields X n root h (Ok (VBool b)) h1 /\
    (b = true <-> P \/ Exists (fun Q => Q) Ps).
Proof.
  intros X pn nt root h r t l P Ps L S Ss w.
  exists (cell_node t (map (pair JComma) l)).
  assert (CT : test_canon nt pn (has_range (spell w)) FUnary t).
  { eapply says_can; [exact S|]. intros R. unfold w, cell_words. rewrite spell_app, has_range_app, R. reflexivity. }
  assert (CL : Forall (fun jt => test_canon nt pn (has_range (spell w)) FUnary (snd jt)) (map (pair JComma) l)).
  { apply Forall_forall. intros jt I. apply in_map_iff in I. destruct I as (u & <- & I). cbn [snd].
    assert (Su : exists Q, says pn nt r u Q).
    { clear -I Ss. induction Ss as [|x y l Ps Hx Hl IH]; [destruct I|]. destruct I as [->|I]; [eauto|auto]. }
    destruct Su as [Q Su]. eapply says_can; [exact Su|]. intros R. unfold w, cell_words. fold (rest_words nt (map (pair JComma) l)).
    rewrite spell_app, has_range_app. rewrite (rest_range nt _ (JComma, u) (in_map _ _ _ I) R). apply orb_true_r. }
  assert (PS : parse_source pn FUnary (render w) = Some (Ok (cell_node t (map (pair JComma) l)))).
  { apply source_read.
    - unfold w, cell_words. apply Forall_app. split; [eapply says_words; exact S|]. clear -Ss.
      induction Ss as [|x y l Ps Hx Hl IH]; [constructor|]. cbn [map flat_map fst snd]. constructor; [reflexivity|].
      apply Forall_app. split; [eapply says_words; exact Hx|exact IH].
    - apply cell_read; assumption.
    - eapply cell_no_error; eassumption. }
  destruct (says_answers pn nt X root h r t P L S) as (b & A & B).
  assert (AL : exists bs, Forall2 (fun jt b => answers X root h (test_node (snd jt)) b) (map (pair JComma) l) bs /\ Forall2 (fun b Q => b = true <-> Q) bs Ps).
  { clear -L Ss. induction Ss as [|x y l Ps Hx Hl IH]; [exists []; split; constructor|]. destruct IH as (bs & A1 & A2).
    destruct (says_answers pn nt X root h r x y L Hx) as (b & A & B). exists (b :: bs). cbn [map]. split; constructor; assumption. }
  destruct AL as (bs & A1 & A2). pose proof (cell_answers X root h _ t b bs A A1) as [_ Y]. destruct (Y []) as [more Y0].
  rewrite app_nil_r in Y0. do 2 eexists. split; [exact PS|]. split; [exact Y0|].
  assert (LEN : length l = length bs) by (rewrite <- (map_length (pair JComma) l); clear -A1; induction A1; cbn; congruence).
  clear -B A2 LEN. revert b P B LEN. revert l. induction A2 as [|c Q bs Ps Hc HA IH]; intros l b P B LEN.
  - destruct l; [|discriminate]. cbn. rewrite B. split; [auto|]. intros [H|H]; [assumption|inversion H].
  - destruct l as [|u l]; [discriminate|]. cbn [map combine fst fold_left snd join_bool].
    rewrite (IH l (b || c) (P \/ Q)); [|rewrite orb_true_iff; intuition|cbn in LEN; lia].
    split; [intros [[H|H]|H]; [left; exact H|right; constructor; exact H|right; constructor 2; exact H]|].
    intros [H|H]; [left; left; exact H|]. inversion H; subst; [left; right; assumption|right; assumption].
Qed.
