(** Lexing, parsing and rendering templates. *)
From Coq Require Import String Ascii ZArith Lia Bool List Arith.
From Verif Require Import Base Dec Value Heap Ast Ops Compiler Vm Eval Funcs Isolate Session Table Template TemplateSpec.
Import ListNotations.
Local Open Scope list_scope.
Local Open Scope char_scope.
Local Open Scope nat_scope.

Definition starts (c : ascii) (s : chars) : Prop := exists r, s = c :: r.
(** No pair of braces appears where [a] and [b] meet. *)
Definition apart (a b : chars) : Prop := ~ (ends_in "{" a /\ starts "{" b) /\ ~ (ends_in "}" a /\ starts "}" b).
Lemma pair_cons : forall c x s, pair_in c s -> pair_in c (x :: s).
Proof. intros c x s (a & b & ->). now exists (x :: a), b. Qed.
Lemma plain_cons : forall x s, plain (x :: s) -> plain s.
Proof. intros x s [A B]. split; intros H; [apply A|apply B]; now apply pair_cons. Qed.
Lemma ends_cons : forall c x s, s <> [] -> ends_in c (x :: s) <-> ends_in c s.
Proof.
  intros c x s N. split.
  - intros (a & E). destruct a as [|y a]; [destruct s; [now elim N|discriminate]|]. injection E as _ ->. now exists a.
  - intros (a & ->). now exists (x :: a).
Qed.
Lemma apart_cons : forall x s b, s <> [] -> apart (x :: s) b <-> apart s b.
Proof. intros x s b N. unfold apart. now rewrite !ends_cons by exact N. Qed.
(** The head is not the start of a pair. *)
Lemma no_pair_head : forall c x s r, ~ pair_in c (x :: s) -> ~ (ends_in c (x :: s) /\ starts c r) -> x = c -> forall y q, s ++ r = y :: q -> y <> c.
Proof.
  intros c x s r N A -> y q E ->. destruct s as [|z s].
  - cbn in E. apply A. split; [now exists []|now exists q].
  - injection E as -> _. apply N. now exists [], s.
Qed.
Lemma lex_text : forall t acc rest, plain t -> apart t rest -> tlex acc (t ++ rest) = tlex (acc ++ t) rest.
Proof.
  induction t as [|c t IH]; intros acc rest P A; [now rewrite app_nil_r|].
  assert (Next : tlex (acc ++ [c]) (t ++ rest) = tlex (acc ++ c :: t) rest).
  { destruct t as [|d t]; [reflexivity|]. rewrite IH; [now rewrite <- app_assoc|eapply plain_cons; eauto|]. apply apart_cons in A; [exact A|discriminate]. }
  rewrite <- Next. change ((c :: t) ++ rest) with (c :: (t ++ rest)). cbn [tlex]. destruct P as [P1 P2]. destruct A as [A1 A2].
  destruct (Ascii.eqb_spec c "{") as [E|_].
  - pose proof (no_pair_head "{" c t rest P1 A1 E) as H. destruct (t ++ rest) as [|d q]; [reflexivity|]. specialize (H d q eq_refl). apply Ascii.eqb_neq in H. now rewrite H.
  - destruct (Ascii.eqb_spec c "}") as [E|_]; [|reflexivity].
    pose proof (no_pair_head "}" c t rest P2 A2 E) as H. destruct (t ++ rest) as [|d q]; [reflexivity|]. specialize (H d q eq_refl). apply Ascii.eqb_neq in H. now rewrite H.
Qed.
(** The tokens of a well-written template. *)
Fixpoint tokens (closed : bool) (ps : list piece) : list ttok :=
  match ps with
  | [] => []
  | Txt t :: ps => TkText t :: tokens closed ps
  | [Exp e] => TkOpen :: flush e (if closed then [TkClose] else [])
  | Exp e :: ps => TkOpen :: flush e (TkClose :: tokens closed ps)
  end.
Lemma plain_nil : plain [].
Proof. split; intros ([|x a] & b & E); discriminate. Qed.
Lemma apart_nil : forall a, apart a [].
Proof. intros a. split; intros [_ (r & E)]; discriminate. Qed.
Lemma lex_open : forall acc s, tlex acc (opens ++ s) = flush acc (TkOpen :: tlex [] s).
Proof. reflexivity. Qed.
Lemma lex_close : forall acc s, tlex acc (closes ++ s) = flush acc (TkClose :: tlex [] s).
Proof. reflexivity. Qed.
Lemma apart_close : forall e s, ~ ends_in "}" e -> apart e (closes ++ s).
Proof. intros e s N. split; [intros [_ (r & E)]; discriminate|intros [H _]; contradiction]. Qed.
Lemma lex_written : forall closed ps, well_written closed ps -> tlex [] (written closed ps) = tokens closed ps.
Proof.
  intros closed. induction ps as [|[t|e] ps IH]; intros W; [reflexivity| |].
  - destruct W as (Nt & P & F & W). cbn [written tokens]. rewrite lex_text; [|exact P|].
    + cbn [app]. rewrite <- (IH W). destruct ps as [|[t2|e2] ps]; [|destruct F|].
      * cbn. destruct t; [now elim Nt|reflexivity].
      * assert (Ex : exists s, written closed (Exp e2 :: ps) = opens ++ s) by (destruct ps; eexists; reflexivity). destruct Ex as (s & ->). rewrite !lex_open. destruct t; [now elim Nt|reflexivity].
    + destruct ps as [|[t2|e2] ps]; [apply apart_nil|destruct F|]. assert (Ex : exists s, written closed (Exp e2 :: ps) = opens ++ s) by (destruct ps; eexists; reflexivity). destruct Ex as (s & ->).
      split; [intros [H _]; contradiction|intros [_ (r & E)]; discriminate].
  - destruct ps as [|p ps].
    + destruct W as [P F]. cbn [written tokens]. rewrite lex_open. cbn [flush]. f_equal. destruct closed.
      * rewrite <- (app_nil_r closes), lex_text, lex_close; [reflexivity|exact P|apply apart_close; auto].
      * rewrite lex_text by (exact P || apply apart_nil). reflexivity.
    + destruct W as (P & F & W). change (written closed (Exp e :: p :: ps)) with (opens ++ e ++ closes ++ written closed (p :: ps)). change (tokens closed (Exp e :: p :: ps)) with (TkOpen :: flush e (TkClose :: tokens closed (p :: ps))).
      rewrite lex_open, lex_text, lex_close, (IH W); [reflexivity|exact P|now apply apart_close].
Qed.
Lemma parse_tokens : forall closed ps, tparse false (tokens closed ps) = Ok (parts ps).
Proof.
  intros closed. induction ps as [|[t|e] ps IH]; [reflexivity| |].
  - cbn [tokens tparse]. rewrite IH. reflexivity.
  - destruct ps as [|p ps].
    + destruct closed, e; reflexivity.
    + change (tokens closed (Exp e :: p :: ps)) with (TkOpen :: flush e (TkClose :: tokens closed (p :: ps))). destruct e as [|x e]; cbn [flush tparse]; rewrite IH; reflexivity.
Qed.

(** *** Every template that is accepted is well written *)
Definition clear (acc s : chars) : Prop := plain acc /\ apart acc s.
Lemma ends_snoc : forall c a x, ends_in c (a ++ [x]) <-> x = c.
Proof. intros c a x. split; [intros (b & E); now apply app_inj_tail in E as [_ ->]|intros ->; now exists a]. Qed.
Lemma plain_snoc : forall a x, plain a -> ~ (ends_in "{" a /\ x = "{") -> ~ (ends_in "}" a /\ x = "}") -> plain (a ++ [x]).
Proof.
  assert (H : forall c a x, ~ pair_in c a -> ~ (ends_in c a /\ x = c) -> ~ pair_in c (a ++ [x])).
  { intros c a x N E (u & v & Q). destruct (exists_last (l := c :: c :: v)) as (l & y & L); [discriminate|]. rewrite L, app_assoc in Q. apply app_inj_tail in Q as [-> ->].
    destruct l as [|z l]; [destruct v; discriminate|]. injection L as <- L. destruct l as [|z2 l].
    - cbn in L. injection L as -> _. apply E. split; [now exists u|reflexivity].
    - injection L as <- _. apply N. exists u, l. now rewrite <- ?app_assoc. }
  intros a x [P1 P2] E1 E2. split; apply H; auto.
Qed.
Lemma clear_snoc : forall acc c s, clear acc (c :: s) -> (c = "{" -> ~ starts "{" s) -> (c = "}" -> ~ starts "}" s) -> clear (acc ++ [c]) s.
Proof.
  intros acc c s [P [A1 A2]] H1 H2. split.
  - apply plain_snoc; [exact P|intros [E ->]; apply A1; split; [exact E|now exists s]|intros [E ->]; apply A2; split; [exact E|now exists s]].
  - split; intros [E S0]; apply ends_snoc in E; [now apply (H1 E)|now apply (H2 E)].
Qed.
Lemma clear_nil : forall s, clear [] s.
Proof. intros s. split; [apply plain_nil|]. split; intros [(a & E) _]; destruct a; discriminate. Qed.
(** One step of the lexer: the end, a pair, or a character of text. *)
Lemma lex_step : forall acc s, clear acc s ->
  (s = [] /\ tlex acc s = flush acc []) \/
  (exists r, s = opens ++ r /\ tlex acc s = flush acc (TkOpen :: tlex [] r) /\ ~ ends_in "{" acc) \/
  (exists r, s = closes ++ r /\ tlex acc s = flush acc (TkClose :: tlex [] r) /\ ~ ends_in "}" acc) \/
  (exists c r, s = c :: r /\ tlex acc s = tlex (acc ++ [c]) r /\ clear (acc ++ [c]) r).
Proof.
  intros acc [|c s] C; [now left|]. right. cbn [tlex]. destruct (Ascii.eqb_spec c "{") as [->|N1].
  - destruct s as [|d s].
    + right. right. exists "{", []. split; [reflexivity|]. split; [reflexivity|]. apply clear_snoc; [exact C|intros _ (r & E); discriminate|discriminate].
    + destruct (Ascii.eqb_spec d "{") as [->|Nd].
      * left. exists s. split; [reflexivity|]. split; [reflexivity|]. intros E. destruct C as [_ [A1 _]]. apply A1. split; [exact E|]. now exists ("{" :: s).
      * right. right. exists "{", (d :: s). split; [reflexivity|]. split; [reflexivity|]. apply clear_snoc; [exact C|intros _ (r & E); congruence|discriminate].
  - destruct (Ascii.eqb_spec c "}") as [->|N2].
    + destruct s as [|d s].
      * right. right. exists "}", []. split; [reflexivity|]. split; [reflexivity|]. apply clear_snoc; [exact C|discriminate|intros _ (r & E); discriminate].
      * destruct (Ascii.eqb_spec d "}") as [->|Nd].
        -- right. left. exists s. split; [reflexivity|]. split; [reflexivity|]. intros E. destruct C as [_ [_ A2]]. apply A2. split; [exact E|]. now exists ("}" :: s).
        -- right. right. exists "}", (d :: s). split; [reflexivity|]. split; [reflexivity|]. apply clear_snoc; [exact C|discriminate|intros _ (r & E); congruence].
    + right. right. exists c, s. split; [reflexivity|]. split; [reflexivity|]. apply clear_snoc; [exact C|intros ->; now elim N1|intros ->; now elim N2].
Qed.
Lemma parse_flush : forall inside acc l ns, tparse inside (flush acc l) = Ok ns ->
  exists ns2, tparse inside l = Ok ns2 /\ ns = match acc with [] => ns2 | _ => (if inside then NExpr acc else NText acc) :: ns2 end.
Proof.
  intros inside [|x acc] l ns E; [exists ns; auto|]. cbn [flush tparse] in E. destruct (tparse inside l) as [ns2|]; [|discriminate]. cbn in E. injection E as <-. eauto.
Qed.
Definition starts_txt (ps : list piece) : Prop := match ps with Txt _ :: _ => True | _ => False end.
Lemma parse_shape : forall n s acc ns, length s <= n -> clear acc s ->
  (tparse false (tlex acc s) = Ok ns -> exists closed ps, acc ++ s = written closed ps /\ well_written closed ps /\ ns = parts ps) /\
  (tparse true (tlex acc s) = Ok ns -> exists e ps closed, plain e /\ (acc = [] \/ exists q, e = acc ++ q) /\ ((closed = true \/ ps <> []) -> ~ ends_in "}" e) /\ well_written closed ps /\
     acc ++ s = e ++ (match ps with [] => if closed then closes else [] | _ => closes ++ written closed ps end) /\ ns = parts (Exp e :: ps)).
Proof.
  induction n as [|n IH]; intros s acc ns L C.
  - destruct s; [|cbn in L; lia]. rewrite app_nil_r. split; intros E.
    + change (tlex acc []) with (flush acc []) in E. apply parse_flush in E as (ns2 & E2 & ->). injection E2 as <-. exists true. destruct acc as [|x acc]; [exists []; repeat split; exact I|]. exists [Txt (x :: acc)]. cbn. rewrite app_nil_r. repeat split; try discriminate; apply C.
    + change (tlex acc []) with (flush acc []) in E. apply parse_flush in E as (ns2 & E2 & ->). injection E2 as <-. exists acc, [], false. split; [apply C|]. split; [right; exists []; now rewrite app_nil_r|]. split; [intros [H|H]; [discriminate|now elim H]|]. split; [exact I|]. rewrite app_nil_r. split; [reflexivity|]. destruct acc; reflexivity.
  - destruct (lex_step acc s C) as [(-> & Q)|[(r & -> & Q & Ne)|[(r & -> & Q & Ne)|(c & r & -> & Q & C2)]]]; rewrite Q.
    + destruct (IH [] acc ns (Nat.le_0_l _) C) as [A B]. rewrite <- Q. split; assumption.
    + split; intros E; apply parse_flush in E as (ns2 & E2 & ->); cbn [tparse] in E2; [|discriminate].
      destruct (IH r [] ns2) as [_ B]; [cbn in L; lia|apply clear_nil|]. destruct (B E2) as (e & ps & closed & Pe & _ & Fe & W & Eq & ->). cbn [app] in Eq.
      assert (Wr : opens ++ r = written closed (Exp e :: ps)) by (rewrite Eq; destruct ps; reflexivity).
      assert (We : well_written closed (Exp e :: ps)) by (destruct ps; [split; [exact Pe|auto]|split; [exact Pe|split; [apply Fe; right; discriminate|exact W]]]).
      exists closed. destruct acc as [|x acc].
      * exists (Exp e :: ps). split; [exact Wr|]. split; [exact We|reflexivity].
      * exists (Txt (x :: acc) :: Exp e :: ps). split; [cbn [written app]; now rewrite Wr|]. split; [|reflexivity]. split; [discriminate|]. split; [apply C|]. split; [exact Ne|exact We].
    + split; intros E; apply parse_flush in E as (ns2 & E2 & ->); cbn [tparse] in E2; [discriminate|].
      destruct (IH r [] ns2) as [A _]; [cbn in L; lia|apply clear_nil|]. destruct (A E2) as (closed & ps & Eq & W & ->). cbn [app] in Eq.
      destruct ps as [|p ps].
      * exists acc, [], true. split; [apply C|]. split; [right; exists []; now rewrite app_nil_r|]. split; [auto|]. split; [exact I|]. split; [now rewrite Eq|]. now destruct acc.
      * exists acc, (p :: ps), closed. split; [apply C|]. split; [right; exists []; now rewrite app_nil_r|]. split; [auto|]. split; [exact W|]. split; [now rewrite <- Eq|]. now destruct acc.
    + destruct (IH r (acc ++ [c]) ns) as [A B]; [cbn in L; lia|exact C2|]. split; intros E.
      * destruct (A E) as (closed & ps & Eq & R). rewrite <- app_assoc in Eq. eauto.
      * destruct (B E) as (e & ps & closed & Pe & Pa & Fe & W & Eq & Ens). rewrite <- app_assoc in Eq. exists e, ps, closed. split; [exact Pe|]. split; [|auto].
        destruct Pa as [Pa|(q & ->)]; [destruct acc; discriminate|]. right. exists (c :: q). now rewrite <- app_assoc.
Qed.
Lemma accepted : forall s ns, tparse false (tlex [] s) = Ok ns <-> exists closed ps, s = written closed ps /\ well_written closed ps /\ ns = parts ps.
Proof.
  intros s ns. split.
  - intros E. destruct (parse_shape (length s) s [] ns (le_n _) (clear_nil s)) as [A _]. now apply A.
  - intros (closed & ps & -> & W & ->). rewrite lex_written by exact W. apply parse_tokens.
Qed.

(** *** Spaces *)
Lemma drop_spaces_app : forall a l, forallb is_space a = true -> drop_space (a ++ l) = drop_space l.
Proof. induction a as [|x a IH]; intros l H; [reflexivity|]. cbn [forallb] in H. cbn [app drop_space]. apply andb_prop in H as [-> H]. auto. Qed.
Lemma drop_split : forall l, exists a, l = a ++ drop_space l /\ forallb is_space a = true.
Proof. induction l as [|x l (a & E & H)]; [now exists []|]. cbn [drop_space]. destruct (is_space x) eqn:Q; [exists (x :: a); cbn [app forallb]; rewrite Q, <- E; auto|now exists []]. Qed.
Lemma drop_head : forall l c r, drop_space l = c :: r -> is_space c = false.
Proof. induction l as [|x l IH]; intros c r E; [discriminate|]. cbn [drop_space] in E. destruct (is_space x) eqn:Q; [eauto|congruence]. Qed.
Lemma forallb_rev_space : forall l, forallb is_space (rev l) = forallb is_space l.
Proof. induction l as [|x l IH]; [reflexivity|]. cbn [rev forallb]. rewrite forallb_app, IH. cbn [forallb]. destruct (is_space x), (forallb is_space l); reflexivity. Qed.
Lemma trim_body : forall t body, body_of t body <-> trim t = body.
Proof.
  intros t body. unfold trim, trim_end. split.
  - intros (T & a & b & E & Ha & Hb). rewrite E, drop_spaces_app by exact Ha. destruct body as [|c r].
    + cbn [app]. assert (D : drop_space b = []) by (rewrite <- (app_nil_r b), drop_spaces_app by exact Hb; reflexivity). rewrite D. reflexivity.
    + cbn [app drop_space]. rewrite (T c r) by (now left). change (c :: r ++ b) with ((c :: r) ++ b). rewrite rev_app_distr, drop_spaces_app by (now rewrite forallb_rev_space).
      destruct (exists_last (l := c :: r)) as (l & x & L); [discriminate|]. rewrite L, rev_app_distr. change (rev [x] ++ rev l) with (x :: rev l). assert (Sx : is_space x = false) by (apply (T x l); now right). cbn [drop_space]. rewrite Sx. cbn [rev]. now rewrite rev_involutive.
  - intros <-. destruct (drop_split (list_ascii_of_string t)) as (a & E & Ha). set (l := drop_space (list_ascii_of_string t)) in *. destruct (drop_split (rev l)) as (b & E2 & Hb).
    assert (L : l = rev (drop_space (rev l)) ++ rev b) by (now rewrite <- rev_app_distr, <- E2, rev_involutive). split.
    + intros c r [Q|Q].
      * rewrite Q in L. cbn in L. unfold l in L. eapply drop_head; exact L.
      * apply (f_equal (@rev ascii)) in Q. rewrite rev_involutive, rev_app_distr in Q. eapply drop_head; exact Q.
    + exists a, (rev b). rewrite <- L, forallb_rev_space. auto.
Qed.
Lemma body_exists : forall t, exists body, body_of t body.
Proof. intros t. exists (trim t). now apply trim_body. Qed.

(** *** Reading values *)
Lemma reify_depth : forall t h v n, repr h v t -> depth t <= n -> reify n h v = Some t.
Proof.
  intros t. induction t using tree_ind'; intros h v n R L; inversion R; subst; cbn [depth] in L; (destruct n as [|n]; [lia|]); try reflexivity.
  - cbn [reify]. match goal with E : hget h _ = Some (CArr _) |- _ => unfold harr; rewrite E end.
    match goal with |- option_map TArr (?f _) = _ => set (go := f) end.
    match goal with F : Forall2 (repr h) ?vs a |- _ => assert (G : go vs = Some a); [|now rewrite G]; revert F end.
    intros FF. apply le_S_n in L. clear -H FF L. induction FF as [|x y vs ts Rx F IHF]; [reflexivity|]. inversion H as [|? ? Hy Ha]; subst. cbn [fold_right] in L. cbn. rewrite (Hy h x n Rx) by lia. fold go. rewrite IHF by (assumption || lia). reflexivity.
  - cbn [reify]. match goal with E : hget h _ = Some (CObj _) |- _ => unfold hobj; rewrite E end.
    match goal with |- option_map TObj (?f _) = _ => set (go := f) end.
    match goal with F : Forall2 _ ?vs m |- _ => assert (G : go vs = Some m); [|now rewrite G]; revert F end.
    intros FF. apply le_S_n in L. clear -H FF L. induction FF as [|[k x] [k2 y] vs ts Rx F IHF]; [reflexivity|]. inversion H as [|? ? Hy Ha]; subst. cbn [fold_right snd] in L. cbn in Hy, Rx. destruct Rx as [Ek Rx]. cbn in Ek. subst k2. cbn. cbn in Rx. rewrite (Hy h x n Rx) by lia. fold go. rewrite IHF by (assumption || lia). reflexivity.
Qed.

Lemma sep_concat : forall l, sep l = String.concat "," l.
Proof. induction l as [|x [|y l] IH]; [reflexivity|reflexivity|]. change (sep (x :: y :: l)) with (x ++ "," ++ sep (y :: l))%string. rewrite IH. reflexivity. Qed.
Lemma string_app_assoc : forall a b c : string, ((a ++ b) ++ c = a ++ (b ++ c))%string.
Proof. induction a as [|x a IH]; intros; cbn; [reflexivity|]. now rewrite IH. Qed.
Section Render.
  Variables (X : ext) (parse : ekind -> string -> res node) (sd : dyn -> string) (fuel : nat) (ctx : value).
  Notation tinterp := (tinterp X parse).
  Definition res_of (p : chars + value) : tres := match p with inl t => RText t | inr v => RVal v end.
  Lemma interp_values : forall ns h h1 vs, part_values X parse ctx ns h h1 vs -> tinterp ns (s_open ctx) h = (h1, Ok (map res_of vs)).
  Proof.
    intros ns h h1 vs P. induction P as [h|t ns h h1 vs P IH|e ns h h1 h2 v vs R P IH]; [reflexivity| |].
    - cbn [Template.tinterp]. rewrite IH. reflexivity.
    - cbn [Template.tinterp]. unfold s_std. change (ss_scope (s_open ctx)) with (scope_new ctx). rewrite R, IH. reflexivity.
  Qed.
  Lemma values_interp : forall ns h h1 rs, tinterp ns (s_open ctx) h = (h1, Ok rs) -> exists vs, rs = map res_of vs /\ part_values X parse ctx ns h h1 vs.
  Proof.
    induction ns as [|[t|e] ns IH]; intros h h1 rs E; cbn [Template.tinterp] in E.
    - injection E as <- <-. exists []. split; [reflexivity|constructor].
    - destruct (tinterp ns (s_open ctx) h) as [h2 [rs2|e2]] eqn:Q; [|discriminate]. cbn in E. injection E as <- <-. destruct (IH _ _ _ Q) as (vs & -> & P). exists (inl t :: vs). split; [reflexivity|now constructor].
    - unfold s_std in E. change (ss_scope (s_open ctx)) with (scope_new ctx) in E. destruct (srun X parse KStandard (string_of_list_ascii e) (scope_new ctx) h) as [h2 [v|e2]] eqn:R; [|discriminate].
      destruct (tinterp ns (s_open ctx) h2) as [h3 [rs2|e3]] eqn:Q; [|discriminate]. cbn in E. injection E as <- <-. destruct (IH _ _ _ Q) as (vs & -> & P). exists (inr v :: vs). split; [reflexivity|econstructor; eauto].
  Qed.
  (** An error comes from the first expression that fails. *)
  Lemma interp_error : forall ns h h1 e, tinterp ns (s_open ctx) h = (h1, Err e) -> exists before src after h2 vs, ns = before ++ NExpr src :: after /\
    part_values X parse ctx before h h2 vs /\ srun X parse KStandard (string_of_list_ascii src) (scope_new ctx) h2 = (h1, Err e).
  Proof.
    induction ns as [|[t|src] ns IH]; intros h h1 e E; cbn [Template.tinterp] in E; [discriminate| |].
    - destruct (tinterp ns (s_open ctx) h) as [h2 [rs2|e2]] eqn:Q; cbn in E; [discriminate|]. injection E as <- <-. destruct (IH _ _ _ Q) as (b & s & a & h3 & vs & -> & P & R). exists (NText t :: b), s, a, h3, (inl t :: vs). split; [reflexivity|]. split; [now constructor|exact R].
    - unfold s_std in E. change (ss_scope (s_open ctx)) with (scope_new ctx) in E. destruct (srun X parse KStandard (string_of_list_ascii src) (scope_new ctx) h) as [h2 [v|e2]] eqn:R.
      + destruct (tinterp ns (s_open ctx) h2) as [h3 [rs2|e3]] eqn:Q; cbn in E; [discriminate|]. injection E as <- <-. destruct (IH _ _ _ Q) as (b & s & a & h4 & vs & -> & P & R2). exists (NExpr src :: b), s, a, h4, (inr v :: vs). split; [reflexivity|]. split; [econstructor; eauto|exact R2].
      + injection E as <- <-. exists [], src, ns, h, []. split; [reflexivity|]. split; [constructor|exact R].
  Qed.
  Lemma error_interp : forall before src after h h1 h2 e vs, part_values X parse ctx before h h2 vs -> srun X parse KStandard (string_of_list_ascii src) (scope_new ctx) h2 = (h1, Err e) ->
    tinterp (before ++ NExpr src :: after) (s_open ctx) h = (h1, Err e).
  Proof.
    intros before src after h h1 h2 e vs P R. induction P as [h|t ns h h3 vs P IH|x ns h h3 h4 v vs R2 P IH]; cbn [app Template.tinterp].
    - unfold s_std. change (ss_scope (s_open ctx)) with (scope_new ctx). now rewrite R.
    - now rewrite (IH R).
    - unfold s_std at 1. change (ss_scope (s_open ctx)) with (scope_new ctx). rewrite R2, (IH R). reflexivity.
  Qed.
  Lemma text_shown : forall t s, value_text sd t s -> show_tree sd t = s.
  Proof.
    induction t using tree_ind'; intros s0 V; inversion V; subst; try reflexivity.
    - cbn [show_tree]. f_equal. f_equal. match goal with F : Forall2 _ a ?l |- _ => rename F into Fa; rename l into ss end. clear V. rewrite <- sep_concat. f_equal.
      induction Fa as [|x y xs ys E F IH]; [reflexivity|]. inversion H; subst. cbn [map]. f_equal; auto.
    - cbn [show_tree]. f_equal. f_equal. match goal with F : Forall2 _ m ?l |- _ => rename F into Fa; rename l into ss end. clear V. rewrite <- sep_concat. f_equal.
      induction Fa as [|x y xs ys (z & E & ->) F IH]; [reflexivity|]. inversion H; subst. cbn [map]. f_equal; auto. unfold quoted. rewrite (H2 _ E). cbn. f_equal. now rewrite string_app_assoc.
  Qed.
  Lemma join_shows : forall h vs ss, Forall2 (shows sd h) vs ss -> (forall v t, In (inr v) vs -> repr h v t -> depth t <= fuel) -> join_all sd fuel h (map res_of vs) = Some (String.concat "" ss).
  Proof.
    intros h vs ss F D. assert (Cc : forall a l, String.concat "" (a :: l) = (a ++ String.concat "" l)%string).
    { intros a [|b l]; cbn; [|reflexivity]. induction a as [|x a IHa]; cbn; congruence. }
    induction F as [|p s vs ss P F IH]; [reflexivity|]. cbn [map join_all]. rewrite IH by (intros v t I; apply D; now right). rewrite Cc. destruct p as [t|v]; cbn in P |- *; [now rewrite P|]. destruct P as (t & R & P). rewrite (reify_depth t h v fuel R); [assert (Et : bare_text sd t = s) by (destruct P as [(x & -> & ->)|(N & V)]; [reflexivity|]; apply text_shown in V; destruct t; try exact V; elim (N s0); reflexivity); cbn [option_map]; now rewrite Et|]. apply (D v t); [now left|exact R].
  Qed.
End Render.
Lemma parse_errors : forall l inside e, tparse inside l = Err e -> e = EOp "Open bracket" \/ e = EOp "Close bracket".
Proof.
  induction l as [|[s| |] l IH]; intros inside e E; cbn [tparse] in E; [discriminate| | |].
  - destruct (tparse inside l) eqn:Q; [discriminate|]. cbn in E. injection E as <-. eauto.
  - destruct inside; [injection E as <-; auto|eauto].
  - destruct inside; [eauto|injection E as <-; auto].
Qed.
