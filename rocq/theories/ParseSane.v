(** What the parser can build: closures stand only where they are called, and nothing is called [$root]. *)
From Coq Require Import String Ascii ZArith Lia Bool List Arith.
From Verif Require Import Base Dec Value Ast Lexer Parser ParserFacts DepsSpec RenameSpec TextSpec.
Import ListNotations.
Local Open Scope string_scope.
Local Open Scope nat_scope.
Local Open Scope list_scope.

(** As [sane], and functions that take a closure have just the collection and the closure. *)
Fixpoint built (n : node) : bool :=
  match n with
  | NIdent x => negb (String.eqb x "$root")
  | NClosure _ _ => false
  | NCall (FClosure _) l =>
      match l with
      | [a0; NClosure body alias] => built a0 && (built body && match alias with Some a => negb (String.eqb a "$root") | None => true end)
      | _ => false
      end
  | NTemplate l | NArray l | NCall _ l => forallb built l
  | NObject l => forallb (fun kv => built (fst kv) && built (snd kv)) l
  | NAssign l o => forallb (fun kv => built (fst kv) && built (snd kv)) l && match o with Some x => built x | None => true end
  | NParen x | NUnary x _ => built x
  | NMember a b | NInterval a b _ _ | NBinary a _ b => built a && built b
  | NSlice a f t => built a && match f with Some x => built x | None => true end && match t with Some x => built x | None => true end
  | NCond a b c => built a && built b && built c
  | NMethod _ x l => built x && forallb built l
  | NError _ => false
  | _ => true
  end.

Definition J (n : node) : Prop := has_error n = true \/ built n = true.
Definition JL (l : list node) : Prop := existsb has_error l = true \/ forallb built l = true.
Definition pair_error (kv : node * node) : bool := has_error (fst kv) || has_error (snd kv).
Definition pair_built (kv : node * node) : bool := built (fst kv) && built (snd kv).
Definition JP (l : list (node * node)) : Prop := existsb pair_error l = true \/ forallb pair_built l = true.

Lemma any_eq : forall l, (fix go l := match l with [] => false | x :: r => has_error x || go r end) l = existsb has_error l.
Proof. induction l as [|x r IH]; [reflexivity|]. cbn [existsb]. now rewrite IH. Qed.
Lemma anyp_eq : forall l, (fix go (l : list (node * node)) := match l with [] => false | x :: r => has_error (fst x) || has_error (snd x) || go r end) l = existsb pair_error l.
Proof. induction l as [|x r IH]; [reflexivity|]. cbn [existsb]. unfold pair_error at 1. now rewrite IH. Qed.

Lemma J_error : forall o, J (NError o). Proof. left. reflexivity. Qed.
Lemma JL_nil : JL []. Proof. right. reflexivity. Qed.
Lemma JL_app : forall a b, JL a -> JL b -> JL (a ++ b).
Proof.
  intros a b [A|A] [B|B]; unfold JL; rewrite existsb_app, forallb_app.
  - left. now rewrite A.
  - left. now rewrite A.
  - left. rewrite B. apply orb_true_r.
  - right. now rewrite A, B.
Qed.
Lemma JL_one : forall n, J n -> JL [n].
Proof. intros n [H|H]; [left|right]; cbn; rewrite H; reflexivity. Qed.
Lemma JL_err : forall l, existsb has_error l = true -> forall r, JL (l ++ r) /\ JL (r ++ l).
Proof. intros l H r. split; left; rewrite existsb_app, H; [reflexivity|apply orb_true_r]. Qed.
Lemma JP_nil : JP []. Proof. right. reflexivity. Qed.
Lemma JP_app : forall a b, JP a -> JP b -> JP (a ++ b).
Proof.
  intros a b [A|A] [B|B]; unfold JP; rewrite existsb_app, forallb_app.
  - left. now rewrite A.
  - left. now rewrite A.
  - left. rewrite B. apply orb_true_r.
  - right. now rewrite A, B.
Qed.
Lemma JP_one : forall k v, J k -> J v -> JP [(k, v)].
Proof.
  intros k v K V. unfold JP, pair_error, pair_built. cbn [existsb forallb fst snd]. rewrite orb_false_r, andb_true_r.
  destruct K as [->| ->]; [now left|]. destruct V as [->| ->]; [left; apply orb_true_r|now right].
Qed.
Lemma J_template : forall l, JL l -> J (NTemplate l).
Proof. intros l [H|H]; [left|right]; cbn [has_error built]; [now rewrite any_eq|exact H]. Qed.
Lemma J_array : forall l, JL l -> J (NArray l).
Proof. intros l [H|H]; [left|right]; cbn [has_error built]; [now rewrite any_eq|exact H]. Qed.
Lemma J_object : forall l, JP l -> J (NObject l).
Proof. intros l [H|H]; [left|right]; cbn [has_error built]; [now rewrite anyp_eq|exact H]. Qed.
Definition JO (o : option node) : Prop := match o with Some n => J n | None => True end.
Lemma J_assign : forall l o, JP l -> JO o -> J (NAssign l o).
Proof.
  intros l o L H. unfold J. cbn [has_error built]. rewrite anyp_eq. change (forallb (fun kv => built (fst kv) && built (snd kv)) l) with (forallb pair_built l).
  destruct L as [->| ->]; [now left|]. destruct o as [n|]; [|now right]. destruct H as [->| ->]; [left; apply orb_true_r|now right].
Qed.
Lemma J_method : forall k n l, J n -> JL l -> J (NMethod k n l).
Proof.
  intros k n l N L. unfold J. cbn [has_error built]. rewrite any_eq. destruct N as [->| ->]; [now left|].
  destruct L as [->| ->]; [left; apply orb_true_r|now right].
Qed.
Ltac j2 := intros; repeat match goal with H : J _ |- _ => destruct H as [H|H] | H : JO ?o |- _ => destruct o; cbn [JO] in H; [|clear H] end;
  unfold J; cbn [has_error built]; repeat match goal with H : _ = true |- _ => rewrite H end; rewrite ?orb_true_r; auto.
Lemma J_member : forall a b, J a -> J b -> J (NMember a b). Proof. j2. Qed.
Lemma J_interval : forall a b x y, J a -> J b -> J (NInterval a b x y). Proof. j2. Qed.
Lemma J_binary : forall a o b, J a -> J b -> J (NBinary a o b). Proof. j2. Qed.
Lemma J_unary : forall a o, J a -> J (NUnary a o). Proof. j2. Qed.
Lemma J_paren : forall a, J a -> J (NParen a). Proof. j2. Qed.
Lemma J_cond : forall a b c, J a -> J b -> J c -> J (NCond a b c). Proof. j2. Qed.
Lemma J_slice : forall a f t, J a -> JO f -> JO t -> J (NSlice a f t). Proof. j2. Qed.
Lemma J_string : forall s, J (NString s). Proof. right. reflexivity. Qed.
Lemma J_key : forall n, J (transform_key n).
Proof. intros n. unfold transform_key. destruct (member_key n); [apply J_string|apply J_error]. Qed.
(** The arguments a function is called with. *)
Definition JA (f : fkind) (l : list node) : Prop :=
  existsb has_error l = true \/
  match f with
  | FClosure _ => exists a b al, l = [a; NClosure b al] /\ built a = true /\ built b = true /\ al <> Some "$root"
  | _ => forallb built l = true
  end.
Lemma J_call : forall f l, JA f l -> J (NCall f l).
Proof.
  intros f l [H|H]; unfold J; cbn [has_error built]; rewrite any_eq; [now left|]. right. destruct f; try exact H.
  destruct H as (a & b & al & -> & A & B & N). rewrite A, B. destruct al as [x|]; [|reflexivity].
  cbn [andb]. apply negb_true_iff, String.eqb_neq. intros ->. now apply N.
Qed.

(** No word among the tokens is [$root]: the lexer makes an identifier of it, unless it is quoted. *)
Definition cl (ts : list ptok) : Prop := forall k, In (k, "$root") ts -> match k with KLiteral => False | KIdent i => i = IRoot | _ => True end.
Lemma cl_cons : forall t ts, cl (t :: ts) -> cl ts.
Proof. intros t ts H k B. apply H. now right. Qed.
Lemma cl_tl : forall ts, cl ts -> cl (tl ts).
Proof. intros [|t ts] H; [exact H|]. exact (cl_cons t ts H). Qed.
Lemma cl_nil : cl []. Proof. intros k []. Qed.
Lemma cl_literal : forall s ts, cl ((KLiteral, s) :: ts) -> s <> "$root".
Proof. intros s ts H ->. exact (H KLiteral (or_introl eq_refl)). Qed.

Definition good {A} (P : A -> Prop) (r : option (A * list ptok)) : Prop := forall x rest, r = Some (x, rest) -> P x /\ cl rest.
Lemma good_none : forall A (P : A -> Prop), good P None. Proof. intros A P x rest H. discriminate H. Qed.
Lemma good_some : forall A (P : A -> Prop) x rest, P x -> cl rest -> good P (Some (x, rest)).
Proof. intros A P x rest H C y rest' E. injection E as <- <-. now split. Qed.
Lemma good_bind : forall A B (P : A -> Prop) (Q : B -> Prop) a f, good P a -> (forall x rest, P x -> cl rest -> good Q (f (x, rest))) -> good Q (obind a f).
Proof. intros A B P Q [[x rest]|] f H F; [|apply good_none]. destruct (H x rest eq_refl) as [K C]. now apply F. Qed.
Lemma good_mono : forall A (P Q : A -> Prop) a, good P a -> (forall x, P x -> Q x) -> good Q a.
Proof. intros A P Q a H M x rest E. destruct (H x rest E). split; auto. Qed.

Create HintDb js.
#[export] Hint Resolve J_error JL_nil JL_app JL_one JP_nil JP_app JP_one J_template J_array J_object J_assign J_method J_member J_interval J_binary
  J_unary J_paren J_cond J_slice J_string J_key J_call cl_nil : js.
#[export] Hint Extern 2 (cl (tl _)) => apply cl_tl : js.
#[export] Hint Extern 3 (cl ?r) => match goal with H : cl (_ :: r) |- _ => exact (cl_cons _ _ H) end : js.
#[export] Hint Extern 1 (JO _) => cbn [JO] : js.
#[export] Hint Extern 1 (J NNull) => (right; reflexivity) : js.
#[export] Hint Extern 1 (J NPointer) => (right; reflexivity) : js.
#[export] Hint Extern 1 (J NRoot) => (right; reflexivity) : js.
#[export] Hint Extern 1 (J (NBool _)) => (right; reflexivity) : js.
#[export] Hint Extern 1 (J (NNumber _)) => (right; reflexivity) : js.
#[export] Hint Extern 1 (J reference) => (right; reflexivity) : js.
Ltac js := auto 8 with js.
Ltac gs_step :=
  match goal with
  | |- good _ None => apply good_none
  | |- good _ (Some (_, _)) => apply good_some; cbn [fst]; solve [js]
  | |- good _ (match tl ?x with _ => _ end) => let K := fresh in assert (K : cl (tl x)) by js; destruct (tl x)
  | |- good _ (if ?b then _ else _) => destruct b eqn:?
  | |- good _ (let '(_, _) := ?x in _) => destruct x eqn:?
  | |- good _ (match ?x with _ => _ end) => destruct x eqn:?; try subst
  end.

Section Build.
  Variable pn : string -> option dec.
  Variable hr : bool.
  Variable E : nat -> pctx -> list ptok -> presult.
  Hypothesis HE : forall d c ts, cl ts -> good J (E d c ts).

  Lemma g_G : forall d ts, cl ts -> good J (G E d ts). Proof. intros. now apply HE. Qed.
  Ltac useG := eapply good_bind; [apply g_G; js|cbn beta; intros ? ? ? ?].
  Ltac gs := repeat (first [useG | gs_step]).

  Lemma g_string : forall q ts, cl ts -> J (fst (p_string q ts)) /\ cl (snd (p_string q ts)).
  Proof.
    intros q ts C. unfold p_string. destruct ts as [|[k v] r]; [cbn [fst snd]; split; js|]. destruct (tkind_eq_dec k (KQuote q)); [|cbn [fst snd]; split; js].
    assert (K : cl r) by js. destruct r as [|[[] s] r1]; try destruct (head_is (KQuote q) _); cbn [fst snd]; split; js.
  Qed.
  Lemma g_template : forall d lf acc ts, JL acc -> cl ts -> good J (p_template E d lf acc ts).
  Proof.
    intros d. induction lf as [|k IH]; intros acc ts A C; cbn [p_template]; [apply good_none|].
    destruct ts as [|[kd v] r]; [gs|]. assert (K : cl r) by js. destruct kd as [| | |[]| | | | |]; gs; try solve [apply IH; js].
    apply IH; [|js]. apply JL_app; [js|]. apply (JL_app [_] [_]); js.
  Qed.
  Lemma g_args : forall d lf acc ts, JL acc -> cl ts -> good JL (p_args E d lf acc ts).
  Proof. intros d. induction lf as [|k IH]; intros acc ts A C; cbn [p_args]; gs. apply IH; js. Qed.
  Lemma g_call_args : forall d ts, cl ts -> good JL (p_call_args E d ts).
  Proof. intros d ts C. unfold p_call_args. eapply good_bind; [apply g_args; js|]. intros l r L K. cbn beta iota. gs. Qed.

  (** Whatever is known of the operand is known of the access ([W]: nothing need be known). *)
  Lemma g_computed : forall (W : Prop) d n ts, (W -> J n) -> cl ts -> good (fun x => W -> J x) (p_computed E d n ts).
  Proof.
    intros W d n ts N C. unfold p_computed. cbv zeta. assert (K : cl (tl ts)) by js. destruct (tl ts) as [|t r] eqn:X; [gs|].
    gs; try (eapply (good_bind _ _ JO); [gs|cbn beta iota; intros o r3 O1 C3]; gs).
  Qed.
  Lemma g_method : forall (W : Prop) d pf n name ts, (forall m us, (W -> J m) -> cl us -> good (fun x => W -> J (fst x)) (pf m us)) -> (W -> J n) -> cl ts ->
    good (fun x => W -> J x) (p_method E d pf n name ts).
  Proof.
    intros W d pf n name ts F N C. unfold p_method. destruct (method_kind name); [|gs].
    eapply good_bind; [apply g_call_args; js|]. intros l r L K. cbn beta iota. eapply good_bind; [apply F; js|]. intros [x c] r2 X C2. cbn beta iota.
    apply good_some; js.
  Qed.
  Lemma g_member : forall (W : Prop) d pf n ts, (forall m us, (W -> J m) -> cl us -> good (fun x => W -> J (fst x)) (pf m us)) -> (W -> J n) -> cl ts ->
    good (fun x => W -> J x) (p_member E d pf n ts).
  Proof.
    intros W d pf n ts F N C. unfold p_member. assert (K : cl (tl ts)) by js. destruct (tl ts) as [|[k v] r] eqn:X; [gs|].
    gs. apply g_method; js.
  Qed.
  Lemma g_ppostfix : forall (W : Prop) d lf n ts, (W -> J n) -> cl ts -> good (fun x => W -> J (fst x)) (p_postfix E d lf n ts).
  Proof.
    intros W d. induction lf as [|k IH]; intros n ts N C; cbn [p_postfix]; [apply good_none|].
    assert (S1 : forall (f : comb -> comb) m us, (W -> J m) -> cl us -> good (fun x : node * comb => W -> J (fst x)) (obind (p_postfix E d k m us) (fun '(n2, c, ts2) => Some (n2, f c, ts2)))).
    { intros f m us M U. eapply good_bind; [apply IH; eauto|]. intros [x c] r X K. cbn beta iota. apply good_some; [exact X|exact K]. }
    destruct ts as [|[kd v] r]; [gs|]. destruct kd as [| | | | |[]|[]| |]; try (apply good_some; [exact N|exact C]).
    - eapply good_bind; [now apply (g_member W)|]. intros x r1 X K. cbn beta iota. now apply (S1 (fun c => comb_and c CbProperty)).
    - eapply good_bind; [now apply (g_computed W)|]. intros x r1 X K. cbn beta iota. now apply (S1 (fun c => comb_and c CbComputed)).
  Qed.
  Lemma g_postfix : forall d n ts, J n -> cl ts -> good J (postfix E d n ts).
  Proof.
    intros d n ts N C. unfold postfix. eapply good_bind; [apply (g_ppostfix True); auto|]. intros [x c] r X K. cbn beta iota. apply good_some; [now apply X|exact K].
  Qed.
  Lemma g_assign : forall d lf acc ts, JP acc -> cl ts -> good J (p_assign E d lf acc ts).
  Proof.
    intros d. induction lf as [|k IH]; intros acc ts A C; cbn [p_assign]; [apply good_none|]. destruct ts as [|t0 ts0]; [gs; cbn; auto|]. set (ts := t0 :: ts0) in *.
    destruct (head_is (KOp OpSemi) ts); [|gs]. assert (K : cl (tl ts)) by js. destruct (tl ts) as [|[kd v] ts2] eqn:X; [gs; cbn; auto|].
    eapply good_bind; [apply (g_ppostfix False); [intros []|js]|]. intros [kn c] ts3 _ C3. cbn beta iota.
    destruct (head_is (KOp OpAssign) ts3).
    - destruct c; gs; apply IH; js.
    - gs.
  Qed.
  Lemma g_assigned : forall d n ts, cl ts -> good J (p_assigned E d n ts).
  Proof. intros d n ts C. unfold p_assigned. gs. apply g_assign; js. Qed.
  Lemma g_closure_args : forall d ts cf, cl ts -> good (JA (FClosure cf)) (p_closure_args E d ts).
  Proof.
    intros d ts cf C. unfold p_closure_args. useG. match goal with H : J ?a, H1 : cl ?r |- _ => rename a into a0; rename r into ts1; rename H into Ja; rename H1 into C1 end.
    set (p := match ts1 with (KLiteral, w) :: r => _ | _ => _ end).
    assert (P : cl (snd p) /\ ((fst (fst p) = [] /\ snd (fst p) <> Some "$root") \/ existsb has_error (fst (fst p)) = true)).
    { subst p. destruct ts1 as [|[kd w] r]; [split; [js|left; split; [reflexivity|discriminate]]|].
      assert (Cr : cl r) by js. destruct kd; try (split; [exact C1|left; split; [reflexivity|discriminate]]).
      destruct (String.eqb w "as"); [|split; [exact C1|left; split; [reflexivity|discriminate]]].
      destruct r as [|[kd x] r1]; [split; [js|now right]|]. assert (Cr1 : cl r1) by js.
      destruct kd; try (split; [exact Cr|now right]). split; [exact Cr1|]. left. split; [reflexivity|]. cbn. intros B. injection B as ->. now apply (cl_literal _ _ Cr). }
    destruct p as [[extra alias] ts2]. cbn [fst snd] in P. destruct P as [C2 P].
    set (q := if head_is (KOp OpComma) ts2 then (extra, tl ts2) else (extra ++ [NError None], ts2)).
    assert (Q : cl (snd q) /\ ((fst q = [] /\ alias <> Some "$root") \/ existsb has_error (fst q) = true)).
    { subst q. destruct (head_is (KOp OpComma) ts2); cbn [fst snd]; (split; [js|]); [exact P|]. right. rewrite existsb_app. cbn. apply orb_true_r. }
    destruct q as [extra2 ts3]. cbn [fst snd] in Q. destruct Q as [C3 Q].
    eapply good_bind; [apply HE; exact C3|]. intros b ts4 Jb C4. cbn beta iota zeta.
    assert (A : JA (FClosure cf) (a0 :: extra2 ++ [NClosure b alias])).
    { destruct Q as [[-> Al]|Q].
      - destruct Ja as [Ja|Ja]; [left; cbn [existsb]; now rewrite Ja|]. destruct Jb as [Jb|Jb]; [left; cbn; rewrite Jb; cbn; apply orb_true_r|].
        right. exists a0, b, alias. now repeat split.
      - left. cbn [existsb]. rewrite existsb_app, Q. apply orb_true_r. }
    destruct (head_is (KBracket RParen) ts4); apply good_some; [exact A|js| |exact C4].
    left. rewrite existsb_app. cbn. apply orb_true_r.
  Qed.
  Lemma g_identifier : forall d k v r, (match k with KIdent _ | KLiteral => True | _ => False end) -> cl ((k, v) :: r) -> good J (p_identifier E d ((k, v) :: r)).
  Proof.
    intros d k v r Kd C. unfold p_identifier. assert (Cr : cl r) by js. destruct (head_is (KBracket LParen) r).
    - destruct (function_kind v) as [f|]; [|gs]. eapply (good_bind _ _ (JA f)).
      + destruct f; [| |now apply g_closure_args; js].
        * eapply good_mono; [apply g_call_args; js|]. intros l [H|H]; [now left|now right].
        * eapply good_mono; [apply g_call_args; js|]. intros l [H|H]; [now left|now right].
      + intros l ts1 A C1. cbn beta iota. apply g_postfix; js.
    - set (n := match k with KIdent IRoot => NRoot | _ => NIdent v end).
      assert (N : J n).
      { subst n. assert (X : k <> KIdent IRoot -> J (NIdent v)).
        { intros B. right. cbn. apply negb_true_iff, String.eqb_neq. intros ->. destruct k as [i| | | | | | | |]; try contradiction.
          - apply B. now rewrite (C (KIdent i) (or_introl eq_refl)).
          - now apply (cl_literal _ _ C). }
        destruct k as [[]| | | | | | | |]; try (apply X; discriminate). js. }
      eapply good_bind; [apply (g_ppostfix True); auto|]. intros [m c] ts1 M C1. cbn beta iota. cbn [fst] in M. specialize (M I).
      destruct (head_is (KOp OpAssign) ts1); [|gs]. destruct c; try (now apply g_assigned); gs.
  Qed.
  Lemma g_interval : forall d ts, cl ts -> good JO (p_interval hr E d ts).
  Proof.
    intros d ts C. unfold p_interval. destruct hr; [|now apply good_some]. destruct ts as [|[k v] r]; [now apply good_some|].
    assert (Cr : cl r) by js. destruct k; try (now apply good_some). useG. destruct (has_error _); [now apply good_some|].
    destruct (head_is (KOp OpRange) _); [|now apply good_some]. useG. destruct (has_error x0); [now apply good_some|].
    destruct rest0 as [|[k2 v2] ts3]; [now apply good_some; js|]. destruct k2; try (now apply good_some).
    eapply good_bind; [apply g_postfix; js|]. intros m ts4 M C4. cbn beta iota. now apply good_some.
  Qed.
  Lemma g_array : forall d lf acc ts, JL acc -> cl ts -> good J (p_array E d lf acc ts).
  Proof.
    intros d. induction lf as [|k IH]; intros acc ts A C; cbn [p_array]; [apply good_none|].
    destruct (head_is (KBracket RSquare) ts); [apply g_postfix; js|]. destruct acc as [|a0 acc0]; [useG; apply IH; js|]. set (acc := a0 :: acc0) in *.
    destruct (head_is (KOp OpComma) ts); [|gs]. destruct (head_is (KBracket RSquare) (tl ts)); [apply g_postfix; js|]. useG. apply IH; js.
  Qed.
  Lemma g_pair_some : forall (p : node * list ptok), J (fst p) /\ cl (snd p) -> good J (Some p).
  Proof. intros [n r] [A B]. now apply good_some. Qed.
  Lemma g_key : forall d ts, cl ts -> good J (p_key E d ts).
  Proof.
    intros d ts C. unfold p_key. destruct ts as [|[k v] r]; [gs|]. assert (K : cl r) by js.
    destruct k as [i|b| |[]| | |[]| |]; gs; apply g_pair_some, g_string; exact C.
  Qed.
  Lemma g_object : forall d lf acc ts, JP acc -> cl ts -> good J (p_object E d lf acc ts).
  Proof.
    intros d. induction lf as [|k IH]; intros acc ts A C; cbn [p_object]; [apply good_none|].
    eapply good_bind; [apply g_key; exact C|]. intros key ts1 Kj C1. cbn beta iota. destruct (head_is (KOp OpSlice) ts1); [|gs].
    useG. destruct rest as [|[kd v] r]; [gs|]. assert (Cr : cl r) by js. destruct kd as [| | | | |[]|[]| |]; gs. apply IH; js.
  Qed.
  Lemma g_conditional : forall d n ts, J n -> cl ts -> good J (p_conditional E d n ts).
  Proof. intros d n ts N C. unfold p_conditional. gs. Qed.
  Lemma g_literal : forall d ts, cl ts -> good J (p_literal pn hr E d ts).
  Proof.
    intros d ts C. unfold p_literal. destruct ts as [|[k v] r]; [gs|]. assert (K : cl r) by js.
    assert (I1 : good J (obind (p_interval hr E d ((k, v) :: r)) (fun '(o, ts1) => Some (match o with Some n => n | None => NError None end, ts1)))).
    { eapply good_bind; [apply g_interval; exact C|]. intros o ts1 O1 C1. cbn beta iota. apply good_some; [destruct o; js|exact C1]. }
    destruct k as [i|b| |[]| | |[]| |]; try exact I1; try (apply g_pair_some, g_string; exact C); try (gs; fail).
    - destruct i; try (gs; fail); apply g_identifier; auto.
    - destruct r as [|t r0]; [gs|]. apply g_template; js.
    - apply g_identifier; auto.
    - eapply good_bind; [apply g_interval; exact C|]. intros o ts1 O1 C1. cbn beta iota. destruct o as [n|]; [gs|].
      destruct (head_is (KBracket LSquare) ts1); [|gs]. apply g_array; js.
    - assert (Y : good J (p_object E d (S (length r)) [] r)) by (apply g_object; js).
      destruct r as [|[k2 v2] r1]; [exact Y|]. destruct k2 as [| | | | | |[]| |]; try exact Y. gs.
  Qed.
End Build.

Section Top.
  Variable pn : string -> option dec.
  Variable hr : bool.
  Variable fl : flavor.

  Lemma g_unary : forall R, (forall d p c ts, cl ts -> good J (R d p c ts)) -> forall d ts, cl ts -> good J (p_unary pn hr R d ts).
  Proof.
    intros R HR d ts C. unfold p_unary. cbv zeta. destruct ts as [|[k v] r]; [apply good_some; js|]. assert (K : cl r) by js.
    assert (HE : forall d0 c ts0, cl ts0 -> good J ((fun d1 c1 ts1 => R d1 0 c1 ts1) d0 c ts0)) by (intros; cbn beta; now apply HR).
    destruct ((0 <? d) && head_is (KIdent ICallback) ((k, v) :: r)); [apply (g_postfix _ HE); js|].
    assert (M : good J (obind (p_interval hr (fun d1 c1 ts1 => R d1 0 c1 ts1) d ((k, v) :: r)) (fun '(o, ts1) => match o with
              | Some n => Some (n, ts1)
              | None => if head_is (KBracket LParen) ((k, v) :: r) then obind (R d 0 CxGlobal (tl ts1)) (fun '(n, ts2) =>
                        if head_is (KBracket RParen) ts2 then postfix (fun d1 c1 ts1 => R d1 0 c1 ts1) d (NParen n) (tl ts2) else Some (NError None, ts2))
                        else p_literal pn hr (fun d1 c1 ts1 => R d1 0 c1 ts1) d ts1 end))).
    { eapply good_bind; [apply (g_interval hr _ HE); exact C|]. intros o ts1 O1 C1. cbn beta iota. destruct o as [n|]; [now apply good_some|].
      destruct (head_is (KBracket LParen) ((k, v) :: r)); [|now apply (g_literal pn hr _ HE)].
      eapply good_bind; [apply HR; js|]. intros n ts2 N C2. cbn beta iota. destruct (head_is (KBracket RParen) ts2); [|apply good_some; js].
      apply (g_postfix _ HE); js. }
    destruct k; try exact M. destruct (unary_op o) as [u|]; [|apply good_some; js].
    eapply good_bind; [apply HR; exact K|]. intros n ts1 N C1. cbn beta iota. apply good_some; js.
  Qed.
  Lemma g_loop : forall R, (forall q ts, cl ts -> good J (R q ts)) -> forall lf p c l ts, J l -> cl ts -> good J (p_loop fl R lf p c l ts).
  Proof.
    intros R HR. induction lf as [|k IH]; intros p c l ts L C; cbn [p_loop]; [apply good_none|].
    destruct ts as [|[kd v] r]; [now apply good_some|]. assert (K : cl r) by js. destruct kd; try (now apply good_some).
    destruct (joins fl c o); [now apply good_some|]. destruct (binary_op o) as [[q la]|]; [|now apply good_some]. destruct (q <? p); [now apply good_some|].
    eapply good_bind; [apply HR; exact K|]. intros x ts1 X C1. cbn beta iota. apply IH; js.
  Qed.
  Lemma g_expr : forall k d p c ts, cl ts -> good J (p_expr pn hr fl k d p c ts).
  Proof.
    induction k as [|k IH]; intros d p c ts C; cbn [p_expr]; [apply good_none|].
    eapply good_bind; [apply g_unary; [exact IH|exact C]|]. intros l ts1 L C1. cbn beta iota. destruct ts1 as [|t r]; [now apply good_some|].
    eapply good_bind; [apply g_loop; [intros q ts0 C0; now apply IH|exact L|exact C1]|]. intros l2 ts2 L2 C2. cbn beta iota.
    destruct (p =? 0); [|now apply good_some]. apply g_conditional; [intros; now apply IH|exact L2|exact C2].
  Qed.
  Lemma g_pair : forall fuel ts, cl ts -> good J (p_pair pn hr fl fuel ts).
  Proof.
    intros fuel ts C. unfold p_pair. eapply (good_bind _ _ J).
    - destruct (head_cmp ts); [apply good_some; [js|exact C]|now apply g_expr].
    - intros l ts1 L C1. cbn beta iota. destruct (head_cmp ts1).
      + eapply good_bind; [apply g_expr; js|]. intros r ts2 R1 C2. cbn beta iota. apply good_some; js.
      + apply good_some; [|exact C1]. destruct (behaviour l); [js|]. apply J_call. destruct L as [L|L]; [left|right]; cbn; rewrite L; reflexivity.
  Qed.
  Lemma g_root : forall fuel lf l ts, J l -> cl ts -> good J (p_root pn hr fl fuel lf l ts).
  Proof.
    intros fuel. induction lf as [|k IH]; intros l ts L C; cbn [p_root]; [apply good_none|]. destruct ts as [|[kd v] r]; [now apply good_some|].
    assert (K : cl r) by js. destruct (join_op kd); [|apply good_some; js]. eapply good_bind; [apply g_pair; exact K|]. intros x ts1 X C1. cbn beta iota. apply IH; js.
  Qed.
End Top.

Lemma parsed_built : forall pn fl ts n, cl ts -> parse_result (parse_tokens pn fl ts) = Some (Ok n) -> built n = true.
Proof.
  intros pn fl ts n C H. assert (Gd : good J (parse_tokens pn fl ts)).
  { destruct fl; cbn [parse_tokens]; [now apply g_expr|]. unfold p_unary_top. eapply good_bind; [now apply g_pair|].
    intros l ts1 L C1. cbn beta iota. now apply g_root. }
  destruct (parse_tokens pn fl ts) as [[m rest]|]; [|discriminate H]. cbn [parse_result option_map] in H. destruct rest; [|discriminate H].
  destruct (has_error m) eqn:He; [discriminate H|]. injection H as <-. destruct (Gd m [] eq_refl) as [[B|B] _]; [congruence|exact B].
Qed.

Lemma built_sane : forall n, built n = true -> sane n = true.
Proof.
  assert (Ls : forall l, Forall (fun x => built x = true -> sane x = true) l -> forallb built l = true -> forallb sane l = true).
  { intros l F H. rewrite forallb_forall in *. rewrite Forall_forall in F. auto. }
  assert (Lp : forall l, Forall (fun p => (built (fst p) = true -> sane (fst p) = true) /\ (built (snd p) = true -> sane (snd p) = true)) l ->
    forallb (fun kv => built (fst kv) && built (snd kv)) l = true -> forallb (fun kv => sane (fst kv) && sane (snd kv)) l = true).
  { intros l F H. rewrite forallb_forall in *. rewrite Forall_forall in F. intros x Hx. specialize (H x Hx). apply andb_prop in H as [A B].
    destruct (F x Hx) as [F1 F2]. now rewrite F1, F2. }
  intros n. enough (H : (built n = true -> sane n = true) /\ match n with NClosure b _ => built b = true -> sane b = true | _ => True end) by apply H.
  assert (Lw : forall l, Forall (fun n => (built n = true -> sane n = true) /\ match n with NClosure b _ => built b = true -> sane b = true | _ => True end) l ->
    Forall (fun x => built x = true -> sane x = true) l) by (intros l F; eapply Forall_impl; [|exact F]; intros x Hx; apply Hx).
  induction n using node_ind'; (split; [|first [exact I | now apply IHn]]); intros B; try exact B; cbn [built sane] in *;
    repeat match goal with H : _ && _ = true |- _ => apply andb_prop in H as [? ?] end;
    repeat match goal with H : (_ -> _) /\ _ |- _ => destruct H as [H _] end; try discriminate.
  all: try (apply Ls; [now apply Lw|assumption]).
  all: try (now auto).
  all: try (repeat (apply andb_true_intro; split); auto; fail).
  - apply Lp; [|exact B]. eapply Forall_impl; [|exact H]. intros x [[X1 _] [X2 _]]. now split.
  - apply andb_true_intro. split; [apply Lp; [|assumption]; eapply Forall_impl; [|exact H]; intros x [[X1 _] [X2 _]]; now split|].
    destruct o as [x|]; [|reflexivity]. destruct H0 as [H0 _]. auto.
  - destruct f as [x|]; destruct t as [y|]; cbn [opt_all] in *; repeat match goal with H : (_ -> _) /\ _ |- _ => destruct H as [H _] end;
      repeat (apply andb_true_intro; split); auto.
  - destruct k; try (apply Ls; [now apply Lw|assumption]). destruct l as [|a0 [|a1 [|]]]; try discriminate B; try (destruct a1; discriminate B).
    inversion H as [|? ? H1 F1]; subst. inversion F1 as [|? ? H2 F2]; subst. destruct a1; try discriminate B. destruct H1 as [H1 _]. destruct H2 as [_ H2].
    apply andb_prop in B as [B1 B2]. apply andb_prop in B2 as [B2 B3]. rewrite H1, H2, B3; auto.
Qed.

(** What the lexer calls an identifier. *)
Definition named (t : token) : Prop := forall i, tk_kind t = KIdent i -> ident_of_str (tk_value t) = Some i.
Lemma named_other : forall k sp v, (forall i, k <> KIdent i) -> named (Tok k sp v).
Proof. intros k sp v H i E. exfalso. now apply (H i). Qed.
Ltac nm := repeat (constructor; [apply named_other; intros; discriminate|]); constructor.
Lemma scan_op_named : forall src i n ts m, scan_op src i n = Ok (ts, m) -> Forall named ts.
Proof. intros src i n ts m H. unfold scan_op in H. destruct (op_of_str _); [|discriminate H]. injection H as <- <-. nm. Qed.
Lemma scan_char_named : forall src i c r ts n, scan_char src i c r = Ok (ts, n) -> Forall named ts.
Proof.
  intros src i c r ts n H. unfold scan_char in H.
  assert (Str : forall q c, scan_string src i c q r = Ok (ts, n) -> Forall named ts).
  { intros q c0 X. unfold scan_string in X. destruct (find_byte c0 r); [|discriminate X]. injection X as <- <-. nm. }
  assert (Idn : scan_ident src i r = Ok (ts, n) -> Forall named ts).
  { intros X. unfold scan_ident in X. repeat match type of X with (if ?b then _ else _) = _ => destruct b; [injection X as <- <-; nm|] || (destruct b; [destruct (String.prefix _ _); injection X as <- <-; nm|]) end.
    injection X as <- <-. constructor; [|constructor]. intros d Hd. unfold tok in *. cbn [tk_kind tk_value] in *. destruct (ident_of_str _); [congruence|discriminate Hd]. }
  assert (Brk : scan_bracket src i = Ok (ts, n) -> Forall named ts).
  { intros X. unfold scan_bracket in X. destruct (bracket_of_str _); [|discriminate X]. injection X as <- <-. nm. }
  assert (Nmb : scan_number src i r = Ok (ts, n) -> Forall named ts).
  { intros X. unfold scan_number in X. injection X as <- <-. nm. }
  repeat match type of H with (if ?b then _ else _) = _ => destruct b; try (eapply scan_op_named; exact H); try (injection H as <- <-; nm); try discriminate H; eauto end.
Qed.
Lemma Forall_snoc : forall (P : token -> Prop) a b, Forall P a -> Forall P b -> Forall P (a ++ b).
Proof. intros P a b A B. apply Forall_app. now split. Qed.
Lemma scan_template_named : forall fuel src i rest ie st acc ts n, Forall named acc -> scan_template fuel src i rest ie st acc = Some (Ok (ts, n)) -> Forall named ts.
Proof.
  induction fuel as [|k IH]; intros src i rest ie st acc ts n A H; cbn [scan_template] in H; [discriminate H|]. destruct rest as [|c r].
  - injection H as <- <-. apply Forall_snoc; [exact A|]. apply Forall_snoc; [|nm]. destruct (_ && _); nm.
  - destruct (Ascii.eqb c "`").
    + injection H as <- <-. apply Forall_snoc; [exact A|]. apply Forall_snoc; [|nm]. destruct (_ <? _); nm.
    + destruct ie.
      * destruct (Ascii.eqb c "}"); [eapply IH; [|exact H]; apply Forall_snoc; [exact A|nm]|].
        destruct (scan_char src i c r) as [[us m]|] eqn:X; [|discriminate H]. eapply IH; [|exact H]. apply Forall_snoc; [exact A|]. eapply scan_char_named; exact X.
      * destruct (_ && _); (eapply IH; [|exact H]); [apply Forall_snoc; [exact A|nm]|exact A].
Qed.
Lemma scan_named : forall fuel src i rest acc ts, Forall named acc -> scan fuel src i rest acc = Some (Ok ts) -> Forall named ts.
Proof.
  induction fuel as [|k IH]; intros src i rest acc ts A H; cbn [scan] in H; [discriminate H|]. destruct rest as [|c r]; [injection H as <-; exact A|].
  destruct (Ascii.eqb c "`").
  - destruct (scan_template _ _ _ _ _ _ _) as [[[us j]|]|] eqn:X; try discriminate H. eapply IH; [|exact H]. eapply scan_template_named; [|exact X]. apply Forall_snoc; [exact A|nm].
  - destruct (scan_char src i c r) as [[us m]|] eqn:X; [|discriminate H]. eapply IH; [|exact H]. apply Forall_snoc; [exact A|]. eapply scan_char_named; exact X.
Qed.
Lemma lex_cl : forall src ts, lex src = Some (Ok ts) -> ~ In (KLiteral, "$root") (map ptok_of ts) -> cl (map ptok_of ts).
Proof.
  intros src ts H N k B. destruct k; try exact I; [|contradiction]. apply in_map_iff in B as (t & E & Ht). unfold lex in H. apply scan_named in H; [|constructor].
  rewrite Forall_forall in H. destruct t as [kd sp v]. cbn in E. injection E as -> ->. specialize (H _ Ht i eq_refl). cbn in H. congruence.
Qed.

Lemma source_built : forall pn fl src n, root_unquoted src -> parse_source pn fl src = Some (Ok n) -> built n = true.
Proof.
  intros pn fl src n R H. unfold parse_source in H. destruct (lex src) as [[ts|]|] eqn:X; try discriminate H.
  eapply parsed_built; [|exact H]. apply (lex_cl src ts X). intros B. apply in_map_iff in B as ([kd sp v] & E & Ht). cbn in E. injection E as -> ->.
  exact (R ts X _ Ht eq_refl eq_refl).
Qed.
Lemma source_sane : forall pn fl src n, root_unquoted src -> parse_source pn fl src = Some (Ok n) -> sane n = true.
Proof. intros pn fl src n R H. apply built_sane. exact (source_built pn fl src n R H). Qed.

(** A name no alias is given is told apart. *)
Lemma built_apart : forall old n, built n = true -> ~ In old (given n) -> forall al, told_apart old al n = true.
Proof.
  intros old n. enough (H : (built n = true -> ~ In old (given n) -> forall al, told_apart old al n = true) /\
    match n with NClosure b _ => built b = true -> ~ In old (given b) -> forall al, told_apart old al b = true | _ => True end) by apply H.
  set (P := fun n => (built n = true -> ~ In old (given n) -> forall al, told_apart old al n = true) /\
    match n with NClosure b _ => built b = true -> ~ In old (given b) -> forall al, told_apart old al b = true | _ => True end).
  assert (Ls : forall l, Forall P l -> forallb built l = true -> ~ In old (flat_map given l) -> forall al, forallb (told_apart old al) l = true).
  { intros l F B N al. rewrite forallb_forall in *. rewrite Forall_forall in F. intros x Hx. apply (F x Hx); [auto|]. intros Y. apply N. apply in_flat_map. eauto. }
  assert (Lp : forall l, Forall (fun kv => P (fst kv) /\ P (snd kv)) l -> forallb (fun kv => built (fst kv) && built (snd kv)) l = true ->
    ~ In old (flat_map (fun kv => given (fst kv) ++ given (snd kv)) l) -> forall al, forallb (fun kv => told_apart old al (fst kv) && told_apart old al (snd kv)) l = true).
  { intros l F B N al. rewrite forallb_forall in *. rewrite Forall_forall in F. intros x Hx. specialize (B x Hx). apply andb_prop in B as [B1 B2].
    assert (Y : ~ In old (given (fst x) ++ given (snd x))) by (intros Y; apply N; apply in_flat_map; eauto). rewrite in_app_iff in Y.
    destruct (F x Hx) as [[F1 _] [F2 _]]. rewrite F1, F2; auto. }
  assert (Op : forall o, opt_all P o -> match o with Some x => built x | None => true end = true -> ~ In old (match o with Some x => given x | None => [] end) ->
    forall al, match o with Some x => told_apart old al x | None => true end = true) by (intros [x|] F B N al; [apply F; auto|reflexivity]).
  induction n using node_ind'; (split; [|first [exact I | now apply IHn]]); intros B N al; cbn [built given told_apart] in *;
    repeat match goal with H : _ && _ = true |- _ => apply andb_prop in H as [? ?] end; rewrite ?in_app_iff in N; try reflexivity; try discriminate.
  all: try (now apply Ls). all: try (now apply Lp).
  all: repeat match goal with H : (_ -> _) /\ _ |- _ => destruct H as [H _] end.
  all: try (repeat (apply andb_true_intro; split); auto 6; fail).
  destruct k as [f|s|c]; try (now apply Ls). destruct l as [|a0 [|a1 [|]]]; try discriminate B; try (destruct a1; discriminate B).
    inversion H as [|? ? H1 F1]; subst. inversion F1 as [|? ? H2 F2]; subst. destruct a1 as [| | | | | | | | | |b a| | | | | | | | | | |]; try discriminate B.
    destruct H1 as [H1 _]. destruct H2 as [_ H2]. apply andb_prop in B as [B1 B2]. apply andb_prop in B2 as [B2 B3].
    cbn [flat_map given] in N. rewrite app_nil_r, !in_app_iff in N. rewrite H1, H2; auto. rewrite andb_true_r, andb_true_l, andb_true_r.
    apply orb_true_iff. left. apply negb_true_iff. destruct a as [y|]; [|reflexivity]. cbn. apply String.eqb_neq. intros ->. apply N. right. left. now left.
Qed.
