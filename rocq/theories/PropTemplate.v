(** Templates (C42). *)
From Coq Require Import String Ascii ZArith Lia Bool List Arith.
From Verif Require Import Base Dec Value Heap Ast Ops Compiler Vm Eval Funcs Isolate Session Lexer Parser StateClaims Samples PropSyntax PropNodes Table Template TemplateSpec TemplateFacts.
Import ListNotations.
Local Open Scope string_scope.
Local Open Scope list_scope.
Local Open Scope nat_scope.

(** ** C42. Text without double braces, and with something besides spaces, renders to itself without the spaces around it; no expression runs. *)
Theorem C42_text : forall X parse sd fuel ctx h template t, body_of template t -> t <> [] -> plain t -> render X parse sd fuel template ctx h = (h, Ok (VStr (string_of_list_ascii t))).
Proof.
  intros X parse sd fuel ctx h template t B N P. apply trim_body in B. unfold render. rewrite B.
  assert (E : tparse false (tlex [] t) = Ok (parts [Txt t])) by (apply accepted; exists true, [Txt t]; cbn; rewrite app_nil_r; tauto). now rewrite E.
Qed.
Print Assumptions C42_text.
Definition braces : string := "  a {b} c }{ ".
Example C42_text_case : forall sd, body_of braces (list_ascii_of_string "a {b} c }{") /\ plain (list_ascii_of_string "a {b} c }{") /\
  render demo p0 sd 0 braces n_env n_heap = (n_heap, Ok (VStr "a {b} c }{")).
Proof.
  intros sd. assert (B : body_of braces (list_ascii_of_string "a {b} c }{")) by (now apply trim_body). assert (P : plain (list_ascii_of_string "a {b} c }{")).
  { split; intros (a & b & E); do 10 (destruct a as [|? a]; [discriminate E|injection E as _ E]); destruct a; discriminate. }
  split; [exact B|]. split; [exact P|]. exact (C42_text demo p0 sd 0 n_env n_heap braces _ B ltac:(discriminate) P).
Qed.

(** A template that is one expression gives the value of the expression as it is, of any type, or its error. *)
Theorem C42_expression : forall X parse sd fuel ctx h template e, body_of template (opens ++ e ++ closes) -> e <> [] -> plain e -> ~ ends_in "}" e ->
  render X parse sd fuel template ctx h = srun X parse KStandard (string_of_list_ascii e) (scope_new ctx) h.
Proof.
  intros X parse sd fuel ctx h template e B N P F. apply trim_body in B. unfold render. rewrite B.
  assert (E : tparse false (tlex [] (opens ++ e ++ closes)) = Ok (parts [Exp e])) by (apply accepted; exists true, [Exp e]; split; [reflexivity|]; split; [split; auto|reflexivity]). rewrite E.
  destruct e as [|x e]; [now elim N|]. cbn [parts tinterp]. unfold s_std. change (ss_scope (s_open ctx)) with (scope_new ctx). destruct (srun X parse KStandard _ (scope_new ctx) h) as [h1 [v|er]]; reflexivity.
Qed.
Print Assumptions C42_expression.
Example C42_expression_case : forall sd, body_of " {{ items }} " (opens ++ list_ascii_of_string " items " ++ closes) /\
  exists l, render demo p0 sd 0 " {{ items }} " n_env n_heap = (n_heap, Ok (VArr l)) /\ harr n_heap l <> None.
Proof. intros sd. split; [now apply trim_body|]. eexists. split; [vm_compute; reflexivity|]. vm_compute. discriminate. Qed.

(** Otherwise - two parts or more - the result is the text of the parts in order: a string as it is, another value as JSON-like text. [ps] are the texts and
    expressions as written. The expressions run from left to right on the same context. *)
Theorem C42_concat : forall X parse sd ctx h h1 template closed ps p q ns vs ss, body_of template (written closed ps) -> well_written closed ps -> parts ps = p :: q :: ns ->
  part_values X parse ctx (parts ps) h h1 vs -> Forall2 (shows sd h1) vs ss ->
  exists n, forall fuel, n <= fuel -> render X parse sd fuel template ctx h = (h1, Ok (VStr (String.concat "" ss))).
Proof.
  intros X parse sd ctx h h1 template closed ps p q ns vs ss B W Two P S0. apply trim_body in B.
  assert (D : exists n, forall v t, In (inr v) vs -> repr h1 v t -> depth t <= n).
  { clear P. induction S0 as [|a s vs ss A S0 (n & IH)]; [exists 0; intros v t []|]. destruct a as [t|v].
    - exists n. intros v0 t0 [E|I0]; [discriminate|eauto].
    - destruct A as (t & R & _). exists (depth t + n). intros v0 t0 [E|I0] R0; [injection E as <-; rewrite (repr_fun _ _ _ R0 _ R); lia|]. specialize (IH _ _ I0 R0). lia. }
  destruct D as (n & D). exists n. intros fuel L. unfold render. rewrite B.
  assert (E : tparse false (tlex [] (written closed ps)) = Ok (parts ps)) by (apply accepted; eauto). rewrite E, (interp_values X parse ctx _ _ _ _ P).
  assert (J : join_all sd fuel h1 (map res_of vs) = Some (String.concat "" ss)) by (apply join_shows; [exact S0|intros v t I0 R; specialize (D v t I0 R); lia]).
  rewrite Two in P. f_equal. unfold tresult. destruct vs as [|v1 [|v2 vs]]; [inversion P|inversion P as [| |]; subst; match goal with H : part_values _ _ _ _ _ _ [] |- _ => inversion H end|]. cbn [map] in J |- *.
  rewrite J. destruct v1; reflexivity.
Qed.
Print Assumptions C42_concat.
Definition greet : string := "Dear {{customer.name}}, x is {{ x + 1 }}{{ items }}!".
Example C42_concat_case : forall sd, exists h1, render demo p0 sd 5 greet n_env n_heap = (h1, Ok (VStr "Dear Ann, x is 3[{""a"":1},{""a"":2,""b"":null}]!")).
Proof. intros sd. eexists. vm_compute. reflexivity. Qed.
Definition greet_ps : list piece := [Txt (list_ascii_of_string "Dear "); Exp (list_ascii_of_string "customer.name"); Txt (list_ascii_of_string ", x is "); Exp (list_ascii_of_string " x + 1 ");
  Exp (list_ascii_of_string " items "); Txt (list_ascii_of_string "!")].
Lemma plain_dec : forall s, (fix go (l : chars) := match l with a :: ((b :: _) as r) => negb (Ascii.eqb a b && (Ascii.eqb a "{" || Ascii.eqb a "}")) && go r | _ => true end) s = true -> plain s.
Proof.
  intros s H. assert (G : forall c, c = "{"%char \/ c = "}"%char -> ~ pair_in c s); [|split; apply G; auto].
  intros c Hc (a & b & ->). induction a as [|x a IH]; cbn [app] in H.
  - apply andb_prop in H as [H _]. rewrite Ascii.eqb_refl in H. destruct Hc as [-> | ->]; discriminate.
  - apply IH. destruct (a ++ c :: c :: b) as [|y l]; [reflexivity|]. now apply andb_prop in H as [_ H].
Qed.
Lemma ends_dec : forall (c : ascii) (s : chars), last s "000"%char <> c -> ~ ends_in c s.
Proof. intros c s L (a & ->). now rewrite last_last in L. Qed.
Example C42_concat_hyps : body_of greet (written true greet_ps) /\ well_written true greet_ps /\ length (parts greet_ps) = 6 /\
  exists h1 vs, part_values demo p0 n_env (parts greet_ps) n_heap h1 vs.
Proof.
  split; [now apply trim_body|]. split.
  { cbn [greet_ps well_written]. repeat match goal with |- _ /\ _ => split end; try (apply plain_dec; reflexivity); try (apply ends_dec; vm_compute; discriminate); try (vm_compute; discriminate); exact I. }
  split; [reflexivity|]. destruct (tinterp demo p0 (parts greet_ps) (s_open n_env) n_heap) as [h1 [rs|e]] eqn:E.
  - destruct (values_interp demo p0 n_env _ _ _ _ E) as (vs & _ & P). eauto.
  - exfalso. revert E. vm_compute. discriminate.
Qed.

(** An error that is not a syntax error is the error of the first expression that fails; what is after it does not run. *)
Theorem C42_error : forall X parse sd fuel ctx h h1 h2 template closed ps before src after vs e, body_of template (written closed ps) -> well_written closed ps ->
  parts ps = before ++ NExpr src :: after -> part_values X parse ctx before h h2 vs -> srun X parse KStandard (string_of_list_ascii src) (scope_new ctx) h2 = (h1, Err e) ->
  render X parse sd fuel template ctx h = (h1, Err e).
Proof.
  intros X parse sd fuel ctx h h1 h2 template closed ps before src after vs e B W Eq P R. apply trim_body in B. unfold render. rewrite B.
  assert (E : tparse false (tlex [] (written closed ps)) = Ok (parts ps)) by (apply accepted; eauto). rewrite E, Eq, (error_interp X parse ctx before src after h h1 h2 e vs P R). reflexivity.
Qed.
Print Assumptions C42_error.
Example C42_error_case : forall sd, exists h1 e, render demo p0 sd 5 "a {{x}} {{ 1 + 'a' }} {{ x +" n_env n_heap = (h1, Err e).
Proof. intros sd. do 2 eexists. vm_compute. reflexivity. Qed.
(** The templates that are accepted are those that can be written as texts and expressions; the parts are determined by the source. For any other source nothing runs. *)
Theorem C42_accepted : forall X parse sd fuel ctx h template body, body_of template body ->
  (forall closed ps closed2 ps2, body = written closed ps -> well_written closed ps -> body = written closed2 ps2 -> well_written closed2 ps2 -> parts ps = parts ps2) /\
  ((forall closed ps, body = written closed ps -> ~ well_written closed ps) ->
   exists e, render X parse sd fuel template ctx h = (h, Err (EOp e)) /\ (e = "Open bracket" \/ e = "Close bracket")).
Proof.
  intros X parse sd fuel ctx h template body B. apply trim_body in B. split.
  - intros c ps c2 ps2 E W E2 W2. assert (A : tparse false (tlex [] body) = Ok (parts ps)) by (apply accepted; eauto). assert (A2 : tparse false (tlex [] body) = Ok (parts ps2)) by (apply accepted; eauto). congruence.
  - intros N. unfold render. rewrite B. destruct (tparse false (tlex [] body)) as [ns|e] eqn:E.
    + apply accepted in E as (c & ps & E & W & _). elim (N c ps E W).
    + destruct (parse_errors _ _ _ E) as [-> | ->]; eexists; eauto.
Qed.
Print Assumptions C42_accepted.
Example C42_accepted_case : forall sd, render demo p0 sd 5 "{{ a {{ b }}" n_env n_heap = (n_heap, Err (EOp "Open bracket")) /\ render demo p0 sd 5 "a }} b" n_env n_heap = (n_heap, Err (EOp "Close bracket")).
Proof. intros sd. split; vm_compute; reflexivity. Qed.

(** *** Where the English statement fails *)
(** Text of spaces, and the empty text, have no braces but render to null. *)
Theorem C42_empty_refuted : forall X parse sd fuel ctx h template, body_of template [] -> render X parse sd fuel template ctx h = (h, Ok VNull).
Proof. intros X parse sd fuel ctx h template B. apply trim_body in B. unfold render. now rewrite B. Qed.
Print Assumptions C42_empty_refuted.
Example C42_empty_case : body_of "   " [].
Proof. now apply trim_body. Qed.
(** A last expression need not be closed. *)
Theorem C42_unclosed_refuted : forall X parse sd fuel ctx h template e, body_of template (opens ++ e) -> e <> [] -> plain e ->
  render X parse sd fuel template ctx h = srun X parse KStandard (string_of_list_ascii e) (scope_new ctx) h.
Proof.
  intros X parse sd fuel ctx h template e B N P. apply trim_body in B. unfold render. rewrite B.
  assert (E : tparse false (tlex [] (opens ++ e)) = Ok (parts [Exp e])) by (apply accepted; exists false, [Exp e]; cbn; rewrite app_nil_r; split; [reflexivity|]; split; [split; [exact P|discriminate]|reflexivity]). rewrite E.
  destruct e as [|x e]; [now elim N|]. cbn [parts tinterp]. unfold s_std. change (ss_scope (s_open ctx)) with (scope_new ctx). destruct (srun X parse KStandard _ (scope_new ctx) h) as [h1 [v|er]]; reflexivity.
Qed.
Print Assumptions C42_unclosed_refuted.
(** An expression that is fine by itself fails inside a template when it ends in a closing brace or has two closing braces in a row. *)
Theorem C42_braces_refuted : exists e h1 v, srun demo p0 KStandard e (scope_new n_env) n_heap = (h1, Ok v) /\
  forall sd fuel, render demo p0 sd fuel ("{{" ++ e ++ "}}")%string n_env n_heap = (n_heap, Err (EOp "Close bracket")).
Proof. exists "{a: {b: 1}}". do 2 eexists. split; [vm_compute; reflexivity|]. intros sd fuel. vm_compute. reflexivity. Qed.
Print Assumptions C42_braces_refuted.
(** The text of a value does not determine it: strings inside arrays and objects are not escaped. *)
Theorem C42_text_refuted : exists t1 t2, t1 <> t2 /\ forall sd, bare_text sd t1 = bare_text sd t2.
Proof. exists (TArr [TStr "a"; TStr "b"]), (TArr [TStr "a"",""b"]). split; [discriminate|]. intros sd. reflexivity. Qed.
Print Assumptions C42_text_refuted.
