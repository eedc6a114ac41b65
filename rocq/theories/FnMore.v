(** More of C53: conversions, texts handed to libraries, dates, numbers of arguments. *)
From Coq Require Import String Ascii ZArith QArith Qabs Lia Bool List Arith Lqa.
From Verif Require Import Base Dec Value Heap Ast Ops Compiler Vm Eval CompilerFacts Funcs HeapSpec HeapFacts PureFacts RunSpec OpFacts FnSpec FnMoreSpec FnFacts FnClaims.
Import ListNotations.
Local Open Scope string_scope.
Local Open Scope list_scope.
Local Open Scope nat_scope.

Lemma rconcat_compiles : forall X ns, (exists c, rconcat (cgen X []) ns = Ok c) <-> Forall (compiles X) ns.
Proof.
  intros X ns. induction ns as [|n ns IH]; [split; [constructor|intros _; eexists; reflexivity]|]. cbn [rconcat]. split.
  - intros (c & H). destruct (cgen X [] n) as [a|] eqn:A; [|discriminate H]. cbn in H. destruct (rconcat (cgen X []) ns) as [b|] eqn:B; [|discriminate H].
    constructor; [exists a; rewrite compile_cgen; exact A|]. apply IH. eauto.
  - intros H. inversion H as [|? ? (a & A) R]; subst. apply IH in R as (b & B). rewrite compile_cgen in A. rewrite A, B. cbn. eexists. reflexivity.
Qed.
Lemma takes_ok : forall L k n, takes k n <-> exists b, x_arity (std_ext L) k = Some b /\ arity_ok b n = true.
Proof.
  intros L k n. unfold arity_ok. destruct k as [f|s|c].
  - split.
    + intros H. exists (internal_arity f). split; [reflexivity|]. apply andb_true_iff. rewrite !Nat.leb_le. destruct f; cbn in *; lia.
    + intros (b & E & H). cbn in E. injection E as <-. apply andb_true_iff in H. rewrite !Nat.leb_le in H. destruct f; cbn in *; lia.
  - cbn [x_arity std_ext takes]. unfold deprecated_arity.
    assert (X : forall l, existsb (String.eqb s) l = true <-> In s l).
    { intros l. rewrite existsb_exists. split; [intros (x & I & E); apply String.eqb_eq in E; now subst|]. intros I. exists s. split; [exact I|apply String.eqb_refl]. }
    match goal with |- context[existsb _ ?l] => destruct (existsb (String.eqb s) l) eqn:E1; [pose proof (proj1 (X l) E1) as I1|assert (N1 : ~ In s l) by (intros I; apply X in I; congruence)] end.
    + split; [intros [[_ ->]|[I2 _]]|].
      * eexists. split; [reflexivity|reflexivity].
      * exfalso. cbn in I1, I2. destruct I2 as [<-|[<-|[]]]; intuition discriminate.
      * intros (b & E & H). injection E as <-. left. split; [exact I1|]. apply andb_true_iff in H. rewrite !Nat.leb_le in H. cbn in H. lia.
    + match goal with |- context[existsb _ ["startOf"; "endOf"]] => destruct (existsb (String.eqb s) ["startOf"; "endOf"]) eqn:E2 end.
      * pose proof (proj1 (X _) E2) as I2. split.
        -- intros [[I1 _]|[_ ->]]; [contradiction|]. eexists. split; reflexivity.
        -- intros (b & E & H). injection E as <-. right. split; [exact I2|]. apply andb_true_iff in H. rewrite !Nat.leb_le in H. cbn in H. lia.
      * split; [|intros (b & E & _); discriminate E]. intros [[I1 _]|[I2 _]]; [contradiction|]. apply X in I2. congruence.
  - split; [intros []|intros (b & E & _); discriminate E].
Qed.
Lemma arity_claim : forall L k ns, (forall c, k <> FClosure c) -> (compiles (std_ext L) (NCall k ns) <-> takes k (length ns) /\ Forall (compiles (std_ext L)) ns).
Proof.
  intros L k ns N. unfold compiles at 1. setoid_rewrite compile_cgen. rewrite <- rconcat_compiles, (takes_ok L).
  assert (G : cgen (std_ext L) [] (NCall k ns) = match x_arity (std_ext L) k with None => Err (EOp "UnknownFunction") | Some b => if arity_ok b (length ns) then do c <- rconcat (cgen (std_ext L) []) ns; Ok (c ++ [OCallFunction k (length ns)]) else Err (EOp "InvalidFunctionCall") end).
  { destruct k as [f|s|c]; [reflexivity|reflexivity|]. exfalso. eapply N. reflexivity. }
  setoid_rewrite G. destruct (x_arity (std_ext L) k) as [b|].
  - destruct (arity_ok b (length ns)) eqn:A.
    + destruct (rconcat (cgen (std_ext L) []) ns) as [c|e]; cbn.
      * split; [intros _; split; eauto|intros _; eauto].
      * split; [intros (c & Z); discriminate Z|intros [_ (c & Z)]; discriminate Z].
    + split; [intros (c & Z); discriminate Z|]. intros [(b0 & E & Z) _]. injection E as <-. congruence.
  - split; [intros (c & Z); discriminate Z|]. intros [(b0 & E & _) _]. discriminate E.
Qed.

Lemma number_others_claim : forall L h, (forall x, call_gives L FNumber [VNum x] h (Ok (VNum x)) h) /\
  (forall b, exists y, call_gives L FNumber [VBool b] h (Ok (VNum y)) h /\ (dec_val y == if b then 1 else 0)%Q) /\
  (forall v, v = VNull \/ (exists l, v = VArr l) \/ (exists l, v = VObj l) \/ (exists d, v = VDyn d) -> call_gives L FNumber [v] h (Err (EOp "CallFunction")) h).
Proof.
  intros L h. split; [intros x; calls; reflexivity|]. split.
  - intros b. exists (if b then dec_one else dec_zero). split; [calls; reflexivity|]. destruct b; reflexivity.
  - intros v H. assert (C : call_internal L FNumber [v] h = (h, Err (EOp "number"))) by (destruct H as [->|[(l & ->)|[(l & ->)|(d & ->)]]]; reflexivity).
    exact (call_ok L FNumber [v] h (Err (EOp "number")) h eq_refl C).
Qed.
Lemma is_numeric_claim : forall L v h, exists r, call_gives L FIsNumeric [v] h (Ok (VBool r)) h /\
  (r = true <-> (exists x, v = VNum x) \/ exists s d, v = VStr s /\ l_parse L (l_trim L s) = Some d).
Proof.
  intros L v h. exists (f_is_numeric L v). split; [calls; reflexivity|]. unfold f_is_numeric. destruct v as [|b|x|s|l|l|d].
  3: { split; [intros _; left; eauto|reflexivity]. }
  3: { destruct (l_parse L (l_trim L s)) as [d|] eqn:P.
    - split; [intros _; right; eauto|reflexivity].
    - split; [discriminate|]. intros [(x & E)|(s1 & d & E & Q)]; [discriminate E|]. injection E as <-. congruence. }
  all: split; [discriminate|intros [(x & E)|(s & d0 & E & _)]; discriminate E].
Qed.
Lemma texts_claim : forall L s h, call_gives L FUpper [VStr s] h (Ok (VStr (l_upper L s))) h /\ call_gives L FLower [VStr s] h (Ok (VStr (l_lower L s))) h /\ call_gives L FTrim [VStr s] h (Ok (VStr (l_trim L s))) h.
Proof. intros L s h. split; [|split]; calls; reflexivity. Qed.
Lemma matches_claim : forall L s pattern h, (forall b, l_matches L s pattern = Some b -> call_gives L FMatches [VStr s; VStr pattern] h (Ok (VBool b)) h) /\
  (l_matches L s pattern = None -> call_gives L FMatches [VStr s; VStr pattern] h (Err (EOp "CallFunction")) h).
Proof.
  intros L s p h. split.
  - intros b E. assert (C : call_internal L FMatches [VStr s; VStr p] h = (h, Ok (VBool b))) by (cbn; rewrite E; reflexivity). exact (call_ok L FMatches [VStr s; VStr p] h (Ok (VBool b)) h eq_refl C).
  - intros E. assert (C : call_internal L FMatches [VStr s; VStr p] h = (h, Err (EOp "Invalid regular expression"))) by (cbn; rewrite E; reflexivity). exact (call_ok L FMatches [VStr s; VStr p] h _ h eq_refl C).
Qed.
Lemma extract_claim : forall L s pattern h, (forall l, l_captures L s pattern = Some l ->
    exists h3 a, call_gives L FExtract [VStr s; VStr pattern] h (Ok (VArr a)) h3 /\ hext h h3 /\ hget h3 a = Some (CArr (map VStr l))) /\
  (l_captures L s pattern = None -> call_gives L FExtract [VStr s; VStr pattern] h (Err (EOp "CallFunction")) h).
Proof.
  intros L s p h. split.
  - intros l E. apply arr_call; [reflexivity|]. cbn. rewrite E. reflexivity.
  - intros E. assert (C : call_internal L FExtract [VStr s; VStr p] h = (h, Err (EOp "Invalid regular expression"))) by (cbn; rewrite E; reflexivity). exact (call_ok L FExtract [VStr s; VStr p] h _ h eq_refl C).
Qed.
Lemma fuzzy_claim : forall L s t h, call_gives L FFuzzyMatch [VStr s; VStr t] h (Ok (VNum (l_similarity L s t))) h /\
  (forall l ss, hget h l = Some (CArr (map VStr ss)) ->
    exists h3 a, call_gives L FFuzzyMatch [VArr l; VStr t] h (Ok (VArr a)) h3 /\ hext h h3 /\ hget h3 a = Some (CArr (map (fun x => VNum (l_similarity L x t)) ss))).
Proof.
  intros L s t h. split; [calls; reflexivity|]. intros l ss G. apply arr_call; [reflexivity|]. cbn. rewrite (proj2 (harr_hget _ _ _) G).
  assert (A : forall ss, all_strs (map VStr ss) = Some ss) by (induction ss0 as [|x ss0 IH]; [reflexivity|]; cbn; now rewrite IH). now rewrite A.
Qed.
Lemma chars_start : forall a c r, chars a = c :: r -> forall x, In x r -> forall b y, x = String b y -> is_cont_byte b = false.
Proof.
  induction a as [|b a IH]; intros c r E x I b0 y Ex; [discriminate E|]. cbn in E. destruct (chars a) as [|[|b1 z] t] eqn:C.
  - injection E as <- <-. destruct I.
  - injection E as <- <-. destruct I as [<-|I]; [discriminate Ex|]. eapply IH; eauto.
  - destruct (is_cont_byte b1) eqn:B; injection E as <- <-.
    + eapply IH; eauto.
    + destruct I as [<-|I]; [injection Ex as <- <-; exact B|]. eapply IH; eauto.
Qed.

Lemma split_chars_claim : forall L a h, exists h3 l cs, call_gives L FSplit [VStr a; VStr ""] h (Ok (VArr l)) h3 /\ hext h h3 /\
  hget h3 l = Some (CArr (map VStr ("" :: cs ++ [""]))) /\ concat_all cs = a /\
  (forall c, In c cs -> exists b r, c = String b r /\ Forall (fun x => is_cont_byte x = true) (list_ascii_of_string r)) /\
  (forall c, In c (tl cs) -> exists b r, c = String b r /\ is_cont_byte b = false).
Proof.
  intros L a h. destruct (arr_call L FSplit [VStr a; VStr ""] h (map VStr (str_split a ""))) as (h3 & l & C & X & G); [reflexivity|reflexivity|].
  exists h3, l, (chars a). split; [exact C|]. split; [exact X|]. split; [exact G|]. split; [apply chars_ok|].
  assert (W : forall c, In c (chars a) -> exists b r, c = String b r /\ Forall (fun x => is_cont_byte x = true) (list_ascii_of_string r)).
  2: { split; [exact W|]. intros c I. destruct (chars a) as [|c0 r0] eqn:E; [destruct I|]. destruct (W c (or_intror I)) as (b & r & -> & _). exists b, r. split; [reflexivity|]. exact (chars_start a c0 r0 E _ I _ _ eq_refl). }
  clear. induction a as [|b a IH]; [intros c []|]. cbn [chars]. destruct (chars a) as [|[|b1 x] t] eqn:E.
  - intros c [<-|[]]. exists b, EmptyString. split; [reflexivity|constructor].
  - exfalso. destruct (IH EmptyString) as (b0 & r & Z & _); [now left|discriminate Z].
  - destruct (is_cont_byte b1) eqn:B.
    + intros c [<-|I]; [|apply IH; now right]. exists b, (String b1 x). split; [reflexivity|]. destruct (IH (String b1 x)) as (b0 & r & Z & F); [now left|]. injection Z as <- <-. cbn. constructor; assumption.
    + intros c [<-|I]; [exists b, EmptyString; split; [reflexivity|constructor]|]. apply IH. exact I.
Qed.
(** Dates. *)
Lemma not_later_cmp : forall a b, (vmdate_cmp a b = Gt -> not_later b a) /\ (vmdate_cmp a b <> Gt -> not_later a b) /\ (vmdate_cmp a b = Lt -> not_later a b) /\ (vmdate_cmp a b <> Lt -> not_later b a).
Proof. intros [[a|] ?] [[b|] ?]; unfold vmdate_cmp, not_later; cbn; repeat split; try discriminate; try congruence; auto; intros H; try (exfalso; now apply H); destruct (Z.compare_spec a b); try congruence; lia. Qed.
Lemma not_later_trans : forall a b c, not_later a b -> not_later b c -> not_later a c.
Proof. intros [[a|] ?] [[b|] ?] [[c|] ?]; unfold not_later; cbn; try tauto. lia. Qed.
Lemma not_later_refl : forall a, not_later a a.
Proof. intros [[a|] ?]; unfold not_later; cbn; auto. lia. Qed.
Lemma min_dates : forall l x, In (min_by vmdate_cmp x l) (x :: l) /\ forall y, In y (x :: l) -> not_later (min_by vmdate_cmp x l) y.
Proof.
  induction l as [|z l IH]; intros x; [split; [now left|intros y [<-|[]]; apply not_later_refl]|]. cbn [min_by]. destruct (not_later_cmp z x) as (_ & _ & A & B).
  destruct (vmdate_cmp z x) eqn:C; (match goal with |- context[min_by vmdate_cmp ?m l] => destruct (IH m) as [I H] end); (split; [destruct I as [I|I]; cbn; auto|]); intros y [<-|[<-|J]];
    try (apply H; now right); try (apply H; now left); (eapply not_later_trans; [apply H; now left|]); (apply A; congruence) || (apply B; congruence).
Qed.
Lemma max_dates : forall l x, In (max_by vmdate_cmp x l) (x :: l) /\ forall y, In y (x :: l) -> not_later y (max_by vmdate_cmp x l).
Proof.
  induction l as [|z l IH]; intros x; [split; [now left|intros y [<-|[]]; apply not_later_refl]|]. cbn [max_by]. destruct (not_later_cmp z x) as (_ & _ & A & B).
  destruct (vmdate_cmp z x) eqn:C; (match goal with |- context[max_by vmdate_cmp ?m l] => destruct (IH m) as [I H] end); (split; [destruct I as [I|I]; cbn; auto|]); intros y [<-|[<-|J]];
    try (apply H; now right); try (apply H; now left); (eapply not_later_trans; [|apply H; now left]); (apply A; congruence) || (apply B; congruence).
Qed.
Lemma all_dates_ok : forall ds, all_dates (map (fun d => VDyn (DDate d)) ds) = Some ds.
Proof. induction ds as [|d ds IH]; [reflexivity|]. cbn. now rewrite IH. Qed.
Lemma dates_claim : forall L l ds h, hget h l = Some (CArr (map (fun d => VDyn (DDate d)) ds)) -> ds <> [] ->
  (exists m, call_gives L FMin [VArr l] h (Ok (VDyn (DDate m))) h /\ In m ds /\ forall y, In y ds -> not_later m y) /\
  (exists m, call_gives L FMax [VArr l] h (Ok (VDyn (DDate m))) h /\ In m ds /\ forall y, In y ds -> not_later y m).
Proof.
  intros L l ds h G N. destruct ds as [|d ds]; [congruence|].
  assert (A : arg_nums_or_dates h [VArr l] 0 = Ok (inr (d :: ds))).
  { unfold arg_nums_or_dates, arg_arr. cbn [nth_error]. rewrite (proj2 (harr_hget _ _ _) G). cbn [of_option bind map]. change (VDyn (DDate d) :: map (fun d => VDyn (DDate d)) ds) with (map (fun d => VDyn (DDate d)) (d :: ds)). rewrite all_dates_ok. reflexivity. }
  split.
  - exists (min_by vmdate_cmp d ds). split; [|exact (min_dates ds d)]. assert (C : call_internal L FMin [VArr l] h = (h, Ok (VDyn (DDate (min_by vmdate_cmp d ds))))) by (cbn [call_internal]; rewrite A; reflexivity). exact (call_ok L FMin [VArr l] h _ h eq_refl C).
  - exists (max_by vmdate_cmp d ds). split; [|exact (max_dates ds d)]. assert (C : call_internal L FMax [VArr l] h = (h, Ok (VDyn (DDate (max_by vmdate_cmp d ds))))) by (cbn [call_internal]; rewrite A; reflexivity). exact (call_ok L FMax [VArr l] h _ h eq_refl C).
Qed.
(** Random numbers: the bound is rounded to an integer. *)
Lemma dec_round_near : forall x, exists z, dec_round x = dec_of_Z z /\ (Qabs (inject_Z z - dec_val x) * 2 <= 1)%Q.
Proof.
  intros [m s]. unfold dec_round. cbn [mant scale]. set (p := pow10 s). assert (P : (0 < p)%Z) by apply pow10_pos.
  pose proof (Z.div_mod m p ltac:(lia)) as D. pose proof (Z.mod_pos_bound m p P) as B. set (q := (m / p)%Z) in *. set (r := (m mod p)%Z) in *.
  assert (K : forall z, (Z.abs (z * p - m) * 2 <= p)%Z -> (Qabs (inject_Z z - dec_val (Dec m s)) * 2 <= 1)%Q).
  { intros z H. unfold dec_val, Qle, Qabs, Qminus, Qmult, Qplus, Qopp, inject_Z. cbn [Qnum Qden mant scale]. rewrite ?Pos2Z.inj_mul, ?pos_pow10. fold p. lia. }
  destruct (Z.compare_spec (2 * r) p) as [E|E|E].
  - destruct (Z.even q); eexists; (split; [reflexivity|]); apply K; nia.
  - eexists. split; [reflexivity|]. apply K. nia.
  - eexists. split; [reflexivity|]. apply K. nia.
Qed.
Lemma to_i64_of_Z : forall z, (- 2 ^ 63 <= z < 2 ^ 63)%Z -> dec_to_i64 (dec_of_Z z) = Some z.
Proof. intros z H. unfold dec_to_i64. rewrite dec_trunc_of_Z. replace ((- (2 ^ 63) <=? z) && (z <? 2 ^ 63))%Z with true; [reflexivity|]. symmetry. apply andb_true_iff. rewrite Z.leb_le, Z.ltb_lt. exact H. Qed.
Lemma rand_claim : forall L x h, (inject_Z (- 2 ^ 62) < dec_val x)%Q -> (dec_val x < inject_Z (2 ^ 62))%Q -> exists z, (Qabs (inject_Z z - dec_val x) <= 1 # 2)%Q /\
  (forall r, l_rand L z = Some r -> call_gives L FRand [VNum x] h (Ok (VNum r)) h) /\
  (l_rand L z = None -> call_gives L FRand [VNum x] h (Err (EPanic "empty range")) h).
Proof.
  intros L x h B1 B2. destruct (dec_round_near x) as (z & E & N). exists z.
  assert (Hz : (- 2 ^ 63 <= z < 2 ^ 63)%Z).
  { assert (K : (inject_Z (- 2 ^ 62) - 1 <= inject_Z z /\ inject_Z z <= inject_Z (2 ^ 62) + 1)%Q).
    { revert B1 B2 N. generalize (inject_Z (- 2 ^ 62)) (inject_Z (2 ^ 62)) (dec_val x) (inject_Z z). intros a b c d B1 B2. apply Qabs_case; intros; split; lra. }
    destruct K as [K1 K2]. change (inject_Z (- 2 ^ 62) - 1)%Q with (inject_Z (- 2 ^ 62 - 1)) in K1. change (inject_Z (2 ^ 62) + 1)%Q with (inject_Z (2 ^ 62 + 1)) in K2.
    rewrite <- Zle_Qle in K1, K2. lia. }
  assert (F : dec_to_i64 (dec_round x) = Some z) by (rewrite E; now apply to_i64_of_Z).
  split; [|split].
  - revert N. apply Qabs_case; intros; lra.
  - intros r R. assert (C : call_internal L FRand [VNum x] h = (h, Ok (VNum r))) by (cbn [call_internal]; unfold pure, arg_num; cbn [nth_error of_option bind]; rewrite F; cbn [of_option bind]; rewrite R; reflexivity). exact (call_ok L FRand [VNum x] h _ h eq_refl C).
  - intros R. assert (C : call_internal L FRand [VNum x] h = (h, Err (EPanic "empty range"))) by (cbn [call_internal]; unfold pure, arg_num; cbn [nth_error of_option bind]; rewrite F; cbn [of_option bind]; rewrite R; reflexivity). exact (call_ok L FRand [VNum x] h _ h eq_refl C).
Qed.

Lemma join_empty : forall l, join_with "" l = String.concat "" l.
Proof. induction l as [|x [|y l] IH]; reflexivity. Qed.
Lemma to_str_text : forall L v s h, text_of v s -> to_str (std_ext L) v h = (h, Ok (VStr s)).
Proof. intros L v s h T. destruct T; reflexivity. Qed.
Lemma eval_seq_cons : forall A B (f : A -> scope -> heap -> outc B) x r env h, eval_seq f (x :: r) env h =
  obind (f x env h) (fun v env h => obind (eval_seq f r env h) (fun vs env h => ORet (v :: vs) env h)).
Proof. reflexivity. Qed.
Lemma spells_eval : forall L root parts h s h1, spells (std_ext L) root h parts s h1 ->
  exists ss, eval_seq (fun x env h => obind (eval (std_ext L) root [] [] x env h) (fun v env h => hlift env (to_str (std_ext L) v h))) parts root h
    = ORet (map VStr ss) root h1 /\ String.concat "" ss = s.
Proof.
  intros L root parts h s h1 S. induction S as [|h n v s h1 r t h2 Na Y T S IH]; [exists []; split; reflexivity|].
  destruct IH as (ss & E & C). exists (s :: ss). split.
  - rewrite eval_seq_cons. cbv beta. rewrite (yields_eval _ _ _ _ _ _ Na Y). cbn [obind lift]. rewrite (to_str_text L v s h1 T). unfold hlift at 1. cbn [obind lift fst snd].
    rewrite E. reflexivity.
  - cbn [String.concat]. destruct ss as [|x ss]; [cbn in C; subst t; clear; induction s as [|a s IH]; cbn; [reflexivity|now f_equal]|]. rewrite C. reflexivity.
Qed.
Lemma all_strs_map : forall ss, all_strs (map VStr ss) = Some ss.
Proof. induction ss as [|s ss IH]; cbn; [reflexivity|]. now rewrite IH. Qed.
Lemma spells_compiles : forall L root parts h s h1, spells (std_ext L) root h parts s h1 ->
  exists c, rconcat (fun x => do a <- cgen (std_ext L) [] x; Ok (a ++ [call_string])) parts = Ok c.
Proof.
  intros L root parts h s h1 S. induction S as [|h n v s h1 r t h2 Na Y T S (c & IH)]; [eexists; reflexivity|].
  destruct (yields_compiles _ _ _ _ _ _ Y) as (cn & Cn). rewrite compile_cgen in Cn. cbn. rewrite Cn. cbn. rewrite IH. cbn. eauto.
Qed.
Lemma template_claim : forall L root parts h s h1, spells (std_ext L) root h parts s h1 ->
  exists h2, hext h1 h2 /\ yields (std_ext L) (NTemplate parts) root h (Ok (VStr s)) h2.
Proof.
  intros L root parts h s h1 S. destruct (spells_eval _ _ _ _ _ _ S) as (ss & E & C). exists (h1 ++ [CArr (map VStr ss)]). split; [apply hext_alloc|].
  assert (Cp : compiles (std_ext L) (NTemplate parts)).
  { destruct (spells_compiles _ _ _ _ _ _ S) as (c & Cc). unfold compiles. setoid_rewrite compile_cgen. cbn [cgen]. rewrite Cc. cbn. eauto. }
  assert (Ev : eval (std_ext L) root [] [] (NTemplate parts) root h = lift root (h1 ++ [CArr (map VStr ss)]) (Ok (VStr s))).
  { cbn [eval]. rewrite E. cbn [obind]. unfold new_arr, halloc. cbn [op_join]. unfold harr. rewrite hget_alloc_new. rewrite all_strs_map. cbn [of_option bind].
    rewrite join_empty, C. reflexivity. }
  exact (eval_yields _ _ _ _ _ Cp Ev).
Qed.
