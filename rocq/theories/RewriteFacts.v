(** Replacing dictionary references in a schema. *)
From Coq Require Import String Ascii ZArith Lia Bool List Arith.
From Verif Require Import Base Json Docs DocSpec ImportFacts.
Import ListNotations.
Local Open Scope string_scope.
Local Open Scope list_scope.

(** The inner loops of [rewrite], by name. *)
Fixpoint rw_list (d : amap (list string)) (l : list json) : res (list json) := match l with [] => Ok [] | x :: r => do x1 <- rewrite d x; do r1 <- rw_list d r; Ok (x1 :: r1) end.
Fixpoint rw_map (d : amap (list string)) (m : list (string * json)) : res (list (string * json)) := match m with [] => Ok [] | (k, e) :: r => do e1 <- rewrite d e; do r1 <- rw_map d r; Ok ((k, e1) :: r1) end.
Lemma rewrite_arr : forall d l, rewrite d (JArr l) = do l1 <- rw_list d l; Ok (JArr l1).
Proof.
  intros d l. cbn [rewrite]. match goal with |- bind (?f l) _ = _ => assert (E : forall l, f l = rw_list d l) end; [|now rewrite E].
  clear. induction l as [|x l IH]; cbn [rw_list]; [reflexivity|]. destruct (rewrite d x); cbn [bind]; [|reflexivity]. now rewrite IH.
Qed.
Lemma rewrite_obj : forall d m, aget dict_key m = None -> rewrite d (JObj m) = do m1 <- rw_map d m; Ok (JObj m1).
Proof.
  intros d m N. cbn [rewrite]. rewrite N. match goal with |- bind (?f m) _ = _ => assert (E : forall l, f l = rw_map d l) end; [|now rewrite E].
  induction l as [|[k e] l IH]; cbn [rw_map]; [reflexivity|]. destruct (rewrite d e); cbn [bind]; [|reflexivity]. now rewrite IH.
Qed.
Lemma rw_list_ok : forall d l l1, rw_list d l = Ok l1 -> Forall2 (fun x y => rewrite d x = Ok y) l l1.
Proof.
  induction l as [|x l IH]; intros l1 E; cbn [rw_list] in E; [injection E as <-; constructor|]. destruct (rewrite d x) as [x1|] eqn:X; [|discriminate]. cbn [bind] in E.
  destruct (rw_list d l) as [r1|] eqn:R; [|discriminate]. injection E as <-. constructor; auto.
Qed.
Lemma rw_list_err : forall d l e, rw_list d l = Err e -> exists i x, nth_error l i = Some x /\ rewrite d x = Err e.
Proof.
  induction l as [|x l IH]; intros e E; cbn [rw_list] in E; [discriminate|]. destruct (rewrite d x) as [x1|e1] eqn:X; cbn [bind] in E; [|injection E as ->; exists 0, x; auto].
  destruct (rw_list d l) as [r1|e2] eqn:R; [discriminate|]. injection E as ->. destruct (IH e eq_refl) as (i & y & N & Y). exists (S i), y. auto.
Qed.
Lemma rw_map_ok : forall d m m1, rw_map d m = Ok m1 -> map fst m1 = map fst m /\ (forall k x, aget k m = Some x -> exists y, rewrite d x = Ok y /\ aget k m1 = Some y) /\ forall k, aget k m = None -> aget k m1 = None.
Proof.
  induction m as [|[a e] m IH]; intros m1 E; cbn [rw_map] in E; [injection E as <-; split; [reflexivity|split; [discriminate|auto]]|]. destruct (rewrite d e) as [e1|] eqn:X; [|discriminate]. cbn [bind] in E.
  destruct (rw_map d m) as [r1|] eqn:R; [|discriminate]. injection E as <-. destruct (IH r1 eq_refl) as (A & B & C). split; [cbn; congruence|]. split.
  - intros k x. cbn [aget]. destruct (String.eqb a k); [intros [= <-]; eauto|apply B].
  - intros k. cbn [aget]. destruct (String.eqb a k); [discriminate|apply C].
Qed.
Lemma rw_map_err : forall d m e, NoDup (map fst m) -> rw_map d m = Err e -> exists k x, aget k m = Some x /\ rewrite d x = Err e.
Proof.
  induction m as [|[a v] m IH]; intros e N E; cbn [rw_map] in E; [discriminate|]. cbn in N. apply NoDup_cons_iff in N as [N1 N2].
  destruct (rewrite d v) as [v1|e1] eqn:X; cbn [bind] in E; [|injection E as ->; exists a, v; cbn; rewrite String.eqb_refl; auto].
  destruct (rw_map d m) as [r1|e2] eqn:R; [discriminate|]. injection E as ->. destruct (IH e N2 eq_refl) as (k & x & G & Y). exists k, x. split; [|exact Y]. cbn.
  destruct (String.eqb_spec a k) as [->|]; [|exact G]. apply aget_Some_in in G. exfalso. apply N1. apply in_map_iff. exists (k, x). auto.
Qed.

Lemma wf_arr : forall l x, wf_json (JArr l) -> In x l -> wf_json x.
Proof. intros l x W I. cbn in W. revert W. induction l as [|y l IH]; [destruct I|]. intros [W1 W2]. destruct I as [<-|I]; auto. Qed.
Lemma wf_obj : forall m, wf_json (JObj m) -> NoDup (map fst m) /\ forall k x, aget k m = Some x -> wf_json x.
Proof.
  intros m [W1 W2]. split; [exact W1|]. clear W1. induction m as [|[a v] m IH]; intros k x; cbn; [discriminate|]. destruct W2 as [Wa Wb]. destruct (String.eqb a k); [intros [= <-]; exact Wa|now apply IH].
Qed.

(** An outer reference of a part is one of the whole, when the whole is not a reference. *)
Lemma is_ref_key : forall m k p, is_ref (JObj m) (Key k :: p) <-> exists x, aget k m = Some x /\ is_ref x p.
Proof.
  intros m k p. unfold is_ref. cbn [jget]. split.
  - intros (m2 & y & J & Y). destruct (aget k m) as [x|]; [|discriminate]. exists x. eauto.
  - intros (x & -> & m2 & y & J & Y). eauto.
Qed.
Lemma is_ref_at : forall l i p, is_ref (JArr l) (At i :: p) <-> exists x, nth_error l i = Some x /\ is_ref x p.
Proof.
  intros l i p. unfold is_ref. cbn [jget]. split.
  - intros (m2 & y & J & Y). destruct (nth_error l i) as [x|]; [|discriminate]. exists x. eauto.
  - intros (x & -> & m2 & y & J & Y). eauto.
Qed.
Lemma outer_key : forall m k p m2, aget dict_key m = None -> (outer_ref (JObj m) (Key k :: p) m2 <-> exists x, aget k m = Some x /\ outer_ref x p m2).
Proof.
  intros m k p m2 N. unfold outer_ref. cbn [jget]. split.
  - intros (J & R & O). destruct (aget k m) as [x|] eqn:K; [|discriminate]. exists x. split; [reflexivity|]. split; [exact J|]. split; [exact R|].
    intros a b -> Nb Rf. apply (O (Key k :: a) b eq_refl Nb). apply is_ref_key. eauto.
  - intros (x & K & J & R & O). rewrite K. split; [exact J|]. split; [exact R|]. intros [|s a] b E Nb.
    + intros (m3 & y & J3 & Y). injection J3 as <-. unfold dict_key in N. congruence.
    + injection E as <- ->. intros Rf. apply is_ref_key in Rf as (x2 & K2 & Rf). assert (x2 = x) by congruence. subst x2. exact (O a b eq_refl Nb Rf).
Qed.
Lemma outer_at : forall l i p m2, outer_ref (JArr l) (At i :: p) m2 <-> exists x, nth_error l i = Some x /\ outer_ref x p m2.
Proof.
  intros l i p m2. unfold outer_ref. cbn [jget]. split.
  - intros (J & R & O). destruct (nth_error l i) as [x|] eqn:K; [|discriminate]. exists x. split; [reflexivity|]. split; [exact J|]. split; [exact R|].
    intros a b -> Nb Rf. apply (O (At i :: a) b eq_refl Nb). apply is_ref_at. eauto.
  - intros (x & K & J & R & O). rewrite K. split; [exact J|]. split; [exact R|]. intros [|s a] b E Nb.
    + intros (m3 & y & J3 & Y). discriminate.
    + injection E as <- ->. intros Rf. apply is_ref_at in Rf as (x2 & K2 & Rf). assert (x2 = x) by congruence. subst x2. exact (O a b eq_refl Nb Rf).
Qed.
Lemma outer_here : forall m x, aget dict_key m = Some x -> outer_ref (JObj m) [] m.
Proof.
  intros m x E. split; [reflexivity|]. split; [exists x; exact E|]. intros a b Eq Nb. symmetry in Eq. apply app_eq_nil in Eq as [-> ->]. now elim Nb.
Qed.
Lemma outer_in_ref : forall m x p m2, aget dict_key m = Some x -> outer_ref (JObj m) p m2 -> p = [] /\ m2 = m.
Proof.
  intros m x p m2 E (J & _ & O). destruct p as [|s p]; [injection J as <-; auto|]. exfalso. apply (O [] (s :: p) eq_refl); [discriminate|]. exists m, x. split; [reflexivity|exact E].
Qed.

(** What stands where a reference stood. *)
Definition replaced (m m1 : list (string * json)) (vs : list string) : Prop :=
  aget "type" m1 = Some (JStr "string") /\ aget "enum" m1 = Some (JArr (map JStr vs)) /\ aget "$dictionary" m1 = None /\
  forall k, k <> "type" -> k <> "enum" -> k <> "$dictionary" -> aget k m1 = aget k m.
Lemma aget_filter : forall V (f : string -> bool) (m : amap V) k, aget k (filter (fun e => f (fst e)) m) = if f k then aget k m else None.
Proof.
  intros V f m k. induction m as [|[a v] m IH]; cbn; [now destruct (f k)|]. destruct (String.eqb_spec a k) as [->|N].
  - destruct (f k) eqn:F; cbn; [now rewrite String.eqb_refl|exact IH].
  - destruct (f a); cbn; [|exact IH]. apply String.eqb_neq in N. now rewrite N.
Qed.
Lemma rewrite_ref : forall d m x j1, aget dict_key m = Some x -> rewrite d (JObj m) = Ok j1 -> exists m1 vs, j1 = JObj m1 /\ names_dict d m vs /\ replaced m m1 vs.
Proof.
  intros d m x j1 X E. cbn [rewrite] in E. rewrite X in E. destruct x; try discriminate. destruct (aget s d) as [vs|] eqn:V; [|discriminate]. injection E as <-.
  eexists; exists vs. split; [reflexivity|]. split; [exists s; auto|].
  set (keep := filter _ m).
  assert (K : forall k, aget k keep = if negb (String.eqb k dict_key) && negb (String.eqb k "type") && negb (String.eqb k "enum") then aget k m else None).
  { intros k. apply (aget_filter json (fun k => negb (String.eqb k dict_key) && negb (String.eqb k "type") && negb (String.eqb k "enum"))). }
  split; [rewrite aget_aset_ne, aget_aset_eq by easy; reflexivity|]. split; [apply aget_aset_eq|]. split; [rewrite !aget_aset_ne, K by easy; reflexivity|].
  intros k N1 N2 N3. rewrite !aget_aset_ne, K by congruence. apply String.eqb_neq in N1, N2, N3. unfold dict_key. now rewrite N1, N2, N3.
Qed.

(** Every outer reference is replaced. *)
Lemma rewrite_refs : forall d j j1, rewrite d j = Ok j1 -> forall p m, outer_ref j p m -> exists m1 vs, jget p j1 = Some (JObj m1) /\ names_dict d m vs /\ replaced m m1 vs.
Proof.
  intros d j. induction j as [| | | |l IH|m0 IH] using json_ind'; intros j1 E p m O.
  1-4: destruct p as [|[] p]; destruct O as (J & _); discriminate.
  - rewrite rewrite_arr in E. destruct (rw_list d l) as [l1|] eqn:R; [|discriminate]. injection E as <-. destruct p as [|[k|i] p]; [destruct O as (J & _); discriminate|destruct O as (J & _); discriminate|].
    apply outer_at in O as (x & N & O). apply rw_list_ok in R. rewrite Forall_forall in IH. cbn [jget].
    assert (exists y, nth_error l1 i = Some y /\ rewrite d x = Ok y) as (y & Ny & Y).
    { clear -R N. revert i N. induction R as [|a b la lb H R IHR]; intros [|i] N; try discriminate; cbn in *; [injection N as ->; eauto|auto]. }
    rewrite Ny. apply (IH x); auto. eapply nth_error_In; eauto.
  - destruct (aget dict_key m0) as [x|] eqn:X.
    + destruct (outer_in_ref _ _ _ _ X O) as [-> ->]. destruct (rewrite_ref _ _ _ _ X E) as (m1 & vs & -> & A & B). exists m1, vs. auto.
    + rewrite rewrite_obj in E by exact X. destruct (rw_map d m0) as [m1|] eqn:R; [|discriminate]. injection E as <-. destruct p as [|[k|i] p]; [|apply outer_key in O as (x & K & O); [|exact X]|destruct O as (J & _); discriminate].
      * destruct O as (J & (y & Y) & _). injection J as <-. unfold dict_key in X. congruence.
      * destruct (rw_map_ok _ _ _ R) as (_ & B & _). destruct (B k x K) as (y & Y & Ky). cbn [jget]. rewrite Ky. rewrite Forall_forall in IH. apply (IH (k, x)); auto. now apply aget_Some_in.
Qed.
(** Outside references nothing changes. *)
Lemma rewrite_rest : forall d j j1, rewrite d j = Ok j1 -> forall p, (forall a b, p = a ++ b -> ~ is_ref j a) -> option_map top_of (jget p j1) = option_map top_of (jget p j).
Proof.
  intros d j. induction j as [| | | |l IH|m0 IH] using json_ind'; intros j1 E p O.
  1-4: injection E as <-; reflexivity.
  - rewrite rewrite_arr in E. destruct (rw_list d l) as [l1|] eqn:R; [|discriminate]. injection E as <-. apply rw_list_ok in R. destruct p as [|[k|i] p]; [|reflexivity|].
    + cbn. do 2 f_equal. clear -R. induction R; cbn; congruence.
    + cbn [jget]. destruct (nth_error l i) as [x|] eqn:N.
      * assert (exists y, nth_error l1 i = Some y /\ rewrite d x = Ok y) as (y & Ny & Y).
        { clear -R N. revert i N. induction R as [|a b la lb H R IHR]; intros [|i] N; try discriminate; cbn in *; [injection N as ->; eauto|auto]. }
        rewrite Ny. rewrite Forall_forall in IH. apply (IH x); auto; [eapply nth_error_In; eauto|]. intros a b -> Rf. apply (O (At i :: a) b eq_refl). apply is_ref_at. eauto.
      * assert (L : length l1 = length l) by (clear -R; induction R; cbn; congruence). apply nth_error_None in N. rewrite <- L in N. apply nth_error_None in N. now rewrite N.
  - assert (X : aget dict_key m0 = None). { destruct (aget dict_key m0) as [x|] eqn:X; [|reflexivity]. exfalso. apply (O [] p eq_refl). exists m0, x. auto. }
    rewrite rewrite_obj in E by exact X. destruct (rw_map d m0) as [m1|] eqn:R; [|discriminate]. injection E as <-. destruct (rw_map_ok _ _ _ R) as (A & B & C). destruct p as [|[k|i] p]; [cbn; now rewrite A| |reflexivity].
    cbn [jget]. destruct (aget k m0) as [x|] eqn:K; [|now rewrite C]. destruct (B k x K) as (y & Y & ->). rewrite Forall_forall in IH. apply (IH (k, x)); auto; [now apply aget_Some_in|].
    intros a b -> Rf. apply (O (Key k :: a) b eq_refl). apply is_ref_key. eauto.
Qed.
(** It fails exactly when an outer reference names no dictionary. *)
Lemma rewrite_fails : forall d j e, wf_json j -> rewrite d j = Err e -> exists p m, outer_ref j p m /\ forall vs, ~ names_dict d m vs.
Proof.
  intros d j. induction j as [| | | |l IH|m0 IH] using json_ind'; intros e W E; try discriminate.
  - rewrite rewrite_arr in E. destruct (rw_list d l) as [l1|e1] eqn:R; [discriminate|]. injection E as ->. apply rw_list_err in R as (i & x & N & X). rewrite Forall_forall in IH. pose proof (nth_error_In _ _ N) as I.
    destruct (IH x I e (wf_arr _ _ W I) X) as (p & m & O & F). exists (At i :: p), m. split; [apply outer_at; eauto|exact F].
  - destruct (wf_obj _ W) as [Nd Wk]. destruct (aget dict_key m0) as [x|] eqn:X.
    + exists [], m0. split; [now apply (outer_here _ x)|]. intros vs (name & A & B). unfold dict_key in X. rewrite A in X. injection X as <-. cbn [rewrite] in E. unfold dict_key in E. rewrite A, B in E. discriminate.
    + rewrite rewrite_obj in E by exact X. destruct (rw_map d m0) as [m1|e1] eqn:R; [discriminate|]. injection E as ->. destruct (rw_map_err _ _ _ Nd R) as (k & x & K & Xe). rewrite Forall_forall in IH.
      destruct (IH (k, x) (aget_Some_in _ _ _ K) e (Wk k x K) Xe) as (p & m & O & F). exists (Key k :: p), m. split; [apply outer_key; eauto|exact F].
Qed.
Lemma rewrite_total : forall d j, wf_json j -> (exists j1, rewrite d j = Ok j1) <-> forall p m, outer_ref j p m -> exists vs, names_dict d m vs.
Proof.
  intros d j W. split.
  - intros (j1 & E) p m O. destruct (rewrite_refs _ _ _ E p m O) as (m1 & vs & _ & N & _). eauto.
  - intros H. destruct (rewrite d j) as [j1|e] eqn:E; [eauto|]. destruct (rewrite_fails _ _ _ W E) as (p & m & O & F). destruct (H p m O) as (vs & N). now elim (F vs).
Qed.
(** [references] finds exactly the schemas with a reference. *)
Lemma references_iff : forall j, wf_json j -> (references j = true <-> exists p m, outer_ref j p m).
Proof.
  intros j. induction j as [| | | |l IH|m0 IH] using json_ind'; intros W.
  1-4: split; [discriminate|intros ([|[] p] & m & J & _); discriminate].
  - assert (Ex : references (JArr l) = existsb references l) by (cbn; clear; induction l as [|x l IHl]; cbn; [reflexivity|now rewrite IHl]). rewrite Ex, existsb_exists. rewrite Forall_forall in IH. split.
    + intros (x & I & R). apply (IH x I (wf_arr _ _ W I)) in R as (p & m & O). apply In_nth_error in I as (i & N). exists (At i :: p), m. apply outer_at. eauto.
    + intros ([|[k|i] p] & m & O); [destruct O as (J & _); discriminate|destruct O as (J & _); discriminate|]. apply outer_at in O as (x & N & O). pose proof (nth_error_In _ _ N) as I. exists x. split; [exact I|]. apply (IH x I (wf_arr _ _ W I)). eauto.
  - assert (Ex : references (JObj m0) = amem dict_key m0 || existsb (fun e => references (snd e)) m0) by (cbn [references]; f_equal).
    destruct (wf_obj _ W) as [Nd Wk]. rewrite Ex, amem_aget. rewrite Forall_forall in IH. destruct (aget dict_key m0) as [x|] eqn:X; cbn [orb].
    + split; [intros _; exists [], m0; now apply (outer_here _ x)|reflexivity].
    + rewrite existsb_exists. split.
      * intros ([k x] & I & R). cbn in R. pose proof (aget_in_nodup _ _ _ Nd I) as K. apply (IH (k, x) I (Wk k x K)) in R as (p & m & O). exists (Key k :: p), m. apply outer_key; eauto.
      * intros ([|[k|i] p] & m & O); [destruct O as (J & (y & Y) & _); injection J as <-; unfold dict_key in X; congruence| |destruct O as (J & _); discriminate].
        apply outer_key in O as (x & K & O); [|exact X]. pose proof (aget_Some_in _ _ _ K) as I. exists (k, x). split; [exact I|]. cbn. apply (IH (k, x) I (Wk k x K)). eauto.
Qed.
