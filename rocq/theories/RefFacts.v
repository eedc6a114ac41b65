(** Writing and reading references. *)
From Coq Require Import String Ascii ZArith NArith Lia Bool List Arith Permutation DecimalString DecimalN.
From Verif Require Import Base Dec Value RefSer RefSpec TemplateSpec.
Import ListNotations.
Local Open Scope string_scope.
Local Open Scope list_scope.
Local Open Scope nat_scope.

(** *** Names of references *)
Lemma to_uint_nil : forall n, N.to_uint n <> Decimal.Nil.
Proof. intros n E. pose proof (DecimalN.Unsigned.of_to n) as H. rewrite E in H. cbn in H. subst n. discriminate. Qed.
Lemma parse_show : forall i, (N.of_nat i < 2 ^ 64)%N -> parse_ref_id (show_ref i) = Some i.
Proof.
  intros i B. unfold parse_ref_id, show_ref, parse_usize. pose proof (to_uint_nil (N.of_nat i)) as N0. pose proof (NilEmpty.usu (N.to_uint (N.of_nat i))) as U. pose proof (DecimalN.Unsigned.of_to (N.of_nat i)) as O.
  assert (G : forall s, NilEmpty.uint_of_string s = Some (N.to_uint (N.of_nat i)) -> s <> "" -> match NilEmpty.uint_of_string s with Some u => if N.ltb (N.of_uint u) (2 ^ 64) then Some (N.to_nat (N.of_uint u)) else None | None => None end = Some i).
  { intros s E _. rewrite E, O. apply N.ltb_lt in B. now rewrite B, Nnat.Nat2N.id. }
  destruct (N.to_uint (N.of_nat i)) eqn:E; [now elim N0| | | | | | | | | |]; cbn [NilEmpty.string_of_uint] in *; apply G; (exact U || discriminate).
Qed.
Lemma parse_escape : forall s, parse_ref_id (escape s) = None.
Proof. intros [|[[] [] [] [] [] [] [] []] s]; try reflexivity. cbn. destruct (NilEmpty.uint_of_string s); reflexivity. Qed.
Lemma unescape_escape : forall s, unescape (escape s) = s.
Proof. intros [|[[] [] [] [] [] [] [] []] s]; reflexivity. Qed.
Lemma addr_eqb_ok : forall a b, addr_eqb a b = true <-> a = b.
Proof.
  intros [s|l] [t|m]; cbn; try (split; congruence); [rewrite String.eqb_eq|rewrite Nat.eqb_eq]; split; congruence.
Qed.
Lemma idx_nth : forall tbl a i, idx tbl a = Some i -> nth_error tbl i = Some a.
Proof.
  induction tbl as [|b tbl IH]; intros a i E; [discriminate|]. cbn in E. destruct (addr_eqb b a) eqn:Q; [injection E as <-; apply addr_eqb_ok in Q as ->; reflexivity|].
  destruct (idx tbl a) as [k|] eqn:Ek; [|discriminate]. injection E as <-. now apply IH.
Qed.
Lemma nth_idx : forall tbl i a, NoDup tbl -> nth_error tbl i = Some a -> idx tbl a = Some i.
Proof.
  induction tbl as [|b tbl IH]; intros i a N E; [destruct i; discriminate|]. inversion N as [|? ? N1 N2]; subst. cbn. destruct i as [|i].
  - injection E as ->. now rewrite (proj2 (addr_eqb_ok a a) eq_refl).
  - cbn in E. destruct (addr_eqb b a) eqn:Q; [apply addr_eqb_ok in Q as ->; elim N1; now apply nth_error_In in E|]. now rewrite (IH i a N2 E).
Qed.

Section Enc.
  Variables (dv : dyn -> tree) (tbl : list addr) (h : heap).
  Definition estr (s : string) : string := match idx tbl (AStr s) with Some i => show_ref i | None => escape s end.
  Inductive enc : value -> tree -> Prop :=
  | ENull : enc VNull TNull
  | EBool : forall b, enc (VBool b) (TBool b)
  | ENum : forall d, enc (VNum d) (TNum d)
  | EStr : forall s, enc (VStr s) (TStr (estr s))
  | ERefA : forall l i, idx tbl (ALoc l) = Some i -> enc (VArr l) (TStr (show_ref i))
  | ERefO : forall l i, idx tbl (ALoc l) = Some i -> enc (VObj l) (TStr (show_ref i))
  | EArr : forall l a js, idx tbl (ALoc l) = None -> hget h l = Some (CArr a) -> Forall2 enc a js -> enc (VArr l) (TArr js)
  | EObj : forall l m js, idx tbl (ALoc l) = None -> hget h l = Some (CObj m) -> Forall2 (fun e j => fst j = estr (fst e) /\ enc (snd e) (snd j)) m js -> enc (VObj l) (TObj js).
  Definition enc_entry (e : string * value) (j : string * tree) : Prop := fst j = estr (fst e) /\ enc (snd e) (snd j).
  Definition body (a : addr) (j : tree) : Prop :=
    match a with
    | AStr s => j = TStr (escape s)
    | ALoc l => (exists a js, hget h l = Some (CArr a) /\ Forall2 enc a js /\ j = TArr js) \/ (exists m js, hget h l = Some (CObj m) /\ Forall2 enc_entry m js /\ j = TObj js)
    end.
  Lemma body_null : forall a j, body a j -> j <> TNull.
  Proof. intros [s|l] j; [intros -> ; discriminate|intros [(a & js & _ & _ & ->)|(a & js & _ & _ & ->)]; discriminate]. Qed.
  Definition slots_ok (data : list tree) : Prop := length data = length tbl /\ forall i j, nth_error data i = Some j -> j <> TNull -> exists a, nth_error tbl i = Some a /\ body a j.
  Definition grows (data data2 : list tree) : Prop := forall i j, nth_error data i = Some j -> j <> TNull -> nth_error data2 i = Some j.
  Definition filled (data : list tree) (a : addr) : Prop := forall i, idx tbl a = Some i -> exists j, nth_error data i = Some j /\ j <> TNull.
  Lemma grows_refl : forall d, grows d d.
  Proof. intros d i j E _. exact E. Qed.
  Lemma grows_trans : forall a b c, grows a b -> grows b c -> grows a c.
  Proof. intros a b c G1 G2 i j E N. apply G2; [now apply G1|exact N]. Qed.
  Lemma grows_filled : forall a b x, grows a b -> filled a x -> filled b x.
  Proof. intros a b x G F i E. destruct (F i E) as (j & E2 & N). eauto. Qed.
  Lemma fill_ok : forall data a i x, slots_ok data -> idx tbl a = Some i -> body a x -> slots_ok (fill i x data) /\ grows data (fill i x data) /\ filled (fill i x data) a.
  Proof.
    intros data a i x [L S0] Ei B. pose proof (idx_nth _ _ _ Ei) as Nt. assert (Li : i < length data) by (rewrite L; apply nth_error_Some; congruence). unfold fill.
    destruct (nth_error data i) as [j|] eqn:Ej; [|apply nth_error_Some in Li; congruence].
    assert (Upd : slots_ok (lupd i x data) /\ (j = TNull -> grows data (lupd i x data)) /\ filled (lupd i x data) a).
    { split; [|split].
      - split; [now rewrite lupd_length|]. intros k y Ek Ny. destruct (Nat.eq_dec i k) as [<-|Ne].
        + rewrite nth_lupd_eq in Ek by exact Li. injection Ek as <-. eauto.
        + rewrite nth_lupd_ne in Ek by exact Ne. eauto.
      - intros -> k y Ek Ny. destruct (Nat.eq_dec i k) as [<-|Ne]; [congruence|]. now rewrite nth_lupd_ne.
      - intros k Ek. rewrite Ei in Ek. injection Ek as <-. exists x. split; [now apply nth_lupd_eq|now apply body_null with a]. }
    destruct Upd as (U1 & U2 & U3).
    destruct j; try (split; [split; assumption|]; split; [apply grows_refl|]; intros k Ek; rewrite Ei in Ek; injection Ek as <-; eexists; split; [exact Ej|discriminate]). auto.
  Qed.
  Lemma ser_str_ok : forall s data, slots_ok data -> exists data2, ser_str tbl s data = (estr s, data2) /\ slots_ok data2 /\ grows data data2 /\ filled data2 (AStr s).
  Proof.
    intros s data K. unfold ser_str, estr. destruct (idx tbl (AStr s)) as [i|] eqn:E.
    - destruct (fill_ok data (AStr s) i (TStr (escape s)) K E eq_refl) as (A & B & C). eauto.
    - exists data. split; [reflexivity|]. split; [exact K|]. split; [apply grows_refl|]. intros i Ei. congruence.
  Qed.
  Lemma ser_loc_ok : forall l x data, slots_ok data -> body (ALoc l) x -> exists data2, snd (ser_loc tbl l x data) = data2 /\ slots_ok data2 /\ grows data data2 /\ filled data2 (ALoc l) /\
    fst (ser_loc tbl l x data) = match idx tbl (ALoc l) with None => x | Some i => TStr (show_ref i) end.
  Proof.
    intros l x data K B. unfold ser_loc. destruct (idx tbl (ALoc l)) as [i|] eqn:E.
    - destruct (fill_ok data (ALoc l) i x K E B) as (F1 & F2 & F3). cbn. eexists. repeat split; eauto; apply F1.
    - cbn. exists data. repeat split; eauto; [apply K|apply K|apply grows_refl|]. intros i Ei. congruence.
  Qed.
  (** The inner loops. *)
  Fixpoint ser_items (n : nat) (a : list value) (data : list tree) : option (list tree * list tree) :=
    match a with
    | [] => Some ([], data)
    | x :: r => match ser dv tbl n h x data with Some (j, data) => match ser_items n r data with Some (js, data) => Some (j :: js, data) | None => None end | None => None end
    end.
  Fixpoint ser_entries (n : nat) (m : amap value) (out : amap tree) (data : list tree) : option (amap tree * list tree) :=
    match m with
    | [] => Some (out, data)
    | (k, x) :: r => let (key, data) := ser_str tbl k data in match ser dv tbl n h x data with Some (j, data) => ser_entries n r (aset key j out) data | None => None end
    end.
  Fixpoint cnt_items (n : nat) (a : list value) : option (list addr) :=
    match a with [] => Some [] | x :: r => match counted n h x, cnt_items n r with Some p, Some q => Some (p ++ q) | _, _ => None end end.
  Fixpoint cnt_entries (n : nat) (m : amap value) : option (list addr) :=
    match m with [] => Some [] | (k, x) :: r => match counted n h x, cnt_entries n r with Some p, Some q => Some (AStr k :: p ++ q) | _, _ => None end end.
  Lemma ser_arr_eq : forall n l a data, hget h l = Some (CArr a) -> ser dv tbl (S n) h (VArr l) data = match ser_items n a data with Some (js, data) => Some (ser_loc tbl l (TArr js) data) | None => None end.
  Proof.
    intros n l a data E. cbn [ser]. unfold harr. rewrite E. match goal with |- match ?f a data with _ => _ end = _ => assert (G : forall a data, f a data = ser_items n a data) end.
    { induction a0 as [|x r IH]; intros d0; [reflexivity|]. cbn [ser_items]. destruct (ser dv tbl n h x d0) as [[j d1]|]; [|reflexivity]. now rewrite IH. }
    now rewrite G.
  Qed.
  Lemma ser_obj_eq : forall n l m data, hget h l = Some (CObj m) -> ser dv tbl (S n) h (VObj l) data = match ser_entries n m [] data with Some (js, data) => Some (ser_loc tbl l (TObj js) data) | None => None end.
  Proof.
    intros n l m data E. cbn [ser]. unfold hobj. rewrite E. match goal with |- match ?f m [] data with _ => _ end = _ => assert (G : forall m out data, f m out data = ser_entries n m out data) end.
    { induction m0 as [|[k x] r IH]; intros out d0; [reflexivity|]. cbn [ser_entries]. destruct (ser_str tbl k d0) as [key d1]. destruct (ser dv tbl n h x d1) as [[j d2]|]; [|reflexivity]. now rewrite IH. }
    now rewrite G.
  Qed.
  Lemma cnt_arr_eq : forall n l a, hget h l = Some (CArr a) -> counted (S n) h (VArr l) = match cnt_items n a with Some p => Some (ALoc l :: p) | None => None end.
  Proof.
    intros n l a E. cbn [counted]. unfold harr. rewrite E. match goal with |- match ?f a with _ => _ end = _ => assert (G : forall a, f a = cnt_items n a) end.
    { induction a0 as [|x r IH]; [reflexivity|]. cbn [cnt_items]. now rewrite IH. }
    now rewrite G.
  Qed.
  Lemma cnt_obj_eq : forall n l m, hget h l = Some (CObj m) -> counted (S n) h (VObj l) = match cnt_entries n m with Some p => Some (ALoc l :: p) | None => None end.
  Proof.
    intros n l m E. cbn [counted]. unfold hobj. rewrite E. match goal with |- match ?f m with _ => _ end = _ => assert (G : forall m, f m = cnt_entries n m) end.
    { induction m0 as [|[k x] r IH]; [reflexivity|]. cbn [cnt_entries]. now rewrite IH. }
    now rewrite G.
  Qed.
  Hypothesis bound : (N.of_nat (length tbl) <= 2 ^ 64)%N.
  Lemma idx_bound : forall a i, idx tbl a = Some i -> (N.of_nat i < 2 ^ 64)%N.
  Proof. intros a i E. apply idx_nth in E. assert (i < length tbl) by (apply nth_error_Some; congruence). lia. Qed.
  Lemma estr_inj : forall s t, estr s = estr t -> s = t.
  Proof.
    intros s t E. unfold estr in E. destruct (idx tbl (AStr s)) as [i|] eqn:Ei; destruct (idx tbl (AStr t)) as [j|] eqn:Ej.
    - apply (f_equal parse_ref_id) in E. rewrite !parse_show in E by (eapply idx_bound; eauto). injection E as ->. apply idx_nth in Ei, Ej. congruence.
    - apply (f_equal parse_ref_id) in E. rewrite parse_show, parse_escape in E by (eapply idx_bound; eauto). discriminate.
    - apply (f_equal parse_ref_id) in E. rewrite parse_show, parse_escape in E by (eapply idx_bound; eauto). discriminate.
    - apply (f_equal unescape) in E. now rewrite !unescape_escape in E.
  Qed.
  Definition ser_good (n : nat) (v : value) : Prop := forall data, slots_ok data -> exists j data2 occ, ser dv tbl n h v data = Some (j, data2) /\ enc v j /\ slots_ok data2 /\ grows data data2 /\
    counted n h v = Some occ /\ forall a, In a occ -> filled data2 a.
  Lemma ser_items_ok : forall n a, Forall (ser_good n) a -> forall data, slots_ok data -> exists js data2 occ, ser_items n a data = Some (js, data2) /\ Forall2 enc a js /\ slots_ok data2 /\ grows data data2 /\
    cnt_items n a = Some occ /\ forall x, In x occ -> filled data2 x.
  Proof.
    intros n a F. induction F as [|v a G F IH]; intros data K.
    - exists [], data, []. repeat split; try constructor; try apply K; try apply grows_refl. intros x [].
    - destruct (G data K) as (j & d1 & o1 & E1 & N1 & K1 & G1 & C1 & F1). destruct (IH d1 K1) as (js & d2 & o2 & E2 & N2 & K2 & G2 & C2 & F2).
      exists (j :: js), d2, (o1 ++ o2). cbn [ser_items cnt_items]. rewrite E1, E2, C1, C2. split; [reflexivity|]. split; [now constructor|]. split; [exact K2|]. split; [now apply grows_trans with d1|]. split; [reflexivity|].
      intros x I0. apply in_app_iff in I0 as [I0|I0]; [apply grows_filled with d1; auto|auto].
  Qed.
  Lemma aset_app : forall (k : string) (j : tree) (out : amap tree), ~ In k (akeys out) -> aset k j out = out ++ [(k, j)].
  Proof.
    induction out as [|[k2 x] out IH]; intros N; [reflexivity|]. cbn. destruct (String.eqb_spec k2 k) as [->|Ne]; [elim N; now left|]. rewrite IH; [reflexivity|]. intros I0. apply N. now right.
  Qed.
  Lemma ser_entries_ok : forall n m, Forall (fun e => ser_good n (snd e)) m -> forall out data, slots_ok data -> NoDup (akeys out ++ map (fun e => estr (fst e)) m) ->
    exists js data2 occ, ser_entries n m out data = Some (out ++ js, data2) /\ Forall2 enc_entry m js /\ slots_ok data2 /\ grows data data2 /\ cnt_entries n m = Some occ /\ forall x, In x occ -> filled data2 x.
  Proof.
    intros n m F. induction F as [|[k v] m G F IH]; intros out data K N.
    - exists [], data, []. rewrite app_nil_r. repeat split; try constructor; try apply K; try apply grows_refl. intros x [].
    - destruct (ser_str_ok k data K) as (d0 & E0 & K0 & G0 & F0). destruct (G d0 K0) as (j & d1 & o1 & E1 & N1 & K1 & G1 & C1 & F1). cbn [snd] in *. cbn [map fst] in N.
      assert (Na : ~ In (estr k) (akeys out)) by (intros I0; apply NoDup_remove_2 in N; apply N; apply in_or_app; now left).
      destruct (IH (out ++ [(estr k, j)]) d1 K1) as (js & d2 & o2 & E2 & N2 & K2 & G2 & C2 & F2).
      { unfold akeys. rewrite map_app. cbn [map fst]. now rewrite <- app_assoc. }
      exists ((estr k, j) :: js), d2, (AStr k :: o1 ++ o2). cbn [ser_entries cnt_entries]. rewrite E0, E1, (aset_app _ _ _ Na), E2, C1, C2, <- app_assoc. split; [reflexivity|]. split; [constructor; [split; [reflexivity|exact N1]|exact N2]|].
      split; [exact K2|]. split; [apply grows_trans with d1; [now apply grows_trans with d0|exact G2]|]. split; [reflexivity|].
      intros x [<-|I0]; [apply grows_filled with d0; [now apply grows_trans with d1|exact F0]|]. apply in_app_iff in I0 as [I0|I0]; [apply grows_filled with d1; auto|auto].
  Qed.
  Hypothesis wf : wf_heap h.
  Lemma ser_ok : forall t v n, repr h v t -> plain_data t -> depth t <= n -> ser_good n v.
  Proof.
    induction t using tree_ind'; intros v n R P L; inversion R; subst; cbn [depth] in L; (destruct n as [|n]; [lia|]); intros data K.
    - exists TNull, data, []. repeat split; try constructor; try apply K; try apply grows_refl. intros x [].
    - exists (TBool b), data, []. repeat split; try constructor; try apply K; try apply grows_refl. intros x [].
    - exists (TNum d), data, []. repeat split; try constructor; try apply K; try apply grows_refl. intros x [].
    - destruct (ser_str_ok s data K) as (d0 & E0 & K0 & G0 & F0). exists (TStr (estr s)), d0, (if String.length s <? 5 then [] else [AStr s]). cbn [ser counted]. rewrite E0. split; [reflexivity|]. split; [constructor|]. split; [exact K0|]. split; [exact G0|]. split; [reflexivity|].
      intros x I0. destruct (String.length s <? 5); [destruct I0|]. destruct I0 as [<-|[]]. exact F0.
    - rename l into lc, a0 into vs. match goal with E : hget h lc = _, FF : Forall2 (repr h) vs a |- _ => rename E into Eg; rename FF into Fr end. inversion P as [| | | |? Pa|]; subst. apply le_S_n in L.
      assert (G : Forall (ser_good n) vs).
      { clear Eg R P. revert H L Pa. induction Fr as [|x y vs ts Rx F IHF]; intros H L Pa; [constructor|]. inversion H; subst. inversion Pa; subst. cbn [fold_right] in L. constructor; [match goal with Hx : forall v n, repr h v y -> _ |- _ => apply Hx; [exact Rx|assumption|lia] end|apply IHF; [assumption|lia|assumption]]. }
      destruct (ser_items_ok n vs G data K) as (js & d1 & occ & E1 & N1 & K1 & G1 & C1 & F1). rewrite (ser_arr_eq n lc vs data Eg), E1.
      assert (B : body (ALoc lc) (TArr js)) by (left; eauto). destruct (ser_loc_ok lc (TArr js) d1 K1 B) as (d2 & E2 & K2 & G2 & F2 & Ef).
      destruct (ser_loc tbl lc (TArr js) d1) as [j d3] eqn:Es. cbn [fst snd] in *. subst d3. exists j, d2, (ALoc lc :: occ). split; [reflexivity|]. split; [|split; [exact K2|split; [now apply grows_trans with d1|split]]].
      + subst j. destruct (idx tbl (ALoc lc)) eqn:Ei; [now apply ERefA|now apply EArr with vs].
      + rewrite (cnt_arr_eq n lc vs Eg), C1. reflexivity.
      + intros x [<-|I0]; [exact F2|]. apply grows_filled with d1; auto.
    - rename l into lc, m0 into vs. match goal with E : hget h lc = _, FF : Forall2 _ vs m |- _ => rename E into Eg; rename FF into Fr end. inversion P as [| | | | |? Pm]; subst. apply le_S_n in L.
      assert (G : Forall (fun e => ser_good n (snd e)) vs).
      { clear Eg R P. revert H L Pm. induction Fr as [|x y vs ts Rx F IHF]; intros H L Pm; [constructor|]. inversion H; subst. inversion Pm; subst. cbn [fold_right] in L. destruct Rx as [_ Rx]. constructor; [match goal with Hx : forall v n, repr h v (snd y) -> _ |- _ => apply Hx; [exact Rx|assumption|lia] end|apply IHF; [assumption|lia|assumption]]. }
      assert (Nk : NoDup (map (fun e => estr (fst e)) vs)).
      { destruct (wf lc _ Eg) as [Nv _]. unfold akeys in Nv. rewrite <- (map_map fst estr). apply FinFun.Injective_map_NoDup; [|exact Nv]. intros x y. apply estr_inj. }
      destruct (ser_entries_ok n vs G [] data K Nk) as (js & d1 & occ & E1 & N1 & K1 & G1 & C1 & F1). rewrite (ser_obj_eq n lc vs data Eg), E1. cbn [app].
      assert (B : body (ALoc lc) (TObj js)) by (right; eauto). destruct (ser_loc_ok lc (TObj js) d1 K1 B) as (d2 & E2 & K2 & G2 & F2 & Ef).
      destruct (ser_loc tbl lc (TObj js) d1) as [j d3] eqn:Es. cbn [fst snd] in *. subst d3. exists j, d2, (ALoc lc :: occ). split; [reflexivity|]. split; [|split; [exact K2|split; [now apply grows_trans with d1|split]]].
      + subst j. destruct (idx tbl (ALoc lc)) eqn:Ei; [now apply ERefO|now apply EObj with vs].
      + rewrite (cnt_obj_eq n lc vs Eg), C1. reflexivity.
      + intros x [<-|I0]; [exact F2|]. apply grows_filled with d1; auto.
    - inversion P.
  Qed.
End Enc.
