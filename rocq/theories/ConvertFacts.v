(** Lemmas for C50. *)
From Coq Require Import String Ascii ZArith QArith Lia Bool List Arith.
From Verif Require Import Base Dec Value Heap HeapSpec TreeFacts HeapFacts HeapClaims Json FnSpec FnFacts Funcs Convert ConvertSpec.
Import ListNotations.
Local Open Scope string_scope.
Local Open Scope list_scope.
Local Open Scope Z_scope.

(** ** Numbers *)
Lemma digit_same : forall c, digit_value c = digit_val c.
Proof.
  intros c. unfold digit_value, digit_val. destruct ((48 <=? nat_of_ascii c)%nat && (nat_of_ascii c <=? 57)%nat) eqn:E; [|reflexivity].
  apply andb_true_iff in E as [E _]. apply Nat.leb_le in E. f_equal. lia.
Qed.
Lemma digit_bound : forall c v, digit_val c = Some v -> 0 <= v.
Proof. intros c v. unfold digit_val. destruct (_ && _); [|discriminate]. injection 1 as <-. lia. Qed.
Lemma read_frac_mono : forall s m k m1 k1, 0 <= m -> read_frac m k s = Some (m1, k1) -> m <= m1 /\ (k <= k1)%nat.
Proof.
  induction s as [|c s IH]; cbn [read_frac]; intros m k m1 k1 P H; [injection H as <- <-; lia|].
  destruct (digit_val c) as [v|] eqn:D; [|discriminate]. apply digit_bound in D. apply IH in H; lia.
Qed.
Lemma read_unsigned_mono : forall s m m1 k1, 0 <= m -> read_unsigned m s = Some (m1, k1) -> m <= m1.
Proof.
  induction s as [|c s IH]; cbn [read_unsigned]; intros m m1 k1 P H; [injection H as <- <-; lia|].
  destruct (Ascii.eqb c "."); [apply read_frac_mono in H; lia|].
  destruct (digit_val c) as [v|] eqn:D; [|discriminate]. apply digit_bound in D. apply IH in H; lia.
Qed.
Definition bounded (o : option (Z * nat)) : option dec := match o with Some (m, k) => if fits m k then Some (Dec m k) else None | None => None end.
Lemma fits_le : forall m k m1 k1, 0 <= m <= m1 -> (k <= k1)%nat -> fits m k = false -> fits m1 k1 = false.
Proof.
  intros m k m1 k1 A B H. unfold fits in *. apply andb_false_iff in H. apply andb_false_iff. rewrite !Z.ltb_ge, !Nat.leb_gt in *. lia.
Qed.
Lemma scan_frac : forall s m k, 0 <= m -> fits m k = true -> scan s m k true = bounded (read_frac m k s).
Proof.
  induction s as [|c s IH]; intros m k P F; cbn [scan read_frac]; [unfold bounded; now rewrite F|].
  cbn [negb andb]. rewrite digit_same. destruct (digit_val c) as [v|] eqn:D; [|reflexivity]. apply digit_bound in D.
  rewrite Z.mul_comm. destruct (fits (10 * m + v) (S k)) eqn:E; [apply IH; [lia|exact E]|].
  unfold bounded. destruct (read_frac (10 * m + v) (S k) s) as [[m1 k1]|] eqn:R; [|reflexivity].
  pose proof (read_frac_mono s (10 * m + v) (S k) m1 k1 ltac:(lia) R). rewrite (fits_le (10 * m + v) (S k) m1 k1 ltac:(lia) ltac:(lia) E). reflexivity.
Qed.
Lemma scan_num : forall s m, 0 <= m -> fits m 0 = true -> scan s m 0 false = bounded (read_unsigned m s).
Proof.
  induction s as [|c s IH]; intros m P F; cbn [scan read_unsigned]; [unfold bounded; now rewrite F|].
  cbn [negb andb]. destruct (Ascii.eqb c "."); [now apply scan_frac|].
  rewrite digit_same. destruct (digit_val c) as [v|] eqn:D; [|reflexivity]. apply digit_bound in D.
  rewrite Z.mul_comm. destruct (fits (10 * m + v) 0) eqn:E; [apply IH; [lia|exact E]|].
  unfold bounded. destruct (read_unsigned (10 * m + v) s) as [[m1 k1]|] eqn:R; [|reflexivity].
  pose proof (read_unsigned_mono s (10 * m + v) m1 k1 ltac:(lia) R). rewrite (fits_le (10 * m + v) 0 m1 k1 ltac:(lia) ltac:(lia) E). reflexivity.
Qed.
Lemma exact_read : forall s, exact s = bounded (read_numeral s).
Proof.
  intros [|c s]; [reflexivity|]. unfold read_numeral. destruct (Ascii.eqb c "-") eqn:E.
  - apply Ascii.eqb_eq in E. subst c. cbn [exact]. rewrite scan_num by (try reflexivity; lia).
    destruct (read_unsigned 0 s) as [[m k]|]; [|reflexivity]. cbn. unfold bounded. unfold fits. rewrite Z.abs_opp. destruct (_ && _); reflexivity.
  - replace (exact (String c s)) with (scan (String c s) 0 0 false); [apply scan_num; [lia|reflexivity]|].
    unfold exact. destruct c as [[] [] [] [] [] [] [] []]; try reflexivity. discriminate E.
Qed.
Lemma strip_spec : forall k m, m <> 0 -> exists e, scale (strip k m) = (k - e)%nat /\ (e <= k)%nat /\ m = mant (strip k m) * 10 ^ Z.of_nat e /\
  (scale (strip k m) = 0%nat \/ mant (strip k m) mod 10 <> 0).
Proof.
  induction k as [|k IH]; intros m N; cbn [strip].
  - exists 0%nat. cbn. repeat split; try lia.
  - destruct (m mod 10 =? 0) eqn:E.
    + apply Z.eqb_eq in E. pose proof (Z.div_mod m 10 ltac:(lia)) as D. destruct (IH (m / 10) ltac:(lia)) as (e & A & B & C & F).
      exists (S e). split; [lia|]. split; [lia|]. split; [|exact F].
      rewrite Nat2Z.inj_succ, Z.pow_succ_r by lia. set (x := mant _) in *. nia.
    + apply Z.eqb_neq in E. exists 0%nat. cbn. repeat split; try lia.
Qed.
Definition normal (d : dec) : Prop := scale d = 0%nat \/ mant d mod 10 <> 0.
Lemma normalize_ok : forall d, normal (normalize d) /\ (dec_val (normalize d) == dec_val d)%Q /\ Z.abs (mant (normalize d)) <= Z.abs (mant d) /\ (scale (normalize d) <= scale d)%nat.
Proof.
  intros [m k]. unfold normalize. cbn [mant scale]. destruct (m =? 0) eqn:E.
  - apply Z.eqb_eq in E. subst m. split; [now left|]. split; [|cbn; lia]. unfold dec_val, Qeq. reflexivity.
  - apply Z.eqb_neq in E. destruct (strip_spec k m E) as (e & A & B & C & F). split; [exact F|].
    assert (P : 0 < 10 ^ Z.of_nat e) by (apply Z.pow_pos_nonneg; lia).
    split; [|split; [rewrite C at 2; rewrite Z.abs_mul, (Z.abs_eq (10 ^ _)) by lia; nia|lia]].
    unfold dec_val, Qeq. cbn [Qnum Qden mant scale]. rewrite !pos_pow10. rewrite C at 2. rewrite A. unfold pow10. rewrite <- Z.mul_assoc. f_equal.
    rewrite <- Z.pow_add_r by lia. f_equal. lia.
Qed.
Lemma normal_unique : forall a b, normal a -> normal b -> (dec_val a == dec_val b)%Q -> a = b.
Proof.
  assert (H : forall m k m1 k1, (k <= k1)%nat -> normal (Dec m1 k1) -> m * pow10 k1 = m1 * pow10 k -> m = m1 /\ k = k1).
  { intros m k m1 k1 L N E. replace k1 with (k + (k1 - k))%nat in E by lia. set (e := (k1 - k)%nat) in *.
    unfold pow10 in E. rewrite Nat2Z.inj_add, Z.pow_add_r in E by lia. assert (P : 0 < 10 ^ Z.of_nat k) by (apply Z.pow_pos_nonneg; lia).
    assert (E1 : m * 10 ^ Z.of_nat e = m1) by nia. destruct (Nat.eq_dec e 0) as [Z|Z]; [rewrite Z in E1; cbn in E1; lia|].
    destruct N as [N|N]; cbn in N; [lia|]. exfalso. apply N. rewrite <- E1. replace e with (S (e - 1)) by lia.
    rewrite Nat2Z.inj_succ, Z.pow_succ_r by lia. replace (m * (10 * 10 ^ Z.of_nat (e - 1))) with (m * 10 ^ Z.of_nat (e - 1) * 10) by lia. apply Z.mod_mul. lia. }
  intros [m k] [m1 k1] A B E. unfold dec_val, Qeq in E. cbn [Qnum Qden mant scale] in E. rewrite !pos_pow10 in E.
  destruct (Nat.le_ge_cases k k1) as [L|L]; [destruct (H m k m1 k1 L B E); congruence|destruct (H m1 k1 m k L A (eq_sym E)); congruence].
Qed.
Lemma out_parts : forall d, num_parts (number_out d) = Some (mant (normalize d), scale (normalize d)).
Proof. intros d. unfold number_out. destruct (normalize d) as [m [|k]]; cbn [scale mant num_parts]; [reflexivity|]. apply numeral_ok. Qed.
Lemma out_val : forall d, exists q, num_val (number_out d) = Some q /\ (q == dec_val d)%Q.
Proof. intros d. eexists. split; [unfold num_val; rewrite out_parts; reflexivity|]. cbn [fst snd]. destruct (normalize_ok d) as (_ & A & _). destruct (normalize d). exact A. Qed.
Lemma out_same : forall a b, number_out a = number_out b <-> dec_eqb a b = true.
Proof.
  intros a b. rewrite dec_eqb_val. destruct (normalize_ok a) as (Na & Va & _), (normalize_ok b) as (Nb & Vb & _). split; intros H.
  - assert (E : num_parts (number_out a) = num_parts (number_out b)) by now rewrite H. rewrite !out_parts in E.
    assert (E1 : normalize a = normalize b) by (destruct (normalize a), (normalize b); cbn in E; congruence). rewrite <- Va, <- Vb, E1. reflexivity.
  - unfold number_out. replace (normalize b) with (normalize a); [reflexivity|]. apply normal_unique; auto. now rewrite Va, Vb.
Qed.
Lemma in_exact : forall sci n, in_range n -> exists d q, number_in sci n = Some d /\ num_val n = Some q /\ (q == dec_val d)%Q /\ Z.abs (mant d) < 2 ^ 96 /\ (scale d <= 28)%nat.
Proof.
  intros sci n (m & k & P & A & B). assert (F : fits m k = true) by (unfold fits; apply andb_true_iff; rewrite Z.ltb_lt, Nat.leb_le; auto).
  exists (Dec m k). eexists. split; [|split; [unfold num_val; rewrite P; reflexivity|cbn [fst snd mant scale]; split; [reflexivity|auto]]].
  unfold number_in. destruct n as [z|s]; cbn [num_parts] in P.
  - injection P as <- <-. now rewrite F.
  - rewrite exact_read, P. cbn. now rewrite F.
Qed.
Lemma out_range : forall d, Z.abs (mant d) < 2 ^ 96 -> (scale d <= 28)%nat -> in_range (number_out d).
Proof. intros d A B. destruct (normalize_ok d) as (_ & _ & C & D). exists (mant (normalize d)), (scale (normalize d)). rewrite out_parts. split; [reflexivity|]. lia. Qed.

(** ** From JSON *)
(** The tree that a document becomes; [nt] is what a number becomes. *)
Fixpoint img (nt : num -> tree) (j : json) : tree :=
  match j with
  | JNull => TNull
  | JBool b => TBool b
  | JNum n => nt n
  | JStr s => TStr s
  | JArr l => TArr (map (img nt) l)
  | JObj m => TObj (insert_all (map (fun e => (fst e, img nt (snd e))) m) [])
  end.
Fixpoint nums (j : json) : list num :=
  match j with
  | JNum n => [n]
  | JArr l => flat_map nums l
  | JObj m => flat_map (fun e => nums (snd e)) m
  | _ => []
  end.
Fixpoint tokenless (j : json) : Prop :=
  match j with
  | JArr l => (fix go l := match l with [] => True | x :: r => tokenless x /\ go r end) l
  | JObj m => match m with [] => True | e :: _ => fst e <> number_token end /\ (fix go m := match m with [] => True | e :: r => tokenless (snd e) /\ go r end) m
  | _ => True
  end.
Section In.
  Context (sci : num -> option dec).
  Definition numtree (n : num) : tree := match number_in sci n with Some d => TNum d | None => TNull end.
  Fixpoint of_list (l : list json) (h : heap) : heap * list value :=
    match l with [] => (h, []) | j :: r => let (h, v) := of_json sci j h in let (h, vs) := of_list r h in (h, v :: vs) end.
  Fixpoint of_entries (m : list (string * json)) (o : amap value) (h : heap) : heap * amap value :=
    match m with [] => (h, o) | (k, j) :: r => let (h, v) := of_json sci j h in of_entries r (aset k v o) h end.
  Lemma of_arr : forall l h, of_json sci (JArr l) h = let (h, vs) := of_list l h in new_arr h vs.
  Proof. reflexivity. Qed.
  Lemma of_obj : forall m h, of_json sci (JObj m) h = let (h, o) := of_entries m [] h in new_obj h o.
  Proof. reflexivity. Qed.
  Lemma of_json_img : forall j h h1 v, of_json sci j h = (h1, v) -> hext h h1 /\ repr h1 v (img numtree j).
  Proof.
    induction j as [| | | |l IH|m IH] using json_ind'; intros h h1 v H.
    1-4: cbn in H; injection H as <- <-; split; [apply hext_refl|]; cbn; try constructor. unfold numtree. destruct (number_in sci n); constructor.
    - rewrite of_arr in H. destruct (of_list l h) as [h2 vs] eqn:E. assert (A : hext h h2 /\ Forall2 (repr h2) vs (map (img numtree) l)).
      { clear H. revert h h2 vs E. induction IH as [|x l Hx IH IH2]; intros h h2 vs E; cbn [of_list] in E; [injection E as <- <-; split; [apply hext_refl|constructor]|].
        destruct (of_json sci x h) as [ha va] eqn:Ea. destruct (of_list l ha) as [hb vb] eqn:Eb. injection E as <- <-. destruct (Hx _ _ _ Ea) as [A1 A2], (IH2 _ _ _ Eb) as [B1 B2].
        split; [eapply hext_trans; eauto|]. cbn [map]. constructor; [eapply repr_hext; eauto|exact B2]. }
      destruct A as [A B]. unfold new_arr, halloc in H. injection H as <- <-. split; [eapply hext_trans; [exact A|apply hext_alloc]|]. cbn [img].
      eapply RArr; [apply hget_alloc_new|]. eapply Forall2_imp; [|exact B]. intros a b R. eapply repr_hext; [apply hext_alloc|exact R].
    - rewrite of_obj in H. destruct (of_entries m [] h) as [h2 o] eqn:E.
      assert (A : forall o0 ts0, entries h o0 ts0 -> of_entries m o0 h = (h2, o) -> hext h h2 /\ entries h2 o (insert_all (map (fun e => (fst e, img numtree (snd e))) m) ts0)).
      { clear H E. revert h. induction IH as [|[k x] m Hx IH IH2]; intros h o0 ts0 R E; cbn [of_entries] in E; [injection E as <- <-; split; [apply hext_refl|exact R]|].
        destruct (of_json sci x h) as [ha va] eqn:Ea. cbn [snd] in Hx. destruct (Hx _ _ _ Ea) as [A1 A2].
        destruct (IH2 ha (aset k va o0) (aset k (img numtree x) ts0)) as [B1 B2]; [apply entries_aset; [eapply entries_hext; eauto|exact A2]|exact E|].
        split; [eapply hext_trans; eauto|]. exact B2. }
      destruct (A [] [] (Forall2_nil _) E) as [B C]. unfold new_obj, halloc in H. injection H as <- <-. split; [eapply hext_trans; [exact B|apply hext_alloc]|]. cbn [img].
      eapply RObj; [apply hget_alloc_new|]. eapply entries_hext; [apply hext_alloc|exact C].
  Qed.
  Fixpoint try_list (l : list json) (h : heap) : heap * res (list value) :=
    match l with
    | [] => (h, Ok [])
    | j :: r => match try_json sci j h with
                | (h, Ok v) => match try_list r h with (h, Ok vs) => (h, Ok (v :: vs)) | (h, Err e) => (h, Err e) end
                | (h, Err e) => (h, Err e)
                end
    end.
  Fixpoint try_entries (m : list (string * json)) (o : amap value) (h : heap) : heap * res (amap value) :=
    match m with
    | [] => (h, Ok o)
    | (k, j) :: r => match try_json sci j h with (h, Ok v) => try_entries r (aset k v o) h | (h, Err e) => (h, Err e) end
    end.
  Lemma try_arr : forall l h, try_json sci (JArr l) h = match try_list l h with (h, Ok vs) => let (h, v) := new_arr h vs in (h, Ok v) | (h, Err e) => (h, Err e) end.
  Proof. reflexivity. Qed.
  Lemma try_obj : forall m h, try_json sci (JObj m) h = match try_entries m [] h with (h, Ok o) => let (h, v) := new_obj h o in (h, Ok v) | (h, Err e) => (h, Err e) end.
  Proof. reflexivity. Qed.
  Definition good (n : num) : Prop := number_in sci n <> None.
  Definition answers (f : json -> heap -> heap * res value) (j : json) : Prop :=
    forall h, (Forall good (nums j) /\ f j h = let (h1, v) := of_json sci j h in (h1, Ok v)) \/ (~ Forall good (nums j) /\ exists h1 e, f j h = (h1, Err e)).
  Lemma good_one : forall n, Forall good [n] <-> number_in sci n <> None.
  Proof. intros n. split; [intros H; inversion H; assumption|intros H; constructor; [exact H|constructor]]. Qed.
  Lemma try_answers : forall j, answers (try_json sci) j.
  Proof.
    induction j as [| |n| |l IH|m IH] using json_ind'; intros h.
    1, 2, 4: left; split; [constructor|reflexivity].
    - cbn [nums try_json of_json]. rewrite good_one. destruct (number_in sci n); [left; split; [discriminate|reflexivity]|right]. split; [congruence|]. eauto.
    - rewrite try_arr, of_arr. cbn [nums].
      assert (A : (Forall good (flat_map nums l) /\ try_list l h = let (h1, v) := of_list l h in (h1, Ok v)) \/ (~ Forall good (flat_map nums l) /\ exists h1 e, try_list l h = (h1, Err e))).
      { revert h. induction IH as [|x l Hx IH IH2]; intros h; [left; split; [constructor|reflexivity]|]. cbn [flat_map try_list of_list]. rewrite Forall_app.
        destruct (Hx h) as [[A B]|[A (h1 & e & B)]]; rewrite B; [|right; split; [tauto|eauto]].
        destruct (of_json sci x h) as [h1 v]. destruct (IH2 h1) as [[C D]|[C (h2 & e & D)]]; rewrite D; [|right; split; [tauto|eauto]].
        left. split; [tauto|]. destruct (of_list l h1); reflexivity. }
      destruct A as [[A B]|[A (h1 & e & B)]]; rewrite B; [left; split; [exact A|]; destruct (of_list l h); reflexivity|right; split; [exact A|eauto]].
    - rewrite try_obj, of_obj. cbn [nums].
      assert (A : forall o, (Forall good (flat_map (fun e => nums (snd e)) m) /\ try_entries m o h = let (h1, v) := of_entries m o h in (h1, Ok v)) \/
        (~ Forall good (flat_map (fun e => nums (snd e)) m) /\ exists h1 e, try_entries m o h = (h1, Err e))).
      { revert h. induction IH as [|[k x] m Hx IH IH2]; intros h o; [left; split; [constructor|reflexivity]|]. cbn [flat_map try_entries of_entries snd] in *. rewrite Forall_app.
        destruct (Hx h) as [[A B]|[A (h1 & e & B)]]; rewrite B; [|right; split; [tauto|eauto]].
        destruct (of_json sci x h) as [h1 v]. destruct (IH2 h1 (aset k v o)) as [[C D]|[C (h2 & e & D)]]; rewrite D; [|right; split; [tauto|eauto]].
        left. split; [tauto|]. reflexivity. }
      destruct (A []) as [[B C]|[B (h1 & e & C)]]; rewrite C; [left; split; [exact B|]; destruct (of_entries m [] h); reflexivity|right; split; [exact B|eauto]].
  Qed.
  Fixpoint read_list (l : list json) (h : heap) : heap * res (list value) :=
    match l with
    | [] => (h, Ok [])
    | j :: r => match read_json sci j h with
                | (h, Ok v) => match read_list r h with (h, Ok vs) => (h, Ok (v :: vs)) | (h, Err e) => (h, Err e) end
                | (h, Err e) => (h, Err e)
                end
    end.
  Fixpoint read_entries (m : list (string * json)) (o : amap value) (first : bool) (h : heap) : heap * res value :=
    match m with
    | [] => let (h, v) := new_obj h o in (h, Ok v)
    | (k, j) :: r =>
        match read_json sci j h with
        | (h, Ok v) =>
            if first && String.eqb k number_token then
              (h, match v with
                  | VStr s => match number_in sci (NFloat s) with Some d => Ok (VNum d) | None => Err (EOp "number out of range") end
                  | _ => Err (EOp "failed to deserialize number")
                  end)
            else read_entries r (aset k v o) false h
        | (h, Err e) => (h, Err e)
        end
    end.
  Lemma read_arr : forall l h, read_json sci (JArr l) h = match read_list l h with (h, Ok vs) => let (h, v) := new_arr h vs in (h, Ok v) | (h, Err e) => (h, Err e) end.
  Proof. reflexivity. Qed.
  Lemma read_obj : forall m h, read_json sci (JObj m) h = read_entries m [] true h.
  Proof. reflexivity. Qed.
  Lemma read_answers : forall j, tokenless j -> answers (read_json sci) j.
  Proof.
    induction j as [| |n| |l IH|m IH] using json_ind'; intros T h.
    1, 2, 4: left; split; [constructor|reflexivity].
    - cbn [nums read_json of_json]. rewrite good_one. destruct (number_in sci n); [left; split; [discriminate|reflexivity]|right]. split; [congruence|]. eauto.
    - rewrite read_arr, of_arr. cbn [nums]. cbn [tokenless] in T.
      assert (A : (Forall good (flat_map nums l) /\ read_list l h = let (h1, v) := of_list l h in (h1, Ok v)) \/ (~ Forall good (flat_map nums l) /\ exists h1 e, read_list l h = (h1, Err e))).
      { revert h T. induction IH as [|x l Hx IH IH2]; intros h T; [left; split; [constructor|reflexivity]|]. destruct T as [T1 T2]. cbn [flat_map read_list of_list]. rewrite Forall_app.
        destruct (Hx T1 h) as [[A B]|[A (h1 & e & B)]]; rewrite B; [|right; split; [tauto|eauto]].
        destruct (of_json sci x h) as [h1 v]. destruct (IH2 h1 T2) as [[C D]|[C (h2 & e & D)]]; rewrite D; [|right; split; [tauto|eauto]].
        left. split; [tauto|]. destruct (of_list l h1); reflexivity. }
      destruct A as [[A B]|[A (h1 & e & B)]]; rewrite B; [left; split; [exact A|]; destruct (of_list l h); reflexivity|right; split; [exact A|eauto]].
    - rewrite read_obj, of_obj. cbn [nums]. cbn [tokenless] in T. destruct T as [T0 T].
      assert (A : forall o b, (b = true -> match m with [] => True | e :: _ => fst e <> number_token end) ->
        (Forall good (flat_map (fun e => nums (snd e)) m) /\ read_entries m o b h = let (h1, o) := of_entries m o h in let (h1, v) := new_obj h1 o in (h1, Ok v)) \/
        (~ Forall good (flat_map (fun e => nums (snd e)) m) /\ exists h1 e, read_entries m o b h = (h1, Err e))).
      { clear T0. revert h T. induction IH as [|[k x] m Hx IH IH2]; intros h T o b T0; [left; split; [constructor|reflexivity]|]. destruct T as [T1 T2].
        cbn [flat_map read_entries of_entries snd fst] in *. rewrite Forall_app.
        destruct (Hx T1 h) as [[A B]|[A (h1 & e & B)]]; rewrite B; [|right; split; [tauto|eauto]].
        destruct (of_json sci x h) as [h1 v]. assert (K : b && String.eqb k number_token = false).
        { destruct b; [|reflexivity]. cbn. apply String.eqb_neq. auto. }
        rewrite K. destruct (IH2 h1 T2 (aset k v o) false) as [[C D]|[C (h2 & e & D)]]; [discriminate| |]; rewrite D; [|right; split; [tauto|eauto]].
        left. split; [tauto|]. reflexivity. }
      destruct (A [] true (fun _ => T0)) as [[B C]|[B (h1 & e & C)]]; rewrite C; [left; split; [exact B|]; destruct (of_entries m [] h); reflexivity|right; split; [exact B|eauto]].
  Qed.
  (** A key that occurs again: the last entry counts. *)
  Lemma insert_all_last : forall {V} (es o : amap V) k, aget k (insert_all es o) = match aget k (rev es) with Some v => Some v | None => aget k o end.
  Proof.
    assert (P : forall {V} (a b : amap V) k, aget k (a ++ b) = match aget k a with Some v => Some v | None => aget k b end).
    { intros V a b k. induction a as [|[k1 v] a IH]; [reflexivity|]. cbn. destruct (String.eqb k1 k); [reflexivity|exact IH]. }
    intros V es. induction es as [|[k1 v] es IH]; intros o k; [reflexivity|]. unfold insert_all in *. cbn [fold_left fst snd rev]. rewrite IH, P. destruct (aget k (rev es)); [reflexivity|].
    cbn. destruct (String.eqb_spec k1 k) as [->|N]; [apply aget_aset_eq|now apply aget_aset_ne].
  Qed.
  Lemma reads_obj : forall m ts, Forall2 (fun e t => reads sci (snd e) t) m ts -> match m with [] => True | e :: _ => fst e <> number_token end ->
    reads sci (JObj m) (TObj (insert_all (combine (map fst m) ts) [])).
  Proof.
    intros m ts F T h. rewrite read_obj.
    assert (A : forall o ts0 h b, entries h o ts0 -> (b = true -> match m with [] => True | e :: _ => fst e <> number_token end) ->
      exists h1 v, read_entries m o b h = (h1, Ok v) /\ repr h1 v (TObj (insert_all (combine (map fst m) ts) ts0)) /\ hext h h1).
    { clear T h. induction F as [|[k x] t m ts R F IH]; intros o ts0 h b E T; cbn [read_entries map combine fst snd] in *.
      - unfold new_obj, halloc. do 2 eexists. split; [reflexivity|]. split; [|apply hext_alloc]. eapply RObj; [apply hget_alloc_new|]. eapply entries_hext; [apply hext_alloc|exact E].
      - destruct (R h) as (h1 & v & A & B & C). rewrite A. assert (K : b && String.eqb k number_token = false).
        { destruct b; [|reflexivity]. cbn. apply String.eqb_neq. auto. }
        rewrite K. destruct (IH (aset k v o) (aset k t ts0) h1 false) as (h2 & v2 & A2 & B2 & C2); [apply entries_aset; [eapply entries_hext; eauto|exact B]|discriminate|].
        exists h2, v2. split; [exact A2|]. split; [exact B2|]. eapply hext_trans; eauto. }
    destruct (A [] [] h true (Forall2_nil _) (fun _ => T)) as (h1 & v & X). exists h1, v. exact X.
  Qed.
End In.

(** ** Places *)
Lemma wf_parts : forall j, wf_json j -> match j with JArr l => forall x, In x l -> wf_json x | JObj m => NoDup (map fst m) /\ forall k x, In (k, x) m -> wf_json x | _ => True end.
Proof.
  intros [| | | |l|m]; auto; cbn.
  - intros W x I. induction l as [|y l IH]; [destruct I|]. destruct W as [W1 W2]. destruct I as [<-|I]; auto.
  - intros [N W]. split; [exact N|]. clear N. intros k x I. induction m as [|y m IH]; [destruct I|]. destruct W as [W1 W2]. destruct I as [->|I]; auto.
Qed.
Lemma nums_has : forall j, wf_json j -> forall n, In n (nums j) <-> has_num j n.
Proof.
  induction j as [| |n0| |l IH|m IH] using json_ind'; intros W n; cbn [nums].
  1, 2, 4: split; [intros []|intros [[|[k|i] p] E]; discriminate].
  - split; [intros [->|[]]; exists []; reflexivity|]. intros [[|[k|i] p] E]; cbn in E; try discriminate. injection E as ->. now left.
  - apply wf_parts in W. rewrite Forall_forall in IH. rewrite in_flat_map. split.
    + intros (x & I & H). apply In_nth_error in I as N. destruct N as [i N]. apply (IH x I (W x I)) in H as [p H]. exists (At i :: p). cbn. now rewrite N.
    + intros [[|[k|i] p] E]; cbn in E; try discriminate. destruct (nth_error l i) as [x|] eqn:N; [|discriminate]. apply nth_error_In in N. exists x. split; [exact N|]. apply (IH x N (W x N)). now exists p.
  - apply wf_parts in W as [ND W]. rewrite Forall_forall in IH. rewrite in_flat_map. split.
    + intros ([k x] & I & H). cbn [snd] in H. apply (IH _ I (W k x I)) in H as [p H]. exists (Key k :: p). cbn. rewrite (aget_in_nodup _ _ _ ND I). exact H.
    + intros [[|[k|i] p] E]; cbn in E; try discriminate. destruct (aget k m) as [x|] eqn:N; [|discriminate]. apply aget_Some_in in N. exists (k, x). split; [exact N|]. apply (IH _ N (W k x N)). now exists p.
Qed.
Lemma no_token_less : forall j, wf_json j -> no_token j -> tokenless j.
Proof.
  induction j as [| |n0| |l IH|m IH] using json_ind'; intros W T; try exact I; cbn [tokenless].
  - apply wf_parts in W. assert (A : forall x, In x l -> tokenless x).
    { intros x I. rewrite Forall_forall in IH. apply IH; auto. apply In_nth_error in I as [i N]. intros p k y m E. apply (T (At i :: p) k y m). cbn. now rewrite N. }
    clear - A. induction l as [|x l IHl]; [exact I|]. split; [apply A; now left|]. apply IHl. intros y Hy. apply A. now right.
  - apply wf_parts in W as [ND W]. split; [destruct m as [|[k x] m]; [exact I|exact (T [] k x m eq_refl)]|].
    assert (A : forall k x, In (k, x) m -> tokenless x).
    { intros k x I. rewrite Forall_forall in IH. apply (IH (k, x) I); eauto. intros p k1 y m1 E. apply (T (Key k :: p) k1 y m1). cbn. now rewrite (aget_in_nodup _ _ _ ND I). }
    clear - A. induction m as [|[k x] m IHm]; [exact I|]. split; [apply (A k); now left|]. apply IHm. intros k1 y Hy. apply (A k1). now right.
Qed.
Lemma aget_map : forall {V W} (f : V -> W) (m : amap V) k, aget k (map (fun e => (fst e, f (snd e))) m) = option_map f (aget k m).
Proof. intros V W f m k. induction m as [|[k1 v] m IH]; [reflexivity|]. cbn. destruct (String.eqb k1 k); [reflexivity|exact IH]. Qed.
Lemma img_obj : forall nt m, NoDup (map fst m) -> img nt (JObj m) = TObj (map (fun e => (fst e, img nt (snd e))) m).
Proof.
  intros nt m N. cbn [img]. f_equal. rewrite insert_all_new; [reflexivity|]. unfold akeys. cbn [app]. rewrite map_map. exact N.
Qed.
Definition leaf (t : tree) : Prop := match t with TArr _ | TObj _ => False | _ => True end.
Lemma agree_img : forall (R : num -> tree -> Prop) nt j, (forall n, leaf (nt n)) -> wf_json j -> (forall n, has_num j n -> R n (nt n)) -> agree R j (img nt j).
Proof.
  intros R nt j Lf. induction j as [|b|n|s|l IH|m IH] using json_ind'; intros W H p.
  1, 2, 4: destruct p as [|[k|i] p]; cbn; auto.
  - assert (E : R n (nt n)) by (apply H; now exists []). specialize (Lf n). destruct p as [|[k|i] p]; cbn; [exact E| |]; destruct (nt n); try exact I; destruct Lf.
  - apply wf_parts in W. rewrite Forall_forall in IH. destruct p as [|[k|i] p]; cbn [jget tget img]; auto.
    + exists (map (img nt) l). split; [reflexivity|]. apply map_length.
    + rewrite nth_error_map. destruct (nth_error l i) as [x|] eqn:N; cbn [option_map]; [|exact I]. apply nth_error_In in N as Ix. apply IH; auto.
      intros n [q Q]. apply H. exists (At i :: q). cbn. now rewrite N.
  - apply wf_parts in W as [ND W]. rewrite img_obj by exact ND. rewrite Forall_forall in IH. destruct p as [|[k|i] p]; cbn [jget tget]; auto.
    + eexists. split; [reflexivity|]. intros k. rewrite map_map. reflexivity.
    + rewrite aget_map. destruct (aget k m) as [x|] eqn:N; cbn [option_map]; [|exact I]. apply aget_Some_in in N as Ix. apply (IH (k, x) Ix); eauto.
      intros n [q Q]. apply H. exists (Key k :: q). cbn. now rewrite N.
Qed.
Lemma static_leaf : forall t, leaf t -> (forall d, t <> TDyn d) -> static t.
Proof. intros t L N [|[k|i] p] d E; cbn in E; destruct t; try discriminate; try destruct L. injection E as ->. now apply (N d). Qed.
Lemma tget_key : forall m k p x, aget k m = Some x -> tget (Key k :: p) (TObj m) = tget p x.
Proof. intros m k p x E. cbn. now rewrite E. Qed.
Lemma static_obj : forall m k x, static (TObj m) -> aget k m = Some x -> static x.
Proof. intros m k x S0 E p d. rewrite <- (tget_key m k p x E). apply S0. Qed.
Lemma static_arr : forall a x, static (TArr a) -> In x a -> static x.
Proof. intros a x S0 I p d. apply In_nth_error in I as [i N]. pose proof (S0 (At i :: p) d) as Q. cbn in Q. now rewrite N in Q. Qed.
Lemma fit_obj : forall m k x, numbers_fit (TObj m) -> aget k m = Some x -> numbers_fit x.
Proof. intros m k x S0 E p d. rewrite <- (tget_key m k p x E). apply S0. Qed.
Lemma fit_arr : forall a x, numbers_fit (TArr a) -> In x a -> numbers_fit x.
Proof. intros a x S0 I p d. apply In_nth_error in I as [i N]. pose proof (S0 (At i :: p) d) as Q. cbn in Q. now rewrite N in Q. Qed.
Lemma img_static : forall nt j, (forall n, leaf (nt n) /\ forall d, nt n <> TDyn d) -> wf_json j -> static (img nt j) /\ wf_tree (img nt j).
Proof.
  intros nt j Lf. induction j as [|b|n|s|l IH|m IH] using json_ind'; intros W.
  1, 2, 4: split; [apply static_leaf; [exact I|discriminate]|constructor].
  - destruct (Lf n) as [A B]. split; [now apply static_leaf|]. cbn [img]. destruct (nt n); try constructor; destruct A.
  - apply wf_parts in W. rewrite Forall_forall in IH. split.
    + intros [|[k|i] p] d E; cbn in E; try discriminate. rewrite nth_error_map in E. destruct (nth_error l i) as [x|] eqn:N; cbn in E; [|discriminate].
      apply nth_error_In in N. exact (proj1 (IH x N (W x N)) p d E).
    + cbn [img]. constructor. rewrite Forall_forall. intros t I. apply in_map_iff in I as (x & <- & I). now apply IH; auto.
  - apply wf_parts in W as [ND W]. rewrite img_obj by exact ND. rewrite Forall_forall in IH. split.
    + intros [|[k|i] p] d E; cbn in E; try discriminate. rewrite aget_map in E. destruct (aget k m) as [x|] eqn:N; cbn in E; [|discriminate].
      apply aget_Some_in in N. exact (proj1 (IH _ N (W k x N)) p d E).
    + constructor; [rewrite map_map; exact ND|]. rewrite Forall_forall. intros t I. apply in_map_iff in I as ([k x] & <- & I). cbn [snd]. apply (IH _ I). eauto.
Qed.
Lemma means_same : forall a b t, means a t -> means b t -> same_doc a b.
Proof.
  intros a b t A B p. specialize (A p). specialize (B p). destruct (jget p a) as [x|], (jget p b) as [y|], (tget p t) as [u|]; try contradiction; auto.
  destruct x, y; cbn in A, B; subst; try reflexivity; try congruence;
    repeat match goal with H : ex _ |- _ => let a := fresh "a" in let H1 := fresh "E" in let H2 := fresh "V" in destruct H as [a H]; try (destruct H as [H1 H2]) | H : _ /\ _ |- _ => destruct H end; try congruence.
  - eexists. eexists. split; [eassumption|]. split; [eassumption|]. match goal with A : (_ == dec_val ?d)%Q, B : (_ == dec_val ?e)%Q |- _ => rewrite A, B; replace e with d by congruence end. reflexivity.
  - cbv zeta. intros k. replace a1 with a0 in V0 by congruence. rewrite V, V0. reflexivity.
Qed.

(** ** To JSON *)
Lemma ascii_lt_trans : forall a b c, Ascii.compare a b = Lt -> Ascii.compare b c = Lt -> Ascii.compare a c = Lt.
Proof. intros a b c. unfold Ascii.compare. rewrite !N.compare_lt_iff. apply N.lt_trans. Qed.
Lemma ascii_eq : forall a b, Ascii.compare a b = Eq <-> a = b.
Proof. intros a b. unfold Ascii.compare. rewrite N.compare_eq_iff. split; [|now intros ->]. intros E. rewrite <- (ascii_N_embedding a), <- (ascii_N_embedding b), E. reflexivity. Qed.
Lemma str_lt_trans : forall a b c, String.compare a b = Lt -> String.compare b c = Lt -> String.compare a c = Lt.
Proof.
  induction a as [|x a IH]; intros [|y b] [|z c]; cbn; try discriminate; auto.
  destruct (Ascii.compare x y) eqn:XY; try discriminate; destruct (Ascii.compare y z) eqn:YZ; try discriminate.
  - apply ascii_eq in XY. apply ascii_eq in YZ. subst. replace (Ascii.compare z z) with Eq by (symmetry; now apply ascii_eq). apply IH.
  - apply ascii_eq in XY. subst. now rewrite YZ.
  - apply ascii_eq in YZ. subst. now rewrite XY.
  - now rewrite (ascii_lt_trans _ _ _ XY YZ).
Qed.
Lemma str_eq : forall a b, String.compare a b = Eq <-> a = b.
Proof. intros a b. split; [apply String.compare_eq_iff|]. intros <-. induction a as [|x a IH]; [reflexivity|]. cbn. replace (Ascii.compare x x) with Eq by (symmetry; now apply ascii_eq). exact IH. Qed.
Definition before (a b : string) : Prop := String.compare a b = Lt.
Fixpoint sorted {V} (m : list (string * V)) : Prop := match m with [] => True | (k, _) :: r => Forall (fun e => before k (fst e)) r /\ sorted r end.
Definition bsort {V} (m : list (string * V)) : list (string * V) := fold_left (fun o e => bset (fst e) (snd e) o) m [].
Lemma bset_get : forall {V} k (v : V) m k1, aget k1 (bset k v m) = if String.eqb k k1 then Some v else aget k1 m.
Proof.
  intros V k v m k1. induction m as [|[a x] m IH]; [reflexivity|]. cbn [bset]. destruct (String.compare k a) eqn:C.
  - apply str_eq in C. subst a. cbn. destruct (String.eqb k k1); reflexivity.
  - cbn. destruct (String.eqb k k1); reflexivity.
  - cbn. rewrite IH. destruct (String.eqb_spec a k1) as [->|]; [|reflexivity]. destruct (String.eqb_spec k k1) as [->|]; [|reflexivity]. rewrite (proj2 (str_eq _ _) eq_refl) in C. discriminate.
Qed.
Lemma bset_keys : forall {V} k (v : V) m x, In x (map fst (bset k v m)) -> x = k \/ In x (map fst m).
Proof.
  intros V k v m x. induction m as [|[a y] m IH]; [cbn; intuition|]. cbn [bset]. destruct (String.compare k a); cbn; intuition.
Qed.
Lemma bset_sorted : forall {V} k (v : V) m, sorted m -> sorted (bset k v m).
Proof.
  intros V k v m. induction m as [|[a y] m IH]; intros S0; [cbn; auto|]. destruct S0 as [A B]. cbn [bset]. destruct (String.compare k a) eqn:C.
  - apply str_eq in C. subst a. split; assumption.
  - split; [|split; assumption]. constructor; [exact C|]. eapply Forall_impl; [|exact A]. intros e H. exact (str_lt_trans _ _ _ C H).
  - split; [|now apply IH]. rewrite Forall_forall in *. intros e I. apply (in_map fst) in I. apply bset_keys in I as [->|I].
    + unfold before. rewrite String.compare_antisym, C. reflexivity.
    + apply in_map_iff in I as (e1 & E & I). rewrite <- E. now apply A.
Qed.
Lemma bsort_all : forall {V} (m : list (string * V)), sorted (bsort m) /\ (NoDup (map fst m) -> forall k, aget k (bsort m) = aget k m).
Proof.
  intros V m. assert (G : forall o, sorted o -> sorted (fold_left (fun o e => bset (fst e) (snd e) o) m o) /\
    (NoDup (map fst m) -> forall k, aget k (fold_left (fun o e => bset (fst e) (snd e) o) m o) = match aget k m with Some v => Some v | None => aget k o end)).
  { induction m as [|[a x] m IH]; intros o S0; [split; [exact S0|reflexivity]|]. cbn [fold_left fst snd]. destruct (IH (bset a x o) (bset_sorted _ _ _ S0)) as [A B]. split; [exact A|].
    intros N k. cbn in N. apply NoDup_cons_iff in N as [N1 N2]. rewrite (B N2), bset_get. cbn. destruct (String.eqb_spec a k) as [->|]; [|reflexivity].
    destruct (aget k m) eqn:E; [|reflexivity]. exfalso. apply N1. apply aget_Some_in in E. apply (in_map fst) in E. exact E. }
  destruct (G [] I) as [A B]. split; [exact A|]. intros N k. unfold bsort. rewrite (B N). destruct (aget k m); reflexivity.
Qed.
Lemma before_ne : forall a, ~ before a a.
Proof. intros a H. unfold before in H. rewrite (proj2 (str_eq _ _) eq_refl) in H. discriminate. Qed.
Lemma sorted_nodup : forall {V} (m : list (string * V)), sorted m -> NoDup (map fst m).
Proof.
  intros V m. induction m as [|[a x] m IH]; intros S0; [constructor|]. destruct S0 as [A B]. cbn. constructor; [|now apply IH]. intros I. rewrite Forall_forall in A.
  apply in_map_iff in I as (e & E & I). apply A in I. rewrite E in I. exact (before_ne _ I).
Qed.
Lemma sorted_eq : forall {V} (a b : list (string * V)), sorted a -> sorted b -> (forall k, aget k a = aget k b) -> a = b.
Proof.
  intros V a. induction a as [|[k x] a IH]; intros [|[k1 y] b] A B E.
  - reflexivity.
  - specialize (E k1). cbn in E. rewrite String.eqb_refl in E. discriminate.
  - specialize (E k). cbn in E. rewrite String.eqb_refl in E. discriminate.
  - pose proof (sorted_nodup _ A) as NA. pose proof (sorted_nodup _ B) as NB. cbn in NA, NB. apply NoDup_cons_iff in NA as [NA _]. apply NoDup_cons_iff in NB as [NB _].
    destruct A as [A1 A2], B as [B1 B2]. rewrite Forall_forall in A1, B1. assert (K : k = k1).
    { pose proof (E k) as E1. pose proof (E k1) as E2. cbn in E1, E2. rewrite String.eqb_refl in E1, E2. destruct (String.eqb_spec k1 k) as [|N]; [congruence|].
      destruct (String.eqb_spec k k1) as [|_]; [congruence|]. symmetry in E1. apply aget_Some_in in E1. apply aget_Some_in in E2. apply B1 in E1. apply A1 in E2. cbn in E1, E2.
      exfalso. exact (before_ne _ (str_lt_trans _ _ _ E1 E2)). }
    subst k1. pose proof (E k) as E1. cbn in E1. rewrite String.eqb_refl in E1. injection E1 as <-. f_equal. apply IH; auto. intros k2. specialize (E k2). cbn in E.
    destruct (String.eqb_spec k k2) as [Ek|]; [|exact E]. rewrite <- Ek. transitivity (@None V); [now apply aget_None_notin|symmetry; now apply aget_None_notin].
Qed.
Section Out.
  Context (dj : dyn -> json) (dt : dyn -> string).
  Fixpoint tj (t : tree) : json :=
    match t with
    | TNull => JNull
    | TBool b => JBool b
    | TNum d => JNum (number_out d)
    | TStr s => JStr s
    | TArr a => JArr (map tj a)
    | TObj m => JObj (bsort (map (fun e => (fst e, tj (snd e))) m))
    | TDyn d => dj d
    end.
  Fixpoint wj (out : dec -> num) (t : tree) : json :=
    match t with
    | TNull => JNull
    | TBool b => JBool b
    | TNum d => JNum (out d)
    | TStr s => JStr s
    | TArr a => JArr (map (wj out) a)
    | TObj m => JObj (map (fun e => (fst e, wj out (snd e))) m)
    | TDyn d => JStr (dt d)
    end.
  Lemma to_json_tj : forall h v t, repr h v t -> forall n, (height t < n)%nat -> to_json dj n h v = Some (tj t).
  Proof.
    intros h v t R. induction R as [| | | |l a ts G F IH|l m ts G F IH|] using repr_ind'; intros n Hn; (destruct n as [|n]; [lia|]); try reflexivity.
    - cbn [to_json]. rewrite (proj2 (harr_hget _ _ _) G). cbn [tj].
      assert (Hh : forall x, In x ts -> (height x < n)%nat) by (intros x I; apply height_arr in I; lia). clear Hn G F.
      match goal with |- option_map JArr (?f a) = _ => assert (E : f a = Some (map tj ts)) end; [|now rewrite E].
      induction IH as [|x y a ts Hx IH IH2]; [reflexivity|]. cbn [map]. rewrite (Hx n) by (apply Hh; now left). rewrite IH2; [reflexivity|]. intros z I. apply Hh. now right.
    - cbn [to_json]. rewrite (proj2 (hobj_hget _ _ _) G). cbn [tj].
      assert (Hh : forall k x, In (k, x) ts -> (height x < n)%nat) by (intros k x I; apply height_obj in I; lia). clear Hn G F. unfold bsort.
      match goal with |- option_map JObj (?f m []) = _ => assert (E : forall o, f m o = Some (fold_left (fun o e => bset (fst e) (snd e) o) (map (fun e => (fst e, tj (snd e))) ts) o)) end; [|now rewrite E].
      induction IH as [|[k x] [k1 y] m ts [E Hx] IH IH2]; intros o; [reflexivity|]. cbn [map fold_left fst snd] in *. subst k1. rewrite (Hx n) by (apply (Hh k); now left).
      rewrite IH2; [reflexivity|]. intros k2 z I. apply (Hh k2). now right.
  Qed.
  Lemma write_json_wj : forall out h v t, repr h v t -> forall n, (height t < n)%nat -> write_json dt out n h v = Some (wj out t).
  Proof.
    intros out h v t R. induction R as [| | | |l a ts G F IH|l m ts G F IH|] using repr_ind'; intros n Hn; (destruct n as [|n]; [lia|]); try reflexivity.
    - cbn [write_json]. rewrite (proj2 (harr_hget _ _ _) G). cbn [wj].
      assert (Hh : forall x, In x ts -> (height x < n)%nat) by (intros x I; apply height_arr in I; lia). clear Hn G F.
      match goal with |- option_map JArr (?f a) = _ => assert (E : f a = Some (map (wj out) ts)) end; [|now rewrite E].
      induction IH as [|x y a ts Hx IH IH2]; [reflexivity|]. cbn [map]. rewrite (Hx n) by (apply Hh; now left). rewrite IH2; [reflexivity|]. intros z I. apply Hh. now right.
    - cbn [write_json]. rewrite (proj2 (hobj_hget _ _ _) G). cbn [wj].
      assert (Hh : forall k x, In (k, x) ts -> (height x < n)%nat) by (intros k x I; apply height_obj in I; lia). clear Hn G F.
      match goal with |- option_map JObj (?f m) = _ => assert (E : f m = Some (map (fun e => (fst e, wj out (snd e))) ts)) end; [|now rewrite E].
      induction IH as [|[k x] [k1 y] m ts [E Hx] IH IH2]; [reflexivity|]. cbn [map fst snd] in *. subst k1. rewrite (Hx n) by (apply (Hh k); now left).
      rewrite IH2; [reflexivity|]. intros k2 z I. apply (Hh k2). now right.
  Qed.
  Lemma keys_get : forall {V W} (a : amap V) (b : amap W), (forall k, aget k a = None <-> aget k b = None) -> forall k, In k (map fst a) <-> In k (map fst b).
  Proof.
    intros V W a b H k. specialize (H k). rewrite !aget_None_notin in H. unfold akeys in H.
    destruct (in_dec string_dec k (map fst a)), (in_dec string_dec k (map fst b)); tauto.
  Qed.
  Lemma tj_get : forall m k, wf_tree (TObj m) -> aget k (bsort (map (fun e => (fst e, tj (snd e))) m)) = option_map tj (aget k m).
  Proof.
    intros m k W. inversion W as [| | | | | |? N F]; subst. rewrite (proj2 (bsort_all _)) by (rewrite map_map; exact N). apply aget_map.
  Qed.
  Lemma wf_in : forall m k x, wf_tree (TObj m) -> aget k m = Some x -> wf_tree x.
  Proof. intros m k x W. exact (wf_get k m x W). Qed.
  Lemma in_get : forall (m : list (string * tree)) k x, aget k m = Some x -> In (k, x) m.
  Proof. intros m k x. apply aget_Some_in. Qed.
  Lemma tj_means : forall t, wf_tree t -> static t -> means (tj t) t.
  Proof.
    induction t as [|b|d|s|a IH|m IH|d] using tree_ind'; intros W S0 p.
    1, 2, 4: destruct p as [|[k|i] p]; cbn; auto.
    - destruct p as [|[k|i] p]; cbn; auto. destruct (out_val d) as (q & A & B). eauto.
    - inversion W as [| | | | |? Fa|]; subst. rewrite Forall_forall in *. destruct p as [|[k|i] p]; cbn [jget tget tj]; auto.
      + exists a. split; [reflexivity|]. now rewrite map_length.
      + rewrite nth_error_map. destruct (nth_error a i) as [x|] eqn:N; cbn [option_map]; [|exact I]. apply nth_error_In in N. apply IH; auto. eapply static_arr; eauto.
    - rewrite Forall_forall in IH. destruct p as [|[k|i] p]; cbn [jget tget tj]; auto.
      + exists m. split; [reflexivity|]. apply keys_get. intros k. rewrite tj_get by exact W. destruct (aget k m); cbn; split; congruence.
      + rewrite tj_get by exact W. destruct (aget k m) as [x|] eqn:N; cbn [option_map]; [|exact I]. apply (IH (k, x) (in_get _ _ _ N)); [eapply wf_in; eauto|eapply static_obj; eauto].
    - exfalso. exact (S0 [] d eq_refl).
  Qed.
  Lemma wj_means : forall t, wf_tree t -> static t -> means (wj number_out t) t.
  Proof.
    induction t as [|b|d|s|a IH|m IH|d] using tree_ind'; intros W S0 p.
    1, 2, 4: destruct p as [|[k|i] p]; cbn; auto.
    - destruct p as [|[k|i] p]; cbn; auto. destruct (out_val d) as (q & A & B). eauto.
    - inversion W as [| | | | |? Fa|]; subst. rewrite Forall_forall in *. destruct p as [|[k|i] p]; cbn [jget tget wj]; auto.
      + exists a. split; [reflexivity|]. now rewrite map_length.
      + rewrite nth_error_map. destruct (nth_error a i) as [x|] eqn:N; cbn [option_map]; [|exact I]. apply nth_error_In in N. apply IH; auto. eapply static_arr; eauto.
    - rewrite Forall_forall in IH. destruct p as [|[k|i] p]; cbn [jget tget wj]; auto.
      + exists m. split; [reflexivity|]. intros k. rewrite map_map. reflexivity.
      + rewrite aget_map. destruct (aget k m) as [x|] eqn:N; cbn [option_map]; [|exact I]. apply (IH (k, x) (in_get _ _ _ N)); [eapply wf_in; eauto|eapply static_obj; eauto].
    - exfalso. exact (S0 [] d eq_refl).
  Qed.
  (** Equal values and nothing else have the same document. *)
  Lemma tj_equal : forall a b, wf_tree a -> wf_tree b -> static a -> static b -> (teq a b = true <-> tj a = tj b).
  Proof.
    induction a as [|x|d|s|a IH|m IH|d] using tree_ind'; intros b Wa Wb Sa Sb; destruct b as [|y|e|s1|b|m1|e];
      try (exfalso; exact (Sb [] _ eq_refl)); try (exfalso; exact (Sa [] _ eq_refl)); try (split; [intros H; cbn in H; discriminate|intros H; cbn in H; discriminate]).
    - split; reflexivity.
    - cbn. rewrite Bool.eqb_true_iff. split; congruence.
    - cbn. rewrite <- out_same. split; congruence.
    - cbn. rewrite String.eqb_eq. split; congruence.
    - rewrite teq_arr. cbn [tj]. inversion Wa as [| | | | |? Fa|]; inversion Wb as [| | | | |? Fb|]; subst. rewrite Forall_forall in *.
      assert (P : forall x, In x a -> wf_tree x /\ static x) by (intros x I; split; [auto|exact (static_arr a x Sa I)]).
      assert (Q : forall x, In x b -> wf_tree x /\ static x) by (intros x I; split; [auto|exact (static_arr b x Sb I)]).
      clear Wa Wb Sa Sb Fa Fb. revert b Q. induction a as [|x a IHa]; intros [|y b] Q; cbn [map].
      + split; [reflexivity|constructor].
      + split; intros H; inversion H.
      + split; intros H; inversion H.
      + destruct (P x (or_introl eq_refl)) as [P1 P2], (Q y (or_introl eq_refl)) as [Q1 Q2].
        assert (R : Forall2 (fun a b => teq a b = true) a b <-> JArr (map tj a) = JArr (map tj b)) by (apply IHa; [intros z I; apply IH; now right|intros z I; apply P; now right|intros z I; apply Q; now right]).
        assert (R0 : teq x y = true <-> tj x = tj y) by (apply IH; auto; now left). split; intros H.
        * inversion H as [|? ? ? ? H1 H2]; subst. apply R in H2. apply R0 in H1. congruence.
        * injection H as H1 H2. constructor; [now apply R0|]. apply R. congruence.
    - rewrite teq_keys by assumption. cbn [tj]. rewrite Forall_forall in IH.
      assert (R : forall k x y, aget k m = Some x -> aget k m1 = Some y -> (teq x y = true <-> tj x = tj y)).
      { intros k x y E1 E2. apply (IH (k, x) (in_get _ _ _ E1)); [exact (wf_in _ _ _ Wa E1)|exact (wf_in _ _ _ Wb E2)|exact (static_obj _ _ _ Sa E1)|exact (static_obj _ _ _ Sb E2)]. }
      split; intros H.
      + f_equal. apply sorted_eq; try apply bsort_all. intros k. rewrite !tj_get by assumption. specialize (H k).
        destruct (aget k m) as [x|] eqn:E1, (aget k m1) as [y|] eqn:E2; cbn; try contradiction; [|reflexivity]. f_equal. eapply R; eauto.
      + injection H as H. intros k. assert (E : option_map tj (aget k m) = option_map tj (aget k m1)) by (rewrite <- !tj_get by assumption; now rewrite H).
        destruct (aget k m) as [x|] eqn:E1, (aget k m1) as [y|] eqn:E2; cbn in E; try discriminate; [|exact I]. eapply R; eauto. congruence.
  Qed.
  Lemma tj_back : forall sci t, wf_tree t -> static t -> numbers_fit t -> teq t (img (numtree sci) (tj t)) = true /\ wf_json (tj t).
  Proof.
    intros sci. induction t as [|b|d|s|a IH|m IH|d] using tree_ind'; intros W S0 N0.
    - split; [reflexivity|exact I].
    - split; [cbn; apply Bool.eqb_reflx|exact I].
    - split; [|exact I]. destruct (N0 [] d eq_refl) as [A B]. destruct (in_exact sci _ (out_range d A B)) as (d1 & q & E1 & E2 & E3 & _).
      destruct (out_val d) as (q1 & E4 & E5). cbn [tj img]. unfold numtree. rewrite E1. cbn. rewrite dec_eqb_val. rewrite <- E3, <- E5. replace q1 with q by congruence. reflexivity.
    - split; [cbn; apply String.eqb_refl|exact I].
    - inversion W as [| | | | |? Fa|]; subst. rewrite Forall_forall in *.
      assert (P : forall x, In x a -> teq x (img (numtree sci) (tj x)) = true /\ wf_json (tj x)) by (intros x I; apply IH; auto; [eapply static_arr; eauto|eapply fit_arr; eauto]).
      cbn [tj img]. rewrite map_map, teq_arr. clear - P. induction a as [|x a IHa]; [split; [constructor|exact I]|]. destruct (P x (or_introl eq_refl)) as [P1 P2].
      destruct IHa as [Q1 Q2]; [intros z I; apply P; now right|]. split; [constructor; assumption|]. cbn. split; [exact P2|exact Q2].
    - rewrite Forall_forall in IH.
      assert (P : forall k x, aget k m = Some x -> teq x (img (numtree sci) (tj x)) = true /\ wf_json (tj x)).
      { intros k x E. apply (IH (k, x) (in_get _ _ _ E)); [eapply wf_in; eauto|eapply static_obj; eauto|eapply fit_obj; eauto]. }
      assert (ND : NoDup (map fst (bsort (map (fun e => (fst e, tj (snd e))) m)))) by (apply sorted_nodup, bsort_all).
      assert (WJ : wf_json (tj (TObj m))).
      { cbn [tj wf_json]. split; [exact ND|]. assert (A : forall k j, In (k, j) (bsort (map (fun e => (fst e, tj (snd e))) m)) -> wf_json j).
        { intros k j I. apply (aget_in_nodup _ _ _ ND) in I. rewrite tj_get in I by exact W. destruct (aget k m) as [x|] eqn:E; [|discriminate]. injection I as <-. now apply (P k). }
        clear - A. induction (bsort _) as [|[k j] l IHl]; [exact I|]. split; [apply (A k); now left|]. apply IHl. intros k1 j1 I. apply (A k1). now right. }
      split; [|exact WJ]. cbn [tj]. rewrite img_obj by exact ND.
      assert (W1 : wf_tree (TObj (map (fun e => (fst e, img (numtree sci) (snd e))) (bsort (map (fun e => (fst e, tj (snd e))) m))))).
      { rewrite <- img_obj by exact ND. apply img_static; [|exact WJ]. intros n. unfold numtree. destruct (number_in sci n); (split; [exact I|discriminate]). }
      apply teq_keys; [exact W|exact W1|]. intros k. rewrite aget_map, tj_get by exact W. destruct (aget k m) as [x|] eqn:E; cbn; [|exact I]. now apply (P k).
    - exfalso. exact (S0 [] d eq_refl).
  Qed.
End Out.
Lemma less_no_token : forall j, tokenless j -> no_token j.
Proof.
  induction j as [| |n0| |l IH|m IH] using json_ind'; intros T p k x m1 E.
  1, 2, 3, 4: destruct p as [|[a|i] p]; cbn in E; discriminate.
  - destruct p as [|[a|i] p]; cbn in E; try discriminate. destruct (nth_error l i) as [y|] eqn:N; [|discriminate]. apply nth_error_In in N. rewrite Forall_forall in IH.
    apply (IH y N) with (p := p) (x := x) (m := m1); [|exact E]. cbn [tokenless] in T. clear - N T. induction l as [|z l IHl]; [destruct N|]. destruct T as [T1 T2], N as [<-|N]; auto.
  - cbn [tokenless] in T. destruct T as [T0 T]. destruct p as [|[a|i] p]; cbn in E; try discriminate.
    + injection E as ->. exact T0.
    + destruct (aget a m) as [y|] eqn:N; [|discriminate]. apply aget_Some_in in N. rewrite Forall_forall in IH. apply (IH (a, y) N) with (p := p) (x := x) (m := m1); [|exact E].
      cbn [snd]. clear - N T. induction m as [|z m IHm]; [destruct N|]. destruct T as [T1 T2], N as [->|N]; auto.
Qed.
