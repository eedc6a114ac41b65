(** Reading back what was written. *)
From Coq Require Import String Ascii ZArith NArith Lia Bool List Arith Permutation.
From Verif Require Import Base Dec Value RefSer RefSpec TemplateSpec RefFacts.
Import ListNotations.
Local Open Scope string_scope.
Local Open Scope list_scope.
Local Open Scope nat_scope.

Lemma perm_forall2 : forall {A B} (P : A -> B -> Prop) l1 l2, Permutation l1 l2 -> forall m1, Forall2 P l1 m1 -> exists m2, Permutation m1 m2 /\ Forall2 P l2 m2.
Proof.
  intros A B P l1 l2 Pm. induction Pm as [|x l l2 Pm IH|x y l|a b c P1 IH1 P2 IH2]; intros m F.
  - inversion F; subst. exists []. split; constructor.
  - inversion F as [|? z ? m1 Pz F1]; subst. destruct (IH _ F1) as (m2 & Q & F2). exists (z :: m2). split; constructor; assumption.
  - inversion F as [|? z ? m1 Pz F1]; subst. inversion F1 as [|? w ? m2 Pw F2]; subst. exists (w :: z :: m2). split; [apply perm_swap|repeat constructor; assumption].
  - destruct (IH1 _ F) as (m2 & Q & F2). destruct (IH2 _ F2) as (m3 & Q3 & F3). exists m3. split; [now transitivity m2|exact F3].
Qed.
Lemma forall2_app_inv : forall {A B} (P : A -> B -> Prop) a b c, Forall2 P (a ++ b) c -> exists x y, c = x ++ y /\ Forall2 P a x /\ Forall2 P b y.
Proof. intros. now apply Forall2_app_inv_l in H as (x & y & A1 & A2 & ->); eauto 6. Qed.

Section Dec.
  Variable refs : list (option value).
  Variable base : nat.
  Inductive dec (h : heap) : tree -> value -> Prop :=
  | DNull : dec h TNull VNull
  | DBool : forall b, dec h (TBool b) (VBool b)
  | DNum : forall d, dec h (TNum d) (VNum d)
  | DStr : forall s v, deser_str refs s = Ok v -> dec h (TStr s) v
  | DArr : forall js l vs, base <= l -> hget h l = Some (CArr vs) -> Forall2 (dec h) js vs -> dec h (TArr js) (VArr l)
  | DObj : forall js l m, base <= l -> hget h l = Some (CObj m) -> Forall2 (fun j e => deser_key refs (fst j) = Ok (fst e) /\ dec h (snd j) (snd e)) js m -> dec h (TObj js) (VObj l).
  Definition dec_entry (h : heap) (j : string * tree) (e : string * value) : Prop := deser_key refs (fst j) = Ok (fst e) /\ dec h (snd j) (snd e).
  Definition keeps (h h2 : heap) : Prop := forall l c, base <= l -> hget h l = Some c -> hget h2 l = Some c.
  Lemma keeps_ext : forall h h2, hext h h2 -> keeps h h2.
  Proof. intros h h2 E l c _ G. eapply hext_get; eauto. Qed.
  Lemma dec_mono : forall j h h2 v, keeps h h2 -> dec h j v -> dec h2 j v.
  Proof.
    induction j using tree_ind'; intros h h2 v K D; inversion D; subst; try (constructor; auto; fail).
    - eapply DArr; eauto. match goal with FF : Forall2 (dec h) a vs |- _ => clear -H FF K; induction FF as [|x y xs ys Dx F IH]; [constructor|]; inversion H; subst; constructor; eauto end.
    - eapply DObj; eauto. match goal with FF : Forall2 _ m ?z |- _ => clear -H FF K; induction FF as [|x y xs ys Dx F IH]; [constructor|]; inversion H; subst; destruct Dx; constructor; eauto end.
  Qed.
  Lemma decs_mono : forall js h h2 vs, keeps h h2 -> Forall2 (dec h) js vs -> Forall2 (dec h2) js vs.
  Proof. intros js h h2 vs K F. induction F; constructor; eauto using dec_mono. Qed.
  Lemma entries_mono : forall js h h2 vs, keeps h h2 -> Forall2 (dec_entry h) js vs -> Forall2 (dec_entry h2) js vs.
  Proof. intros js h h2 vs K F. induction F as [|x y xs ys [A B] F IH]; constructor; [split|]; eauto using dec_mono. Qed.
  (** Success: the value can be read in any memory. *)
  Definition reads (j : tree) : Prop := forall h, base <= length h -> exists h2 v, deser refs j h = (h2, Ok v) /\ hext h h2 /\ dec h2 j v.
  Lemma deser_arr_eq : forall js h, deser refs (TArr js) h = match deser_items refs js h with (h, Ok vs) => let (h, v) := new_arr h vs in (h, Ok v) | (h, Err e) => (h, Err e) end.
  Proof.
    intros js h. cbn [deser]. match goal with |- match ?f js h with _ => _ end = _ => assert (G : forall js h, f js h = deser_items refs js h) end.
    { induction js0 as [|x r IH]; intros h0; [reflexivity|]. cbn [deser_items]. destruct (deser refs x h0) as [h1 [v|]]; [|reflexivity]. now rewrite IH. }
    now rewrite G.
  Qed.
  Lemma deser_obj_eq : forall js h, deser refs (TObj js) h = match deser_entries refs js [] h with (h, Ok vs) => let (h, v) := new_obj h vs in (h, Ok v) | (h, Err e) => (h, Err e) end.
  Proof.
    intros js h. cbn [deser]. match goal with |- match ?f js [] h with _ => _ end = _ => assert (G : forall js out h, f js out h = deser_entries refs js out h) end.
    { induction js0 as [|[k x] r IH]; intros out h0; [reflexivity|]. cbn [deser_entries]. destruct (deser_key refs k); [|reflexivity]. destruct (deser refs x h0) as [h1 [v|]]; [|reflexivity]. now rewrite IH. }
    now rewrite G.
  Qed.
  Lemma items_read : forall js, Forall reads js -> forall h, base <= length h -> exists h2 vs, deser_items refs js h = (h2, Ok vs) /\ hext h h2 /\ Forall2 (dec h2) js vs.
  Proof.
    intros js F. induction F as [|j js R F IH]; intros h B; [exists h, []; repeat split; [apply hext_refl|constructor]|].
    destruct (R h B) as (h1 & v & E1 & X1 & D1). destruct (IH h1) as (h2 & vs & E2 & X2 & D2); [apply hext_length in X1; lia|].
    exists h2, (v :: vs). cbn [deser_items]. rewrite E1, E2. split; [reflexivity|]. split; [now apply hext_trans with h1|]. constructor; [|exact D2]. apply dec_mono with h1; [now apply keeps_ext|exact D1].
  Qed.
  Lemma aset_app2 : forall (k : string) (j : value) (out : amap value), ~ In k (akeys out) -> aset k j out = out ++ [(k, j)].
  Proof.
    induction out as [|[k2 x] out IH]; intros N; [reflexivity|]. cbn. destruct (String.eqb_spec k2 k) as [->|Ne]; [elim N; now left|]. rewrite IH; [reflexivity|]. intros I0. apply N. now right.
  Qed.
  Lemma entries_read : forall js ks, Forall2 (fun e k => deser_key refs (fst e) = Ok k /\ reads (snd e)) js ks -> forall out h, base <= length h -> NoDup (akeys out ++ ks) ->
    exists h2 m, deser_entries refs js out h = (h2, Ok (out ++ m)) /\ hext h h2 /\ Forall2 (dec_entry h2) js m /\ akeys m = ks.
  Proof.
    intros js ks F. induction F as [|[k j] k2 js ks [Ek R] F IH]; intros out h B N; [exists h, []; rewrite app_nil_r; repeat split; [apply hext_refl|constructor]|].
    cbn [fst snd] in *. destruct (R h B) as (h1 & v & E1 & X1 & D1). destruct (IH (out ++ [(k2, v)]) h1) as (h2 & m & E2 & X2 & D2 & Kk); [apply hext_length in X1; lia|unfold akeys; rewrite map_app; cbn [map fst]; now rewrite <- app_assoc|].
    exists h2, ((k2, v) :: m). cbn [deser_entries]. rewrite Ek, E1, aset_app2 by (intros I0; apply NoDup_remove_2 in N; apply N; apply in_or_app; now left). rewrite E2, <- app_assoc. split; [reflexivity|]. split; [now apply hext_trans with h1|].
    split; [|cbn; now f_equal]. constructor; [|exact D2]. split; [exact Ek|]. apply dec_mono with h1; [now apply keeps_ext|exact D1].
  Qed.
  Lemma arr_reads : forall js, Forall reads js -> reads (TArr js).
  Proof.
    intros js F h B. destruct (items_read js F h B) as (h2 & vs & E & X & D). rewrite deser_arr_eq, E. unfold new_arr, halloc. exists (h2 ++ [CArr vs]), (VArr (length h2)). split; [reflexivity|].
    split; [apply hext_trans with h2; [exact X|apply hext_alloc]|]. eapply DArr; [apply hext_length in X; lia|apply hget_alloc_new|]. eapply decs_mono; [apply keeps_ext, hext_alloc|exact D].
  Qed.
  Lemma obj_reads : forall js ks, Forall2 (fun e k => deser_key refs (fst e) = Ok k /\ reads (snd e)) js ks -> NoDup ks -> reads (TObj js).
  Proof.
    intros js ks F N h B. destruct (entries_read js ks F [] h B N) as (h2 & m & E & X & D & _). rewrite deser_obj_eq, E. cbn [app]. unfold new_obj, halloc. exists (h2 ++ [CObj m]), (VObj (length h2)). split; [reflexivity|].
    split; [apply hext_trans with h2; [exact X|apply hext_alloc]|]. eapply DObj; [apply hext_length in X; lia|apply hget_alloc_new|]. eapply entries_mono; [apply keeps_ext, hext_alloc|exact D].
  Qed.
End Dec.

(** *** The first pass *)
Definition slot (j : tree) (v : value) : Prop :=
  match j with TArr _ => exists l, v = VArr l | TObj _ => exists l, v = VObj l | TStr s => v = VStr (unescape s) | _ => False end.
Definition locs_of (vs : list value) : list loc := flat_map (fun v => match v with VArr l | VObj l => [l] | _ => [] end) vs.
Definition entry_like (j : tree) : Prop := match j with TArr _ | TObj _ => True | TStr s => parse_ref_id s = None | _ => False end.
Lemma pass1_ok : forall rest done h, Forall entry_like rest -> exists h2 vs, pass1 rest done h = (h2, Ok (done ++ map Some vs)) /\ hext h h2 /\ Forall2 slot rest vs /\
  NoDup (locs_of vs) /\ forall l, In l (locs_of vs) -> length h <= l < length h2.
Proof.
  induction rest as [|j rest IH]; intros done h F.
  - exists h, []. rewrite app_nil_r. repeat split; try constructor; [apply hext_refl|destruct H|destruct H].
  - inversion F as [|? ? Fj Fr]; subst. assert (New : forall c v, (exists l, v = VArr l /\ l = length h) \/ (exists l, v = VObj l /\ l = length h) -> slot j v ->
      exists h2 vs, pass1 rest (done ++ [Some v]) (h ++ [c]) = (h2, Ok (done ++ map Some vs)) /\ hext h h2 /\ Forall2 slot (j :: rest) vs /\ NoDup (locs_of vs) /\ forall l, In l (locs_of vs) -> length h <= l < length h2).
    { intros c v Hv Sl. destruct (IH (done ++ [Some v]) (h ++ [c]) Fr) as (h2 & vs & E & X & S2 & N & Bd). rewrite app_length in Bd. cbn in Bd. pose proof (hext_length _ _ X) as Lx. rewrite app_length in Lx. cbn in Lx.
      exists h2, (v :: vs). rewrite E, <- app_assoc. split; [reflexivity|]. split; [apply hext_trans with (h ++ [c]); [apply hext_alloc|exact X]|]. split; [now constructor|].
      assert (Lv : locs_of (v :: vs) = length h :: locs_of vs) by (destruct Hv as [(l & -> & ->)|(l & -> & ->)]; reflexivity). rewrite Lv. split.
      - constructor; [|exact N]. intros I0. apply Bd in I0. lia.
      - intros l [<-|I0]; [lia|]. apply Bd in I0. lia. }
    destruct j; try contradiction; cbn [pass1].
    + cbn [entry_like] in Fj. cbn [deser]. unfold deser_str. rewrite Fj. destruct (IH (done ++ [Some (VStr (unescape s))]) h Fr) as (h2 & vs & E & X & S2 & N & Bd).
      exists h2, (VStr (unescape s) :: vs). rewrite E, <- app_assoc. split; [reflexivity|]. split; [exact X|]. split; [now constructor|]. split; assumption.
    + unfold new_arr, halloc. apply New; [left; eauto|cbn; eauto].
    + unfold new_obj, halloc. apply New; [right; eauto|cbn; eauto].
Qed.
(** *** The second pass *)
Definition slot_full (refs : list (option value)) (base : nat) (h : heap) (j : tree) (v : value) : Prop :=
  match j, v with
  | TArr js, VArr l => exists vs, hget h l = Some (CArr vs) /\ Forall2 (dec refs base h) js vs
  | TObj js, VObj l => exists m, hget h l = Some (CObj m) /\ Forall2 (dec_entry refs base h) js m
  | _, _ => True
  end.
Definition slot_reads (refs : list (option value)) (base : nat) (j : tree) : Prop :=
  match j with
  | TArr js => Forall (reads refs base) js
  | TObj js => exists ks, Forall2 (fun e k => deser_key refs (fst e) = Ok k /\ reads refs base (snd e)) js ks /\ NoDup ks
  | _ => True
  end.
Lemma pass2_ok : forall refs base data vs h, Forall2 slot data vs -> Forall (slot_reads refs base) data -> NoDup (locs_of vs) -> (forall l, In l (locs_of vs) -> l < base) -> base <= length h ->
  exists h2, pass2 refs (combine data (map Some vs)) h = (h2, Ok tt) /\ length h <= length h2 /\ (forall l c, ~ In l (locs_of vs) -> hget h l = Some c -> hget h2 l = Some c) /\
    Forall2 (slot_full refs base h2) data vs.
Proof.
  intros refs base data vs h S0. revert h. induction S0 as [|j v data vs Sj S0 IH]; intros h R N Bd B.
  - exists h. repeat split; auto. 
  - inversion R as [|? ? Rj Rr]; subst.
    assert (Step : forall l c h1, locs_of (v :: vs) = l :: locs_of vs -> hext h h1 -> (forall h2, keeps base h1 h2 -> hget h2 l = Some c -> slot_full refs base h2 j v) ->
      exists h2, pass2 refs (combine data (map Some vs)) (hset h1 l c) = (h2, Ok tt) /\ length h <= length h2 /\ (forall l0 c0, ~ In l0 (locs_of (v :: vs)) -> hget h l0 = Some c0 -> hget h2 l0 = Some c0) /\ Forall2 (slot_full refs base h2) (j :: data) (v :: vs)).
    { intros l c h1 Lv X Sf. rewrite Lv in *. inversion N as [|? ? N1 N2]; subst. pose proof (hext_length _ _ X) as Lx. assert (Ll : l < base) by (apply Bd; now left).
      destruct (IH (hset h1 l c) Rr N2) as (h2 & E & L2 & K2 & F2); [intros x I0; apply Bd; now right|rewrite hset_length; lia|]. rewrite hset_length in L2. exists h2. split; [exact E|]. split; [lia|]. split.
      - intros l0 c0 I0 G. apply K2; [intros I1; apply I0; now right|]. rewrite hget_hset_ne by (intros ->; apply I0; now left). eapply hext_get; eauto.
      - constructor; [|exact F2]. apply Sf.
        + intros l0 c0 B0 G. apply K2; [intros I1; assert (l0 < base) by (apply Bd; now right); lia|]. rewrite hget_hset_ne by lia. exact G.
        + apply K2; [exact N1|]. apply hget_hset_eq. lia. }
    destruct j; try contradiction; cbn [slot] in Sj.
    + subst v. cbn [combine map pass2]. destruct (IH h Rr N Bd B) as (h2 & E & L2 & K2 & F2). exists h2. split; [exact E|]. split; [exact L2|]. split; [exact K2|]. constructor; [exact I|exact F2].
    + destruct Sj as (l & ->). cbn [combine map pass2]. cbn [slot_reads] in Rj. destruct (items_read refs base a Rj h B) as (h1 & ws & E & X & D). rewrite E. apply Step; [reflexivity|exact X|].
      intros h2 K G. exists ws. split; [exact G|]. eapply decs_mono; eauto.
    + destruct Sj as (l & ->). cbn [combine map pass2]. cbn [slot_reads] in Rj. destruct Rj as (ks & Rk & Nk). destruct (entries_read refs base m ks Rk [] h B Nk) as (h1 & ws & E & X & D & _). rewrite E. cbn [app]. apply Step; [reflexivity|exact X|].
      intros h2 K G. exists ws. split; [exact G|]. eapply entries_mono; eauto.
Qed.

Lemma nth_forall2 : forall {A B} (P : A -> B -> Prop) l m i x, Forall2 P l m -> nth_error l i = Some x -> exists y, nth_error m i = Some y /\ P x y.
Proof. intros A B P l m i x F. revert i. induction F as [|a b l m Pa F IH]; intros [|i] E; try discriminate; [injection E as ->; exists b; auto|apply IH; exact E]. Qed.
Section Back.
  Variables (tbl : list addr) (h : heap) (data data2 : list tree) (vs : list value) (base : nat).
  Hypothesis wf : wf_heap h.
  Hypothesis bound : (N.of_nat (length tbl) <= 2 ^ 64)%N.
  Hypothesis full : forall i a, nth_error tbl i = Some a -> exists j, nth_error data i = Some j /\ body tbl h a j.
  Hypothesis shuffled : Forall2 same data data2.
  Hypothesis slots : Forall2 slot data2 vs.
  Let refs := map Some vs.
  Notation estr := (estr tbl).
  Lemma ref_str : forall s i, idx tbl (AStr s) = Some i -> nth_error refs i = Some (Some (VStr s)).
  Proof.
    intros s i E. apply idx_nth in E. destruct (full i _ E) as (j & Ej & B). cbn in B. subst j. destruct (nth_forall2 _ _ _ _ _ shuffled Ej) as (j2 & E2 & S2). inversion S2; subst.
    destruct (nth_forall2 _ _ _ _ _ slots E2) as (v & Ev & Sv). cbn in Sv. rewrite unescape_escape in Sv. subst v. unfold refs. now rewrite (map_nth_error Some _ _ Ev).
  Qed.
  Lemma ref_some : forall a i, idx tbl a = Some i -> exists v, nth_error refs i = Some (Some v).
  Proof.
    intros a i E. apply idx_nth in E. destruct (full i _ E) as (j & Ej & B). destruct (nth_forall2 _ _ _ _ _ shuffled Ej) as (j2 & E2 & S2). destruct (nth_forall2 _ _ _ _ _ slots E2) as (v & Ev & Sv).
    exists v. unfold refs. now rewrite (map_nth_error Some _ _ Ev).
  Qed.
  Lemma key_back : forall s, deser_key refs (estr s) = Ok s.
  Proof.
    intros s. unfold deser_key, RefFacts.estr. destruct (idx tbl (AStr s)) as [i|] eqn:E; [|now rewrite parse_escape, unescape_escape].
    rewrite parse_show by (eapply idx_bound; eauto). now rewrite (ref_str s i E).
  Qed.
  Lemma str_back : forall s, deser_str refs (estr s) = Ok (VStr s).
  Proof.
    intros s. unfold deser_str, RefFacts.estr. destruct (idx tbl (AStr s)) as [i|] eqn:E; [|now rewrite parse_escape, unescape_escape].
    rewrite parse_show by (eapply idx_bound; eauto). now rewrite (ref_str s i E).
  Qed.
  Lemma loc_back : forall l i v, idx tbl (ALoc l) = Some i -> deser_str refs (show_ref i) = Ok v <-> nth_error vs i = Some v.
  Proof.
    intros l i v E. unfold deser_str. rewrite parse_show by (eapply idx_bound; eauto). unfold refs. destruct (nth_error vs i) as [w|] eqn:Ev.
    - rewrite (map_nth_error Some _ _ Ev). split; congruence.
    - destruct (ref_some _ _ E) as (w & Ew). unfold refs in Ew. rewrite nth_error_map, Ev in Ew. discriminate.
  Qed.
  Notation reads := (reads refs base).
  Definition obj_keys (m : list (string * value)) : Prop := NoDup (map fst m).
  Lemma entries_reads : forall m js js2, NoDup (akeys m) -> Forall2 (enc_entry tbl h) m js -> same (TObj js) (TObj js2) ->
    Forall (fun e => forall v j2, enc tbl h v (snd e) -> same (snd e) j2 -> reads j2) js ->
    exists ks, Forall2 (fun e k => deser_key refs (fst e) = Ok k /\ reads (snd e)) js2 ks /\ NoDup ks.
  Proof.
    intros m js js2 N F S0 IH. inversion S0 as [| | | | | |a b c Pm Fs]; subst.
    assert (G : Forall2 (fun e k => deser_key refs (fst e) = Ok k /\ reads (snd e)) c (akeys m)).
    { clear N Pm S0. revert c Fs. induction F as [|[k v] [k1 j] m js [Ek Ev] F IHF]; intros c Fs; inversion Fs as [|? [k2 j2] ? c2 [Ek2 Sj] Fs2]; subst; [constructor|]. inversion IH; subst. cbn [fst snd] in *. subst.
      constructor; [split; cbn; [apply key_back|eauto]|]. apply IHF; assumption. }
    destruct (perm_forall2 _ _ _ (Permutation_sym Pm) _ G) as (ks & Pk & Fk). exists ks. split; [exact Fk|]. eapply Permutation_NoDup; eauto.
  Qed.
  Lemma enc_reads : forall j v j2, enc tbl h v j -> same j j2 -> reads j2.
  Proof.
    induction j using tree_ind'; intros v j2 E S0.
    - inversion S0; subst. intros h0 B. exists h0, VNull. repeat split; [apply hext_refl|constructor].
    - inversion S0; subst. intros h0 B. exists h0, (VBool b). repeat split; [apply hext_refl|constructor].
    - inversion S0; subst. intros h0 B. exists h0, (VNum d). repeat split; [apply hext_refl|constructor].
    - inversion S0; subst. intros h0 B. assert (G : exists w, deser_str refs s = Ok w).
      { inversion E as [| | |s0|l i Ei|l i Ei| |]; subst; [eexists; apply str_back| |]; destruct (ref_some _ _ Ei) as (w & Ew); exists w; apply (loc_back l i w Ei); unfold refs in Ew; rewrite nth_error_map in Ew; destruct (nth_error vs i); cbn in Ew; congruence. }
      destruct G as (w & Ew). exists h0, w. cbn [deser]. rewrite Ew. repeat split; [apply hext_refl|now constructor].
    - inversion E as [| | | | | |l0 vs0 js0 Ei Eg F|]; subst. inversion S0 as [| | | | |a1 b Fs|]; subst. apply arr_reads. clear E S0 Eg. revert b Fs. induction F as [|x y xs ys Ex F IHF]; intros b Fs; inversion Fs; subst; constructor; inversion H; subst; eauto.
    - inversion E as [| | | | | | |l0 m0 js0 Ei Eg F]; subst. inversion S0 as [| | | | | |a1 b c Pm Fs]; subst. destruct (wf _ _ Eg) as [N _]. destruct (entries_reads m0 m b N F S0 H) as (ks & Fk & Nk). eapply obj_reads; eauto.
    - inversion E.
  Qed.
  Lemma body_reads : forall a j j2, body tbl h a j -> same j j2 -> slot_reads refs base j2.
  Proof.
    intros [s|l] j j2 B S0; cbn in B; [subst j; inversion S0; subst; exact I|]. destruct B as [(a & js & Eg & F & ->)|(m & js & Eg & F & ->)].
    - inversion S0 as [| | | | |a1 b Fs|]; subst. cbn [slot_reads]. clear S0 Eg. revert b Fs. induction F as [|x y xs ys Ex F IHF]; intros b Fs; inversion Fs; subst; constructor; eauto using enc_reads.
    - inversion S0 as [| | | | | |a1 b c Pm Fs]; subst. cbn [slot_reads]. destruct (wf _ _ Eg) as [N _]. apply (entries_reads m js b N F S0). apply Forall_forall. intros e _ v j2. apply enc_reads.
  Qed.
  (** What is read has the contents of what was written. *)
  Variable h2 : heap.
  Hypothesis filled2 : Forall2 (slot_full refs base h2) data2 vs.
  Notation dec := (dec refs base h2).
  Definition comes_back (t : tree) : Prop := forall v j j2 v2, repr h v t -> enc tbl h v j -> same j j2 -> dec j2 v2 -> exists t2, repr h2 v2 t2 /\ same t t2.
  Lemma items_back : forall ts, Forall comes_back ts -> forall xs js js2 ys, Forall2 (repr h) xs ts -> Forall2 (enc tbl h) xs js -> Forall2 same js js2 -> Forall2 dec js2 ys ->
    exists ts2, Forall2 (repr h2) ys ts2 /\ Forall2 same ts ts2.
  Proof.
    intros ts C. induction C as [|t ts Ct C IH]; intros xs js js2 ys F1 F2 F3 F4.
    - inversion F1; subst. inversion F2; subst. inversion F3; subst. inversion F4; subst. exists []. split; constructor.
    - inversion F1 as [|x ? xs1 ? R1 F1']; subst. inversion F2 as [|? j ? js1 N2 F2']; subst. inversion F3 as [|? j2 ? js3 S3 F3']; subst. inversion F4 as [|? y ? ys1 D4 F4']; subst. destruct (Ct _ _ _ _ R1 N2 S3 D4) as (t2 & R2 & S2). destruct (IH _ _ _ _ F1' F2' F3' F4') as (ts2 & R3 & S4). exists (t2 :: ts2). split; constructor; assumption.
  Qed.
  Lemma entries_back : forall ts, Forall (fun e => comes_back (snd e)) ts -> forall m js c ys, Forall2 (fun kv kt => fst kv = fst kt /\ repr h (snd kv) (snd kt)) m ts -> Forall2 (enc_entry tbl h) m js ->
    Forall2 (fun x y => fst x = fst y /\ same (snd x) (snd y)) js c -> Forall2 (dec_entry refs base h2) c ys ->
    exists ts2, Forall2 (fun kv kt => fst kv = fst kt /\ repr h2 (snd kv) (snd kt)) ys ts2 /\ Forall2 (fun x y => fst x = fst y /\ same (snd x) (snd y)) ts ts2.
  Proof.
    intros ts C. induction C as [|[k t] ts Ct C IH]; intros m js c ys F1 F2 F3 F4.
    - inversion F1; subst. inversion F2; subst. inversion F3; subst. inversion F4; subst. exists []. split; constructor.
    - inversion F1 as [|[k1 v1] ? m1 ? [Ek1 R1] F1']; subst. inversion F2 as [|? [k2 j2] ? js1 [Ek2 N2] F2']; subst. inversion F3 as [|? [k3 j3] ? c1 [Ek3 S3] F3']; subst. inversion F4 as [|? [k4 v4] ? ys1 [Ek4 D4] F4']; subst. cbn [fst snd] in *. subst.
      rewrite key_back in Ek4. injection Ek4 as <-. destruct (Ct _ _ _ _ R1 N2 S3 D4) as (t2 & R2 & S2). destruct (IH _ _ _ _ F1' F2' F3' F4') as (ts2 & R3 & S4). exists ((k, t2) :: ts2). split; constructor; auto.
  Qed.
  Lemma arr_body_back : forall ts xs js js2 l2 ys, Forall comes_back ts -> Forall2 (repr h) xs ts -> Forall2 (enc tbl h) xs js -> Forall2 same js js2 -> hget h2 l2 = Some (CArr ys) -> Forall2 dec js2 ys ->
    exists t2, repr h2 (VArr l2) t2 /\ same (TArr ts) t2.
  Proof. intros ts xs js js2 l2 ys C F1 F2 F3 Eg F4. destruct (items_back ts C xs js js2 ys F1 F2 F3 F4) as (ts2 & R & S0). exists (TArr ts2). split; [eapply RArr; eauto|now constructor]. Qed.
  Lemma obj_body_back : forall ts m js js2 l2 ys, Forall (fun e => comes_back (snd e)) ts -> Forall2 (fun kv kt => fst kv = fst kt /\ repr h (snd kv) (snd kt)) m ts -> Forall2 (enc_entry tbl h) m js ->
    same (TObj js) (TObj js2) -> hget h2 l2 = Some (CObj ys) -> Forall2 (dec_entry refs base h2) js2 ys -> exists t2, repr h2 (VObj l2) t2 /\ same (TObj ts) t2.
  Proof.
    intros ts m js js2 l2 ys C F1 F2 S0 Eg F4. inversion S0 as [| | | | | |a1 b c Pm Fs]; subst. destruct (perm_forall2 _ _ _ Pm _ F4) as (ys2 & Py & F5).
    destruct (entries_back ts C m js c ys2 F1 F2 Fs F5) as (ts2 & R & S2). destruct (perm_forall2 _ _ _ (Permutation_sym Py) _ R) as (ts3 & P3 & R3). exists (TObj ts3). split; [eapply RObj; eauto|]. eapply SameObj; [|exact S2]. now apply Permutation_sym.
  Qed.
  Lemma all_back : forall t, comes_back t.
  Proof.
    induction t using tree_ind'; intros v j j2 v2 R E S0 D.
    - inversion R; subst. inversion E; subst. inversion S0; subst. inversion D; subst. exists TNull. split; constructor.
    - inversion R; subst. inversion E; subst. inversion S0; subst. inversion D; subst. exists (TBool b). split; constructor.
    - inversion R; subst. inversion E; subst. inversion S0; subst. inversion D; subst. exists (TNum d). split; constructor.
    - inversion R; subst. inversion E; subst. inversion S0; subst. inversion D as [| | |s1 w Q| |]; subst. rewrite str_back in Q. injection Q as <-. exists (TStr s). split; constructor.
    - inversion R as [| | | |l xs ts Eg Fr| |]; subst. inversion E as [| | | |l1 i Ei| |l1 a1 js Ei Eg1 F1|]; subst.
      + inversion S0; subst. inversion D as [| | |s1 w Q| |]; subst. apply (loc_back l i v2 Ei) in Q. pose proof (idx_nth _ _ _ Ei) as En. destruct (full i _ En) as (jb & Ej & B). destruct (nth_forall2 _ _ _ _ _ shuffled Ej) as (jb2 & Ej2 & Sb).
        destruct (nth_forall2 _ _ _ _ _ filled2 Ej2) as (w & Ew & Sf). rewrite Q in Ew. injection Ew as <-. destruct (nth_forall2 _ _ _ _ _ slots Ej2) as (w & Ew & Sl). rewrite Q in Ew. injection Ew as <-.
        destruct B as [(a1 & js & Eg1 & F1 & ->)|(m1 & js & Eg1 & F1 & ->)]; [|congruence]. rewrite Eg in Eg1. injection Eg1 as <-. inversion Sb as [| | | | |? b Fs|]; subst. cbn in Sl. destruct Sl as (l2 & ->). cbn [slot_full] in Sf. destruct Sf as (ys & Ey & Fy).
        eapply arr_body_back; eauto.
      + rewrite Eg in Eg1. injection Eg1 as <-. inversion S0 as [| | | | |? b Fs|]; subst. inversion D; subst. eapply arr_body_back; eauto.
    - inversion R as [| | | | |l xs ts Eg Fr|]; subst. inversion E as [| | | | |l1 i Ei| |l1 a1 js Ei Eg1 F1]; subst.
      + inversion S0; subst. inversion D as [| | |s1 w Q| |]; subst. apply (loc_back l i v2 Ei) in Q. pose proof (idx_nth _ _ _ Ei) as En. destruct (full i _ En) as (jb & Ej & B). destruct (nth_forall2 _ _ _ _ _ shuffled Ej) as (jb2 & Ej2 & Sb).
        destruct (nth_forall2 _ _ _ _ _ filled2 Ej2) as (w & Ew & Sf). rewrite Q in Ew. injection Ew as <-. destruct (nth_forall2 _ _ _ _ _ slots Ej2) as (w & Ew & Sl). rewrite Q in Ew. injection Ew as <-.
        destruct B as [(a1 & js & Eg1 & F1 & ->)|(m1 & js & Eg1 & F1 & ->)]; [congruence|]. rewrite Eg in Eg1. injection Eg1 as <-. inversion Sb as [| | | | | |? b c Pm Fs]; subst. cbn in Sl. destruct Sl as (l2 & ->). cbn [slot_full] in Sf. destruct Sf as (ys & Ey & Fy).
        eapply obj_body_back; eauto.
      + rewrite Eg in Eg1. injection Eg1 as <-. inversion S0 as [| | | | | |? b c Pm Fs]; subst. inversion D; subst. eapply obj_body_back; eauto.
    - inversion R; subst. inversion E.
  Qed.
End Back.
