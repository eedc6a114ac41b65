(** What a policy's decision table does to store and environment once its rows have been selected. *)
From Coq Require Import String Bool List Arith Lia Permutation Sorted.
From Verif Require Import Base Dec Value Heap Ast Ops Compiler Vm Eval Funcs HeapSpec TreeFacts HeapFacts Isolate Session PureFacts Blocks BlocksSpec BlocksFacts
  PTable PTableSpec PTableSel.
From Verif Require Table RepFacts ContentFacts KeepFacts KeepLib MemoFacts SolveFacts.
Import ListNotations.
Local Open Scope string_scope.
Local Open Scope nat_scope.
Local Open Scope list_scope.

(** What is left to evaluate: a column and a source. *)
Notation job := (pcol * string)%type.
Definition on (b : bool) (k : string) (l : list job) : list string :=
  map snd (filter (fun j => Bool.eqb (pc_collect (fst j)) b && String.eqb (pc_field (fst j)) k) l).
Lemma on_app : forall b k l m, on b k (l ++ m) = on b k l ++ on b k m.
Proof. intros. unfold on. now rewrite filter_app, map_app. Qed.

Section Jobs.
  Variable X : ext.
  Variable parse : ekind -> string -> res node.
  Fixpoint do_jobs (l : list job) (coll : amap (list value)) (wr : list string) (w : pworld) : pworld * res (amap (list value) * list string) :=
    match l with
    | [] => (w, Ok (coll, wr))
    | (o, src) :: l =>
        match gives X parse src w with
        | (w1, Err e) => (w1, Err e)
        | (w1, Ok v) => if pc_collect o then do_jobs l (push (pc_field o) v coll) wr w1
                        else do_jobs l coll (pc_field o :: wr) (write (pc_field o) v w1)
        end
    end.
  Lemma do_jobs_app : forall a b coll wr w, do_jobs (a ++ b) coll wr w =
    match do_jobs a coll wr w with (w1, Ok (c, r)) => do_jobs b c r w1 | (w1, Err e) => (w1, Err e) end.
  Proof.
    induction a as [|[o src] a IH]; intros b coll wr w; cbn [do_jobs app]; auto. destruct (gives X parse src w) as [w1 [v|e]]; auto.
    destruct (pc_collect o); apply IH.
  Qed.
  Definition row_jobs (u : list (nat * string)) (i : nat) (cols : list pcol) (r : row) : list job :=
    flat_map (fun o => if in_used i (pc_id o) u then match cell_text (pc_id o) r with Some src => [(o, src)] | None => [] end else []) cols.
  Definition all_jobs (t : ptable) (u : list (nat * string)) (matched : list nat) : list job :=
    flat_map (fun i => match nth_error (pt_rows t) i with Some r => row_jobs u i (pt_out t) r | None => [] end) matched.
  Lemma cells_jobs : forall u i cols r coll wr w, commit_cells X parse u i cols r coll wr w = do_jobs (row_jobs u i cols r) coll wr w.
  Proof.
    intros u i. induction cols as [|o cols IH]; intros r coll wr w; cbn [commit_cells row_jobs flat_map]; auto.
    destruct (in_used i (pc_id o) u); [|apply IH]. destruct (cell_text (pc_id o) r) as [src|]; [|apply IH]. cbn [app do_jobs].
    destruct (gives X parse src w) as [w1 [v|e]]; auto. destruct (pc_collect o); apply IH.
  Qed.
  Lemma rows_jobs : forall t u matched coll wr w, commit_rows X parse t u matched coll wr w = do_jobs (all_jobs t u matched) coll wr w.
  Proof.
    intros t u. induction matched as [|i matched IH]; intros coll wr w; cbn [commit_rows all_jobs flat_map]; auto.
    destruct (nth_error (pt_rows t) i) as [r|]; [|apply IH]. rewrite cells_jobs, do_jobs_app.
    destruct (do_jobs (row_jobs u i (pt_out t) r) coll wr w) as [w1 [[c m]|e]]; auto.
  Qed.
End Jobs.

Section Commit.
  Variable L : lib.
  Hypothesis HL : ContentFacts.plain_lib L.
  Variable parse : ekind -> string -> res node.
  Notation X := (std_ext L).
  Variables (ls le : loc) (ms0 me0 : amap value) (h0 : heap) (F : list string).
  Hypothesis W0 : world ls le ms0 me0 h0.
  Hypothesis D0 : aget "$" me0 = None.
  Hypothesis Flat : forall k, In k F -> flat_key k.
  Notation at_ g := (PW g (VObj ls) (VObj le)).
  Notation env := (VObj le).
  Notation clear := (KeepFacts.clear (two ls le)).

  (** A moment while the table writes. *)
  Definition mid (ms : amap value) (g : heap) : Prop :=
    exists me, world ls le ms me g /\ aget "$" me = None /\ kept h0 g ls le /\ forall k, ~ In k F -> aget k ms = aget k ms0.
  Lemma mid_start : mid ms0 h0.
  Proof. exists me0. split; [exact W0|]. split; [exact D0|]. split; [apply kept_hext, hext_refl|auto]. Qed.
  Lemma mid_hext : forall ms g g1, mid ms g -> hext g g1 -> mid ms g1.
  Proof.
    intros ms g g1 (me & A & B & C & D) E. exists me. split; [eapply world_hext; eauto|]. split; auto. split; auto. eapply kept_trans; eauto. now apply kept_hext.
  Qed.
  Lemma mid_write : forall ms g k v x, mid ms g -> In k F -> repr g v x -> clear g v ->
    exists g1, write k v (at_ g) = at_ g1 /\ mid (aset k v ms) g1 /\ kept g g1 ls le.
  Proof.
    intros ms g k v x (me & A & B & C & D) Hk R Cl. destruct (write_flat ls le ms me g k v x A (Flat k Hk) R Cl) as (g1 & E & W1 & K1 & _).
    exists g1. split; auto. split; [|exact K1]. exists (aset k v me). split; auto. split.
    - rewrite aget_aset_ne; auto. apply (Flat k Hk).
    - split; [eapply kept_trans; eauto|]. intros k0 H0. rewrite aget_aset_ne; auto. congruence.
  Qed.
  Lemma mid_field : forall ms g k v, mid ms g -> aget k ms = Some v -> exists x, repr g v x /\ clear g v.
  Proof. intros ms g k v (me & A & _) E. eapply has_field; eauto. Qed.

  (** What is needed of an output cell: it comes out the same whatever the table has written. *)
  Definition steady (src : string) : Prop :=
    forall ms g w1 r, mid ms g -> gives X parse src (at_ g) = (w1, r) ->
      exists g1, w1 = at_ g1 /\ hext g g1 /\
        match r with
        | Ok v => exists x, evaluates X parse h0 env src x /\ repr g1 v x /\ clear g1 v
        | Err _ => ~ works X parse h0 env src
        end.
  Lemma steady_apart : forall src, uses_only parse (not_among F) KStandard src -> steady src.
  Proof.
    intros src U ms g w1 r (me & A & B & C & D) G. unfold gives in G. cbn [pw_env pw_heap pw_store] in G.
    destruct (srun X parse KStandard src (scope_new env) g) as [g1 q] eqn:E. injection G as <- <-. exists g1. split; auto.
    unfold works, evaluates, outcome. revert E. unfold srun. destruct (parse KStandard src) as [n|e] eqn:P.
    2:{ intros E. injection E as <- <-. split; [apply hext_refl|]. intros [v V]. discriminate. }
    destruct (compile X n) as [c|e]; [|intros E; injection E as <- <-; split; [apply hext_refl|intros [v V]; discriminate]].
    destruct (U n P) as [Na Nr]. pose proof (evaluate_pure X n (scope_new env) g (std_pure L) (no_assign_flat n Na)) as Hx.
    assert (EA : KeepFacts.ealike (two ls le) (not_among F) false g h0 (scope_new env) (scope_new env)).
    { destruct A as (N & A1 & A2 & N1 & N2 & M & T). destruct W0 as (N' & A1' & A2' & N1' & N2' & M' & T').
      split; [|split; [|split; [discriminate|]]].
      - right. split; auto. exists le, le, me, me0. split; auto. split; auto. split; [now apply hobj_hget|]. split; [now apply hobj_hget|]. intros k Hk.
        assert (Hk' : ~ In k F).
        { intros Hi. unfold not_among in Hk. apply negb_true_iff in Hk. assert (Y : existsb (String.eqb k) F = true); [|congruence].
          apply existsb_exists. exists k. split; auto. apply String.eqb_refl. }
        destruct (String.eqb_spec k "$") as [->|Nk]; [rewrite B, D0; exact Logic.I|]. rewrite (M k Nk), (M' k Nk), (D k Hk').
        destruct (aget k ms0) as [v|] eqn:Ek; [|exact Logic.I]. apply aget_Some_in in Ek. destruct (T' k v) as (x & Rx & Cx); [apply in_app_iff; auto|].
        destruct (C v x Rx Cx) as [R1 R2]. exists x. auto.
      - intros k _. exact Logic.I.
      - intros l [->| ->]; eauto using hget_lt. }
    pose proof (KeepLib.evaluate_clear (two ls le) L _ _ n _ _ g h0 HL Na Nr EA) as S0.
    destruct (evaluate X n (scope_new env) g) as [r1 k1], (evaluate X n (scope_new env) h0) as [r2 k2]. cbn [snd] in Hx. intros E. injection E as <- <-.
    split; [exact Hx|]. destruct r1 as [v1|e1], r2 as [v2|e2]; cbn in S0; try contradiction.
    - destruct S0 as (x & R1 & R2 & Cl). exists x. split; [|auto]. eauto.
    - intros [v V]. discriminate.
  Qed.

  Definition val (g : heap) (src : string) (v : value) : Prop := exists x, evaluates X parse h0 env src x /\ repr g v x /\ clear g v.
  Lemma val_kept : forall g g1 src v, kept g g1 ls le -> val g src v -> val g1 src v.
  Proof. intros g g1 src v K (x & A & B & C). destruct (K v x B C). exists x. auto. Qed.
  Lemma F2_kept : forall g g1 l vs, kept g g1 ls le -> Forall2 (val g) l vs -> Forall2 (val g1) l vs.
  Proof. intros g g1 l vs K H. induction H; constructor; eauto using val_kept. Qed.
  Variable coll0 : amap (list value).
  Record jinv (don : list job) (coll : amap (list value)) (wr : list string) (ms : amap value) (g : heap) : Prop := {
    ji_mid : mid ms g;
    ji_wr : forall k, In k wr <-> on false k don <> [];
    ji_last : forall k a src, on false k don = a ++ [src] -> exists v x, aget k ms = Some v /\ repr g v x /\ evaluates X parse h0 env src x;
    ji_coll : forall k vs, aget k coll = Some vs -> Forall2 (val g) (on true k don) vs;
    ji_keys : forall k, aget k coll = None <-> aget k coll0 = None;
    ji_nodup : NoDup (akeys coll) }.
  Definition job_ok (j : job) : Prop := In (pc_field (fst j)) F /\ (pc_collect (fst j) = true -> aget (pc_field (fst j)) coll0 <> None) /\ steady (snd j).
  Lemma jobs_ok : forall l don coll wr ms g w1 r, jinv don coll wr ms g -> (forall j, In j l -> job_ok j) -> do_jobs X parse l coll wr (at_ g) = (w1, r) ->
    exists ms1 g1, w1 = at_ g1 /\
      match r with
      | Ok (c1, wr1) => jinv (don ++ l) c1 wr1 ms1 g1
      | Err _ => mid ms1 g1 /\ exists j, In j l /\ ~ works X parse h0 env (snd j)
      end.
  Proof.
    induction l as [|[o src] l IH]; intros don coll wr ms g w1 r J Ok_ E; cbn [do_jobs] in E.
    { injection E as <- <-. exists ms, g. split; auto. now rewrite app_nil_r. }
    destruct (Ok_ (o, src) (or_introl eq_refl)) as (Of & Oc & Os). cbn [fst snd] in *.
    destruct (gives X parse src (at_ g)) as [w2 q] eqn:G. destruct (Os _ _ _ _ (ji_mid _ _ _ _ _ J) G) as (g2 & -> & Hx & Rq).
    pose proof (mid_hext _ _ _ (ji_mid _ _ _ _ _ J) Hx) as M2. pose proof (kept_hext _ _ ls le Hx) as K2.
    destruct q as [v|e].
    2:{ injection E as <- <-. exists ms, g2. split; auto. split; auto. exists (o, src). split; [now left|exact Rq]. }
    destruct Rq as (x & Ev & Rx & Cx).
    assert (Fin : forall don' r, don' = don ++ [(o, src)] -> (exists ms1 g1, w1 = at_ g1 /\ match r with Ok (c1, wr1) => jinv (don' ++ l) c1 wr1 ms1 g1 | Err _ => mid ms1 g1 /\ exists j, In j l /\ ~ works X parse h0 env (snd j) end) ->
      exists ms1 g1, w1 = at_ g1 /\ match r with Ok (c1, wr1) => jinv (don ++ (o, src) :: l) c1 wr1 ms1 g1 | Err _ => mid ms1 g1 /\ exists j, In j ((o, src) :: l) /\ ~ works X parse h0 env (snd j) end).
    { intros don' q -> (m & k & A & B). exists m, k. split; auto. destruct q as [[c1 wr1]|e]; [now rewrite <- app_assoc in B|].
      destruct B as (B & j & C & D). split; auto. exists j. split; [now right|auto]. }
    apply (Fin _ _ eq_refl). clear Fin.
    assert (Ok' : forall j, In j l -> job_ok j) by (intros; apply Ok_; now right).
    destruct J as [J1 J2 J3 J4 J5 J6].
    destruct (pc_collect o) eqn:Co.
    - eapply IH; [|exact Ok'|exact E]. constructor.
      + exact M2.
      + intros k. rewrite on_app. unfold on at 2. cbn. rewrite Co. cbn. rewrite app_nil_r. apply J2.
      + intros k a s Ek. rewrite on_app in Ek. unfold on in Ek at 2. cbn in Ek. rewrite Co in Ek. cbn in Ek. rewrite app_nil_r in Ek.
        destruct (J3 k a s Ek) as (v0 & x0 & A & B & C). exists v0, x0. split; auto. split; auto. exact (repr_hext _ _ _ _ Hx B).
      + intros k vs Ek. rewrite on_app. unfold on at 2. cbn. rewrite Co. cbn. unfold push in Ek. destruct (String.eqb_spec (pc_field o) k) as [Eo|Nk]; [subst k|].
        * rewrite aget_aset_eq in Ek. injection Ek as <-. cbn. apply Forall2_app; [|constructor; [exists x; auto|constructor]].
          destruct (aget (pc_field o) coll) as [vs0|] eqn:E0; [apply (F2_kept g); auto|]. apply J5 in E0. exfalso. now apply Oc.
        * rewrite aget_aset_ne in Ek by auto. cbn. rewrite app_nil_r. apply (F2_kept g); auto.
      + intros k. unfold push. destruct (String.eqb_spec (pc_field o) k) as [Eo|Nk]; [subst k; rewrite aget_aset_eq|rewrite aget_aset_ne by auto; apply J5].
        split; [discriminate|]. intros Z. exfalso. now apply Oc.
      + unfold push. now apply aset_nodup.
    - destruct (mid_write _ _ (pc_field o) v x M2 Of Rx Cx) as (g3 & Ew & M3 & K3). rewrite Ew in E. pose proof (kept_trans _ _ _ _ _ K2 K3) as K.
      eapply IH; [|exact Ok'|exact E]. constructor.
      + exact M3.
      + intros k. rewrite on_app. unfold on at 2. cbn. rewrite Co. cbn. destruct (String.eqb_spec (pc_field o) k) as [Eo|Nk]; [subst k|]; cbn.
        * split; [intros _ Z; apply app_eq_nil in Z as [_ Z]; discriminate|auto].
        * rewrite app_nil_r, <- J2. split; [intros [Z|Z]; [congruence|auto]|auto].
      + intros k a s Ek. rewrite on_app in Ek. unfold on in Ek at 2. cbn in Ek. rewrite Co in Ek. cbn in Ek. destruct (String.eqb_spec (pc_field o) k) as [Eo|Nk]; [subst k|]; cbn in Ek.
        * apply app_inj_tail in Ek as [_ <-]. exists v, x. split; [apply aget_aset_eq|]. split; auto. now apply (K3 v x).
        * rewrite app_nil_r in Ek. destruct (J3 k a s Ek) as (v0 & x0 & A & B & C). exists v0, x0. rewrite aget_aset_ne by auto. split; auto. split; auto.
          destruct (mid_field _ _ _ _ J1 A) as (x1 & _ & C1). now apply (K v0 x0).
      + intros k vs Ek. rewrite on_app. unfold on at 2. cbn. rewrite Co. cbn. rewrite app_nil_r. apply (F2_kept g); auto.
      + exact J5.
      + exact J6.
  Qed.

  Lemma nulls_ok : forall cols wr ms g, mid ms g -> (forall o, In o cols -> pc_field o <> "" -> In (pc_field o) F) ->
    exists ms1 g1, write_nulls cols wr (at_ g) = at_ g1 /\ mid ms1 g1 /\ kept g g1 ls le /\
      (forall k, (In k wr \/ (forall o, In o cols -> pc_field o = k -> pc_collect o = true)) -> aget k ms1 = aget k ms) /\
      (forall o, In o cols -> pc_field o <> "" -> pc_collect o = false -> ~ In (pc_field o) wr -> aget (pc_field o) ms1 = Some VNull).
  Proof.
    induction cols as [|o cols IH]; intros wr ms g M Hf; cbn [write_nulls].
    { exists ms, g. split; auto. split; auto. split; [apply kept_hext, hext_refl|]. split; auto. intros o []. }
    assert (Hf' : forall o, In o cols -> pc_field o <> "" -> In (pc_field o) F) by (intros; apply Hf; auto; now right).
    destruct (negb (pc_collect o) && negb (String.eqb (pc_field o) "") && negb (existsb (String.eqb (pc_field o)) wr)) eqn:Cn.
    - apply andb_true_iff in Cn as [Cn C3]. apply andb_true_iff in Cn as [C1 C2]. apply negb_true_iff in C1, C2, C3. apply String.eqb_neq in C2.
      destruct (mid_write _ _ (pc_field o) VNull TNull M (Hf o (or_introl eq_refl) C2) ltac:(constructor) ltac:(apply KeepFacts.clear_scalar; discriminate)) as (g1 & Ew & M1 & K1).
      rewrite Ew. destruct (IH (pc_field o :: wr) _ g1 M1 Hf') as (ms2 & g2 & E2 & M2 & K2 & A2 & B2). exists ms2, g2. split; auto. split; auto.
      split; [eapply kept_trans; eauto|]. split.
      + intros k Hk. assert (Nk : pc_field o <> k).
        { intros <-. destruct Hk as [Hk|Hk]; [|rewrite (Hk o (or_introl eq_refl) eq_refl) in C1; discriminate].
          assert (Y : existsb (String.eqb (pc_field o)) wr = true); [|congruence]. apply existsb_exists. exists (pc_field o). split; auto. apply String.eqb_refl. }
        rewrite A2; [now apply aget_aset_ne|]. destruct Hk as [Hk|Hk]; [left; now right|right; intros; apply Hk; auto; now right].
      + intros o' [<-|Ho] N1 N2 N3.
        * rewrite A2; [apply aget_aset_eq|left; now left].
        * destruct (String.eqb_spec (pc_field o) (pc_field o')) as [Eq|Ne].
          -- rewrite <- Eq. rewrite A2; [apply aget_aset_eq|left; now left].
          -- apply B2; auto. intros [Z|Z]; congruence.
    - destruct (IH wr ms g M Hf') as (ms2 & g2 & E2 & M2 & K2 & A2 & B2). exists ms2, g2. split; auto. split; auto. split; auto. split.
      + intros k Hk. apply A2. destruct Hk as [Hk|Hk]; [now left|right; intros; apply Hk; auto; now right].
      + intros o' [<-|Ho] N1 N2 N3; [|now apply B2]. exfalso. rewrite N2 in Cn. apply String.eqb_neq in N1. rewrite N1 in Cn. cbn in Cn. apply negb_false_iff in Cn.
        apply existsb_exists in Cn as (k & A & B). apply String.eqb_eq in B. subst k. auto.
  Qed.
  Lemma arrays_ok : forall l ms g, mid ms g -> NoDup (map fst l) -> (forall k vs, In (k, vs) l -> In k F /\ forall v, In v vs -> exists x, repr g v x /\ clear g v) ->
    exists ms1 g1, write_arrays l (at_ g) = at_ g1 /\ mid ms1 g1 /\ kept g g1 ls le /\
      (forall k, ~ In k (map fst l) -> aget k ms1 = aget k ms) /\
      (forall k vs ts, In (k, vs) l -> Forall2 (repr g) vs ts -> exists a, aget k ms1 = Some a /\ repr g1 a (TArr ts)).
  Proof.
    induction l as [|[k vs] l IH]; intros ms g M Nd Hv; cbn [write_arrays].
    { exists ms, g. split; auto. split; auto. split; [apply kept_hext, hext_refl|]. split; auto. intros k vs ts []. }
    unfold new_arr, halloc. cbn [pw_heap pw_store pw_env]. inversion Nd as [|? ? Nk Nd']; subst. cbn [fst] in *.
    assert (Hx : hext g (g ++ [CArr vs])) by apply hext_alloc. pose proof (mid_hext _ _ _ M Hx) as M1. pose proof (kept_hext _ _ ls le Hx) as K1.
    destruct (Hv k vs (or_introl eq_refl)) as [Fk Cv].
    assert (Gn : hget (g ++ [CArr vs]) (length g) = Some (CArr vs)) by apply hget_alloc_new.
    assert (Cl : clear (g ++ [CArr vs]) (VArr (length g))).
    { eapply KeepFacts.clear_arr; [exact Gn| |].
      - intros Z. destruct M as (me & (_ & A1 & A2 & _) & _). destruct Z as [Z|Z]; apply hget_lt in A1, A2; lia.
      - intros v Hi. destruct (Cv v Hi) as (x & R & C). now apply (K1 v x). }
    assert (Rv : forall ts, Forall2 (repr g) vs ts -> repr (g ++ [CArr vs]) (VArr (length g)) (TArr ts)).
    { intros ts H. econstructor; [exact Gn|]. clear - H Hx. revert Hx. generalize (g ++ [CArr vs]). intros g1 Hx. induction H as [|v x vs1 ts1 R H IH]; constructor; auto. exact (repr_hext _ _ _ _ Hx R). }
    assert (Tv : exists ts, Forall2 (repr g) vs ts).
    { clear - Cv. induction vs as [|v vs IH]; [exists []; constructor|]. destruct (Cv v (or_introl eq_refl)) as (x & R & _). destruct IH as (ts & H); [intros; apply Cv; now right|].
      exists (x :: ts). now constructor. }
    destruct Tv as (ts0 & H0). destruct (mid_write _ _ k (VArr (length g)) _ M1 Fk (Rv ts0 H0) Cl) as (g2 & Ew & M2 & K2). rewrite Ew.
    pose proof (kept_trans _ _ _ _ _ K1 K2) as K. destruct (IH _ g2 M2 Nd') as (ms3 & g3 & E3 & M3 & K3 & A3 & B3).
    { intros k' vs' Hi. destruct (Hv k' vs' (or_intror Hi)) as [A B]. split; auto. intros v Hv'. destruct (B v Hv') as (x & R & C). exists x. now apply (K v x). }
    exists ms3, g3. split; auto. split; auto. split; [eapply kept_trans; eauto|]. split.
    - intros k0 N0. cbn [map fst] in N0. rewrite A3; [apply aget_aset_ne; intros ->; apply N0; now left|]. intros Z. apply N0. now right.
    - intros k0 vs' ts [E0|Hi] Ht.
      + injection E0 as <- <-. exists (VArr (length g)). rewrite A3 by auto. split; [apply aget_aset_eq|].
        destruct (K2 _ _ (Rv ts Ht) Cl) as [R2 C2]. exact (proj1 (K3 _ _ R2 C2)).
      + apply (B3 k0 vs' ts Hi). destruct (Hv k0 vs' (or_intror Hi)) as [_ B]. clear - Ht B K. induction Ht as [|v x vs ts R H IH]; constructor.
        * destruct (B v (or_introl eq_refl)) as (x' & R' & C'). now apply (K v x).
        * apply IH. intros; apply B; now right.
  Qed.
End Commit.

(** *** The cells that are left. *)
Section Cells.
  Variable L : lib.
  Variable parse : ekind -> string -> res node.
  Notation X := (std_ext L).
  Variables (env : value) (h0 : heap) (t : ptable).
  Notation holds_row := (holds_row X parse h0 env t).
  Notation hits := (hits L parse env h0 t).
  Notation got := (got L parse env h0 t).
  Notation is_used := (is_used L parse env h0 t).
  Hypothesis Ids : NoDup (map pc_id (pt_out t)).
  Hypothesis Fields : NoDup (table_fields t).
  Lemma active_in : forall o, In o (active t) <-> In o (pt_out t) /\ pc_field o <> "".
  Proof. intros o. unfold active. rewrite filter_In, negb_true_iff, String.eqb_neq. tauto. Qed.
  Lemma map_inj_in : forall A B (f : A -> B) l x y, NoDup (map f l) -> In x l -> In y l -> f x = f y -> x = y.
  Proof.
    intros A B f. induction l as [|a l IH]; intros x y N Hx Hy E; [destruct Hx|]. cbn in N. inversion N as [|? ? N1 N2]; subst.
    destruct Hx as [->|Hx], Hy as [->|Hy]; auto; exfalso; apply N1; [rewrite E|rewrite <- E]; now apply in_map.
  Qed.
  Lemma same_field : forall o o', In o (active t) -> In o' (pt_out t) -> pc_field o' = pc_field o -> o' = o.
  Proof.
    intros o o' H H' E. apply (map_inj_in _ _ pc_field (active t)); auto. apply active_in. split; auto. apply active_in in H as [_ H]. congruence.
  Qed.
  Definition cell_list (o : pcol) (r : row) : list string := match cell_text (pc_id o) r with Some src => [src] | None => [] end.
  Definition srcs (o : pcol) (rs : list row) : list string := flat_map (fun r => if holds_row r then cell_list o r else []) rs.
  Lemma one_col : forall u i r o cols, NoDup (map pc_id cols) -> In o cols -> (forall o', In o' cols -> pc_field o' = pc_field o -> o' = o) ->
    on (pc_collect o) (pc_field o) (row_jobs u i cols r) = if in_used i (pc_id o) u then cell_list o r else [].
  Proof.
    intros u i r o cols N Ho Hu.
    assert (No : forall cols, ~ In o cols -> (forall o', In o' cols -> pc_field o' = pc_field o -> o' = o) -> on (pc_collect o) (pc_field o) (row_jobs u i cols r) = []).
    { clear. induction cols as [|o' cols IH]; intros Ho Hu; auto. unfold row_jobs. cbn [flat_map]. fold (row_jobs u i cols r). rewrite on_app.
      rewrite IH; [|intros Z; apply Ho; now right|intros; apply Hu; auto; now right]. rewrite app_nil_r.
      destruct (in_used i (pc_id o') u); [|reflexivity]. destruct (cell_text (pc_id o') r); [|reflexivity]. unfold on. cbn.
      destruct (String.eqb_spec (pc_field o') (pc_field o)) as [E|E]; [|now rewrite andb_false_r]. exfalso. apply Ho. left. apply Hu; auto. now left. }
    induction cols as [|o' cols IH]; [destruct Ho|]. cbn [map] in N. inversion N as [|? ? N1 N2]; subst. unfold row_jobs. cbn [flat_map]. fold (row_jobs u i cols r). rewrite on_app.
    destruct Ho as [->|Ho].
    - rewrite No; [|intros Z; apply N1; now apply in_map|intros; apply Hu; auto; now right]. rewrite app_nil_r. unfold cell_list.
      destruct (in_used i (pc_id o) u); [|reflexivity]. destruct (cell_text (pc_id o) r); [|reflexivity]. unfold on. cbn. rewrite eqb_reflx, String.eqb_refl. reflexivity.
    - rewrite IH; auto; [|intros; apply Hu; auto; now right].
      assert (Ne : pc_field o' <> pc_field o).
      { intros E. pose proof (Hu o' (or_introl eq_refl) E) as ->. apply N1. now apply in_map. }
      apply String.eqb_neq in Ne. destruct (in_used i (pc_id o') u); [|reflexivity]. destruct (cell_text (pc_id o') r); [|reflexivity]. unfold on. cbn. now rewrite Ne, andb_false_r.
  Qed.
  Lemma in_used_in : forall i id u, in_used i id u = true <-> In (i, id) u.
  Proof.
    intros i id u. unfold in_used. rewrite existsb_exists. split.
    - intros ([j d] & A & B). cbn in B. apply andb_true_iff in B as [B C]. apply Nat.eqb_eq in B. apply String.eqb_eq in C. now subst.
    - intros H. exists (i, id). split; auto. cbn. now rewrite Nat.eqb_refl, String.eqb_refl.
  Qed.
  Lemma used_cell : forall p u o i r, is_used p u -> In o (active t) -> nth_error p i = Some r -> holds_row r = true -> has_cell o r = true ->
    in_used i (pc_id o) u = pc_collect o || negb (got o (firstn i p)).
  Proof.
    intros p u o i r U Ho E Hr Hc. destruct (in_used i (pc_id o) u) eqn:I0.
    - apply in_used_in in I0. apply U in I0 as (o' & r' & A & B & _ & _ & _ & C). assert (o' = o).
      { apply (map_inj_in _ _ pc_id (pt_out t)); auto; [now apply active_in in A|now apply active_in in Ho]. }
      subst o'. destruct C as [->| ->]; cbn; auto. now rewrite orb_true_r.
    - destruct (pc_collect o || negb (got o (firstn i p))) eqn:Z; auto. exfalso. assert (Y : in_used i (pc_id o) u = true); [|congruence].
      apply in_used_in, U. exists o, r. split; auto. split; auto. split; auto. split; auto. split; auto. apply orb_true_iff in Z as [Z|Z]; [now left|right]. now apply negb_true_iff in Z.
  Qed.
  Lemma left_cells : forall p rest u o, pt_rows t = p ++ rest -> is_used p u -> In o (active t) -> forall rs pre, p = pre ++ rs ->
    on (pc_collect o) (pc_field o) (all_jobs t u (hits (length pre) rs)) =
      if pc_collect o then srcs o rs else if got o pre then [] else firstn 1 (srcs o rs).
  Proof.
    intros p rest u o Er U Ho. induction rs as [|r rs IH]; intros pre Ep.
    { cbn. destruct (pc_collect o); auto. now destruct (got o pre). }
    specialize (IH (pre ++ [r])). rewrite app_length in IH. cbn [length] in IH. rewrite Nat.add_1_r in IH. specialize (IH ltac:(rewrite <- app_assoc; exact Ep)).
    rewrite (got_snoc L parse env h0 t o pre r) in IH. cbn [PTableSel.hits srcs flat_map]. fold (srcs o rs). destruct (holds_row r) eqn:Hr; cbn [andb] in *.
    2:{ rewrite orb_false_r in IH. exact IH. }
    assert (En : nth_error p (length pre) = Some r) by (rewrite Ep, nth_error_app2, Nat.sub_diag; auto).
    assert (Et : nth_error (pt_rows t) (length pre) = Some r) by (rewrite Er, nth_error_app1; auto; apply nth_error_Some; congruence).
    change (all_jobs t u (length pre :: hits (S (length pre)) rs)) with
      ((match nth_error (pt_rows t) (length pre) with Some r0 => row_jobs u (length pre) (pt_out t) r0 | None => [] end) ++ all_jobs t u (hits (S (length pre)) rs)).
    rewrite on_app, IH, Et. rewrite (one_col u (length pre) r o (pt_out t) Ids (proj1 (proj1 (active_in o) Ho)) (fun o' A B => same_field o o' Ho A B)).
    destruct (has_cell o r) eqn:Hc.
    - rewrite (used_cell p u o (length pre) r U Ho En Hr Hc). rewrite Ep, firstn_app, Nat.sub_diag, firstn_all. cbn [firstn]. rewrite app_nil_r.
      unfold cell_list, has_cell in *. destruct (cell_text (pc_id o) r) as [src|]; [|discriminate]. destruct (pc_collect o); cbn; auto. destruct (got o pre); reflexivity.
    - unfold cell_list, has_cell in *. destruct (cell_text (pc_id o) r); [discriminate|]. rewrite orb_false_r. destruct (in_used (length pre) (pc_id o) u); cbn; reflexivity.
  Qed.
  Lemma got_srcs : forall o p, got o p = true -> srcs o p <> [].
  Proof.
    intros o. induction p as [|r p IH]; cbn; [discriminate|]. unfold srcs in *. cbn. unfold has_cell, cell_list. destruct (holds_row r); cbn; auto.
    destruct (cell_text (pc_id o) r); cbn; auto; discriminate.
  Qed.
  Lemma jobs_sources : forall p rest u o, pt_rows t = p ++ rest -> is_used p u -> (rest = [] \/ done_with L parse env h0 t p = true) -> In o (active t) ->
    on (pc_collect o) (pc_field o) (all_jobs t u (hits 0 p)) = if pc_collect o then sources X parse h0 env t o else firstn 1 (sources X parse h0 env t o).
  Proof.
    intros p rest u o Er U Dn Ho. pose proof (left_cells p rest u o Er U Ho p [] eq_refl) as Lc. cbn [length PTableSel.got existsb] in Lc. rewrite Lc. clear Lc.
    change (sources X parse h0 env t o) with (srcs o (pt_rows t)). rewrite Er. destruct Dn as [->|Dn]; [rewrite app_nil_r; auto|].
    unfold done_with in Dn. apply andb_true_iff in Dn as [Dn D3]. apply andb_true_iff in Dn as [D1 D2]. apply negb_true_iff in D1.
    assert (Co : pc_collect o = false).
    { destruct (pc_collect o) eqn:C; auto. assert (Y : existsb pc_collect (active t) = true); [|congruence]. apply existsb_exists. eauto. }
    rewrite Co. rewrite forallb_forall in D2. specialize (D2 o Ho). rewrite Co in D2. cbn in D2. apply got_srcs in D2. unfold srcs in *. rewrite flat_map_app.
    destruct (flat_map (fun r => if holds_row r then cell_list o r else []) p); [congruence|reflexivity].
  Qed.
  Lemma job_from : forall p rest u j, pt_rows t = p ++ rest -> is_used p u -> In j (all_jobs t u (hits 0 p)) ->
    In (fst j) (active t) /\ exists r, In r (pt_rows t) /\ cell_text (pc_id (fst j)) r = Some (snd j).
  Proof.
    intros p rest u j Er U H. unfold all_jobs in H. apply in_flat_map in H as (i & Hi & H). destruct (nth_error (pt_rows t) i) as [r|] eqn:En; [|destruct H].
    unfold row_jobs in H. apply in_flat_map in H as (o & Ho & H). destruct (in_used i (pc_id o) u) eqn:I0; [|destruct H].
    destruct (cell_text (pc_id o) r) as [src|] eqn:Ct; [|destruct H]. destruct H as [<-|[]]. cbn. split; [|exists r; split; auto; eapply nth_error_In; eauto].
    apply in_used_in in I0. apply U in I0 as (o' & r' & A & B & _). assert (o' = o); [|congruence].
    apply (map_inj_in _ _ pc_id (pt_out t)); auto. now apply active_in in A.
  Qed.
  Lemma job_on : forall l (j : job), In j l -> In (snd j) (on (pc_collect (fst j)) (pc_field (fst j)) l).
  Proof. intros l j H. unfold on. apply in_map. apply filter_In. split; auto. now rewrite eqb_reflx, String.eqb_refl. Qed.
End Cells.

Lemma empty_ok : forall cols m, NoDup (akeys m) -> (forall k vs, aget k m = Some vs -> vs = []) ->
  let m1 := fold_left (fun m o => if pc_collect o && negb (String.eqb (pc_field o) "") then match aget (pc_field o) m with Some _ => m | None => aset (pc_field o) ([] : list value) m end else m) cols m in
  NoDup (akeys m1) /\ (forall k vs, aget k m1 = Some vs -> vs = []) /\
  forall k, aget k m1 = None <-> aget k m = None /\ forall o, In o cols -> pc_collect o = true -> pc_field o <> "" -> pc_field o <> k.
Proof.
  induction cols as [|o cols IH]; intros m N E; cbn [fold_left].
  { split; auto. split; auto. intros k. split; [split; auto; intros o []|tauto]. }
  set (m2 := if pc_collect o && negb (String.eqb (pc_field o) "") then match aget (pc_field o) m with Some _ => m | None => aset (pc_field o) [] m end else m).
  assert (K : NoDup (akeys m2) /\ (forall k vs, aget k m2 = Some vs -> vs = []) /\
    forall k, aget k m2 = None <-> aget k m = None /\ (pc_collect o = true -> pc_field o <> "" -> pc_field o <> k)).
  { unfold m2. destruct (pc_collect o); cbn [andb]; [|split; auto; split; auto; intros k; split; [split; auto; discriminate|tauto]].
    destruct (String.eqb_spec (pc_field o) "") as [Z|Z]; cbn [negb]; [split; auto; split; auto; intros k; split; [split; auto; congruence|tauto]|].
    destruct (aget (pc_field o) m) as [vs|] eqn:A.
    - split; auto. split; auto. intros k. split; [|tauto]. intros Hk. split; auto. intros _ _ Y. subst k. congruence.
    - split; [now apply aset_nodup|]. split.
      + intros k vs Hk. destruct (String.eqb_spec (pc_field o) k) as [Y|Y]; [subst k; rewrite aget_aset_eq in Hk; congruence|rewrite aget_aset_ne in Hk by auto; eauto].
      + intros k. destruct (String.eqb_spec (pc_field o) k) as [Y|Y]; [subst k; rewrite aget_aset_eq; split; [discriminate|intros [_ B]; exfalso; now apply B]|].
        rewrite aget_aset_ne by auto. tauto. }
  destruct K as (K1 & K2 & K3). destruct (IH m2 K1 K2) as (A & B & C). split; auto. split; auto. intros k. rewrite C, K3. split.
  - intros ((P1 & P2) & P3). split; auto. intros o' [<-|Ho]; auto.
  - intros (P1 & P2). split; [split; auto; apply P2; now left|]. intros o' Ho. apply P2. now right.
Qed.

(** *** The whole. *)
Section Whole.
  Variable L : lib.
  Hypothesis HL : ContentFacts.plain_lib L.
  Variable parse : ekind -> string -> res node.
  Notation X := (std_ext L).
  Variables (ls le : loc) (ms0 me0 : amap value) (h0 : heap) (t : ptable).
  Hypothesis W0 : world ls le ms0 me0 h0.
  Hypothesis D0 : aget "$" me0 = None.
  Hypothesis Ids : NoDup (map pc_id (pt_out t)).
  Hypothesis Fields : NoDup (table_fields t).
  Hypothesis Flat : forall k, In k (table_fields t) -> flat_key k.
  Hypothesis Out : forall o r src, In o (active t) -> In r (pt_rows t) -> cell_text (pc_id o) r = Some src -> steady L parse ls le ms0 h0 (table_fields t) src.
  Notation at_ g := (PW g (VObj ls) (VObj le)).
  Notation env := (VObj le).
  Notation mid := (mid ls le ms0 h0 (table_fields t)).
  Notation column_says := (column_says X parse h0 env t).
  Lemma tcommit_ok : forall arrange extras l g w1 r, (forall x, Permutation x (arrange x)) -> hext h0 g -> chosen L parse env h0 t extras (Ok l) ->
    tcommit X parse arrange t l (at_ g) = (w1, r) ->
    exists ms1 g1, w1 = at_ g1 /\ mid ms1 g1 /\
      match r with
      | Ok _ => forall o, In o (active t) -> exists v x, column_says o x /\ aget (pc_field o) ms1 = Some v /\ repr g1 v x
      | Err _ => exists o, In o (active t) /\ forall x, ~ column_says o x
      end.
  Proof.
    intros arrange extras l g w1 r Pm Hx Ch E. unfold tcommit in E. rewrite rows_jobs in E.
    rewrite (bind_bound ls le ms0 me0 g (world_hext _ _ _ _ _ _ W0 Hx) D0) in E.
    destruct Ch as (p & rest & Er & Em & Eu & _ & _ & Dn & _). rewrite Em in E. set (J := all_jobs t (tl_used l) (hits L parse env h0 t 0 p)) in *.
    pose proof (mid_hext ls le ms0 h0 (table_fields t) ms0 h0 g (mid_start ls le ms0 me0 h0 (table_fields t) W0 D0) Hx) as Mg.
    destruct (empty_ok (pt_out t) [] ltac:(constructor) ltac:(intros k vs Z; discriminate)) as (Nc & Ec & Kc).
    fold (empty_arrays (pt_out t)) in Nc, Ec, Kc.
    assert (Kc' : forall o, In o (active t) -> pc_collect o = true -> aget (pc_field o) (empty_arrays (pt_out t)) <> None).
    { intros o Ho Co Z. apply Kc in Z as [_ Z]. apply active_in in Ho as [H1 H2]. now apply (Z o H1 Co H2). }
    assert (J0 : jinv L parse ls le ms0 h0 (table_fields t) (empty_arrays (pt_out t)) [] (empty_arrays (pt_out t)) [] ms0 g).
    { constructor; auto.
      - intros k. split; [intros []|]. intros Z. now destruct Z.
      - intros k a src Z. cbn in Z. destruct a; discriminate.
      - intros k vs Z. apply Ec in Z as ->. constructor.
      - tauto. }
    assert (Jo : forall j, In j J -> job_ok L parse ls le ms0 h0 (table_fields t) (empty_arrays (pt_out t)) j).
    { intros j Hj. destruct (job_from L parse env h0 t Ids p rest (tl_used l) j Er Eu Hj) as (A & r0 & B & C). split; [now apply in_map|]. split; [intros Co; now apply Kc'|]. eapply Out; eauto. }
    destruct (do_jobs X parse J (empty_arrays (pt_out t)) [] (at_ g)) as [w2 q] eqn:Ed.
    destruct (jobs_ok L parse ls le ms0 h0 (table_fields t) Flat (empty_arrays (pt_out t)) J [] _ _ ms0 g w2 q J0 Jo Ed) as (ms2 & g2 & -> & Rq). cbn [app] in Rq.
    destruct q as [[coll wr]|e].
    2:{ injection E as <- <-. destruct Rq as (M2 & j & Hj & Nw). exists ms2, g2. split; auto. split; auto.
        destruct (job_from L parse env h0 t Ids p rest (tl_used l) j Er Eu Hj) as (A & _). exists (fst j). split; auto. intros x Cs.
        pose proof (job_on J j Hj) as Hs. unfold J in Hs. rewrite (jobs_sources L parse env h0 t Ids Fields p rest (tl_used l) (fst j) Er Eu Dn A) in Hs.
        unfold PTableSpec.column_says in Cs. destruct (pc_collect (fst j)).
        - destruct Cs as (ts & F2 & _). apply Nw. clear - F2 Hs. induction F2 as [|s y ss ys Ev F2 IH]; [destruct Hs|]. destruct Hs as [<-|Hs]; [|auto].
          eapply evaluates_works; eauto.
        - destruct (sources X parse h0 env t (fst j)) as [|s ss]; [destruct Hs|]. destruct Hs as [->|[]]. apply Nw. eapply evaluates_works; eauto. }
    injection E as <- <-. destruct Rq as [R1 R2 R3 R4 R5 R6].
    assert (Fo : forall o, In o (pt_out t) -> pc_field o <> "" -> In (pc_field o) (table_fields t)).
    { intros o A B. apply in_map. now apply active_in. }
    destruct (nulls_ok ls le ms0 h0 (table_fields t) Flat (pt_out t) wr ms2 g2 R1 Fo) as (ms3 & g3 & -> & M3 & K3 & A3 & B3).
    assert (Pa : Permutation (map fst coll) (map fst (arrange coll))) by (apply Permutation_map, Pm).
    assert (Fk : forall k vs, aget k coll = Some vs -> exists o, In o (active t) /\ pc_collect o = true /\ pc_field o = k).
    { intros k vs Z. assert (Y : aget k (empty_arrays (pt_out t)) <> None) by (intros Y; apply R5 in Y; congruence).
      assert (D : (exists o, In o (pt_out t) /\ pc_collect o = true /\ pc_field o <> "" /\ pc_field o = k) \/ forall o, In o (pt_out t) -> pc_collect o = true -> pc_field o <> "" -> pc_field o <> k).
      { clear. induction (pt_out t) as [|o cols IH]; [right; intros o []|]. destruct IH as [(o' & A & B)|IH]; [left; exists o'; cbn; tauto|].
        destruct (pc_collect o) eqn:C, (String.eqb_spec (pc_field o) ""), (String.eqb_spec (pc_field o) k);
          try (left; exists o; cbn; tauto); right; intros o' [<-|Ho]; auto; congruence. }
      destruct D as [(o & A & B & C & D)|D]; [|exfalso; apply Y, Kc; auto]. exists o. split; auto. now apply active_in. }
    assert (Ina : forall k vs, In (k, vs) (arrange coll) -> aget k coll = Some vs).
    { intros k vs Hi. apply (Permutation_in _ (Permutation_sym (Pm coll))) in Hi. now apply aget_in_nodup. }
    destruct (arrays_ok ls le ms0 h0 (table_fields t) Flat (arrange coll) ms3 g3 M3) as (ms4 & g4 & Ew & M4 & K4 & A4 & B4).
    { apply (Permutation_NoDup Pa R6). }
    { intros k vs Hi. apply Ina in Hi. destruct (Fk k vs Hi) as (o & A & B & C). split; [subst k; now apply in_map|]. intros v Hv.
      pose proof (R4 k vs Hi) as F2. clear - F2 Hv K3. induction F2 as [|s y ss ys (x & _ & R & C) F2 IH]; [destruct Hv|]. destruct Hv as [<-|Hv]; [|auto]. exists x. now apply (K3 y x). }
    exists ms4, g4. split; auto. split; auto. intros o Ho. pose proof (jobs_sources L parse env h0 t Ids Fields p rest (tl_used l) o Er Eu Dn Ho) as Js. fold J in Js.
    unfold PTableSpec.column_says. destruct (proj1 (active_in t o) Ho) as [Ho1 Ho2]. destruct (pc_collect o) eqn:Co.
    - destruct (aget (pc_field o) coll) as [vs|] eqn:Av; [|apply R5 in Av; exfalso; exact (Kc' o Ho Co Av)].
      pose proof (R4 _ _ Av) as F2. rewrite Js in F2.
      assert (T2 : exists ts, Forall2 (evaluates X parse h0 env) (sources X parse h0 env t o) ts /\ Forall2 (repr g3) vs ts).
      { clear - F2 K3. induction F2 as [|s y ss ys (x & Ev & R & C) F2 (ts & I1 & I2)]; [exists []; split; constructor|]. exists (x :: ts). split; constructor; auto. now apply (K3 y x). }
      destruct T2 as (ts & T2 & T3). assert (Hi : In (pc_field o, vs) (arrange coll)) by (apply (Permutation_in _ (Pm coll)); now apply aget_Some_in).
      destruct (B4 _ _ ts Hi T3) as (a & A & B). exists a, (TArr ts). split; [eauto|auto].
    - assert (N4 : ~ In (pc_field o) (map fst (arrange coll))).
      { intros Z. apply (Permutation_in _ (Permutation_sym Pa)) in Z. apply in_map_iff in Z as ([k vs] & Z1 & Z2). cbn in Z1. subst k.
        apply aget_in_nodup in Z2; auto. destruct (Fk _ _ Z2) as (o' & Y1 & Y2 & Y3). apply active_in in Y1 as [Y1 _].
        rewrite (same_field t Fields o o' Ho Y1 Y3) in Y2. congruence. }
      rewrite (A4 _ N4). destruct (sources X parse h0 env t o) as [|s ss] eqn:Es; cbn [firstn] in Js.
      + exists VNull, TNull. split; auto. split; [|constructor]. apply B3; auto. intros Z. apply R2 in Z. congruence.
      + destruct (R3 (pc_field o) [] s Js) as (v & x & V1 & V2 & V3). exists v, x. split; auto.
        rewrite A3 by (left; apply R2; congruence). split; auto.
        destruct (mid_field ls le ms0 h0 (table_fields t) ms2 g2 _ _ R1 V1) as (x' & _ & Cv). destruct (K3 v x V2 Cv) as [R3' C3]. exact (proj1 (K4 v x R3' C3)).
  Qed.
End Whole.

Section Table_.
  Variable L : lib.
  Hypothesis HL : ContentFacts.plain_lib L.
  Variable parse : ekind -> string -> res node.
  Notation X := (std_ext L).

  Lemma hits_sorted : forall env h0 t rs i, Sorted.StronglySorted lt (hits L parse env h0 t i rs).
  Proof.
    intros env h0 t. induction rs as [|r rs IH]; intros i; cbn [PTableSel.hits]; [constructor|]. destruct (holds_row X parse h0 env t r); [|apply IH].
    constructor; [apply IH|]. apply Forall_forall. intros j Hj. apply hits_in in Hj as (r0 & A & _). lia.
  Qed.
  Lemma table_spec : forall arrange extras t w w1 q, (forall x, Permutation x (arrange x)) -> in_step w -> plain_table parse t ->
    let ctx := pw_env w in let h := pw_heap (bind_env w) in
    extras = true \/ table_index parse t = None \/ smooth X parse h ctx t ->
    run_table X parse arrange extras t w = (w1, q) ->
    in_step w1 /\ pw_store w1 = pw_store w /\ pw_env w1 = pw_env w /\
    (forall k x, ~ In k (table_fields t) -> (shows (pw_heap w1) (pw_store w) k x <-> shows (pw_heap w) (pw_store w) k x)) /\
    match q with
    | Ok l =>
        (forall i r, nth_error (pt_rows t) i = Some r -> reached X parse h ctx t i -> row_says X parse h ctx (pt_in t) r <> None) /\
        (forall o, In o (active t) -> exists x, column_says X parse h ctx t o x /\ shows (pw_heap w1) (pw_store w) (pc_field o) x) /\
        Sorted.StronglySorted lt (tl_matched l) /\
        (forall i, In i (tl_matched l) <-> exists r, nth_error (pt_rows t) i = Some r /\ reached X parse h ctx t i /\ row_says X parse h ctx (pt_in t) r = Some true) /\
        tl_bits l = if extras then Some (map (fun r => map (fun c => is_yes (cell_says X parse h ctx c r)) (pt_in t)) (pt_rows t)) else None
    | Err _ => fails X parse h ctx t
    end.
  Proof.
    intros arrange extras t w w1 q Pm H [P1 P2 P3 P4 P5 P6 P7] ctx h Md E. subst ctx h.
    apply in_step_world in H as (ls & le & ms & me & Ew & W). rewrite Ew in *. destruct w as [h s e]. cbn [pw_heap pw_store pw_env] in *. clear Ew s e.
    destruct (bind_world _ _ _ _ _ W) as (h0 & B & W0 & K0 & _). rewrite B in *. cbn [pw_heap pw_store pw_env] in *.
    assert (Bd : aget "$" (adel "$" me) = None) by (apply aget_adel_eq; apply W).
    unfold run_table in E. destruct (tselect X parse extras t (PW h (VObj ls) (VObj le))) as [w2 q2] eqn:Es.
    assert (Ht : MemoFacts.has_tree h0 (VObj le)) by (destruct (SolveFacts.world_trees _ _ _ _ _ W0) as [_ (te & Z)]; exists (TObj te); exact Z).
    destruct (tselect_ok L HL parse (VObj le) h0 t Ht P4 P5 P6 extras (PW h (VObj ls) (VObj le)) w2 q2 B Md Es) as [(g & -> & Hx) Ch]. cbn [pw_store] in *.
    assert (Same : forall ms1 me1 g1, world ls le ms1 me1 g1 -> kept h0 g1 ls le -> (forall k, ~ In k (table_fields t) -> aget k ms1 = aget k ms) ->
      forall k x, ~ In k (table_fields t) -> (shows g1 (VObj ls) k x <-> shows h (VObj ls) k x)).
    { intros ms1 me1 g1 W1 K1 A k x Nk. eapply kept_shows; eauto. eapply kept_trans; eauto. }
    destruct q2 as [l|e].
    2:{ injection E as <- <-. cbn [pw_heap pw_store pw_env]. pose proof (world_hext _ _ _ _ _ _ W0 Hx) as Wg.
        split; [apply in_step_world; exists ls, le, ms, (adel "$" me); auto|]. split; auto. split; auto.
        split; [eapply Same; eauto; now apply kept_hext|]. left. exact Ch. }
    destruct (tcommit X parse arrange t l (PW g (VObj ls) (VObj le))) as [w3 q3] eqn:Et.
    assert (Out : forall o r src, In o (active t) -> In r (pt_rows t) -> cell_text (pc_id o) r = Some src -> steady L parse ls le ms h0 (table_fields t) src).
    { intros o r src A1 A2 A3. eapply steady_apart; eauto. }
    destruct (tcommit_ok L parse ls le ms _ h0 t W0 Bd P1 P2 P3 Out arrange extras l g w3 q3 Pm Hx Ch Et) as (ms1 & g1 & -> & (me1 & W1 & _ & K1 & A1) & Rq).
    assert (I1 : in_step (PW g1 (VObj ls) (VObj le))) by (apply in_step_world; exists ls, le, ms1, me1; auto).
    destruct q3 as [u|e]; injection E as <- <-; cbn [pw_heap pw_store pw_env]; (split; [exact I1|]); (split; [reflexivity|]); (split; [reflexivity|]); (split; [eapply Same; eauto|]).
    2:{ right. exact Rq. }
    destruct Ch as (p & rest & C1 & C2 & C3 & C4 & C5 & C6 & C7).
    assert (Rp : forall i r, nth_error (pt_rows t) i = Some r -> reached X parse h0 (VObj le) t i -> nth_error p i = Some r).
    { intros i r En Rc. destruct (Nat.lt_ge_cases i (length p)) as [Li|Ge]; [rewrite C1, nth_error_app1 in En; auto|]. exfalso.
      destruct C6 as [->|C6]; [|exact (done_unreached L parse (VObj le) h0 t p rest i C1 C6 Ge Rc)].
      rewrite app_nil_r in C1. rewrite C1 in En. apply nth_error_None in Ge. congruence. }
    split; [intros i r En Rc; apply C4; eapply nth_error_In, Rp; eauto|]. split.
    { intros o Ho. destruct (Rq o Ho) as (v & x & A & B0 & C). exists x. split; auto. rewrite (shows_field g1 ls ms1) by apply W1. eauto. }
    rewrite C2. split; [apply hits_sorted|]. split; [|exact C7]. intros i. rewrite (hits_in L parse (VObj le) h0 t). rewrite Nat.sub_0_r. split.
    - intros (r & _ & A & D). exists r. assert (Li : i < length p) by (apply nth_error_Some; congruence). split; [rewrite C1, nth_error_app1; auto|]. split; auto.
      unfold holds_row in D. destruct (row_says X parse h0 (VObj le) (pt_in t) r) as [[]|]; auto; discriminate.
    - intros (r & A & D & F). exists r. split; [lia|]. split; auto. unfold holds_row. now rewrite F.
  Qed.
  Lemma evaluates_once : forall h c e t t', evaluates X parse h c e t -> evaluates X parse h c e t' -> t = t'.
  Proof. intros h c e t t' (h1 & v & E & R) (h2 & v2 & E2 & R2). rewrite E in E2. injection E2 as <- <-. eapply repr_fun; eauto. Qed.
  Lemma column_once : forall h c t o x y, column_says X parse h c t o x -> column_says X parse h c t o y -> x = y.
  Proof.
    intros h c t o x y. unfold column_says. destruct (pc_collect o).
    - intros (ts & A & ->) (us & B & ->). f_equal. revert us B. induction A as [|s a ss l E A IH]; intros us B; inversion B as [|? b ? m E2 B2]; subst; auto.
      f_equal; [eapply evaluates_once; eauto|auto].
    - destruct (sources X parse h c t o); [congruence|]. intros A B. eapply evaluates_once; eauto.
  Qed.
End Table_.
