(** The reference memo of the isolate. *)
From Coq Require Import String Ascii ZArith Lia Bool List Arith.
From Verif Require Import Base Dec Value Heap Ast Ops Compiler Vm Eval ExprFacts Funcs HeapSpec HeapFacts PureFacts RunSpec RepFacts ContentFacts Isolate IsolateFacts.
Import ListNotations.
Local Open Scope nat_scope.

Definition not_dollar (k : string) : bool := negb (String.eqb k dollar).
Definition has_tree (h : heap) (v : value) : Prop := exists t, repr h v t.
(** Forget every memoised reference. *)
Definition forget (i : isolate) : isolate := Iso (i_code i) (i_stk i) (i_scs i) (i_scope i) [] (i_cache i).
(** The calls a decision table makes while it evaluates one context. *)
Definition table_op (parse : ekind -> string -> res node) (o : iop) : Prop :=
  match o with
  | ISetRef s | IRun s => forall n, parse KStandard s = Ok n -> no_assign n = true
  | IRunUnary s => forall n, parse KUnary s = Ok n -> no_assign n = true
  | ISetRefVal _ | IGetRef _ => True
  | _ => False
  end.

Lemma has_tree_hext : forall h h1 v, hext h h1 -> has_tree h v -> has_tree h1 v.
Proof. intros h h1 v E [t R]. destruct (alike_hext h h h1 h1 v v E E) as (t' & A & _); [exists t; auto|]. now exists t'. Qed.
Lemma alike_both : forall h0 h1 h2 v, hext h0 h1 -> hext h0 h2 -> has_tree h0 v -> alike h1 h2 v v.
Proof. intros h0 h1 h2 v E1 E2 [t R]. eapply alike_hext; eauto. now exists t. Qed.

Lemma reads_all : forall n, reads (fun _ => true) true n = true.
Proof.
  assert (FA : forall A (f : A -> bool) l, Forall (fun x => f x = true) l -> forallb f l = true)
    by (intros A f l H; induction H; cbn; auto; now rewrite H).
  assert (FP : forall (f : node -> bool) l, Forall (fun kv => f (fst kv) = true /\ f (snd kv) = true) l ->
    forallb (fun kv : node * node => f (fst kv) && f (snd kv)) l = true)
    by (intros f l H; apply FA; eapply Forall_impl; [|exact H]; intros ? [-> ->]; reflexivity).
  induction n using node_ind'; cbn; auto.
  all: repeat match goal with
    | H : _ = true |- _ => rewrite H
    | H : opt_all _ ?o |- _ => destruct o; cbn in H; try rewrite H; clear H
    end; cbn; auto.
  all: rewrite FP; auto.
Qed.

Section Memo.
  Variable L : lib.
  Hypothesis HL : plain_lib L.
  Variable parse : ekind -> string -> res node.
  Variable fuel : nat.
  Variable jc : node -> list opcode.
  Variable jv : list opcode -> scope -> heap -> list value * list loop.
  Let X := std_ext L.

  Definition outcome_of (k : ekind) (s : string) (sc : scope) (h : heap) (r : res value) (h1 : heap) : Prop :=
    match parse k s with
    | Err e => r = Err e /\ h1 = h
    | Ok n =>
        match compile X n with
        | Err e => r = Err e /\ h1 = h
        | Ok _ => evaluate X n sc h = (r, h1)
        end
    end.
  Lemma run_source_spec : forall k s i h i1 h1 r, i_cache i = None ->
    run_source X parse fuel jc jv k s i h = (i1, h1, Some r) ->
    same_iso i1 i /\ outcome_of k s (i_scope i) h r h1.
  Proof.
    intros k s i h i1 h1 r Hc E. pose proof (run_source_keeps X parse fuel jc jv k s i h) as K. rewrite E in K. split; [exact K|].
    unfold run_source, cached in E. rewrite Hc in E. unfold run_internal, clear in E. unfold outcome_of, compile.
    destruct (parse k s) as [n|e]; [|inversion E; subst; auto].
    destruct (compile_node X [] n []) as [p|e] eqn:Cn; [|inversion E; subst; cbn; auto]. cbn [bind].
    unfold vm_exec, clear in E. cbn [i_scope i_code] in E.
    destruct (run X (i_scope i) fuel (fst p) (VM 0 [] [] (i_scope i) [] h)) as [[r0 h0]|] eqn:R; [|discriminate].
    destruct (jv (fst p) (i_scope i) h). inversion E; subst. symmetry. eapply run_is_evaluate; [|unfold vm_run; exact R].
    unfold compile. now rewrite Cn.
  Qed.
  Lemma outcome_hext : forall k s sc h r h1, (forall n, parse k s = Ok n -> no_assign n = true) ->
    outcome_of k s sc h r h1 -> hext h h1.
  Proof.
    intros k s sc h r h1 Hn O. unfold outcome_of in O. destruct (parse k s) as [n|]; [|destruct O; subst; apply hext_refl].
    destruct (compile X n); [|destruct O; subst; apply hext_refl].
    pose proof (evaluate_pure X n sc h (std_pure L) (no_assign_flat _ (Hn n eq_refl))) as E. rewrite O in E. exact E.
  Qed.

  Variable b : value.
  Variable ls : amap value.
  Variable h0 : heap.
  Hypothesis Hb : has_tree h0 b.
  Hypothesis Hls : forall k v, k <> dollar -> aget k ls = Some v -> has_tree h0 v.

  Definition in_context (s : scope) : Prop :=
    sc_base s = b /\ NoDup (akeys (sc_locals s)) /\ forall k, k <> dollar -> local_str s k = aget k ls.
  Definition memo (r : string) (v : value) (h : heap) : Prop :=
    exists n, parse KStandard r = Ok n /\ no_assign n = true /\ (exists c, compile X n = Ok c) /\
    exists s g g', in_context s /\ hext h0 g /\ evaluate X n s g = (Ok v, g') /\ hext g' h.
  Definition inv (i : isolate) (h : heap) : Prop :=
    hext h0 h /\ in_context (i_scope i) /\ i_cache i = None /\ forall r v, aget r (i_refs i) = Some v -> memo r v h.

  Lemma in_context_dollar : forall s v, in_context s -> in_context (set_local s dollar v).
  Proof.
    intros s v (A & N & B). split; [exact A|]. split; [now apply aset_nodup|]. intros k Hk. unfold local_str, set_local. cbn.
    rewrite aget_aset_ne by auto. now apply B.
  Qed.
  Lemma memo_hext : forall r v h h1, hext h h1 -> memo r v h -> memo r v h1.
  Proof.
    intros r v h h1 E (n & A & B & C & s & g & g' & D & F & G & H). exists n. repeat split; auto. exists s, g, g'.
    split; auto. split; auto. split; auto. eapply hext_trans; eauto.
  Qed.
  Lemma inv_hext : forall i j h h1, same_iso j i -> hext h h1 -> inv i h -> inv j h1.
  Proof.
    intros i j h h1 (A & B & C) E (I1 & I2 & I3 & I4). unfold inv. rewrite A, B, C.
    repeat split; eauto using hext_trans; try apply I2. intros. eapply memo_hext; eauto.
  Qed.
  Lemma inv_dollar : forall i h v, inv i h -> inv (iset_local dollar v i) h.
  Proof. intros i h v (I1 & I2 & I3 & I4). unfold inv; cbn. repeat split; auto; now apply in_context_dollar. Qed.
  Lemma inv_step : forall o i h i1 h1 ob, table_op parse o -> ob <> OUnfinished -> inv i h ->
    istep X parse fuel jc jv o i h = (i1, h1, ob) -> inv i1 h1.
  Proof.
    intros o i h i1 h1 ob T F I E. pose proof I as (I1 & I2 & I3 & I4).
    destruct o; cbn in T; try contradiction; cbn [istep] in E.
    - destruct (aget r (i_refs i)) as [v|] eqn:Er; [inversion E; subst; now apply inv_dollar|].
      destruct (run_source X parse fuel jc jv KStandard r i h) as [[i2 h2] [[v|e]|]] eqn:R; inversion E; subst; [| |congruence].
      + destruct (run_source_spec _ _ _ _ _ _ _ I3 R) as [K O]. pose proof (outcome_hext _ _ _ _ _ _ T O) as Ex.
        apply inv_dollar. pose proof (inv_hext _ _ _ _ K Ex I) as (J1 & J2 & J3 & J4). unfold inv; cbn. repeat split; auto; try apply J2.
        intros r' v' G. destruct (String.eqb_spec r r') as [<-|Hne].
        * rewrite aget_aset_eq in G. injection G as <-. unfold outcome_of in O.
          destruct (parse KStandard r) as [n|] eqn:Pn; [|destruct O; discriminate]. exists n.
          split; auto. split; auto. destruct (compile X n) as [c|]; [|destruct O; discriminate].
          split; [now exists c|]. exists (i_scope i), h, h1. repeat split; auto using hext_refl; try apply I2.
        * rewrite aget_aset_ne in G by auto. auto.
      + destruct (run_source_spec _ _ _ _ _ _ _ I3 R) as [K O]. eapply inv_hext; eauto. eapply outcome_hext; eauto.
    - inversion E; subst. now apply inv_dollar.
    - inversion E; subst. auto.
    - destruct (run_source X parse fuel jc jv KStandard s i h) as [[i2 h2] [rv|]] eqn:R; inversion E; subst; try (cbn in F; congruence);
      destruct (run_source_spec _ _ _ _ _ _ _ I3 R) as [K O]; eapply inv_hext; eauto; eapply outcome_hext; eauto.
    - destruct (run_source X parse fuel jc jv KUnary s i h) as [[i2 h2] [rv|]] eqn:R; inversion E; subst; try (cbn in F; congruence);
      destruct (run_source_spec _ _ _ _ _ _ _ I3 R) as [K O]; eapply inv_hext; eauto; eapply outcome_hext; eauto.
  Qed.
  Lemma inv_after : forall ops i h, Forall (table_op parse) ops ->
    ~ In OUnfinished (map fst (itrace X parse fuel jc jv ops i h)) -> inv i h ->
    inv (fst (iafter X parse fuel jc jv ops i h)) (snd (iafter X parse fuel jc jv ops i h)).
  Proof.
    induction ops as [|o ops IH]; intros i h T F I; cbn; auto. inversion T; subst. cbn in F.
    destruct (istep X parse fuel jc jv o i h) as [[i1 h1] ob] eqn:E. cbn in F. apply IH; auto.
    eapply inv_step; [eassumption| |exact I|exact E]. intros Hx. apply F. left. exact Hx.
  Qed.

  Lemma context_alike : forall s1 s2 g1 g2, in_context s1 -> in_context s2 -> hext h0 g1 -> hext h0 g2 ->
    ealike not_dollar false g1 g2 s1 s2.
  Proof.
    intros s1 s2 g1 g2 (A1 & _ & B1) (A2 & _ & B2) E1 E2. split; [rewrite A1, A2; eapply alike_both; eauto|]. split; [|discriminate].
    intros k Hk. unfold not_dollar in Hk. destruct (String.eqb_spec k dollar) as [|Hne]; [discriminate|].
    rewrite B1, B2 by auto. destruct (aget k ls) eqn:G; cbn; auto. eapply alike_both; eauto.
  Qed.
  Lemma test_alike : forall s v1 v2 g1 g2, in_context s -> hext h0 g1 -> hext h0 g2 -> alike g1 g2 v1 v2 ->
    ealike (fun _ => true) true g1 g2 (set_local s dollar v1) (set_local s dollar v2).
  Proof.
    intros [sb sl] v1 v2 g1 g2 (A & N & B) E1 E2 Hv. cbn in *. subst sb.
    assert (K : Forall2 (kalike g1 g2) (aset dollar v1 sl) (aset dollar v2 sl)).
    { unfold local_str in B; cbn in B.
      assert (Hin : forall k v, In (k, v) sl -> k <> dollar -> has_tree h0 v).
      { intros k v Hi Hk. apply (Hls k); auto. rewrite <- B by auto. now apply aget_in_nodup. }
      clear B. revert N Hin. induction sl as [|[k v] sl IH]; intros N Hin; cbn.
      - constructor; [split; auto|constructor].
      - destruct (String.eqb_spec k dollar) as [->|Hne].
        + constructor; [split; auto|]. inversion N as [|? ? Ni _]; subst.
          assert (forall kv, In kv sl -> has_tree h0 (snd kv)).
          { intros [k' v'] Hi. apply (Hin k' v'); [now right|]. intros ->. apply Ni. now apply in_map with (f := fst) in Hi. }
          clear -H E1 E2. induction sl as [|kv sl IH]; constructor; [split; auto; eapply alike_both; eauto; apply H; now left|].
          apply IH. intros. apply H. now right.
        + constructor; [split; auto; cbn; eapply alike_both; eauto; apply (Hin k v); [now left|auto]|].
          apply IH; [now inversion N|]. intros; eapply Hin; eauto. now right. }
    split; [cbn; eapply alike_both; eauto|]. split; [|intros _; exact K].
    intros k _. unfold local_str; cbn. now apply aget_alike.
  Qed.

  Lemma outcome_alike : forall k s s1 s2 g1 g2 r1 r2 k1 k2 P full,
    (forall n, parse k s = Ok n -> no_assign n = true /\ reads P full n = true) ->
    ealike P full g1 g2 s1 s2 -> outcome_of k s s1 g1 r1 k1 -> outcome_of k s s2 g2 r2 k2 ->
    same_outcome (r1, k1) (r2, k2).
  Proof.
    intros k s s1 s2 g1 g2 r1 r2 k1 k2 P full Hn E O1 O2. unfold outcome_of in *.
    destruct (parse k s) as [n|]; [|destruct O1, O2; subst; reflexivity].
    destruct (compile X n); [|destruct O1, O2; subst; reflexivity].
    destruct (Hn n eq_refl) as [Na Nr]. rewrite <- O1, <- O2. unfold X. eapply evaluate_alike; eauto.
  Qed.
  Lemma same_outcome_bool : forall r1 r2 k1 k2, same_outcome (r1, k1) (r2, k2) -> as_bool r1 = as_bool r2.
  Proof.
    intros [v1|] [v2|] k1 k2 S; cbn in S; try contradiction; [|now subst].
    apply alike_view in S. destruct S; reflexivity.
  Qed.

  Lemma run_source_forget : forall k s i h,
    let a := run_source X parse fuel jc jv k s i h in let b := run_source X parse fuel jc jv k s (forget i) h in
    i_scope (fst (fst b)) = i_scope (fst (fst a)) /\ i_cache (fst (fst b)) = i_cache (fst (fst a)) /\
    snd (fst b) = snd (fst a) /\ snd b = snd a.
  Proof.
    intros k s i h. cbn.
    assert (V : forall c p q, i_scope p = i_scope q -> i_cache p = i_cache q ->
      let a := vm_exec X fuel jv c p h in let b := vm_exec X fuel jv c q h in
      i_scope (fst (fst b)) = i_scope (fst (fst a)) /\ i_cache (fst (fst b)) = i_cache (fst (fst a)) /\
      snd (fst b) = snd (fst a) /\ snd b = snd a).
    { intros c p q E F. cbn. unfold vm_exec, clear. rewrite E. destruct (run X _ fuel c _) as [[? ?]|]; [|cbn; now auto].
      destruct (jv c (i_scope q) h); cbn; now auto. }
    unfold run_source. change (cached k s (forget i)) with (cached k s i). destruct (cached k s i); [now apply V|].
    unfold run_internal, clear. destruct (parse k s); [|cbn; now auto]. destruct (compile_node X [] a []); [|cbn; now auto]. now apply V.
  Qed.

  Lemma memo_exact : forall i h r u, inv i h ->
    (forall n, parse KStandard r = Ok n -> no_assign n = true /\ reads not_dollar false n = true) ->
    (forall n, parse KUnary u = Ok n -> no_assign n = true) ->
    let t1 := map fst (itrace X parse fuel jc jv [ISetRef r; IRunUnary u] i h) in
    let t2 := map fst (itrace X parse fuel jc jv [ISetRef r; IRunUnary u] (forget i) h) in
    ~ In OUnfinished t1 -> ~ In OUnfinished t2 -> t1 = t2.
  Proof.
    intros i h r u I Hr Hu. cbn zeta. pose proof I as (I1 & I2 & I3 & I4).
    cbn [itrace istep]. change (aget r (i_refs (forget i))) with (@None value).
    destruct (aget r (i_refs i)) as [v|] eqn:Er.
    - destruct (I4 _ _ Er) as (n & Pn & Na & (c & Cn) & s & g & g' & C & Eg & Ev & Eh).
      destruct (run_source X parse fuel jc jv KStandard r (forget i) h) as [[i2 h2] [r2|]] eqn:R; [|cbn; intros _ F; exfalso; apply F; auto].
      destruct (run_source_spec _ _ (forget i) _ _ _ _ I3 R) as [K O]. destruct K as (K1 & K2 & K3). cbn in K1, K2, K3.
      pose proof (outcome_hext _ _ _ _ _ _ (fun n Hp => proj1 (Hr n Hp)) O) as Ex. cbn in O.
      assert (O1 : outcome_of KStandard r s g (Ok v) g') by (unfold outcome_of; rewrite Pn, Cn; exact Ev).
      pose proof (outcome_alike _ _ _ _ _ _ _ _ _ _ _ _ Hr (context_alike _ _ _ _ C I2 Eg I1) O1 O) as S.
      destruct r2 as [v2|e]; cbn in S; [|contradiction].
      assert (A : alike h h2 v v2) by (eapply alike_hext; [exact Eh|apply hext_refl|exact S]).
      cbn [itrace istep].
      set (ia := iset_local dollar v i). set (ib := iset_local dollar v2 (remember r v2 i2)).
      destruct (run_source X parse fuel jc jv KUnary u ia h) as [[i5 h5] [r5|]] eqn:R5; [|cbn; intros F _; exfalso; apply F; auto].
      destruct (run_source X parse fuel jc jv KUnary u ib h2) as [[i6 h6] [r6|]] eqn:R6; [|cbn; intros _ F; exfalso; apply F; auto].
      destruct (run_source_spec _ _ ia _ _ _ _ I3 R5) as [_ O5].
      destruct (run_source_spec _ _ ib _ _ _ _ (eq_trans K3 I3) R6) as [_ O6].
      unfold ia, ib in O5, O6. cbn in O5, O6. rewrite K1 in O6. intros _ _. cbn. f_equal. f_equal. f_equal.
      eapply same_outcome_bool. eapply outcome_alike; [|eapply test_alike; [exact I2|exact I1|exact (hext_trans _ _ _ I1 Ex)|exact A]|exact O5|exact O6].
      intros m Pm. split; [auto|apply reads_all].
    - intros F1 F2. destruct (run_source_forget KStandard r i h) as (A & B & C & D).
      destruct (run_source X parse fuel jc jv KStandard r i h) as [[i1 h1] r1],
               (run_source X parse fuel jc jv KStandard r (forget i) h) as [[j1 h2] r2]. cbn in A, B, C, D. subst h2 r2.
      assert (G : forall p q g, i_scope p = i_scope q -> i_cache p = i_cache q ->
        snd (run_source X parse fuel jc jv KUnary u p g) = snd (run_source X parse fuel jc jv KUnary u q g)).
      { intros p q g E Ec. destruct (run_source_forget KUnary u p g) as (_ & _ & _ & D1), (run_source_forget KUnary u q g) as (_ & _ & _ & D2).
        rewrite <- D1, <- D2.
        assert (W : same_iso (forget p) (forget q)) by (unfold same_iso, forget; cbn; auto).
        destruct (run_source_same X parse fuel jc jc jv jv KUnary u _ _ g W) as (_ & _ & E3). exact E3. }
      destruct r1 as [[v|e]|]; cbn [itrace istep map fst].
      + specialize (G (iset_local dollar v (remember r v i1)) (iset_local dollar v (remember r v j1)) h1).
        cbn in G. rewrite A, B in G. specialize (G eq_refl eq_refl).
        destruct (run_source X parse fuel jc jv KUnary u (iset_local dollar v (remember r v i1)) h1) as [[? ?] ?],
                 (run_source X parse fuel jc jv KUnary u (iset_local dollar v (remember r v j1)) h1) as [[? ?] ?]. cbn in *. congruence.
      + specialize (G i1 j1 h1 (eq_sym A) (eq_sym B)).
        destruct (run_source X parse fuel jc jv KUnary u i1 h1) as [[? ?] ?],
                 (run_source X parse fuel jc jv KUnary u j1 h1) as [[? ?] ?]. cbn in *. congruence.
      + exfalso. apply F1. cbn. destruct (run_source X parse fuel jc jv KUnary u i1 h1) as [[? ?] ?]. cbn. auto.
  Qed.
End Memo.

(** From a fresh environment on. *)
Definition with_locals (ls : amap value) (v : value) : list iop :=
  ISetEnv v :: map (fun kv => ISetLocal (fst kv) (snd kv)) ls.
Lemma iafter_app : forall X parse fuel jc jv a b i h,
  iafter X parse fuel jc jv (a ++ b) i h =
  iafter X parse fuel jc jv b (fst (iafter X parse fuel jc jv a i h)) (snd (iafter X parse fuel jc jv a i h)).
Proof.
  intros X parse fuel jc jv. induction a as [|o a IH]; intros; cbn; auto.
  destruct (istep X parse fuel jc jv o i h) as [[i1 h1] ob]. apply IH.
Qed.
Lemma itrace_app : forall X parse fuel jc jv a b i h,
  itrace X parse fuel jc jv (a ++ b) i h =
  (itrace X parse fuel jc jv a i h ++
  itrace X parse fuel jc jv b (fst (iafter X parse fuel jc jv a i h)) (snd (iafter X parse fuel jc jv a i h)))%list.
Proof.
  intros X parse fuel jc jv. induction a as [|o a IH]; intros; cbn; auto.
  destruct (istep X parse fuel jc jv o i h) as [[i1 h1] ob]. cbn. f_equal. apply IH.
Qed.
Lemma locals_after : forall X parse fuel jc jv ls i h,
  let q := iafter X parse fuel jc jv (map (fun kv => ISetLocal (fst kv) (snd kv)) ls) i h in
  i_scope (fst q) = set_locals (i_scope i) ls /\ i_refs (fst q) = i_refs i /\ i_cache (fst q) = i_cache i /\ snd q = h.
Proof.
  intros X parse fuel jc jv. induction ls as [|[k v] ls IH]; intros i h; cbn; auto.
  destruct (IH (iset_local k v i) h) as (A & B & C & D). cbn in *. repeat split; auto.
Qed.
Lemma set_locals_trees : forall ls s h, (forall kv, In kv ls -> has_tree h (snd kv)) ->
  (forall k v, aget k (sc_locals s) = Some v -> has_tree h v) ->
  forall k v, aget k (sc_locals (set_locals s ls)) = Some v -> has_tree h v.
Proof.
  induction ls as [|[k0 v0] ls IH]; intros s h Hl Hs k v G; cbn in *; [eauto|].
  eapply IH; [intros; apply Hl; now right| |exact G]. intros k1 v1 G1. cbn in G1.
  destruct (String.eqb_spec k0 k1) as [<-|Hne].
  - rewrite aget_aset_eq in G1. injection G1 as <-. apply (Hl (k0, v0)). now left.
  - rewrite aget_aset_ne in G1 by auto. eauto.
Qed.

Lemma memo_transparent : forall L parse fuel jc jv v ls mid h0 r u,
  plain_lib L -> has_tree h0 v -> (forall kv, In kv ls -> has_tree h0 (snd kv)) ->
  Forall (table_op parse) mid ->
  (forall n, parse KStandard r = Ok n -> no_assign n = true /\ reads not_dollar false n = true) ->
  (forall n, parse KUnary u = Ok n -> no_assign n = true) ->
  let X := std_ext L in
  let i := fst (iafter X parse fuel jc jv (with_locals ls v ++ mid) iso_new h0) in
  let h := snd (iafter X parse fuel jc jv (with_locals ls v ++ mid) iso_new h0) in
  let shows j := map fst (itrace X parse fuel jc jv [ISetRef r; IRunUnary u] j h) in
  ~ In OUnfinished (map fst (itrace X parse fuel jc jv (with_locals ls v ++ mid) iso_new h0)) ->
  ~ In OUnfinished (shows i) -> ~ In OUnfinished (shows (forget i)) -> shows i = shows (forget i).
Proof.
  intros L parse fuel jc jv v ls mid h0 r u HL Hv Hls Hm Hr Hu. cbn zeta. intros F0.
  set (X := std_ext L) in *. rewrite itrace_app, map_app in F0. rewrite !iafter_app.
  change (iafter X parse fuel jc jv (with_locals ls v) iso_new h0) with
    (iafter X parse fuel jc jv (map (fun kv => ISetLocal (fst kv) (snd kv)) ls) (set_environment v iso_new) h0) in *.
  destruct (locals_after X parse fuel jc jv ls (set_environment v iso_new) h0) as (A & B & C & D).
  set (q := iafter X parse fuel jc jv (map (fun kv => ISetLocal (fst kv) (snd kv)) ls) (set_environment v iso_new) h0) in *.
  set (sc := set_locals (Scope v []) ls). assert (As : i_scope (fst q) = sc) by exact A.
  assert (Hs : forall k w, aget k (sc_locals sc) = Some w -> has_tree h0 w)
    by (apply set_locals_trees; [exact Hls|cbn; discriminate]).
  assert (Ib : inv L parse v (sc_locals sc) h0 (fst q) (snd q)).
  { unfold inv. rewrite D, As, B, C. split; [apply hext_refl|]. split; [|split; [reflexivity|cbn; discriminate]].
    split; [unfold sc; now rewrite set_locals_base|]. split; [apply set_locals_nodup; constructor|]. reflexivity. }
  eapply memo_exact with (b := v) (ls := sc_locals sc) (h0 := h0); auto.
  - intros k w _ G. eauto.
  - apply inv_after; auto. intros Hin. apply F0. apply in_or_app. right. exact Hin.
Qed.
