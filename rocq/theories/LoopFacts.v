(** Closure functions against list functions. *)
From Coq Require Import String Ascii ZArith QArith Lia Bool List Arith.
From Verif Require Import Base Dec Value Heap Ast Ops Compiler Vm Eval CompilerFacts VmFacts ExprFacts Funcs
  HeapSpec HeapFacts PureFacts RunSpec FuncSpec.
Import ListNotations.
Local Open Scope nat_scope.

Lemma skipn_cons : forall {A} (l : list A) i b, nth_error l i = Some b -> skipn i l = b :: skipn (S i) l.
Proof.
  intros A l. induction l as [|y l IH]; intros [|i] b E; try discriminate; cbn in *; [congruence|].
  now rewrite (IH _ _ E).
Qed.

Section Loop.
  Variable X : ext.
  Variable root : scope.
  Variable body : node.
  Variables (l : loc) (xs : list value) (h0 : heap).
  Hypothesis Hl : harr h0 l = Some xs.
  Let n := length xs.
  Let bd := fun lp => eval X root [] [lp] body.
  Let lp i c := Loop (VArr l) n i c.

  Lemma bump_lp : forall i c, bump_it (lp i c) = lp (S i) c.
  Proof. reflexivity. Qed.

  Lemma harr_ext : forall h, hext h0 h -> harr h l = Some xs.
  Proof. intros h E. apply harr_hget. eapply hext_get; eauto. now apply harr_hget. Qed.

  Lemma pe_weaken : forall P k k', per_element X root body (VArr l) n h0 P k -> k' <= k ->
    per_element X root body (VArr l) n h0 P k'.
  Proof. intros P k k' H Hk i c h Hi. apply H. lia. Qed.

  (** *** Functions that stop early *)
  Definition stopper (c : closure) (stop res : bool) : Prop :=
    match c with
    | ClAll => stop = false /\ res = false
    | ClSome => stop = true /\ res = true
    | ClNone => stop = true /\ res = false
    | _ => False
    end.

  Lemma stop_run : forall c stop res gs, stopper c stop res ->
    forall m i, m + i = n -> forall k, per_element X root body (VArr l) n h0 (gives_bool gs) k -> k <= n ->
    forall cnt acc h, hext h0 h ->
    (exists j, i <= j < k /\ nth_error gs j = Some stop /\ (forall i', i <= i' < j -> nth_error gs i' = Some (negb stop))) ->
    exists h1, iterate c bd m (lp i cnt) acc root h = LBreak (VBool res) root h1 /\ hext h h1.
  Proof.
    intros c stop res gs Hc. induction m as [|m IH]; intros i Hi k PE Hk cnt acc h Hh (j & Hj & Gj & Before).
    - lia.
    - destruct (PE i cnt h ltac:(lia) Hh) as (v & h1 & E & E1 & b & Gb & ->).
      cbn [iterate]. unfold advance, bd, lp; fold n; rewrite E.
      destruct (Nat.eq_dec i j) as [->|Hne].
      + rewrite Gb in Gj. injection Gj as ->. exists h1. split; auto.
        destruct c; try contradiction; destruct Hc as [-> ->]; reflexivity.
      + rewrite (Before i) in Gb by lia. injection Gb as <-.
        destruct (IH (S i) ltac:(lia) k PE Hk cnt acc h1) as (h2 & A & B).
        * eapply hext_trans; eauto.
        * exists j. split; [lia|]. split; auto. intros. apply Before. lia.
        * exists h2. split; [|eapply hext_trans; eauto]. destruct c; try contradiction; destruct Hc as [-> ->]; exact A.
  Qed.
  Lemma stop_none : forall c stop res gs, stopper c stop res ->
    forall m i, m + i = n -> per_element X root body (VArr l) n h0 (gives_bool gs) n ->
    forall cnt acc h, hext h0 h -> (forall i', i <= i' < n -> nth_error gs i' = Some (negb stop)) ->
    exists h1, iterate c bd m (lp i cnt) acc root h = LDone (lp n cnt) acc root h1 /\ hext h h1.
  Proof.
    intros c stop res gs Hc. induction m as [|m IH]; intros i Hi PE cnt acc h Hh All.
    - cbn. replace i with n by lia. exists h. split; auto. apply hext_refl.
    - destruct (PE i cnt h ltac:(lia) Hh) as (v & h1 & E & E1 & b & Gb & ->).
      cbn [iterate]. unfold advance, bd, lp; fold n; rewrite E. rewrite (All i) in Gb by lia. injection Gb as <-.
      destruct (IH (S i) ltac:(lia) PE cnt acc h1) as (h2 & A & B).
      + eapply hext_trans; eauto.
      + intros. apply All. lia.
      + exists h2. split; [|eapply hext_trans; eauto]. destruct c; try contradiction; destruct Hc as [-> ->]; exact A.
  Qed.

  (** *** Functions that visit every element *)
  Definition hits (gs : list bool) : nat := length (filter (fun b => b) gs).
  Lemma count_run : forall c gs, (c = ClOne \/ c = ClCount) -> length gs = n ->
    per_element X root body (VArr l) n h0 (gives_bool gs) n ->
    forall m i, m + i = n -> forall cnt acc h, hext h0 h ->
    exists h1, iterate c bd m (lp i cnt) acc root h = LDone (lp n (cnt + hits (skipn i gs))) acc root h1 /\ hext h h1.
  Proof.
    intros c gs Hc Hg PE. induction m as [|m IH]; intros i Hi cnt acc h Hh.
    - cbn. exists h. split; [|apply hext_refl]. rewrite skipn_all2 by lia. replace i with n by lia.
      unfold hits. cbn. now rewrite Nat.add_0_r.
    - destruct (PE i cnt h ltac:(lia) Hh) as (v & h1 & E & E1 & b & Gb & ->).
      cbn [iterate]. unfold advance, bd, lp; fold n; rewrite E.
      assert (Sk : skipn i gs = b :: skipn (S i) gs).
      { clear -Gb. revert i Gb. induction gs as [|y gs IH]; intros [|i] E; try discriminate; cbn in *; [congruence|].
        now rewrite (IH _ E). }
      destruct (IH (S i) ltac:(lia) (if b then S cnt else cnt) acc h1) as (h2 & A & B).
      { eapply hext_trans; eauto. }
      exists h2. split; [|eapply hext_trans; eauto]. rewrite Sk. unfold hits. cbn [filter].
      destruct Hc as [-> | ->]; destruct b; cbn [judge counts andb]; unfold bump_count; cbn [lp lp_array lp_len lp_iter lp_count];
        rewrite ?bump_lp; (etransitivity; [exact A|]); unfold hits; cbn [length]; f_equal. all: unfold lp; f_equal; lia.
  Qed.
  Lemma filter_run : forall gs, length gs = n -> per_element X root body (VArr l) n h0 (gives_bool gs) n ->
    forall m i, m + i = n -> forall cnt acc h, hext h0 h ->
    exists h1, iterate ClFilter bd m (lp i cnt) acc root h =
      LDone (lp n (cnt + hits (skipn i gs))) (acc ++ kept (skipn i xs) (skipn i gs)) root h1 /\ hext h h1.
  Proof.
    intros gs Hg PE. induction m as [|m IH]; intros i Hi cnt acc h Hh.
    - cbn. exists h. split; [|apply hext_refl]. rewrite !skipn_all2 by (fold n; lia). replace i with n by lia.
      unfold hits, kept. cbn. now rewrite Nat.add_0_r, app_nil_r.
    - destruct (PE i cnt h ltac:(lia) Hh) as (v & h1 & E & E1 & b & Gb & ->).
      cbn [iterate]. unfold advance, bd, lp; fold n; rewrite E.
      destruct (nth_error xs i) as [x|] eqn:Ex; [|apply nth_error_None in Ex; fold n in Ex; lia].
      assert (Hh1 : hext h0 h1) by (eapply hext_trans; eauto).
      destruct (IH (S i) ltac:(lia) (if b then S cnt else cnt) (if b then acc ++ [x] else acc) h1 Hh1) as (h2 & A & B).
      exists h2. split; [|eapply hext_trans; eauto]. rewrite (skipn_cons _ _ _ Gb), (skipn_cons _ _ _ Ex).
      unfold hits, kept in *. cbn [filter combine map].
      destruct b; cbn [judge counts andb snd fst map]; unfold bump_count; cbn [lp lp_array lp_len lp_iter lp_count].
      + unfold op_pointer. cbn [nth_error lp_array lp_iter]. rewrite (harr_ext _ Hh1), Ex. cbn [of_option].
        rewrite ?bump_lp; (etransitivity; [exact A|]). cbn [length]. f_equal; [unfold lp; f_equal; lia|]. now rewrite <- app_assoc.
      + etransitivity; [exact A|]. reflexivity.
  Qed.
  (** [map]: the values of the body, in order. *)
  Lemma map_run : forall c P, (c = ClMap \/ c = ClFlatMap) -> per_element X root body (VArr l) n h0 P n ->
    (forall i v h h', hext h h' -> P i v h -> P i v h') ->
    forall m i, m + i = n -> forall cnt acc h, hext h0 h ->
    exists h1 vs, iterate c bd m (lp i cnt) acc root h = LDone (lp n cnt) (acc ++ vs) root h1 /\ hext h h1 /\
      length vs = m /\ forall j v, nth_error vs j = Some v -> P (i + j) v h1.
  Proof.
    intros c P Hc PE Mono. induction m as [|m IH]; intros i Hi cnt acc h Hh.
    - cbn. exists h, []. rewrite app_nil_r. replace i with n by lia. split; auto. split; [apply hext_refl|].
      split; auto. intros [] ? ?; discriminate.
    - destruct (PE i cnt h ltac:(lia) Hh) as (v & h1 & E & E1 & Pv).
      cbn [iterate]. unfold advance, bd, lp; fold n; rewrite E.
      destruct (IH (S i) ltac:(lia) cnt (acc ++ [v]) h1) as (h2 & vs & A & B & C & D).
      { eapply hext_trans; eauto. }
      exists h2, (v :: vs). split; [|split; [eapply hext_trans; eauto|split; [cbn; lia|]]].
      + destruct Hc as [-> | ->]; cbn [judge counts andb]; rewrite bump_lp; (etransitivity; [exact A|]);
          now rewrite <- app_assoc.
      + intros [|j] w Hw; cbn in Hw.
        * injection Hw as <-. rewrite Nat.add_0_r. eapply Mono; eauto.
        * replace (i + S j) with (S i + j) by lia. auto.
  Qed.
  (** An error in the body at the first element not stopped before. *)
  Lemma error_run : forall c gs e, 
    (forall b, In b gs -> exists t, judge c (VBool b) = Keep t) ->
    per_element X root body (VArr l) n h0 (gives_bool gs) (length gs) -> length gs < n ->
    (forall cnt h, hext h0 h -> exists h1, eval X root [] [lp (length gs) cnt] body root h = OErr e h1) ->
    forall m i, m + i = n -> i <= length gs -> forall cnt acc h, hext h0 h ->
    exists h1, iterate c bd m (lp i cnt) acc root h = LErr e h1.
  Proof.
    intros c gs e Hk PE Hg Herr. induction m as [|m IH]; intros i Hi Hle cnt acc h Hh; [lia|].
    destruct (Nat.eq_dec i (length gs)) as [->|Hne].
    - destruct (Herr cnt h Hh) as (h1 & E). unfold lp in E. cbn [iterate]. unfold advance, bd, lp; fold n; rewrite E. eauto.
    - destruct (PE i cnt h ltac:(lia) Hh) as (v & h1 & E & E1 & b & Gb & ->).
      cbn [iterate]. unfold advance, bd, lp; fold n; rewrite E. destruct (Hk b (nth_error_In _ _ Gb)) as [t Ht]. rewrite Ht.
      assert (Hh1 : hext h0 h1) by (eapply hext_trans; eauto).
      destruct (nth_error xs i) as [x|] eqn:Ex; [|apply nth_error_None in Ex; fold n in Ex; lia].
      destruct c, t; cbn [counts andb]; unfold bump_count; cbn [lp lp_array lp_len lp_iter lp_count];
        unfold op_pointer; cbn [nth_error lp_array lp_iter]; rewrite ?(harr_ext _ Hh1), ?Ex; cbn [of_option];
        unfold bump_it; cbn [lp_array lp_len lp_iter lp_count];
        match goal with |- context[iterate _ _ _ (Loop _ _ _ ?k) ?a _ _] => apply (IH (S i) ltac:(lia) ltac:(lia) k a h1 Hh1) end.
  Qed.
End Loop.

(** ** Whole closure calls on an array *)
Section Calls.
  Variable X : ext.
  Variables (na body : node) (root : scope) (h h1 : heap) (l : loc) (xs : list value).
  Hypothesis Na : no_assign na = true.
  Hypothesis Ya : yields X na root h (Ok (VArr l)) h1.
  Hypothesis Hl : hget h1 l = Some (CArr xs).
  Let n := length xs.
  Let Hl' : harr h1 l = Some xs := proj2 (harr_hget _ _ _) Hl.

  Lemma call_eval : forall c alias, eval X root [] [] (closure_call c na (NClosure body alias)) root h =
    match iterate c (fun lp => eval X root [alias] [lp] body) n (Loop (VArr l) n 0 0) [] root h1 with
    | LErr e h => OErr e h
    | LBreak v env h => ORet v env h
    | LDone lp acc env h => closure_value c lp acc env h
    end.
  Proof.
    intros. unfold closure_call. cbn [eval]. rewrite (yields_eval _ _ _ _ _ _ Na Ya). cbn [obind op_begin].
    rewrite Hl'. reflexivity.
  Qed.
  Lemma call_eval_raw : forall c, eval X root [] [] (closure_call c na body) root h =
    match iterate c (fun lp => eval X root [] [lp] body) n (Loop (VArr l) n 0 0) [] root h1 with
    | LErr e h => OErr e h
    | LBreak v env h => ORet v env h
    | LDone lp acc env h => closure_value c lp acc env h
    end.
  Proof.
    intros. unfold closure_call. cbn [eval]. rewrite (yields_eval _ _ _ _ _ _ Na Ya). cbn [obind op_begin].
    rewrite Hl'. reflexivity.
  Qed.

  Lemma call_stops : forall c stop res gs k, stopper c stop res -> compiles X (closure_call c na body) ->
    per_element X root body (VArr l) n h1 (gives_bool gs) (S k) -> k < n ->
    nth_error gs k = Some stop -> (forall i, i < k -> nth_error gs i = Some (negb stop)) ->
    exists h2, yields X (closure_call c na body) root h (Ok (VBool res)) h2 /\ hext h1 h2.
  Proof.
    intros c stop res gs k Hc C PE Hk Gk Bf.
    destruct (stop_run X root body l xs h1 c stop res gs Hc n 0 ltac:(unfold n; lia) (S k) PE ltac:(unfold n in *; lia) 0 [] h1 (hext_refl _))
      as (h2 & A & B).
    { exists k. split; [lia|]. split; auto. intros. apply Bf. lia. }
    exists h2. split; auto. pose proof (call_eval_raw c) as E. unfold n in *. rewrite A in E.
    exact (eval_yields _ _ _ _ _ C E).
  Qed.
  Lemma call_runs_through : forall c stop res gs, stopper c stop res -> compiles X (closure_call c na body) ->
    per_element X root body (VArr l) n h1 (gives_bool gs) n ->
    (forall i, i < n -> nth_error gs i = Some (negb stop)) ->
    exists h2, yields X (closure_call c na body) root h (Ok (VBool (negb res))) h2 /\ hext h1 h2.
  Proof.
    intros c stop res gs Hc C PE Bf.
    destruct (stop_none X root body l xs h1 c stop res gs Hc n 0 ltac:(unfold n; lia) PE 0 [] h1 (hext_refl _))
      as (h2 & A & B).
    { intros. apply Bf. unfold n; lia. }
    exists h2. split; auto. pose proof (call_eval_raw c) as E. unfold n in *. rewrite A in E.
    destruct c; try contradiction; destruct Hc as [-> ->]; exact (eval_yields _ _ _ _ _ C E).
  Qed.

  Lemma first_stop : forall (gs : list bool) stop, existsb (Bool.eqb stop) gs = true ->
    exists k, k < length gs /\ nth_error gs k = Some stop /\ forall i, i < k -> nth_error gs i = Some (negb stop).
  Proof.
    induction gs as [|g gs IH]; intros stop E; [discriminate|]. cbn in E.
    destruct (Bool.eqb stop g) eqn:Eg.
    - apply Bool.eqb_prop in Eg. subst. exists 0. cbn. repeat split; auto; lia.
    - destruct (IH stop E) as (k & A & B & C). exists (S k). cbn. repeat split; auto; [lia|].
      intros [|i] Hi; cbn; [destruct stop, g; cbn in *; congruence|apply C; lia].
  Qed.
  Lemma never_stop : forall (gs : list bool) stop, existsb (Bool.eqb stop) gs = false ->
    forall i, i < length gs -> nth_error gs i = Some (negb stop).
  Proof.
    induction gs as [|g gs IH]; intros stop E i Hi; cbn in *; [lia|]. apply orb_false_iff in E as [E1 E2].
    destruct i; cbn; [destruct stop, g; cbn in *; congruence|apply IH; auto; lia].
  Qed.

  Lemma stop_value : forall c stop res gs, stopper c stop res -> length gs = n -> compiles X (closure_call c na body) ->
    per_element X root body (VArr l) n h1 (gives_bool gs) n ->
    exists h2, yields X (closure_call c na body) root h
      (Ok (VBool (if existsb (Bool.eqb stop) gs then res else negb res))) h2 /\ hext h1 h2.
  Proof.
    intros c stop res gs Hc Hg C PE. destruct (existsb (Bool.eqb stop) gs) eqn:E.
    - destruct (first_stop gs stop E) as (k & A & B & D). eapply call_stops; eauto; [|lia].
      eapply pe_weaken; eauto. fold n. lia.
    - eapply call_runs_through; eauto. intros i Hi. apply never_stop; auto. lia.
  Qed.
  Lemma forallb_exists : forall gs, forallb (fun b => b) gs = negb (existsb (Bool.eqb false) gs).
  Proof. induction gs as [|[] gs IH]; cbn; auto. Qed.
  Lemma existsb_exists : forall gs, existsb (fun b => b) gs = existsb (Bool.eqb true) gs.
  Proof. induction gs as [|[] gs IH]; cbn; auto. Qed.

  Lemma all_value : forall gs, length gs = n -> compiles X (closure_call ClAll na body) ->
    per_element X root body (VArr l) n h1 (gives_bool gs) n ->
    exists h2, yields X (closure_call ClAll na body) root h (Ok (VBool (forallb (fun b => b) gs))) h2 /\ hext h1 h2.
  Proof.
    intros gs Hg C PE. destruct (stop_value ClAll false false gs) as (h2 & A & B); cbn; auto.
    exists h2. split; auto. rewrite forallb_exists. now destruct (existsb (Bool.eqb false) gs).
  Qed.
  Lemma some_value : forall gs, length gs = n -> compiles X (closure_call ClSome na body) ->
    per_element X root body (VArr l) n h1 (gives_bool gs) n ->
    exists h2, yields X (closure_call ClSome na body) root h (Ok (VBool (existsb (fun b => b) gs))) h2 /\ hext h1 h2.
  Proof.
    intros gs Hg C PE. destruct (stop_value ClSome true true gs) as (h2 & A & B); cbn; auto.
    exists h2. split; auto. rewrite existsb_exists. now destruct (existsb (Bool.eqb true) gs).
  Qed.
  Lemma none_value : forall gs, length gs = n -> compiles X (closure_call ClNone na body) ->
    per_element X root body (VArr l) n h1 (gives_bool gs) n ->
    exists h2, yields X (closure_call ClNone na body) root h (Ok (VBool (negb (existsb (fun b => b) gs)))) h2 /\ hext h1 h2.
  Proof.
    intros gs Hg C PE. destruct (stop_value ClNone true false gs) as (h2 & A & B); cbn; auto.
    exists h2. split; auto. rewrite existsb_exists. now destruct (existsb (Bool.eqb true) gs).
  Qed.
  Lemma count_value : forall gs, length gs = n -> compiles X (closure_call ClCount na body) ->
    per_element X root body (VArr l) n h1 (gives_bool gs) n ->
    exists h2, yields X (closure_call ClCount na body) root h
      (Ok (VNum (dec_of_nat (length (filter (fun b => b) gs))))) h2 /\ hext h1 h2.
  Proof.
    intros gs Hg C PE.
    destruct (count_run X root body l xs h1 ClCount gs (or_intror eq_refl) Hg PE n 0 ltac:(unfold n; lia) 0 [] h1 (hext_refl _))
      as (h2 & A & B).
    exists h2. split; auto. pose proof (call_eval_raw ClCount) as E. unfold n in *. rewrite A in E.
    exact (eval_yields _ _ _ _ _ C E).
  Qed.
  Lemma dec_nat_eqb : forall a b, dec_eqb (dec_of_nat a) (dec_of_nat b) = (a =? b).
  Proof.
    intros. apply eq_true_iff_eq. rewrite dec_eqb_val, Nat.eqb_eq. unfold dec_val, dec_of_nat, Qeq. cbn. lia.
  Qed.
  Lemma one_value : forall gs, length gs = n -> compiles X (closure_call ClOne na body) ->
    per_element X root body (VArr l) n h1 (gives_bool gs) n ->
    exists h2, yields X (closure_call ClOne na body) root h
      (Ok (VBool (length (filter (fun b => b) gs) =? 1))) h2 /\ hext h1 h2.
  Proof.
    intros gs Hg C PE.
    destruct (count_run X root body l xs h1 ClOne gs (or_introl eq_refl) Hg PE n 0 ltac:(unfold n; lia) 0 [] h1 (hext_refl _))
      as (h2 & A & B).
    exists h2. split; auto. pose proof (call_eval_raw ClOne) as E. unfold n in *. rewrite A in E.
    cbn [closure_value lp_count plus skipn] in E. change dec_one with (dec_of_nat 1) in E. rewrite dec_nat_eqb in E.
    exact (eval_yields _ _ _ _ _ C E).
  Qed.
  Lemma filter_value : forall gs, length gs = n -> compiles X (closure_call ClFilter na body) ->
    per_element X root body (VArr l) n h1 (gives_bool gs) n ->
    exists h2 l2, yields X (closure_call ClFilter na body) root h (Ok (VArr l2)) h2 /\ hext h1 h2 /\
      hget h2 l2 = Some (CArr (kept xs gs)).
  Proof.
    intros gs Hg C PE.
    destruct (filter_run X root body l xs h1 Hl' gs Hg PE n 0 ltac:(unfold n; lia) 0 [] h1 (hext_refl _)) as (h2 & A & B).
    exists (h2 ++ [CArr (kept xs gs)]), (length h2).
    pose proof (call_eval_raw ClFilter) as E. unfold n in *. rewrite A in E. cbn [closure_value app skipn] in E.
    split; [exact (eval_yields _ _ _ _ _ C E)|]. split; [eapply hext_trans; [exact B|apply hext_alloc]|apply hget_alloc_new].
  Qed.
  Lemma map_value : forall ts, length ts = n -> compiles X (closure_call ClMap na body) ->
    per_element X root body (VArr l) n h1 (gives_tree ts) n ->
    exists h2 l2, yields X (closure_call ClMap na body) root h (Ok (VArr l2)) h2 /\ hext h1 h2 /\
      repr h2 (VArr l2) (TArr ts).
  Proof.
    intros ts Ht C PE.
    destruct (map_run X root body l xs h1 ClMap (gives_tree ts) (or_introl eq_refl) PE) with (m := n) (i := 0) (cnt := 0) (acc := @nil value) (h := h1)
      as (h2 & vs & A & B & D & F).
    { intros i v ha hb Hab (t & G & R). exists t. split; auto. eapply repr_hext; eauto. }
    { unfold n; lia. } { apply hext_refl. }
    exists (h2 ++ [CArr vs]), (length h2).
    pose proof (call_eval_raw ClMap) as E. unfold n in *. rewrite A in E. cbn [closure_value app skipn] in E.
    split; [exact (eval_yields _ _ _ _ _ C E)|]. split; [eapply hext_trans; [exact B|apply hext_alloc]|].
    apply RArr with (a := vs); [apply hget_alloc_new|].
    assert (Forall2 (repr h2) vs ts).
    { clear -D F Ht. rewrite <- Ht in D. clear Ht. change (forall j v, nth_error vs j = Some v -> gives_tree ts j v h2) in F.
      revert ts D F. induction vs as [|v vs IH]; intros [|t ts] D F; try discriminate; constructor.
      - destruct (F 0 v eq_refl) as (t' & E & R). cbn in E. injection E as ->. auto.
      - apply IH; [cbn in D; lia|]. intros j w Hw. apply (F (S j) w Hw). }
    eapply Forall2_imp; [|exact H]. intros. eapply repr_hext; eauto. apply hext_alloc.
  Qed.
  (** [flatMap]: array values are spliced, others kept. *)
  Lemma flat_map_value : forall ts, length ts = n -> compiles X (closure_call ClFlatMap na body) ->
    per_element X root body (VArr l) n h1 (gives_tree ts) n ->
    exists h2 l2, yields X (closure_call ClFlatMap na body) root h (Ok (VArr l2)) h2 /\ hext h1 h2 /\
      repr h2 (VArr l2) (TArr (spliced ts)).
  Proof.
    intros ts Ht C PE.
    destruct (map_run X root body l xs h1 ClFlatMap (gives_tree ts) (or_intror eq_refl) PE) with (m := n) (i := 0) (cnt := 0) (acc := @nil value) (h := h1)
      as (h2 & vs & A & B & D & F).
    { intros i v ha hb Hab (t & G & R). exists t. split; auto. eapply repr_hext; eauto. }
    { unfold n; lia. } { apply hext_refl. }
    assert (V : Forall2 (repr h2) vs ts).
    { clear -D F Ht. rewrite <- Ht in D. clear Ht. change (forall j v, nth_error vs j = Some v -> gives_tree ts j v h2) in F.
      revert ts D F. induction vs as [|v vs IH]; intros [|t ts] D F; try discriminate; constructor.
      - destruct (F 0 v eq_refl) as (t' & E & R). cbn in E. injection E as ->. auto.
      - apply IH; [cbn in D; lia|]. intros j w Hw. apply (F (S j) w Hw). }
    set (h3 := h2 ++ [CArr vs]). set (fl := flatten1 h3 vs).
    exists (h3 ++ [CArr fl]), (length h3).
    pose proof (call_eval_raw ClFlatMap) as E. unfold n in *. rewrite A in E.
    cbn [closure_value app new_arr halloc op_flatten] in E. unfold new_arr, halloc in E. cbn [op_flatten] in E.
    rewrite (proj2 (harr_hget (h2 ++ [CArr vs]) (length h2) vs) (hget_alloc_new _ _)) in E.
    unfold new_arr, halloc in E. cbn [hlift fst snd] in E.
    split; [exact (eval_yields _ _ _ _ _ C E)|].
    assert (X2 : hext h2 h3) by apply hext_alloc. assert (X3 : hext h3 (h3 ++ [CArr fl])) by apply hext_alloc.
    split; [eapply hext_trans; [exact B|eapply hext_trans; eauto]|].
    apply RArr with (a := fl); [apply hget_alloc_new|].
    assert (X23 : hext h2 (h3 ++ [CArr fl])) by (eapply hext_trans; eauto).
    assert (G : forall vs ts, Forall2 (repr h2) vs ts -> Forall2 (repr (h3 ++ [CArr fl])) (flatten1 h3 vs) (spliced ts)).
    { intros vs' ts' V'. induction V' as [|v t vs' ts' R V' IH]; cbn; [constructor|]. apply Forall2_app; auto.
      assert (R' : repr (h3 ++ [CArr fl]) v t) by (eapply repr_hext; eauto).
      inversion R as [| | | |? a ta G0 F0|? m tm G0 F0|]; subst; try (constructor; auto; fail).
      rewrite (proj2 (harr_hget _ _ _) (hext_get _ _ _ _ X2 G0)).
      eapply Forall2_imp; [|exact F0]. intros. eapply repr_hext; eauto. }
    apply G; auto.
  Qed.
  Lemma error_value : forall c gs e, compiles X (closure_call c na body) ->
    (forall b, In b gs -> exists t, judge c (VBool b) = Keep t) ->
    per_element X root body (VArr l) n h1 (gives_bool gs) (length gs) -> length gs < n ->
    (forall cnt h2, hext h1 h2 -> exists h3, eval X root [] [Loop (VArr l) n (length gs) cnt] body root h2 = OErr e h3) ->
    exists h2, yields X (closure_call c na body) root h (Err e) h2.
  Proof.
    intros c gs e C K PE Hg Herr.
    destruct (error_run X root body l xs h1 Hl' c gs e K PE Hg Herr n 0 ltac:(unfold n; lia) ltac:(lia) 0 [] h1 (hext_refl _)) as (h2 & A).
    exists h2. pose proof (call_eval_raw c) as E. unfold n in *. rewrite A in E. exact (eval_yields _ _ _ _ _ C E).
  Qed.
End Calls.

(** ** Dualities: no hypothesis on the body or on the first argument *)
Definition map_lout (f : bool -> bool) (o : lout) : lout :=
  match o with LBreak (VBool b) env h => LBreak (VBool (f b)) env h | o => o end.

Lemma iterate_none_some : forall body n lp acc env h,
  match iterate ClSome body n lp acc env h with
  | LErr _ h1 => exists e, iterate ClNone body n lp acc env h = LErr e h1
  | LDone lp1 acc1 env1 h1 => iterate ClNone body n lp acc env h = LDone lp1 acc1 env1 h1
  | LBreak v env1 h1 => v = VBool true /\ iterate ClNone body n lp acc env h = LBreak (VBool false) env1 h1
  end.
Proof.
  intros body. induction n as [|n IH]; intros lp acc env h; cbn; auto.
  unfold advance. destruct (body lp env h) as [v env1 h1|e h1]; [|eauto].
  destruct v as [|[]| | | | |]; cbn; eauto. apply IH.
Qed.
Lemma none_is_not_some : forall X na body root h b h1,
  yields X (closure_call ClSome na body) root h (Ok (VBool b)) h1 ->
  yields X (closure_call ClNone na body) root h (Ok (VBool (negb b))) h1.
Proof.
  intros X na body root h b h1 Y. apply yields_iff in Y as [C E]. apply yields_iff. split.
  - eapply compiles_closure; eauto.
  - unfold evaluate, closure_call in *. cbn [eval] in *.
    destruct (eval X root [] [] na root h) as [v env0 h0|]; cbn [obind] in *; [|discriminate].
    destruct (op_begin h0 v) as [h2 [lp|]]; [|discriminate].
    pose proof (iterate_none_some (fun lp => eval X root [] [lp] body) (lp_len lp) lp [] env0 h2) as D.
    destruct (iterate ClSome _ (lp_len lp) lp [] env0 h2) as [lp1 acc1 env1 h3|v1 env1 h3|]; cbn in E; [| |discriminate].
    + rewrite D. cbn. injection E as <- <-. reflexivity.
    + destruct D as [-> D]. rewrite D. injection E as <- <-. reflexivity.
Qed.

(** [all(a, x)] is [not some(a, not x)]. *)
Lemma iterate_all_some : forall X root body alias n lp acc env h,
  match iterate ClSome (fun lp => eval X root [] [lp] (NClosure (NUnary body (OpLogic LNot)) alias)) n lp acc env h with
  | LErr _ h1 => exists e, iterate ClAll (fun lp => eval X root [] [lp] (NClosure body alias)) n lp acc env h = LErr e h1
  | LDone lp1 acc1 env1 h1 => iterate ClAll (fun lp => eval X root [] [lp] (NClosure body alias)) n lp acc env h = LDone lp1 acc1 env1 h1
  | LBreak v env1 h1 => v = VBool true /\
      iterate ClAll (fun lp => eval X root [] [lp] (NClosure body alias)) n lp acc env h = LBreak (VBool false) env1 h1
  end.
Proof.
  intros X root body alias. induction n as [|n IH]; intros lp acc env h; cbn [iterate]; auto.
  unfold advance. cbn [eval]. destruct (eval X root [alias] [lp] body env h) as [v env1 h1|e h1]; cbn [obind]; [|eauto].
  destruct v as [|[]| | | | |]; cbn; eauto. apply IH.
Qed.
Lemma all_is_not_some_not : forall X na body alias root h b h1,
  yields X (closure_call ClSome na (NClosure (NUnary body (OpLogic LNot)) alias)) root h (Ok (VBool b)) h1 ->
  yields X (closure_call ClAll na (NClosure body alias)) root h (Ok (VBool (negb b))) h1.
Proof.
  intros X na body alias root h b h1 Y. apply yields_iff in Y as [C E]. apply yields_iff. split.
  - destruct C as [k C]. unfold compiles, closure_call in *. setoid_rewrite compile_cgen. rewrite compile_cgen in C.
    cbn [cgen] in *. destruct (cgen X [] na); [|discriminate]. cbn [bind] in *.
    destruct (cgen X [alias] body); [|discriminate]. cbn. eauto.
  - unfold evaluate, closure_call in *.
    change (eval X root [] [] (NCall (FClosure ClSome) [na; NClosure (NUnary body (OpLogic LNot)) alias]) root h)
      with (obind (eval X root [] [] na root h) (fun v env h =>
              match op_begin h v with
              | (h, Err e) => OErr e h
              | (h, Ok lp) =>
                  match iterate ClSome (fun lp => eval X root [] [lp] (NClosure (NUnary body (OpLogic LNot)) alias)) (lp_len lp) lp [] env h with
                  | LErr e h => OErr e h
                  | LBreak v env h => ORet v env h
                  | LDone lp acc env h => closure_value ClSome lp acc env h
                  end
              end)) in E.
    change (eval X root [] [] (NCall (FClosure ClAll) [na; NClosure body alias]) root h)
      with (obind (eval X root [] [] na root h) (fun v env h =>
              match op_begin h v with
              | (h, Err e) => OErr e h
              | (h, Ok lp) =>
                  match iterate ClAll (fun lp => eval X root [] [lp] (NClosure body alias)) (lp_len lp) lp [] env h with
                  | LErr e h => OErr e h
                  | LBreak v env h => ORet v env h
                  | LDone lp acc env h => closure_value ClAll lp acc env h
                  end
              end)).
    destruct (eval X root [] [] na root h) as [v env0 h0|]; cbn [obind] in *; [|discriminate].
    destruct (op_begin h0 v) as [h2 [lp|]]; [|discriminate].
    pose proof (iterate_all_some X root body alias (lp_len lp) lp [] env0 h2) as D.
    destruct (iterate ClSome _ (lp_len lp) lp [] env0 h2) as [lp1 acc1 env1 h3|v1 env1 h3|]; cbn in E; [| |discriminate].
    + rewrite D. cbn. injection E as <- <-. reflexivity.
    + destruct D as [-> D]. rewrite D. injection E as <- <-. reflexivity.
Qed.

Lemma iterate_one_count : forall body n lp acc env h,
  iterate ClOne body n lp acc env h = iterate ClCount body n lp acc env h.
Proof.
  intros body. induction n as [|n IH]; intros lp acc env h; cbn; auto.
  unfold advance. destruct (body lp env h) as [v env1 h1|e h1]; auto.
  destruct v as [|[]| | | | |]; cbn; auto.
Qed.
Lemma iterate_count_no_break : forall body n lp acc env h v env1 h1,
  iterate ClCount body n lp acc env h <> LBreak v env1 h1.
Proof.
  intros body. induction n as [|n IH]; intros lp acc env h v env1 h1; cbn; [discriminate|].
  unfold advance. destruct (body lp env h) as [w env2 h2|e h2]; [|discriminate].
  destruct w as [|[]| | | | |]; cbn; try discriminate; apply IH.
Qed.
Lemma one_is_count_one : forall X na body root h v h1,
  yields X (closure_call ClCount na body) root h (Ok v) h1 ->
  exists k, v = VNum (dec_of_nat k) /\
    yields X (closure_call ClOne na body) root h (Ok (VBool (k =? 1))) h1.
Proof.
  intros X na body root h v h1 Y. apply yields_iff in Y as [C E].
  unfold evaluate, closure_call in E. cbn [eval] in E.
  destruct (eval X root [] [] na root h) as [w env0 h0|] eqn:Ea; cbn [obind] in E; [|discriminate].
  destruct (op_begin h0 w) as [h2 [lp|]] eqn:Eb; [|discriminate].
  destruct (iterate ClCount _ (lp_len lp) lp [] env0 h2) as [lp1 acc1 env1 h3|v1 env1 h3|] eqn:Ei; cbn in E; [| |discriminate].
  2:{ exfalso. eapply iterate_count_no_break; eauto. }
  injection E as <- <-. exists (lp_count lp1). split; auto. apply yields_iff. split; [eapply compiles_closure; eauto|].
  unfold evaluate, closure_call. cbn [eval]. rewrite Ea. cbn [obind]. rewrite Eb, iterate_one_count, Ei. cbn.
  change dec_one with (dec_of_nat 1). now rewrite dec_nat_eqb.
Qed.

Lemma iterate_filter_count : forall body n lp acc env h lp1 acc1 env1 h1,
  iterate ClFilter body n lp acc env h = LDone lp1 acc1 env1 h1 ->
  exists acc2, iterate ClCount body n lp acc2 env h = LDone lp1 acc2 env1 h1 /\
    lp_count lp1 + length acc = lp_count lp + length acc1.
Proof.
  intros body n lp acc env h lp1 acc1 env1 h1 E. exists [].
  revert lp acc env h E. induction n as [|n IH]; intros lp acc env h E; cbn in *.
  - injection E as <- <- <- <-. split; auto.
  - unfold advance in *. destruct (body lp env h) as [w env2 h2|e h2]; [|discriminate].
    destruct w as [|[]| | | | |]; cbn [judge counts andb] in *; try discriminate.
    + destruct (op_pointer h2 [bump_count lp] 0) as [x|]; [|discriminate].
      destruct (IH _ _ _ _ E) as [A B]. split; auto. rewrite app_length in B. cbn in *. lia.
    + destruct (IH _ _ _ _ E) as [A B]. split; auto.
Qed.
Lemma iterate_filter_no_break : forall body n lp acc env h v env1 h1,
  iterate ClFilter body n lp acc env h <> LBreak v env1 h1.
Proof.
  intros body. induction n as [|n IH]; intros lp acc env h v env1 h1; cbn; [discriminate|].
  unfold advance. destruct (body lp env h) as [w env2 h2|e h2]; [|discriminate].
  destruct w as [|[]| | | | |]; cbn [judge counts andb]; try discriminate.
  - destruct (op_pointer h2 [bump_count lp] 0); [apply IH|discriminate].
  - apply IH.
Qed.
Lemma count_is_filter_length : forall X na body root h l xs h1,
  yields X (closure_call ClFilter na body) root h (Ok (VArr l)) h1 -> hget h1 l = Some (CArr xs) ->
  exists h2, yields X (closure_call ClCount na body) root h (Ok (VNum (dec_of_nat (length xs)))) h2 /\ hext h2 h1.
Proof.
  intros X na body root h l xs h1 Y G. apply yields_iff in Y as [C E].
  unfold evaluate, closure_call in E. cbn [eval] in E.
  destruct (eval X root [] [] na root h) as [w env0 h0|] eqn:Ea; cbn [obind] in E; [|discriminate].
  destruct (op_begin h0 w) as [h2 [lp|]] eqn:Eb; [|discriminate].
  destruct (iterate ClFilter _ (lp_len lp) lp [] env0 h2) as [lp1 acc1 env1 h3|v1 env1 h3|] eqn:Ei; cbn in E; [| |discriminate].
  2:{ exfalso. eapply iterate_filter_no_break; eauto. }
  injection E as E1 E2. subst l h1. rewrite hget_alloc_new in G. injection G as ->.
  destruct (iterate_filter_count _ _ _ _ _ _ _ _ _ _ Ei) as (acc2 & A & B).
  assert (Lc : lp_count lp = 0).
  { unfold op_begin in Eb. destruct w; try discriminate.
    - destruct (harr h0 l); [|discriminate]. injection Eb as <- <-. reflexivity.
    - destruct d; try discriminate. destruct (interval_to_array i); [|discriminate]. injection Eb as <- <-. reflexivity. }
  exists h3. split; [|apply hext_alloc]. apply yields_iff. split; [eapply compiles_closure; eauto|].
  unfold evaluate, closure_call. cbn [eval]. rewrite Ea. cbn [obind]. rewrite Eb.
  assert (I : forall body n lp acc acc' env h, iterate ClCount body n lp acc' env h =
     match iterate ClCount body n lp acc env h with LDone a _ c d => LDone a acc' c d | o => o end).
  { clear. intros body. induction n as [|n IH]; intros; cbn; auto. unfold advance.
    destruct (body lp env h) as [v env1 h1|]; auto. destruct v as [|[]| | | | |]; cbn; auto. }
  rewrite (I _ _ _ acc2), A. cbn. cbn in B. rewrite Lc in B. replace (lp_count lp1) with (length xs) by lia. reflexivity.
Qed.

(** A concrete family of bodies: [# > k] over an array of numbers. *)
Lemma gt_body : forall X root l ns k h0, hget h0 l = Some (CArr (map VNum ns)) ->
  per_element X root (NClosure (NBinary NPointer (OpCmp CGt) (NNumber k)) None) (VArr l) (length (map VNum ns)) h0
    (gives_bool (map (fun d => dec_ltb k d) ns)) (length (map VNum ns)).
Proof.
  intros X root l ns k h0 G i c h Hi Hh. rewrite map_length in *.
  assert (A : harr h l = Some (map VNum ns)). { apply harr_hget. eapply hext_get; eauto. }
  destruct (nth_error ns i) as [d|] eqn:E; [|apply nth_error_None in E; lia].
  exists (VBool (dec_ltb k d)), h. split; [|split; [apply hext_refl|]].
  - cbn [eval]. unfold op_pointer. cbn [nth_error lp_array lp_iter lift]. rewrite A.
    rewrite (map_nth_error VNum _ _ E). cbn [of_option lift obind bin_value op_compare cmp_holds cmp_gt].
    unfold dec_ltb. rewrite !dec_cmp_val, <- Qcompare_antisym. now destruct (dec_val k ?= dec_val d)%Q.
  - exists (dec_ltb k d). split; auto. now apply map_nth_error.
Qed.
(** ... and the body [#] itself. *)
Lemma self_body : forall X root l xs ts h0, hget h0 l = Some (CArr xs) -> Forall2 (repr h0) xs ts ->
  per_element X root (NClosure NPointer None) (VArr l) (length xs) h0 (gives_tree ts) (length xs).
Proof.
  intros X root l xs ts h0 G F i c h Hi Hh.
  assert (A : harr h l = Some xs). { apply harr_hget. eapply hext_get; eauto. }
  destruct (nth_error xs i) as [v|] eqn:E; [|apply nth_error_None in E; lia].
  exists v, h. split; [|split; [apply hext_refl|]].
  - cbn [eval]. unfold op_pointer. cbn [nth_error lp_array lp_iter lift]. now rewrite A, E.
  - assert (T : exists t, nth_error ts i = Some t /\ repr h0 v t).
    { clear -F E. revert i E. induction F as [|x t xs ts R F IH]; intros [|i] E; try discriminate; cbn in *; eauto.
      injection E as <-. eauto. }
    destruct T as (t & T1 & T2). exists t. split; auto. eapply repr_hext; eauto.
Qed.
