(** Assertions: the loop with its stack of frames computes the formula that the indentation spells. *)
From Coq Require Import String Bool List Arith Lia.
From Verif Require Import Base Dec Value Heap Ast Ops HeapSpec Isolate Session Blocks KeepFacts BlocksSpec.
Import ListNotations.
Local Open Scope string_scope.
Local Open Scope nat_scope.
Local Open Scope list_scope.

Lemma join_bapply : forall o l r, bapply o l r = join o l r.
Proof. reflexivity. Qed.

Section Item.
  Variable Q : item -> Prop.
  Hypothesis Hc : forall id e o, Q (ICond id e o).
  Hypothesis Hg : forall l, Forall Q l -> Q (IGroup l).
  Fixpoint item_ind' (i : item) : Q i :=
    match i with
    | ICond id e o => Hc id e o
    | IGroup l => Hg l ((fix go l : Forall Q l := match l with [] => Forall_nil Q | i :: r => Forall_cons i (item_ind' i) (go r) end) l)
    end.
End Item.

Section Assert.
  Variable truth : string -> bool.
  Fixpoint vfold (acc : bool) (o : bop) (l : list item) : bool :=
    match l with [] => acc | i :: r => vfold (join o acc (value_of truth i)) (op_after i) r end.
  Fixpoint last_op (o : bop) (l : list item) : bop := match l with [] => o | i :: r => last_op (op_after i) r end.
  Lemma value_group : forall i r, value_of truth (IGroup (i :: r)) = vfold (value_of truth i) (op_after i) r.
  Proof.
    intros i r. cbn [value_of]. generalize (value_of truth i) (op_after i). induction r as [|j r IH]; intros a o; cbn; auto.
  Qed.
  Lemma op_group : forall i r, op_after (IGroup (i :: r)) = last_op (op_after i) r.
  Proof.
    intros i r. revert i. induction r as [|j r IH]; intros i; [reflexivity|]. specialize (IH j). cbn [last_op]. rewrite <- IH. reflexivity.
  Qed.
  Lemma lines_group : forall d l, lines d (IGroup l) = all_lines (S d) l.
  Proof. intros d l. cbn [lines]. induction l; cbn; congruence. Qed.
  Lemma written_group : forall l, written (IGroup l) = true -> l <> [] /\ apart l = true /\ Forall (fun i => written i = true) l.
  Proof.
    intros l H. cbn in H. apply andb_true_iff in H as [H G]. apply andb_true_iff in H as [N A]. split; [destruct l; congruence|].
    split; auto. clear N A. induction l; constructor; apply andb_true_iff in G; tauto.
  Qed.
  Lemma group_written : forall l, l <> [] -> apart l = true -> Forall (fun i => written i = true) l -> written (IGroup l) = true.
  Proof.
    intros l N A F. cbn. rewrite A. replace (match l with [] => false | _ => true end) with true by (destruct l; congruence). cbn.
    clear N A. induction F; cbn; auto. rewrite H. auto.
  Qed.

  Definition astep (s : astate) (c : acond) : astate := acombine (truth (ac_expr c)) (ac_op c) (at_depth (ac_depth c) s).
  Definition arun (l : list acond) (s : astate) : astate := fold_left astep l s.
  Definition close_to (d : nat) (s : astate) : astate := aclose (as_depth s - d) s.
  Definition open1 (s : astate) : astate :=
    AState (Frame (as_acc s) (as_started s) (as_next s) :: as_stack s) false false (S (as_depth s)) BAnd.

  Lemma aclose_add : forall n m s, aclose (n + m) s = aclose m (aclose n s).
  Proof. induction n; intros m s; cbn; auto. Qed.
  Lemma aclose_depth : forall n s, as_depth (aclose n s) = as_depth s - n.
  Proof.
    induction n; intros s; cbn; [lia|]. rewrite IHn. destruct (as_stack s); cbn; lia.
  Qed.
  Lemma aopen_depth : forall n s, as_depth (aopen n s) = as_depth s + n.
  Proof. induction n; intros s; cbn [aopen]; [lia|]. rewrite IHn. cbn. lia. Qed.
  Lemma at_depth_depth : forall d s, as_depth (at_depth d s) = d.
  Proof. intros d s. unfold at_depth. rewrite aclose_depth, aopen_depth. lia. Qed.
  Lemma arun_app : forall a b s, arun (a ++ b) s = arun b (arun a s).
  Proof. intros. unfold arun. apply fold_left_app. Qed.
  Lemma close_close : forall d s, d < as_depth s -> close_to d s = aclose 1 (close_to (S d) s).
  Proof. intros d s L. unfold close_to. rewrite <- aclose_add. f_equal. lia. Qed.
  Lemma close_here : forall s, close_to (as_depth s) s = s.
  Proof. intros s. unfold close_to. now rewrite Nat.sub_diag. Qed.
  Lemma at_depth_close : forall d s, d <= as_depth s -> at_depth d s = close_to d s.
  Proof. intros d s L. unfold at_depth, close_to. replace (d - as_depth s) with 0 by lia. reflexivity. Qed.
  Lemma at_depth_open : forall d s, as_depth s < d -> at_depth d s = at_depth d (open1 s).
  Proof.
    intros d s L. unfold at_depth. cbn [open1 as_depth]. replace (as_depth s - d) with 0 by lia. replace (S (as_depth s) - d) with 0 by lia.
    cbn [aclose]. replace (d - as_depth s) with (S (d - S (as_depth s))) by lia. reflexivity.
  Qed.

  (** The first line of an item. *)
  Lemma lines_first : forall i, written i = true -> forall d, exists c r, lines d i = c :: r /\ d <= ac_depth c /\
    (forall id e o, i = ICond id e o -> ac_depth c = d) /\ (forall l, i = IGroup l -> d < ac_depth c).
  Proof.
    induction i as [id e o|l IH] using item_ind'; intros W d.
    - cbn. eexists; eexists; split; [reflexivity|]. cbn. repeat split; auto. discriminate.
    - apply written_group in W as (N & A & F). destruct l as [|i r]; [congruence|]. inversion F; subst. inversion IH; subst.
      destruct (H3 H1 (S d)) as (c & q & E & D & _). rewrite lines_group. cbn [all_lines]. rewrite E.
      eexists; eexists; split; [reflexivity|]. split; [lia|]. split; [discriminate|]. intros; lia.
  Qed.
  Definition group (i : item) : Prop := match i with IGroup _ => True | _ => False end.
  Definition starts_with_group (l : list item) : Prop := match l with i :: _ => group i | [] => False end.

  Definition run_item (i : item) : Prop := written i = true -> forall s d, d <= as_depth s -> (group i -> as_depth s = d) ->
    d <= as_depth (arun (lines d i) s) /\ (~ group i -> as_depth (arun (lines d i) s) = d) /\
    close_to d (arun (lines d i) s) =
      let s0 := close_to d s in
      AState (as_stack s0) (if as_started s0 then join (as_next s0) (as_acc s0) (value_of truth i) else value_of truth i) true d (op_after i).
  Lemma run_list : forall l, Forall run_item l -> Forall (fun i => written i = true) l -> apart l = true ->
    forall s d, d <= as_depth s -> (starts_with_group l -> as_depth s = d) -> as_started (close_to d s) = true ->
    d <= as_depth (arun (all_lines d l) s) /\
    close_to d (arun (all_lines d l) s) =
      let s0 := close_to d s in AState (as_stack s0) (vfold (as_acc s0) (as_next s0) l) true d (last_op (as_next s0) l).
  Proof.
    induction l as [|i r IH]; intros HI W A s d L G T.
    - cbn [all_lines arun fold_left]. split; auto. cbn [vfold last_op]. unfold close_to in *. pose proof (aclose_depth (as_depth s - d) s) as D.
      destruct (aclose (as_depth s - d) s); cbn in *. subst. f_equal. lia.
    - inversion HI as [|? ? HI1 HI2]; subst. inversion W as [|? ? W1 W2]; subst. cbn [all_lines]. rewrite arun_app.
      destruct (HI1 W1 s d L G) as (L1 & K1 & E1). cbv zeta in E1. rewrite T in E1.
      assert (A2 : apart r = true) by (cbn in A; destruct i; auto; destruct r as [|[]]; auto; discriminate).
      assert (G2 : starts_with_group r -> as_depth (arun (lines d i) s) = d).
      { intros Q. apply K1. intros Q2. destruct i; [contradiction|]. destruct r as [|[]]; [contradiction..|]. cbn in A. discriminate. }
      destruct (IH HI2 W2 A2 (arun (lines d i) s) d L1 G2) as (L2 & E2); [now rewrite E1|].
      split; [exact L2|]. rewrite E2, E1. cbn. reflexivity.
  Qed.
  Lemma run_list0 : forall i r, run_item i -> Forall run_item r -> Forall (fun i => written i = true) (i :: r) -> apart (i :: r) = true ->
    forall s d, as_depth s = d -> as_started s = false ->
    d <= as_depth (arun (all_lines d (i :: r)) s) /\
    close_to d (arun (all_lines d (i :: r)) s) =
      AState (as_stack s) (vfold (value_of truth i) (op_after i) r) true d (last_op (op_after i) r).
  Proof.
    intros i r HI1 HI2 W A s d D T. inversion W as [|? ? W1 W2]; subst. cbn [all_lines]. rewrite arun_app.
    destruct (HI1 W1 s (as_depth s) (Nat.le_refl _) (fun _ => eq_refl)) as (L1 & K1 & E1). cbv zeta in E1.
    assert (E0 : close_to (as_depth s) s = s) by apply close_here. rewrite E0, T in E1.
    assert (A2 : apart r = true) by (cbn in A; destruct i; auto; destruct r as [|[]]; auto; discriminate).
    assert (G2 : starts_with_group r -> as_depth (arun (lines (as_depth s) i) s) = as_depth s).
    { intros Q. apply K1. intros Q2. destruct i; [contradiction|]. destruct r as [|[]]; [contradiction..|]. cbn in A. discriminate. }
    destruct (run_list r HI2 W2 A2 (arun (lines (as_depth s) i) s) (as_depth s) L1 G2) as (L2 & E2); [now rewrite E1|].
    split; [exact L2|]. rewrite E2, E1. cbn. reflexivity.
  Qed.
  Lemma run_items : forall i, run_item i.
  Proof.
    induction i as [id e o|l IH] using item_ind'; intros W s d L G.
    - cbn [lines]. unfold arun; cbn [fold_left]. unfold astep, acombine. cbn [ac_expr ac_op ac_depth]. rewrite (at_depth_close d s L).
      assert (D : as_depth (close_to d s) = d) by (unfold close_to; rewrite aclose_depth; lia).
      cbn [as_depth]. split; [lia|]. split; [auto|]. cbv zeta. unfold close_to at 1. cbn [as_depth]. rewrite D, Nat.sub_diag. reflexivity.
    - specialize (G Logic.I). apply written_group in W as (N & A & F). destruct l as [|i r]; [congruence|].
      inversion IH as [|? ? IH1 IH2]; subst. rewrite lines_group.
      assert (O : arun (all_lines (S (as_depth s)) (i :: r)) s = arun (all_lines (S (as_depth s)) (i :: r)) (open1 s)).
      { inversion F as [|? ? F1 F2]; subst. destruct (lines_first i F1 (S (as_depth s))) as (c & q & E & D & _). cbn [all_lines]. rewrite E.
        cbn [app arun fold_left]. unfold astep at 2 4. rewrite (at_depth_open (ac_depth c) s) by lia. reflexivity. }
      rewrite O. destruct (run_list0 i r IH1 IH2 F A (open1 s) (S (as_depth s)) eq_refl eq_refl) as (L1 & E1).
      split; [lia|]. split; [intros Q; now destruct Q|]. rewrite close_close by lia. rewrite E1. rewrite close_here. cbv zeta.
      rewrite value_group, op_group. cbn. unfold fclose; cbn. rewrite join_bapply. reflexivity.
  Qed.

  (** The frames left at the end are those of the depth reached. *)
  Definition framed (s : astate) : Prop := length (as_stack s) = as_depth s.
  Lemma aopen_framed : forall n s, framed s -> framed (aopen n s).
  Proof. induction n; intros s H; cbn; auto. apply IHn. unfold framed in *. cbn. lia. Qed.
  Lemma aclose_framed : forall n s, framed s -> framed (aclose n s).
  Proof.
    induction n; intros s H; cbn; auto. apply IHn. unfold framed in *. destruct (as_stack s) eqn:E; cbn in *; lia.
  Qed.
  Lemma arun_framed : forall l s, framed s -> framed (arun l s).
  Proof.
    induction l as [|c l IH]; intros s H; cbn; auto. apply IH. unfold astep, acombine, framed. cbn.
    apply aclose_framed. now apply aopen_framed.
  Qed.
  Lemma finish_close : forall s, framed s -> afinish s = as_acc (close_to 0 s).
  Proof.
    intros s H. unfold close_to, afinish. rewrite Nat.sub_0_r, <- H. clear H. destruct s as [st a b d n]. cbn [as_stack as_acc].
    revert a b d. induction st as [|f st IH]; intros a b d; cbn [length aclose as_stack fold_left]; [reflexivity|]. apply IH.
  Qed.
  Lemma formula : forall l, l <> [] -> Forall (fun i => written i = true) l -> apart l = true ->
    afinish (arun (all_lines 0 l) (AState [] false false 0 BAnd)) = value_of truth (IGroup l).
  Proof.
    intros l N F A. rewrite finish_close by (apply arun_framed; reflexivity). destruct l as [|i r]; [congruence|].
    assert (R : Forall run_item r) by (apply Forall_forall; intros; apply run_items).
    destruct (run_list0 i r (run_items i) R F A (AState [] false false 0 BAnd) 0 eq_refl eq_refl) as (_ & E). rewrite E, value_group. reflexivity.
  Qed.
End Assert.

(** Every list of conditions spells a formula. *)
Definition weight (d : nat) (l : list acond) : nat := fold_right (fun c n => S (ac_depth c - d) + n) 0 l.
Fixpoint deeper (d : nat) (l : list acond) : list acond * list acond :=
  match l with
  | c :: r => if d <? ac_depth c then let (a, b) := deeper d r in (c :: a, b) else ([], l)
  | [] => ([], [])
  end.
Lemma deeper_ok : forall d l a b, deeper d l = (a, b) -> l = a ++ b /\ Forall (fun c => d < ac_depth c) a /\
  match b with c :: _ => ac_depth c <= d | [] => True end.
Proof.
  intros d. induction l as [|c r IH]; intros a b E; cbn [deeper] in E; [injection E as <- <-; auto|]. destruct (Nat.ltb_spec d (ac_depth c)).
  - destruct (deeper d r) as [a0 b0]. injection E as <- <-. destruct (IH _ _ eq_refl) as (-> & F & G). cbn. auto.
  - injection E as <- <-. cbn. auto.
Qed.
Lemma weight_app : forall d a b, weight d (a ++ b) = weight d a + weight d b.
Proof. intros d a b. unfold weight. induction a as [|c a IH]; cbn [app fold_right]; [reflexivity|]. rewrite IH. lia. Qed.
Lemma weight_deeper : forall d a, a <> [] -> Forall (fun c => d < ac_depth c) a -> weight (S d) a < weight d a.
Proof.
  intros d a N F. destruct F as [|c a Hc F]; [congruence|]. clear N. revert c Hc. induction F as [|x a Hx F IH]; intros c Hc.
  - cbn. lia.
  - specialize (IH x Hx). cbn [weight fold_right] in *. unfold weight in IH. lia.
Qed.
Lemma spelled : forall n d l, weight d l <= n -> Forall (fun c => d <= ac_depth c) l ->
  exists f, all_lines d f = l /\ Forall (fun i => written i = true) f /\ apart f = true /\
    (match l with c :: _ => ac_depth c = d | [] => True end -> ~ starts_with_group f).
Proof.
  induction n; intros d l L F.
  - destruct l as [|c r]; [|unfold weight in L; cbn [fold_right] in L; lia]. exists []. cbn. auto.
  - destruct l as [|c r]; [exists []; cbn; auto|]. inversion F as [|x0 l0 F1 F2]; subst x0 l0. destruct (Nat.eq_dec (ac_depth c) d) as [D|D].
    + destruct (IHn d r) as (f & E & W & A & _); [unfold weight in *; cbn [fold_right] in L; lia|auto|]. exists (ICond (ac_id c) (ac_expr c) (ac_op c) :: f).
      split; [cbn; rewrite E; f_equal; destruct c; cbn in *; congruence|]. split; [constructor; auto|]. split; [exact A|]. cbn. auto.
    + destruct (deeper d (c :: r)) as [a b] eqn:E. pose proof (deeper_ok _ _ _ _ E) as (E1 & Fa & Hb).
      assert (Na : a <> []). { intros ->. cbn in E1. subst b. lia. }
      assert (W1 : weight (S d) a < weight d a) by now apply weight_deeper.
      rewrite E1, weight_app in L.
      destruct (IHn (S d) a) as (g & Eg & Wg & Ag & _); [lia| |].
      { eapply Forall_impl; [|exact Fa]. cbn. intros; lia. }
      assert (Fb : Forall (fun c => d <= ac_depth c) b). { rewrite E1 in F. apply Forall_app in F. tauto. }
      destruct (IHn d b) as (f & Ef & Wf & Af & Gf); [lia|auto|].
      exists (IGroup g :: f). split; [|split; [|split]].
      * cbn [all_lines]. rewrite lines_group, Eg, Ef. auto.
      * constructor; auto. apply group_written; auto. intros ->. cbn in Eg. congruence.
      * destruct f as [|[|g0] f0]; auto. exfalso. destruct b as [|x b].
        -- inversion Wf as [|? ? Wi _]; subst. destruct (lines_first _ Wi d) as (c0 & q & El & _). cbn [all_lines] in Ef. rewrite El in Ef. discriminate.
        -- apply Gf; [|exact Logic.I]. inversion Fb; subst. lia.
      * intros K. congruence.
Qed.
Lemma every_assertion : forall l, l <> [] ->
  exists f, f <> [] /\ all_lines 0 f = l /\ Forall (fun i => written i = true) f /\ apart f = true.
Proof.
  intros l N. destruct (spelled (weight 0 l) 0 l (Nat.le_refl _)) as (f & E & W & A & _).
  - apply Forall_forall. intros; lia.
  - exists f. split; auto. intros ->. cbn in E. congruence.
Qed.
