(** The walker keeps its invariants, terminates and runs nodes in dependency order. *)
From Coq Require Import String Lia Bool List Arith.
From Verif Require Import Base Value Heap Graph GraphSpec GraphFacts Walker PruneFacts WalkSpec.
Import ListNotations.
Local Open Scope list_scope.
Local Open Scope nat_scope.

Lemma find_fst : forall {A} (l : list (nat * A)) n x, NoDup (map fst l) -> In (n, x) l -> find (fun y => fst y =? n) l = Some (n, x).
Proof.
  induction l as [|[m y] l IH]; intros n x N I; [contradiction|]. inversion N as [|? ? N1 N2]; subst. cbn. destruct (Nat.eqb_spec m n) as [->|NE].
  - destruct I as [E|I]; [rewrite E; reflexivity|]. exfalso. apply N1. apply in_map_iff. exists (n, x). auto.
  - destruct I as [E|I]; [congruence|auto].
Qed.
Lemma find_none_fst : forall {A} (l : list (nat * A)) n, find (fun y => fst y =? n) l = None <-> ~ In n (map fst l).
Proof.
  intros A l n. split.
  - intros F I. apply in_map_iff in I. destruct I as (x & E & I). pose proof (find_none _ _ F x I) as X. cbn in X. rewrite E, Nat.eqb_refl in X. discriminate.
  - intros N. destruct (find (fun y => fst y =? n) l) as [x|] eqn:F; [|reflexivity]. exfalso. apply find_some in F. destruct F as [I E]. apply Nat.eqb_eq in E. apply N. rewrite <- E. apply in_map. exact I.
Qed.

Section Walk.
  Context {T IS : Type}.
  Variable sw_open : value -> option value -> IS.
  Variable sw_run : IS -> string -> heap -> IS * heap * bool.
  Variable handle : gnode T -> value -> option value -> heap -> heap * res value.
  Variable in_context : bool.
  Variable parent_nodes : option value.
  Variable g0 : graph T.
  Hypothesis W0 : wf_graph g0.
  Hypothesis NC0 : ~ cyclic g0.
  Implicit Types g : graph T.
  Implicit Types w : walker T.
  Notation next_loop := (next_loop sw_open sw_run in_context).
  Notation next := (next sw_open sw_run in_context).

  Definition is_switch (nd : gnode T) (p : hit_policy) (sts : list statement) : Prop := gn_kind nd = KdSwitch p sts.
  (** What is recorded about a decided switch is what happened. *)
  Definition choice_ok (data : list (nat * ndata)) (c : choice T) : Prop :=
    exists nd p sts h1 h2 h3, In (ch_node c, nd) (g_nodes g0) /\ gn_kind nd = KdSwitch p sts /\
      merge_data (ch_data c) (neighbors (ch_graph c) (ch_node c) Incoming) (ch_start c) = (h1, Ok (ch_input c)) /\
      nodes_context in_context (ch_data c) h1 = (h2, ch_nodes c) /\ ch_heap c = h2 /\
      select sw_run p sts (sw_open (ch_input c) (ch_nodes c)) h2 = (h3, ch_valid c) /\
      (forall a, edge (ch_graph c) a (ch_node c) -> In a (map fst (ch_data c))) /\ incl (ch_data c) data.
  Definition sane g (data : list (nat * ndata)) (ordered stack : list nat) (cs : list (choice T)) : Prop :=
    settled g0 (struck g0 cs) g /\ incl stack (node_ids g) /\ incl ordered (node_ids g) /\
    (forall n a, In n ordered -> edge g a n -> In a ordered) /\
    NoDup (map ch_node cs) /\ Forall (choice_ok data) cs /\ (forall n, In n ordered \/ In n stack -> connected g n).
  (** Nothing to do has been forgotten. *)
  Definition covered g (ordered stack : list nat) : Prop :=
    (forall n b, In n ordered -> edge g n b -> In b ordered \/ In b stack) /\ forall n, In n (inputs g) -> In n ordered \/ In n stack.

  Definition undecided g (cs : list (choice T)) : nat :=
    length (filter (fun x => match gn_kind (snd x) with KdSwitch _ _ => negb (existsb (Nat.eqb (fst x)) (map ch_node cs)) | _ => false end) (g_nodes g)).
  Definition unvisited g (ordered : list nat) : nat := length (filter (fun n => negb (existsb (Nat.eqb n) ordered)) (node_ids g)).
  Definition mu g w : nat := undecided g (w_switches w) * S (length (g_nodes g0)) + unvisited g (w_ordered w).

  Lemma filter_imp_le : forall {A} (p q : A -> bool) l, (forall x, In x l -> p x = true -> q x = true) -> length (filter p l) <= length (filter q l).
  Proof.
    induction l as [|a l IH]; intros H; cbn; [lia|]. assert (X : length (filter p l) <= length (filter q l)) by (apply IH; intros x I; apply H; right; exact I).
    destruct (p a) eqn:E; [rewrite (H a (or_introl eq_refl) E); cbn; lia|destruct (q a); cbn; lia].
  Qed.
  Lemma filter_imp_lt : forall {A} (p q : A -> bool) l y, (forall x, In x l -> p x = true -> q x = true) -> In y l -> p y = false -> q y = true -> length (filter p l) < length (filter q l).
  Proof.
    induction l as [|a l IH]; intros y H I Ep Eq; [contradiction|]. cbn. destruct I as [->|I].
    - rewrite Ep, Eq. cbn. assert (length (filter p l) <= length (filter q l)); [|lia]. apply filter_imp_le. intros x J. apply H. right. exact J.
    - assert (X : length (filter p l) < length (filter q l)) by (apply (IH y); auto; intros x J; apply H; right; exact J).
      destruct (p a) eqn:E; [rewrite (H a (or_introl eq_refl) E); cbn; lia|destruct (q a); cbn; lia].
  Qed.
  Lemma undecided_part : forall g g' cs c nd p sts, part g' g -> In (ch_node c, nd) (g_nodes g) -> gn_kind nd = KdSwitch p sts -> ~ In (ch_node c) (map ch_node cs) ->
    undecided g' (c :: cs) < undecided g cs.
  Proof.
    intros g g' cs c nd p sts (pn & pe & E & _) I K N. unfold undecided. rewrite E.
    apply Nat.le_lt_trans with (length (filter (fun x => match gn_kind (snd x) with KdSwitch _ _ => negb (existsb (Nat.eqb (fst x)) (map ch_node (c :: cs))) | _ => false end) (g_nodes g))).
    - rewrite filter_filter. apply filter_imp_le. intros x _ X. apply andb_true_iff in X. apply X.
    - apply (filter_imp_lt _ _ _ (ch_node c, nd)); [|exact I|cbn; rewrite K, Nat.eqb_refl; reflexivity|].
      + intros x _. cbn. destruct (gn_kind (snd x)); try congruence. destruct (fst x =? ch_node c); cbn; [discriminate|auto].
      + cbn. rewrite K. apply negb_true_iff, mem_false. exact N.
  Qed.
  Lemma undecided_switches : forall g cs, undecided g cs <= switches g.
  Proof. intros g cs. apply filter_imp_le. intros x _. destruct (gn_kind (snd x)); congruence. Qed.
  Lemma unvisited_cons : forall g n ordered, In n (node_ids g) -> ~ In n ordered -> unvisited g (n :: ordered) < unvisited g ordered.
  Proof.
    intros g n ordered I N. unfold unvisited. apply (filter_imp_lt _ _ _ n); [|exact I|cbn; rewrite Nat.eqb_refl; reflexivity|apply negb_true_iff, mem_false; exact N].
    intros x _ X. apply negb_true_iff in X. cbn in X. apply orb_false_iff in X. apply negb_true_iff. apply X.
  Qed.
  Lemma unvisited_le : forall g ordered, unvisited g ordered <= length (g_nodes g).
  Proof. intros g ordered. unfold unvisited. pose proof (filter_len (fun n => negb (existsb (Nat.eqb n) ordered)) (node_ids g)) as L. unfold node_ids in L at 2. rewrite map_length in L. exact L. Qed.

  Lemma resolved_iff : forall g w n, resolved g w n = true <-> forall a, edge g a n -> In a (w_ordered w).
  Proof.
    intros g w n. unfold resolved. rewrite forallb_forall. split.
    - intros H a E. apply pred_edge in E. apply mem_iff. exact (H a E).
    - intros H a I. apply pred_edge in I. apply mem_iff. exact (H a I).
  Qed.
  Lemma unresolved_in : forall g w n a, In a (unresolved g w n) <-> edge g a n /\ ~ In a (w_ordered w).
  Proof. intros g w n a. unfold unresolved. rewrite filter_In, pred_edge, negb_true_iff. unfold visited. rewrite mem_false. reflexivity. Qed.
  Lemma edge_ids : forall g a b, wf_graph g -> edge g a b -> In a (node_ids g) /\ In b (node_ids g).
  Proof. intros g a b W (i & e & I & <- & <-). exact (proj2 (proj2 W) i e I). Qed.
  Lemma node_at_in : forall g n nd, node_at g n = Some nd -> In (n, nd) (g_nodes g).
  Proof.
    intros g n nd E. unfold node_at in E. destruct (find (fun x => fst x =? n) (g_nodes g)) as [[m x]|] eqn:F; [|discriminate]. cbn in E. injection E as ->.
    apply find_some in F. destruct F as [I X]. apply Nat.eqb_eq in X. cbn in X. subst. exact I.
  Qed.
  Lemma node_at_some : forall g n, In n (node_ids g) -> exists nd, node_at g n = Some nd.
  Proof.
    intros g n I. unfold node_at. destruct (find (fun x => fst x =? n) (g_nodes g)) as [x|] eqn:F; [eexists; reflexivity|]. exfalso. apply find_none_fst in F. exact (F I).
  Qed.
  Lemma inputs_ids : forall g, incl (inputs g) (node_ids g).
  Proof. intros g n I. unfold inputs in I. apply in_map_iff in I. destruct I as (x & <- & I). apply filter_In in I. apply in_map. apply I. Qed.
  Lemma prune_nil : forall g, prune g [] = g. Proof. reflexivity. Qed.

  Lemma dropped_in : forall g n valid i, In i (dropped g n valid) <-> exists e, In (i, e) (g_edges g) /\ ge_src e = n /\ ~ selects valid e.
  Proof.
    intros g n valid i. unfold dropped. rewrite in_map_iff.
    assert (K : forall e, (match ge_handle e with None => true | Some hd => negb (existsb (fun s => String.eqb (st_id s) hd) valid) end) = true <-> ~ selects valid e).
    { intros e. unfold selects. destruct (ge_handle e) as [hd|].
      - rewrite negb_true_iff. split.
        + intros X (s & I & E). injection E as E. assert (Y : existsb (fun s0 => String.eqb (st_id s0) hd) valid = true); [|congruence]. apply existsb_exists. exists s. split; [exact I|]. rewrite E. apply String.eqb_refl.
        + intros X. destruct (existsb (fun s => String.eqb (st_id s) hd) valid) eqn:Y; [|reflexivity]. exfalso. apply X. apply existsb_exists in Y. destruct Y as (s & I & E). apply String.eqb_eq in E. exists s. split; [exact I|congruence].
      - split; [intros _ (s & _ & E); discriminate|reflexivity]. }
    split.
    - intros ([j e] & Ej & I). cbn in Ej. subst j. apply filter_In in I. destruct I as [I X]. apply edges_directed_in in I. cbn in *. exists e. split; [apply I|]. split; [apply I|apply K; exact X].
    - intros (e & I & E & X). exists (i, e). split; [reflexivity|]. apply filter_In. split; [apply edges_directed_in; auto|apply K; exact X].
  Qed.
  Lemma settled_choice : forall g cs c, settled g0 (struck g0 cs) g ->
    settled g0 (struck g0 (c :: cs)) (prune g (dropped g (ch_node c) (ch_valid c))).
  Proof.
    intros g cs c S1. assert (S2 := settled_prune g0 _ g (dropped g (ch_node c) (ch_valid c)) S1).
    assert (Ug : forall i e e', In (i, e) (g_edges g0) -> In (i, e') (g_edges g0) -> e = e').
    { intros i e e' I J. assert (X : (i, e) = (i, e')) by (apply (NoDup_map_inj fst (g_edges g0)); [apply W0|exact I|exact J|reflexivity]). congruence. }
    revert S2. apply settled_ext.
    - intros i [(c' & e & I & X)|I]; [exists c', e; split; [right; exact I|exact X]|]. apply dropped_in in I. destruct I as (e & I & E & X).
      exists c, e. split; [left; reflexivity|]. split; [exact (part_edges _ _ _ (proj1 S1) I)|auto].
    - intros i e I (c' & e' & Ic & Ie & E & X). assert (S2 := settled_prune g0 _ g (dropped g (ch_node c) (ch_valid c)) S1). destruct S2 as (P1 & _ & _ & _ & _ & N & _).
      apply (N i e I). assert (e' = e) as -> by (apply (Ug i); [exact Ie|exact (part_edges _ _ _ P1 I)]).
      destruct Ic as [<-|Ic]; [|left; exists c', e; auto]. right. apply dropped_in. exists e. split; [|auto].
      unfold prune in I. destruct (fold_removal g0 _ (removal_all g0 (length (g_edges g))) (dropped g (ch_node c) (ch_valid c)) g (le_n _) (proj1 (proj2 S1)) (proj1 S1)) as ((Q & _) & _).
      exact (part_edges _ _ _ Q I).
  Qed.
  Lemma prune_part : forall g es D, settled g0 D g -> part (prune g es) g.
  Proof. intros g es D S1. unfold prune. destruct (fold_removal g0 _ (removal_all g0 (length (g_edges g))) es g (le_n _) (proj1 (proj2 S1)) (proj1 S1)) as ((Q & _) & _). exact Q. Qed.

  (** ** One call of [next] *)
  Definition dom w : list nat := map fst (w_data w).
  Definition found_ok g w g' w' (n : nat) : Prop :=
    sane g' (w_data w') (w_ordered w') (w_stack w') (w_switches w') /\ covered g' (w_ordered w') (w_stack w') /\
    In n (w_ordered w') /\ In n (node_ids g') /\ (forall a, edge g' a n -> In a (w_ordered w') /\ a <> n) /\ incl (w_ordered w') (n :: dom w) /\
    w_data w' = w_data w /\ mu g' w' < mu g w /\ w_iter w' + length (w_switches w) <= w_iter w + length (w_switches w') /\ part g' g /\
    incl (w_switches w) (w_switches w') /\ (forall nd p sts, In (n, nd) (g_nodes g') -> gn_kind nd = KdSwitch p sts -> In n (map ch_node (w_switches w'))).
  Definition ended_ok g w g' w' : Prop :=
    sane g' (w_data w') (w_ordered w') (w_stack w') (w_switches w') /\ covered g' (w_ordered w') (w_stack w') /\ w_stack w' = [] /\
    incl (w_ordered w') (dom w) /\ w_data w' = w_data w /\ w_iter w' + length (w_switches w) <= w_iter w + length (w_switches w') /\ part g' g /\
    incl (w_switches w) (w_switches w').
  Definition failed_ok g w g' w' : Prop :=
    settled g0 (struck g0 (w_switches w')) g' /\ w_data w' = w_data w /\ part g' g /\ incl (w_switches w) (w_switches w') /\
    NoDup (map ch_node (w_switches w')) /\ Forall (choice_ok (w_data w')) (w_switches w').
  Lemma next_loop_ok : forall fuel g w h g' w' h' r,
    sane g (w_data w) (w_ordered w) (w_stack w) (w_switches w) -> covered g (w_ordered w) (w_stack w) -> incl (w_ordered w) (dom w) ->
    next_loop fuel g w h = Some (g', w', h', r) ->
    match r with
    | Ok (Some n) => found_ok g w g' w' n
    | Ok None => ended_ok g w g' w'
    | Err _ => failed_ok g w g' w'
    end.
  Proof.
    induction fuel as [|fuel IH]; intros g w h g' w' h' r Sn Cv Io E; [discriminate|].
    cbn [Walker.next_loop] in E. destruct (w_stack w) as [|n rest] eqn:Est.
    { injection E as <- <- <- <-. unfold ended_ok. rewrite Est. do 5 (split; [auto|]). split; [lia|]. split; [apply part_refl|apply incl_refl]. }
    assert (Sn' := Sn). destruct Sn' as (S1 & Sst & Sor & Scl & Snd & Sch & Sco).
    destruct (visited {| w_iter := w_iter w; w_data := w_data w; w_ordered := w_ordered w; w_stack := rest; w_switches := w_switches w |} n) eqn:V.
    { apply IH in E; cbn [w_iter w_data w_ordered w_stack w_switches] in *.
      - exact E.
      - split; [exact S1|]. split; [intros x I; apply Sst; right; exact I|]. do 4 (split; [assumption|]). intros x [I|I]; apply Sco; [left; exact I|right; right; exact I].
      - unfold visited in V. cbn in V. apply mem_iff in V. destruct Cv as [C1 C2]. split.
        + intros x b I X. destruct (C1 x b I X) as [Y|[<-|Y]]; auto.
        + intros x I. destruct (C2 x I) as [Y|[<-|Y]]; auto.
      - exact Io. }
    unfold visited in V. cbn in V. apply mem_false in V.
    destruct (resolved g {| w_iter := w_iter w; w_data := w_data w; w_ordered := w_ordered w; w_stack := rest; w_switches := w_switches w |} n) eqn:R; cbn [negb] in E.
    2: { apply IH in E; cbn [w_iter w_data w_ordered w_stack w_switches] in *.
      - exact E.
      - split; [exact S1|]. split.
        { intros x I. apply in_app_or in I. destruct I as [I|I]; [|apply Sst; exact I].
          apply in_rev in I. apply unresolved_in in I. exact (proj1 (edge_ids g x n (proj1 (proj2 S1)) (proj1 I))). }
        do 4 (split; [assumption|]). intros x [I|I]; [apply Sco; left; exact I|]. apply in_app_or in I. destruct I as [I|I]; [|apply Sco; right; exact I].
        apply in_rev in I. apply unresolved_in in I. apply (co_pred g x n (proj1 I)). apply Sco. right. left. reflexivity.
      - destruct Cv as [C1 C2]. split.
        + intros x b I X. destruct (C1 x b I X) as [Y|Y]; [auto|]. right. apply in_or_app. auto.
        + intros x I. destruct (C2 x I) as [Y|Y]; [auto|]. right. apply in_or_app. auto.
      - exact Io. }
    pose proof (proj1 (resolved_iff g _ n) R) as Pr. cbn [w_ordered] in Pr. clear R.
    assert (In_n : In n (node_ids g)) by (apply Sst; left; reflexivity).
    destruct (node_at g n) as [nd|] eqn:Nd; [|destruct (node_at_some g n In_n); congruence].
    assert (Ind := node_at_in _ _ _ Nd).
    (* what holds when the node is returned *)
    assert (Found : forall g1 cs, g1 = g -> settled g0 (struck g0 cs) g -> NoDup (map ch_node cs) -> Forall (choice_ok (w_data w)) cs ->
      incl (w_switches w) cs -> undecided g cs <= undecided g (w_switches w) -> length (w_switches w) <= length cs -> (forall p sts, gn_kind nd = KdSwitch p sts -> In n (map ch_node cs)) ->
      found_ok g w g1 (Walker (w_iter w) (w_data w) (n :: w_ordered w) (rev (neighbors g1 n Outgoing) ++ rest) cs) n).
    { intros g1 cs -> Ss Nn Ff Ii Uu Ll Sd. unfold found_ok, sane, covered, mu, dom. cbn [w_iter w_data w_ordered w_stack w_switches].
      assert (Sc : forall b, edge g n b -> In b (rev (neighbors g n Outgoing))) by (intros b X; apply in_rev; rewrite rev_involutive; apply succ_edge; exact X).
      split; [split; [exact Ss|split; [|split; [|split; [|split; [assumption|split; [assumption|]]]]]]|split; [split|split; [left; reflexivity|split; [exact In_n|split; [|split; [|split; [reflexivity|split; [|split; [lia|split; [apply part_refl|split; [exact Ii|]]]]]]]]]]].
      - intros x I. apply in_app_or in I. destruct I as [I|I]; [|apply Sst; right; exact I]. apply in_rev in I. apply succ_edge in I. exact (proj2 (edge_ids g n x (proj1 (proj2 S1)) I)).
      - intros x [<-|I]; [exact In_n|apply Sor; exact I].
      - intros x a [<-|I] X; [right; exact (Pr a X)|right; exact (Scl x a I X)].
      - assert (Cn : connected g n) by (apply Sco; right; left; reflexivity). intros x [[<-|I]|I]; [exact Cn|apply Sco; left; exact I|].
        apply in_app_or in I. destruct I as [I|I]; [|apply Sco; right; right; exact I]. apply in_rev in I. apply succ_edge in I. exact (co_succ g n x I Cn).
      - intros x b [<-|I] X; [right; apply in_or_app; left; exact (Sc b X)|]. destruct (proj1 Cv x b I X) as [Y|[<-|Y]]; [left; right; exact Y|left; left; reflexivity|right; apply in_or_app; right; exact Y].
      - intros x I. destruct (proj2 Cv x I) as [Y|[<-|Y]]; [left; right; exact Y|left; left; reflexivity|right; apply in_or_app; right; exact Y].
      - intros a X. split; [right; exact (Pr a X)|]. intros ->. exact (V (Pr n X)).
      - intros x [<-|I]; [left; reflexivity|right; apply Io; exact I].
      - pose proof (unvisited_cons g n (w_ordered w) In_n V). nia.
      - intros nd' p sts I K. assert (X : (n, nd) = (n, nd')) by (apply (NoDup_map_inj fst (g_nodes g)); [apply S1|exact Ind|exact I|reflexivity]). injection X as <-. eauto. }
    assert (Plain : (forall p sts, gn_kind nd = KdSwitch p sts -> In n (map ch_node (w_switches w))) ->
      found_ok g w g (Walker (w_iter w) (w_data w) (n :: w_ordered w) (rev (neighbors g n Outgoing) ++ rest) (w_switches w)) n).
    { intros Sd. apply Found; auto using incl_refl. }
    destruct (gn_kind nd) as [| |p sts|t] eqn:Kd; try (injection E as <- <- <- <-; apply Plain; intros; congruence).
    cbn [w_iter w_data w_ordered w_stack w_switches] in E.
    destruct (existsb (Nat.eqb n) (map ch_node (w_switches w))) eqn:Sw; [injection E as <- <- <- <-; apply Plain; intros _ _ _; apply mem_iff; exact Sw|]. apply mem_false in Sw.
    destruct (incoming_data g {| w_iter := w_iter w; w_data := w_data w; w_ordered := n :: w_ordered w; w_stack := rest; w_switches := w_switches w |} n h) as [h1 [input|er]] eqn:In1.
    2: { injection E as <- <- <- <-. split; [exact S1|]. split; [reflexivity|]. split; [apply part_refl|]. split; [apply incl_refl|]. split; assumption. }
    destruct (nodes_context in_context (w_data w) h1) as [h2 ns] eqn:Ns.
    destruct (select sw_run p sts (sw_open input ns) h2) as [h3 valid] eqn:Se.
    set (c := Choice n g (w_data w) h input ns h2 valid) in *.
    assert (Cok : choice_ok (w_data w) c).
    { exists nd, p, sts, h1, h2, h3. split; [exact (part_nodes _ _ _ (proj1 S1) Ind)|]. split; [exact Kd|]. split; [exact In1|]. split; [exact Ns|]. split; [reflexivity|]. split; [exact Se|].
      split; [|apply incl_refl]. intros a X. apply Io. apply Pr. exact X. }
    assert (Sc := settled_choice g (w_switches w) c S1). assert (Pp := prune_part g (dropped g (ch_node c) (ch_valid c)) _ S1). cbn [ch_node ch_valid c] in Sc, Pp.
    assert (Nn : NoDup (map ch_node (c :: w_switches w))) by (constructor; [exact Sw|exact Snd]).
    assert (Ff : Forall (choice_ok (w_data w)) (c :: w_switches w)) by (constructor; assumption).
    destruct (dropped g n valid) as [|e es] eqn:Dr.
    - rewrite prune_nil in *. injection E as <- <- <- <-. apply Found; auto.
      + intros x I. right. exact I.
      + pose proof (undecided_part g g (w_switches w) c nd p sts (part_refl g) Ind Kd Sw). lia.
      + cbn. lia.
      + intros _ _ _. left. reflexivity.
    - set (g1 := prune g (e :: es)) in *.
      assert (Lt := undecided_part g g1 (w_switches w) c nd p sts Pp Ind Kd Sw).
      assert (Un : unvisited g1 [] <= length (g_nodes g0)).
      { pose proof (unvisited_le g1 []). pose proof (part_nodes_len _ _ Pp). pose proof (part_nodes_len _ _ (proj1 S1)). lia. }
      apply IH in E; cbn [reset w_iter w_data w_ordered w_stack w_switches] in *.
      + destruct r as [[m|]|er].
        * destruct E as (F1 & F2 & F3 & F4 & F5 & F6 & F7 & F8 & F9 & F10 & F11 & F12). unfold mu, dom in *. cbn [w_iter w_data w_ordered w_stack w_switches reset] in *.
          unfold found_ok, mu, dom. do 7 (split; [assumption|]). split; [nia|]. split; [cbn in F9; lia|]. split; [eapply part_trans; eauto|]. split; [intros x I; apply F11; right; exact I|exact F12].
        * destruct E as (F1 & F2 & F3 & F4 & F5 & F6 & F7 & F8). unfold dom in *. cbn [w_iter w_data w_ordered w_stack w_switches reset] in *.
          unfold ended_ok, dom. do 5 (split; [assumption|]). split; [cbn in F6; lia|]. split; [eapply part_trans; eauto|]. intros x I. apply F8. right. exact I.
        * destruct E as (F1 & F2 & F3 & F4 & F5 & F6). cbn [w_data w_switches reset] in *. split; [exact F1|]. split; [exact F2|]. split; [eapply part_trans; eauto|].
          split; [intros x I; apply F4; right; exact I|]. split; assumption.
      + split; [exact Sc|]. split; [intros x I; apply in_rev in I; exact (inputs_ids g1 x I)|]. split; [intros x []|]. split; [intros x a []|]. split; [assumption|]. split; [assumption|].
        intros x [[]|I]. apply co_input. apply in_rev in I. exact I.
      + split; [intros x b []|]. intros x I. right. apply in_rev. rewrite rev_involutive. exact I.
      + intros x [].
  Qed.

  (** ** [next] always returns *)
  Definition stuck_free (fuel : nat) g w h : Prop := next_loop fuel g w h <> None.
  Definition phase (N : nat) g (cs : list (choice T)) : nat := (2 * N + 1) * undecided g cs.
  Lemma chain_returns : forall N m fuel g w h d rest c, length (g_nodes g) <= N ->
    (forall g' w' h', length (g_nodes g') <= N -> sane g' (w_data w') (w_ordered w') (w_stack w') (w_switches w') -> covered g' (w_ordered w') (w_stack w') -> incl (w_ordered w') (dom w') ->
       undecided g' (w_switches w') < undecided g (w_switches w) -> forall f, length (w_stack w') + N + 1 + phase N g' (w_switches w') <= f -> stuck_free f g' w' h') ->
    sane g (w_data w) (w_ordered w) (w_stack w) (w_switches w) -> covered g (w_ordered w) (w_stack w) -> incl (w_ordered w) (dom w) ->
    w_stack w = d :: rest -> ~ In d (w_ordered w) -> NoDup c -> In d c -> incl c (node_ids g) -> (forall x, In x c -> x = d \/ reaches g d x) ->
    N - length c <= m -> m + 1 + phase N g (w_switches w) <= fuel -> stuck_free fuel g w h.
  Proof.
    intros N. induction m as [|m IH]; intros fuel g w h d rest c LN Hr Sn Cv Io Est V Nc Ic Lc Rc Lm Lf.
    all: destruct fuel as [|fuel]; [lia|]; unfold stuck_free; cbn [Walker.next_loop]; rewrite Est.
    all: unfold visited at 1; cbn [w_ordered]; rewrite (proj2 (mem_false d (w_ordered w)) V).
    all: assert (Sn' := Sn); destruct Sn' as (S1 & Sst & Sor & Scl & Snd & Sch & Sco).
    all: assert (In_n : In d (node_ids g)) by (apply Sst; rewrite Est; left; reflexivity).
    all: assert (Vis : resolved g {| w_iter := w_iter w; w_data := w_data w; w_ordered := w_ordered w; w_stack := rest; w_switches := w_switches w |} d = false ->
          exists d' c', (exists tl, rev (unresolved g {| w_iter := w_iter w; w_data := w_data w; w_ordered := w_ordered w; w_stack := rest; w_switches := w_switches w |} d) = d' :: tl) /\
            c' = d' :: c /\ ~ In d' (w_ordered w) /\ NoDup c' /\ incl c' (node_ids g) /\ forall x, In x c' -> x = d' \/ reaches g d' x).
    1,3: intros R; set (w0 := {| w_iter := w_iter w; w_data := w_data w; w_ordered := w_ordered w; w_stack := rest; w_switches := w_switches w |}) in *.
    1,2: assert (X : exists d', In d' (rev (unresolved g w0 d))).
    1,3: unfold resolved in R; assert (Y : exists d', In d' (unresolved g w0 d)).
    1,3: unfold unresolved; destruct (filter (fun d0 : nat => negb (visited w0 d0)) (neighbors g d Incoming)) as [|d' l] eqn:F; [|exists d'; left; reflexivity].
    1,2: exfalso; assert (Z : forallb (visited w0) (neighbors g d Incoming) = true); [|congruence].
    1,2: apply forallb_forall; intros x I; destruct (visited w0 x) eqn:Vx; [reflexivity|].
    1,2: assert (Q : In x (filter (fun d0 : nat => negb (visited w0 d0)) (neighbors g d Incoming))) by (apply filter_In; split; [exact I|rewrite Vx; reflexivity]); rewrite F in Q; destruct Q.
    1,2: destruct Y as (d' & Y); exists d'; apply in_rev; rewrite rev_involutive; exact Y.
    1,2: destruct X as (z & X); destruct (rev (unresolved g w0 d)) as [|d' tl] eqn:Er; [destruct X|]; exists d', (d' :: c); split; [exists tl; reflexivity|]; split; [reflexivity|].
    1,2: assert (Iu : In d' (unresolved g w0 d)) by (apply in_rev; rewrite Er; left; reflexivity); apply unresolved_in in Iu; destruct Iu as [Ed Vd]; split; [exact Vd|].
    1,2: assert (Rd : forall x, In x c -> reaches g d' x) by (intros x I; destruct (Rc x I) as [->|Rx]; [apply re_one; exact Ed|eapply re_step; eauto]).
    1,2: split; [constructor; [|exact Nc]; intros I; apply (part_acyclic _ _ (proj1 S1) NC0); exists d'; apply Rd; exact I|].
    1,2: split; [intros x [<-|I]; [exact (proj1 (edge_ids g d' d (proj1 (proj2 S1)) Ed))|apply Lc; exact I]|]; intros x [<-|I]; [auto|right; apply Rd; exact I].
    all: destruct (resolved g {| w_iter := w_iter w; w_data := w_data w; w_ordered := w_ordered w; w_stack := rest; w_switches := w_switches w |} d) eqn:R; cbn [negb].
    2: { exfalso. destruct (Vis eq_refl) as (d' & c' & _ & -> & _ & N' & L' & _). pose proof (NoDup_incl_length N' L') as Q. unfold node_ids in Q. rewrite map_length in Q. cbn in Q.
      lia. }
    3: { destruct (Vis eq_refl) as (d' & c' & (tl & Er) & Ec & Vd & N' & L' & R').
      rewrite Er. refine (IH fuel g (Walker _ _ _ _ _) h d' (tl ++ d :: rest) c' LN _ _ _ _ _ _ N' _ L' R' _ _); cbn [w_iter w_data w_ordered w_stack w_switches].
      - exact Hr.
      - split; [exact S1|]. split; [|do 4 (split; [assumption|]); intros x [I|I]; [apply Sco; left; exact I|]; rewrite <- Er in I; apply in_app_or in I; destruct I as [I|I]; [|apply Sco; right; rewrite Est; exact I];
          apply in_rev in I; apply unresolved_in in I; apply (co_pred g x d (proj1 I)); apply Sco; right; rewrite Est; left; reflexivity]. intros x I. rewrite <- Er in I. apply in_app_or in I. destruct I as [I|I]; [|apply Sst; rewrite Est; exact I].
        apply in_rev in I. apply unresolved_in in I. exact (proj1 (edge_ids g x d (proj1 (proj2 S1)) (proj1 I))).
      - rewrite Est in Cv. destruct Cv as [C1 C2]. split.
        + intros x b I X. destruct (C1 x b I X) as [Y|Y]; [auto|]. right. right. apply in_or_app. auto.
        + intros x I. destruct (C2 x I) as [Y|Y]; [auto|]. right. right. apply in_or_app. auto.
      - exact Io.
      - reflexivity.
      - exact Vd.
      - rewrite Ec. left. reflexivity.
      - rewrite Ec. cbn. lia.
      - lia. }
    all: destruct (node_at g d) as [nd|] eqn:Nd; [|discriminate]; assert (Ind := node_at_in _ _ _ Nd).
    all: destruct (gn_kind nd) as [| |p sts|t] eqn:Kd; try discriminate; cbn [w_iter w_data w_ordered w_stack w_switches].
    all: destruct (existsb (Nat.eqb d) (map ch_node (w_switches w))) eqn:Sw; [discriminate|]; assert (Sw' := proj1 (mem_false _ _) Sw).
    all: destruct (incoming_data g {| w_iter := w_iter w; w_data := w_data w; w_ordered := d :: w_ordered w; w_stack := rest; w_switches := w_switches w |} d h) as [h1 [input|er]] eqn:In1; [|discriminate].
    all: destruct (nodes_context in_context (w_data w) h1) as [h2 ns] eqn:Ns; destruct (select sw_run p sts (sw_open input ns) h2) as [h3 valid] eqn:Se.
    all: assert (Sc := settled_choice g (w_switches w) (Choice d g (w_data w) h input ns h2 valid) S1); assert (Pp := prune_part g (dropped g d valid) _ S1); cbn [ch_node ch_valid] in Sc, Pp.
    all: destruct (dropped g d valid) as [|e es] eqn:Dr; [discriminate|].
    all: set (c1 := Choice d g (w_data w) h input ns h2 valid) in *; set (g1 := prune g (e :: es)) in *.
    all: assert (Lt := undecided_part g g1 (w_switches w) c1 nd p sts Pp Ind Kd Sw').
    all: apply Hr; cbn [reset w_iter w_data w_ordered w_stack w_switches].
    all: try (split; [intros x b []|]; intros x I; right; apply in_rev; rewrite rev_involutive; exact I).
    all: try (intros x []; fail).
    all: try exact Lt.
    all: try (pose proof (part_nodes_len _ _ Pp); lia).
    all: try (rewrite rev_length; unfold input_ids; rewrite map_length; pose proof (filter_len (fun x : nat * gnode T => is_input (snd x)) (g_nodes g1)) as L1;
              pose proof (part_nodes_len _ _ Pp) as L2; unfold phase in *; nia).
    all: split; [exact Sc|]; split; [intros x I; apply in_rev in I; exact (inputs_ids g1 x I)|]; split; [intros x []|]; split; [intros x a []|]; split; [constructor; assumption|]; split; [|intros x [[]|I]; apply co_input; apply in_rev in I; exact I].
    all: constructor; [|exact Sch]; exists nd, p, sts, h1, h2, h3; split; [exact (part_nodes _ _ _ (proj1 S1) Ind)|]; split; [exact Kd|]; split; [exact In1|]; split; [exact Ns|]; split; [reflexivity|]; split; [exact Se|].
    all: split; [|apply incl_refl]; intros a X; apply Io; exact (proj1 (resolved_iff g _ d) R a X).
  Qed.
  Lemma next_returns : forall N u g w h fuel, length (g_nodes g) <= N -> undecided g (w_switches w) <= u ->
    sane g (w_data w) (w_ordered w) (w_stack w) (w_switches w) -> covered g (w_ordered w) (w_stack w) -> incl (w_ordered w) (dom w) ->
    length (w_stack w) + N + 1 + phase N g (w_switches w) <= fuel -> stuck_free fuel g w h.
  Proof.
    intros N. induction u as [u IHu] using lt_wf_ind. intros g w h fuel LN Lu. revert h w Lu.
    induction fuel as [|fuel IH]; intros h w Lu Sn Cv Io Lf; [lia|].
    destruct (w_stack w) as [|d rest] eqn:Est.
    - unfold stuck_free. cbn [Walker.next_loop]. rewrite Est. discriminate.
    - assert (Sn' := Sn). destruct Sn' as (S1 & Sst & Sor & Scl & Snd & Sch & Sco). destruct (existsb (Nat.eqb d) (w_ordered w)) eqn:V.
      + unfold stuck_free. cbn [Walker.next_loop]. rewrite Est. unfold visited at 1. cbn [w_ordered]. rewrite V. apply mem_iff in V.
        apply IH; cbn [w_iter w_data w_ordered w_stack w_switches].
        * exact Lu.
        * split; [exact S1|]. split; [intros x I; apply Sst; right; exact I|]. do 4 (split; [assumption|]). intros x [I|I]; apply Sco; [left; exact I|right; right; exact I].
        * destruct Cv as [C1 C2]. split.
          -- intros x b I X. destruct (C1 x b I X) as [Y|[<-|Y]]; auto.
          -- intros x I. destruct (C2 x I) as [Y|[<-|Y]]; auto.
        * exact Io.
        * cbn [length] in Lf. lia.
      + apply mem_false in V. assert (In_n : In d (node_ids g)) by (apply Sst; left; reflexivity).
        apply (chain_returns N N (S fuel) g w h d rest [d] LN).
        * intros g' w' h' A0 A1 A2 A3 A4 f A5. apply (IHu (undecided g' (w_switches w'))); [lia|exact A0|lia|exact A1|exact A2|exact A3|exact A5].
        * rewrite Est. exact Sn.
        * rewrite Est. exact Cv.
        * exact Io.
        * exact Est.
        * exact V.
        * constructor; [intros []|constructor].
        * left. reflexivity.
        * intros x [<-|[]]. exact In_n.
        * intros x [<-|[]]. auto.
        * lia.
        * cbn [length] in Lf. lia.
  Qed.
  Lemma next_some : forall g w h, sane g (w_data w) (w_ordered w) (w_stack w) (w_switches w) -> covered g (w_ordered w) (w_stack w) -> incl (w_ordered w) (dom w) ->
    exists x, next g w h = Some x.
  Proof.
    intros g w h A B C. unfold Walker.next. destruct (iter_max <=? w_iter w); [eexists; reflexivity|].
    assert (L : length (w_stack w) + length (g_nodes g) + 1 + phase (length (g_nodes g)) g (w_switches w) <= next_fuel g w).
    { unfold next_fuel, phase. pose proof (undecided_switches g (w_switches w)). nia. }
    pose proof (next_returns _ _ g w h _ (le_n _) (le_n _) A B C L) as X. unfold stuck_free in X.
    destruct (Walker.next_loop sw_open sw_run in_context (next_fuel g w) g w h); [eexists; reflexivity|congruence].
  Qed.

  (** ** The evaluation loop *)
  Variable ctx : value.
  (** An entry of the walker's data and the execution that made it. *)
  Definition mirror (x : nat * ndata) (e : event T) : Prop :=
    fst x = ev_node e /\ ev_out e = Ok (nd_data (snd x)) /\
    exists nd, In (fst x, nd) (g_nodes g0) /\ nd_name (snd x) = gn_name nd /\ (gn_kind nd <> KdInput \/ parent_nodes = None -> nd_view (snd x) = None).
  Definition run_ok (cs : list (choice T)) (pre : list (event T)) (ev : event T) : Prop :=
    exists cs0 data outs nd merged h1,
      incl cs0 cs /\ pruned_to g0 (struck g0 cs0) (ev_graph ev) /\ In (ev_node ev, nd) (g_nodes g0) /\
      In (ev_node ev) (node_ids (ev_graph ev)) /\ connected (ev_graph ev) (ev_node ev) /\ ~ In (ev_node ev) (map ev_node pre) /\
      Forall2 mirror data pre /\
      Forall2 (ran pre) (neighbors (ev_graph ev) (ev_node ev) Incoming) outs /\
      merge_values outs (ev_start ev) = (h1, Ok merged) /\ ev_input ev = given ctx nd merged /\
      nodes_context in_context data h1 = (ev_heap ev, ev_nodes ev) /\
      ev_out ev = snd (execute handle nd (ev_input ev) (ev_nodes ev) (ev_heap ev)) /\
      (forall p sts, gn_kind nd = KdSwitch p sts -> In (ev_node ev) (map ch_node cs0)).
  Inductive good_log (cs : list (choice T)) : list (event T) -> Prop :=
  | gl_nil : good_log cs []
  | gl_snoc l ev : good_log cs l -> run_ok cs l ev -> (forall e, In e l -> exists v, ev_out e = Ok v) ->
      (forall e nd, In e l -> In (ev_node e, nd) (g_nodes g0) -> gn_kind nd <> KdOutput) -> good_log cs (l ++ [ev]).
  Lemma good_log_mono : forall cs cs' l, incl cs cs' -> good_log cs l -> good_log cs' l.
  Proof.
    intros cs cs' l I G. induction G as [|l ev G IH R A B]; [constructor|]. constructor; [exact IH| |exact A|exact B].
    destruct R as (cs0 & x & X). exists cs0, x. destruct X as (outs & nd & m & h1 & X0 & X). exists outs, nd, m, h1. split; [eapply incl_tran; eauto|exact X].
  Qed.
  Definition mirrors (data : list (nat * ndata)) (log : list (event T)) : Prop :=
    Forall2 mirror data log.
  Lemma mirrors_dom : forall data log, mirrors data log -> map fst data = map ev_node log.
  Proof. intros data log M. induction M as [|x e data log [E _] M IH]; cbn; congruence. Qed.
  Lemma mirrors_ok : forall data log e, mirrors data log -> In e log -> exists v, ev_out e = Ok v.
  Proof. intros data log e M I. induction M as [|x y data log (E & X & _) M IH]; [contradiction|]. destruct I as [<-|I]; eauto. Qed.
  Lemma lookup_ran : forall data log n, mirrors data log -> In n (map fst data) -> exists d, lookup data n = Some d /\ ran log n (nd_data d).
  Proof.
    intros data log n M I. induction M as [|[m d] e data log (E & X & _) M IH]; [contradiction|]. unfold lookup. cbn. cbn in E, X. destruct (Nat.eqb_spec m n) as [->|NE].
    - exists d. split; [reflexivity|]. exists e. split; [left; reflexivity|]. auto.
    - destruct I as [E'|I]; [cbn in E'; congruence|]. destruct (IH I) as (d' & L & e' & I' & X'). exists d'. split; [exact L|]. exists e'. split; [right; exact I'|exact X'].
  Qed.
  Lemma lookup_none : forall data n, lookup data n = None <-> ~ In n (map fst data).
  Proof. intros data n. unfold lookup. rewrite <- find_none_fst. destruct (find _ data); cbn; split; congruence. Qed.
  Lemma outs_ran : forall data log ns, mirrors data log -> incl ns (map fst data) -> Forall2 (ran log) ns (map nd_data (somes (lookup data) ns)).
  Proof.
    intros data log ns M. induction ns as [|n ns IH]; intros I; [constructor|]. destruct (lookup_ran data log n M (I n (or_introl eq_refl))) as (d & L & R).
    unfold somes in *. cbn [flat_map]. rewrite L. cbn. constructor; [exact R|]. apply IH. intros x X. apply I. right. exact X.
  Qed.

  Definition loop_inv g w (log : list (event T)) : Prop :=
    sane g (w_data w) (w_ordered w) (w_stack w) (w_switches w) /\ covered g (w_ordered w) (w_stack w) /\ incl (w_ordered w) (dom w) /\
    mirrors (w_data w) log /\ NoDup (map ev_node log) /\ good_log (w_switches w) log /\ w_iter w <= length (w_switches w) /\
    (forall e nd, In e log -> In (ev_node e, nd) (g_nodes g0) -> gn_kind nd <> KdOutput).
  (** How an evaluation ends. *)
  Definition finished (o : outcome T) : Prop :=
    (exists l ev e, o_log o = l ++ [ev] /\ ev_out ev = Err e /\ o_res o = Err e) \/
    ((forall e, In e (o_log o) -> exists v, ev_out e = Ok v) /\
     ((exists h1 data ns e, snd (merge_data data ns h1) = Err e /\ o_res o = Err e) \/
      (exists h1, ending_data (o_graph o) (o_walker o) h1 = (o_heap o, o_res o)) /\
      w_iter (o_walker o) <= length (w_switches (o_walker o)) /\ incl (w_ordered (o_walker o)) (dom (o_walker o)) /\
      ((exists l ev nd, o_log o = l ++ [ev] /\ In (ev_node ev, nd) (g_nodes g0) /\ gn_kind nd = KdOutput) \/
       iter_max <= w_iter (o_walker o) \/
       (forall n, connected (o_graph o) n <-> In n (w_ordered (o_walker o)))))).
  Definition outcome_ok (o : outcome T) : Prop :=
    good_log (w_switches (o_walker o)) (o_log o) /\ NoDup (map ev_node (o_log o)) /\ pruned_to g0 (struck g0 (w_switches (o_walker o))) (o_graph o) /\
    NoDup (map ch_node (w_switches (o_walker o))) /\ Forall (choice_ok (w_data (o_walker o))) (w_switches (o_walker o)) /\
    (exists l l', o_log o = l ++ l' /\ mirrors (w_data (o_walker o)) l /\ (forall e, In e l' -> exists er, ev_out e = Err er)) /\
    finished o.

  Lemma next_ok : forall g w h g' w' h' r,
    sane g (w_data w) (w_ordered w) (w_stack w) (w_switches w) -> covered g (w_ordered w) (w_stack w) -> incl (w_ordered w) (dom w) ->
    next g w h = Some (g', w', h', r) ->
    match r with
    | Ok (Some n) => found_ok g w g' w' n
    | Ok None => (g' = g /\ w' = w /\ iter_max <= w_iter w) \/ ended_ok g w g' w'
    | Err _ => failed_ok g w g' w'
    end.
  Proof.
    intros g w h g' w' h' r A B C E. unfold Walker.next in E. destruct (iter_max <=? w_iter w) eqn:L.
    - injection E as <- <- <- <-. left. apply Nat.leb_le in L. auto.
    - pose proof (next_loop_ok _ _ _ _ _ _ _ _ A B C E) as X. destruct r as [[n|]|]; auto.
  Qed.
  Lemma next_error : forall fuel g w h g' w' h' e, next_loop fuel g w h = Some (g', w', h', Err e) ->
    exists h1 data ns, snd (merge_data data ns h1) = Err e.
  Proof.
    induction fuel as [|fuel IH]; intros g w h g' w' h' e E; [discriminate|]. cbn [Walker.next_loop] in E.
    destruct (w_stack w) as [|n rest]; [discriminate|].
    destruct (visited _ n); [eapply IH; eauto|]. destruct (negb _); [eapply IH; eauto|]. destruct (node_at g n) as [nd|]; [|discriminate].
    destruct (gn_kind nd); try discriminate. destruct (existsb _ _); [discriminate|].
    destruct (incoming_data g _ n h) as [h1 [input|er]] eqn:Ei.
    - destruct (nodes_context _ _ h1) as [h2 ns]. destruct (select _ _ _ _ h2) as [h3 valid]. destruct (dropped g n valid); [discriminate|]. eapply IH; eauto.
    - injection E as _ _ _ <-. unfold incoming_data in Ei. do 3 eexists. rewrite Ei. reflexivity.
  Qed.
  Lemma set_data_fresh : forall w n d, lookup (w_data w) n = None -> w_data (set_data w n d) = w_data w ++ [(n, d)].
  Proof.
    intros w n d L. apply lookup_none in L. unfold set_data. cbn [w_data]. f_equal. apply filter_true. intros x I. apply negb_true_iff, Nat.eqb_neq. intros E. apply L. rewrite <- E. apply in_map. exact I.
  Qed.
  Lemma choice_ok_mono : forall data data' c, incl data data' -> choice_ok data c -> choice_ok data' c.
  Proof.
    intros data data' c I (nd & p & sts & h1 & h2 & h3 & A & B & C & D & E & F & G & H). exists nd, p, sts, h1, h2, h3. do 7 (split; [assumption|]). eapply incl_tran; eauto.
  Qed.
  Notation eval_loop := (eval_loop sw_open sw_run handle in_context parent_nodes).
  Lemma eval_loop_ok : forall fuel g w h log o, loop_inv g w log -> eval_loop fuel ctx g w h log = Some o -> outcome_ok o.
  Proof.
    induction fuel as [|fuel IH]; intros g w h log o (Sn & Cv & Io & Mi & Nd & Gl & It & No) E; [discriminate|]. cbn [Walker.eval_loop] in E.
    destruct (next g w h) as [[[[g1 w1] h1] [[n|]|e]]|] eqn:Nx; [| | |discriminate].
    - pose proof (next_ok _ _ _ _ _ _ _ Sn Cv Io Nx) as (F1 & F2 & F3 & F4 & F5 & F6 & F7 & F8 & F9 & F10 & F11 & F12). clear Nx.
      assert (It1 : w_iter w1 <= length (w_switches w1)) by lia.
      assert (Gl1 : good_log (w_switches w1) log) by (eapply good_log_mono; eauto).
      unfold data_of in E. destruct (lookup (w_data w1) n) as [d|] eqn:Lk.
      + apply (IH g1 w1 h1 log o); [|exact E]. split; [exact F1|]. split; [exact F2|]. split; [|split; [rewrite F7; exact Mi|auto]].
        unfold dom in *. rewrite F7 in *. intros x I. destruct (F6 x I) as [<-|I1]; [|exact I1]. destruct (in_dec Nat.eq_dec n (map fst (w_data w))) as [I1|N1]; [exact I1|]. apply lookup_none in N1. congruence.
      + assert (Nn : ~ In n (map ev_node log)) by (rewrite <- (mirrors_dom _ _ Mi), <- F7; apply lookup_none; exact Lk).
        destruct (node_at_some g1 n F4) as (nd & Na). rewrite Na in E. assert (Ind := node_at_in _ _ _ Na).
        assert (S1 := proj1 F1). assert (Ind0 : In (n, nd) (g_nodes g0)) by exact (part_nodes _ _ _ (proj1 S1) Ind).
        destruct (incoming_data g1 w1 n h1) as [h2 [input|er]] eqn:Ei.
        2: { injection E as <-. unfold outcome_ok. cbn [o_log o_walker o_graph o_res o_heap]. split; [exact Gl1|]. split; [exact Nd|]. split; [exact (settled_left g0 _ _ W0 NC0 S1)|].
          split; [apply F1|]. split; [apply F1|]. split; [exists log, []; rewrite app_nil_r; split; [reflexivity|]; split; [rewrite F7; exact Mi|intros e []]|].
          right. cbn [o_log o_walker o_graph o_res o_heap]. split; [intros e I; exact (mirrors_ok _ _ _ Mi I)|]. left. exists h1, (w_data w1), (neighbors g1 n Incoming), er. unfold incoming_data in Ei. rewrite Ei. auto. }
        destruct (nodes_context in_context (w_data w1) h2) as [h3 ns] eqn:En.
        destruct (execute handle nd (given ctx nd input) ns h3) as [h4 r] eqn:Ex.
        set (ev := Event n g1 h1 h3 (given ctx nd input) ns r) in *.
        assert (Run : run_ok (w_switches w1) log ev).
        { exists (w_switches w1), (w_data w), (map nd_data (somes (lookup (w_data w)) (neighbors g1 n Incoming))), nd, input, h2. cbn [ev ev_graph ev_node ev_start ev_input ev_heap ev_nodes ev_out].
          split; [apply incl_refl|]. split; [exact (settled_left g0 _ _ W0 NC0 S1)|]. split; [exact Ind0|]. split; [exact F4|].
          split; [apply F1; left; exact F3|]. split; [exact Nn|]. split; [exact Mi|]. split; [|split; [|split; [reflexivity|split; [rewrite <- F7; exact En|split; [rewrite Ex; reflexivity|intros p sts; apply F12; exact Ind]]]]].
          - apply outs_ran; [exact Mi|]. intros a I. apply pred_edge in I. destruct (F5 a I) as [Io1 Ne]. destruct (F6 a Io1) as [X|X]; [congruence|exact X].
          - unfold incoming_data, merge_data in Ei. rewrite F7 in Ei. exact Ei. }
        assert (Gl2 : good_log (w_switches w1) (log ++ [ev])).
        { constructor; [exact Gl1|exact Run|intros e I; exact (mirrors_ok _ _ _ Mi I)|exact No]. }
        assert (Nd2 : NoDup (map ev_node (log ++ [ev]))).
        { rewrite map_app. cbn. apply NoDup_Add with (a := n) (l := map ev_node log); [|split; assumption]. rewrite <- (app_nil_r (map ev_node log)) at 1. apply Add_app. }
        destruct r as [out|er].
        2: { injection E as <-. unfold outcome_ok. cbn [o_log o_walker o_graph o_res o_heap]. split; [exact Gl2|]. split; [exact Nd2|]. split; [exact (settled_left g0 _ _ W0 NC0 S1)|].
          split; [apply F1|]. split; [apply F1|]. split; [exists log, [ev]; split; [reflexivity|]; split; [rewrite F7; exact Mi|intros e [<-|[]]; exists er; reflexivity]|].
          left. exists log, ev, er. auto. }
        destruct (view_of parent_nodes nd out h4) as [h5 view] eqn:Ev.
        set (d := ND (gn_name nd) out view) in *. assert (Ed := set_data_fresh w1 n d Lk).
        assert (Mi2 : mirrors (w_data (set_data w1 n d)) (log ++ [ev])).
        { rewrite Ed, F7. apply Forall2_app; [exact Mi|]. constructor; [|constructor]. split; [reflexivity|]. split; [reflexivity|]. exists nd. split; [exact Ind0|]. split; [reflexivity|].
          cbn. unfold view_of in Ev. intros [Kn|Pn]; [destruct (gn_kind nd); congruence|rewrite Pn in Ev; destruct (gn_kind nd); congruence]. }
        assert (Ch2 : Forall (choice_ok (w_data (set_data w1 n d))) (w_switches w1)).
        { destruct F1 as (_ & _ & _ & _ & _ & Fc & _). eapply Forall_impl; [|exact Fc]. intros c X. eapply choice_ok_mono; [|exact X]. rewrite Ed. apply incl_appl, incl_refl. }
        assert (Io2 : incl (w_ordered w1) (map fst (w_data (set_data w1 n d)))).
        { rewrite Ed, map_app, F7. intros x I. apply in_or_app. destruct (F6 x I) as [<-|I1]; [right; left; reflexivity|left; exact I1]. }
        destruct (gn_kind nd) eqn:Kd.
        all: try (apply (IH g1 (set_data w1 n d) h5 (log ++ [ev]) o); [|exact E]; split; [destruct F1 as (G1 & G2 & G3 & G4 & G5 & G6 & G7); do 5 (split; [assumption|]); split; assumption|];
                  split; [exact F2|]; split; [exact Io2|]; split; [exact Mi2|]; split; [exact Nd2|]; split; [exact Gl2|]; split; [exact It1|];
                  intros e nd' I In'; apply in_app_or in I; destruct I as [I|[<-|[]]]; [exact (No e nd' I In')|]; cbn in In';
                  assert (X : (n, nd) = (n, nd')) by (apply (NoDup_map_inj fst (g_nodes g0)); [apply W0|exact Ind0|exact In'|reflexivity]); congruence).
        destruct (ending_data g1 (set_data w1 n d) h5) as [h6 r6] eqn:Ed6. injection E as <-. unfold outcome_ok. cbn [o_log o_walker o_graph o_res o_heap].
        split; [exact Gl2|]. split; [exact Nd2|]. split; [exact (settled_left g0 _ _ W0 NC0 S1)|]. split; [apply F1|]. split; [exact Ch2|].
        split; [exists (log ++ [ev]), []; rewrite app_nil_r; split; [reflexivity|]; split; [exact Mi2|intros e []]|].
        right. cbn [o_log o_walker o_graph o_res o_heap]. split; [intros e I; exact (mirrors_ok _ _ _ Mi2 I)|]. right. split; [exists h5; exact Ed6|]. split; [exact It1|]. split; [exact Io2|].
        left. exists log, ev, nd. auto.
    - pose proof (next_ok _ _ _ _ _ _ _ Sn Cv Io Nx) as X. clear Nx. destruct (ending_data g1 w1 h1) as [h2 r] eqn:Ed. injection E as <-. unfold outcome_ok. cbn [o_log o_walker o_graph o_res o_heap].
      destruct X as [(-> & -> & Lim)|(F1 & F2 & F3 & F4 & F5 & F6 & F7 & F8)].
      + split; [exact Gl|]. split; [exact Nd|]. split; [exact (settled_left g0 _ _ W0 NC0 (proj1 Sn))|]. split; [apply Sn|]. split; [apply Sn|].
        split; [exists log, []; rewrite app_nil_r; split; [reflexivity|]; split; [exact Mi|intros e []]|].
        right. cbn [o_log o_walker o_graph o_res o_heap]. split; [intros e I; exact (mirrors_ok _ _ _ Mi I)|]. right. split; [exists h1; exact Ed|]. split; [exact It|]. split; [exact Io|]. auto.
      + split; [eapply good_log_mono; eauto|]. split; [exact Nd|]. split; [exact (settled_left g0 _ _ W0 NC0 (proj1 F1))|]. split; [apply F1|]. split; [apply F1|].
        split; [exists log, []; rewrite app_nil_r; split; [reflexivity|]; split; [rewrite F5; exact Mi|intros e []]|].
        right. cbn [o_log o_walker o_graph o_res o_heap]. split; [intros e I; exact (mirrors_ok _ _ _ Mi I)|]. right. split; [exists h1; exact Ed|]. split; [lia|]. split; [unfold dom in *; rewrite F5; exact F4|].
        right. right. intros m. destruct F1 as (G1 & G2 & G3 & G4 & G5 & G6 & G7). rewrite F3 in *. split.
        * intros C. induction C as [m I|a b Eab C IHc|a b Eab C IHc].
          -- destruct (proj2 F2 m I) as [X|[]]; exact X.
          -- destruct (proj1 F2 a b IHc Eab) as [X|[]]; exact X.
          -- exact (G4 b a IHc Eab).
        * intros I. apply G7. left. exact I.
    - pose proof (next_ok _ _ _ _ _ _ _ Sn Cv Io Nx) as (F1 & F2 & F3 & F4 & F5 & F6). injection E as <-. unfold outcome_ok. cbn [o_log o_walker o_graph o_res o_heap].
      split; [eapply good_log_mono; eauto|]. split; [exact Nd|]. split; [exact (settled_left g0 _ _ W0 NC0 F1)|]. split; [exact F5|]. split; [exact F6|].
      split; [exists log, []; rewrite app_nil_r; split; [reflexivity|]; split; [rewrite F2; exact Mi|intros x []]|].
      right. cbn [o_log o_walker o_graph o_res o_heap]. split; [intros x I; exact (mirrors_ok _ _ _ Mi I)|]. left. unfold Walker.next in Nx. destruct (iter_max <=? w_iter w); [discriminate|].
      apply next_error in Nx. destruct Nx as (h2 & data & ns & X). exists h2, data, ns, e. auto.
  Qed.
  Lemma eval_loop_some : forall fuel g w h log, loop_inv g w log -> mu g w < fuel -> exists o, eval_loop fuel ctx g w h log = Some o.
  Proof.
    induction fuel as [|fuel IH]; intros g w h log (Sn & Cv & Io & Mi & Nd & Gl & It & No) L; [lia|]. cbn [Walker.eval_loop].
    destruct (next_some g w h Sn Cv Io) as ([[[g1 w1] h1] [[n|]|e]] & Nx); rewrite Nx; [| |eexists; reflexivity].
    2: { destruct (ending_data g1 w1 h1). eexists. reflexivity. }
    pose proof (next_ok _ _ _ _ _ _ _ Sn Cv Io Nx) as (F1 & F2 & F3 & F4 & F5 & F6 & F7 & F8 & F9 & F10 & F11 & F12). clear Nx.
    assert (It1 : w_iter w1 <= length (w_switches w1)) by lia.
    assert (Gl1 : good_log (w_switches w1) log) by (eapply good_log_mono; eauto).
    unfold data_of. destruct (lookup (w_data w1) n) as [d|] eqn:Lk.
    - apply IH; [|lia]. split; [exact F1|]. split; [exact F2|]. split; [|split; [rewrite F7; exact Mi|auto]].
      unfold dom in *. rewrite F7 in *. intros x I. destruct (F6 x I) as [<-|I1]; [|exact I1]. destruct (in_dec Nat.eq_dec n (map fst (w_data w))) as [I1|N1]; [exact I1|]. apply lookup_none in N1. congruence.
    - assert (Nn : ~ In n (map ev_node log)) by (rewrite <- (mirrors_dom _ _ Mi), <- F7; apply lookup_none; exact Lk).
      destruct (node_at_some g1 n F4) as (nd & Na). rewrite Na. assert (Ind := node_at_in _ _ _ Na).
      assert (S1 := proj1 F1). assert (Ind0 : In (n, nd) (g_nodes g0)) by exact (part_nodes _ _ _ (proj1 S1) Ind).
      destruct (incoming_data g1 w1 n h1) as [h2 [input|er]] eqn:Ei; [|eexists; reflexivity].
      destruct (nodes_context in_context (w_data w1) h2) as [h3 ns] eqn:En.
      destruct (execute handle nd (given ctx nd input) ns h3) as [h4 r] eqn:Ex.
      set (ev := Event n g1 h1 h3 (given ctx nd input) ns r) in *.
      assert (Run : run_ok (w_switches w1) log ev).
      { exists (w_switches w1), (w_data w), (map nd_data (somes (lookup (w_data w)) (neighbors g1 n Incoming))), nd, input, h2. cbn [ev ev_graph ev_node ev_start ev_input ev_heap ev_nodes ev_out].
        split; [apply incl_refl|]. split; [exact (settled_left g0 _ _ W0 NC0 S1)|]. split; [exact Ind0|]. split; [exact F4|].
        split; [apply F1; left; exact F3|]. split; [exact Nn|]. split; [exact Mi|]. split; [|split; [|split; [reflexivity|split; [rewrite <- F7; exact En|split; [rewrite Ex; reflexivity|intros p sts; apply F12; exact Ind]]]]].
        - apply outs_ran; [exact Mi|]. intros a I. apply pred_edge in I. destruct (F5 a I) as [Io1 Ne]. destruct (F6 a Io1) as [X|X]; [congruence|exact X].
        - unfold incoming_data, merge_data in Ei. rewrite F7 in Ei. exact Ei. }
      destruct r as [out|er]; [|eexists; reflexivity].
      destruct (view_of parent_nodes nd out h4) as [h5 view] eqn:Ev.
      assert (Mi2 : mirrors (w_data (set_data w1 n (ND (gn_name nd) out view))) (log ++ [ev])).
      { rewrite (set_data_fresh w1 n _ Lk), F7. apply Forall2_app; [exact Mi|]. constructor; [|constructor]. split; [reflexivity|]. split; [reflexivity|]. exists nd. split; [exact Ind0|]. split; [reflexivity|].
        cbn. unfold view_of in Ev. intros [Kn|Pn]; [destruct (gn_kind nd); congruence|rewrite Pn in Ev; destruct (gn_kind nd); congruence]. }
      destruct (gn_kind nd) eqn:Kd.
      2: { destruct (ending_data g1 _ h5). eexists. reflexivity. }
      all: apply IH; [|unfold mu in *; cbn [set_data w_switches w_ordered]; lia].
      all: set (d := ND (gn_name nd) out view) in *; assert (Ed := set_data_fresh w1 n d Lk); destruct F1 as (G1 & G2 & G3 & G4 & G5 & G6 & G7).
      all: split; [do 5 (split; [assumption|]); split; [|assumption]|split; [exact F2|split; [|split; [|split; [|split; [|split; [exact It1|]]]]]]].
      all: try (eapply Forall_impl; [|exact G6]; intros c X; eapply choice_ok_mono; [|exact X]; rewrite Ed; apply incl_appl, incl_refl).
      all: try (unfold dom; rewrite Ed, map_app, F7; intros x I; apply in_or_app; destruct (F6 x I) as [<-|I1]; [right; left; reflexivity|left; exact I1]).
      all: try exact Mi2.
      all: try (rewrite map_app; cbn; apply NoDup_Add with (a := n) (l := map ev_node log); [|split; assumption]; rewrite <- (app_nil_r (map ev_node log)) at 1; apply Add_app).
      all: try (constructor; [exact Gl1|exact Run|intros e I; exact (mirrors_ok _ _ _ Mi I)|exact No]).
      all: intros e nd' I In'; apply in_app_or in I; destruct I as [I|[<-|[]]]; [exact (No e nd' I In')|]; cbn in In';
           assert (X : (n, nd) = (n, nd')) by (apply (NoDup_map_inj fst (g_nodes g0)); [apply W0|exact Ind0|exact In'|reflexivity]); congruence.
  Qed.
  Lemma start_inv : loop_inv g0 (walker_new g0) [].
  Proof.
    unfold walker_new. split; [split; [|split; [|split; [|split; [|split; [|split]]]]]|split; [split|split; [|split; [|split; [|split; [|split]]]]]]; cbn [w_data w_ordered w_stack w_switches w_iter].
    - apply (settled_ext g0 (fun _ => False)); [intros i []| |apply settled_start; exact W0]. intros i e _ (c & e' & [] & _).
    - intros x I. apply in_rev in I. exact (inputs_ids g0 x I).
    - intros x [].
    - intros n a [].
    - constructor.
    - constructor.
    - intros n [[]|I]. apply co_input. apply in_rev in I. exact I.
    - intros n b [].
    - intros n I. right. apply in_rev. rewrite rev_involutive. exact I.
    - intros x [].
    - constructor.
    - constructor.
    - constructor.
    - cbn. lia.
    - intros e nd [].
  Qed.
  Lemma walk_ok : forall h, exists o, walk_graph sw_open sw_run handle in_context parent_nodes ctx g0 h = Some o /\ outcome_ok o.
  Proof.
    intros h. unfold walk_graph. destruct (eval_loop_some (eval_fuel g0) g0 (walker_new g0) h [] start_inv) as (o & E).
    - unfold mu, eval_fuel, walker_new. cbn [w_switches w_ordered]. pose proof (undecided_switches g0 []). pose proof (unvisited_le g0 []). nia.
    - exists o. split; [exact E|]. exact (eval_loop_ok _ _ _ _ _ _ start_inv E).
  Qed.
End Walk.
