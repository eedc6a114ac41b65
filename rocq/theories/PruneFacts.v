(** What removing edges recursively leaves of a graph. *)
From Coq Require Import String Lia Bool List Arith.
From Verif Require Import Base Graph GraphSpec GraphFacts Walker.
Import ListNotations.
Local Open Scope list_scope.
Local Open Scope nat_scope.

Lemma filter_filter : forall {A} (p q : A -> bool) l, filter p (filter q l) = filter (fun x => q x && p x) l.
Proof. induction l as [|a l IH]; cbn; [reflexivity|]. destruct (q a); cbn; [destruct (p a); rewrite IH; reflexivity|exact IH]. Qed.
Lemma filter_true : forall {A} (p : A -> bool) l, (forall x, In x l -> p x = true) -> filter p l = l.
Proof. induction l as [|a l IH]; intros H; cbn; [reflexivity|]. rewrite (H a (or_introl eq_refl)), IH; [reflexivity|]. intros x I. apply H. right. exact I. Qed.
Lemma filter_len : forall {A} (p : A -> bool) l, length (filter p l) <= length l.
Proof. induction l as [|a l IH]; cbn; [lia|]. destruct (p a); cbn; lia. Qed.
Lemma filter_lt : forall {A} (p : A -> bool) l x, In x l -> p x = false -> length (filter p l) < length l.
Proof.
  induction l as [|a l IH]; intros x I E; [contradiction|]. cbn. destruct I as [->|I].
  - rewrite E. pose proof (filter_len p l). lia.
  - specialize (IH x I E). destruct (p a); cbn; lia.
Qed.
Lemma NoDup_map_filter : forall {A B} (f : A -> B) p l, NoDup (map f l) -> NoDup (map f (filter p l)).
Proof.
  induction l as [|a l IH]; intros N; cbn; [constructor|]. inversion N as [|? ? N1 N2]; subst. destruct (p a); cbn; [|auto].
  constructor; [|auto]. intros I. apply N1. apply in_map_iff in I. destruct I as (x & E & I). apply filter_In in I. rewrite <- E. apply in_map. apply I.
Qed.
Lemma NoDup_map_inj : forall {A B} (f : A -> B) l x y, NoDup (map f l) -> In x l -> In y l -> f x = f y -> x = y.
Proof.
  induction l as [|a l IH]; intros x y N I J E; [contradiction|]. inversion N as [|? ? N1 N2]; subst. destruct I as [->|I], J as [->|J]; [reflexivity| | |auto].
  - exfalso. apply N1. rewrite E. apply in_map. exact J.
  - exfalso. apply N1. rewrite <- E. apply in_map. exact I.
Qed.

Section Prune.
  Context {T : Type}.
  Implicit Types g : graph T.

  Lemma part_refl : forall g, part g g.
  Proof. intros g. exists (fun _ => true), (fun _ => true). split; symmetry; apply filter_true; reflexivity. Qed.
  Lemma part_trans : forall a b c, @part T a b -> part b c -> part a c.
  Proof.
    intros a b c (p & q & A & B) (p' & q' & A' & B'). rewrite A', filter_filter in A. rewrite B', filter_filter in B.
    do 2 eexists. split; [exact A|exact B].
  Qed.
  Lemma part_edges : forall g' g x, part g' g -> In x (g_edges g') -> In x (g_edges g).
  Proof. intros g' g x (p & q & _ & E) I. rewrite E in I. apply filter_In in I. apply I. Qed.
  Lemma part_nodes : forall g' g x, part g' g -> In x (g_nodes g') -> In x (g_nodes g).
  Proof. intros g' g x (p & q & E & _) I. rewrite E in I. apply filter_In in I. apply I. Qed.
  Lemma part_ids : forall g' g n, part g' g -> In n (node_ids g') -> In n (node_ids g).
  Proof. intros g' g n P I. apply in_map_iff in I. destruct I as (x & <- & I). apply in_map. eapply part_nodes; eauto. Qed.
  Lemma part_edges_len : forall g' g, part g' g -> length (g_edges g') <= length (g_edges g).
  Proof. intros g' g (p & q & _ & E). rewrite E. apply filter_len. Qed.
  Lemma part_nodes_len : forall g' g, part g' g -> length (g_nodes g') <= length (g_nodes g).
  Proof. intros g' g (p & q & E & _). rewrite E. apply filter_len. Qed.
  Lemma part_no_edge : forall g' g n d, part g' g -> no_edge g n d -> no_edge g' n d.
  Proof. intros g' g n d P N x I. apply N. eapply part_edges; eauto. Qed.
  Lemma part_edge : forall g' g a b, part g' g -> edge g' a b -> edge g a b.
  Proof. intros g' g a b P (i & e & I & E). exists i, e. split; [eapply part_edges; eauto|exact E]. Qed.
  Lemma part_reaches : forall g' g a b, part g' g -> reaches g' a b -> reaches g a b.
  Proof. intros g' g a b P R. induction R as [a b E|a b c E R IH]; [apply re_one|eapply re_step; [|exact IH]]; eapply part_edge; eauto. Qed.
  Lemma part_acyclic : forall g' g, part g' g -> ~ cyclic g -> ~ cyclic g'.
  Proof. intros g' g P N (n & R). apply N. exists n. eapply part_reaches; eauto. Qed.

  Lemma no_edge_dec : forall g n d, no_edge g n d \/ exists x, In x (g_edges g) /\ at_end d (snd x) = n.
  Proof.
    intros g n d. destruct (edges_directed g n d) as [|x l] eqn:E.
    - left. intros x I X. assert (J : In x (edges_directed g n d)) by (apply edges_directed_in; auto). rewrite E in J. exact J.
    - right. exists x. apply edges_directed_in. rewrite E. left. reflexivity.
  Qed.
  Lemma no_edge_nil : forall g n d, edges_directed g n d = [] <-> no_edge g n d.
  Proof.
    intros g n d. split.
    - intros E x I X. assert (J : In x (edges_directed g n d)) by (apply edges_directed_in; auto). rewrite E in J. exact J.
    - intros N. destruct (edges_directed g n d) as [|x l] eqn:E; [reflexivity|]. exfalso.
      assert (J : In x (edges_directed g n d)) by (rewrite E; left; reflexivity). apply edges_directed_in in J. exact (N x (proj1 J) (proj2 J)).
  Qed.
  Lemma endpoints_some : forall g e s t, endpoints g e = Some (s, t) -> exists x, In (e, x) (g_edges g) /\ ge_src x = s /\ ge_tgt x = t.
  Proof.
    intros g e s t E. unfold endpoints in E. destruct (find (fun x => fst x =? e) (g_edges g)) as [[i x]|] eqn:F; [|discriminate].
    cbn in E. injection E as <- <-. apply find_some in F. destruct F as [I F]. apply Nat.eqb_eq in F. cbn in F. subst. eauto.
  Qed.
  Lemma endpoints_none : forall g e, endpoints g e = None -> ~ In e (map fst (g_edges g)).
  Proof.
    intros g e E I. apply in_map_iff in I. destruct I as ([i x] & X & I). cbn in X. subst. unfold endpoints in E.
    destruct (find (fun x => fst x =? e) (g_edges g)) as [y|] eqn:F; [discriminate|]. pose proof (find_none _ _ F _ I) as N. cbn in N. rewrite Nat.eqb_refl in N. discriminate.
  Qed.

  Lemma wf_remove_edge : forall g e, wf_graph g -> wf_graph (remove_edge g e).
  Proof.
    intros g e (A & B & C). split; [exact A|]. split; [apply NoDup_map_filter; exact B|].
    intros i x I. apply filter_In in I. apply (C i x). apply I.
  Qed.
  Lemma part_remove_edge : forall g e, part (remove_edge g e) g.
  Proof. intros g e. exists (fun _ => true). eexists. split; [symmetry; apply filter_true; reflexivity|reflexivity]. Qed.
  Lemma remove_node_edges : forall g n, (forall d, no_edge g n d) -> g_edges (remove_node g n) = g_edges g.
  Proof.
    intros g n N. apply filter_true. intros x I. pose proof (N Incoming x I) as A. pose proof (N Outgoing x I) as B. cbn in A, B.
    apply Nat.eqb_neq in A. apply Nat.eqb_neq in B. rewrite A, B. reflexivity.
  Qed.
  Lemma remove_node_ids : forall g n m, In m (node_ids (remove_node g n)) <-> In m (node_ids g) /\ m <> n.
  Proof.
    intros g n m. unfold node_ids, remove_node. cbn. rewrite !in_map_iff. split.
    - intros ([i x] & E & I). apply filter_In in I. cbn in *. subst. destruct I as [I X]. apply negb_true_iff, Nat.eqb_neq in X. split; [exists (m, x); auto|exact X].
    - intros [([i x] & E & I) X]. cbn in E. subst. exists (m, x). split; [reflexivity|]. apply filter_In. split; [exact I|]. apply negb_true_iff, Nat.eqb_neq. exact X.
  Qed.

  (** A graph with a rank, from the order of the search. *)
  Fixpoint index (n : nat) (l : list nat) : nat := match l with [] => 0 | x :: r => if x =? n then 0 else S (index n r) end.
  Lemma sorted_index : forall g f a b, sorted g f -> NoDup f -> In a f -> edge g a b -> index a f < index b f /\ index b f < length f.
  Proof.
    induction f as [|x f IH]; intros a b S1 N I E; [contradiction|]. inversion N as [|? ? N1 N2]; subst. destruct S1 as [H S1]. cbn.
    destruct (Nat.eqb_spec x a) as [->|NE].
    - apply H in E. destruct (Nat.eqb_spec a b) as [->|_]; [contradiction|]. split; [lia|]. clear -E. assert (index b f < length f); [|lia].
      induction f as [|y f IHf]; [contradiction|]. cbn. destruct (Nat.eqb_spec y b); [lia|]. destruct E as [->|E]; [congruence|]. specialize (IHf E). lia.
    - destruct I as [->|I]; [congruence|]. pose proof (sorted_succ _ _ _ _ S1 I E) as J. destruct (Nat.eqb_spec x b) as [->|_]; [contradiction|].
      destruct (IH a b S1 N2 I E). lia.
  Qed.
  Lemma acyclic_rank : forall g, wf_graph g -> ~ cyclic g -> exists r bound, forall a b, edge g a b -> r a < r b /\ r b < bound.
  Proof.
    intros g W NC. destruct (is_cyclic g) eqn:C; [exfalso; apply NC, (is_cyclic_iff g W), C|]. unfold is_cyclic in C.
    destruct (dfs_all (S (length (g_nodes g))) g (node_ids g) ([], [])) as [s|] eqn:E; [|discriminate].
    destruct (dfs_all_some g _ W _ _ _ (sound_empty g) eq_refl (incl_refl _) E) as ((S1 & _ & N & _) & _ & _ & I).
    exists (fun n => index n (snd s)), (length (snd s)). intros a b X. apply (sorted_index g (snd s) a b S1 N); [|exact X].
    apply I. destruct X as (i & e & X & <- & _). apply (proj2 (proj2 W) i e X).
  Qed.

  (** ** The invariants of recursive removal, relative to the graph it started from. *)
  Variable g0 : graph T.
  Definition had (n : nat) (d : dir) : Prop := exists x, In x (g_edges g0) /\ at_end d (snd x) = n.
  Definition bad g (n : nat) (d : dir) : Prop := had n d /\ no_edge g n d /\ ~ no_edge g n (opposite d).
  Definition lone g (n : nat) : Prop := In n (node_ids g) /\ (exists d, had n d) /\ forall d, no_edge g n d.
  Definition supported (P : nat -> Prop) : Prop := forall d i e, In (i, e) (g_edges g0) -> P i -> had (at_end (opposite d) e) d ->
    exists j f, In (j, f) (g_edges g0) /\ P j /\ at_end d f = at_end (opposite d) e.
  Definition keeps (P : nat -> Prop) g : Prop := forall i e, In (i, e) (g_edges g0) -> P i -> In (i, e) (g_edges g).
  Definition pruned g g' : Prop :=
    part g' g /\ wf_graph g' /\ (forall n d, bad g' n d -> bad g n d) /\ (forall n, lone g' n -> lone g n) /\
    forall n, In n (node_ids g) -> (forall d, ~ had n d) -> In n (node_ids g').
  Lemma pruned_refl : forall g, wf_graph g -> pruned g g.
  Proof. intros g W. split; [apply part_refl|]. auto. Qed.
  Lemma pruned_trans : forall a b c, pruned a b -> pruned b c -> pruned a c.
  Proof.
    intros a b c (A1 & A2 & A3 & A4 & A5) (B1 & B2 & B3 & B4 & B5). split; [eapply part_trans; eauto|]. split; [exact B2|]. auto 6.
  Qed.

  Definition removal k := forall g e, length (g_edges g) <= k -> wf_graph g -> part g g0 ->
    pruned g (remove_rec k g e) /\ ~ In e (map fst (g_edges (remove_rec k g e))) /\
    forall P, supported P -> keeps P g -> ~ P e -> keeps P (remove_rec k g e).

  Lemma fold_removal : forall k, removal k -> forall es g, length (g_edges g) <= k -> wf_graph g -> part g g0 ->
    pruned g (fold_left (remove_rec k) es g) /\ (forall e, In e es -> ~ In e (map fst (g_edges (fold_left (remove_rec k) es g)))) /\
    forall P, supported P -> keeps P g -> (forall e, In e es -> ~ P e) -> keeps P (fold_left (remove_rec k) es g).
  Proof.
    intros k H. induction es as [|e es IH]; intros g L W P0; cbn [fold_left].
    - split; [apply pruned_refl; exact W|]. split; [intros e []|auto].
    - destruct (H g e L W P0) as (A & B & C). assert (A' := A). destruct A' as (A1 & A2 & _).
      destruct (IH (remove_rec k g e)) as (D & E & F); [pose proof (part_edges_len _ _ A1); lia|exact A2|eapply part_trans; eauto|].
      split; [eapply pruned_trans; eauto|]. split.
      + intros x [<-|I]; [|apply E; exact I]. intros J. apply B. apply in_map_iff in J. destruct J as (y & Ey & J). apply (part_edges _ _ _ (proj1 D)) in J.
        apply in_map_iff. exists y. auto.
      + intros P S1 K X. apply F; [exact S1|apply C; [exact S1|exact K|apply X; left; reflexivity]|]. intros y J. apply X. right. exact J.
  Qed.

  Definition starve k g (n : nat) (d : dir) : graph T :=
    match edges_directed g n d with
    | _ :: _ => g
    | [] =>
        let g1 := fold_left (remove_rec k) (map fst (edges_directed g n (opposite d))) g in
        match edges_directed g1 n Outgoing with [] => remove_node g1 n | _ :: _ => g1 end
    end.
  Lemma starve_ok : forall k, removal k -> forall g n d, length (g_edges g) <= k -> wf_graph g -> part g g0 -> had n d ->
    pruned g (starve k g n d) /\ ~ bad (starve k g n d) n d /\ ~ lone (starve k g n d) n /\
    forall P, supported P -> keeps P g -> keeps P (starve k g n d).
  Proof.
    intros k H g n d L W P0 Hd. unfold starve. destruct (edges_directed g n d) as [|x l] eqn:E.
    - apply no_edge_nil in E.
      destruct (fold_removal k H (map fst (edges_directed g n (opposite d))) g L W P0) as (A & B & C).
      set (g1 := fold_left (remove_rec k) (map fst (edges_directed g n (opposite d))) g) in *. cbn zeta.
      assert (A' := A). destruct A' as (A1 & A2 & A3 & A4 & A5).
      assert (Nd : no_edge g1 n d) by (eapply part_no_edge; eauto).
      assert (No : no_edge g1 n (opposite d)).
      { intros x I X. apply (B (fst x)); [|apply in_map; exact I]. apply in_map. apply edges_directed_in. split; [eapply part_edges; eauto|exact X]. }
      assert (N : forall d', no_edge g1 n d') by (intros d'; destruct d, d'; assumption).
      replace (edges_directed g1 n Outgoing) with (@nil (nat * gedge)) by (symmetry; apply no_edge_nil; apply N).
      assert (Ee : g_edges (remove_node g1 n) = g_edges g1) by (apply remove_node_edges; exact N).
      assert (NE : forall m d', no_edge (remove_node g1 n) m d' <-> no_edge g1 m d') by (intros m d'; unfold no_edge; rewrite Ee; tauto).
      split; [|split; [|split]].
      + apply (pruned_trans g g1); [exact A|]. split; [|split; [|split; [|split]]].
        * eexists _, _. split; reflexivity.
        * split; [apply NoDup_map_filter; apply A2|]. split; [rewrite Ee; apply A2|]. intros i e I. rewrite Ee in I.
          destruct (proj2 (proj2 A2) i e I) as [I1 I2]. rewrite !remove_node_ids. pose proof (N Incoming _ I) as X1. pose proof (N Outgoing _ I) as X2. cbn in X1, X2. auto.
        * intros m d' (B1 & B2 & B3). rewrite NE in B2. rewrite NE in B3. split; [exact B1|]. split; assumption.
        * intros m (B1 & B2 & B3). apply remove_node_ids in B1. split; [apply B1|]. split; [exact B2|]. intros d'. apply NE, B3.
        * intros m I X. apply remove_node_ids. split; [exact I|]. intros ->. exact (X d Hd).
      + intros (_ & _ & X). apply X. apply NE, N.
      + intros (X & _). apply remove_node_ids in X. apply (proj2 X). reflexivity.
      + intros P S1 K i e I J. rewrite Ee. apply (C P); [exact S1|exact K| |exact I|exact J].
        intros j Q Pj. apply in_map_iff in Q. destruct Q as ([j' f] & Ej & Q). cbn in Ej. subst j'. apply edges_directed_in in Q. destruct Q as [Q1 Q2]. cbn in Q2.
        destruct (S1 d j f (part_edges _ _ _ P0 Q1) Pj) as (j2 & f2 & F1 & F2 & F3); [rewrite Q2; exact Hd|].
        apply (E (j2, f2)); [apply K; assumption|]. cbn. congruence.
    - assert (X : exists x, In x (g_edges g) /\ at_end d (snd x) = n) by (exists x; apply edges_directed_in; rewrite E; left; reflexivity). destruct X as (y & I & X).
      split; [apply pruned_refl; exact W|]. split; [|split].
      + intros (_ & Z & _). exact (Z y I X).
      + intros (_ & _ & Z). exact (Z d y I X).
      + auto.
  Qed.

  Lemma remove_edge_in : forall g e x, In x (g_edges (remove_edge g e)) <-> In x (g_edges g) /\ fst x <> e.
  Proof. intros g e x. cbn. rewrite filter_In, negb_true_iff, Nat.eqb_neq. reflexivity. Qed.
  Lemma removal_all : forall k, removal k.
  Proof.
    induction k as [|k IH]; intros g e L W P0.
    - cbn [remove_rec]. split; [apply pruned_refl; exact W|]. split; [|auto]. destruct (g_edges g); [intros []|cbn in L; lia].
    - cbn [remove_rec]. destruct (endpoints g e) as [[s t]|] eqn:E.
      2: { split; [apply pruned_refl; exact W|]. split; [apply endpoints_none; exact E|auto]. }
      apply endpoints_some in E. destruct E as (x & Ix & Es & Et).
      change (let g' := starve k (starve k (remove_edge g e) t Incoming) s Outgoing in
        pruned g g' /\ ~ In e (map fst (g_edges g')) /\ forall P, supported P -> keeps P g -> ~ P e -> keeps P g'). cbn zeta.
      assert (W1 : wf_graph (remove_edge g e)) by (apply wf_remove_edge; exact W).
      assert (Q1 := part_remove_edge g e).
      assert (L1 : length (g_edges (remove_edge g e)) <= k).
      { cbn. assert (length (filter (fun x0 => negb (fst x0 =? e)) (g_edges g)) < length (g_edges g)); [|lia].
        apply (filter_lt _ _ (e, x) Ix). cbn. rewrite Nat.eqb_refl. reflexivity. }
      assert (Ht : had t Incoming) by (exists (e, x); split; [eapply part_edges; eauto|exact Et]).
      assert (Hs : had s Outgoing) by (exists (e, x); split; [eapply part_edges; eauto|exact Es]).
      assert (OneEdge : forall n d, no_edge (remove_edge g e) n d -> no_edge g n d \/ n = at_end d x).
      { intros n d N. destruct (Nat.eq_dec n (at_end d x)) as [->|NE]; [auto|]. left. intros y I Y. destruct (Nat.eq_dec (fst y) e) as [Ef|NEf].
        - assert (y = (e, x)) as -> by (apply (NoDup_map_inj fst (g_edges g)); [apply W|exact I|exact Ix|exact Ef]). cbn in Y. congruence.
        - apply (N y); [apply remove_edge_in; auto|exact Y]. }
      destruct (starve_ok k IH (remove_edge g e) t Incoming L1 W1) as (A & A1 & A2 & A3); [eapply part_trans; eauto|exact Ht|].
      set (g1 := starve k (remove_edge g e) t Incoming) in *. assert (A' := A). destruct A' as (B1 & B2 & B3 & B4 & B5).
      destruct (starve_ok k IH g1 s Outgoing) as (C & C1 & C2 & C3); [pose proof (part_edges_len _ _ B1); lia|exact B2|eapply part_trans; [exact B1|]; eapply part_trans; eauto|exact Hs|].
      set (g2 := starve k g1 s Outgoing) in *. destruct C as (D1 & D2 & D3 & D4 & D5).
      assert (Bad1 : forall n d, bad (remove_edge g e) n d -> bad g n d \/ n = at_end d x).
      { intros n d (X1 & X2 & X3). destruct (OneEdge n d X2) as [Y|Y]; [|auto]. left. split; [exact X1|]. split; [exact Y|]. intros Z. apply X3. eapply part_no_edge; eauto. }
      split; [split; [|split; [|split; [|split]]]|split].
      + eapply part_trans; [exact D1|]. eapply part_trans; eauto.
      + exact D2.
      + intros n d X. assert (Y := D3 n d X). assert (Z := B3 n d Y). destruct (Bad1 n d Z) as [U|U]; [exact U|]. exfalso. destruct d; cbn in U; subst.
        * exact (A1 Y).
        * exact (C1 X).
      + intros n X. assert (Y := D4 n X). assert (Z := B4 n Y). destruct Z as (Z1 & Z2 & Z3).
        destruct (Nat.eq_dec n s) as [->|Ns]; [exfalso; exact (C2 X)|]. destruct (Nat.eq_dec n t) as [->|Nt]; [exfalso; exact (A2 Y)|].
        split; [exact Z1|]. split; [exact Z2|]. intros d. destruct (OneEdge n d (Z3 d)) as [V|V]; [exact V|]. exfalso. destruct d; cbn in V; congruence.
      + intros n I X. apply D5; [|exact X]. apply B5; [exact I|exact X].
      + intros I. apply in_map_iff in I. destruct I as (y & Ey & I). apply (part_edges _ _ _ D1) in I. apply (part_edges _ _ _ B1) in I. apply remove_edge_in in I. apply (proj2 I). exact Ey.
      + intros P S1 K NP. apply C3; [exact S1|]. apply A3; [exact S1|]. intros i f I Pi. apply remove_edge_in. split; [apply K; assumption|]. intros X. cbn in X. subst. exact (NP Pi).
  Qed.

  (** ** A graph whose invariants hold is what is left after striking out. *)
  Definition settled (D : nat -> Prop) g : Prop :=
    part g g0 /\ wf_graph g /\ (forall n d, ~ bad g n d) /\ (forall n, ~ lone g n) /\
    (forall n, In n (node_ids g0) -> (forall d, ~ had n d) -> In n (node_ids g)) /\
    (forall i e, In (i, e) (g_edges g) -> ~ D i) /\
    forall P, supported P -> (forall i, P i -> ~ D i) -> keeps P g.
  Lemma not_had : forall n d, ~ had n d <-> no_edge g0 n d.
  Proof. intros n d. split; [intros N x I X; apply N; exists x; auto|intros N (x & I & X); exact (N x I X)]. Qed.
  Lemma settled_start : wf_graph g0 -> settled (fun _ => False) g0.
  Proof.
    intros W. split; [apply part_refl|]. split; [exact W|]. split; [intros n d ((x & I & E) & N & _); exact (N x I E)|].
    split; [intros n (_ & (d & x & I & E) & N); exact (N d x I E)|]. split; [auto|]. split; [auto|]. intros P _ _ i e I _. exact I.
  Qed.
  Lemma settled_prune : forall D g es, settled D g -> settled (fun i => D i \/ In i es) (prune g es).
  Proof.
    intros D g es (A & B & C & E & F & G & H). unfold prune.
    destruct (fold_removal _ (removal_all (length (g_edges g))) es g (le_n _) B A) as ((X1 & X2 & X3 & X4 & X5) & Y & Z).
    set (g' := fold_left (remove_rec (length (g_edges g))) es g) in *.
    split; [eapply part_trans; eauto|]. split; [exact X2|]. split; [intros n d Q; exact (C n d (X3 n d Q))|]. split; [intros n Q; exact (E n (X4 n Q))|].
    split; [intros n I Q; apply X5; [apply F; assumption|exact Q]|]. split.
    - intros i e I [Di|Ii]; [exact (G i e (part_edges _ _ _ X1 I) Di)|]. apply (Y i Ii). apply in_map_iff. exists (i, e). auto.
    - intros P S1 N. apply Z; [exact S1|apply H; [exact S1|intros i Pi Di; exact (N i Pi (or_introl Di))]|]. intros i I Pi. exact (N i Pi (or_intror I)).
  Qed.
  Lemma settled_ext : forall (D D' : nat -> Prop) g, (forall i, D i -> D' i) -> (forall i e, In (i, e) (g_edges g) -> ~ D' i) -> settled D g -> settled D' g.
  Proof.
    intros D D' g I1 I2 (A & B & C & E & F & G & H). do 5 (split; [assumption|]). split; [exact I2|]. intros P S1 N. apply H; [exact S1|]. intros i Pi Di. exact (N i Pi (I1 i Di)).
  Qed.

  Lemma settled_left : forall D g, wf_graph g0 -> ~ cyclic g0 -> settled D g -> pruned_to g0 D g.
  Proof.
    intros D g W NC (A & B & C & E & F & G & H). destruct (acyclic_rank g0 W NC) as (r & bound & R).
    assert (Edges : forall i e, In (i, e) (g_edges g) <-> left_edge g0 D i e).
    { intros i e. split.
      - intros I. split; [eapply part_edges; eauto|]. split; [exact (G i e I)|]. split.
        + remember (ge_src e) as n eqn:En. assert (On : exists j f, In (j, f) (g_edges g) /\ ge_src f = n) by (exists i, e; auto). clear i e I En.
          assert (Ind : forall m n, r n < m -> (exists j f, In (j, f) (g_edges g) /\ ge_src f = n) -> fed g0 D n).
          { clear n On. induction m as [|m IH]; intros n Lt (j & f & I & En); [lia|]. destruct (no_edge_dec g0 n Incoming) as [N|Had]; [apply fed_root; exact N|].
            destruct (no_edge_dec g n Incoming) as [N|([j2 f2] & I2 & E2)].
            - exfalso. apply (C n Incoming). split; [exact Had|]. split; [exact N|]. intros X. exact (X (j, f) I En).
            - cbn in E2. rewrite <- E2. apply (fed_step g0 D j2 f2); [eapply part_edges; eauto|exact (G j2 f2 I2)|]. apply IH; [|exists j2, f2; auto].
              assert (X : edge g0 (ge_src f2) n) by (exists j2, f2; split; [eapply part_edges; eauto|auto]). pose proof (R _ _ X). lia. }
          exact (Ind (S (r n)) n (Nat.lt_succ_diag_r _) On).
        + remember (ge_tgt e) as n eqn:En. assert (On : exists j f, In (j, f) (g_edges g) /\ ge_tgt f = n) by (exists i, e; auto). clear i e I En.
          assert (Ind : forall m n, bound - r n < m -> (exists j f, In (j, f) (g_edges g) /\ ge_tgt f = n) -> used g0 D n).
          { clear n On. induction m as [|m IH]; intros n Lt (j & f & I & En); [lia|]. destruct (no_edge_dec g0 n Outgoing) as [N|Had]; [apply used_end; exact N|].
            destruct (no_edge_dec g n Outgoing) as [N|([j2 f2] & I2 & E2)].
            - exfalso. apply (C n Outgoing). split; [exact Had|]. split; [exact N|]. intros X. exact (X (j, f) I En).
            - cbn in E2. rewrite <- E2. apply (used_step g0 D j2 f2); [eapply part_edges; eauto|exact (G j2 f2 I2)|]. apply IH; [|exists j2, f2; auto].
              assert (X : edge g0 n (ge_tgt f2)) by (exists j2, f2; split; [eapply part_edges; eauto|auto]). pose proof (R _ _ X). lia. }
          exact (Ind (S (bound - r n)) n (Nat.lt_succ_diag_r _) On).
      - intros (I & ND & Fd & Us). apply (H (fun j => exists f, left_edge g0 D j f)); [|intros j (f & X); apply X|exact I|exists e; split; [exact I|split; [exact ND|split; assumption]]].
        clear i e I ND Fd Us. intros d i e I (f & J & ND & Fd & Us) Hd.
        assert (f = e) as ->. { assert (X : (i, f) = (i, e)) by (apply (NoDup_map_inj fst (g_edges g0)); [apply W|exact J|exact I|reflexivity]). congruence. }
        destruct d; cbn [at_end opposite] in *.
        + inversion Fd as [n N En|j f Ij Nj Fj En]; [exfalso; apply not_had in N; exact (N Hd)|]. exists j, f. split; [exact Ij|]. split; [|reflexivity].
          exists f. split; [exact Ij|]. split; [exact Nj|]. split; [exact Fj|]. rewrite En. apply (used_step g0 D i e I ND Us).
        + inversion Us as [n N En|j f Ij Nj Uj En]; [exfalso; apply not_had in N; exact (N Hd)|]. exists j, f. split; [exact Ij|]. split; [|reflexivity].
          exists f. split; [exact Ij|]. split; [exact Nj|]. split; [|exact Uj]. rewrite En. apply (fed_step g0 D i e I ND Fd). }
    split; [exact A|]. split; [exact Edges|]. intros n. split.
    - intros I. split; [eapply part_ids; eauto|].
      destruct (no_edge_dec g n Incoming) as [N1|([i e] & I1 & E1)]; [|right; exists i, e; split; [apply Edges; exact I1|right; exact E1]].
      destruct (no_edge_dec g n Outgoing) as [N2|([i e] & I1 & E1)]; [|right; exists i, e; split; [apply Edges; exact I1|left; exact E1]].
      left. intros d. apply not_had. intros Hd. apply (E n). split; [exact I|]. split; [exists d; exact Hd|]. intros []; assumption.
    - intros [I [N|(i & e & X & Y)]].
      + apply F; [exact I|]. intros d. apply not_had, N.
      + apply Edges in X. destruct (proj2 (proj2 B) i e X). destruct Y; subst; assumption.
  Qed.
End Prune.
