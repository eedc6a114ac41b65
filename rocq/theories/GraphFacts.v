(** Graphs: building, validation, cycle detection. *)
From Coq Require Import String Lia Bool List Arith.
From Verif Require Import Base Graph GraphSpec.
Import ListNotations.
Local Open Scope list_scope.
Local Open Scope nat_scope.

Lemma mem_iff : forall n l, existsb (Nat.eqb n) l = true <-> In n l.
Proof.
  intros n l. rewrite existsb_exists. split; [intros (x & I & E); apply Nat.eqb_eq in E; subst; exact I|intros I; exists n; split; [exact I|apply Nat.eqb_refl]].
Qed.
Lemma mem_false : forall n l, existsb (Nat.eqb n) l = false <-> ~ In n l.
Proof. intros n l. rewrite <- mem_iff. destruct (existsb (Nat.eqb n) l); split; congruence. Qed.

Section Facts.
  Context {T : Type}.
  Implicit Types g : graph T.

  Lemma edges_directed_in : forall g n d x, In x (edges_directed g n d) <-> In x (g_edges g) /\ at_end d (snd x) = n.
  Proof. intros. unfold edges_directed. rewrite <- in_rev, filter_In, Nat.eqb_eq. reflexivity. Qed.
  Lemma succ_edge : forall g a b, In b (neighbors g a Outgoing) <-> edge g a b.
  Proof.
    intros g a b. unfold neighbors, edge. rewrite in_map_iff. split.
    - intros ([i e] & E & I). apply edges_directed_in in I. exists i, e. cbn in *. tauto.
    - intros (i & e & I & S1 & T1). exists (i, e). split; [exact T1|]. apply edges_directed_in. auto.
  Qed.
  Lemma pred_edge : forall g a b, In a (neighbors g b Incoming) <-> edge g a b.
  Proof.
    intros g a b. unfold neighbors, edge. rewrite in_map_iff. split.
    - intros ([i e] & E & I). apply edges_directed_in in I. exists i, e. cbn in *. tauto.
    - intros (i & e & I & S1 & T1). exists (i, e). split; [exact S1|]. apply edges_directed_in. auto.
  Qed.
  Lemma reaches_snoc : forall g a b c, reaches g a b -> edge g b c -> reaches g a c.
  Proof.
    intros g a b c R E. induction R as [a b H|a b c' H R IH].
    - eapply re_step; [exact H|]. apply re_one. exact E.
    - eapply re_step; [exact H|]. apply IH. exact E.
  Qed.
  Lemma reaches_trans : forall g a b c, reaches g a b -> reaches g b c -> reaches g a c.
  Proof. intros g a b c R. induction R as [a b H|a b c' H R IH]; intros Q; [eapply re_step; eauto|]. eapply re_step; [exact H|auto]. Qed.

  (** A list from latest to earliest finished: the successors of each member come after it. *)
  Fixpoint sorted g (f : list nat) : Prop :=
    match f with [] => True | u :: r => (forall v, edge g u v -> In v r) /\ sorted g r end.
  Lemma sorted_succ : forall g f u v, sorted g f -> In u f -> edge g u v -> In v f.
  Proof.
    intros g f. induction f as [|x f IH]; intros u v S1 I E; [contradiction|]. destruct S1 as [H S1]. destruct I as [->|I]; right; eauto.
  Qed.
  Lemma sorted_reach : forall g f u v, sorted g f -> NoDup f -> In u f -> reaches g u v ->
    exists f1 f2, f = f1 ++ u :: f2 /\ In v f2.
  Proof.
    intros g f u v S1 N I R. revert I. induction R as [a b E|a b c E R IH]; intros I.
    - revert S1 N. induction f as [|x f IH]; intros S1 N; [contradiction|]. inversion N as [|? ? N1 N2]; subst. destruct S1 as [H1 S1]. destruct I as [->|I].
      + exists [], f. split; [reflexivity|auto].
      + destruct (IH I S1) as (f1 & f2 & -> & J); [assumption|]. exists (x :: f1), f2. auto.
    - destruct (IH (sorted_succ _ _ _ _ S1 I E)) as (f1 & f2 & Ef & J).
      clear IH. revert f1 Ef S1 N. induction f as [|x f IHf]; intros f1 Ef S1 N; [contradiction|]. inversion N as [|? ? N1 N2]; subst. destruct S1 as [H1 S1]. destruct I as [->|I].
      + exists [], f. split; [reflexivity|]. destruct f1 as [|y f1]; cbn in Ef; injection Ef as <- ->.
        * exfalso. apply H1 in E. contradiction.
        * apply in_or_app. right. right. exact J.
      + destruct f1 as [|y f1]; cbn in Ef.
        * injection Ef as <- ->. exfalso. apply N1. exact (sorted_succ _ _ _ _ S1 I E).
        * injection Ef as <- ->. destruct (IHf I f1 eq_refl S1) as (a1 & a2 & Ea & Ja); [assumption|]. exists (x :: a1), a2. split; [cbn; congruence|exact Ja].
  Qed.
  Lemma sorted_acyclic : forall g f n, sorted g f -> NoDup f -> In n f -> ~ reaches g n n.
  Proof.
    intros g f n S1 N I R. destruct (sorted_reach g f n n S1 N I R) as (f1 & f2 & -> & J). apply NoDup_remove_2 in N. apply N. apply in_or_app. auto.
  Qed.

  (** The state of a search: discovered and finished nodes. *)
  Definition sound g (s : list nat * list nat) : Prop :=
    sorted g (snd s) /\ NoDup (fst s) /\ NoDup (snd s) /\ incl (snd s) (fst s) /\ incl (fst s) (node_ids g).
  Definition same_open (s s1 : list nat * list nat) : Prop :=
    incl (fst s) (fst s1) /\ incl (snd s) (snd s1) /\ forall x, In x (fst s1) -> ~ In x (snd s1) -> In x (fst s) /\ ~ In x (snd s).
  Lemma same_open_refl : forall s, same_open s s.
  Proof. intros s. split; [apply incl_refl|]. split; [apply incl_refl|auto]. Qed.
  Lemma same_open_trans : forall a b c, same_open a b -> same_open b c -> same_open a c.
  Proof.
    intros a b c (A1 & A2 & A3) (B1 & B2 & B3). split; [eapply incl_tran; eauto|]. split; [eapply incl_tran; eauto|].
    intros x I N. destruct (B3 x I N). auto.
  Qed.

  (** A node that is open stays open. *)
  Lemma list_open : forall u visit, (forall v s0 s2, In u (fst s0) -> ~ In u (snd s0) -> visit v s0 = Some s2 -> In u (fst s2) /\ ~ In u (snd s2)) ->
    forall vs s0 s2, In u (fst s0) -> ~ In u (snd s0) -> dfs_list visit vs s0 = Some s2 -> In u (fst s2) /\ ~ In u (snd s2).
  Proof.
    intros u visit V. induction vs as [|v vs IHv]; intros s0 s2 A B C; cbn [dfs_list] in C; [injection C as <-; auto|].
    destruct (existsb (Nat.eqb v) (fst s0)).
    - destruct (existsb (Nat.eqb v) (snd s0)); [eauto|discriminate].
    - destruct (visit v s0) as [s3|] eqn:Ev; [|discriminate]. destruct (V _ _ _ A B Ev). eauto.
  Qed.
  Lemma dfs_open : forall g u j v s0 s2, In u (fst s0) -> ~ In u (snd s0) -> dfs j g v s0 = Some s2 -> In u (fst s2) /\ ~ In u (snd s2).
  Proof.
    intros g u. induction j as [|j IHj]; intros v s0 s2 A B C; [discriminate|]. cbn [dfs] in C.
    destruct (existsb (Nat.eqb v) (fst s0)) eqn:Dv; [injection C as <-; auto|]. apply mem_false in Dv.
    destruct (dfs_list (dfs j g) (neighbors g v Outgoing) (v :: fst s0, snd s0)) as [[d2 f2]|] eqn:El; [|discriminate]. injection C as <-.
    destruct (list_open u _ IHj _ _ _ (or_intror A : In u (fst (v :: fst s0, snd s0))) B El) as [P1 P2]. cbn [fst snd] in *. split; [exact P1|].
    intros [->|Y]; contradiction.
  Qed.

  Definition dfs_post g (s : list nat * list nat) u (r : option (list nat * list nat)) : Prop :=
    match r with Some s1 => sound g s1 /\ same_open s s1 /\ (In u (fst s) \/ In u (snd s1)) | None => True end.
  Lemma dfs_list_some : forall g visit, (forall v s, sound g s -> In v (node_ids g) -> ~ In v (fst s) -> dfs_post g s v (visit v s)) ->
    forall vs s s1, sound g s -> incl vs (node_ids g) -> dfs_list visit vs s = Some s1 -> sound g s1 /\ same_open s s1 /\ incl vs (snd s1).
  Proof.
    intros g visit V. induction vs as [|v vs IH]; intros s s1 K I E; cbn [dfs_list] in E.
    - injection E as <-. split; [exact K|]. split; [apply same_open_refl|intros x []].
    - destruct (existsb (Nat.eqb v) (fst s)) eqn:D.
      + destruct (existsb (Nat.eqb v) (snd s)) eqn:Fn; [|discriminate]. apply mem_iff in Fn.
        destruct (IH s s1 K (fun x J => I x (or_intror J)) E) as (K1 & O1 & J1). split; [exact K1|]. split; [exact O1|].
        intros x [<-|Hx]; [apply (proj1 (proj2 O1)); exact Fn|auto].
      + apply mem_false in D. pose proof (V v s K (I v (or_introl eq_refl)) D) as P. destruct (visit v s) as [s2|]; [|discriminate].
        destruct P as (K2 & O2 & [F2|F2]); [contradiction|].
        destruct (IH s2 s1 K2 (fun x J => I x (or_intror J)) E) as (K1 & O1 & J1). split; [exact K1|]. split; [eapply same_open_trans; eauto|].
        intros x [<-|Hx]; [apply (proj1 (proj2 O1)); exact F2|auto].
  Qed.
  Lemma wf_succ : forall g u, wf_graph g -> incl (neighbors g u Outgoing) (node_ids g).
  Proof. intros g u W v I. apply succ_edge in I. destruct I as (i & e & I & _ & <-). apply (proj2 (proj2 W) i e I). Qed.
  Lemma dfs_some : forall g, wf_graph g -> forall fuel u s, sound g s -> In u (node_ids g) -> dfs_post g s u (dfs fuel g u s).
  Proof.
    intros g W. induction fuel as [|k IH]; intros u s K I; [exact Logic.I|]. cbn [dfs]. destruct (existsb (Nat.eqb u) (fst s)) eqn:D.
    - apply mem_iff in D. split; [exact K|]. split; [apply same_open_refl|auto].
    - apply mem_false in D. destruct K as (K1 & K2 & K3 & K4 & K5).
      assert (K' : sound g (u :: fst s, snd s)).
      { split; [exact K1|]. split; [constructor; assumption|]. split; [exact K3|]. split; [intros x J; right; apply K4; exact J|].
        intros x [<-|J]; [exact I|apply K5; exact J]. }
      destruct (dfs_list (dfs k g) (neighbors g u Outgoing) (u :: fst s, snd s)) as [[d f]|] eqn:E; [|exact Logic.I].
      destruct (dfs_list_some g (dfs k g) (fun v s0 Ks Iv _ => IH v s0 Ks Iv) _ _ _ K' (wf_succ g u W) E) as (Q & (O1 & O2 & O3) & J).
      destruct Q as (Q1 & Q2 & Q3 & Q4 & Q5). cbn [fst snd] in *.
      assert (NF : ~ In u f).
      { intros Uf.
        destruct (in_dec Nat.eq_dec u (snd s)) as [X|X]; [apply D, K4, X|].
        apply (proj2 (list_open u _ (dfs_open g u k) _ _ _ (or_introl eq_refl : In u (fst (u :: fst s, snd s))) X E)). exact Uf. }
      split; [|split].
      + split; [split; [intros v Ev; apply J; apply succ_edge; exact Ev|exact Q1]|]. split; [exact Q2|]. split; [constructor; assumption|].
        split; [intros x [<-|Y]; [apply O1; left; reflexivity|apply Q4; exact Y]|exact Q5].
      + split; [intros x Y; apply O1; right; exact Y|]. split; [intros x Y; right; apply O2; exact Y|]. cbn [fst snd]. intros x Y Z.
        assert (Z2 : ~ In x f) by (intros Q; apply Z; right; exact Q). destruct (O3 x Y Z2) as [[<-|G] G2]; [exfalso; apply Z; left; reflexivity|]. auto.
      + right. left. reflexivity.
  Qed.

  (** A failed search has found a cycle. *)
  Definition open_reach g (s : list nat * list nat) u : Prop := forall x, In x (fst s) -> ~ In x (snd s) -> reaches g x u.
  Definition opens (s : list nat * list nat) : list nat := filter (fun x => negb (existsb (Nat.eqb x) (snd s))) (fst s).
  Lemma opens_in : forall s x, In x (opens s) <-> In x (fst s) /\ ~ In x (snd s).
  Proof. intros s x. unfold opens. rewrite filter_In, negb_true_iff, mem_false. reflexivity. Qed.
  Lemma opens_length : forall s s1, NoDup (fst s1) -> NoDup (fst s) -> same_open s s1 -> length (opens s1) <= length (opens s).
  Proof.
    intros s s1 N1 N (A & B & C). apply NoDup_incl_length; [apply NoDup_filter; exact N1|]. intros x I. apply opens_in in I. apply opens_in. apply C; tauto.
  Qed.
  Lemma dfs_none : forall g, wf_graph g -> forall fuel u s, sound g s -> In u (node_ids g) -> ~ In u (fst s) -> open_reach g s u ->
    length (g_nodes g) < fuel + length (opens s) -> dfs fuel g u s = None -> cyclic g.
  Proof.
    intros g W. induction fuel as [|k IH]; intros u s K I D R L E.
    - exfalso. destruct K as (K1 & K2 & K3 & K4 & K5). assert (Q : length (opens s) <= length (node_ids g)).
      { apply NoDup_incl_length; [apply NoDup_filter; exact K2|]. intros x J. apply opens_in in J. apply K5. tauto. }
      unfold node_ids in Q. rewrite map_length in Q. lia.
    - cbn [dfs] in E. pose proof D as D0. apply mem_false in D0. rewrite D0 in E. clear D0.
      destruct (dfs_list (dfs k g) (neighbors g u Outgoing) (u :: fst s, snd s)) as [[d f]|] eqn:El; [discriminate|]. clear E.
      destruct K as (K1 & K2 & K3 & K4 & K5).
      assert (NU : ~ In u (snd s)) by (intros X; apply D, K4, X).
      assert (K' : sound g (u :: fst s, snd s)).
      { split; [exact K1|]. split; [constructor; assumption|]. split; [exact K3|]. split; [intros x J; right; apply K4; exact J|].
        intros x [<-|J]; [exact I|apply K5; exact J]. }
      assert (L' : length (g_nodes g) < k + length (opens (u :: fst s, snd s))).
      { unfold opens at 1. cbn [fst snd filter]. apply mem_false in NU. rewrite NU. cbn [negb length]. fold (opens s). unfold opens in L at 1. fold (opens s) in L. change (filter (fun x => negb (existsb (Nat.eqb x) (snd s))) (fst s)) with (opens s). lia. }
      assert (LOOP : forall vs s0, sound g s0 -> same_open (u :: fst s, snd s) s0 -> (forall v, In v vs -> edge g u v) -> length (g_nodes g) < k + length (opens s0) ->
        dfs_list (dfs k g) vs s0 = None -> In u (fst s0) -> ~ In u (snd s0) -> cyclic g).
      { induction vs as [|v vs IHv]; intros s0 Ks O V Ls E Uo Uf; cbn [dfs_list] in E; [discriminate|].
        assert (Ev : edge g u v) by (apply V; left; reflexivity).
        assert (OP : forall x, In x (fst s0) -> ~ In x (snd s0) -> x = u \/ reaches g x u).
        { intros x Xd Xf. destruct (proj2 (proj2 O) x Xd Xf) as [[<-|Y] Z]; [left; reflexivity|]. right. apply R; assumption. }
        destruct (existsb (Nat.eqb v) (fst s0)) eqn:Dv.
        - destruct (existsb (Nat.eqb v) (snd s0)) eqn:Fv.
          + eapply IHv; eauto. intros; apply V; right; assumption.
          + apply mem_iff in Dv. apply mem_false in Fv. exists u. destruct (OP v Dv Fv) as [->|Q]; [apply re_one; exact Ev|].
            eapply re_step; eauto.
        - apply mem_false in Dv. assert (Iv : In v (node_ids g)) by (destruct Ev as (i & e & Ie & _ & <-); apply (proj2 (proj2 W) i e Ie)).
          destruct (dfs k g v s0) as [s2|] eqn:E2.
          + pose proof (dfs_some g W k v s0 Ks Iv) as P. rewrite E2 in P. destruct P as (Q & O2 & _).
            assert (Uo2 : In u (fst s2) /\ ~ In u (snd s2)).
            { exact (dfs_open g u k v s0 s2 Uo Uf E2). }
            eapply (IHv s2); try (apply Uo2); [exact Q|eapply same_open_trans; eauto|intros; apply V; right; assumption| |exact E].
            assert (Le : length (opens s0) <= length (opens s2)); [|lia].
            apply NoDup_incl_length; [apply NoDup_filter; apply Ks|]. intros x X. apply opens_in in X. apply opens_in. destruct X as [Xd Xf].
            exact (dfs_open g x k v s0 s2 Xd Xf E2).
          + apply (IH v s0 Ks Iv Dv); [|exact Ls|exact E2].
            intros x Xd Xf. destruct (OP x Xd Xf) as [->|Q]; [apply re_one; exact Ev|]. eapply reaches_snoc; eauto. }
      eapply (LOOP _ (u :: fst s, snd s) K' (same_open_refl _)); [intros v Iv; apply succ_edge; exact Iv|exact L'|exact El|left; reflexivity|exact NU].
  Qed.

  Lemma dfs_all_some : forall g fuel, wf_graph g -> forall us s s1, sound g s -> opens s = [] -> incl us (node_ids g) -> dfs_all fuel g us s = Some s1 ->
    sound g s1 /\ opens s1 = [] /\ incl (snd s) (snd s1) /\ incl us (snd s1).
  Proof.
    intros g fuel W. induction us as [|u us IH]; intros s s1 K O I E; cbn [dfs_all] in E.
    - injection E as <-. split; [exact K|]. split; [exact O|]. split; [apply incl_refl|intros x []].
    - pose proof (dfs_some g W fuel u s K (I u (or_introl eq_refl))) as P. destruct (dfs fuel g u s) as [s2|]; [|discriminate].
      destruct P as (K2 & O2 & P).
      assert (E2 : opens s2 = []).
      { assert (L : length (opens s2) <= length (opens s)) by (apply opens_length; [apply K2|apply K|exact O2]). rewrite O in L. destruct (opens s2); [reflexivity|cbn in L; lia]. }
      assert (U : In u (snd s2)).
      { destruct P as [P|P]; [|exact P]. apply (proj1 (proj2 O2)). destruct (in_dec Nat.eq_dec u (snd s)) as [Y|Y]; [exact Y|].
        assert (X : In u (opens s)) by (apply opens_in; auto). rewrite O in X. destruct X. }
      destruct (IH s2 s1 K2 E2 (fun x J => I x (or_intror J)) E) as (A & B & C & D). split; [exact A|]. split; [exact B|].
      split; [eapply incl_tran; [apply (proj1 (proj2 O2))|exact C]|]. intros x [<-|X]; auto.
  Qed.
  Lemma dfs_all_none : forall g, wf_graph g -> forall us s, sound g s -> opens s = [] -> incl us (node_ids g) ->
    dfs_all (S (length (g_nodes g))) g us s = None -> cyclic g.
  Proof.
    intros g W. induction us as [|u us IH]; intros s K O I E; cbn [dfs_all] in E; [discriminate|].
    destruct (dfs (S (length (g_nodes g))) g u s) as [s2|] eqn:E1.
    - pose proof (dfs_all_some g (S (length (g_nodes g))) W [u] s s2 K O (fun x J => I x (match J with or_introl e => or_introl e | or_intror f => match f with end end))) as P.
      cbn [dfs_all] in P. rewrite E1 in P. destruct (P eq_refl) as (A & B & _ & _). apply (IH s2 A B (fun x J => I x (or_intror J)) E).
    - destruct (in_dec Nat.eq_dec u (fst s)) as [D|D].
      + exfalso. cbn [dfs] in E1. apply mem_iff in D. rewrite D in E1. discriminate.
      + eapply (dfs_none g W (S (length (g_nodes g))) u s K (I u (or_introl eq_refl)) D); [|rewrite O; cbn; lia|exact E1].
        intros x Xd Xf. assert (X : In x (opens s)) by (apply opens_in; auto). rewrite O in X. destruct X.
  Qed.
  Lemma sound_empty : forall g, sound g ([], []).
  Proof. intros g. split; [exact Logic.I|]. split; [constructor|]. split; [constructor|]. split; intros x []. Qed.
  Lemma is_cyclic_iff : forall g, wf_graph g -> (is_cyclic g = true <-> cyclic g).
  Proof.
    intros g W. unfold is_cyclic. destruct (dfs_all (S (length (g_nodes g))) g (node_ids g) ([], [])) as [s|] eqn:E.
    - split; [discriminate|]. intros (n & R). exfalso.
      destruct (dfs_all_some g _ W _ _ _ (sound_empty g) eq_refl (incl_refl _) E) as ((S1 & _ & N & _) & _ & _ & I).
      assert (J : In n (node_ids g)).
      { assert (X : exists b, edge g n b) by (inversion R; eauto). destruct X as (b & i & e & X & <- & _). apply (proj2 (proj2 W) i e X). }
      exact (sorted_acyclic g (snd s) n S1 N (I n J) R).
    - split; [|reflexivity]. intros _. exact (dfs_all_none g W _ _ (sound_empty g) eq_refl (incl_refl _) E).
  Qed.

  (** ** Building *)
  Lemma add_nodes_fst : forall (l : list (gnode T)) i, map fst (add_nodes i l) = seq i (length l).
  Proof. induction l as [|n l IH]; intros i; cbn; [reflexivity|]. rewrite IH. reflexivity. Qed.
  Lemma index_map_get : forall (l : list (gnode T)) i m k j, aget k (index_map i l m) = Some j ->
    aget k m = Some j \/ exists n, nth_error l (j - i) = Some n /\ gn_id n = k /\ i <= j < i + length l.
  Proof.
    induction l as [|n l IH]; intros i m k j E; cbn in E; [auto|]. destruct (IH _ _ _ _ E) as [E1|(n' & E1 & E2 & L)].
    - destruct (String.eqb_spec (gn_id n) k) as [<-|NE].
      + rewrite aget_aset_eq in E1. injection E1 as <-. right. exists n. rewrite Nat.sub_diag. cbn. split; [reflexivity|]. split; [reflexivity|lia].
      + rewrite aget_aset_ne in E1 by exact NE. auto.
    - right. exists n'. cbn [length]. replace (j - i) with (S (j - S i)) by lia. cbn. split; [exact E1|]. split; [exact E2|lia].
  Qed.
  Lemma index_map_mem : forall (l : list (gnode T)) i m k, (exists j, aget k (index_map i l m) = Some j) <-> (exists j, aget k m = Some j) \/ In k (map gn_id l).
  Proof.
    induction l as [|n l IH]; intros i m k; cbn; [tauto|]. rewrite IH. destruct (String.eqb_spec (gn_id n) k) as [<-|NE].
    - rewrite aget_aset_eq. split; [intros _; right; left; reflexivity|intros _; left; eauto].
    - rewrite aget_aset_ne by exact NE. tauto.
  Qed.
  Lemma add_edges_ok : forall m l i es, add_edges m i l = inr es -> map fst es = seq i (length l) /\
    Forall2 (fun c x => aget (ce_source c) m = Some (ge_src (snd x)) /\ aget (ce_target c) m = Some (ge_tgt (snd x)) /\ ge_handle (snd x) = ce_handle c) l es.
  Proof.
    intros m. induction l as [|c l IH]; intros i es E; cbn in E; [injection E as <-; split; [reflexivity|constructor]|].
    destruct (aget (ce_source c) m) as [s|] eqn:Es; [|discriminate]. destruct (aget (ce_target c) m) as [t|] eqn:Et; [|discriminate].
    destruct (add_edges m (S i) l) as [x|es'] eqn:Ee; [discriminate|]. injection E as <-. destruct (IH _ _ Ee) as [A B].
    split; [cbn; rewrite A; reflexivity|]. constructor; [cbn; auto|exact B].
  Qed.
  Lemma add_edges_missing : forall m l i x, add_edges m i l = inl x -> exists c id, In c l /\ (id = ce_source c \/ id = ce_target c) /\ x = MissingNode id /\ aget id m = None.
  Proof.
    intros m. induction l as [|c l IH]; intros i x E; cbn in E; [discriminate|].
    destruct (aget (ce_source c) m) as [s|] eqn:Es; [|injection E as <-; exists c, (ce_source c); split; [left; reflexivity|auto]].
    destruct (aget (ce_target c) m) as [t|] eqn:Et; [|injection E as <-; exists c, (ce_target c); split; [left; reflexivity|auto]].
    destruct (add_edges m (S i) l) as [y|es'] eqn:Ee; [|discriminate]. injection E as <-. destruct (IH _ _ Ee) as (c' & id & A & B).
    exists c', id. split; [right; exact A|exact B].
  Qed.
  Lemma Forall2_in_right : forall {A B} (R : A -> B -> Prop) l l' y, Forall2 R l l' -> In y l' -> exists x, In x l /\ R x y.
  Proof. intros A B R l l' y H. induction H; intros I; [destruct I|]. destruct I as [<-|I]; [eexists; split; [left; reflexivity|assumption]|]. destruct (IHForall2 I) as (z & Iz & Rz). exists z. split; [right; exact Iz|exact Rz]. Qed.
  Lemma build_wf : forall c g, build_graph c = inr g -> wf_graph g.
  Proof.
    intros c g E. unfold build_graph in E. destruct (add_edges (index_map 0 (c_nodes c) []) 0 (c_edges c)) as [x|es] eqn:Ee; [discriminate|]. injection E as <-.
    destruct (add_edges_ok _ _ _ _ Ee) as [A B]. split; [|split].
    - unfold node_ids. cbn. rewrite add_nodes_fst. apply seq_NoDup.
    - cbn. rewrite A. apply seq_NoDup.
    - intros i e I. cbn in I. unfold node_ids. cbn. rewrite add_nodes_fst. destruct (Forall2_in_right _ _ _ _ B I) as (x & _ & E1 & E2 & _). cbn in E1, E2.
      split; apply in_seq.
      + destruct (index_map_get _ _ _ _ _ E1) as [Q|(n & _ & _ & L)]; [discriminate|lia].
      + destruct (index_map_get _ _ _ _ _ E2) as [Q|(n & _ & _ & L)]; [discriminate|lia].
  Qed.
  Lemma add_nodes_nth : forall (l : list (gnode T)) i j, node_at (Graph (add_nodes i l) []) (i + j) = nth_error l j.
  Proof.
    induction l as [|n l IH]; intros i j; [destruct j; reflexivity|]. unfold node_at. cbn [g_nodes add_nodes find fst].
    destruct j as [|j]; [rewrite Nat.add_0_r, Nat.eqb_refl; reflexivity|]. replace (i =? i + S j) with false by (symmetry; apply Nat.eqb_neq; lia).
    rewrite <- Nat.add_succ_comm. apply IH.
  Qed.
  (** [n] is the node with that id. *)
  Lemma build_ok : forall c g, build_graph c = inr g ->
    (forall i, node_at g i = nth_error (c_nodes c) i) /\ node_ids g = seq 0 (length (c_nodes c)) /\
    Forall2 (fun ce x => exists s t, node_at g (ge_src (snd x)) = Some s /\ gn_id s = ce_source ce /\ node_at g (ge_tgt (snd x)) = Some t /\ gn_id t = ce_target ce /\
      ge_handle (snd x) = ce_handle ce) (c_edges c) (g_edges g).
  Proof.
    intros c g E. unfold build_graph in E. destruct (add_edges (index_map 0 (c_nodes c) []) 0 (c_edges c)) as [x|es] eqn:Ee; [discriminate|]. injection E as <-.
    destruct (add_edges_ok _ _ _ _ Ee) as [A B].
    assert (NA : forall i, node_at (Graph (add_nodes 0 (c_nodes c)) es) i = nth_error (c_nodes c) i) by (intros i; exact (add_nodes_nth (c_nodes c) 0 i)).
    split; [exact NA|]. split; [unfold node_ids; cbn; apply add_nodes_fst|]. eapply Forall2_imp; [|exact B].
    intros ce y (E1 & E2 & E3). destruct (index_map_get _ _ _ _ _ E1) as [Q|(s & S1 & S2 & _)]; [discriminate|].
    destruct (index_map_get _ _ _ _ _ E2) as [Q|(t & T1 & T2 & _)]; [discriminate|].
    rewrite Nat.sub_0_r in S1, T1. exists s, t. rewrite !NA. auto.
  Qed.
  Lemma build_total : forall c : content T, (exists g, build_graph c = inr g) <->
    forall e, In e (c_edges c) -> In (ce_source e) (map gn_id (c_nodes c)) /\ In (ce_target e) (map gn_id (c_nodes c)).
  Proof.
    intros c. unfold build_graph. split.
    - intros (g & E) e I. destruct (add_edges (index_map 0 (c_nodes c) []) 0 (c_edges c)) as [x|es] eqn:Ee; [discriminate|].
      destruct (add_edges_ok _ _ _ _ Ee) as [_ B]. clear Ee E.
      assert (X : (exists j, aget (ce_source e) (index_map 0 (c_nodes c) []) = Some j) /\ exists j, aget (ce_target e) (index_map 0 (c_nodes c) []) = Some j).
      { induction B as [|ce y l es' (E1 & E2 & _) B IH]; [destruct I|]. destruct I as [<-|I]; [eauto|auto]. }
      destruct X as [X Y]. apply index_map_mem in X. apply index_map_mem in Y. destruct X as [(j & X)|X]; [discriminate|]. destruct Y as [(j & Y)|Y]; [discriminate|]. auto.
    - intros H. destruct (add_edges (index_map 0 (c_nodes c) []) 0 (c_edges c)) as [x|es] eqn:Ee; [|eauto].
      destruct (add_edges_missing _ _ _ _ Ee) as (ce & id & I & D & _ & N). destruct (H ce I) as [H1 H2].
      assert (X : exists j, aget id (index_map 0 (c_nodes c) []) = Some j) by (apply index_map_mem; right; destruct D as [->| ->]; assumption).
      destruct X as (j & X). congruence.
  Qed.
  Lemma build_missing : forall (c : content T) x, build_graph c = inl x -> exists e id, In e (c_edges c) /\ (id = ce_source e \/ id = ce_target e) /\
    x = MissingNode id /\ ~ In id (map gn_id (c_nodes c)).
  Proof.
    intros c x E. unfold build_graph in E. destruct (add_edges (index_map 0 (c_nodes c) []) 0 (c_edges c)) as [y|es] eqn:Ee; [|discriminate]. injection E as <-.
    destruct (add_edges_missing _ _ _ _ Ee) as (ce & id & I & D & Q & N). exists ce, id. split; [exact I|]. split; [exact D|]. split; [exact Q|].
    intros J. assert (X : exists j, aget id (index_map 0 (c_nodes c) []) = Some j) by (apply index_map_mem; right; exact J). destruct X as (j & X). congruence.
  Qed.
  Lemma validate_iff : forall g, wf_graph g -> (validate g = None <-> (exists n, inputs g = [n]) /\ ~ cyclic g).
  Proof.
    intros g W. unfold validate, inputs. pose proof (is_cyclic_iff g W) as C. destruct (filter (fun x => is_input (snd x)) (g_nodes g)) as [|a [|b l]]; cbn.
    - split; [discriminate|]. intros [(n & E) _]. discriminate.
    - destruct (is_cyclic g); split; try discriminate; try (intros [_ N]; exfalso; apply N, C; reflexivity).
      + intros _. split; [eexists; reflexivity|]. intros X. apply C in X. discriminate.
      + reflexivity.
    - split; [discriminate|]. intros [(n & E) _]. discriminate.
  Qed.
End Facts.
