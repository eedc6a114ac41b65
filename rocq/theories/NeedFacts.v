(** Facts about the graph of a policy. *)
From Coq Require Import String Ascii Bool List Arith Lia Relations Sorted.
From Verif Require Import Base Dec Value Heap Ast HeapSpec Isolate Session Deps DepsSpec Driver DriverSpec DriverFacts Blocks BlocksSpec PolicyRun SolveFacts PGraph NeedSpec.
Import ListNotations.
Local Open Scope string_scope.
Local Open Scope nat_scope.
Local Open Scope list_scope.

Lemma smem_iff : forall x l, smem x l = true <-> In x l.
Proof.
  unfold smem. intros x l. rewrite existsb_exists. split.
  - intros (y & H & E). apply String.eqb_eq in E. now subst.
  - intros H. exists x. split; auto. apply String.eqb_refl.
Qed.
Lemma smem_false : forall x l, smem x l = false <-> ~ In x l.
Proof. intros x l. rewrite <- smem_iff. destruct (smem x l); split; intros; congruence. Qed.
Lemma preds_iff : forall edges a b, In a (preds edges b) <-> In (a, b) edges.
Proof.
  unfold preds. intros edges a b. rewrite in_map_iff. split.
  - intros ([x y] & <- & H). apply filter_In in H as [H E]. apply String.eqb_eq in E. cbn in *. now subst.
  - intros H. exists (a, b). split; auto. apply filter_In. split; auto. apply String.eqb_refl.
Qed.

Lemma prefix_irrefl : forall q, ~ In q (dot_prefixes q).
Proof.
  intros q H. apply dot_prefixes_iff in H as (y & Ey). apply (f_equal String.length) in Ey.
  assert (K : forall a b, String.length (a ++ b) = String.length a + String.length b) by (induction a; intros; cbn; auto). rewrite K in Ey. cbn in Ey. lia.
Qed.
(** *** Reachability. *)
Section Reach.
  Variable edges : list (string * string).
  Definition open_edges (seen : list string) : nat := length (filter (fun e => negb (smem (snd e) seen)) edges).
  Lemma open_step : forall x seen, smem x seen = false -> open_edges seen = length (preds edges x) + open_edges (x :: seen).
  Proof.
    intros x seen Hx. unfold open_edges, preds. rewrite map_length. induction edges as [|[a b] es IH]; [reflexivity|]. cbn [filter snd].
    change (smem b (x :: seen)) with (String.eqb b x || smem b seen). destruct (String.eqb_spec b x) as [->|N]; cbn [orb negb].
    - rewrite Hx. cbn [negb length]. rewrite IH. reflexivity.
    - destruct (smem b seen); cbn [negb length]; rewrite IH; [reflexivity|]. apply plus_n_Sm.
  Qed.
  Lemma reach_spec : forall fuel stack seen, length stack + open_edges seen < fuel ->
    (forall x y, In x seen -> In y (preds edges x) -> In y seen \/ In y stack) ->
    let r := reach fuel edges stack seen in
    incl seen r /\ incl stack r /\ (forall x y, In x r -> In y (preds edges x) -> In y r).
  Proof.
    induction fuel as [|f IH]; intros stack seen Hf Cl; [lia|]. cbn [reach]. destruct stack as [|x stack].
    - split; [apply incl_refl|]. split; [intros y []|]. intros a b Ha Hb. destruct (Cl a b Ha Hb) as [H|[]]; auto.
    - destruct (smem x seen) eqn:E.
      + cbn in Hf. assert (Cl' : forall a b, In a seen -> In b (preds edges a) -> In b seen \/ In b stack).
        { intros a b Ha Hb. destruct (Cl a b Ha Hb) as [H|[<-|H]]; auto. left. now apply smem_iff. }
        destruct (IH stack seen ltac:(lia) Cl') as (A & B & C). split; auto. split; auto. intros y [<-|Hy]; auto. apply A. now apply smem_iff.
      + pose proof (open_step x seen E) as Hs.
        assert (Hf' : length (preds edges x ++ stack) + open_edges (x :: seen) < f). { rewrite app_length. cbn in Hf. lia. }
        assert (Cl' : forall a b, In a (x :: seen) -> In b (preds edges a) -> In b (x :: seen) \/ In b (preds edges x ++ stack)).
        { intros a b [<-|Ha] Hb; [right; apply in_app_iff; now left|]. destruct (Cl a b Ha Hb) as [H|[<-|H]]; [left; now right|left; now left|right; apply in_app_iff; now right]. }
        destruct (IH _ _ Hf' Cl') as (A & B & C). split; [intros y Hy; apply A; now right|]. split; auto.
        intros y [<-|Hy]; [apply A; now left|apply B, in_app_iff; now right].
  Qed.
  Lemma reach_only : forall (P : string -> Prop), (forall x y, P x -> In y (preds edges x) -> P y) ->
    forall fuel stack seen, (forall x, In x stack -> P x) -> (forall x, In x seen -> P x) -> forall y, In y (reach fuel edges stack seen) -> P y.
  Proof.
    intros P HP. induction fuel as [|f IH]; intros stack seen Hs Hn y Hy; cbn [reach] in Hy; auto. destruct stack as [|x stack]; auto. destruct (smem x seen).
    - apply (IH stack seen); auto. intros z Hz. apply Hs. now right.
    - apply (IH (preds edges x ++ stack) (x :: seen)); auto.
      + intros z Hz. apply in_app_iff in Hz as [Hz|Hz]; [apply (HP x); auto; apply Hs; now left|apply Hs; now right].
      + intros z [<-|Hz]; auto. apply Hs. now left.
  Qed.
End Reach.
Lemma filter_short : forall A (f : A -> bool) l, length (filter f l) <= length l.
Proof. intros A f l. induction l as [|x l IH]; cbn; auto. destruct (f x); cbn; lia. Qed.

Section Facts.
  Variable dm : list string.
  Variable sources : entity_sources.
  Variable rules : list shallow.
  Notation nodes := (graph_nodes dm rules).
  Notation edges := (graph_edges dm sources rules).
  Lemma write_nodes_iff : forall w q, In q (write_nodes dm w) <-> touches dm [w] q.
  Proof.
    intros w q. unfold write_nodes. destruct (in_model dm w) eqn:M.
    - split; [intros []|]. intros (_ & x & [<-|[]] & N & _). apply in_model_iff in M. contradiction.
    - apply in_model_false in M. split.
      + intros [<-|H]; [split; auto; exists w; split; [now left|]; split; auto; apply above_refl|]. apply filter_In in H as [H E].
        apply Bool.negb_true_iff, in_model_false in E. split; auto. exists w. split; [now left|]. split; auto. apply above_iff. now right.
      + intros (N & x & [<-|[]] & _ & A). apply above_iff in A as [->|A]; [now left|right]. apply filter_In. split; auto. now apply Bool.negb_true_iff, in_model_false.
  Qed.
  Lemma writes_iff : forall ws q, In q (flat_map (write_nodes dm) ws) <-> touches dm ws q.
  Proof.
    intros ws q. rewrite in_flat_map. split.
    - intros (w & Hw & H). apply write_nodes_iff in H as (N & x & [<-|[]] & M & A). split; auto. exists w. auto.
    - intros (N & w & Hw & M & A). exists w. split; auto. apply write_nodes_iff. split; auto. exists w. split; [now left|auto].
  Qed.
  Lemma nodes_iff : forall q, In q nodes <-> mentioned dm rules q.
  Proof.
    intros q. unfold graph_nodes, mentioned. rewrite in_flat_map. split; intros (s & Hs & H); exists s; (split; [exact Hs|]);
      [apply in_app_iff in H as [H|H]; [now left|right; now apply writes_iff]|apply in_app_iff; destruct H as [H|H]; [now left|right; now apply writes_iff]].
  Qed.
  Lemma written_iff : forall q, is_written dm rules q = true <-> computed dm rules q.
  Proof.
    intros q. unfold is_written, graph_written, computed.
    assert (K : aget q (found_writers dm (map (fun s => (sh_block s, sh_writes s)) rules)) = first_block dm (map (fun s => (sh_block s, sh_writes s)) rules) q).
    { unfold found_writers. rewrite aget_found. reflexivity. }
    rewrite K. destruct (first_block dm _ q) as [b|] eqn:E.
    - split; auto. intros _. apply first_block_iff in E as (l1 & ws & l2 & El & T & _).
      assert (H : In (b, ws) (map (fun s => (sh_block s, sh_writes s)) rules)) by (rewrite El; apply in_app_iff; right; now left).
      apply in_map_iff in H as (s & Es & Hs). injection Es as <- <-. eauto.
    - split; [discriminate|]. intros (s & Hs & T). exfalso. clear K. induction rules as [|x r IH]; [destruct Hs|]. cbn [map first_block fst snd] in E.
      destruct Hs as [->|Hs].
      + apply touchb_iff in T. rewrite T in E. discriminate.
      + destruct (touchb dm (sh_writes x) q); [discriminate|auto].
  Qed.
  Lemma edges_iff : forall r q, In (r, q) edges <-> depends dm sources rules q r.
  Proof.
    intros r q. unfold graph_edges. rewrite in_app_iff, !in_flat_map. split.
    - intros [(s & Hs & H)|(s & Hs & H)]; apply in_flat_map in H as (w & Hw & H).
      + unfold prefix_edges in H. destruct (in_model dm w) eqn:M; [destruct H|]. apply in_model_false in M. apply in_map_iff in H as (x & Ex & H).
        injection Ex as <- <-. apply filter_In in H as [H E]. apply andb_true_iff in E as [E1 E2]. apply Bool.negb_true_iff, in_model_false in E1.
        apply Bool.negb_true_iff, String.eqb_neq in E2. eapply DPart; eauto. apply above_iff. now right.
      + destruct (in_model dm w) eqn:M; [destruct H|]. apply in_model_false in M. apply in_flat_map in H as (x & Hx & H). unfold read_edges in H.
        apply in_app_iff in H as [H|H]; [|apply in_app_iff in H as [H|H]].
        * destruct (negb (String.eqb x w) && negb (extends x w)) eqn:E; [|destruct H]. destruct H as [H|[]]. injection H as -> ->.
          apply andb_true_iff in E as [_ E]. eapply DRead; eauto. rewrite <- extends_iff. destruct (extends r q); [discriminate|congruence].
        * destruct (entity_rewrite sources x) as [e|] eqn:Er; [|destruct H]. destruct (smem e nodes && negb (String.eqb e w)) eqn:E; [|destruct H].
          destruct H as [H|[]]. injection H as -> ->. apply andb_true_iff in E as [E1 E2]. apply Bool.negb_true_iff, String.eqb_neq in E2.
          eapply DEntity; eauto. apply nodes_iff. now apply smem_iff.
        * apply in_map_iff in H as (a & Ea & H). injection Ea as -> ->. apply filter_In in H as [H E]. rewrite !andb_true_iff in E. destruct E as (((E1 & E2) & E3) & E4).
          eapply DHolder; eauto.
          -- apply above_iff. now right.
          -- intros ->. now apply prefix_irrefl in H.
          -- now apply written_iff.
          -- rewrite <- extends_iff. destruct (extends r q); [discriminate|congruence].
    - intros H. destruct H as [s r Hs Hw Nr Nq A Ne|s r Hs Hw Nq Hr A|s r x Hs Hw Nq Hx A Ne C B|s r x Hs Hw Nq Hx Er M Ne].
      + left. exists s. split; auto. apply in_flat_map. exists r. split; auto. unfold prefix_edges. rewrite (proj2 (in_model_false dm r) Nr).
        apply in_map_iff. exists q. split; auto. apply filter_In. split; [apply above_iff in A as [->|A]; [congruence|auto]|].
        rewrite (proj2 (in_model_false dm q) Nq), (proj2 (String.eqb_neq _ _) Ne). reflexivity.
      + right. exists s. split; auto. apply in_flat_map. exists q. split; auto. rewrite (proj2 (in_model_false dm q) Nq). apply in_flat_map. exists r. split; auto.
        apply in_app_iff. left. assert (E1 : extends r q = false) by (destruct (extends r q) eqn:E; auto; apply extends_iff in E; contradiction). rewrite E1.
        assert (E2 : r <> q) by (intros ->; apply A, above_refl). rewrite (proj2 (String.eqb_neq _ _) E2). now left.
      + right. exists s. split; auto. apply in_flat_map. exists q. split; auto. rewrite (proj2 (in_model_false dm q) Nq). apply in_flat_map. exists x. split; auto.
        apply in_app_iff. right. apply in_app_iff. right. apply in_map_iff. exists r. split; auto. apply filter_In. split; [apply above_iff in A as [->|A]; [congruence|auto]|].
        assert (E1 : extends r q = false) by (destruct (extends r q) eqn:E; auto; apply extends_iff in E; contradiction). rewrite E1.
        assert (E2 : r <> q) by (intros ->; apply B, above_refl). rewrite (proj2 (String.eqb_neq _ _) E2), (proj2 (written_iff r) C).
        assert (E3 : smem r nodes = true). { apply smem_iff, nodes_iff. destruct C as (s' & Hs' & T). exists s'. auto. } rewrite E3. reflexivity.
      + right. exists s. split; auto. apply in_flat_map. exists q. split; auto. rewrite (proj2 (in_model_false dm q) Nq). apply in_flat_map. exists x. split; auto.
        apply in_app_iff. right. apply in_app_iff. left. rewrite Er, (proj2 (smem_iff r nodes) (proj2 (nodes_iff r) M)), (proj2 (String.eqb_neq _ _) Ne). now left.
  Qed.
  Lemma reachable_iff : forall goals q, In q (reachable_from dm sources rules goals) <-> exists g, In g goals /\ mentioned dm rules g /\ depends_on dm sources rules g q.
  Proof.
    intros goals q. unfold reachable_from. set (st := filter (fun g => smem g nodes) goals). split.
    - apply (reach_only edges (fun q => exists g, In g goals /\ mentioned dm rules g /\ depends_on dm sources rules g q)).
      + intros x y (g & Hg & M & D) Hy. exists g. split; auto. split; auto. apply preds_iff, edges_iff in Hy. eapply rt_trans; [exact D|]. now apply rt_step.
      + intros x Hx. apply filter_In in Hx as [Hx E]. exists x. split; auto. split; [now apply nodes_iff, smem_iff|apply rt_refl].
      + intros x [].
    - intros (g & Hg & M & D).
      destruct (reach_spec edges (S (length goals + length edges)) st []) as (_ & B & C).
      { pose proof (filter_short _ (fun g => smem g nodes) goals). fold st in H. unfold open_edges. pose proof (filter_short _ (fun e => negb (smem (snd e) [])) edges). lia. }
      { intros x y []. }
      apply clos_rt_rtn1 in D. induction D as [|y z H D IH]; [|apply (C y); auto; now apply preds_iff, edges_iff].
      apply B. apply filter_In. split; auto. now apply smem_iff, nodes_iff.
  Qed.
  Lemma own_writer_iff : forall members q, own_writer dm rules members q = true <-> computed_here dm rules members q.
  Proof.
    intros members q. unfold own_writer, graph_written, computed_here, found_writers. rewrite aget_found. cbn [aget get_or].
    split.
    - destruct (first_block dm _ q) as [b|] eqn:E; [|discriminate]. intros H. exists b. split; [now apply first_block_iff|now apply smem_iff].
    - intros (b & F & H). apply first_block_iff in F. rewrite F. now apply smem_iff.
  Qed.
  Lemma inputs_iff : forall members goals q, In q (reachable_inputs dm sources rules members goals) <-> is_needed dm sources rules members goals q.
  Proof.
    intros members goals q. unfold reachable_inputs, is_needed. rewrite filter_In, reachable_iff, Bool.negb_true_iff.
    assert (K : own_writer dm rules members q = false <-> ~ computed_here dm rules members q).
    { rewrite <- own_writer_iff. destruct (own_writer dm rules members q); split; intros; congruence. }
    rewrite K. split; [intros [(g & A & B & C) D]|intros (g & A & B & C & D)]; [exists g; auto|]. split; auto. exists g. auto.
  Qed.
  Lemma sinks_iff : forall members q, In q (terminal_sinks dm sources rules members) <->
    computed_here dm rules members q /\ forall q', ~ depends dm sources rules q' q.
  Proof.
    intros members q. unfold terminal_sinks. rewrite dedup_in, filter_In, andb_true_iff, own_writer_iff, Bool.negb_true_iff. split.
    - intros (_ & A & B). split; auto. intros q' Hd. apply edges_iff in Hd.
      assert (E : existsb (fun e => String.eqb (fst e) q) edges = true) by (apply existsb_exists; exists (q, q'); split; auto; apply String.eqb_refl). congruence.
    - intros (A & B). split; [|split; auto].
      + apply nodes_iff. destruct A as (b & (l1 & ws & l2 & El & T & _) & _).
        assert (H : In (b, ws) (map (fun s => (sh_block s, sh_writes s)) rules)) by (rewrite El; apply in_app_iff; right; now left).
        apply in_map_iff in H as (s & Es & Hs). injection Es as <- <-. exists s. auto.
      + destruct (existsb _ edges) eqn:E; auto. apply existsb_exists in E as ([a b] & H & E). apply String.eqb_eq in E. cbn in E. subst a.
        apply edges_iff in H. now apply B in H.
  Qed.
  Lemma outputs_iff : forall members goals q, In q (outputs dm sources rules members goals) <->
    computed_here dm rules members q /\ (forall a, above a q -> a <> q -> ~ computed dm rules a) /\
    (goals = [] \/ exists g, In g goals /\ mentioned dm rules g /\ depends_on dm sources rules g q).
  Proof.
    intros members goals q. unfold outputs. rewrite dedup_in.
    assert (K : In q (computed_paths dm rules members) <-> computed_here dm rules members q /\ forall a, above a q -> a <> q -> ~ computed dm rules a).
    { unfold computed_paths. rewrite filter_In, andb_true_iff, own_writer_iff, Bool.negb_true_iff. split.
      - intros (_ & A & B). split; auto. intros a Ha Ne C. apply above_iff in Ha as [->|Ha]; [congruence|].
        assert (E : existsb (is_written dm rules) (dot_prefixes q) = true) by (apply existsb_exists; exists a; split; auto; now apply written_iff). congruence.
      - intros (A & B). split; [|split; auto].
        + apply nodes_iff. destruct A as (b & (l1 & ws & l2 & El & T & _) & _).
          assert (H : In (b, ws) (map (fun s => (sh_block s, sh_writes s)) rules)) by (rewrite El; apply in_app_iff; right; now left).
          apply in_map_iff in H as (s & Es & Hs). injection Es as <- <-. exists s. auto.
        + destruct (existsb _ (dot_prefixes q)) eqn:E; auto. apply existsb_exists in E as (a & Ha & E). apply written_iff in E. exfalso. apply (B a); auto.
          * apply above_iff. now right.
          * intros ->. now apply prefix_irrefl in Ha. }
    destruct goals as [|g0 gs].
    - rewrite K. intuition.
    - rewrite filter_In, K, smem_iff, reachable_iff. split; [intros ((A & B) & C); auto|]. intros (A & B & [C|C]); [discriminate C|auto].
  Qed.
End Facts.

(** *** Acyclic graphs end somewhere. *)
Section Ends.
  Variable A : Type.
  Hypothesis dec : forall x y : A, {x = y} + {x <> y}.
  Variable edges : list (A * A).
  Notation R := (fun x y => In (x, y) edges).
  Hypothesis acyclic : forall x, ~ clos_trans _ R x x.
  Lemma ends : forall (seen : list A) x, (forall y, In y seen -> clos_trans _ R y x) ->
    forall n, (forall s, NoDup s -> incl s (map fst edges) -> length s <= n + length seen) -> NoDup seen -> incl seen (map fst edges) ->
    exists e, clos_refl_trans _ R x e /\ forall z, ~ R e z.
  Proof.
    intros seen x H n. revert seen x H. induction n as [|n IH]; intros seen x H Hb Nd Hi.
    - exists x. split; [apply rt_refl|]. intros z Hz. assert (N : ~ In x seen) by (intros C; exact (acyclic x (H x C))).
      assert (L : length (x :: seen) <= 0 + length seen). { apply Hb; [now constructor|]. intros y [<-|Hy]; auto. apply in_map_iff. exists (x, z). auto. }
      cbn in L. lia.
    - destruct (in_dec dec x (map fst edges)) as [Hx|Hx].
      + apply in_map_iff in Hx as ([a z] & E & Hz). cbn in E. subst a. assert (N : ~ In x seen) by (intros C; exact (acyclic x (H x C))).
        destruct (IH (x :: seen) z) as (e & P & Q).
        * intros y [<-|Hy]; [now apply t_step|]. eapply t_trans; [apply H; exact Hy|]. now apply t_step.
        * intros s Ns Is. specialize (Hb s Ns Is). cbn. lia.
        * now constructor.
        * intros y [<-|Hy]; auto. apply in_map_iff. exists (x, z). auto.
        * exists e. split; auto. eapply rt_trans; [apply rt_step; exact Hz|exact P].
      + exists x. split; [apply rt_refl|]. intros z Hz. apply Hx. apply in_map_iff. exists (x, z). auto.
  Qed.
  Lemma ends_somewhere : forall x, exists e, clos_refl_trans _ R x e /\ forall z, ~ R e z.
  Proof.
    intros x. apply (ends [] x) with (n := length edges); [intros y []| |constructor|intros y []].
    intros s Ns Is. rewrite <- (map_length fst edges). cbn. rewrite Nat.add_0_r. now apply NoDup_incl_length.
  Qed.
End Ends.

(** *** What is present. *)
Lemma path_satisfied_iff : forall h segs v, path_satisfied h v segs = true <-> present h v segs.
Proof.
  induction segs as [|s r IH]; intros v; cbn [path_satisfied].
  - split; auto. intros _. apply PHere.
  - split.
    + intros H. destruct v; try discriminate; [apply PList|]. destruct (hobj h l) as [m|] eqn:E; [|discriminate]. destruct (aget s m) as [x|] eqn:F; [|discriminate].
      eapply PField; eauto. now apply IH.
    + intros H. inversion H as [|l s0 r0|l m s0 x r0 E F P]; subst; auto. rewrite E, F. now apply IH.
Qed.
Lemma split_dot_app : forall a b, split_dot a = [a] -> split_dot (a ++ "." ++ b)%string = a :: split_dot b.
Proof.
  unfold split_dot. induction a as [|c a IH]; intros b E; cbn [append split_on].
  - unfold dot_char. rewrite Ascii.eqb_refl. reflexivity.
  - cbn [split_on] in E. destruct (split_on_app a dot_char) as (x & r & Ea). rewrite Ea in *. destruct (Ascii.eqb c dot_char).
    + injection E as E1 E2. discriminate.
    + injection E as -> ->. change (append "." b) with (String dot_char b) in *. pose proof (IH b eq_refl) as K. cbn [append] in K |- *. rewrite K. reflexivity.
Qed.
Lemma split_dot_join : forall l, l <> [] -> (forall s, In s l -> split_dot s = [s]) -> split_dot (join_dots l) = l.
Proof.
  induction l as [|x l IH]; intros N H; [congruence|]. destruct l as [|y l]; [apply H; now left|].
  change (join_dots (x :: y :: l)) with (x ++ "." ++ join_dots (y :: l))%string. rewrite split_dot_app by (apply H; now left). rewrite IH; [reflexivity|discriminate|].
  intros s Hs. apply H. now right.
Qed.
Lemma drop_app : forall a b, drop (String.length a) (a ++ b)%string = b.
Proof. induction a as [|c a IH]; intros b; cbn; [destruct b; reflexivity|auto]. Qed.
Lemma drop_dot : forall a b, drop (S (String.length a)) (a ++ "." ++ b)%string = b.
Proof. induction a as [|c a IH]; intros b; cbn [String.length append drop]; [destruct b; reflexivity|exact (IH b)]. Qed.
Lemma split_dot_cons : forall p a b r, split_dot p = a :: b :: r -> exists q, p = (a ++ "." ++ q)%string /\ split_dot a = [a].
Proof.
  unfold split_dot. induction p as [|c p IH]; intros a b r E; cbn [split_on] in E; [discriminate|]. destruct (split_on_app p dot_char) as (x & l & Ep). rewrite Ep in E.
  destruct (Ascii.eqb_spec c dot_char) as [->|N].
  - injection E as <- <- <-. exists p. auto.
  - injection E as <- ->. destruct (IH x b r Ep) as (q & -> & Ea). exists q. split; [reflexivity|]. cbn [split_on]. rewrite Ea, (proj2 (Ascii.eqb_neq _ _) N). reflexivity.
Qed.
Lemma split_once_iff : forall p e r, split_once p = Some (e, r) <-> p = (e ++ "." ++ r)%string /\ split_dot e = [e].
Proof.
  intros p e r. unfold split_once. split.
  - destruct (split_dot p) as [|a [|b l]] eqn:E; try discriminate. destruct (split_dot_cons p a b l E) as (q & -> & Ea). rewrite drop_dot. intros H. injection H as <- <-. auto.
  - intros [-> E]. rewrite split_dot_app by exact E. destruct (split_dot r) as [|b l] eqn:Er; [|now rewrite drop_dot].
    unfold split_dot in Er. destruct (split_on_app r dot_char) as (x & y & K). rewrite K in Er. discriminate.
Qed.
Lemma input_satisfied_iff : forall sources h v q, input_satisfied sources h v q = true <-> supplied sources h v q.
Proof.
  intros sources h v q. unfold input_satisfied, supplied. rewrite orb_true_iff, path_satisfied_iff.
  assert (K : forall A B C : Prop, (B <-> C) -> (A \/ B <-> A \/ C)) by tauto. apply K. clear K. split.
  - destruct (split_once q) as [[e rest]|] eqn:E; [|discriminate]. apply split_once_iff in E as [-> E]. destruct (aget e sources) as [src|] eqn:F; [|discriminate].
    intros H. exists e, rest, src. split; auto. split; auto. split; auto. now apply path_satisfied_iff.
  - intros (e & rest & src & -> & E & F & P). rewrite (proj2 (split_once_iff _ e rest) (conj eq_refl E)), F. now apply path_satisfied_iff.
Qed.

(** *** Paths into entities. *)
Lemma put_longest_in : forall e l x, In x (put_longest e l) <-> x = e \/ In x l.
Proof. induction l as [|y l IH]; intros x; cbn [put_longest]; [cbn; intuition|]. destruct (Nat.ltb _ _); cbn [In]; rewrite ?IH; intuition. Qed.
Lemma entity_form_in : forall s src e, In (src, e) (entity_form s) -> In (e, src) s.
Proof.
  intros s src e. unfold entity_form.
  assert (K : forall l acc x, In x (fold_left (fun l e => put_longest e l) l acc) -> In x l \/ In x acc).
  { induction l as [|y l IH]; intros acc x H; cbn in *; auto. apply IH in H as [H|H]; auto. apply put_longest_in in H as [->|H]; auto. }
  intros H. apply K in H as [H|[]]. apply in_map_iff in H as ([a b] & E & H). cbn in E. injection E as -> ->. now apply filter_In in H as [H _].
Qed.
Lemma rewrite_once_form : forall s p q, rewrite_once (entity_form s) p = Some q -> exists e src rest, In (e, src) s /\ q = (e ++ "." ++ rest)%string.
Proof.
  intros s p q. unfold rewrite_once. destruct (find _ (entity_form s)) as [[src e]|] eqn:F; [|discriminate]. intros H. injection H as <-.
  apply find_some in F as [F _]. apply entity_form_in in F. exists e, src, (drop (S (String.length src)) p). split; [exact F|reflexivity].
Qed.
Lemma entity_rewrite_form : forall s p q, entity_rewrite s p = Some q -> exists e src rest, In (e, src) s /\ q = (e ++ "." ++ rest)%string.
Proof.
  intros s p q. unfold entity_rewrite. destruct (rewrite_once (entity_form s) p) as [x|] eqn:E; [|discriminate]. intros H0. assert (H : rewrite_loop 31 (entity_form s) x = q) by congruence. clear H0. apply rewrite_once_form in E.
  revert x E H. generalize 31 as n. induction n as [|n IH]; intros x E H; cbn [rewrite_loop] in H; [now subst|].
  destruct (rewrite_once (entity_form s) x) as [y|] eqn:Ey; [apply (IH y); auto; now apply rewrite_once_form in Ey|now subst].
Qed.

Definition longer (a b : string * string) : Prop := String.length (fst b) <= String.length (fst a).
Lemma put_longest_sorted : forall e l, StronglySorted longer l -> StronglySorted longer (put_longest e l).
Proof.
  induction l as [|x l IH]; intros H; cbn [put_longest]; [repeat constructor|]. destruct (Nat.ltb_spec (String.length (fst x)) (String.length (fst e))).
  - constructor; auto. constructor; [unfold longer; lia|]. apply StronglySorted_inv in H as [_ H]. eapply Forall_impl; [|exact H]. unfold longer. intros; lia.
  - apply StronglySorted_inv in H as [H1 H2]. constructor; auto. apply Forall_forall. intros y Hy. apply put_longest_in in Hy as [->|Hy]; [exact H0|]. rewrite Forall_forall in H2. auto.
Qed.
Lemma entity_form_sorted : forall s, StronglySorted longer (entity_form s).
Proof.
  intros s. unfold entity_form. generalize (map (fun e : string * string => (snd e, fst e)) (filter (fun e => negb (String.eqb (snd e) (fst e))) s)). intros l.
  assert (K : forall acc, StronglySorted longer acc -> StronglySorted longer (fold_left (fun l e => put_longest e l) l acc)).
  { induction l as [|y l IH]; intros acc H; cbn; auto. apply IH. now apply put_longest_sorted. }
  apply K. constructor.
Qed.
Lemma entity_form_iff : forall s src e, In (src, e) (entity_form s) <-> In (e, src) s /\ src <> e.
Proof.
  intros s src e. unfold entity_form.
  assert (K : forall l acc x, In x (fold_left (fun l e => put_longest e l) l acc) <-> In x l \/ In x acc).
  { induction l as [|y l IH]; intros acc x; cbn; [tauto|]. rewrite IH, put_longest_in. intuition. }
  rewrite K, in_map_iff. split.
  - intros [([a b] & E & H)|[]]. cbn in E. injection E as -> ->. apply filter_In in H as [H N]. split; auto. cbn in N. now apply Bool.negb_true_iff, String.eqb_neq in N.
  - intros [H N]. left. exists (e, src). split; auto. apply filter_In. split; auto. cbn. now apply Bool.negb_true_iff, String.eqb_neq.
Qed.
Lemma app_same : forall a b c, (a ++ c = b ++ c)%string -> a = b.
Proof.
  intros a b c H. assert (L : String.length a = String.length b).
  { apply (f_equal String.length) in H. revert H. assert (A : forall x y, String.length (x ++ y)%string = String.length x + String.length y) by (induction x; intros y; cbn; auto). rewrite !A. lia. }
  revert b H L. induction a as [|x a IH]; intros [|y b] H L; try discriminate L; auto. cbn in H. injection H as -> H. f_equal. apply IH; auto.
Qed.
Lemma into_iff : forall p src e, String.prefix (src ++ ".") p && negb (String.eqb (e ++ "." ++ drop (S (String.length src)) p) p) = true <->
  src <> e /\ exists rest, p = (src ++ "." ++ rest)%string.
Proof.
  intros p src e. assert (A : forall r, ((src ++ ".") ++ r = src ++ "." ++ r)%string) by (intros r; induction src as [|c src IH]; [reflexivity|cbn; f_equal; exact IH]).
  assert (D : forall r, drop (S (String.length src)) (src ++ "." ++ r) = r).
  { intros r. rewrite <- A. replace (S (String.length src)) with (String.length (src ++ ".")); [apply drop_app|]. clear. induction src; cbn; auto. }
  rewrite andb_true_iff, prefix_iff, Bool.negb_true_iff, String.eqb_neq. split.
  - intros [(r & E) N]. rewrite A in E. subst p. rewrite D in N. split; [|eauto]. intros ->. now apply N.
  - intros [N (r & ->)]. rewrite D. split; [exists r; now rewrite A|]. intros E. apply app_same in E. now apply N.
Qed.
Lemma sorted_find : forall f l x, StronglySorted longer l -> find f l = Some x -> In x l /\ f x = true /\ forall y, In y l -> f y = true -> longer x y.
Proof.
  induction l as [|z l IH]; intros x H F; [discriminate F|]. cbn in F. apply StronglySorted_inv in H as [H1 H2]. rewrite Forall_forall in H2. destruct (f z) eqn:E.
  - injection F as <-. split; [now left|]. split; auto. intros y [<-|Hy] _; [unfold longer; lia|]. auto.
  - destruct (IH x H1 F) as (I1 & I2 & I3). split; [now right|]. split; auto. intros y [<-|Hy] Fy; [congruence|auto].
Qed.
Lemma rewrite_once_spec : forall s p, match rewrite_once (entity_form s) p with Some q => one_entity s p q | None => forall src e rest, ~ goes_into s p src e rest end.
Proof.
  intros s p. unfold rewrite_once. destruct (find _ (entity_form s)) as [[src e]|] eqn:F.
  - destruct (sorted_find _ _ _ (entity_form_sorted s) F) as (I1 & I2 & I3). cbn [fst snd] in *. apply into_iff in I2 as [N (rest & ->)]. apply entity_form_iff in I1 as [I1 _].
    exists src, e, rest. split; [repeat split; auto|]. split.
    + f_equal. f_equal. assert (A : (src ++ "." ++ rest = (src ++ ".") ++ rest)%string) by (clear; induction src as [|c src IH]; [reflexivity|cbn; f_equal; exact IH]). rewrite A.
      replace (S (String.length src)) with (String.length (src ++ ".")); [apply drop_app|]. clear. induction src; cbn; auto.
    + intros src' e' rest' (H1 & H2 & H3). apply (I3 (src', e')); [now apply entity_form_iff|]. apply into_iff. cbn [fst snd]. eauto.
  - intros src e rest (H1 & H2 & H3). assert (Q : In (src, e) (entity_form s)) by now apply entity_form_iff. pose proof (find_none _ _ F _ Q) as E. cbn [fst snd] in E.
    rewrite (proj2 (into_iff p src e)) in E; [discriminate E|eauto].
Qed.
Lemma rewrite_loop_spec : forall s n p, exists k, k <= n /\ entities_replaced s k p (rewrite_loop n (entity_form s) p) /\
  (k = n \/ forall src e rest, ~ goes_into s (rewrite_loop n (entity_form s) p) src e rest).
Proof.
  intros s. induction n as [|n IH]; intros p; [exists 0; cbn; auto|]. cbn [rewrite_loop]. pose proof (rewrite_once_spec s p) as R. destruct (rewrite_once (entity_form s) p) as [q|].
  - destruct (IH q) as (k & K1 & K2 & K3). exists (S k). split; [lia|]. split; [exists q; auto|]. destruct K3 as [->|K3]; auto.
  - exists 0. split; [lia|]. split; [reflexivity|]. auto.
Qed.
Lemma entity_rewrite_spec : forall s p, match entity_rewrite s p with
  | Some q => exists k, 1 <= k <= 32 /\ entities_replaced s k p q /\ (k = 32 \/ forall src e rest, ~ goes_into s q src e rest)
  | None => forall src e rest, ~ goes_into s p src e rest
  end.
Proof.
  intros s p. unfold entity_rewrite. pose proof (rewrite_once_spec s p) as R. destruct (rewrite_once (entity_form s) p) as [q|]; [|exact R].
  destruct (rewrite_loop_spec s 31 q) as (k & K1 & K2 & K3). exists (S k). split; [lia|]. split; [exists q; auto|]. destruct K3 as [->|K3]; auto.
Qed.

(** *** What is missing is sorted. *)
Definition path_lt (a b : string) : Prop := String.compare a b = Lt.
Lemma put_path_sorted : forall x l, Sorted path_lt l -> Sorted path_lt (put_path x l).
Proof.
  induction l as [|y l IH]; intros H; cbn [put_path]; [repeat constructor|]. destruct (String.compare x y) eqn:C; [exact H|constructor; [exact H|constructor; exact C]|].
  - inversion H as [|y0 l0 H1 H2]; subst. constructor; auto.
    assert (Yx : path_lt y x) by (unfold path_lt; rewrite String.compare_antisym, C; reflexivity).
    destruct l as [|z l]; [constructor; exact Yx|]. inversion H2 as [|z0 l0 Hz]; subst. cbn [put_path]. destruct (String.compare x z); constructor; auto.
Qed.
Lemma dedup_sorted : forall l, Sorted path_lt (dedup l).
Proof. induction l as [|x l IH]; [constructor|]. cbn. now apply put_path_sorted. Qed.
