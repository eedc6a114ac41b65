(** Facts about the evaluation of a whole policy. *)
From Coq Require Import String Ascii Bool List Arith Lia Relations.
From Verif Require Import Base Dec Value Heap Ast Ops Compiler Eval Funcs HeapSpec HeapFacts Isolate Session PureFacts RunSpec ContentFacts
  Deps DepsSpec DepsClaims Driver DriverSpec DriverFacts Blocks BlocksSpec AssertFacts BlocksFacts PolicyRun PolicySpec.
From Verif Require RepFacts KeepFacts.
Import ListNotations.
Local Open Scope string_scope.
Local Open Scope nat_scope.
Local Open Scope list_scope.

(** *** Sources. *)
Lemma no_root_reads : forall n, ~ In "$root" (names n) -> RepFacts.reads (fun _ => true) false n = true.
Proof.
  assert (FL : forall l, Forall (fun n => ~ In "$root" (names n) -> RepFacts.reads (fun _ => true) false n = true) l ->
    ~ In "$root" (flat_map names l) -> forallb (RepFacts.reads (fun _ => true) false) l = true).
  { intros l H. induction H as [|x l Hx H IH]; intros N; cbn in *; auto. rewrite in_app_iff in N. rewrite Hx, IH; tauto. }
  assert (FP : forall l, Forall (fun kv => (~ In "$root" (names (fst kv)) -> RepFacts.reads (fun _ => true) false (fst kv) = true) /\
      (~ In "$root" (names (snd kv)) -> RepFacts.reads (fun _ => true) false (snd kv) = true)) l ->
    ~ In "$root" (flat_map (fun kv => names (fst kv) ++ names (snd kv)) l) ->
    forallb (fun kv => RepFacts.reads (fun _ => true) false (fst kv) && RepFacts.reads (fun _ => true) false (snd kv)) l = true).
  { intros l H. induction H as [|x l [Hx Hy] H IH]; intros N; cbn in *; auto. rewrite !in_app_iff in N. rewrite Hx, Hy, IH; tauto. }
  induction n using node_ind'; intros N; cbn [RepFacts.reads]; cbn [names] in N; rewrite ?in_app_iff in N; auto.
  - rewrite FP by tauto. destruct o; cbn in *; [rewrite H0 by tauto|]; reflexivity.
  - destruct N. now left.
  - rewrite IHn1, IHn2; tauto.
  - rewrite IHn by tauto. destruct f, t; cbn in *; try (rewrite H by tauto); try (rewrite H0 by tauto); auto.
  - rewrite IHn1, IHn2; tauto.
  - rewrite IHn1, IHn2, IHn3; tauto.
  - rewrite IHn1, IHn2; tauto.
  - rewrite IHn, FL; tauto.
Qed.
Lemma closed_reads : forall parse e, closed_source parse e -> reads_only parse e.
Proof. intros parse e H n E. destruct (H n E) as (A & _ & _ & D). split; auto. now apply no_root_reads. Qed.
Lemma closed_plain : forall parse b, closed_block parse b -> plain_block parse b.
Proof.
  intros parse b [A B]. split; [intros e He; destruct (A e He) as [C|[_ C]]; [now apply closed_reads|exact C]|]. destruct b; auto.
Qed.

(** *** Paths. *)
Lemma split_on_app : forall s c, exists x r, split_on c s = x :: r.
Proof.
  induction s as [|a s IH]; intros c; cbn; [eauto|]. destruct (IH c) as (x & r & E). rewrite E. destruct (Ascii.eqb a c); eauto.
Qed.
Lemma flat_nodot : forall k, split_dot k = [k] -> dot_prefixes k = [].
Proof.
  unfold split_dot. induction k as [|c k IH]; intros E; auto. cbn in *. destruct (split_on_app k dot_char) as (x & r & Ek). rewrite Ek in *.
  unfold dot_char in *. destruct (Ascii.eqb c ".") eqn:C; cbn in E.
  - injection E as E1 E2. discriminate.
  - injection E as E1 ->. subst x. rewrite (IH eq_refl). reflexivity.
Qed.
Lemma nodot_above : forall a k, dot_prefixes k = [] -> above a k -> a = k.
Proof. intros a k D H. apply above_iff in H as [H|H]; auto. rewrite D in H. destruct H. Qed.
Lemma sorted_two : forall q a b, In a (dot_prefixes q) -> In b (dot_prefixes q) -> above a b \/ above b a.
Proof.
  intros q a b. pose proof (dot_prefixes_sorted q) as H. induction H as [|x l H IH F]; intros Ha Hb; [destruct Ha|].
  rewrite Forall_forall in F. destruct Ha as [->|Ha], Hb as [->|Hb]; auto. left. apply above_refl.
Qed.
Lemma nodot_two : forall a b q, dot_prefixes a = [] -> dot_prefixes b = [] -> above a q -> above b q -> a = b.
Proof.
  intros a b q Da Db Ha Hb. apply above_iff in Ha. apply above_iff in Hb.
  assert (K : forall x y, dot_prefixes y = [] -> above x y -> x = y) by (intros; now apply nodot_above).
  destruct Ha as [->|Ha], Hb as [->|Hb]; auto.
  - rewrite Da in Hb. destruct Hb.
  - rewrite Db in Ha. destruct Ha.
  - destruct (sorted_two _ _ _ Ha Hb) as [H|H]; [auto|symmetry; auto].
Qed.
Lemma join_above : forall x r, above x (join_dots (x :: r)).
Proof. intros x [|y r]; [left; reflexivity|right]. exists (join_dots (y :: r)). reflexivity. Qed.
Lemma put_path_in : forall p l x, In x (put_path p l) <-> x = p \/ In x l.
Proof.
  induction l as [|y l IH]; intros x; cbn; [intuition|]. destruct (String.compare p y) eqn:C; cbn; rewrite ?IH; [|intuition|intuition].
  apply String.compare_eq_iff in C. subst. intuition.
Qed.
Lemma dedup_in : forall l x, In x (dedup l) <-> In x l.
Proof. unfold dedup. induction l as [|y l IH]; intros x; cbn; [reflexivity|]. rewrite put_path_in, IH. intuition. Qed.

(** *** Contexts as trees. *)
Lemma shows_tree : forall h l ts k t, repr h (VObj l) (TObj ts) -> (shows h (VObj l) k t <-> aget k ts = Some t).
Proof.
  intros h l ts k t R. inversion R as [| | | | |l0 m ts0 G F|]; subst. rewrite (shows_field h l m k t G). clear R G.
  assert (K : match aget k m with Some v => exists u, aget k ts = Some u /\ repr h v u | None => aget k ts = None end).
  { induction F as [|[a v] [b u] m ts [E R] F IH]; cbn; auto. cbn in *. subst b. destruct (String.eqb a k); eauto. }
  destruct (aget k m) as [v|].
  - destruct K as (u & E & R). rewrite E. split.
    + intros (v0 & E0 & R0). injection E0 as <-. now rewrite (repr_fun _ _ _ R _ R0).
    + intros E0. injection E0 as <-. eauto.
  - rewrite K. split; [intros (v0 & E0 & _)|]; intros; discriminate.
Qed.
Lemma object_tree : forall h l m, hget h l = Some (CObj m) -> (forall k v, In (k, v) m -> exists t, repr h v t) ->
  exists ts, repr h (VObj l) (TObj ts).
Proof.
  intros h l m G H. assert (K : exists ts, Forall2 (fun kv kt => fst kv = fst kt /\ repr h (snd kv) (snd kt)) m ts).
  { clear G. induction m as [|[k v] m IH]; [exists []; constructor|]. destruct IH as (ts & F); [intros; eapply H; right; eauto|].
    destruct (H k v (or_introl eq_refl)) as (t & R). exists ((k, t) :: ts). constructor; auto. }
  destruct K as (ts & F). exists ts. eapply RObj; eauto.
Qed.
Lemma world_trees : forall ls le ms me h, world ls le ms me h ->
  (exists ts, repr h (VObj ls) (TObj ts)) /\ (exists te, repr h (VObj le) (TObj te)).
Proof.
  intros ls le ms me h (N & A & B & N1 & N2 & M & T).
  split; [apply (object_tree h ls ms A)|apply (object_tree h le me B)]; intros k v H; destruct (T k v) as (t & R & _); eauto; apply in_app_iff; auto.
Qed.
(** The first names of the paths an expression reads directly. *)
Definition head_of (parse : ekind -> string -> res node) (e k : string) : Prop :=
  exists n x r, parse KStandard e = Ok n /\ In x (flatten_reads (walk n)) /\ pr_alias x = false /\ pr_path x = k :: r.
Lemma pushed_nonempty : forall p a u x, In x (pushed p a u) -> pr_path x <> [].
Proof. intros [|y p] a u x H; cbn in H; [destruct H|]. destruct H as [<-|[]]. discriminate. Qed.
Lemma flat_nonempty : forall d x A r, In r (flat_dep d A x) -> pr_path r <> [].
Proof.
  intros d x. revert d. induction x as [p v|p|p a l IH] using rdep_ind'; intros d A r H; cbn [flat_dep] in H; try (eapply pushed_nonempty; eauto; fail).
  cbv zeta in H. apply in_app_iff in H as [H|H]; [eapply pushed_nonempty; eauto|]. destruct (max_nesting <=? S d); [destruct H|].
  apply in_flat_map in H as (y & Hy & H). rewrite Forall_forall in IH. eapply IH; eauto.
Qed.
Lemma reported_nonempty : forall l x, In x (flatten_reads l) -> pr_path x <> [].
Proof. intros l x H. unfold flatten_reads in H. cbn [Nat.leb max_nesting] in H. apply in_flat_map in H as (y & Hy & H). eapply flat_nonempty; eauto. Qed.

Section Same.
  Variable L : lib.
  Hypothesis HL : ContentFacts.plain_lib L.
  Variable parse : ekind -> string -> res node.
  Notation X := (std_ext L).
  Lemma outcome_same : forall h1 c1 t1 h2 c2 t2 e, closed_source parse e -> repr h1 (VObj c1) (TObj t1) -> repr h2 (VObj c2) (TObj t2) ->
    aget "$" t1 = aget "$" t2 -> (forall k, head_of parse e k -> aget k t1 = aget k t2) ->
    ContentFacts.same_outcome (snd (srun X parse KStandard e (scope_new (VObj c1)) h1), fst (srun X parse KStandard e (scope_new (VObj c1)) h1))
                              (snd (srun X parse KStandard e (scope_new (VObj c2)) h2), fst (srun X parse KStandard e (scope_new (VObj c2)) h2)).
  Proof.
    intros h1 c1 t1 h2 c2 t2 e C R1 R2 D H. unfold srun. destruct (parse KStandard e) as [n|er] eqn:P; [|reflexivity].
    destruct (compile X n) as [code|er] eqn:Cn; [|reflexivity]. destruct (C n P) as (Na & Sn & Nn & Nr).
    destruct (evaluate X n (scope_new (VObj c1)) h1) as [r1 g1] eqn:E1.
    assert (Y : yields X n (scope_new (VObj c1)) h1 r1 g1) by (apply yields_iff; split; [now exists code|auto]).
    destruct (reads_reported L n false HL Na Sn Nn (VObj c1) (VObj c2) h1 h2 (TObj t1) (TObj t2) r1 g1 R1 R2 eq_refl eq_refl) as (r2 & g2 & Y2 & S0); auto.
    { split.
      - cbn. now rewrite D.
      - intros x Hx Ha. pose proof (reported_nonempty _ _ Hx) as Ne. destruct (pr_path x) as [|k r] eqn:Px; [congruence|].
        assert (Hk : k <> "$root"). { intros ->. apply Nr. eapply reported_written; eauto. rewrite Px. now left. }
        unfold input_at. rewrite (proj2 (String.eqb_neq _ _) Hk). cbn. rewrite H; auto. exists n, x, r. auto. }
    apply yields_iff in Y2 as [_ E2]. rewrite E2. exact S0.
  Qed.
  Lemma heads_same : forall h1 c1 h2 c2 e, closed_source parse e ->
    (exists t1, repr h1 (VObj c1) (TObj t1)) -> (exists t2, repr h2 (VObj c2) (TObj t2)) ->
    (forall k, k = "$" \/ head_of parse e k -> forall t, shows h1 (VObj c1) k t <-> shows h2 (VObj c2) k t) ->
    same_on L parse h1 (VObj c1) h2 (VObj c2) e.
  Proof.
    intros h1 c1 h2 c2 e C (t1 & R1) (t2 & R2) H.
    assert (Q : forall k, k = "$" \/ head_of parse e k -> aget k t1 = aget k t2).
    { intros k Hk. specialize (H k Hk). destruct (aget k t1) as [t|] eqn:E.
      - symmetry. apply (shows_tree h2 c2 t2 k t R2). apply H. now apply (shows_tree h1 c1 t1 k t R1).
      - destruct (aget k t2) as [t|] eqn:E2; auto. apply (shows_tree h2 c2 t2 k t R2) in E2. apply H in E2. apply (shows_tree h1 c1 t1 k t R1) in E2. congruence. }
    pose proof (outcome_same h1 c1 t1 h2 c2 t2 e C R1 R2 (Q _ (or_introl eq_refl)) (fun k Hk => Q k (or_intror Hk))) as S0. unfold same_on, holds_in, works, outcome, evaluates.
    destruct (srun X parse KStandard e (scope_new (VObj c1)) h1) as [g1 [v1|e1]], (srun X parse KStandard e (scope_new (VObj c2)) h2) as [g2 [v2|e2]];
      cbn in S0 |- *; try contradiction.
    - destruct S0 as (t & Q1 & Q2). split.
      + inversion Q1; subst; inversion Q2; subst; auto.
      + split; [split; eauto|]. intros u. split; intros (x & y & E & Q0); injection E as <- <-; eexists; eexists; (split; [reflexivity|]).
        * now rewrite (repr_fun _ _ _ Q0 _ Q1).
        * now rewrite (repr_fun _ _ _ Q0 _ Q2).
    - subst. split; auto. split; [split; intros (v & E); discriminate|]. intros u. split; intros (x & y & E & Q0); discriminate.
  Qed.

  (** Sharper forms of [picked_same] and [gives_same]: the conditions, and the value of the chosen arm. *)
  Definition asked_sources (b : block) : list string :=
    match b with
    | BExpression _ e => [e]
    | BAssertion _ l => map ac_expr l
    | BMatch _ arms => filter (fun c => negb (String.eqb c "")) (map ma_cond arms)
    end.
  Definition chosen_sources (b : block) (p : pick) : list string :=
    match b, p with
    | BMatch _ arms, PMatched (Some id) =>
        match find (fun a => String.eqb (ma_id a) id) arms with
        | Some a => if String.eqb (ma_value a) "" then [] else [ma_value a]
        | None => []
        end
    | _, _ => []
    end.
  Lemma sources_closed : forall b p e, closed_block parse b -> In e (asked_sources b ++ chosen_sources b p) -> closed_source parse e /\ e <> "".
  Proof.
    intros b p e [C D] H. assert (N : In e (block_sources b) /\ e <> "").
    { apply in_app_iff in H as [H|H].
      - destruct b as [k x|k l|k arms]; cbn in *.
        + destruct H as [<-|[]]. auto.
        + split; [exact H|]. apply in_map_iff in H as (c & <- & Hc). auto.
        + apply filter_In in H as [H N]. split; [apply in_app_iff; now left|]. intros ->. discriminate N.
      - destruct b as [k x|k l|k arms]; cbn in H; try (destruct H; fail). destruct p as [[id|]|]; try (destruct H; fail).
        destruct (find _ arms) as [a|] eqn:Fa; [|destruct H]. destruct (String.eqb_spec (ma_value a) "") as [Ev|Ev]; [destruct H|]. destruct H as [<-|[]]. split; auto.
        cbn. apply in_app_iff. right. apply in_map. now apply find_some in Fa. }
    destruct N as [N1 N2]. split; auto. destruct (C e N1) as [K|[K _]]; [exact K|contradiction].
  Qed.
  Lemma picked_same' : forall h c1 g c2 b p, (forall e, In e (asked_sources b) -> same_on L parse h c1 g c2 e) ->
    picked L parse h c1 b p -> picked L parse g c2 b p.
  Proof.
    intros h c1 g c2 b p S0 C. destruct b as [k e|k cs|k arms]; cbn [picked] in *; auto. destruct C as (o & C & E). exists o. split; auto. clear E.
    assert (S1 : forall a, In a arms -> ma_cond a <> "" -> same_on L parse h c1 g c2 (ma_cond a)).
    { intros a Ha Na. apply S0. cbn. apply filter_In. split; [now apply in_map|]. now rewrite (proj2 (String.eqb_neq _ _) Na). }
    clear S0. induction C as [|a r Q|a r o Q1 Q2 Q3 C IH].
    - constructor.
    - constructor. destruct (String.eqb_spec (ma_cond a) "") as [Ea|Ea]; auto. right. destruct Q as [Q|Q]; [congruence|].
      rewrite <- (proj1 (S1 a (or_introl eq_refl) Ea)). exact Q.
    - destruct (S1 a (or_introl eq_refl) Q1) as (A & B & _). constructor; auto; [now apply B|congruence|]. apply IH. intros x Hx. apply S1. now right.
  Qed.
  Lemma gives_same' : forall h c1 g c2 b p t, (forall e, In e (asked_sources b ++ chosen_sources b p) -> same_on L parse h c1 g c2 e) ->
    gives_tree L parse h c1 b p t -> gives_tree L parse g c2 b p t.
  Proof.
    intros h c1 g c2 b p t S0 C. destruct b as [k e|k cs|k arms]; cbn [gives_tree] in *.
    - apply (proj2 (proj2 (S0 e (or_introl eq_refl)))). auto.
    - eapply computes_same; [|exact C]. intros e He. apply S0. apply in_app_iff. now left.
    - destruct p as [[id|]|]; auto. cbn [chosen_sources] in S0. destruct (find (fun a => String.eqb (ma_id a) id) arms) as [a|] eqn:Fa; auto.
      destruct (String.eqb (ma_value a) ""); auto.
      assert (Hin : In (ma_value a) (asked_sources (BMatch k arms) ++ [ma_value a])) by (apply in_app_iff; right; now left).
      apply (proj2 (proj2 (S0 _ Hin))). auto.
  Qed.
End Same.
