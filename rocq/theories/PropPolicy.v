(** C47: a policy's blocks run on demand, each at most once, and after the blocks that feed them. *)
From Coq Require Import String Bool List Arith Lia Relations.
From Verif Require Import Base Driver DriverSpec DriverFacts DriverRun.
Import ListNotations.
Local Open Scope string_scope.
Local Open Scope list_scope.

(** Who is asked to run when a path is read: exactly the blocks that feed it. *)
Theorem C47_asked : forall dm blocks q b, In b (longest (graph_writers dm blocks) q) <-> feeds dm blocks q b.
Proof. exact longest_feeds. Qed.
Print Assumptions C47_asked.

(** A block that is the first to touch a path feeds that path, and every place above it that is no declared input. *)
Theorem C47_above : forall dm (blocks : list (bref * list string)) p q b, first_toucher dm blocks p b -> above q p -> ~ declared dm q -> feeds dm blocks q b.
Proof.
  intros dm blocks p q b Hf Ha Hd. exists q, p. split; [| auto]. split; [apply above_refl |]. split.
  - destruct Hf as [l1 [ws [l2 [-> [[_ [w [Hw [Hdw Hpw]]]] _]]]]]. exists (b, ws). split; [apply in_elt |]. split; [exact Hd |]. exists w. split; [exact Hw |]. split; [exact Hdw |]. exact (above_trans _ _ _ Ha Hpw).
  - intros r' Hr _. exact Hr.
Qed.
Print Assumptions C47_above.

(** It does not feed a declared input: a block that reads a whole entity of the data model does not wait for the fields other blocks compute for it. *)
Theorem C47_entity_refuted : exists dm (blocks : list (bref * list string)) b p q,
  In (b, [p]) blocks /\ ~ declared dm p /\ above q p /\ forall x, ~ feeds dm blocks q x.
Proof.
  exists ["customer.name"], [(("main", "1"), ["customer.score"])], ("main", "1"), "customer.score", "customer".
  split; [left; reflexivity |]. split; [rewrite <- in_model_iff; vm_compute; discriminate |]. split; [apply extends_iff; vm_compute; reflexivity |].
  intros x Hx. apply longest_feeds in Hx. vm_compute in Hx. exact Hx.
Qed.
Print Assumptions C47_entity_refuted.

Section Claims.
  Variables W P E : Type.
  Variable dm : list string.
  Variable blocks : list (bref * list string).
  Variable known : bref -> bool.
  Variable always : bref -> list string.
  Variable reads : bref -> P -> list string.
  Variable select : bref -> W -> W * (option P + E).
  Variable commit : bref -> P -> W -> W * (unit + E).
  Notation evaluation := (run_goals W P E (graph_writers dm blocks) known always reads select commit).
  Notation wants := (wants dm blocks known always reads).
  Lemma needs_wants b x : needs P (graph_writers dm blocks) known always reads b x -> wants b x.
  Proof.
    intros [Hk [o [p [Hu Hw]]]]. split; [exact Hk |]. exists p. split; [destruct Hu as [Hu | [pick [_ Hu]]]; [left; exact Hu | right; exists pick; exact Hu] | apply longest_feeds, Hw].
  Qed.
  Lemma depends_wants b x : clos_refl_trans _ (needs P (graph_writers dm blocks) known always reads) b x -> clos_refl_trans _ wants b x.
  Proof. intro H. induction H as [a c H | a | a c d H1 IH1 H2 IH2]; [apply rt_step, needs_wants, H | apply rt_refl | exact (rt_trans _ _ _ _ _ IH1 IH2)]. Qed.

  (** An evaluation ends, also when blocks depend on each other in a circle: the nesting is never deeper than the number of blocks. *)
  Theorem C47_ends : forall fuel goals w, length blocks < fuel -> exists s r, evaluation fuel goals w = Some (s, r).
  Proof.
    intros fuel goals w Hl. apply (run_goals_ends W P E (graph_writers dm blocks) known always reads select commit goals w (map fst blocks)).
    - intros p x Hx. apply longest_feeds in Hx. destruct Hx as [r [q [_ [_ [l1 [ws [l2 [-> _]]]]]]]]. rewrite map_app. apply in_app_iff. right. left. reflexivity.
    - rewrite map_length. exact Hl.
  Qed.
  (** No block runs twice, whatever happens. *)
  Theorem C47_once : forall fuel goals w s r, evaluation fuel goals w = Some (s, r) -> NoDup (map fst (log W P s)).
  Proof. intros fuel goals w s r H. apply run_goals_ok in H. exact (i_nodup _ _ _ _ _ _ _ _ (proj1 H)). Qed.
  (** When a block takes effect, every block that feeds a path it reads has taken effect before, except for blocks that themselves wait for it. *)
  Theorem C47_order : forall fuel goals w s r, evaluation fuel goals w = Some (s, r) ->
    forall l1 b o l2, log W P s = l1 ++ (b, o) :: l2 ->
    forall p, In p (always b) \/ (exists pick, o = Some pick /\ In p (reads b pick)) ->
    forall x, feeds dm blocks p x -> known x = true -> In x (map fst l1) \/ clos_refl_trans _ wants x b.
  Proof.
    intros fuel goals w s r H l1 b o l2 Hl p Hp x Hx Hk. apply run_goals_ok in H. destruct H as [HI _].
    destruct (i_good _ _ _ _ _ _ _ _ HI l1 b o l2 Hl p Hp x) as [Hin | Hd]; [apply longest_feeds, Hx | exact Hk | left; exact Hin | right; apply depends_wants, Hd].
  Qed.
  Lemma step_rt_trans b x : wants b x -> clos_refl_trans _ wants x b -> clos_trans _ wants b b.
  Proof.
    intros H1 H2. apply clos_rt_rtn1 in H2. assert (H : forall y, clos_refl_trans_n1 _ wants x y -> clos_trans _ wants b y); [| exact (H b H2)].
    intros y Hy. induction Hy as [| y z Hyz Hy IH]; [apply t_step, H1 | apply t_trans with y; [exact IH | apply t_step, Hyz]].
  Qed.
  (** Without circles there is no exception. *)
  Theorem C47_order_acyclic : (forall b, ~ clos_trans _ wants b b) ->
    forall fuel goals w s r, evaluation fuel goals w = Some (s, r) ->
    forall l1 b o l2, log W P s = l1 ++ (b, o) :: l2 ->
    forall p, In p (always b) \/ (exists pick, o = Some pick /\ In p (reads b pick)) ->
    forall x, feeds dm blocks p x -> known x = true -> In x (map fst l1).
  Proof.
    intros Hac fuel goals w s r H l1 b o l2 Hl p Hp x Hx Hk. destruct (C47_order _ _ _ _ _ H _ _ _ _ Hl p Hp x Hx Hk) as [Hin | Hd]; [exact Hin |].
    exfalso. apply (Hac b).
    assert (Hb : known b = true). { apply run_goals_ok in H. destruct H as [HI _]. apply (i_reach _ _ _ _ _ _ _ _ HI). rewrite Hl. unfold names. rewrite map_app. apply in_app_iff. right. left. reflexivity. }
    assert (Hw : wants b x). { split; [exact Hb |]. exists p. split; [destruct Hp as [Hp | [pick [_ Hp]]]; [left; exact Hp | right; exists pick; exact Hp] | exact Hx]. }
    exact (step_rt_trans b x Hw Hd).
  Qed.
  (** A successful evaluation has run every block that feeds a goal. *)
  Theorem C47_goals : forall fuel goals w s u, evaluation fuel goals w = Some (s, inl u) ->
    forall g x, In g goals -> feeds dm blocks g x -> known x = true -> In x (map fst (log W P s)).
  Proof.
    intros fuel goals w s u H g x Hg Hx Hk. apply run_goals_ok in H. destruct H as [HI [_ [_ Hd]]]. apply (i_log _ _ _ _ _ _ _ _ HI); [| exact Hk].
    apply (Hd Logic.I g x Hg). apply longest_feeds, Hx.
  Qed.
  (** Nothing else runs: every block that ran is wanted by a goal, directly or through other blocks. *)
  Theorem C47_only : forall fuel goals w s r, evaluation fuel goals w = Some (s, r) ->
    forall b, In b (map fst (log W P s)) -> known b = true /\ exists g x, In g goals /\ feeds dm blocks g x /\ clos_refl_trans _ wants x b.
  Proof.
    intros fuel goals w s r H b Hb. apply run_goals_ok in H. destruct H as [HI _]. destruct (i_reach _ _ _ _ _ _ _ _ HI b Hb) as [[g [x [Hg [Hx Hd]]]] Hk].
    split; [exact Hk |]. exists g, x. split; [exact Hg |]. split; [apply longest_feeds, Hx | apply depends_wants, Hd].
  Qed.
  (** The store at the end is what the commits of the blocks make of it in the order of the trace, when selecting only reads. *)
  Theorem C47_store : (forall b w, fst (select b w) = w) -> forall fuel goals w s u, evaluation fuel goals w = Some (s, inl u) ->
    world W P s = in_order commit (log W P s) w.
  Proof. intros Hp fuel goals w s u H. apply run_goals_ok in H. destruct H as [_ [_ [Hr _]]]. exact (Hr Hp Logic.I). Qed.
End Claims.
Print Assumptions C47_ends.
Print Assumptions C47_once.
Print Assumptions C47_order.
Print Assumptions C47_order_acyclic.
Print Assumptions C47_goals.
Print Assumptions C47_only.
Print Assumptions C47_store.

(** A policy: 1 computes score.base; 2 computes score.total from score.base; 3 computes ok from all of score; 4 is not wanted. Committing notes the block. *)
Definition xb (n : string) : bref := ("main", n).
Definition blocks := [(xb "3", ["ok"]); (xb "2", ["score.total"]); (xb "1", ["score.base"]); (xb "4", ["other"])].
Definition always (x : bref) : list string := if beqb x (xb "3") then ["score"; "customer.age"] else if beqb x (xb "2") then ["score.base"] else [].
Definition reads (_ : bref) (_ : unit) : list string := [].
Definition select (_ : bref) (w : list string) : list string * (option unit + unit) := (w, inl (Some tt)).
Definition commit (x : bref) (_ : unit) (w : list string) : list string * (unit + unit) := (w ++ [snd x], inl tt).
Example run : exists s, run_goals (list string) unit unit (graph_writers ["customer.age"] blocks) (fun _ => true) always reads select commit 5 ["ok"] [] = Some (s, inl tt)
  /\ world _ _ s = ["1"; "2"; "3"] /\ map fst (log _ _ s) = [xb "1"; xb "2"; xb "3"].
Proof. eexists. vm_compute. repeat split. Qed.
Example feeds_score : feeds ["customer.age"] blocks "score" (xb "1") /\ feeds ["customer.age"] blocks "score" (xb "2") /\ feeds ["customer.age"] blocks "score.other" (xb "1").
Proof. rewrite <- !longest_feeds. vm_compute. intuition. Qed.
(** A circle: 1 and 2 read each other. Both still run, once. *)
Definition circle (x : bref) : list string := if beqb x (xb "1") then ["score.total"] else if beqb x (xb "2") then ["score.base"] else [].
Example run_circle : exists s, run_goals (list string) unit unit (graph_writers [] blocks) (fun _ => true) circle reads select commit 5 ["score.total"] [] = Some (s, inl tt)
  /\ world _ _ s = ["1"; "2"].
Proof. eexists. vm_compute. repeat split. Qed.
(** The first policy has no circle, and its selection only reads. *)
Definition rank (x : bref) : nat := if beqb x (xb "3") then 2 else if beqb x (xb "2") then 1 else 0.
Example no_circle : forall x, ~ clos_trans _ (wants ["customer.age"] blocks (fun _ => true) always reads) x x.
Proof.
  assert (H1 : forall x y, wants ["customer.age"] blocks (fun _ => true) always reads x y -> rank y < rank x).
  { intros x y [_ [p [[Hp | [pick []]] Hf]]]. apply longest_feeds in Hf. unfold always in Hp.
    destruct (beqb x (xb "3")) eqn:E3; [| destruct (beqb x (xb "2")) eqn:E2; [| destruct Hp]].
    - apply beqb_iff in E3. subst x. destruct Hp as [<- | [<- | []]]; vm_compute in Hf.
      + destruct Hf as [<- | [<- | []]]; vm_compute; auto.
      + destruct Hf.
    - apply beqb_iff in E2. subst x. destruct Hp as [<- | []]. vm_compute in Hf. destruct Hf as [<- | []]; vm_compute; auto. }
  assert (H2 : forall x y, clos_trans _ (wants ["customer.age"] blocks (fun _ => true) always reads) x y -> rank y < rank x).
  { intros x y H. induction H as [x y H | x y z Ha IHa Hb IHb]; [apply H1, H | lia]. }
  intros x H. apply H2 in H. lia.
Qed.
Example only_reads : forall x w, fst (select x w) = w.
Proof. reflexivity. Qed.
