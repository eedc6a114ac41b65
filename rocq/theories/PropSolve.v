(** C65: the evaluation of a policy solves the policy's equations, and the solution does not depend on how it was asked for. *)
From Coq Require Import String ZArith Bool List Arith Lia Relations.
From Verif Require Import Base Dec Value Heap Ast Ops Compiler Eval Funcs Samples HeapSpec HeapFacts Isolate Session PureFacts DepsSpec Driver DriverSpec DriverFacts Blocks BlocksSpec
  BlocksFacts ContentFacts PropNodes PropBlocks PolicyRun PolicySpec SolveTwo.
Import ListNotations.
Local Open Scope string_scope.
Local Open Scope nat_scope.
Local Open Scope list_scope.

(** The blocks that have run, and the store afterwards. *)
Definition blocks_run (s : dstate pworld pick) : list bref := map fst (log _ _ s).
Definition heap_after (s : dstate pworld pick) : heap := pw_heap (Driver.world _ _ s).
(** No block waits, through what it reads, for itself. *)
Definition circle_free parse rewrite recovered dm p : Prop :=
  forall b, ~ clos_trans _ (wants dm (p_blocks p) (p_known p) (p_always parse rewrite recovered p) (p_reads parse rewrite recovered p)) b b.
(** An input: an object of finite content without a property [$]. *)
Definition is_input (h : heap) (l : loc) : Prop := wf_heap h /\ (exists T, repr h (VObj l) T) /\ forall t, ~ shows h (VObj l) "$" t.

(** Every block that has run finds its property, in the store at the end, equal to what it computes from the store at the end. All other
    properties are as they were in the input. *)
Theorem C65_solution : forall L parse rewrite recovered dm p extras fuel goals h l s r,
  plain_lib L -> sound_policy parse dm p -> circle_free parse rewrite recovered dm p -> is_input h l ->
  evaluate_policy (std_ext L) parse rewrite recovered dm p extras fuel goals (VObj l) h = Some (s, r) ->
  pw_store (Driver.world _ _ s) = VObj l /\ (exists T, repr (heap_after s) (VObj l) T) /\
  (forall b, In b (blocks_run s) -> exists k, In (b, k) p /\ satisfied parse (std_ext L) (heap_after s) (VObj l) k) /\
  (forall k t, (forall b blk, In (b, blk) p -> In b (blocks_run s) -> block_key blk <> k) ->
     (shows (heap_after s) (VObj l) k t <-> shows h (VObj l) k t)).
Proof.
  intros L parse rewrite recovered dm p extras fuel goals h l s r HL HP Ac (Wh & (T & R) & Nd) Ev.
  destruct (one_store L HL parse rewrite recovered dm p HP Ac h l T extras fuel goals s r Wh R Nd Ev) as [A B]. split; [exact A|]. split; [exact B|]. split.
  - intros b Hb. destruct (one_known L parse rewrite recovered dm p h l extras fuel goals s r Ev b Hb) as (k & Hk). exists k. split; auto.
    eapply (one_satisfied L HL parse rewrite recovered dm p HP Ac h l T extras fuel goals s r Wh R Nd Ev); eauto.
  - intros k t. exact (one_rest L HL parse rewrite recovered dm p HP Ac h l T extras fuel goals s r Wh R Nd Ev k t).
Qed.
Print Assumptions C65_solution.

(** A successful evaluation has computed every goal that is a block's property, or lies inside one. *)
Theorem C65_goals : forall L parse rewrite recovered dm p extras fuel goals h l s u, sound_policy parse dm p ->
  evaluate_policy (std_ext L) parse rewrite recovered dm p extras fuel goals (VObj l) h = Some (s, inl u) ->
  forall g b k, In g goals -> In (b, k) p -> above (block_key k) g -> In b (blocks_run s).
Proof.
  intros L parse rewrite recovered dm p extras fuel goals h l s u HP Ev g b k Hg Hk Ha.
  apply (one_goals L parse rewrite recovered dm p h l extras fuel goals s (inl u) Ev u eq_refl g); auto.
  - apply longest_feeds. assert (E : exists r, g = join_dots (block_key k :: r)). { destruct Ha as [<-|(r & ->)]; [exists []|exists [r]]; reflexivity. }
    destruct E as (r & ->). eapply SolveRun.head_feeds; eauto.
  - eapply SolveRun.known_in; eauto.
Qed.
Print Assumptions C65_goals.

(** The blocks that run are exactly those that the goals need, and the blocks these read, by the arms that were chosen. *)
Theorem C65_lazy : forall L parse rewrite recovered dm p extras fuel goals h l s u,
  plain_lib L -> sound_policy parse dm p -> circle_free parse rewrite recovered dm p -> is_input h l ->
  evaluate_policy (std_ext L) parse rewrite recovered dm p extras fuel goals (VObj l) h = Some (s, inl u) ->
  forall b, In b (blocks_run s) <-> needed parse rewrite recovered dm p goals (log _ _ s) b.
Proof.
  intros L parse rewrite recovered dm p extras fuel goals h l s u HL HP Ac (Wh & (T & R) & Nd) Ev b. split.
  - exact (lazy_only L HL parse rewrite recovered dm p HP Ac h l T extras fuel goals s u Wh R Nd Ev b).
  - exact (lazy_runs L parse rewrite recovered dm p HP Ac h l extras fuel goals s u Ev b).
Qed.
Print Assumptions C65_lazy.

(** An evaluation that fails fails because of a block of the policy that computes nothing from the store as it is then. *)
Theorem C65_failure : forall L parse rewrite recovered dm p extras fuel goals h l s e,
  plain_lib L -> sound_policy parse dm p -> circle_free parse rewrite recovered dm p -> is_input h l ->
  evaluate_policy (std_ext L) parse rewrite recovered dm p extras fuel goals (VObj l) h = Some (s, inr e) ->
  exists b k, In (b, k) p /\ ~ In b (blocks_run s) /\ forall t, ~ computes (std_ext L) parse (heap_after s) (VObj l) k t.
Proof.
  intros L parse rewrite recovered dm p extras fuel goals h l s e HL HP Ac (Wh & (T & R) & Nd) Ev.
  exact (one_failure L HL parse rewrite recovered dm p HP Ac h l T extras fuel goals s (inr e) Wh R Nd Ev e eq_refl).
Qed.
Print Assumptions C65_failure.

(** Two evaluations on inputs of the same content, with any goals, traced or not: a block that runs in both computes the same in both, even
    if one of them fails later. *)
Theorem C65_determined : forall L parse rewrite recovered dm p xa xb fa fb ga gb ha hb la lb sa sb ra rb,
  plain_lib L -> sound_policy parse dm p -> circle_free parse rewrite recovered dm p -> is_input ha la -> is_input hb lb ->
  (forall k t, shows ha (VObj la) k t <-> shows hb (VObj lb) k t) ->
  evaluate_policy (std_ext L) parse rewrite recovered dm p xa fa ga (VObj la) ha = Some (sa, ra) ->
  evaluate_policy (std_ext L) parse rewrite recovered dm p xb fb gb (VObj lb) hb = Some (sb, rb) ->
  forall b k t, In (b, k) p -> In b (blocks_run sa) -> In b (blocks_run sb) ->
  (shows (heap_after sa) (VObj la) (block_key k) t <-> shows (heap_after sb) (VObj lb) (block_key k) t).
Proof.
  intros L parse rewrite recovered dm p xa xb fa fb ga gb ha hb la lb sa sb ra rb HL HP Ac (Wa & (Ta & Ra) & Na) (Wb & (Tb & Rb) & Nb) Same Ea Eb b k t Hk Ia Ib.
  exact (pair_agree L HL parse rewrite recovered dm p HP Ac ha hb la lb Ta Tb xa xb fa fb ga gb sa sb ra rb Wa Wb Ra Rb Na Nb Same Ea Eb b k t Ia Ib Hk).
Qed.
Print Assumptions C65_determined.

(** Asking for less: if an evaluation succeeds, so does one with some of its goals; it runs no other blocks and computes the same. *)
Theorem C65_fewer_goals : forall L parse rewrite recovered dm p xa xb fa fb ga gb ha hb la lb sa sb ua rb,
  plain_lib L -> sound_policy parse dm p -> circle_free parse rewrite recovered dm p -> is_input ha la -> is_input hb lb ->
  (forall k t, shows ha (VObj la) k t <-> shows hb (VObj lb) k t) -> incl gb ga ->
  evaluate_policy (std_ext L) parse rewrite recovered dm p xa fa ga (VObj la) ha = Some (sa, inl ua) ->
  evaluate_policy (std_ext L) parse rewrite recovered dm p xb fb gb (VObj lb) hb = Some (sb, rb) ->
  (exists ub, rb = inl ub) /\ incl (blocks_run sb) (blocks_run sa) /\
  forall b k t, In (b, k) p -> In b (blocks_run sb) ->
  (shows (heap_after sa) (VObj la) (block_key k) t <-> shows (heap_after sb) (VObj lb) (block_key k) t).
Proof.
  intros L parse rewrite recovered dm p xa xb fa fb ga gb ha hb la lb sa sb ua rb HL HP Ac (Wa & (Ta & Ra) & Na) (Wb & (Tb & Rb) & Nb) Same Inc Ea Eb.
  destruct (pair_success L HL parse rewrite recovered dm p HP Ac ha hb la lb Ta Tb xa xb fa fb ga gb sa sb (inl ua) rb Wa Wb Ra Rb Na Nb Same Ea Eb Inc ua eq_refl) as [A B].
  split; [exact A|]. split; [exact B|]. intros b k t Hk Ib.
  exact (pair_agree L HL parse rewrite recovered dm p HP Ac ha hb la lb Ta Tb xa xb fa fb ga gb sa sb (inl ua) rb Wa Wb Ra Rb Na Nb Same Ea Eb b k t (B b Ib) Ib Hk).
Qed.
Print Assumptions C65_fewer_goals.

(** The order of the goals and tracing do not matter: with the same goals both evaluations fail, or both succeed with the same store. *)
Theorem C65_same_store : forall L parse rewrite recovered dm p xa xb fa fb ga gb ha hb la lb sa sb ra rb,
  plain_lib L -> sound_policy parse dm p -> circle_free parse rewrite recovered dm p -> is_input ha la -> is_input hb lb ->
  (forall k t, shows ha (VObj la) k t <-> shows hb (VObj lb) k t) -> (forall g, In g ga <-> In g gb) ->
  evaluate_policy (std_ext L) parse rewrite recovered dm p xa fa ga (VObj la) ha = Some (sa, ra) ->
  evaluate_policy (std_ext L) parse rewrite recovered dm p xb fb gb (VObj lb) hb = Some (sb, rb) ->
  match ra, rb with
  | inl _, inl _ => forall k t, shows (heap_after sa) (VObj la) k t <-> shows (heap_after sb) (VObj lb) k t
  | inr _, inr _ => True
  | _, _ => False
  end.
Proof.
  intros L parse rewrite recovered dm p xa xb fa fb ga gb ha hb la lb sa sb ra rb HL HP Ac Ia Ib Same G Ea Eb.
  assert (Iab : incl ga gb) by (intros g; apply G). assert (Iba : incl gb ga) by (intros g; apply G).
  assert (Same' : forall k t, shows hb (VObj lb) k t <-> shows ha (VObj la) k t) by (intros k t; symmetry; apply Same).
  destruct ra as [ua|e].
  - destruct (C65_fewer_goals L parse rewrite recovered dm p xa xb fa fb ga gb ha hb la lb sa sb ua rb HL HP Ac Ia Ib Same Iba Ea Eb) as ((ub & ->) & Ba & Sh).
    destruct (C65_fewer_goals L parse rewrite recovered dm p xb xa fb fa gb ga hb ha lb la sb sa ub (inl ua) HL HP Ac Ib Ia Same' Iab Eb Ea) as (_ & Bb & _).
    destruct (C65_solution L parse rewrite recovered dm p xa fa ga ha la sa (inl ua) HL HP Ac Ia Ea) as (_ & _ & _ & Ra).
    destruct (C65_solution L parse rewrite recovered dm p xb fb gb hb lb sb (inl ub) HL HP Ac Ib Eb) as (_ & _ & _ & Rb).
    intros k t. destruct (Exists_dec (fun e => block_key (snd e) = k /\ In (fst e) (blocks_run sb)) p) as [H|H].
    { intros e. destruct (String.string_dec (block_key (snd e)) k) as [E|E]; [|right; tauto].
      assert (D : forall a b : bref, {a = b} + {a <> b}) by (decide equality; apply String.string_dec).
      destruct (in_dec D (fst e) (blocks_run sb)); [left; auto|right; tauto]. }
    + apply Exists_exists in H as ([b blk] & Hp & <- & Hr). cbn [fst snd] in *. now apply (Sh b).
    + rewrite Exists_exists in H. rewrite Ra, Rb; [apply Same| |].
      * intros b blk Hp Hr E. apply H. exists (b, blk). auto.
      * intros b blk Hp Hr E. apply H. exists (b, blk). auto.
  - destruct rb as [ub|e']; auto.
    destruct (C65_fewer_goals L parse rewrite recovered dm p xb xa fb fa gb ga hb ha lb la sb sa ub (inr e) HL HP Ac Ib Ia Same' Iab Eb Ea) as ((u & Q) & _). discriminate.
Qed.
Print Assumptions C65_same_store.

(** A policy: [ok] asserts something about [price], which is chosen by cases; [senior] would fail but is not needed. *)
Definition so_policy : policy :=
  [(("m", "1"), BAssertion "ok" [ACond "a" "price > 10" BAnd 0; ACond "b" "age > 18" BAnd 0]);
   (("m", "2"), BMatch "price" [MArm "x" "age > 65" "senior"; MArm "y" "member" "base * 2"]);
   (("m", "3"), BExpression "base" "age + 1"); (("m", "4"), BExpression "senior" "name + 1")].
Definition so_eval := evaluate_policy demo p0 (fun _ => None) (fun _ => []) [] so_policy.
Ltac closed_tac := let n := fresh in let H := fresh in
  first [ right; split; [reflexivity|]; intros n H; vm_compute in H; (discriminate H || injection H as <-; split; vm_compute; reflexivity)
        | left; intros n H; vm_compute in H;
          (discriminate H || injection H as <-; split; [vm_compute; reflexivity|]; split; [vm_compute; reflexivity|]; split; [vm_compute; lia|vm_compute; intuition discriminate]) ].
Lemma so_sound : sound_policy p0 [] so_policy.
Proof.
  split.
  - repeat constructor; cbn; intuition discriminate.
  - repeat constructor; cbn; intuition discriminate.
  - intros b k H. cbn in H. repeat (destruct H as [H|H]; [injection H as <- <-; repeat split; vm_compute; congruence|]). destruct H.
  - intros b k H (m & [] & _).
  - intros b k H. cbn in H. repeat (destruct H as [H|H]; [injection H as <- <-; split;
      [intros e He; cbn in He; repeat (destruct He as [<-|He]; [closed_tac|]); destruct He
      |cbn; try discriminate; try (intros c Hc; repeat (destruct Hc as [<-|Hc]; [discriminate|]); destruct Hc); try (repeat constructor; cbn; intuition discriminate)]|]).
    destruct H.
Qed.
Definition so_rank (x : bref) : nat := if String.eqb (snd x) "1" then 2 else if String.eqb (snd x) "2" then 1 else 0.
Lemma so_circle_free : circle_free p0 (fun _ => None) (fun _ => []) [] so_policy.
Proof.
  assert (H1 : forall x y, wants [] (p_blocks so_policy) (p_known so_policy) (p_always p0 (fun _ => None) (fun _ => []) so_policy)
                              (p_reads p0 (fun _ => None) (fun _ => []) so_policy) x y -> so_rank y < so_rank x).
  { intros x y (Hk & q & Hq & Hf). apply longest_feeds in Hf.
    assert (Hx : In x (map fst so_policy)).
    { unfold p_known, block_of in Hk. destruct (find (fun e => beqb (fst e) x) so_policy) as [e|] eqn:F; [|discriminate]. apply find_some in F as [F E]. apply beqb_iff in E. subst x. now apply in_map. }
    assert (Hr : In q (p_always p0 (fun _ => None) (fun _ => []) so_policy x) \/ In q ["senior"; "base"] /\ x = ("m", "2")).
    { destruct Hq as [Hq|(pk & Hq)]; [now left|right]. unfold p_reads in Hq. destruct (block_of so_policy x) as [k|] eqn:Bk; [|destruct Hq].
      apply SolveRun.block_of_in in Bk. destruct Bk as [Bk|[Bk|[Bk|[Bk|[]]]]]; injection Bk as <- <-; cbn [plan_reads] in Hq; try (destruct Hq; fail).
      split; [|reflexivity]. destruct pk as [[id|]|]; try (destruct Hq; fail). cbn [find ma_id] in Hq. destruct (String.eqb "x" id); [vm_compute in Hq; destruct Hq as [<-|[]]; now left|].
      destruct (String.eqb "y" id); [vm_compute in Hq; destruct Hq as [<-|[]]; right; now left|destruct Hq]. }
    cbn in Hx. destruct Hr as [Hr|[Hr ->]].
    - destruct Hx as [<-|[<-|[<-|[<-|[]]]]]; vm_compute in Hr; repeat (destruct Hr as [<-|Hr]; [vm_compute in Hf; repeat (destruct Hf as [<-|Hf]; [vm_compute; lia|]); destruct Hf|]); destruct Hr.
    - destruct Hr as [<-|[<-|[]]]; vm_compute in Hf; destruct Hf as [<-|[]]; vm_compute; lia. }
  assert (H2 : forall x y, clos_trans _ (wants [] (p_blocks so_policy) (p_known so_policy) (p_always p0 (fun _ => None) (fun _ => []) so_policy)
                              (p_reads p0 (fun _ => None) (fun _ => []) so_policy)) x y -> so_rank y < so_rank x).
  { intros x y H. induction H as [x y H|x y z Ha IHa Hb IHb]; [now apply H1|lia]. }
  intros x H. apply H2 in H. lia.
Qed.
Lemma so_input : is_input bl_heap 0.
Proof.
  split.
  - intros l c H. destruct l as [|[|]]; cbn in H; try discriminate. injection H as <-. split; [repeat constructor; cbn; intuition discriminate|]. repeat constructor.
  - split; [exists (TObj [("age", TNum (dec_of_Z 20%Z)); ("member", TBool true); ("name", TStr "ann")]); eapply RObj; [reflexivity|]; repeat constructor|]. intros t (v & E & _). vm_compute in E. discriminate.
Qed.
Example C65_solution_case : sound_policy p0 [] so_policy /\ circle_free p0 (fun _ => None) (fun _ => []) [] so_policy /\ is_input bl_heap 0 /\
  exists s, so_eval false 9 ["ok"] (VObj 0) bl_heap = Some (s, inl tt) /\ blocks_run s = [("m", "3"); ("m", "2"); ("m", "1")] /\
    shows (heap_after s) (VObj 0) "price" (TNum (dec_of_Z 42%Z)) /\ shows (heap_after s) (VObj 0) "ok" (TBool true).
Proof.
  split; [exact so_sound|]. split; [exact so_circle_free|]. split; [exact so_input|]. eexists. split; [vm_compute; reflexivity|]. split; [vm_compute; reflexivity|].
  split; (eexists; split; [vm_compute; reflexivity|constructor]).
Qed.
Example C65_failure_case : exists s e, so_eval false 9 ["ok"; "senior"] (VObj 0) bl_heap = Some (s, inr e) /\ blocks_run s = [("m", "3"); ("m", "2"); ("m", "1")].
Proof. do 2 eexists. split; vm_compute; reflexivity. Qed.
Example C65_same_store_case : exists sa sb, so_eval false 9 ["ok"; "base"] (VObj 0) bl_heap = Some (sa, inl tt) /\
  so_eval true 7 ["base"; "ok"; "base"] (VObj 0) bl_heap = Some (sb, inl tt).
Proof. do 2 eexists. split; vm_compute; reflexivity. Qed.

(** With a circle a block is not satisfied at the end: one of the blocks runs before the other and sees no value for it. *)
Theorem C65_circle_refuted : exists p s b k, sound_policy p0 [] p /\ is_input bl_heap 0 /\
  evaluate_policy demo p0 (fun _ => None) (fun _ => []) [] p false 9 ["a"] (VObj 0) bl_heap = Some (s, inl tt) /\
  In (b, k) p /\ In b (blocks_run s) /\ ~ satisfied p0 demo (heap_after s) (VObj 0) k.
Proof.
  exists [(("m", "1"), BExpression "a" "(b ?? 0) + 1"); (("m", "2"), BExpression "b" "(a ?? 0) + 1")]. eexists. exists ("m", "2"), (BExpression "b" "(a ?? 0) + 1"). split.
  { split.
    - repeat constructor; cbn; intuition discriminate.
    - repeat constructor; cbn; intuition discriminate.
    - intros b k H. cbn in H. repeat (destruct H as [H|H]; [injection H as <- <-; repeat split; vm_compute; congruence|]). destruct H.
    - intros b k H (m & [] & _).
    - intros b k H. cbn in H. repeat (destruct H as [H|H]; [injection H as <- <-; split; [|discriminate]; intros e He; cbn in He; repeat (destruct He as [<-|He]; [closed_tac|]); destruct He|]).
      destruct H. }
  split; [exact so_input|]. split; [vm_compute; reflexivity|]. split; [right; left; reflexivity|]. split; [left; reflexivity|].
  intros (t & C & (v & Ev & R)). vm_compute in Ev. injection Ev as <-. inversion R; subst. inversion C as [k0 e0 t0 (h1 & v1 & Es & R1)| | | | |]; subst.
  vm_compute in Es. injection Es as <- <-. inversion R1.
Qed.
Print Assumptions C65_circle_refuted.

(** What an expression reads through [$root] is not waited for: the block runs before the one that writes it. *)
Theorem C65_root_refuted : exists p s b k, circle_free p0 (fun _ => None) (fun _ => []) [] p /\ is_input bl_heap 0 /\
  evaluate_policy demo p0 (fun _ => None) (fun _ => []) [] p false 9 ["a"; "b"] (VObj 0) bl_heap = Some (s, inl tt) /\
  In (b, k) p /\ In b (blocks_run s) /\ ~ satisfied p0 demo (heap_after s) (VObj 0) k.
Proof.
  exists [(("m", "1"), BExpression "a" "$root.b"); (("m", "2"), BExpression "b" "age + 1")]. eexists. exists ("m", "1"), (BExpression "a" "$root.b"). split.
  { intros b H. assert (N : forall x y, ~ wants [] (p_blocks [(("m", "1"), BExpression "a" "$root.b"); (("m", "2"), BExpression "b" "age + 1")]) (p_known [(("m", "1"), BExpression "a" "$root.b"); (("m", "2"), BExpression "b" "age + 1")])
        (p_always p0 (fun _ => None) (fun _ => []) [(("m", "1"), BExpression "a" "$root.b"); (("m", "2"), BExpression "b" "age + 1")])
        (p_reads p0 (fun _ => None) (fun _ => []) [(("m", "1"), BExpression "a" "$root.b"); (("m", "2"), BExpression "b" "age + 1")]) x y).
    { intros x y (_ & q & Hq & Hf). apply longest_feeds in Hf. unfold p_always, p_reads, block_of in Hq. cbn [find fst snd option_map] in Hq.
      destruct (beqb ("m", "1") x); [destruct Hq as [Hq|(pk & [])]; vm_compute in Hq; destruct Hq as [<-|[]]; vm_compute in Hf; exact Hf|].
      destruct (beqb ("m", "2") x); [destruct Hq as [Hq|(pk & [])]; vm_compute in Hq; destruct Hq as [<-|[]]; vm_compute in Hf; exact Hf|].
      destruct Hq as [[]|(pk & [])]. }
    apply clos_trans_t1n in H. inversion H as [y H0|y z H0 H1]; subst; exact (N _ _ H0). }
  split; [exact so_input|]. split; [vm_compute; reflexivity|]. split; [left; reflexivity|]. split; [left; reflexivity|].
  intros (t & C & (v & Ev & R)). vm_compute in Ev. injection Ev as <-. inversion R; subst. inversion C as [k0 e0 t0 (h1 & v1 & Es & R1)| | | | |]; subst.
  vm_compute in Es. injection Es as <- <-. inversion R1.
Qed.
Print Assumptions C65_root_refuted.

(** With a dotted property a block's result depends on what else is asked for: [x] is the customer itself, so a score computed for the
    customer later appears in [x] too. *)
Definition so_customer : heap := [CObj [("customer", VObj 1)]; CObj [("name", VStr "ann")]].
Theorem C65_dotted_refuted : exists p sa sb, circle_free p0 (fun _ => None) (fun _ => []) ["customer.name"] p /\ is_input so_customer 0 /\
  evaluate_policy demo p0 (fun _ => None) (fun _ => []) ["customer.name"] p false 9 ["x"] (VObj 0) so_customer = Some (sa, inl tt) /\
  evaluate_policy demo p0 (fun _ => None) (fun _ => []) ["customer.name"] p false 9 ["x"; "customer.score"] (VObj 0) so_customer = Some (sb, inl tt) /\
  shows (heap_after sa) (VObj 0) "x" (TObj [("name", TStr "ann")]) /\
  shows (heap_after sb) (VObj 0) "x" (TObj [("name", TStr "ann"); ("score", TNum (dec_of_Z 5%Z))]).
Proof.
  exists [(("m", "1"), BExpression "x" "customer"); (("m", "2"), BExpression "customer.score" "5")]. do 2 eexists. split.
  { intros b H. assert (N : forall x y, ~ wants ["customer.name"] (p_blocks [(("m", "1"), BExpression "x" "customer"); (("m", "2"), BExpression "customer.score" "5")])
        (p_known [(("m", "1"), BExpression "x" "customer"); (("m", "2"), BExpression "customer.score" "5")])
        (p_always p0 (fun _ => None) (fun _ => []) [(("m", "1"), BExpression "x" "customer"); (("m", "2"), BExpression "customer.score" "5")])
        (p_reads p0 (fun _ => None) (fun _ => []) [(("m", "1"), BExpression "x" "customer"); (("m", "2"), BExpression "customer.score" "5")]) x y).
    { intros x y (_ & q & Hq & Hf). apply longest_feeds in Hf. unfold p_always, p_reads, block_of in Hq. cbn [find fst snd option_map] in Hq.
      destruct (beqb ("m", "1") x); [destruct Hq as [Hq|(pk & [])]; vm_compute in Hq; destruct Hq as [<-|[]]; vm_compute in Hf; exact Hf|].
      destruct (beqb ("m", "2") x); [destruct Hq as [Hq|(pk & [])]; vm_compute in Hq; destruct Hq|].
      destruct Hq as [[]|(pk & [])]. }
    apply clos_trans_t1n in H. inversion H as [y H0|y z H0 H1]; subst; exact (N _ _ H0). }
  split.
  { split; [|split; [exists (TObj [("customer", TObj [("name", TStr "ann")])]); eapply RObj; [reflexivity|]; constructor; [split; [reflexivity|eapply RObj; [reflexivity|repeat constructor]]|constructor]|]].
    - intros l c H. destruct l as [|[|[|]]]; cbn in H; try discriminate; injection H as <-; (split; [constructor; [intros []|constructor]|constructor; [vm_compute; eauto|constructor]]).
    - intros t (v & E & _). vm_compute in E. discriminate. }
  split; [vm_compute; reflexivity|]. split; [vm_compute; reflexivity|].
  split; (eexists; split; [vm_compute; reflexivity|]; eapply RObj; [vm_compute; reflexivity|]; repeat (constructor; try (split; [reflexivity|constructor]))).
Qed.
Print Assumptions C65_dotted_refuted.
