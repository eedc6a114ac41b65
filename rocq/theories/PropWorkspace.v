(** * C73: what a workspace answers depends on the documents in it, not on how they got there *)
From Coq Require Import String List Bool Arith NArith Lia Relations.
Import ListNotations.
From Verif Require Import Base Workspace WorkspaceSpec WorkspaceRun.
Local Open Scope string_scope.
Local Open Scope nat_scope.
Local Open Scope list_scope.

Section Claims.
  Context {PD GC PP SC RU UN EN SG AN DG AR FT DI : Type}.
  Variable T : @tools PD GC PP SC RU UN EN SG AN DG AR FT DI.
  Variable M : @arcs PD GC.

  (** After any history at all, a question about policies is answered from the documents left. *)
  Theorem C73_policies : scope_free T -> forall h q f, about_policies (world_of M h) q -> right_answer T (world_of M h) f q (fst (ask T M (after T M h) q)).
  Proof. intros SF h q f A. now apply policies_right. Qed.
  (** So is a question about graphs, if decisions did not call each other in a cycle, no new policy began to import
      one that a graph had asked about, and no resolver was installed. *)
  Theorem C73_graphs : scope_free T -> (forall t t1, t_hash T t = t_hash T t1 -> t = t1) ->
    forall h q, well_behaved T M (h ++ [EAsk q]) -> right_answer T (world_of M h) (type_left h) q (fst (ask T M (after T M h) q)).
  Proof. intros SF HI h q WB. now apply answers_right. Qed.
  (** There is only one right answer. *)
  Theorem C73_one_answer : forall w f q a a1, right_answer T w f q a -> right_answer T w f q a1 -> a = a1.
  Proof. intros w f q a a1. apply right_fun. Qed.
  (** Two histories that leave the same documents answer alike. *)
  Theorem C73_policies_same : scope_free T -> forall h1 h2 q, (forall p, world_of M h1 p = world_of M h2 p) -> about_policies (world_of M h1) q ->
    fst (ask T M (after T M h1) q) = fst (ask T M (after T M h2) q).
  Proof.
    intros SF h1 h2 q E A. eapply (C73_one_answer (world_of M h2) (fun _ => None) q).
    - eapply right_same; [exact E|reflexivity|]. now apply C73_policies.
    - apply C73_policies; [exact SF|]. destruct q; try exact A. cbn in *. intros g. rewrite <- E. apply A.
  Qed.
  Theorem C73_graphs_same : scope_free T -> (forall t t1, t_hash T t = t_hash T t1 -> t = t1) ->
    forall h1 h2 q, well_behaved T M (h1 ++ [EAsk q]) -> well_behaved T M (h2 ++ [EAsk q]) -> same_left M h1 h2 ->
    fst (ask T M (after T M h1) q) = fst (ask T M (after T M h2) q).
  Proof.
    intros SF HI h1 h2 q W1 W2 [E F]. eapply (C73_one_answer (world_of M h2) (type_left h2) q).
    - eapply right_same; [exact E|exact F|]. now apply C73_graphs.
    - now apply C73_graphs.
  Qed.
End Claims.
Print Assumptions C73_policies.
Print Assumptions C73_graphs.
Print Assumptions C73_one_answer.
Print Assumptions C73_policies_same.
Print Assumptions C73_graphs_same.

(** ** A small language of policies and graphs *)
Definition ws_pol : Type := list path * N.                      (* imports and a number *)
Definition ws_call : Type := (path + N)%type.                   (* a decision or a function *)
Definition ws_val : Type := list (string * N).
Definition ws_res (key : path) (r : @resolution ws_val) : ws_val := match r with Found s => s | Recursive => [(key, 101%N)] | Missing => [(key, 100%N)] end.
Definition ws_fn (o : @foutcome N) : ws_val := match o with OTyped t => [("fn", t)] | OUnresolved => [("fn", 102%N)] | OUnknown => [("fn", 103%N)] end.
Fixpoint ws_run (acc : ws_val) (l : list ws_call) : @prog ws_val ws_val N :=
  match l with
  | [] => Done acc
  | inl key :: r => AskSig key (fun x => ws_run (acc ++ ws_res key x) r)
  | inr k :: r => AskFn k (fun x => ws_run (acc ++ ws_fn x) r)
  end.
Definition ws_tools : @tools ws_pol (list ws_call) ws_pol nat (string * N) ws_val nat ws_val ws_val ws_val ws_val N Datatypes.unit :=
  {| t_parse := fun _ d => d; t_imports := fst; t_dicts := fun _ => []; t_scope := fun m => length m; t_shallow := fun _ p v => [(p, snd v)];
     t_unit := fun _ rs => rs; t_enrich := fun u _ _ => length u; t_sig := fun u _ _ => u; t_artifact := fun _ _ rs => rs;
     t_pdiag := fun ps gs u e p => (p, N.of_nat e) :: u; t_gimports := fun _ => []; t_analyse := fun p g _ _ => ws_run [(p, 0%N)] g;
     t_gsig := fun a => a; t_gdiag := fun a => a; t_nodiag := []; t_hash := fun t => t |}.
Definition ws_arcs : @arcs ws_pol (list ws_call) :=
  {| a_content := fun d => match d with
       | 10 => CGraph [inl "h"; inl "a"; inl "nowhere"] | 11 => CGraph [inr 7%N] | 12 => CGraph []
       | 13 => CGraph [inl "h"] | 14 => CGraph [inl "g"] | 15 => CGraph [inl "b"]
       | d => CPolicy d end;
     a_policy := fun d => match d with 1 => (["b"], 1%N) | 2 => ([], 2%N) | 3 => ([], 3%N) | _ => ([], 0%N) end |}.
Lemma ws_scope_free : scope_free ws_tools. Proof. intros sc sc1 p v. reflexivity. Qed.
Lemma ws_hash : forall t t1, t_hash ws_tools t = t_hash ws_tools t1 -> t = t1. Proof. intros t t1 E. exact E. Qed.
Definition ws_ask (h : list (@event N)) (q : question) := fst (ask ws_tools ws_arcs (after ws_tools ws_arcs h) q).

(** ** A history with edits and questions, and the straight way to the same documents *)
Definition ws_long : list (@event N) :=
  [ESet "b" 2; ESet "a" 1; EAsk (QUnit "b"); ESet "g" 10; ESet "h" 12; EAsk (QGraph "g"); EAsk (QDiag "a");
   ESet "b" 3; ESet "h" 11; EAsk (QGraph "g"); EFunction 7 (FTyped 5%N); ESet "x" 2; ERemove "x"].
Definition ws_short : list (@event N) := [EFunction 7 (FTyped 5%N); ESet "g" 10; ESet "h" 11; ESet "a" 1; ESet "b" 3].

Lemma asked_in : forall {FT} (h h1 : list (@event FT)), asked h h1 -> In h1 (map (fun n => firstn n h) (seq 0 (length h))).
Proof.
  intros FT h h1 (q & r & ->). apply in_map_iff. exists (length h1). split; [rewrite firstn_app, Nat.sub_diag, firstn_all; cbn; apply app_nil_r|]. apply in_seq. rewrite app_length. cbn. lia.
Qed.
Lemma asked_only : forall {FT} (h h1 : list (@event FT)), asked h h1 -> exists q, nth_error h (length h1) = Some (EAsk q) /\ h1 = firstn (length h1) h.
Proof.
  intros FT h h1 (q & r & ->). exists q. split; [rewrite nth_error_app2, Nat.sub_diag by lia; reflexivity|]. rewrite firstn_app, Nat.sub_diag, firstn_all. cbn. now rewrite app_nil_r.
Qed.
Lemma ws_asks : forall l acc q, asks (ws_run acc l) q -> In (inl q) l.
Proof.
  induction l as [|[key|k] l IH]; intros acc q H; cbn in H; inversion H; subst; try (now left); right; eauto.
Qed.
Lemma ranked : forall (w : @world ws_pol (list ws_call)) (rank : path -> nat), (forall p g q, w p = Some (SGraph g) -> In (inl q) g -> rank q < rank p) -> no_cycle ws_tools w.
Proof.
  intros w rank H p C. assert (K : forall x y, clos_trans path (calls ws_tools w) x y -> rank y < rank x).
  { intros x y D. induction D as [x y (g & ds & ks & A & B)|x y z _ I1 _ I2]; [|lia]. apply (H x g y A). eapply ws_asks. exact B. }
  specialize (K p p C). lia.
Qed.
Lemma same_imports : forall w w1 : @world ws_pol (list ws_call), (forall p q, imports ws_tools w1 p q -> imports ws_tools w p q) -> same_group ws_tools w w1.
Proof.
  intros w w1 H p v _ _ q C. induction C as [x y A|x|x y C IH|x y z C1 IH1 C2 IH2]; [apply rst_step; auto|apply rst_refl|now apply rst_sym|eapply rst_trans; eauto].
Qed.
(** The documents of a history are among those it sets. *)
Lemma doc_left_in : forall {FT} (h : list (@event FT)) p d, doc_left h p = Some d -> In (p, d) (flat_map (fun e => match e with ESet q x => [(q, x)] | _ => [] end) h).
Proof.
  intros FT h p d. induction h as [|e h IH] using rev_ind; [discriminate|]. unfold doc_left in *. rewrite fold_left_app, flat_map_app. cbn. intros E. apply in_or_app.
  destruct e as [q x|q|k t|r|q]; cbn in *; try (left; now apply IH).
  - destruct (String.eqb_spec q p) as [->|]; [injection E as ->; right; now left|left; now apply IH].
  - destruct (String.eqb q p); [discriminate|left; now apply IH].
Qed.
Lemma world_cases : forall {FT} (h : list (@event FT)) p (s : @shown ws_pol (list ws_call)), world_of ws_arcs h p = Some s ->
  exists d, In (p, d) (flat_map (fun e => match e with ESet q x => [(q, x)] | _ => [] end) h) /\ s = shows ws_arcs d.
Proof. intros FT h p s. unfold world_of. destruct (doc_left h p) as [d|] eqn:E; [|discriminate]. cbn. intros Z. injection Z as <-. exists d. split; [now apply doc_left_in|reflexivity]. Qed.
Lemma firstn_sets : forall {FT} n (h : list (@event FT)) x, In x (flat_map (fun e => match e with ESet q x => [(q, x)] | _ => [] end) (firstn n h)) -> In x (flat_map (fun e => match e with ESet q x => [(q, x)] | _ => [] end) h).
Proof. intros FT n h x I. rewrite <- (firstn_skipn n h). rewrite flat_map_app. apply in_or_app. now left. Qed.
Definition ws_rank (p : path) : nat := if String.eqb p "g" then 2 else if String.eqb p "h" then 1 else 0.

Ltac sets_tac H := cbn in H; repeat (destruct H as [H|H]; [injection H as <- <-|]); [..|destruct H].
Lemma ws_calm : forall h : list (@event N),
  (forall x, In x (flat_map (fun e => match e with ESet q x => [(q, x)] | _ => [] end) h) -> In x [("b", 2); ("a", 1); ("g", 10); ("h", 12); ("b", 3); ("h", 11); ("x", 2)]) ->
  (forall n q, nth_error h n = Some (EAsk q) -> exists d d1, doc_left (firstn n h) "a" = Some d /\ doc_left (firstn n h) "b" = Some d1) -> no_resolver h -> well_behaved ws_tools ws_arcs h.
Proof.
  intros h H L NR. split; [exact NR|]. split.
  - intros h1 A. destruct (asked_only _ _ A) as (q & _ & E). rewrite E. apply (ranked _ ws_rank). intros p g x W I. apply world_cases in W as (d & K & S0). apply firstn_sets, H in K.
    sets_tac K; try discriminate S0; injection S0 as ->; cbn in I; repeat (destruct I as [I|I]; [first [discriminate I|injection I as <-; cbn; lia]|]); destruct I.
  - intros h1 h2 A B. apply same_imports. intros p x (v & u & (d & W1 & ->) & (e & W2 & ->) & I). cbn in I.
    apply world_cases in W1 as (d1 & K1 & S1). destruct (asked_only _ _ B) as (q2 & _ & E2). rewrite E2 in K1. apply firstn_sets, H in K1.
    destruct (asked_only _ _ A) as (q1 & N1 & E1). destruct (L _ _ N1) as (da & db & La & Lb). rewrite <- E1 in La, Lb.
    sets_tac K1; try discriminate S1; injection S1 as ->; cbn in I; try contradiction. destruct I as [<-|[]].
    assert (Ka : In ("a", da) [("b", 2); ("a", 1); ("g", 10); ("h", 12); ("b", 3); ("h", 11); ("x", 2)]) by (apply H; apply doc_left_in in La; rewrite E1 in La; now apply firstn_sets in La).
    assert (Kb : In ("b", db) [("b", 2); ("a", 1); ("g", 10); ("h", 12); ("b", 3); ("h", 11); ("x", 2)]) by (apply H; apply doc_left_in in Lb; rewrite E1 in Lb; now apply firstn_sets in Lb).
    assert (da = 1) by (cbn in Ka; repeat (destruct Ka as [Ka|Ka]; [congruence|]); destruct Ka). subst da.
    assert (Db : db = 2 \/ db = 3) by (cbn in Kb; repeat (destruct Kb as [Kb|Kb]; [try discriminate Kb; injection Kb as <-; auto|]); destruct Kb).
    exists (["b"], 1%N), (a_policy ws_arcs db). split; [|split; [|now left]].
    + exists (["b"], 1%N). unfold world_of. rewrite La. auto.
    + exists (a_policy ws_arcs db). unfold world_of. rewrite Lb. destruct Db as [->| ->]; auto.
Qed.
Lemma asks_nth : forall h : list (@event N), forallb (fun n => match nth_error h n with Some (EAsk _) => match doc_left (firstn n h) "a", doc_left (firstn n h) "b" with Some _, Some _ => true | _, _ => false end | _ => true end) (seq 0 (length h)) = true ->
  forall n q, nth_error h n = Some (EAsk q) -> exists d d1, doc_left (firstn n h) "a" = Some d /\ doc_left (firstn n h) "b" = Some d1.
Proof.
  intros h F n q E. rewrite forallb_forall in F. assert (L : n < length h) by (apply nth_error_Some; congruence). specialize (F n). rewrite E in F.
  assert (I : In n (seq 0 (length h))) by (apply in_seq; lia). specialize (F I). destruct (doc_left (firstn n h) "a"), (doc_left (firstn n h) "b"); try discriminate F. eauto.
Qed.
Lemma ws_long_calm : forall q, well_behaved ws_tools ws_arcs (ws_long ++ [EAsk q]).
Proof.
  intros q. apply ws_calm.
  - intros x I. cbn in I. cbn. tauto.
  - apply asks_nth. vm_compute. reflexivity.
  - intros r I. cbn in I. repeat (destruct I as [I|I]; [discriminate I|]). destruct I.
Qed.
Lemma ws_short_calm : forall q, well_behaved ws_tools ws_arcs (ws_short ++ [EAsk q]).
Proof.
  intros q. apply ws_calm.
  - intros x I. cbn in I. cbn. tauto.
  - apply asks_nth. vm_compute. reflexivity.
  - intros r I. cbn in I. repeat (destruct I as [I|I]; [discriminate I|]). destruct I.
Qed.
Lemma ws_same : same_left ws_arcs ws_long ws_short.
Proof.
  split.
  - intros p. unfold world_of, doc_left, ws_long, ws_short. cbn [fold_left]. destruct (String.eqb_spec "x" p) as [<-|]; [reflexivity|]. destruct (String.eqb_spec "h" p) as [<-|]; [reflexivity|].
    destruct (String.eqb_spec "b" p) as [<-|]; [reflexivity|]. destruct (String.eqb_spec "g" p) as [<-|]; [reflexivity|]. destruct (String.eqb_spec "a" p) as [<-|]; reflexivity.
  - intros k. reflexivity.
Qed.
Example C73_graphs_example :
  well_behaved ws_tools ws_arcs (ws_long ++ [EAsk (QGraph "g")]) /\ same_left ws_arcs ws_long ws_short /\
  ws_ask ws_long (QGraph "g") = AGraph (Some [("g", 0%N); ("h", 0%N); ("fn", 5%N); ("a", 1%N); ("b", 3%N); ("nowhere", 100%N)]) /\
  ws_ask (firstn 5 ws_long) (QGraph "g") = AGraph (Some [("g", 0%N); ("h", 0%N); ("a", 1%N); ("b", 2%N); ("nowhere", 100%N)]) /\
  ws_ask ws_long (QGraph "g") = ws_ask ws_short (QGraph "g").
Proof.
  split; [apply ws_long_calm|]. split; [exact ws_same|]. split; [vm_compute; reflexivity|]. split; [vm_compute; reflexivity|].
  apply C73_graphs_same; [exact ws_scope_free|exact ws_hash|apply ws_long_calm|apply ws_short_calm|exact ws_same].
Qed.
Example C73_policies_example :
  about_policies (world_of ws_arcs ws_long) (QDiag "a") /\
  ws_ask ws_long (QDiag "a") = ADiag [("a", 2%N); ("a", 1%N); ("b", 3%N)] /\ ws_ask (firstn 6 ws_long) (QDiag "a") = ADiag [("a", 2%N); ("a", 1%N); ("b", 2%N)] /\
  ws_ask ws_long (QComponent "b") = AComponent ["a"; "b"] /\ ws_ask ws_long (QDiag "a") = ws_ask ws_short (QDiag "a").
Proof.
  assert (A : about_policies (world_of ws_arcs ws_long) (QDiag "a")) by (cbn; intros g; discriminate).
  split; [exact A|]. split; [vm_compute; reflexivity|]. split; [vm_compute; reflexivity|]. split; [vm_compute; reflexivity|].
  apply C73_policies_same; [exact ws_scope_free|exact (proj1 ws_same)|exact A].
Qed.

(** ** Without those conditions the answers do depend on the history *)
Definition no_policies (h : list (@event N)) : Prop := forall p d, world_of ws_arcs h p <> Some (SPolicy d).
(** Two graphs that call each other: which one was asked about first decides what the other shows. *)
Theorem C73_cycle_refuted : exists h1 h2 : list (@event N), no_resolver h1 /\ no_resolver h2 /\ no_policies h1 /\ same_left ws_arcs h1 h2 /\
  ws_ask h1 (QGraph "h") <> ws_ask h2 (QGraph "h").
Proof.
  exists [ESet "g" 13; ESet "h" 14; EAsk (QGraph "g")], [ESet "g" 13; ESet "h" 14]. split; [|split; [|split; [|split]]].
  - intros r I. cbn in I. intuition discriminate.
  - intros r I. cbn in I. intuition discriminate.
  - intros p d E. apply world_cases in E as (x & K & S0). sets_tac K; discriminate S0.
  - split; reflexivity.
  - vm_compute. discriminate.
Qed.
(** A policy that begins to import another changes what that one shows, but a graph that called it keeps what it saw. *)
Theorem C73_import_refuted : exists h1 h2 : list (@event N), no_resolver h1 /\ no_resolver h2 /\
  (forall h, asked h1 h \/ h = h1 -> no_cycle ws_tools (world_of ws_arcs h)) /\ same_left ws_arcs h1 h2 /\ ws_ask h1 (QGraph "g") <> ws_ask h2 (QGraph "g").
Proof.
  exists [ESet "b" 2; ESet "g" 15; EAsk (QGraph "g"); ESet "a" 1], [ESet "b" 2; ESet "g" 15; ESet "a" 1]. split; [|split; [|split; [|split]]].
  - intros r I. cbn in I. intuition discriminate.
  - intros r I. cbn in I. intuition discriminate.
  - intros h A. apply (ranked _ ws_rank). intros p g x W I. apply world_cases in W as (d & K & S0).
    assert (K1 : In (p, d) [("b", 2); ("g", 15); ("a", 1)]). { destruct A as [A| ->]; [|exact K]. destruct (asked_only _ _ A) as (q & _ & E). rewrite E in K. apply firstn_sets in K. exact K. }
    sets_tac K1; try discriminate S0; injection S0 as ->; cbn in I; destruct I as [I|[]]; injection I as <-; cbn; lia.
  - split; reflexivity.
  - vm_compute. discriminate.
Qed.
(** A resolver installed after a graph was analysed is not asked about the functions that analysis met. *)
Theorem C73_resolver_refuted : exists h1 h2 : list (@event N),
  (forall h, asked h1 h \/ h = h1 -> no_cycle ws_tools (world_of ws_arcs h)) /\ no_policies h1 /\ same_left ws_arcs h1 h2 /\
  (exists r h, h1 = h ++ [EResolver r] /\ h2 = firstn 1 h ++ [EResolver r]) /\ ws_ask h1 (QGraph "h") <> ws_ask h2 (QGraph "h").
Proof.
  set (r := Some (fun _ : N => FTyped 9%N)). exists [ESet "h" 11; EAsk (QGraph "h"); EResolver r], [ESet "h" 11; EResolver r]. split; [|split; [|split; [|split]]].
  - intros h A. apply (ranked _ ws_rank). intros p g x W I. apply world_cases in W as (d & K & S0).
    assert (K1 : In (p, d) [("h", 11)]). { destruct A as [A| ->]; [|exact K]. destruct (asked_only _ _ A) as (q & _ & E). rewrite E in K. apply firstn_sets in K. exact K. }
    sets_tac K1. injection S0 as ->. cbn in I. destruct I as [I|[]]. discriminate I.
  - intros p d E. apply world_cases in E as (x & K & S0). sets_tac K; discriminate S0.
  - split; reflexivity.
  - exists r, [ESet "h" 11; EAsk (QGraph "h")]. auto.
  - vm_compute. discriminate.
Qed.
Print Assumptions C73_cycle_refuted.
Print Assumptions C73_import_refuted.
Print Assumptions C73_resolver_refuted.
