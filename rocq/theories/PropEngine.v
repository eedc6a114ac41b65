(** C36: decisions that evaluate other decisions, or themselves. *)
From Coq Require Import String Ascii ZArith Lia Bool List Arith.
From Verif Require Import Base Dec Value Heap HeapSpec Ast Ops Compiler Vm Eval Funcs Isolate Session Graph GraphSpec GraphFacts Walker WalkSpec Nodes NodeSpec Engine EngineFacts
  Lexer Parser StateClaims Samples PropSyntax.
Import ListNotations.
Local Open Scope string_scope.
Local Open Scope list_scope.
Local Open Scope nat_scope.

(** ** Samples. A decision that counts [n] down to 0 by evaluating itself. *)
Definition q0 : ekind -> string -> res node := parser read_num.
Definition no_other (u : Empty_set) (v : value) (ns : option value) (h : heap) : heap * res value := match u with end.
Definition no_check (nd : gnode (task Empty_set)) (v : value) (h : heap) : res unit := Ok tt.
Definition e_node (id : string) (k : gkind (task Empty_set)) : gnode (task Empty_set) := GNode id id k.
Definition countdown : content (task Empty_set) :=
  Content [e_node "in" KdInput; e_node "more" (KdSwitch HFirst [Statement "yes" "n > 0"; Statement "no" ""]);
           e_node "less" (KdTask (TExpression plain_transform [("n", "n - 1")])); e_node "again" (KdTask (TDecision plain_transform "countdown"));
           e_node "end" (KdTask (TExpression plain_transform [("done", "n == 0")]))]
          [CEdge "in" "more" None; CEdge "more" "less" (Some "yes"); CEdge "less" "again" None; CEdge "more" "end" (Some "no")].
(** Two that call each other, always. *)
Definition calls_other (key : string) : content (task Empty_set) :=
  Content [e_node "in" KdInput; e_node "call" (KdTask (TDecision plain_transform key))] [CEdge "in" "call" None].
Definition e_load (key : string) : option (content (task Empty_set)) :=
  if String.eqb key "countdown" then Some countdown
  else if String.eqb key "ping" then Some (calls_other "pong")
  else if String.eqb key "pong" then Some (calls_other "ping")
  else None.
Definition e_eval (max : nat) (c : content (task Empty_set)) (n : nat) : option (heap * res value) :=
  evaluate_decision demo q0 Empty_set no_other no_check e_load max c (VObj 0) [CObj [("n", VNum (dec_of_nat n))]].

(** ** Every evaluation stops, whatever the decisions load. *)
Theorem C36_stops : forall X parse U other check load max_depth c ctx h,
  exists r, evaluate_decision X parse U other check load max_depth c ctx h = Some r.
Proof. exact evaluate_stops. Qed.
Print Assumptions C36_stops.
(** At the limit a decision that would be evaluated gives the depth-limit error instead. *)
Theorem C36_limit : forall X parse U other check load parent c ctx h g, build_graph c = inr g -> validate g = None ->
  decide X parse U other check load 0 parent c ctx h = Some (h, Err depth_error).
Proof. intros X parse U other check load parent c ctx h g B V. cbn [decide]. rewrite B, V. reflexivity. Qed.
Print Assumptions C36_limit.
(** The limit has no other effect: an evaluation that does not end with the depth-limit error gives the same result, and leaves the same memory,
    under every higher limit. *)
Theorem C36_limit_only_adds_errors : forall X parse U other check load n k c ctx h r,
  evaluate_decision X parse U other check load n c ctx h = Some r -> snd r <> Err depth_error ->
  evaluate_decision X parse U other check load (n + k) c ctx h = Some r.
Proof. exact evaluate_more. Qed.
Print Assumptions C36_limit_only_adds_errors.
(** Counting down from 3 needs 4 levels: with 4 or more the result is [{"done": true}], with fewer the error. *)
Example C36_countdown_case :
  (forall n, In n [0; 1; 2; 3] -> option_map snd (e_eval n countdown 3) = Some (Err depth_error)) /\
  (forall n, In n [4; 5; 10] -> exists h v, e_eval n countdown 3 = Some (h, Ok v) /\ dot_parts h v ["done"] = Some (VBool true)) /\
  option_map snd (e_eval 10 countdown 20) = Some (Err depth_error).
Proof.
  split; [|split].
  - intros n I. repeat (destruct I as [<-|I]; [vm_compute; reflexivity|]). destruct I.
  - intros n I. repeat (destruct I as [<-|I]; [vm_compute; do 2 eexists; split; reflexivity|]). destruct I.
  - vm_compute. reflexivity.
Qed.
(** Corollary: from [n] on, 4 or more levels all give the same. *)
Example C36_countdown_all : forall k, e_eval (4 + k) countdown 3 = e_eval 4 countdown 3.
Proof.
  intros k. assert (E : exists h v, e_eval 4 countdown 3 = Some (h, Ok v)) by (vm_compute; do 2 eexists; reflexivity). destruct E as (h & v & E). rewrite E.
  refine (evaluate_more _ _ _ _ _ _ 4 k _ _ _ _ E _). discriminate.
Qed.

(** ** Decisions that always go on to evaluate a decision of the same family never succeed, whatever the limit. *)
Theorem C36_endless : forall X parse U other check load (K : content (task U) -> Prop),
  (forall c g n parent ctx h o v, K c -> build_graph c = inr g ->
    evaluate_graph sw_open (sw_run X parse) (handle_with X parse U other check load (decide X parse U other check load n)) true parent ctx g h = Some (inr o) -> o_res o = Ok v ->
    exists ev nd t key, In ev (o_log o) /\ In (ev_node ev, nd) (g_nodes g) /\ gn_kind nd = KdTask (TDecision t key) /\ ta_mode t = MSingle /\
      forall c', load key = Some c' -> K c') ->
  forall n c parent ctx h, K c -> exists h1 e, decide X parse U other check load n parent c ctx h = Some (h1, Err e).
Proof. exact endless. Qed.
Print Assumptions C36_endless.
(** In particular when each has no switch and no output node, and a decision node connected to its input whose key leads back into the family. *)
Theorem C36_endless_plain : forall X parse U other check load (K : string -> Prop),
  (forall key c g, K key -> load key = Some c -> build_graph c = inr g ->
    (forall m nd, In (m, nd) (g_nodes g) -> gn_kind nd <> KdOutput /\ forall p l, gn_kind nd <> KdSwitch p l) /\
    exists m nd t key', In (m, nd) (g_nodes g) /\ connected g m /\ gn_kind nd = KdTask (TDecision t key') /\ ta_mode t = MSingle /\ K key') ->
  forall n key c ctx h, K key -> load key = Some c -> exists h1 e, evaluate_decision X parse U other check load n c ctx h = Some (h1, Err e).
Proof.
  intros X parse U other check load K Fam n key c ctx h Kk Lk.
  destruct (endless X parse U other check load (fun c => exists key, K key /\ load key = Some c)) with (n := n) (c := c) (parent := @None value) (ctx := ctx) (h := h) as (h1 & e & E); [|eauto|].
  - intros c0 g m parent ctx0 h0 o v (key0 & K0 & L0) B E R. destruct (Fam key0 c0 g K0 L0 B) as (P & n0 & nd & t & key' & I & C & Kd & M & K').
    assert (W : wf_graph g) by (eapply build_wf; eauto). assert (V : validate g = None).
    { unfold evaluate_graph in E. destruct (validate g); [discriminate|reflexivity]. }
    destruct (plain_runs X parse U _ _ _ _ _ _ _ n0 W V P E R C) as (out & ev & Ie & En & _). exists ev, nd, t, key'. rewrite En. repeat split; auto. intros c' Lc. eauto.
  - unfold evaluate_decision. rewrite E. eauto.
Qed.
Print Assumptions C36_endless_plain.
Example C36_endless_case : forall n, exists h e, e_eval n (calls_other "pong") 0 = Some (h, Err e).
Proof.
  intros n. unfold e_eval. apply (C36_endless_plain demo q0 Empty_set no_other no_check e_load (fun k => k = "ping" \/ k = "pong")) with (key := "ping"); auto.
  intros key c g [-> | ->] L B; injection L as <-; injection B as <-; (split; [intros m nd [E|[E|[]]]; injection E as <- <-; split; discriminate|]);
    (eexists 1, _, _, _; split; [right; left; reflexivity|split; [|split; [reflexivity|split; [reflexivity|tauto]]]]);
    (apply co_succ with (a := 0); [exists 0; eexists; split; [left; reflexivity|split; reflexivity]|apply co_input; left; reflexivity]).
Qed.
Example C36_endless_error : option_map snd (e_eval 10 (calls_other "pong") 0) = Some (Err depth_error).
Proof. vm_compute. reflexivity. Qed.
