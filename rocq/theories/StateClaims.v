(** Isolate, object map and layout properties in the form the property file states them. *)
From Coq Require Import String Ascii ZArith Lia Bool List Arith Permutation.
From Verif Require Import Base Dec Value Heap Ast Ops Compiler Vm Eval Funcs Samples HeapSpec TreeFacts HeapFacts
  DotFacts DropFacts PureFacts VmFacts ExprFacts RunSpec HeapClaims VMap VMapFacts RepFacts ContentFacts Isolate IsolateFacts MemoFacts.
Import ListNotations.
Local Open Scope string_scope.
Local Open Scope nat_scope.

(** ** C11: removal *)
Lemma remove_reads_nothing : forall key h v t h1 o, wf_heap h -> repr h v t ->
  dot_remove h v key = (h1, o) -> o = dot h v key /\ dot h1 v key = None.
Proof.
  intros key h v t h1 o W R E. rewrite dot_remove_drop in E. split.
  - eapply drop_returns; eauto. apply split_dot_ne. eapply repr_wf_val; eauto.
  - eapply drop_reads; eauto. apply split_dot_ne. eapply repr_wf; eauto.
Qed.
Lemma remove_frame : forall key h v t h1 o key2, wf_heap h -> repr h v t -> tshape h v ->
  dot_remove h v key = (h1, o) -> diverge (split_dot key) (split_dot key2) ->
  dot h1 v key2 = dot h v key2 /\
  (forall w tw, dot h v key2 = Some w -> repr h w tw -> repr h1 w tw).
Proof.
  intros. rewrite dot_remove_drop in *. eapply drop_frame; eauto. apply split_dot_ne. eapply repr_wf; eauto.
Qed.
Lemma insert_returns_previous : forall key h v t x, wf_heap h -> repr h v t ->
  snd (dot_insert h v key x) = dot h v key.
Proof.
  intros key h v t x W R. unfold dot_insert. rewrite insert_drop_same.
  destruct (drop_parts h v (split_dot key)) as [h1 o] eqn:E. cbn.
  eapply drop_returns; eauto. apply split_dot_ne. eapply repr_wf_val; eauto.
Qed.
Lemma remove_missing_creates : exists h v key h1, wf_heap h /\ dot h v key = None /\
  dot_remove h v key = (h1, None) /\ dot h v "missing" = None /\ dot h1 v "missing" <> None.
Proof.
  exists [CObj []], (VObj 0), "missing.x", [CObj [("missing", VObj 1)]; CObj []].
  split; [|vm_compute; repeat split; auto; discriminate].
  intros l c G. destruct l as [|l]; cbn in G; [injection G as <-; cbn; split; constructor|destruct l; discriminate].
Qed.

(** ** A parser for the examples *)
Definition gt_three : node := NBinary (NIdent "$") (OpCmp CGt) (nnum 3).
Definition toy (k : ekind) (s : string) : res node :=
  match k with
  | KUnary => if String.eqb s "> 3" then Ok gt_three else Err (EOp "parse")
  | KStandard =>
      if String.eqb s "(" then Err (EOp "parse")
      else if String.eqb s "nested.x" then Ok (NMember (NIdent "nested") (NString "x"))
      else if String.eqb s "-name" then Ok s_bad
      else Ok (NIdent s)
  end.
Definition no_junk (n : node) : list opcode := [].
Definition no_junk_vm (c : list opcode) (s : scope) (h : heap) : list value * list loop := ([VNull; VNull], []).
Definition t_trace (ops : list iop) (i : isolate) : list iobs :=
  map fst (itrace demo toy 100 no_junk no_junk_vm ops i s_heap).

Lemma dollar_reference_stale : exists mid r u,
  let i := fst (iafter demo toy 100 no_junk no_junk_vm (with_locals [] (VObj 2) ++ mid)%list iso_new s_heap) in
  Forall (table_op toy) mid /\
  t_trace [ISetRef r; IRunUnary u] i = [OStatus (Ok tt); OBool (Ok false)] /\
  t_trace [ISetRef r; IRunUnary u] (forget i) = [OStatus (Ok tt); OBool (Ok true)].
Proof.
  exists [ISetRefVal (num 1); ISetRef "$"; ISetRefVal (num 5)], "$", "> 3". cbn zeta. split.
  - repeat constructor. cbn. intros n E. injection E as <-. reflexivity.
  - split; vm_compute; reflexivity.
Qed.
Lemma local_change_stale : exists r u,
  let i := fst (iafter demo toy 100 no_junk no_junk_vm
    [ISetEnv (VObj 2); ISetLocal "x" (num 1); ISetRef r; ISetLocal "x" (num 5)] iso_new s_heap) in
  t_trace [ISetRef r; IRunUnary u] i = [OStatus (Ok tt); OBool (Ok false)] /\
  t_trace [ISetRef r; IRunUnary u] (forget i) = [OStatus (Ok tt); OBool (Ok true)].
Proof. exists "x", "> 3". split; vm_compute; reflexivity. Qed.

(** ** C52 *)
Definition same_content (h1 h2 : heap) (s1 s2 : scope) : Prop :=
  alike h1 h2 (sc_base s1) (sc_base s2) /\ Forall2 (kalike h1 h2) (sc_locals s1) (sc_locals s2).
Lemma content_decides : forall L n s1 s2 h1 h2 r1 g1, plain_lib L -> no_assign n = true ->
  same_content h1 h2 s1 s2 -> yields (std_ext L) n s1 h1 r1 g1 ->
  exists r2 g2, yields (std_ext L) n s2 h2 r2 g2 /\ same_outcome (r1, g1) (r2, g2).
Proof.
  intros L n s1 s2 h1 h2 r1 g1 HL Hn [A B] Y. apply yields_iff in Y as [C E].
  destruct (evaluate (std_ext L) n s2 h2) as [r2 g2] eqn:E2. exists r2, g2. split; [apply yields_iff; auto|].
  rewrite <- E, <- E2. eapply (evaluate_alike L (fun _ => true) true); eauto using reads_all.
  split; auto. split; auto. intros k _. unfold local_str. now apply aget_alike.
Qed.
(** The context again, laid out differently: other addresses. *)
Definition s_heap2 : heap :=
  [ CObj [("items", VArr 2); ("age", num 20); ("name", VStr "Ann"); ("nested", VObj 3)];
    CArr []; CArr [num 1; num 2; num 3]; CObj [("x", num 1)] ].
Definition s_root2 : scope := scope_new (VObj 0).
Lemma same_content_case : same_content s_heap s_heap2 s_root s_root2.
Proof.
  split; [|constructor].
  exists (TObj [("items", TArr [TNum (dec_of_Z 1); TNum (dec_of_Z 2); TNum (dec_of_Z 3)]); ("age", TNum (dec_of_Z 20));
    ("name", TStr "Ann"); ("nested", TObj [("x", TNum (dec_of_Z 1))])]).
  split; cbn [sc_base s_root s_root2 scope_new];
    repeat first
      [ apply RNum | apply RStr | (eapply RArr; [reflexivity|]) | (eapply RObj; [reflexivity|])
      | apply Forall2_nil | apply Forall2_cons | (split; [reflexivity|cbn [snd]]) ].
Qed.
