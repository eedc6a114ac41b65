(** C68: the hints about redundant parentheses. [ParenLint.v] is the model, [ParenSpec.v] says what it is to remove parentheses
    and which ones are unnecessary; [Print.v] says how a tree is written. *)
From Coq Require Import String Ascii ZArith Lia Bool List Arith.
From Verif Require Import Base Dec Value Heap Ast Ops Compiler Vm Eval Funcs PureFacts Lexer Parser Print RoundTrip ParensFacts
  GrammarFacts Samples PropSyntax PropGrammar PropDeps PropNodes ParenLint ParenSpec ParenValue ParenDrop ParenPlaces.
Import ListNotations.
Local Open Scope string_scope.
Local Open Scope list_scope.
Local Open Scope nat_scope.

Definition paren (n : node) : bool := match n with NParen _ => true | _ => false end.

(** A pair inside any construct but parentheses is reported exactly if it is unnecessary there. *)
Theorem C68_reported : forall n q p a m, place n q p -> step p a (NParen m) -> paren p = false -> proper p -> proper m ->
  (In (q ++ a) (paren_hints n) <-> unneeded p a m).
Proof. intros n q p a m P St Np Pp Pm. apply reported; assumption. Qed.
Print Assumptions C68_reported.
(** A pair around parentheses is always reported; a pair around everything, unless it holds a closure or an error. *)
Theorem C68_outer : (forall n q m, place n q (NParen (NParen m)) -> In q (paren_hints n)) /\
  forall m, In [] (paren_hints (NParen m)) <-> simple m \/ operation m.
Proof. split; [apply nested|]. intros m. unfold paren_hints. rewrite top_in. cbn [is_redundant]. rewrite orb_true_iff, atom_simple, compound_operation. reflexivity. Qed.
Print Assumptions C68_outer.
(** [((a + b)) * (c) - (x.y) + f((b * a)) ^ (b ^ c)] *)
Definition va := NIdent "a". Definition vb := NIdent "b". Definition vc := NIdent "c".
Definition sum_ab := NBinary va (OpArith AAdd) vb.
Definition sample_paren : node :=
  NBinary (NBinary (NParen (NParen sum_ab)) (OpArith AMul) (NParen vc)) (OpArith ASub)
    (NParen (NBinary (NMember (NParen (NMember va (NString "y"))) (NString "x")) (OpArith APow) (NParen (NBinary vb (OpArith APow) (NParen (NArray [NParen sum_ab])))))).
Example C68_reported_case : place sample_paren [1; 0] (NBinary (NMember (NParen (NMember va (NString "y"))) (NString "x")) (OpArith APow) (NParen (NBinary vb (OpArith APow) (NParen (NArray [NParen sum_ab]))))) /\
  render (words write_num sample_paren) = "( ( a + b ) ) * ( c ) - ( ( a . y ) . x ^ ( b ^ ( [ ( a + b ) ] ) ) ) " /\
  paren_hints sample_paren = [[0; 0]; [0; 1]; [1]; [1; 0; 0; 0]; [1; 0; 1]; [1; 0; 1; 0; 1]; [1; 0; 1; 0; 1; 0; 0]] /\
  render (words write_num (drop (fun q => if in_dec (list_eq_dec Nat.eq_dec) q (paren_hints sample_paren) then true else false) sample_paren)) =
    "( a + b ) * c - a . y . x ^ b ^ [ a + b ] ".
Proof.
  split; [|vm_compute; auto].
  apply (pl_there _ [1] _ [0] _ (st_right _ _ _)). apply (pl_there _ [0] _ [] _ (st_paren _)). constructor.
Qed.
(** When all the reported pairs are gone, nothing is reported any more. *)
Theorem C68_once : forall n pick, plain_tree n = true -> (forall q, pick q = true <-> In q (paren_hints n)) -> paren_hints (drop pick n) = [].
Proof. intros n pick P H. apply once; [exact P|]. exact H. Qed.
Print Assumptions C68_once.
(** Whatever reported pairs are removed, what is left reads back as the tree without them, and has the same value. *)
Theorem C68_remove : forall X pn nt n pick root h,
  canon nt pn (has_range (spell (words nt n))) FStandard n 0 CxGlobal 0 0 -> Forall word_ok (words nt n) ->
  calm n = true -> opening n = true -> (forall q, pick q = true -> In q (paren_hints n)) -> object_or_null root ->
  parse_source pn FStandard (render (words nt n)) = Some (Ok n) /\
  exists m, parse_source pn FStandard (render (words nt (drop pick n))) = Some (Ok m) /\ strip m = strip n /\ evaluate X m root h = evaluate X n root h.
Proof.
  intros X pn nt n pick root h C W Ca Op Pk Rt. split; [apply source_back; assumption|].
  exists (drop pick n). split; [|split; [apply strip_drop|]].
  - apply source_back; [eapply drop_reads; eassumption|eapply drop_words; eassumption].
  - symmetry. apply same_strip; [symmetry; apply strip_drop| |exact Rt]. apply plain_no_assign. exact (proj1 (quiet_all _ _ _ _ n) _ _ _ _ C).
Qed.
Print Assumptions C68_remove.
Example C68_remove_case : canon write_num read_num (has_range (spell (words write_num sample_paren))) FStandard sample_paren 0 CxGlobal 0 0 /\
  Forall word_ok (words write_num sample_paren) /\ calm sample_paren = true /\ opening sample_paren = true /\ plain_tree sample_paren = true /\
  In [0; 0] (paren_hints sample_paren).
Proof.
  split; [|split; [|repeat split; try (vm_compute; tauto)]].
  - unfold sample_paren, sum_ab, va, vb, vc. cbn [canon]. canonical. vm_compute. reflexivity.
  - unfold sample_paren, sum_ab, va, vb, vc. repeat constructor; cbn; try reflexivity.
Qed.
(** Values do not depend on parentheses at all, wherever they are. *)
Theorem C68_same_value : forall X n pick root h, no_assign n = true -> object_or_null root -> evaluate X (drop pick n) root h = evaluate X n root h.
Proof. intros X n pick root h N Rt. symmetry. apply same_strip; auto. symmetry. apply strip_drop. Qed.
Print Assumptions C68_same_value.

(** What the hypotheses are for. A negation swallows what follows it: [(a ?? !b) ?? c] is reported, and without the parentheses it is [a ?? !(b ?? c)]. *)
Definition neg_paren : node := NBinary (NParen (NBinary va (OpLogic LNullish) (NUnary vb (OpLogic LNot)))) (OpLogic LNullish) vc.
Definition all_null : heap := [CObj [("a", VNull); ("b", VNull); ("c", VBool true)]].
Theorem C68_negation_refuted : ~ (forall n pick, parse_source read_num FStandard (render (words write_num n)) = Some (Ok n) ->
  (forall q, pick q = true -> In q (paren_hints n)) ->
  forall m, parse_source read_num FStandard (render (words write_num (drop pick n))) = Some (Ok m) ->
  forall root h, object_or_null root -> fst (evaluate demo m root h) = fst (evaluate demo n root h)).
Proof.
  intros H. specialize (H neg_paren (fun q => match q with [0] => true | _ => false end)).
  assert (A : parse_source read_num FStandard (render (words write_num neg_paren)) = Some (Ok neg_paren)) by (vm_compute; reflexivity).
  specialize (H A).
  assert (B : forall q, (match q with [0] => true | _ => false end) = true -> In q (paren_hints neg_paren)).
  { intros [|[|k] [|j r]]; try discriminate. intros _. left. reflexivity. }
  specialize (H B (NBinary va (OpLogic LNullish) (NUnary (NBinary vb (OpLogic LNullish) vc) (OpLogic LNot)))).
  assert (C : parse_source read_num FStandard (render (words write_num (drop (fun q => match q with [0] => true | _ => false end) neg_paren))) =
    Some (Ok (NBinary va (OpLogic LNullish) (NUnary (NBinary vb (OpLogic LNullish) vc) (OpLogic LNot))))) by (vm_compute; reflexivity).
  specialize (H C (scope_new (VObj 0)) all_null I). vm_compute in H. discriminate H.
Qed.
Print Assumptions C68_negation_refuted.
(** An interval that begins with a closing bracket: [[(]1..25[)]] is reported, and is no expression without the parentheses. *)
Definition open_paren : node := NArray [NParen (NInterval (nnum 1) (nnum 25) RSquare LSquare)].
Theorem C68_interval_refuted : ~ (forall n pick, parse_source read_num FStandard (render (words write_num n)) = Some (Ok n) ->
  (forall q, pick q = true -> In q (paren_hints n)) ->
  exists m, parse_source read_num FStandard (render (words write_num (drop pick n))) = Some (Ok m)).
Proof.
  intros H. destruct (H open_paren (fun q => match q with [0] => true | _ => false end)) as [m E].
  - vm_compute. reflexivity.
  - intros [|[|k] [|j r]]; try discriminate. intros _. left. reflexivity.
  - vm_compute in E. discriminate E.
Qed.
Print Assumptions C68_interval_refuted.
(** Contexts that are no objects: [(a).b] fails where [a.b] is null. *)
Theorem C68_context_refuted : ~ (forall n pick root h, no_assign n = true -> (forall q, pick q = true -> In q (paren_hints n)) ->
  fst (evaluate demo (drop pick n) root h) = fst (evaluate demo n root h)).
Proof.
  intros H. specialize (H (NMember (NParen va) (NString "b")) (fun q => match q with [0] => true | _ => false end) (scope_new (VBool true)) []).
  assert (B : forall q, (match q with [0] => true | _ => false end) = true -> In q (paren_hints (NMember (NParen va) (NString "b")))).
  { intros [|[|k] [|j r]]; try discriminate. intros _. left. reflexivity. }
  specialize (H eq_refl B). vm_compute in H. discriminate H.
Qed.
Print Assumptions C68_context_refuted.
(** Assignments: after [a = 1], [($root).a] is 1 and [$root.a] is not. *)
Definition assign_paren (r : node) : node := NAssign [(NString "a", nnum 1)] (Some (NMember r (NString "a"))).
Theorem C68_assign_refuted : In [1; 0] (paren_hints (assign_paren (NParen NRoot))) /\
  fst (evaluate demo (assign_paren (NParen NRoot)) (scope_new (VObj 0)) all_null) <> fst (evaluate demo (assign_paren NRoot) (scope_new (VObj 0)) all_null) /\
  parse_source read_num FStandard "a = 1; ($root).a" = Some (Ok (assign_paren (NParen NRoot))) /\
  parse_source read_num FStandard "a = 1; $root.a" = Some (Ok (assign_paren NRoot)).
Proof. split; [|split; [|split]]; [left; reflexivity|intros H; vm_compute in H; discriminate H|vm_compute; reflexivity|vm_compute; reflexivity]. Qed.
Print Assumptions C68_assign_refuted.
