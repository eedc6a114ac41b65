(** C75: blocks that run once for every instance of an entity. *)
From Coq Require Import String ZArith Bool List Arith Lia.
From Verif Require Import Base Dec Value Heap Ast Ops Compiler Eval Funcs Samples HeapSpec HeapFacts DotFacts Isolate Session PureFacts Blocks BlocksSpec
  BlocksFacts Iterate IterateSpec IterateFacts ContentFacts PropNodes PropBlocks.
From Verif Require RepFacts.
Import ListNotations.
Local Open Scope string_scope.
Local Open Scope nat_scope.
Local Open Scope list_scope.

(** [{ "rate": 2, "items": [{ "price": 10 }, { "price": 30, "note": "x" }] }], the object of the store at 3, the items at 0 and 1. *)
Definition it_fields : amap value := [("rate", num 2%Z); ("items", VArr 2)].
Definition it_heap : heap :=
  [CObj [("price", num 10%Z)]; CObj [("price", num 30%Z); ("note", VStr "x")]; CArr [VObj 0; VObj 1]; CObj it_fields].
Definition it_names (k : string) : bool := String.eqb k "item" || String.eqb k "rate".
Definition it_block : block := BMatch "item.tax" [MArm "1" "item.price > 20" "item.price * rate"; MArm "2" "" "item.price"].
Ltac names_tac := let n := fresh in let H := fresh in intros n H; vm_compute in H; (discriminate H || injection H as <-; split; vm_compute; reflexivity).

(** A block that runs for every instance puts at the property of each instance what it computes with that instance standing for the entity, in the
    store as it was before; every other property of the instances is as it was and so is every other object, the store included.
    It fails exactly at an instance for which it computes nothing: this one and the later ones are as they were, and the earlier ones are either all
    as they were or all have their results.
    Hypotheses: the instances are different objects of which none contains another; what else the block reads does not contain an instance;
    results are not objects or arrays. *)
Theorem C75_each : forall L parse P extras b entity field path h ls ms la lis h1 r, plain_lib L ->
  hget h ls = Some (CObj ms) -> NoDup (akeys ms) -> instances h lis -> apart_from h ms P entity lis ->
  block_names parse P b -> split_dot (block_key b) = [entity; field] ->
  (forall li t, In li lis -> computes_for (std_ext L) parse h ms entity (VObj li) b t -> scalar t) ->
  dot h (VObj ls) path = Some (VArr la) -> hget h la = Some (CArr (map VObj lis)) ->
  run_iterated (std_ext L) parse extras b entity path None (VObj ls) h = (h1, r) ->
  (forall l, l < length h -> ~ In l lis -> hget h1 l = hget h l) /\
  match r with
  | Ok _ => forall li, In li lis -> exists t, computes_for (std_ext L) parse h ms entity (VObj li) b t /\ extended h h1 li field t
  | Err _ => exists before li after, lis = before ++ li :: after /\ (forall t, ~ computes_for (std_ext L) parse h ms entity (VObj li) b t) /\
      (forall l, In l (li :: after) -> as_before h h1 l) /\
      ((forall l, In l before -> as_before h h1 l) \/
       forall l, In l before -> exists t, computes_for (std_ext L) parse h ms entity (VObj l) b t /\ extended h h1 l field t)
  end.
Proof.
  intros L parse P extras b entity field path h ls ms la lis h1 r HL Hls Nms Inst Ap Bn Key Sc D A R.
  exact (iterated L HL parse P h ls ms entity field lis b Hls Nms Inst Ap Bn Key Sc extras path la h1 r D A R).
Qed.
Print Assumptions C75_each.
Lemma flat_reach : forall h l l' m, hget h l = Some (CObj m) ->
  Forall (fun kv => match snd kv with VArr _ | VObj _ => False | _ => True end) m -> reachl h (VObj l) l' -> l' = l.
Proof.
  intros h l l' m G F Z. rewrite Forall_forall in F.
  assert (Q : forall w, reach h (VObj l) w -> w = VObj l \/ exists x, match x with VArr _ | VObj _ => False | _ => True end /\ reach h x w).
  { intros w R. inversion R; subst; auto. right. rewrite G in H0. injection H0 as <-. exists x. split; auto. exact (F _ H1). }
  destruct Z as [Z|Z]; apply Q in Z as [Z|(x & Sx & Z)]; try congruence; exfalso;
    (eapply (reachl_scalar h x l'); [intros y ->; exact Sx|intros y ->; exact Sx|]); [left|right]; exact Z.
Qed.
Lemma it_instances : instances it_heap [0; 1].
Proof.
  assert (R0 : repr it_heap (VObj 0) (TObj [("price", TNum (dec_of_Z 10%Z))])) by (eapply RObj; [reflexivity|]; repeat constructor).
  assert (R1 : repr it_heap (VObj 1) (TObj [("price", TNum (dec_of_Z 30%Z)); ("note", TStr "x")])) by (eapply RObj; [reflexivity|]; repeat constructor).
  split; [repeat constructor; cbn; intuition discriminate|]. split.
  - intros l [<-|[<-|[]]]; eexists; eexists; (split; [reflexivity|]); eauto.
  - intros l l' [<-|[<-|[]]] _ D Z; apply D; symmetry; (eapply flat_reach; [| |exact Z]; [reflexivity|]); repeat constructor.
Qed.
(** Two items: tax 10 and 60. *)
Example C75_each_case : hget it_heap 3 = Some (CObj it_fields) /\ NoDup (akeys it_fields) /\ instances it_heap [0; 1] /\
  apart_from it_heap it_fields it_names "item" [0; 1] /\ block_names p0 it_names it_block /\ split_dot (block_key it_block) = ["item"; "tax"] /\
  (forall li t, In li [0; 1] -> computes_for demo p0 it_heap it_fields "item" (VObj li) it_block t -> scalar t) /\
  dot it_heap (VObj 3) "items" = Some (VArr 2) /\ hget it_heap 2 = Some (CArr (map VObj [0; 1])) /\
  exists h1, run_iterated demo p0 false it_block "item" "items" None (VObj 3) it_heap = (h1, Ok tt) /\
    hget h1 0 = Some (CObj [("price", num 10%Z); ("tax", num 10%Z)]) /\ hget h1 1 = Some (CObj [("price", num 30%Z); ("note", VStr "x"); ("tax", num 60%Z)]) /\
    hget h1 3 = hget it_heap 3.
Proof.
  split; [reflexivity|]. split; [repeat constructor; cbn; intuition discriminate|]. split; [exact it_instances|]. split.
  { intros k v Hk D A. unfold it_names in Hk. apply orb_true_iff in Hk as [Hk|Hk]; apply String.eqb_eq in Hk; subst k; [congruence|].
    injection A as <-. split; [eexists; constructor|]. intros l _. apply reachl_scalar; discriminate. }
  split.
  { split; [|cbn; repeat constructor; cbn; intuition discriminate]. intros e He. cbn in He. repeat (destruct He as [<-|He]; [names_tac|]). destruct He. }
  split; [reflexivity|]. split.
  { intros li t Hi C. unfold computes_for in C. pose proof (fun t' D => computes_fun demo_lib p0 _ _ _ t t' C D) as U.
    destruct Hi as [<-|[<-|[]]].
    - rewrite (U (TNum (dec_of_Z 10%Z))); [exact Logic.I|]. eapply CP_match.
      + apply AC_next; [discriminate|eexists; vm_compute; reflexivity|vm_compute; reflexivity|]. apply AC_here. now left.
      + discriminate.
      + eexists. eexists. split; [vm_compute; reflexivity|]. constructor.
    - rewrite (U (TNum (dec_of_Z 60%Z))); [exact Logic.I|]. eapply CP_match.
      + apply AC_here. right. vm_compute. reflexivity.
      + discriminate.
      + eexists. eexists. split; [vm_compute; reflexivity|]. constructor. }
  split; [vm_compute; reflexivity|]. split; [reflexivity|]. eexists. split; [vm_compute; reflexivity|]. repeat split.
Qed.

(** Whether the block reads the other instances matters: then it sees the results of those before it, and two instances with the same content
    get different results. *)
Theorem C75_siblings_refuted : exists b h ls ms l1 l2 h1, let X := demo in
  hget h ls = Some (CObj ms) /\ instances h [l1; l2] /\ hget h l1 = hget h l2 /\
  split_dot (block_key b) = ["item"; "rank"] /\
  run_iterated X p0 false b "item" "items" None (VObj ls) h = (h1, Ok tt) /\
  (forall t, computes_for X p0 h ms "item" (VObj l2) b t -> t = TNum (dec_of_Z 0%Z)) /\
  shows h1 (VObj l1) "rank" (TNum (dec_of_Z 0%Z)) /\ shows h1 (VObj l2) "rank" (TNum (dec_of_Z 1%Z)).
Proof.
  set (b := BExpression "item.rank" "len(filter(items, #.rank != null))").
  set (h := [CObj [("price", num 10%Z)]; CObj [("price", num 10%Z)]; CArr [VObj 0; VObj 1]; CObj it_fields]).
  exists b, h, 3, it_fields, 0, 1. eexists. cbv zeta. split; [reflexivity|]. split.
  { assert (R : forall l, l < 2 -> repr h (VObj l) (TObj [("price", TNum (dec_of_Z 10%Z))])).
    { intros l Hl. destruct l as [|[|]]; [| |lia]; (eapply RObj; [reflexivity|]; repeat constructor). }
    split; [repeat constructor; cbn; intuition discriminate|]. split.
    - intros l [<-|[<-|[]]]; eexists; eexists; (split; [reflexivity|]); apply R; lia.
    - intros l l' [<-|[<-|[]]] _ D Z; apply D; symmetry; (eapply flat_reach; [| |exact Z]; [reflexivity|]); repeat constructor. }
  split; [reflexivity|]. split; [reflexivity|]. split; [vm_compute; reflexivity|]. split.
  { intros t C. inversion C as [k e t0 E| | | | |]; subst. destruct E as (g & v & E & R). vm_compute in E. injection E as <- <-. inversion R; subst. reflexivity. }
  split; eexists; (split; [vm_compute; reflexivity|]); constructor.
Qed.
Print Assumptions C75_siblings_refuted.

(** An instance that lies in an owner: the block sees the owner among the properties of the instance, and the result is written to the instance, which does
    not get the owner. *)
Theorem C75_owner : forall L parse P b entity field name g lc mc li mi lo p h1 r, plain_lib L ->
  hget g lc = Some (CObj mc) -> NoDup (akeys mc) -> hget g li = Some (CObj mi) -> NoDup (akeys mi) -> aget name mi = None -> lc <> li ->
  split_dot (block_key b) = [entity; field] -> block_names parse P b ->
  (forall k v, P k = true -> k <> entity -> aget k mc = Some v -> exists t, repr g v t /\ ~ reachl g v lc) ->
  (forall k v, In (k, v) mi -> exists t, repr g v t /\ ~ reachl g v lc) -> (exists t, repr g (VObj lo) t) -> ~ reachl g (VObj lo) lc ->
  let ctx := seen_by (fst (owned g mi name (VObj lo))) mc entity (snd (owned g mi name (VObj lo))) in
  picked L parse (fst ctx) (snd ctx) b p ->
  (forall t, computes (std_ext L) parse (fst ctx) (snd ctx) b t -> scalar t) ->
  irun_one (std_ext L) parse b entity (Some (name, VObj lo)) (VObj lc) (VObj li) p g = (h1, r) ->
  match r with
  | Ok _ => exists v t m, computes (std_ext L) parse (fst ctx) (snd ctx) b t /\ (forall g1, repr g1 v t) /\ hget h1 li = Some (CObj m) /\
      (forall k, aget k m = if String.eqb k field then Some v else aget k mi) /\
      forall l, l < length g -> l <> lc -> l <> li -> hget h1 l = hget g l
  | Err _ => (forall t, ~ computes (std_ext L) parse (fst ctx) (snd ctx) b t) /\ exists m, hget h1 li = Some (CObj m) /\ (forall k, aget k m = aget k mi) /\
      forall l, l < length g -> l <> lc -> l <> li -> hget h1 l = hget g l
  end.
Proof. intros L parse P b entity field name g lc mc li mi lo p h1 r HL. exact (owner_spec L HL parse P g lc mc li mi name lo entity field b p h1 r). Qed.
Print Assumptions C75_owner.
Lemma split_dot_last : forall s t, contains_char dot_char t = false -> split_dot (s ++ String dot_char t)%string = split_dot s ++ [t].
Proof.
  intros s t N. unfold split_dot. induction s as [|a s IH]; cbn [append split_on].
  - rewrite Ascii.eqb_refl. now rewrite (split_on_no_char _ t N).
  - rewrite IH. pose proof (split_on_nonempty dot_char s) as M. destruct (split_on dot_char s) as [|h r]; [congruence|]. destruct (Ascii.eqb a dot_char); reflexivity.
Qed.
(** The owner is what the store holds in front of the last dot of the collection's path; a collection without one has no owner. *)
Theorem C75_whose : forall h store front last name, contains_char dot_char last = false ->
  owner_binding h store (split_dot (front ++ "." ++ last)%string) (Some name) = option_map (pair name) (dot h store front) /\
  owner_binding h store (split_dot last) (Some name) = None /\ owner_binding h store (split_dot (front ++ "." ++ last)%string) None = None.
Proof.
  intros h store front last name N. change (front ++ "." ++ last)%string with (front ++ String dot_char last)%string. rewrite split_dot_last by exact N.
  unfold owner_binding, dot. split; [|split; [|reflexivity]].
  - pose proof (split_on_nonempty dot_char front) as M. fold (split_dot front) in M. destruct (split_last_some (split_dot front ++ [last])) as (i & z & Es & E); [destruct (split_dot front); discriminate|]. rewrite Es.
    apply app_inj_tail in E as (<- & <-). destruct (split_dot front); [congruence|reflexivity].
  - unfold split_dot. rewrite (split_on_no_char _ last N). reflexivity.
Qed.
Print Assumptions C75_whose.
(** [{ "order": { "vip": true, "lines": [{ "price": 10 }] } }]: the line sees its order, and does not get it. *)
Definition it_owned : heap :=
  [CObj [("price", num 10%Z)]; CArr [VObj 0]; CObj [("vip", VBool true); ("lines", VArr 1)]; CObj [("order", VObj 2)]].
Example C75_owner_case :
  let b := BExpression "line.cost" "line.order.vip ? line.price / 2 : line.price" in
  block_names p0 (fun k => String.eqb k "line") b /\
  exists h1, run_iterated demo p0 false b "line" "order.lines" (Some "order") (VObj 3) it_owned = (h1, Ok tt) /\
    hget h1 0 = Some (CObj [("price", num 10%Z); ("cost", num 5%Z)]) /\ hget h1 2 = hget it_owned 2 /\ hget h1 3 = hget it_owned 3.
Proof.
  cbv zeta. split.
  { split; [|discriminate]. intros e He. cbn in He. repeat (destruct He as [<-|He]; [names_tac|]). destruct He. }
  eexists. split; [vm_compute; reflexivity|]. repeat split.
Qed.

(** Only arrays are run over: without one nothing happens. *)
Theorem C75_no_array : forall X parse extras b entity path owner store h,
  (forall l, dot h store path <> Some (VArr l)) -> run_iterated X parse extras b entity path owner store h = (h, Ok tt).
Proof.
  intros X parse extras b entity path owner store h N. unfold run_iterated. destruct (dot h store path) as [[]|]; auto. exfalso. exact (N l eq_refl).
Qed.
Print Assumptions C75_no_array.
Example C75_no_array_case : dot it_heap (VObj 3) "rate" = Some (num 2%Z) /\ dot it_heap (VObj 3) "none" = None /\
  run_iterated demo p0 false it_block "item" "rate" None (VObj 3) it_heap = (it_heap, Ok tt).
Proof. repeat split. Qed.

(** A block may store the instance in itself: the instance has no finite content any more. *)
Theorem C75_cyclic_refuted : exists b h1, run_iterated demo p0 false b "item" "items" None (VObj 3) it_heap = (h1, Ok tt) /\
  ~ exists t, repr h1 (VObj 0) t.
Proof.
  exists (BExpression "item.copy" "item"). eexists. split; [vm_compute; reflexivity|]. intros [t R].
  eapply (acyclic_obj _ _ _ _ "copy" (VObj 0) R); [reflexivity|cbn; auto|]. right. constructor.
Qed.
Print Assumptions C75_cyclic_refuted.
