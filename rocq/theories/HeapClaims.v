(** The heap properties in the form the property files state them. *)
From Coq Require Import String Ascii ZArith Lia Bool List Arith Permutation.
From Verif Require Import Base Dec Value Heap Ast Ops Compiler Vm Eval Funcs Samples HeapSpec TreeFacts HeapFacts
  DotFacts PureFacts VmFacts ExprFacts.
Import ListNotations.
Local Open Scope string_scope.
Local Open Scope nat_scope.

(** ** C04 *)
Lemma run_flat_pure : forall L n code root h fuel r h1, flat n = true ->
  compile (std_ext L) n = Ok code -> vm_run (std_ext L) fuel code root h = Some (r, h1) -> hext h h1.
Proof.
  intros L n code root h fuel r h1 F C R. pose proof (run_is_evaluate _ _ _ _ _ _ _ C R) as E.
  pose proof (evaluate_pure (std_ext L) n root h (std_pure L) F) as P. rewrite <- E in P. exact P.
Qed.
Lemma run_keeps_cells : forall L n code root h fuel r h1, flat n = true ->
  compile (std_ext L) n = Ok code -> vm_run (std_ext L) fuel code root h = Some (r, h1) ->
  (forall l c, hget h l = Some c -> hget h1 l = Some c) /\
  (forall v t, repr h v t -> repr h1 v t).
Proof.
  intros. assert (E : hext h h1) by (eapply run_flat_pure; eauto). split.
  - intros. eapply hext_get; eauto.
  - intros. eapply repr_hext; eauto.
Qed.
Lemma run_keeps_cells_na : forall L n code root h fuel r h1, no_assign n = true ->
  compile (std_ext L) n = Ok code -> vm_run (std_ext L) fuel code root h = Some (r, h1) ->
  (forall l c, hget h l = Some c -> hget h1 l = Some c) /\
  (forall v t, repr h v t -> repr h1 v t).
Proof. intros. eapply run_keeps_cells; eauto. now apply no_assign_flat. Qed.

Definition code_of (n : node) : list opcode := match compile demo n with Ok c => c | Err _ => [] end.
Definition run_of (n : node) : option (res value * heap) := vm_run demo 500 (code_of n) s_root s_heap.
Definition heap_of (n : node) : heap := match run_of n with Some (_, h) => h | None => [] end.
Definition val_of (n : node) : value := match run_of n with Some (Ok v, _) => v | _ => VNull end.

(** a = nested; a.x = 2 *)
Definition s_alias : node :=
  NAssign [(NString "a", NIdent "nested"); (NString "a.x", nnum 2)] None.
Lemma alias_writes_context :
  exists n code fuel v h1 l c, compile demo n = Ok code /\
    vm_run demo fuel code s_root s_heap = Some (Ok v, h1) /\
    reach s_heap (sc_base s_root) (VObj l) /\ hget s_heap l = Some c /\ hget h1 l <> Some c.
Proof.
  exists s_alias, (code_of s_alias), 500, (val_of s_alias), (heap_of s_alias), 1, (CObj [("x", num 1)]).
  split; [vm_compute; reflexivity|]. split; [vm_compute; reflexivity|]. split.
  - eapply (reach_obj _ 2 _ "nested" (VObj 1)); [reflexivity|cbn; auto|constructor].
  - split; [reflexivity|]. vm_compute. discriminate.
Qed.

(** a = {}; a.b = a *)
Definition s_cycle : node := NAssign [(NString "a", NObject []); (NString "a.b", NIdent "a")] None.
Lemma cyclic_value :
  exists n code fuel v h1, compile demo n = Ok code /\
    vm_run demo fuel code s_root s_heap = Some (Ok v, h1) /\ ~ exists t, repr h1 v t.
Proof.
  exists s_cycle, (code_of s_cycle), 500, (val_of s_cycle), (heap_of s_cycle).
  split; [vm_compute; reflexivity|]. split; [vm_compute; reflexivity|].
  intros [t R]. assert (E : val_of s_cycle = VObj 3) by (vm_compute; reflexivity). rewrite E in R.
  assert (G3 : hget (heap_of s_cycle) 3 = Some (CObj [("a", VObj 4)])) by (vm_compute; reflexivity).
  assert (G4 : hget (heap_of s_cycle) 4 = Some (CObj [("b", VObj 4)])) by (vm_compute; reflexivity).
  inversion R as [| | | | |? m ts G F|]; subst. rewrite G3 in G. injection G as <-.
  inversion F as [|? ? ? ? [_ R4]]; subst. cbn [snd] in R4.
  eapply (acyclic_obj _ _ _ _ "b" (VObj 4) R4 G4); [cbn; auto|]. right. constructor.
Qed.

(** ** C08 *)
Lemma scope_last_wins : forall h b l k v, scope_get h (set_locals (scope_new b) (l ++ [(k, v)])%list) k = Some v.
Proof.
  intros. rewrite set_locals_get, rev_app_distr. cbn. now rewrite String.eqb_refl.
Qed.
Lemma scope_other_kept : forall h b l k v k', k <> k' ->
  scope_get h (set_locals (scope_new b) (l ++ [(k, v)])%list) k' = scope_get h (set_locals (scope_new b) l) k'.
Proof.
  intros. rewrite !set_locals_get, rev_app_distr. cbn. destruct (String.eqb_spec k k'); congruence.
Qed.
Lemma scope_no_local : forall h b l k, ~ In k (map fst l) ->
  scope_get h (set_locals (scope_new b) l) k = dot_parts h b [k].
Proof.
  intros. rewrite set_locals_get. rewrite (proj2 (aget_None_notin k (rev l))).
  - cbn. destruct b; auto. destruct (hobj h l0); auto. now destruct (aget k a).
  - unfold akeys. rewrite map_rev. now rewrite <- in_rev.
Qed.
Lemma materialize_agrees : forall l h o m h1 v, hget h o = Some (CObj m) -> NoDup (akeys m) ->
  materialize h (set_locals (scope_new (VObj o)) l) = (h1, v) ->
  (forall k, dot_parts h1 v [k] = scope_get h (set_locals (scope_new (VObj o)) l) k) /\
  (forall l' c, hget h l' = Some c -> hget h1 l' = Some c).
Proof.
  intros l h o m h1 v G N E. destruct (materialize_ok l h o m G N) as (h2 & o1 & m1 & E' & X & G1 & N1 & A & _).
  rewrite E in E'. injection E' as -> ->. split.
  - intros k. cbn. rewrite (proj2 (hobj_hget _ _ _) G1), A. now destruct (scope_get h _ k).
  - intros. eapply hext_get; eauto.
Qed.

(** ** C10 *)
Lemma veq_is_teq : forall h a b ta tb n, wf_heap h -> repr h a ta -> repr h b tb -> height ta < n ->
  veq n [] h a b = Some (Ok (teq ta tb)).
Proof.
  intros. apply veq_teq; auto; try (eapply repr_wf; eauto); try (intros ? []).
Qed.
Lemma teq_sym_eq : forall a b, wf_tree a -> wf_tree b -> teq a b = teq b a.
Proof. intros. apply eq_true_iff_eq. split; intros; apply teq_sym; auto. Qed.
Lemma teq_keys : forall m m', wf_tree (TObj m) -> wf_tree (TObj m') ->
  (teq (TObj m) (TObj m') = true <->
   forall k, match aget k m, aget k m' with
             | Some a, Some b => teq a b = true
             | None, None => True
             | _, _ => False
             end).
Proof.
  intros m m' W W'. split.
  - intros E k. assert (E' : teq (TObj m') (TObj m) = true) by (apply teq_sym; auto).
    rewrite teq_obj in E, E'. destruct E as [_ E], E' as [_ E']. rewrite Forall_forall in E, E'.
    destruct (aget k m) as [a|] eqn:K.
    + apply aget_Some_in in K. destruct (E _ K) as (w & E1 & E2). cbn in E1, E2. now rewrite E1.
    + destruct (aget k m') as [b|] eqn:K'; auto. apply aget_Some_in in K'. destruct (E' _ K') as (w & E1 & _).
      cbn in E1. congruence.
  - intros H. inversion W as [| | | | | |? N F]; inversion W' as [| | | | | |? N' F']; subst.
    rewrite teq_obj. split.
    + rewrite <- (map_length fst m), <- (map_length fst m').
      apply Nat.le_antisymm; apply NoDup_incl_length; auto; intros k Hk.
      * specialize (H k). destruct (aget k m) eqn:K; [|exfalso; apply aget_None_notin in K; auto].
        destruct (aget k m') eqn:K'; [|contradiction]. apply aget_Some_in in K'. now apply (in_map fst) in K'.
      * specialize (H k). destruct (aget k m') eqn:K'; [|exfalso; apply aget_None_notin in K'; auto].
        destruct (aget k m) eqn:K; [|contradiction]. apply aget_Some_in in K. now apply (in_map fst) in K.
    + apply Forall_forall. intros [k a] Hin. cbn. specialize (H k).
      rewrite (aget_in_nodup _ _ _ N Hin) in H. destruct (aget k m'); [eauto|contradiction].
Qed.
Lemma teq_num_val : forall x y, teq (TNum x) (TNum y) = true <-> QArith_base.Qeq (dec_val x) (dec_val y).
Proof. intros. apply dec_eqb_val. Qed.

(** ** C11 *)
Lemma repr_wf_val : forall h v t, repr h v t -> wf_val h v.
Proof. intros h v t R. inversion R; subst; cbn; eauto. Qed.
Lemma split_dot_ne : forall k, split_dot k <> [].
Proof. intros. apply split_on_nonempty. Qed.
Lemma insert_read_iff : forall key h v t x h1 o, wf_heap h -> repr h v t ->
  dot_insert h v key x = (h1, o) ->
  (dot h1 v key = Some x <-> ~ blocked h v (split_dot key)).
Proof.
  intros key h v t x h1 o W R E. unfold dot_insert, dot in *. split.
  - intros D B. destruct (insert_blocked (split_dot key) h v x (split_dot_ne _) W (repr_wf_val _ _ _ R) B) as [E1 E2].
    rewrite E1 in E. injection E as <- <-. congruence.
  - intros B. eapply insert_reads_back; eauto. apply split_dot_ne.
Qed.
Lemma insert_blocked_key : forall key h v t x, wf_heap h -> repr h v t -> blocked h v (split_dot key) ->
  dot_insert h v key x = (h, None) /\ dot h v key = None.
Proof.
  intros. apply insert_blocked; auto. apply split_dot_ne. eapply repr_wf_val; eauto.
Qed.
Lemma insert_frame_key : forall key h v t x h1 o key2, wf_heap h -> repr h v t -> tshape h v ->
  dot_insert h v key x = (h1, o) -> diverge (split_dot key) (split_dot key2) ->
  dot h1 v key2 = dot h v key2 /\
  (forall w tw, dot h v key2 = Some w -> repr h w tw -> repr h1 w tw).
Proof.
  intros. eapply insert_frame; eauto. apply split_dot_ne. eapply repr_wf; eauto.
Qed.
Lemma insert_one_cell_key : forall key h v t x h1 o, wf_heap h -> repr h v t -> ~ blocked h v (split_dot key) ->
  dot_insert h v key x = (h1, o) ->
  exists q k r l m y, split_dot key = (q ++ k :: r)%list /\ dot_parts h v q = Some (VObj l) /\ hget h l = Some (CObj m) /\
    hget h1 l = Some (CObj (aset k y m)) /\ (forall l', l' < length h -> l' <> l -> hget h1 l' = hget h l') /\
    (r = [] -> y = x) /\ (r <> [] -> aget k m = None /\ y = VObj (length h)).
Proof.
  intros. eapply insert_one_cell; eauto. apply split_dot_ne. eapply repr_wf_val; eauto.
Qed.

(** ** C12 *)
Lemma detached_key : forall key h l x t, repr h (VObj l) t ->
  exists h1 c, dot_insert_detached h (VObj l) key x = (h1, Some c) /\
    dot h1 c key = Some x /\
    (forall key2, diverge (split_dot key) (split_dot key2) -> dot h1 c key2 = dot h (VObj l) key2) /\
    (forall l' cell, hget h l' = Some cell -> hget h1 l' = Some cell) /\
    (forall w tw, repr h w tw -> repr h1 w tw).
Proof.
  intros key h l x t R. destruct (detached_ok (split_dot key) h l x t (split_dot_ne _) R) as (h1 & c & A & B & C & D).
  exists h1, c. split; auto. split; auto. split; [intros; apply D; auto|].
  split; intros; [eapply hext_get; eauto|eapply repr_hext; eauto].
Qed.
Lemma detached_nonobj_key : forall key h v x t, repr h v t -> (forall l, v <> VObj l) ->
  exists h1, dot_insert_detached h v key x = (h1, None) /\
    (forall l' cell, hget h l' = Some cell -> hget h1 l' = Some cell).
Proof.
  intros key h v x t R N. destruct (detached_nonobj (split_dot key) h v x (split_dot_ne _) N) as (h1 & A & B).
  - eapply repr_wf_val; eauto.
  - exists h1. split; auto. intros. eapply hext_get; eauto.
Qed.

(** ** C13, C14 *)
Lemma merge_clone_spec : forall h doc patch td tp n, wf_heap h -> repr h doc td -> repr h patch tp ->
  share_ok h doc patch -> S (height td + height tp) < n ->
  exists h1 v c t', merge_cow n h doc patch true = Some (h1, v, c) /\ repr h1 v t' /\
    teq t' (tmerge_top td tp) = true /\
    (forall l cell, hget h l = Some cell -> hget h1 l = Some cell).
Proof.
  intros h doc patch td tp n W R1 R2 S N.
  destruct (merge_cow_ok n h doc patch td tp true R1 R2) as (h1 & v & c & t' & A & B & C & D & E & _);
    auto; try (eapply repr_wf; eauto; fail).
  exists h1, v, c, t'. repeat split; auto. intros. eapply hext_get; eauto.
Qed.
Lemma tmerge_top_keys : forall dm pm k, wf_tree (TObj dm) -> wf_tree (TObj pm) ->
  exists m, tmerge_top (TObj dm) (TObj pm) = TObj m /\
    aget k m = match aget k pm with
               | None => aget k dm
               | Some TNull => None
               | Some (TObj pm') =>
                   match aget k dm with
                   | Some (TObj dm') => Some (tmerge_top (TObj dm') (TObj pm'))
                   | _ => Some (TObj pm')
                   end
               | Some p => Some p
               end.
Proof.
  intros dm pm k W1 W2. inversion W1; inversion W2; subst. unfold tmerge_top at 1. rewrite tmerge_obj.
  eexists. split; [reflexivity|]. rewrite tmerge_entries_get by auto.
  destruct (aget k pm) as [[]|]; auto. destruct (aget k dm) as [[]|]; reflexivity.
Qed.

Definition mp_heap : heap :=
  [ CObj [("a", VObj 1); ("b", VNull)]; CObj [("x", num 1)]; CObj [("a", VObj 3)]; CObj [("y", num 2); ("x", VNull)];
    CObj [("other", VObj 1)]; CObj [("b", VNull); ("a", VObj 1)] ].
(** Merging an object with null entries into itself keeps them, merging an equal copy removes them. *)
Lemma merge_sharing_matters :
  exists h doc copy t n r1 r2 t1 t2,
    repr h doc t /\ repr h copy t /\
    merge_cow n h doc doc true = Some (h, r1, false) /\
    (exists h2, merge_cow n h doc copy true = Some (h2, r2, true) /\ repr h2 r2 t2) /\
    repr h r1 t1 /\ teq t1 t2 = false.
Proof.
  exists [CObj [("b", VNull)]; CObj [("b", VNull)]], (VObj 0), (VObj 1), (TObj [("b", TNull)]), 5.
  exists (VObj 0), (VObj 2), (TObj [("b", TNull)]), (TObj []).
  split; [econstructor; [reflexivity|]; repeat constructor|].
  split; [econstructor; [reflexivity|]; repeat constructor|].
  split; [vm_compute; reflexivity|]. split.
  - exists [CObj [("b", VNull)]; CObj [("b", VNull)]; CObj []]. split; [vm_compute; reflexivity|].
    econstructor; [reflexivity|constructor].
  - split; [econstructor; [reflexivity|]; repeat constructor|vm_compute; reflexivity].
Qed.

Lemma merge_spec : forall h doc patch td tp n, wf_heap h -> repr h doc td -> repr h patch tp ->
  tshape h doc -> disj h doc patch -> S (height td + height tp) < n ->
  exists h1 v c t', merge_ip n [] [] h doc patch true = Some (Ok (h1, v, c)) /\ repr h1 v t' /\
    teq t' (tmerge_top td tp) = true /\
    (forall l, ~ reachl h doc l -> hget h1 l = hget h l) /\ length h1 = length h.
Proof.
  intros h doc patch td tp n W R1 R2 T D N.
  destruct (merge_ip_ok n [] [] h doc patch td tp true R1 R2) as (h1 & v & c & t' & A & B & C & E & F & G & _);
    auto; try (eapply repr_wf; eauto; fail); try (intros ? []).
  exists h1, v, c, t'. auto 10.
Qed.
(** Both merges give equal contents. *)
Lemma merges_agree : forall h doc patch td tp n, wf_heap h -> repr h doc td -> repr h patch tp ->
  tshape h doc -> disj h doc patch -> S (height td + height tp) < n ->
  exists h1 v1 c1 t1 h2 v2 c2 t2,
    merge_ip n [] [] h doc patch true = Some (Ok (h1, v1, c1)) /\ repr h1 v1 t1 /\
    merge_cow n h doc patch true = Some (h2, v2, c2) /\ repr h2 v2 t2 /\ teq t1 t2 = true.
Proof.
  intros h doc patch td tp n W R1 R2 T D N.
  assert (S : share_ok h doc patch).
  { intros l t A B _. exfalso. apply (D l); right; auto. }
  assert (W1 : wf_tree td) by (eapply repr_wf; eauto). assert (W2 : wf_tree tp) by (eapply repr_wf; eauto).
  destruct (merge_ip_ok n [] [] h doc patch td tp true R1 R2) as (h1 & v1 & c1 & t1 & A1 & A2 & A3 & A4 & A5 & A6 & _);
    auto; try (intros ? []).
  destruct (merge_cow_ok n h doc patch td tp true R1 R2) as (h2 & v2 & c2 & t2 & B1 & B2 & B3 & B4 & B5 & _); auto.
  exists h1, v1, c1, t1, h2, v2, c2, t2. repeat split; auto. eapply teq_trans; [exact A6|].
  apply teq_sym; auto. unfold tmerge_top. destruct tp; auto. now apply wf_tmerge.
Qed.
(** Another holder of the nested object sees an in-place merge. *)
Lemma merge_leaks :
  exists h doc patch other t t' h1 v, other <> doc /\ repr h other t /\
    merge_ip 9 [] [] h doc patch true = Some (Ok (h1, v, true)) /\ repr h1 other t' /\ teq t t' = false.
Proof.
  exists mp_heap, (VObj 0), (VObj 2), (VObj 4),
    (TObj [("other", TObj [("x", TNum (dec_of_Z 1))])]), (TObj [("other", TObj [("y", TNum (dec_of_Z 2))])]),
    (lupd 1 (CObj [("y", num 2)]) mp_heap), (VObj 0).
  split; [discriminate|]. split.
  { econstructor; [reflexivity|]. repeat constructor. econstructor; [reflexivity|]. repeat constructor. }
  split; [vm_compute; reflexivity|]. split; [|vm_compute; reflexivity].
  econstructor; [reflexivity|]. repeat constructor. econstructor; [reflexivity|]. repeat constructor.
Qed.
(** A patch that mentions the document itself makes the in-place merge panic. *)
Lemma merge_panics :
  exists h doc patch td tp w, repr h doc td /\ repr h patch tp /\
    merge_ip 9 [] [] h doc patch true = Some (Err (EPanic w)).
Proof.
  exists [CObj [("a", VObj 2)]; CObj [("a", VObj 0)]; CObj []], (VObj 0), (VObj 1),
    (TObj [("a", TObj [])]), (TObj [("a", TObj [("a", TObj [])])]), "already mutably borrowed".
  split; [|split; [|vm_compute; reflexivity]].
  - econstructor; [reflexivity|]. repeat constructor. econstructor; [reflexivity|]. constructor.
  - econstructor; [reflexivity|]. repeat constructor. econstructor; [reflexivity|]. repeat constructor.
    econstructor; [reflexivity|]. constructor.
Qed.

(** ** C15 *)
Lemma deep_clone_spec : forall h v t n, repr h v t -> height t < n ->
  exists h1 v1, deep_clone n h v = Some (h1, v1) /\ repr h1 v1 t /\
    (forall l c, hget h l = Some c -> hget h1 l = Some c) /\
    (forall l, reachl h1 v1 l -> hget h l = None) /\
    (forall l c, reachl h1 v l -> repr (hset h1 l c) v1 t) /\
    (forall l c, reachl h1 v1 l -> repr (hset h1 l c) v t).
Proof.
  intros h v t n R N. destruct (deep_clone_ok n h v t R N) as (h1 & v1 & A & B & C & D & _).
  exists h1, v1. split; auto. split; auto. split; [intros; eapply hext_get; eauto|].
  assert (F : forall l, reachl h1 v1 l -> ~ reachl h1 v l).
  { intros l H1 H2. apply D in H1. apply (reachl_back h h1 v t) in H2; auto.
    pose proof (reachl_lt _ _ _ _ R H2). lia. }
  split; [|split].
  - intros l H. apply D in H. destruct (hget h l) eqn:G; auto. apply hget_lt in G. lia.
  - intros l c H. eapply repr_agree; [exact C|]. apply agree_hset. intros H1. eapply F; eauto.
  - intros l c H. eapply repr_agree; [eapply repr_hext; eauto|]. apply agree_hset. apply F; auto.
Qed.
