(** Evaluation without dotted assignment only extends the heap. Scopes. *)
From Coq Require Import String Ascii ZArith Lia Bool List Arith.
From Verif Require Import Base Dec Value Heap Ast Ops Compiler Vm Eval Funcs HeapSpec TreeFacts HeapFacts DotFacts.
Import ListNotations.
Local Open Scope nat_scope.

(** Assignment-free expressions. *)
Fixpoint no_assign (n : node) : bool :=
  match n with
  | NAssign _ _ => false
  | NTemplate l | NArray l | NCall _ l => forallb no_assign l
  | NObject l => forallb (fun kv => no_assign (fst kv) && no_assign (snd kv)) l
  | NClosure b _ => no_assign b
  | NParen x | NUnary x _ => no_assign x
  | NMember a b | NInterval a b _ _ | NBinary a _ b => no_assign a && no_assign b
  | NSlice a f t =>
      no_assign a && match f with Some x => no_assign x | None => true end
      && match t with Some x => no_assign x | None => true end
  | NCond a b c => no_assign a && no_assign b && no_assign c
  | NMethod _ x l => no_assign x && forallb no_assign l
  | _ => true
  end.

(** Expressions whose assignments all have a literal name without a dot ([a = 1; b = a]). *)
Fixpoint flat (n : node) : bool :=
  match n with
  | NAssign l o =>
      forallb (fun kv => match fst kv with NString k => negb (contains_char dot_char k) | _ => false end
                         && flat (snd kv)) l
      && match o with Some x => flat x | None => true end
  | NTemplate l | NArray l | NCall _ l => forallb flat l
  | NObject l => forallb (fun kv => flat (fst kv) && flat (snd kv)) l
  | NClosure b _ => flat b
  | NParen x | NUnary x _ => flat x
  | NMember a b | NInterval a b _ _ | NBinary a _ b => flat a && flat b
  | NSlice a f t =>
      flat a && match f with Some x => flat x | None => true end
      && match t with Some x => flat x | None => true end
  | NCond a b c => flat a && flat b && flat c
  | NMethod _ x l => flat x && forallb flat l
  | _ => true
  end.

Lemma forallb_impl_F : forall {A} (f g : A -> bool) l, Forall (fun x => f x = true -> g x = true) l ->
  forallb f l = true -> forallb g l = true.
Proof. intros A f g l H. induction H; cbn; auto. rewrite !andb_true_iff. intuition. Qed.

Lemma no_assign_flat : forall n, no_assign n = true -> flat n = true.
Proof.
  induction n using node_ind'; cbn; intros E; try discriminate; auto;
    rewrite ?andb_true_iff in *; try (intuition auto; fail);
    try (eapply forallb_impl_F; [|eauto]; auto; fail).
  - eapply forallb_impl_F; [|eauto]. eapply Forall_impl; [|exact H]. cbn. intros [a b] [A B].
    rewrite !andb_true_iff. cbn in *. intuition.
  - destruct E as [[A B] C]. repeat split; auto.
    + destruct f; auto.
    + destruct t; auto.
  - destruct E as [A B]. split; auto. eapply forallb_impl_F; eauto.
Qed.

(** Library functions and methods that only allocate. *)
Definition pure_ext (X : ext) : Prop :=
  (forall k args h h1 r, x_call X k args h = (h1, r) -> hext h h1) /\
  (forall k args h h1 r, x_method X k args h = (h1, r) -> hext h h1).

Definition okh {A} (h : heap) (o : outc A) : Prop :=
  match o with ORet _ _ h1 => hext h h1 | OErr _ h1 => hext h h1 end.
Lemma okh_trans : forall {A} h h1 (o : outc A), hext h h1 -> okh h1 o -> okh h o.
Proof. intros A h h1 [] E; cbn; intros; eapply hext_trans; eauto. Qed.
Lemma okh_bind : forall {A B} h (o : outc A) (k : A -> scope -> heap -> outc B), okh h o ->
  (forall v env h1, okh h1 (k v env h1)) -> okh h (obind o k).
Proof. intros A B h [] k H1 H2; cbn in *; auto. eapply okh_trans; eauto. Qed.
Lemma okh_lift : forall {A} env h (r : res A), okh h (lift env h r).
Proof. intros. destruct r; apply hext_refl. Qed.
Lemma okh_hlift : forall {A} env h (r : heap * res A), hext h (fst r) -> okh h (hlift env r).
Proof. intros A env h [h1 []]; cbn; auto. Qed.
Lemma okh_ret : forall {A} h env (v : A), okh h (ORet v env h).
Proof. intros. apply hext_refl. Qed.
Lemma okh_err : forall {A} h e, okh h (OErr e h : outc A).
Proof. intros. apply hext_refl. Qed.
Lemma okh_seq : forall {A B} (f : A -> scope -> heap -> outc B) l,
  Forall (fun x => forall env h, okh h (f x env h)) l -> forall env h, okh h (eval_seq f l env h).
Proof.
  intros A B f l H. induction H; intros env h; cbn; [apply hext_refl|].
  apply okh_bind; auto. intros. apply okh_bind; auto. intros. apply okh_ret.
Qed.

Lemma hext_materialize : forall h s, hext h (fst (materialize h s)).
Proof.
  intros h [b ls]. unfold materialize; cbn. destruct ls; [apply hext_refl|].
  destruct b; try apply hext_refl. destruct (hobj h l); [apply hext_alloc|apply hext_refl].
Qed.
Lemma hext_new_arr : forall h a, hext h (fst (new_arr h a)).
Proof. intros. apply hext_alloc. Qed.
Lemma hext_new_obj : forall h a, hext h (fst (new_obj h a)).
Proof. intros. apply hext_alloc. Qed.

Lemma hext_begin : forall h v, hext h (fst (op_begin h v)).
Proof.
  intros h v. unfold op_begin. destruct v; try apply hext_refl.
  - destruct (harr h l); apply hext_refl.
  - destruct d; try apply hext_refl. destruct (interval_to_array i); [apply hext_alloc|apply hext_refl].
Qed.
Lemma hext_slice : forall h a b c, hext h (fst (op_slice h a b c)).
Proof.
  intros. unfold op_slice. destruct c, b; try apply hext_refl.
  destruct (dec_to_usize d), (dec_to_usize d0); try apply hext_refl. destruct a; try apply hext_refl.
  destruct (match harr h l with Some a => zsub a z z0 | None => None end); [apply hext_alloc|apply hext_refl].
Qed.
Lemma hext_flatten : forall h a, hext h (fst (op_flatten h a)).
Proof.
  intros. unfold op_flatten. destruct a; try apply hext_refl.
  destruct (harr h l); [apply hext_alloc|apply hext_refl].
Qed.

Section Pure.
  Variable X : ext.
  Hypothesis HX : pure_ext X.
  Variable root : scope.

  Lemma hext_call : forall k args h, hext h (fst (op_call X k args h)).
  Proof.
    intros. unfold op_call. destruct (x_arity X k); [|apply hext_refl].
    destruct (x_call X k args h) as [h1 r] eqn:E. apply (proj1 HX) in E.
    destruct r as [|[]]; auto.
  Qed.
  Lemma hext_method : forall k args h, hext h (fst (op_method X k args h)).
  Proof.
    intros. unfold op_method. destruct (x_marity X k); [|apply hext_refl].
    destruct (x_method X k args h) as [h1 r] eqn:E. apply (proj2 HX) in E.
    destruct r as [|[]]; auto.
  Qed.
  Lemma hext_static : forall al n env h h1 v, eval_static root al n env h = Some (h1, v) -> hext h h1.
  Proof.
    induction n using node_ind'; intros env h h1 v E; cbn in E; try discriminate.
    - destruct (bound_at al s); [discriminate|]. injection E as <- <-. apply hext_refl.
    - injection E as E. pose proof (hext_materialize h root) as M. rewrite E in M. exact M.
    - destruct n2; try discriminate.
      + destruct (dec_to_u32 d); [|discriminate].
        destruct (eval_static root al n1 env h) as [[h2 v2]|] eqn:E1; [|discriminate].
        injection E as <- <-. eapply IHn1; eauto.
      + destruct (eval_static root al n1 env h) as [[h2 v2]|] eqn:E1; [|discriminate].
        injection E as <- <-. eapply IHn1; eauto.
  Qed.
  Definition okl (h : heap) (o : lout) : Prop :=
    match o with LDone _ _ _ h1 => hext h h1 | LBreak _ _ h1 => hext h h1 | LErr _ h1 => hext h h1 end.
  Lemma advance_pure : forall c body lp acc env h, (forall lp env h, okh h (body lp env h)) ->
    okl h (advance c body lp acc env h).
  Proof.
    intros c body lp acc env h Hb. unfold advance. specialize (Hb lp env h).
    destruct (body lp env h) as [v env1 h1|]; cbn [okh] in Hb; auto.
    destruct (judge c v) as [b| |]; cbn [okl]; auto.
    destruct c; cbn [okl]; auto; destruct b; cbn [okl]; auto.
    all: try match goal with |- context[op_pointer ?a ?b ?c] => destruct (op_pointer a b c) end; cbn [okl]; auto.
  Qed.
  Lemma iterate_pure : forall c body, (forall lp env h, okh h (body lp env h)) ->
    forall n lp acc env h, okl h (iterate c body n lp acc env h).
  Proof.
    intros c body Hb. induction n; intros lp acc env h; cbn; [apply hext_refl|].
    pose proof (advance_pure c body lp acc env h Hb) as A.
    destruct (advance c body lp acc env h) as [lp1 acc1 env1 h1| |]; auto.
    specialize (IHn (bump_it lp1) acc1 env1 h1). cbn in A.
    destruct (iterate c body n (bump_it lp1) acc1 env1 h1); cbn in *; eapply hext_trans; eauto.
  Qed.
  Lemma closure_value_pure : forall c lp acc env h, okh h (closure_value c lp acc env h).
  Proof.
    intros. destruct c; cbn [closure_value]; try apply okh_ret.
    - unfold new_arr, halloc. cbn. apply hext_alloc.
    - unfold new_arr, halloc. cbn. apply hext_alloc.
    - destruct (new_arr h acc) as [h1 v] eqn:E. pose proof (hext_new_arr h acc) as A. rewrite E in A.
      cbn [fst] in A. eapply okh_trans; [exact A|]. apply okh_hlift. apply hext_flatten.
  Qed.

  (** A cell created after [h0] may change, older ones may not. *)
  Lemma hext_hset : forall h0 h l c, hext h0 h -> length h0 <= l -> hext h0 (hset h l c).
  Proof.
    intros h0 h l c [s ->] Hl. exists (lupd (l - length h0) c s). unfold hset.
    revert l Hl. induction h0 as [|x h0 IH]; intros l Hl; cbn in *; [now rewrite Nat.sub_0_r|].
    destruct l; [lia|]. cbn. rewrite IH by lia. auto.
  Qed.
  Lemma split_dot_flat : forall k, contains_char dot_char k = false -> split_dot k = [k].
  Proof. intros. now apply split_on_no_char. Qed.

  Lemma assign_flat : forall h0 h env l k v, contains_char dot_char k = false ->
    hext h0 h -> length h0 <= l -> hext h0 (fst (op_assign h env [VObj l] (VStr k) v)).
  Proof.
    intros h0 h env l k v Hk He Hl. cbn. destruct (sc_base env); auto. rewrite Hk. cbn.
    unfold dot_insert. rewrite (split_dot_flat _ Hk). rewrite dot_insert_one.
    destruct (hobj h l); cbn; auto. now apply hext_hset.
  Qed.

  Definition eval_pure_at (n : node) : Prop :=
    flat n = true -> forall al loops env h, okh h (eval X root al loops n env h).

  Lemma forall_flat : forall l, Forall eval_pure_at l -> forallb flat l = true ->
    forall al loops, Forall (fun x => forall env h, okh h (eval X root al loops x env h)) l.
  Proof.
    intros l H F al loops. rewrite forallb_forall in F. rewrite Forall_forall in *. intros x Hx.
    apply H; auto.
  Qed.

  Lemma eval_pure : forall n, eval_pure_at n.
  Proof.
    induction n using node_ind'; intros Hf al loops env h; cbn in Hf; cbn [eval];
      rewrite ?andb_true_iff in Hf; try apply okh_ret; try apply okh_lift; try apply okh_err.
    - (* template *)
      apply okh_bind.
      + apply okh_seq. pose proof (forall_flat _ H Hf al loops) as F. eapply Forall_impl; [|exact F].
        cbn. intros a Ha env0 h0. apply okh_bind; auto. intros. apply okh_hlift. apply hext_call.
      + intros vs env1 h1. destruct (new_arr h1 vs) as [h2 v] eqn:E.
        pose proof (hext_new_arr h1 vs) as A. rewrite E in A. eapply okh_trans; [exact A|]. apply okh_lift.
    - (* array *)
      apply okh_bind; [apply okh_seq, forall_flat; auto|]. intros. apply okh_hlift. cbn. apply hext_alloc.
    - (* object *)
      apply okh_bind.
      + apply okh_seq. rewrite forallb_forall in Hf. rewrite Forall_forall in *. intros [a b] Hx env0 h0.
        specialize (H _ Hx) as [Ha Hb]. specialize (Hf _ Hx). cbn in *. apply andb_true_iff in Hf as [F1 F2].
        apply okh_bind; [apply Ha; auto|]. intros. apply okh_bind; [apply okh_hlift, hext_call|].
        intros. apply okh_bind; [apply Hb; auto|]. intros. apply okh_ret.
      + intros vs env1 h1. apply okh_hlift. destruct (build_object (rev vs) []); cbn; [apply hext_alloc|apply hext_refl].
    - (* assignments *)
      destruct Hf as [Hf Ho]. unfold new_obj, halloc.
      set (f := fun (kx : node * node) (env1 : scope) (h1 : heap) =>
                 obind (eval X root al loops (fst kx) env1 h1) (fun kv env1 h1 =>
                 obind (eval X root al loops (snd kx) env1 h1) (fun v env1 h1 =>
                 match op_assign h1 env1 [VObj (length h)] kv v with
                 | (h1, Err e) => OErr e h1
                 | (h1, Ok env1) => ORet tt env1 h1
                 end))).
      assert (Hit : forall items env0 h0, incl items l -> hext h h0 -> okh h (eval_seq f items env0 h0)).
      { induction items as [|[a b] r IHr]; intros env0 h0 Hin He0; [exact He0|].
        rewrite forallb_forall in Hf. rewrite Forall_forall in H.
        assert (Hx : In (a, b) l) by (apply Hin; cbn; auto).
        specialize (H _ Hx) as [_ Hb]. specialize (Hf _ Hx). cbn in Hf, Hb.
        apply andb_true_iff in Hf as [F1 F2]. destruct a; try discriminate. apply negb_true_iff in F1.
        cbn [eval_seq]. unfold f at 1. cbn [fst snd eval obind].
        specialize (Hb F2 al loops env0 h0). destruct (eval X root al loops b env0 h0) as [v env1 h1|e h1]; cbn [obind okh] in *.
        2:{ eapply hext_trans; eauto. }
        assert (He1 : hext h h1) by (eapply hext_trans; eauto).
        pose proof (assign_flat h h1 env1 (length h) s v F1 He1 (Nat.le_refl _)) as A.
        destruct (op_assign h1 env1 [VObj (length h)] (VStr s) v) as [h2 [env2|e]]; cbn [fst] in A; [|exact A].
        cbn [obind]. specialize (IHr env2 h2 (fun z Hz => Hin z (or_intror Hz)) A).
        fold f. destruct (eval_seq f r env2 h2); exact IHr. }
      pose proof (Hit l env (h ++ [CObj []]) (incl_refl _) (hext_alloc _ _)) as A.
      destruct (eval_seq f l env (h ++ [CObj []])) as [u env1 h1|e h1]; cbn [obind]; [|exact A].
      destruct o; [|exact A]. eapply okh_trans; [exact A|]. apply H0; auto.
    - destruct (bound_at al s); apply okh_lift.
    - apply IHn; auto.
    - apply IHn; auto.
    - pose proof (hext_materialize h env) as M. destruct (materialize h env). exact M.
    - destruct Hf as [F1 F2].
      destruct (eval_static root al (NMember n1 n2) env h) as [[h1 v]|] eqn:E.
      + change (eval_static root al (NMember n1 n2) env h) with (eval_static root al (NMember n1 n2) env h).
        eapply hext_static; eauto.
      + apply okh_bind; [apply IHn1; auto|]. intros. apply okh_bind; [apply IHn2; auto|]. intros. apply okh_lift.
    - destruct Hf as [[F1 F2] F3]. apply okh_bind; [apply IHn; auto|]. intros.
      apply okh_bind; [destruct t; [apply H0; auto|apply okh_lift]|]. intros.
      apply okh_bind; [destruct f; [apply H; auto|apply okh_ret]|]. intros.
      apply okh_hlift. apply hext_slice.
    - destruct Hf as [F1 F2]. apply okh_bind; [apply IHn1; auto|]. intros.
      apply okh_bind; [apply IHn2; auto|]. intros. apply okh_lift.
    - destruct Hf as [[F1 F2] F3]. apply okh_bind; [apply IHn1; auto|]. intros v env1 h1.
      destruct v; try apply okh_err. destruct b; [apply IHn2; auto|apply IHn3; auto].
    - apply okh_bind; [apply IHn; auto|]. intros v env1 h1.
      destruct op as [[]|[]| | | | | | | |]; try apply okh_ret; try apply okh_lift; apply okh_err.
    - destruct Hf as [F1 F2]. apply okh_bind; [apply IHn1; auto|]. intros v env1 h1.
      assert (D : okh h1 (obind (eval X root al loops n2 env1 h1) (fun rv env h =>
            lift env h (bin_value X op h v rv)))).
      { apply okh_bind; [apply IHn2; auto|]. intros. apply okh_lift. }
      destruct op as [|[]| | | | | | | |]; try exact D.
      + destruct v; try apply okh_err. destruct b; [apply IHn2; auto|apply okh_ret].
      + destruct v; try apply okh_err. destruct b; [apply okh_ret|apply IHn2; auto].
      + destruct v; try apply okh_ret. apply IHn2; auto.
    - destruct k as [f|name|c].
      + apply okh_bind; [apply okh_seq, forall_flat; auto|]. intros. apply okh_hlift, hext_call.
      + apply okh_bind; [apply okh_seq, forall_flat; auto|]. intros. apply okh_hlift, hext_call.
      + destruct l as [|a0 [|a1 r]]; try apply okh_err.
        pose proof (Forall_inv H) as P1. pose proof (Forall_inv (Forall_inv_tail H)) as P2. cbn in Hf.
        rewrite !andb_true_iff in Hf. destruct Hf as (F1 & F2 & _).
        apply okh_bind; [apply P1; auto|]. intros v env1 h1.
        pose proof (hext_begin h1 v) as B. destruct (op_begin h1 v) as [h2 [lp|e]]; cbn in B; [|exact B].
        pose proof (iterate_pure c (fun lp => eval X root al (lp :: loops) a1)
          (fun lp env h => P2 F2 al (lp :: loops) env h) (lp_len lp) lp [] env1 h2) as I.
        destruct (iterate c _ (lp_len lp) lp [] env1 h2); cbn in I |- *;
          try (eapply hext_trans; eassumption).
        eapply okh_trans; [eapply hext_trans; [exact B|exact I]|]. apply closure_value_pure.
    - destruct Hf as [F1 F2]. apply okh_bind; [apply IHn; auto|]. intros.
      apply okh_bind; [apply okh_seq, forall_flat; auto|]. intros. apply okh_hlift, hext_method.
  Qed.
End Pure.

Lemma evaluate_pure : forall X n root h, pure_ext X -> flat n = true -> hext h (snd (evaluate X n root h)).
Proof.
  intros X n root h HX Hf. unfold evaluate. pose proof (eval_pure X HX root n Hf [] [] root h) as P.
  destruct (eval X root [] [] n root h); exact P.
Qed.

(** ** The engine's own library is pure *)
Lemma hext_deep_merge : forall n h a b, hext h (fst (deep_merge n h a b)).
Proof.
  induction n as [|n IH]; intros h a b; cbn [deep_merge]; [apply hext_refl|].
  destruct a; try apply hext_refl; destruct b; try apply hext_refl.
  - destruct (harr h l); [|apply hext_refl]. destruct (harr h l0); [apply hext_alloc|apply hext_refl].
  - destruct (hobj h l) as [ma|]; [|apply hext_refl]. destruct (hobj h l0) as [mb|]; [|apply hext_refl].
    match goal with |- context [match ?f h ?m mb with _ => _ end] => set (go := f); generalize m end.
    assert (G : forall b h m, hext h (fst (go h m b))).
    { induction b as [|[k x] r IHr]; intros h0 m; [apply hext_refl|]. cbn. destruct (aget k m); [|apply IHr].
      pose proof (IH h0 v x) as A. destruct (deep_merge n h0 v x) as [h1 [y|e]]; cbn in A; [|exact A].
      eapply hext_trans; [exact A|apply IHr]. }
    intros m. pose proof (G mb h m) as A. destruct (go h m mb) as [h1 [m1|e]]; cbn in A; [|exact A].
    eapply hext_trans; [exact A|apply hext_alloc].
Qed.
Lemma hext_merge_deep_items : forall items n h acc, hext h (fst (merge_deep_items n h acc items)).
Proof.
  induction items as [|x r IH]; intros n h acc; cbn; [apply hext_refl|].
  destruct x; try apply hext_refl; auto.
  pose proof (hext_deep_merge n h acc (VObj l)) as A.
  destruct (deep_merge n h acc (VObj l)) as [h1 [v|e]]; cbn in A; [|exact A].
  eapply hext_trans; eauto.
Qed.

Lemma hext_ret_arr : forall h r, hext h (fst (ret_arr h r)).
Proof. intros h []; [apply hext_alloc|apply hext_refl]. Qed.
Lemma hext_internal : forall L f args h, hext h (fst (call_internal L f args h)).
Proof.
  intros L f args h. destruct f; cbn [call_internal]; try apply hext_ret_arr; try apply hext_refl.
  - destruct (arg_arr h args 0); [|apply hext_refl]. unfold f_merge.
    destruct (first_non_null a) as [[]|]; try apply hext_refl; try apply hext_alloc.
    + destruct (merge_arrays h a); [apply hext_alloc|apply hext_refl].
    + destruct (merge_objects h a []); [apply hext_alloc|apply hext_refl].
  - destruct (arg_arr h args 0); [|apply hext_refl]. unfold f_merge_deep, new_obj, halloc.
    eapply hext_trans; [apply (hext_alloc _ (CObj []))|apply hext_merge_deep_items].
  - destruct (do a <- arg args 0; do b <- arg_str args 1; Ok (a, b)) as [[a b]|]; [|apply hext_refl].
    unfold f_fuzzy. destruct a; try apply hext_refl. destruct (harr h l); [|apply hext_refl].
    destruct (all_strs l0); [apply hext_alloc|apply hext_refl].
Qed.
Lemma std_pure : forall L, pure_ext (std_ext L).
Proof.
  intros L. split; cbn; intros k args h h1 r E.
  - destruct k; try (injection E as <- <-; apply hext_refl).
    pose proof (hext_internal L f args h) as A. rewrite E in A. exact A.
  - injection E as <- <-. apply hext_refl.
Qed.

(** ** Scopes *)
Definition set_locals (s : scope) (l : list (string * value)) : scope :=
  fold_left (fun s kv => set_local s (fst kv) (snd kv)) l s.

Lemma set_local_get : forall h s k v k', scope_get h (set_local s k v) k' =
  if String.eqb k k' then Some v else scope_get h s k'.
Proof.
  intros. unfold scope_get, local_str, set_local. cbn. destruct (String.eqb_spec k k') as [->|Hne].
  - now rewrite aget_aset_eq.
  - now rewrite aget_aset_ne.
Qed.
Lemma set_locals_app : forall s a b, set_locals s (a ++ b) = set_locals (set_locals s a) b.
Proof. intros. unfold set_locals. apply fold_left_app. Qed.

(** The last binding of [k] in [l]. *)
Lemma set_locals_get : forall l h b k,
  scope_get h (set_locals (scope_new b) l) k =
  match aget k (rev l) with
  | Some v => Some v
  | None => match b with
            | VObj o => match hobj h o with Some m => aget k m | None => None end
            | _ => None
            end
  end.
Proof.
  induction l as [|[k0 v0] l IH] using rev_ind; intros h b k; [reflexivity|].
  rewrite set_locals_app, rev_app_distr. cbn [rev app aget set_locals fold_left fst snd].
  rewrite set_local_get. cbn. destruct (String.eqb k0 k); auto.
Qed.
Lemma set_locals_nodup : forall l s, NoDup (akeys (sc_locals s)) -> NoDup (akeys (sc_locals (set_locals s l))).
Proof.
  induction l as [|[k v] l IH]; intros s H; auto. cbn. apply IH. cbn. now apply aset_nodup.
Qed.
Lemma set_locals_base : forall l s, sc_base (set_locals s l) = sc_base s.
Proof. induction l as [|[k v] l IH]; intros s; auto. exact (IH _). Qed.

Lemma aget_fold_aset : forall ls (m : amap value) k, NoDup (akeys ls) ->
  aget k (fold_left (fun acc kv => aset (fst kv) (snd kv) acc) ls m) =
  match aget k ls with Some v => Some v | None => aget k m end.
Proof.
  induction ls as [|[k0 v0] ls IH]; intros m k N; auto. cbn [fold_left fst snd].
  inversion N; subst. rewrite IH by auto. cbn [aget]. destruct (String.eqb_spec k0 k) as [->|Hne].
  - rewrite (proj2 (aget_None_notin k ls)) by auto. now rewrite aget_aset_eq.
  - now rewrite aget_aset_ne.
Qed.
Lemma fold_aset_nodup : forall ls (m : amap value), NoDup (akeys m) ->
  NoDup (akeys (fold_left (fun acc kv => aset (fst kv) (snd kv) acc) ls m)).
Proof.
  induction ls as [|[k0 v0] ls IH]; intros m N; auto. cbn. apply IH. now apply aset_nodup.
Qed.

Lemma materialize_ok : forall l h o m, hget h o = Some (CObj m) -> NoDup (akeys m) ->
  exists h1 o1 m1, materialize h (set_locals (scope_new (VObj o)) l) = (h1, VObj o1) /\ hext h h1 /\
    hget h1 o1 = Some (CObj m1) /\ NoDup (akeys m1) /\
    (forall k, aget k m1 = scope_get h (set_locals (scope_new (VObj o)) l) k) /\
    (o1 = o \/ length h <= o1).
Proof.
  intros l h o m G N. set (s := set_locals (scope_new (VObj o)) l).
  pose proof (set_locals_base l (scope_new (VObj o))) as B. fold s in B. cbn in B.
  assert (Nl : NoDup (akeys (sc_locals s))) by (apply set_locals_nodup; constructor).
  unfold materialize. rewrite B. destruct (sc_locals s) as [|kv r] eqn:E.
  - exists h, o, m. split; auto. split; [apply hext_refl|]. split; auto. split; auto. split; auto.
    intros k. unfold scope_get, local_str. rewrite E, B. cbn. now rewrite (proj2 (hobj_hget _ _ _) G).
  - rewrite (proj2 (hobj_hget _ _ _) G). unfold new_obj, halloc. rewrite <- E in *.
    eexists _, _, _. split; [reflexivity|]. split; [apply hext_alloc|]. split; [apply hget_alloc_new|].
    split; [now apply fold_aset_nodup|]. split; [|right; auto].
    intros k. rewrite aget_fold_aset by auto. unfold scope_get, local_str. rewrite B.
    now rewrite (proj2 (hobj_hget _ _ _) G).
Qed.
