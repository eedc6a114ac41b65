(** The operations and functions give values of the types the checker says: facts used by InferFacts.v. *)
From Coq Require Import String ZArith Bool List Arith Lia.
From Verif Require Import Base Dec Value Heap Ast Ops Eval Funcs DateMethods Json VarType TypeSpec TypeFacts TypeMembers Infer InferSpec InferFits.
Import ListNotations.
Local Open Scope string_scope.
Local Open Scope list_scope.
Local Open Scope nat_scope.
Local Open Scope list_scope.
Local Set Warnings "-unused-intro-pattern".

(** ** Types list a key once *)
Lemma wft_leaf : forall t, match t with KArray _ | KObject _ | KNullable _ => False | _ => True end -> wft t.
Proof. exact WLeaf. Qed.
Lemma wft_empty : wft (KObject []).
Proof. apply WObject; [constructor|]. intros k t E. discriminate E. Qed.
Lemma wft_maybe : forall b t, wft t -> wft (maybe_nullable t b).
Proof. intros b t W. unfold maybe_nullable. destruct (b && _); [now apply WNullable|exact W]. Qed.
Lemma wft_iterator : forall t i, wft t -> iterator t = Some i -> wft i.
Proof.
  induction t as [| | | | | | |t IH|m IH|s|n l|t IH] using vtype_ind'; intros i W E; cbn [iterator] in E; try discriminate E.
  - injection E as <-. now apply WLeaf.
  - injection E as <-. now apply wft_arr.
  - apply IH; [now apply wft_null|exact E].
Qed.
Lemma wft_fold : forall l acc, wft acc -> Forall wft l -> wft (fold_left merge l acc).
Proof. induction l as [|t r IH]; intros acc W H; [exact W|]. inversion H; subst. cbn [fold_left]. apply IH; auto. now apply wft_mg. Qed.
Lemma wft_aset : forall m k t, wft (KObject m) -> wft t -> wft (KObject (aset k t m)).
Proof.
  intros m k t W Wt. apply wft_obj in W. destruct W as [N W]. apply WObject; [now apply aset_nodup|]. intros k1 t1 E.
  destruct (string_dec k k1) as [<-|D]; [rewrite aget_aset_eq in E; injection E as <-; exact Wt|rewrite aget_aset_ne in E by exact D; eauto].
Qed.
Lemma wft_flat : forall t, wft t -> wft (flatten_contribution t).
Proof.
  induction t as [| | | | | | |t IH|m IH|s|n l|t IH] using vtype_ind'; intros W; cbn [flatten_contribution]; try exact W.
  - now apply WLeaf.
  - now apply wft_arr.
  - apply wft_null in W. apply wft_mg; [now apply IH|now apply WLeaf].
Qed.
Lemma wft_widen : forall t, wft t -> wft (widen t).
Proof. induction t as [| | | | | | |t IH|m IH|s|n l|t IH] using vtype_ind'; intros W; cbn [widen]; try exact W; try (now apply WLeaf). apply WNullable, IH. now apply wft_null. Qed.
Ltac leaf := solve [apply WLeaf; exact I | apply WArray, WLeaf; exact I | exact wft_empty].
Definition returns (d : fdef) : list vtype := match d with Static s => [snd s] | Composite l => map snd l end.
Lemma wft_check : forall d args, Forall wft (returns d) -> wft (fst (check_types d args)).
Proof.
  intros d args H. destruct d as [[ps r]|l]; cbn [check_types returns] in *.
  - inversion H; subst. assumption.
  - destruct l as [|s l]; [leaf|]. cbv zeta. destruct (find (fun s => args_match args (fst s)) (s :: l)) as [x|] eqn:E; [|leaf]. cbn [fst]. apply find_some in E. destruct E as [E _].
    rewrite Forall_forall in H. apply H. now apply in_map.
Qed.
Lemma wft_own : forall st f args, Forall wft args -> wft (fst (check_own st f args)).
Proof.
  intros st f args H. unfold check_own. destruct args as [|a [|b r]]; try leaf. inversion H as [|? ? W _]; subst.
  assert (V : wft (fst (match base a with
            | KObject m => plain (KArray match map snd m with [] => KAny | x :: r => fold_left merge r x end)
            | KAny => plain (KArray KAny)
            | _ => (KArray KAny, [(LError, "values")])
            end))).
  { apply wft_base in W. destruct (base a); try leaf. cbn [plain fst]. apply WArray. apply wft_obj in W. destruct W as [N W].
    assert (F : Forall wft (map snd m)). { apply Forall_forall. intros x X. apply in_map_iff in X. destruct X as [[k y] [<- X]]. apply (W k). now apply aget_in_nodup. }
    destruct (map snd m); [leaf|]. inversion F; subst. now apply wft_fold. }
  destruct f; try exact V; destruct (iterator a) as [e|] eqn:E; try leaf; assert (We := wft_iterator _ _ W E).
  - cbn [fst]. apply WArray. now apply wft_flat.
  - unfold merge_kind. assert (Wb := wft_base _ We). destruct (base e) eqn:Eb; try leaf; [|exact Wb].
    destruct (iterator e) as [i|] eqn:Ei; [|leaf]. cbn [plain fst]. apply WArray. exact (wft_iterator _ _ We Ei).
  - unfold merge_deep_kind. assert (Wb := wft_base _ We). destruct (base e); try leaf. exact Wb.
Qed.
Lemma wft_call : forall st k args, Forall wft args -> wft (fst (check_call st k args)).
Proof.
  intros st k args H. unfold check_call. destruct k as [f|name|c]; [| |leaf].
  - destruct (own_check f); [now apply wft_own|]. apply wft_check. destruct f; cbn [internal_def returns one map snd]; repeat (apply Forall_cons || apply Forall_nil); leaf.
  - destruct (deprecated_def name) as [d|] eqn:E; [|leaf]. apply wft_check. unfold deprecated_def in E.
    repeat match type of E with context [if ?b then _ else _] => destruct b end; try discriminate E; injection E as <-; cbn [returns one map snd]; repeat (apply Forall_cons || apply Forall_nil); leaf.
Qed.
Lemma wft_method : forall k args, wft (fst match method_def k with Some d => check_types d args | None => plain KAny end).
Proof.
  intros k args. destruct (method_def k) as [d|] eqn:E; [|leaf]. apply wft_check. unfold method_def in E.
  repeat match type of E with context [if ?b then _ else _] => destruct b end; try discriminate E; injection E as <-; cbn [returns one map snd]; repeat (apply Forall_cons || apply Forall_nil); leaf.
Qed.
Lemma wft_type_get : forall t k, wft t -> wft (type_get t k).
Proof.
  induction t as [| | | | | | |t IH|m IH|s|n l|t IH] using vtype_ind'; intros k W; cbn [type_get]; try leaf.
  - apply wft_obj in W. destruct W as [_ W]. destruct (aget k m) eqn:E; [eauto|leaf].
  - apply IH. now apply wft_null.
Qed.
Lemma wft_insert : forall path last t v x, wft t -> wft v -> type_insert path last t v = Some x -> wft x.
Proof.
  induction path as [|p ps IH]; intros last t v x Wt Wv E; destruct t; try discriminate E; cbn [type_insert] in E.
  - injection E as <-. now apply wft_aset.
  - destruct (type_insert ps last _ v) as [y|] eqn:Q; [|discriminate E]. injection E as <-. apply wft_aset; [exact Wt|]. eapply IH; [|exact Wv|exact Q].
    apply wft_obj in Wt. destruct Wt as [_ Wt]. destruct (aget p m) as [z|] eqn:Z; [|leaf]. specialize (Wt _ _ Z). destruct z; try leaf. exact Wt.
Qed.
Record wscope (sc : iscope) : Prop := WScope { ws_root : wft (is_root sc); ws_ptr : wft (is_ptr sc); ws_alias : forall k t, aget k (is_alias sc) = Some t -> wft t }.
Lemma wft_member : forall st a p, wft a -> wft p -> wft (fst (check_member st a p)).
Proof.
  intros st a p Wa Wp. unfold check_member. assert (Wb := wft_base _ Wa). destruct (base a) as [| | | | | | |i|m| | |i]; try leaf; try (apply wft_maybe; leaf).
  - apply wft_maybe. now apply wft_arr.
  - apply wft_maybe. apply wft_obj in Wb. destruct Wb as [_ Wb]. destruct (as_const p) as [k|]; [|leaf]. destruct (aget k m) eqn:E; [cbn [plain fst]; eauto|leaf].
Qed.
Lemma wft_binary : forall st op a b, wft a -> wft b -> wft (fst (check_binary st op a b)).
Proof.
  intros st op a b Wa Wb. unfold check_binary. destruct op as [o|o|o| | | | | | |]; try leaf.
  - destruct o; [destruct (widen a), (widen b); leaf| | | | |]; destruct a, b; leaf.
  - destruct o; try (destruct a, b; leaf). destruct a; try exact Wa; try exact Wb. apply wft_mg; [exact Wb|now apply wft_null].
  - destruct o; try leaf; try (destruct a, b; leaf); unfold check_in; destruct (widen a), (widen b); leaf.
Qed.
Lemma wft_unary : forall op a, wft (fst (check_unary op a)).
Proof. intros op a. unfold check_unary. destruct op as [o|o|o| | | | | | |]; try leaf; destruct o; leaf. Qed.
Lemma wft_slice : forall a, wft a -> wft (fst (check_slice a)).
Proof. intros a W. unfold check_slice. apply wft_widen in W. destruct (widen a); try leaf. exact W. Qed.
Lemma wft_closure : forall st c a b, wft a -> wft b -> wft (fst (check_closure st c a b)).
Proof.
  intros st c a b Wa Wb. unfold check_closure. destruct c; cbn [fst]; try leaf; try exact Wa; [now apply WArray|]. apply WArray.
  destruct (iterator b) as [i|] eqn:E; [exact (wft_iterator _ _ Wb E)|exact Wb].
Qed.
Lemma wft_fields : forall l acc, wft (KObject acc) -> Forall (fun kv : typed * typed => wft (fst (snd kv))) l ->
  wft (KObject (fold_left (fun m kv => match as_const (fst (fst kv)) with Some k => aset k (fst (snd kv)) m | None => m end) l acc)).
Proof.
  induction l as [|x r IH]; intros acc W H; [exact W|]. inversion H; subst. cbn [fold_left]. apply IH; [|assumption]. destruct (as_const _); [now apply wft_aset|exact W].
Qed.
Lemma wft_determine : forall st n sc, wscope sc -> wft (fst (determine st sc n)).
Proof.
  intros st. induction n using node_ind'; intros sc W; cbn [determine]; try leaf.
  - apply W.
  - cbn [fst]. apply WArray. assert (F : Forall wft (map fst (map (determine st sc) l))).
    { apply Forall_forall. intros t T. rewrite map_map in T. apply in_map_iff in T. destruct T as [x [<- X]]. rewrite Forall_forall in H. now apply H. }
    unfold elements. destruct (map fst _); [leaf|]. inversion F; subst. now apply wft_fold.
  - cbn [fst]. apply wft_fields; [exact wft_empty|]. apply Forall_forall. intros t T. apply in_map_iff in T. destruct T as [x [<- X]]. rewrite Forall_forall in H. cbn [fst snd]. now apply H.
  - set (start := IScope match is_root sc with KAny | KNull => KObject [] | r => r end (is_ptr sc) (is_alias sc)).
    assert (Ws : wscope start). { destruct W as [W1 W2 W3]. constructor; cbn [is_root is_ptr is_alias start]; auto. destruct (is_root sc); try exact W1; leaf. }
    clearbody start. clear sc W.
    assert (Wm : wft (KObject (@nil (string * vtype)))) by exact wft_empty. revert Wm. generalize (@nil (string * vtype)) as m. generalize (@nil complaint) as cs. revert start Ws.
    induction H as [|[k v] l [Hk Hv] H IH]; intros sc W cs m Wm; cbn [fst snd] in *.
    + destruct o as [x|]; [now apply H0|exact Wm].
    + destruct (as_const _) as [key|] eqn:K; [|now apply IH].
      assert (Wv := Hv sc W). apply IH; [|now apply wft_aset]. destruct (dot_insert_type _ key _) as [x|] eqn:E; [|exact W].
      destruct W as [W1 W2 W3]. constructor; cbn [is_root is_ptr is_alias]; auto.
      unfold dot_insert_type in E. destruct (split_last _) as [[path last]|]; [|discriminate E]. eapply wft_insert; [exact W1|exact Wv|exact E].
  - cbn [plain fst]. destruct W as [W1 W2 W3]. destruct (aget s (is_alias sc)) eqn:E; [eauto|now apply wft_type_get].
  - apply IHn. exact W.
  - apply IHn. exact W.
  - apply W.
  - cbn [fst]. apply wft_member; auto.
  - cbn [fst]. apply wft_slice. auto.
  - cbn [fst]. apply wft_mg; auto.
  - cbn [fst]. apply wft_unary.
  - cbn [fst]. apply wft_binary; auto.
  - assert (G : forall k0, wft (fst (check_call st k0 (map fst (map (determine st sc) l))))).
    { intros k0. apply wft_call. apply Forall_forall. intros t T. rewrite map_map in T. apply in_map_iff in T. destruct T as [x [<- X]]. rewrite Forall_forall in H. now apply H. }
    destruct k as [f|name|c]; cbn [fst]; try apply G. destruct l as [|x [|y rest]]; try leaf. cbn [fst]. inversion H as [|? ? Hx H1]; subst. inversion H1 as [|? ? Hy H2]; subst.
    apply wft_closure; [now apply Hx|]. apply Hy. assert (Wx := Hx sc W). destruct W as [W1 W2 W3].
    assert (Wp : wft match iterator (fst (determine st sc x)) with Some i => i | None => KAny end) by (destruct (iterator _) eqn:E; [exact (wft_iterator _ _ Wx E)|leaf]).
    constructor; cbn [is_root is_ptr is_alias]; auto. intros k t E. destruct y; eauto. destruct alias as [name|]; eauto.
    destruct (string_dec name k) as [<-|D]; [rewrite aget_aset_eq in E; injection E as <-; exact Wp|rewrite aget_aset_ne in E by exact D; eauto].
  - cbn [fst]. apply wft_method.
  - destruct o as [x|]; [cbn [fst]; now apply H|leaf].
Qed.

(** ** Messages *)
Definition clean (l : list complaint) : Prop := forall tag, ~ In (LError, tag) l.
Lemma clean_app : forall a b, clean (a ++ b) <-> clean a /\ clean b.
Proof. intros a b. unfold clean. split; [intros H; split; intros t T; apply (H t), in_app_iff; auto|intros [H1 H2] t T; apply in_app_iff in T; destruct T; [eapply H1|eapply H2]; eauto]. Qed.
Lemma clean_unless : forall b t, clean (unless b LError t) -> b = true.
Proof. intros b t H. destruct b; [reflexivity|]. exfalso. apply (H t). now left. Qed.
Lemma clean_one : forall t, ~ clean [(LError, t)].
Proof. intros t H. apply (H t). now left. Qed.
Lemma clean_flat : forall {A} (f : A -> list complaint) l x, clean (flat_map f l) -> In x l -> clean (f x).
Proof. intros A f l x H I1 t T. apply (H t). apply in_flat_map. eauto. Qed.

(** ** Values of some types *)
Lemma new_arr_fits : forall h a T h1 v, new_arr h a = (h1, v) -> (forall x, In x a -> hfits h T x) -> hext h h1 /\ hfits h1 (KArray T) v.
Proof.
  intros h a T h1 v E H. unfold new_arr, halloc in E. injection E as <- <-. assert (X : hext h (h ++ [CArr a])) by apply hext_alloc. split; [exact X|].
  exists (length h), a. split; [reflexivity|]. split; [unfold harr, hget; rewrite nth_error_app2 by lia; rewrite Nat.sub_diag; reflexivity|].
  intros x Y. eapply hfits_mono; eauto.
Qed.
Lemma new_obj_fits : forall h o m h1 v, NoDup (map fst m) -> new_obj h o = (h1, v) -> (forall k T, aget k m = Some T -> hfits h T (or_null (aget k o))) -> hext h h1 /\ hfits h1 (KObject m) v.
Proof.
  intros h o m h1 v N E H. unfold new_obj, halloc in E. injection E as <- <-. assert (X : hext h (h ++ [CObj o])) by apply hext_alloc. split; [exact X|].
  apply hfits_obj; [exact N|]. exists (length h), o. split; [reflexivity|]. split; [unfold hobj, hget; rewrite nth_error_app2 by lia; rewrite Nat.sub_diag; reflexivity|].
  intros k T G. eapply hfits_mono; eauto.
Qed.
Lemma hfits_maybe : forall h b t v, hfits h (maybe_nullable t b) v <-> hfits h t v \/ (b = true /\ v = VNull /\ match t with KAny | KNull | KNullable _ => False | _ => True end).
Proof. intros h b t v. unfold maybe_nullable. destruct b; cbn [andb]; [|intuition discriminate]. destruct t; cbn [negb hfits]; intuition auto. Qed.
Lemma maybe_null : forall h t, hfits h (maybe_nullable t true) VNull.
Proof. intros h t. unfold maybe_nullable. destruct t; cbn [andb negb hfits]; auto. Qed.
Lemma maybe_keep : forall h b t v, hfits h t v -> hfits h (maybe_nullable t b) v.
Proof. intros. apply hfits_maybe. auto. Qed.
(** What [base] leaves of a type and a value that is not null. *)
Lemma fits_some : forall h t v, hfits h t v -> v <> VNull -> hfits h (base t) v.
Proof. intros h t v H N. apply hfits_base in H. destruct H as [H|[_ H]]; [exact H|contradiction]. Qed.
Lemma sat_number : forall t, satisfies t KNumber = true -> t = KAny \/ t = KNumber.
Proof. intros t S1. destruct t; try discriminate S1; auto. Qed.
Lemma sat_bool : forall t, satisfies t KBool = true -> t = KAny \/ t = KBool.
Proof. intros t S1. destruct t; try discriminate S1; auto. Qed.
Lemma sat_string : forall t h v, satisfies t KString = true -> hfits h t v -> t = KAny \/ exists s, v = VStr s.
Proof. intros t h v S1 H. destruct t; try discriminate S1; auto; right; cbn [hfits] in H; first [exact H | solve [eauto] | destruct H as [x [E _]]; eauto]. Qed.
Lemma as_const_some : forall p k h v, satisfies p KString = true -> as_const p = Some k -> hfits h p v -> v = VStr k.
Proof. intros p k h v S1 A H. destruct p; try discriminate A; try discriminate S1. injection A as <-. exact H. Qed.
Lemma iterator_hfits : forall h T U v l a, iterator T = Some U -> hfits h T v -> v = VArr l -> harr h l = Some a -> forall x, In x a -> hfits h U x.
Proof.
  intros h. induction T as [| | | | | | |t IH|m IH|s|n l|t IH] using vtype_ind'; intros U v l0 a E H -> G x X; cbn [iterator] in E; try discriminate E.
  - destruct H as [i H]. discriminate H.
  - injection E as <-. destruct H as [l1 [a1 [Q [G1 H]]]]. injection Q as <-. rewrite G1 in G. injection G as ->. auto.
  - destruct H as [H|H]; [discriminate H|]. eapply IH; eauto.
Qed.

(** ** Member access *)
Lemma member_sound : forall h a p av pv v, wft a -> hfits h a av -> hfits h p pv -> clean (snd (check_member true a p)) -> op_fetch h av pv = Ok v -> hfits h (fst (check_member true a p)) v.
Proof.
  intros h a p av pv v W Ha Hp Cl E. apply wft_base in W.
  assert (N : av = VNull \/ hfits h (base a) av) by (apply hfits_base in Ha; tauto).
  assert (Nn : av = VNull -> nullable a = true \/ hfits h (base a) VNull) by (intros ->; apply hfits_base in Ha; tauto).
  unfold check_member in *. destruct (base a) as [| | | | | | |i|m|s|nm l|i]; cbn [fst snd] in *; try (exact I); try (exfalso; eapply clean_one; exact Cl).
  - assert (av = VNull) by (destruct N as [N|N]; exact N). subst av. cbn in E. destruct pv; injection E as <-; reflexivity.
  - destruct N as [->|[s ->]]; [destruct pv; injection E as <-; apply maybe_null|]. cbn in E. destruct pv; try (injection E as <-; apply maybe_null).
    destruct (dec_to_usize d); [|discriminate E]. injection E as <-. destruct (zstr_get s z (z + 1)); [apply maybe_keep; cbn; eauto|apply maybe_null].
  - destruct N as [->|[l [x [-> [G H]]]]]; [destruct pv; injection E as <-; apply maybe_null|]. cbn in E. destruct pv; try (injection E as <-; apply maybe_null).
    destruct (dec_to_usize d); [|discriminate E]. injection E as <-. rewrite G. unfold znth. destruct (_ <? _)%Z; [|apply maybe_null].
    destruct (nth_error x (Z.to_nat z)) eqn:Q; [|apply maybe_null]. apply maybe_keep. apply H. eapply nth_error_In; eauto.
  - apply clean_app in Cl. destruct Cl as [C1 C2]. apply clean_unless in C1. destruct (as_const p) as [key|] eqn:K.
    2:{ cbn [plain fst]. apply maybe_keep. exact I. }
    assert (pv = VStr key) by (eapply as_const_some; eauto). subst pv. destruct N as [->|H].
    + destruct (Nn eq_refl) as [Q|Q]; [|destruct Q as [? [? [Q _]]]; discriminate Q]. injection E as <-. rewrite Q. apply maybe_null.
    + apply wft_obj in W. destruct W as [Nd _]. apply (hfits_obj _ _ _ Nd) in H. destruct H as [l [o [-> [G H]]]]. cbn in E. rewrite G in E. injection E as <-.
      destruct (aget key m) as [t|] eqn:Et; [apply maybe_keep; cbn [plain fst]; auto|apply maybe_keep; exact I].
  - destruct N as [->|H]; [destruct pv; injection E as <-; apply maybe_null|]. cbn [hfits] in H. subst av. cbn in E. destruct pv; try (injection E as <-; apply maybe_null).
    destruct (dec_to_usize d); [|discriminate E]. injection E as <-. destruct (zstr_get s z (z + 1)); [apply maybe_keep; cbn; eauto|apply maybe_null].
  - destruct N as [->|[s [-> _]]]; [destruct pv; injection E as <-; apply maybe_null|]. cbn in E. destruct pv; try (injection E as <-; apply maybe_null).
    destruct (dec_to_usize d); [|discriminate E]. injection E as <-. destruct (zstr_get s z (z + 1)); [apply maybe_keep; cbn; eauto|apply maybe_null].
Qed.
(** ** Functions *)
Ltac split_do H :=
  repeat match type of H with
         | Ok _ = Ok _ => injection H as <-
         | Err _ = Ok _ => discriminate H
         | bind ?e _ = Ok _ => let E := fresh "E" in destruct e eqn:E; [cbn [bind] in H|discriminate H]
         end.
Lemma composite_found : forall l args, clean (snd (check_types (Composite l) args)) -> exists s, find (fun s => args_match args (fst s)) l = Some s /\ fst (check_types (Composite l) args) = snd s.
Proof.
  intros l args Cl. unfold check_types in *. destruct l as [|s0 l]; [exfalso; eapply clean_one; exact Cl|]. cbv zeta in *.
  destruct (find (fun s => args_match args (fst s)) (s0 :: l)) as [s|] eqn:E; [exists s; auto|]. exfalso. cbn [snd] in Cl. apply clean_app in Cl. destruct Cl as [_ Cl]. eapply clean_one; exact Cl.
Qed.
Lemma composite_same : forall l args t, clean (snd (check_types (Composite l) args)) -> (forall s, In s l -> snd s = t) -> fst (check_types (Composite l) args) = t.
Proof. intros l args t Cl H. destruct (composite_found _ _ Cl) as [s [E ->]]. apply find_some in E. now apply H. Qed.
Lemma all_nums_fits : forall a ns, all_nums a = Some ns -> forall h x, In x a -> hfits h KNumber x.
Proof.
  induction a as [|v a IH]; intros ns E h x X; [destruct X|]. cbn in E. destruct v; try discriminate E. destruct (all_nums a) eqn:Q; [|discriminate E].
  destruct X as [<-|X]; [cbn; eauto|eauto].
Qed.
Lemma flat_fits : forall h t v, wft t -> bare t <> KInterval -> hfits h t v -> match v with VArr l => forall a, harr h l = Some a -> forall x, In x a -> hfits h (flatten_contribution t) x | _ => hfits h (flatten_contribution t) v end.
Proof.
  intros h. induction t as [| | | | | | |t IH|m IH|s|n l|t IH] using vtype_ind'; intros v W B H; cbn [flatten_contribution].
  all: try (destruct v; first [exact H | discriminate H | destruct H as [? H]; discriminate H | destruct H as [? [H _]]; discriminate H | destruct H as [? [? [H _]]]; discriminate H]).
  - destruct v; try exact I. intros; exact I.
  - exfalso. apply B. reflexivity.
  - destruct H as [l [a [-> [G H]]]]. intros a0 G0 x X. rewrite G in G0. injection G0 as <-. auto.
  - apply wft_null in W. cbn [bare] in B. assert (Ag : agree KNull (flatten_contribution t)).
    { intros p x y X Y. destruct p as [|[|k] p]; cbn in X; try discriminate X. injection X as <-. exact I. }
    assert (Wn : wft KNull) by (apply WLeaf; exact I). assert (Wf := wft_flat _ W).
    destruct H as [-> | H].
    + apply merge_both; auto. left. reflexivity.
    + specialize (IH v W B H). destruct v; try (apply merge_both; auto). intros a G x X. apply merge_both; auto. right. eauto.
Qed.
Lemma least_sound : forall h a r w q v, hfits h a w -> ~ In KAny (a :: r) -> ~ In (KArray KAny) (a :: r) ->
  clean (snd (check_types (Composite [([numbers], KNumber); ([KArray KDate], KDate)]) (a :: r))) ->
  ((exists ns d, arg_nums_or_dates h (w :: q) 0 = Ok (inl ns) /\ v = VNum d) \/ exists ds d, arg_nums_or_dates h (w :: q) 0 = Ok (inr ds) /\ ds <> [] /\ v = VDyn (DDate d)) ->
  hfits h (fst (check_types (Composite [([numbers], KNumber); ([KArray KDate], KDate)]) (a :: r))) v.
Proof.
  intros h a r w q v H T1 T2 Cl E. destruct (composite_found _ _ Cl) as [s [Es ->]]. cbn [find fst args_match] in Es.
  assert (K : exists l arr, w = VArr l /\ harr h l = Some arr).
  { unfold arg_nums_or_dates, arg_arr in E. cbn [nth_error] in E. destruct E as [[ns [d [E _]]]|[ns [d [E _]]]]; (destruct w; try discriminate E); (destruct (harr h l) eqn:G; [|discriminate E]); eauto. }
  destruct K as [l [arr [-> G]]]. unfold arg_nums_or_dates, arg_arr in E. cbn [nth_error] in E. rewrite G in E. cbn [of_option bind] in E.
  destruct (satisfies a numbers) eqn:S1.
  - assert (T : snd s = KNumber) by (destruct r; injection Es as <-; reflexivity). rewrite T. apply sat_arr in S1. destruct S1 as [->|[u [-> S1]]]; [exfalso; apply T1; now left|].
    apply sat_number in S1. destruct S1 as [->| ->]; [exfalso; apply T2; now left|]. destruct H as [l1 [a1 [Q [G1 H]]]]. injection Q as <-. rewrite G1 in G. injection G as ->.
    destruct E as [[ns [d [_ ->]]]|[ds [d [E [N _]]]]]; [cbn; eauto|]. exfalso. destruct arr as [|y arr]; [cbn in E; injection E as <-; now apply N|].
    destruct (H y (or_introl eq_refl)) as [z ->]. destruct (of_option (all_nums _) _); discriminate E.
  - destruct (satisfies a (KArray KDate)) eqn:S2; [|destruct r; discriminate Es]. assert (T : snd s = KDate) by (destruct r; injection Es as <-; reflexivity). rewrite T.
    destruct E as [[ns [d [E _]]]|[ds [d [_ [_ ->]]]]]; [|cbn; eauto]. exfalso.
    apply sat_arr in S2. destruct S2 as [->|[u [-> S2]]]; [apply T1; now left|]. destruct H as [l1 [a1 [Q [G1 H]]]]. injection Q as <-. rewrite G1 in G. injection G as ->.
    destruct arr as [|y arr]; [discriminate E|]. assert (Hy := H y (or_introl eq_refl)).
    assert (Y : forall z, y <> VNum z).
    { intros z ->. destruct u; try discriminate S2; try discriminate S1; cbn [hfits] in Hy; first [discriminate Hy | destruct Hy as [? Hy]; discriminate Hy | destruct Hy as [? [Hy _]]; discriminate Hy | apply T2; now left]. }
    destruct y; try (destruct (of_option (all_dates _) _) in E; discriminate E). exact (Y _ eq_refl).
Qed.
Lemma call_sound : forall L f ts args h h1 v, Forall2 (hfits h) ts args -> Forall wft ts -> telling f ts -> clean (snd (check_call true (FInternal f) ts)) ->
  call_internal L f args h = (h1, Ok v) -> hext h h1 /\ hfits h1 (fst (check_call true (FInternal f) ts)) v.
Proof.
  intros L f ts args h h1 v F Wt Te Cl E.
  assert (R : forall r, pure h r = (h1, Ok v) -> h1 = h /\ r = Ok v) by (intros r Q; unfold pure in Q; injection Q; auto).
  assert (Str : forall (l : list string) x, In x (map VStr l) -> hfits h KString x) by (intros l x X; apply in_map_iff in X; destruct X as [s [<- _]]; cbn; eauto).
  assert (Ra : forall r T, ret_arr h r = (h1, Ok v) -> (forall a, r = Ok a -> forall x, In x a -> hfits h T x) -> hext h h1 /\ hfits h1 (KArray T) v).
  { intros r T Q H. unfold ret_arr in Q. destruct r as [a|]; [|discriminate Q]. destruct (new_arr h a) as [h2 w] eqn:Na. injection Q as <- <-. eapply new_arr_fits; eauto. }
  assert (First : nth_error args 0 = None \/ exists a r w q, ts = a :: r /\ args = w :: q /\ hfits h a w).
  { destruct F as [|a w r q H F]; [left; reflexivity|right; exists a, r, w, q; auto]. }
  unfold check_call in *. destruct f; cbn [own_check internal_def] in *; unfold Infer.one in *; cbn [call_internal] in E;
    try (apply R in E; destruct E as [-> E]; split; [apply hext_refl|]; split_do E; cbn [check_types fst hfits]; eauto; fail).
  - apply R in E. destruct E as [-> E]. split; [apply hext_refl|]. rewrite (composite_same _ _ KNumber Cl) by (intros s [<-|[<-|[]]]; reflexivity).
    split_do E. unfold op_len in E. match type of E with match ?w with _ => _ end = _ => destruct w as [| | | |l| |] end; try discriminate E; [|destruct (harr h l); [|discriminate E]]; injection E as <-; cbn; eauto.
  - apply R in E. destruct E as [-> E]. split; [apply hext_refl|]. rewrite (composite_same _ _ KBool Cl) by (intros s [<-|[<-|[]]]; reflexivity). split_do E. cbn. eauto.
  - unfold check_own in *. destruct First as [F0|[a [r [w [q [-> [-> H]]]]]]]; [unfold arg_arr in E; rewrite F0 in E; discriminate E|].
    destruct r; [|exfalso; eapply clean_one; exact Cl]. destruct (iterator a) as [e|] eqn:Ie; [|exfalso; eapply clean_one; exact Cl]. cbn [fst].
    eapply Ra; [exact E|]. intros b Eb x X. unfold arg_arr in Eb. cbn [nth_error] in Eb. destruct w; try discriminate Eb. destruct (harr h l) as [arr|] eqn:G; [|discriminate Eb].
    cbn in Eb. injection Eb as <-. unfold flatten1 in X. apply in_flat_map in X. destruct X as [y [Y X]].
    assert (Hy := iterator_hfits _ _ _ _ _ _ Ie H eq_refl G y Y). inversion Wt as [|? ? Wa _]; subst. assert (We := wft_iterator _ _ Wa Ie).
    assert (Q := flat_fits h e y We (Te a e (or_introl eq_refl) Ie) Hy).
    destruct y; try (destruct X as [<-|[]]; exact Q). destruct (harr h l0) eqn:G0; [|destruct X]. eauto.
  - contradiction.
  - contradiction.
  - eapply Ra; [exact E|]. intros a Ea x X. split_do Ea. eauto.
  - destruct First as [F0|[a [r [w [q [-> [-> H]]]]]]]; [unfold arg in E; rewrite F0 in E; discriminate E|]. cbn [hd] in Te.
    destruct (composite_found _ _ Cl) as [s [Es ->]]. destruct (do a <- arg (w :: q) 0; do b <- arg_str (w :: q) 1; Ok (a, b)) as [[w0 b]|] eqn:E0; [|discriminate E].
    assert (w0 = w). { unfold arg in E0. cbn [nth_error of_option bind] in E0. destruct (arg_str (w :: q) 1); [|discriminate E0]. cbn [bind] in E0. congruence. } subst w0. clear E0. unfold f_fuzzy in E.
    cbn [find fst args_match] in Es. destruct (satisfies a KString) eqn:S1; cbn [andb] in Es.
    + destruct (sat_string _ _ _ S1 H) as [Q|[s0 ->]]; [contradiction|]. injection E as <- <-. split; [apply hext_refl|].
      assert (T : snd s = KNumber). { destruct (args_match r [KString]); [injection Es as <-; reflexivity|]. rewrite andb_false_r in Es. discriminate Es. }
      rewrite T. cbn. eauto.
    + destruct (satisfies a strings) eqn:S2; cbn [andb] in Es; [|discriminate Es]. apply sat_arr in S2. destruct S2 as [Q|[u [-> _]]]; [contradiction|].
      assert (T : snd s = numbers). { destruct (args_match r [KString]); [injection Es as <-; reflexivity|discriminate Es]. }
      rewrite T. destruct H as [l [arr [-> [G _]]]]. rewrite G in E. destruct (all_strs arr) as [ss|]; [|discriminate E].
      destruct (new_arr h _) as [h2 v2] eqn:Na in E. injection E as <- <-. eapply new_arr_fits; [exact Na|]. intros x X. apply in_map_iff in X. destruct X as [y [<- _]]. cbn. eauto.
  - eapply Ra; [exact E|]. intros a Ea x X. split_do Ea. eauto.
  - destruct First as [F0|[a [r [w [q [-> [-> H]]]]]]]; [unfold arg_nums_or_dates, arg_arr in E; rewrite F0 in E; discriminate E|].
    apply R in E. destruct E as [-> E]. split; [apply hext_refl|]. destruct Te as [T1 T2]. apply (least_sound h a r w q v H T1 T2 Cl).
    destruct (arg_nums_or_dates h (w :: q) 0) as [[ns|ds]|] eqn:A; [| |discriminate E]; cbn [bind] in E.
    + destruct (f_min dec_cmp ns) as [d|]; [|discriminate E]. cbn [bind] in E. injection E as <-. left. exists ns, d. auto.
    + destruct (f_min vmdate_cmp ds) as [d|] eqn:M; [|discriminate E]. cbn [bind] in E. injection E as <-. right. exists ds, d. split; [auto|]. split; [|auto]. intros ->. discriminate M.
  - destruct First as [F0|[a [r [w [q [-> [-> H]]]]]]]; [unfold arg_nums_or_dates, arg_arr in E; rewrite F0 in E; discriminate E|].
    apply R in E. destruct E as [-> E]. split; [apply hext_refl|]. destruct Te as [T1 T2]. apply (least_sound h a r w q v H T1 T2 Cl).
    destruct (arg_nums_or_dates h (w :: q) 0) as [[ns|ds]|] eqn:A; [| |discriminate E]; cbn [bind] in E.
    + destruct (f_max dec_cmp ns) as [d|]; [|discriminate E]. cbn [bind] in E. injection E as <-. left. exists ns, d. auto.
    + destruct (f_max vmdate_cmp ds) as [d|] eqn:M; [|discriminate E]. cbn [bind] in E. injection E as <-. right. exists ds, d. split; [auto|]. split; [|auto]. intros ->. discriminate M.
  - apply R in E. destruct E as [-> E]. split; [apply hext_refl|]. rewrite (composite_same _ _ KNumber Cl) by (intros s [<-|[<-|[]]]; reflexivity). split_do E. cbn. eauto.
  - apply R in E. destruct E as [-> E]. split; [apply hext_refl|]. rewrite (composite_same _ _ KNumber Cl) by (intros s [<-|[<-|[]]]; reflexivity). split_do E. cbn. eauto.
  - destruct First as [F0|[a [r [w [q [-> [-> H]]]]]]]; [unfold arg in E; rewrite F0 in E; discriminate E|]. cbn [hd telling] in Te.
    destruct (composite_found _ _ Cl) as [s [Es ->]]. cbn [find fst args_match] in Es. destruct (satisfies a (KObject [])) eqn:S1.
    + assert (T : snd s = strings) by (destruct r; injection Es as <-; reflexivity). rewrite T. eapply Ra; [exact E|]. intros b Eb x X. unfold arg in Eb. cbn [nth_error of_option bind] in Eb.
      destruct a; try discriminate S1; [contradiction|]. destruct H as [l [o [-> [G _]]]]. rewrite G in Eb. cbn [of_option bind] in Eb. injection Eb as <-. eauto.
    + destruct (satisfies a anys) eqn:S2; [|destruct r; discriminate Es]. assert (T : snd s = numbers) by (destruct r; injection Es as <-; reflexivity). rewrite T.
      apply sat_arr in S2. destruct S2 as [Q|[u [-> _]]]; [contradiction|]. eapply Ra; [exact E|]. intros b Eb x X. unfold arg in Eb. cbn [nth_error of_option bind] in Eb.
      destruct H as [l [arr [-> [G _]]]]. rewrite G in Eb. cbn [of_option bind] in Eb. injection Eb as <-. apply in_map_iff in X. destruct X as [y [<- _]]. cbn. eauto.
  - contradiction.
  - apply R in E. destruct E as [-> E]. split; [apply hext_refl|]. rewrite (composite_same _ _ KDate Cl) by (intros s [<-|[<-|[<-|[]]]]; reflexivity). split_do E. cbn. eauto.
Qed.
Lemma method_sound : forall C k ts args h v, In k reliable -> clean (snd match method_def k with Some d => check_types d ts | None => plain KAny end) ->
  date_method C k args = Ok v -> hfits h (fst match method_def k with Some d => check_types d ts | None => plain KAny end) v.
Proof.
  intros C k ts args h v I1 Cl E. unfold date_method in E. destruct (arg_date args 0) as [this|]; [|discriminate E]. cbn [bind] in E.
  unfold reliable in I1. repeat (destruct I1 as [<-|I1]; [|]); try contradiction;
    match goal with |- context [method_def ?s] => let d := eval vm_compute in (method_def s) in change (method_def s) with d in * end;
    cbn [String.eqb Ascii.eqb Bool.eqb comparison] in E; cbn [fst snd] in *.
  all: try (rewrite (composite_same _ _ KDate Cl) by (intros s S1; repeat (destruct S1 as [<-|S1]; [reflexivity|]); contradiction)).
  all: try (rewrite (composite_same _ _ KString Cl) by (intros s S1; repeat (destruct S1 as [<-|S1]; [reflexivity|]); contradiction)).
  all: try (rewrite (composite_same _ _ KBool Cl) by (intros s S1; repeat (destruct S1 as [<-|S1]; [reflexivity|]); contradiction)).
  all: unfold ret_date in E; cbn [check_types fst]; try (split_do E; cbn [hfits]; eauto; fail).
  split_do E. destruct (c_zones C _); [|discriminate E]. destruct (vm_of C this); injection E as <-; cbn; eauto.
Qed.

(** ** Operators *)
Lemma not_bool : forall a v, op_not a = Ok v -> exists b, v = VBool b.
Proof. intros a v E. destruct a; try discriminate E. inversion E; eauto. Qed.
Lemma cmp_bool : forall c a b v, op_compare c a b = Ok v -> exists b, v = VBool b.
Proof. intros c a b v E. destruct a, b; try discriminate E; cbn [op_compare] in E; try (destruct d; discriminate E); try (inversion E; eauto; fail). destruct d, d0; try discriminate E; inversion E; eauto. Qed.
Lemma in_bool : forall h a b v, op_in h a b = Ok v -> exists b, v = VBool b.
Proof.
  intros h a b v E. unfold op_in in E. destruct a, b; try discriminate E; try (inversion E; eauto; fail).
  all: repeat match type of E with context [match ?x with DDate _ => _ | DInterval _ => _ end] => destruct x; try discriminate E end.
  all: try (match type of E with context [interval_includes ?i ?x] => destruct (interval_includes i x); [|discriminate E] end); inversion E; eauto.
Qed.
Lemma binary_sound : forall X op h a b av bv v, hfits h a av -> hfits h b bv -> clean (snd (check_binary true op a b)) -> bin_value X op h av bv = Ok v ->
  match op with OpLogic _ | OpArith ADiv | OpArith AMod => False | _ => True end -> hfits h (fst (check_binary true op a b)) v.
Proof.
  intros X op h a b av bv v Ha Hb Cl E Ok1. destruct op as [o|o|o| | | | | | |]; try contradiction; cbn [bin_value] in E; try discriminate E; cbn [check_binary] in *.
  - destruct o; try contradiction; cbn [bin_value] in E.
    + assert (A : (exists x y, av = VNum x /\ bv = VNum y /\ exists d, v = VNum d) \/ (exists x y s, av = VStr x /\ bv = VStr y /\ v = VStr s)).
      { unfold op_add in E. destruct av, bv; try discriminate E; [left|right; injection E as <-; eauto 7]. exists d, d0. destruct (x_add X d d0); [|discriminate E]. injection E as <-. eauto. }
      destruct A as [[x [y [-> [-> [d ->]]]]]|[x [y [s [-> [-> ->]]]]]];
        destruct a; cbn [widen] in *; destruct b; cbn [widen fst snd plain hfits] in *; try exact I; eauto;
        try (exfalso; eapply clean_one; exact Cl);
        repeat match goal with H : exists _, _ |- _ => destruct H | H : _ /\ _ |- _ => destruct H end; try congruence; try discriminate.
    + unfold op_sub in E. destruct av, bv; try discriminate E. destruct (x_sub X d d0); [|discriminate E]. injection E as <-. destruct a, b; cbn [fst plain hfits wrong]; try exact I; eauto.
    + unfold op_mul in E. destruct av, bv; try discriminate E. destruct (x_mul X d d0); [|discriminate E]. injection E as <-. destruct a, b; cbn [fst plain hfits wrong]; try exact I; eauto.
    + unfold op_pow in E. destruct av, bv; try discriminate E. destruct (x_pow X d d0); [|discriminate E]. injection E as <-. destruct a, b; cbn [fst plain hfits wrong]; try exact I; eauto.
  - assert (B : exists b, v = VBool b).
    { destruct o; cbn [bin_value] in E; try exact (cmp_bool _ _ _ _ E).
      - injection E as <-. unfold op_equal. eauto.
      - exact (not_bool _ _ E).
      - exact (in_bool _ _ _ _ E).
      - destruct (op_in h av bv) as [r|]; [|discriminate E]. exact (not_bool _ _ E). }
    destruct B as [r ->]. destruct o; cbn [fst hfits]; eauto; try (destruct a, b; cbn [fst plain wrong hfits]; try exact I; eauto; fail);
      unfold check_in; destruct (widen a), (widen b); cbn [fst plain wrong hfits]; try exact I; eauto.
Qed.

(** ** Calls that give a value *)
Lemma static_args : forall ps r args, clean (snd (check_types (Static (ps, r)) args)) -> Forall2 (fun a p => satisfies a p = true) args ps.
Proof.
  intros ps r args Cl. cbn [check_types snd] in Cl. apply clean_app in Cl. destruct Cl as [Len Cl]. apply clean_unless, Nat.eqb_eq in Len. revert ps Len Cl.
  induction args as [|a args IH]; intros [|p ps] Len Cl; try discriminate Len; constructor; cbn [args_errors] in Cl; apply clean_app in Cl; destruct Cl as [C1 C2]; [now apply clean_unless in C1|]. apply IH; auto.
Qed.
Lemma composite_args : forall l args, clean (snd (check_types (Composite l) args)) -> (exists s, In s l /\ args_match args (fst s) = true) /\ fewest l <= length args <= most l.
Proof.
  intros l args Cl. destruct (composite_found _ _ Cl) as [s [Es _]]. destruct (find_some _ _ Es) as [I1 M]. split; [eauto|]. unfold check_types in Cl. destruct l as [|s0 l]; [destruct I1|]. cbv zeta in Cl. rewrite Es in Cl. cbn [snd] in Cl.
  apply clean_unless, andb_true_iff in Cl. destruct Cl as [A B]. apply Nat.leb_le in A, B. auto.
Qed.
Lemma sat_strings : forall a h v l arr, satisfies a strings = true -> a <> KAny -> iterator a <> Some KAny -> hfits h a v -> v = VArr l -> harr h l = Some arr -> exists ss, all_strs arr = Some ss.
Proof.
  intros a h v l arr S1 N1 N2 H -> G. apply sat_arr in S1. destruct S1 as [->|[u [-> S1]]]; [contradiction|]. destruct H as [l1 [a1 [Q [G1 H]]]]. injection Q as <-. rewrite G1 in G. injection G as ->. clear G1.
  induction arr as [|x arr IH]; [exists []; reflexivity|]. destruct (sat_string _ _ _ S1 (H x (or_introl eq_refl))) as [->|[s ->]]; [now elim N2|]. destruct IH as [ss E]; [intros y Y; apply H; now right|]. exists (s :: ss). cbn. now rewrite E.
Qed.
Lemma told_both : forall t, told t -> t <> KAny /\ iterator t <> Some KAny.
Proof. intros t [A B]. split; [intros ->; now apply A|]. intros E. exact (B _ E eq_refl). Qed.
Lemma call_gives_value : forall L f ts args h, Forall2 (hfits h) ts args -> ~ In KAny ts -> In f sure -> (f = FFuzzyMatch -> forall t, In t ts -> told t) ->
  clean (snd (check_call true (FInternal f) ts)) -> exists h1 v, call_internal L f args h = (h1, Ok v).
Proof.
  intros L f ts args h F N Su Tf Cl.
  assert (Ret : forall a, exists h1 v, ret_arr h (Ok a) = (h1, Ok v)) by (intros a; unfold ret_arr; destruct (new_arr h a) as [h1 v]; eauto).
  assert (Arr : forall a u v, satisfies a (KArray u) = true -> a <> KAny -> hfits h a v -> exists l arr, v = VArr l /\ harr h l = Some arr).
  { intros a u v S1 N1 H. apply sat_arr in S1. destruct S1 as [Q|[w [-> _]]]; [contradiction|]. destruct H as [l [arr [-> [G _]]]]. eauto. }
  assert (Not : forall a, In a ts -> a <> KAny) by (intros a A ->; contradiction).
  unfold sure in Su. repeat (destruct Su as [<-|Su]; [|]); try contradiction; cbn [check_call own_check internal_def] in Cl; unfold Infer.one in Cl; cbn [call_internal].
  all: try (apply static_args in Cl;
       repeat match goal with H : Forall2 _ _ [] |- _ => inversion H; clear H; subst | H : Forall2 _ _ (_ :: _) |- _ => inversion H; clear H; subst | H : Forall2 _ [] _ |- _ => inversion H; clear H; subst | H : Forall2 _ (_ :: _) _ |- _ => inversion H; clear H; subst end;
       repeat match goal with
              | S1 : satisfies ?a KString = true, H : hfits ?hh ?a ?v |- _ => destruct (sat_string _ _ _ S1 H) as [?|[? ->]]; [exfalso; apply N; subst; cbn; auto; fail|]; clear S1
              | S1 : satisfies ?a KNumber = true, H : hfits ?hh ?a ?v |- _ => destruct (sat_number _ S1) as [?| ->]; [exfalso; apply N; subst; cbn; auto; fail|]; destruct H as [? ->]; clear S1
              end; cbn; eauto; fail).
  all: apply composite_args in Cl; destruct Cl as [[s [Is M]] Len]; cbn in Len.
  - destruct F as [|a v ts vs H1 F1]; [cbn in Len; lia|]. destruct F1; [|cbn in Len; lia]. assert (Na := Not a ltac:(now left)).
    destruct Is as [<-|[<-|[]]]; cbn [fst args_match] in M; apply andb_true_iff in M; destruct M as [M _].
    + destruct (sat_string _ _ _ M H1) as [?|[? ->]]; [contradiction|]. cbn. eauto.
    + destruct (Arr _ _ _ M Na H1) as [l [arr [-> G]]]. cbn. rewrite G. unfold pure. eauto.
  - destruct F as [|a v ts vs H1 F1]; [cbn in Len; lia|]. destruct F1 as [|a2 v2 ts vs H2 F2]; [cbn in Len; lia|]. destruct F2; [|cbn in Len; lia]. assert (Na := Not a ltac:(now left)). assert (Na2 := Not a2 ltac:(right; now left)).
    destruct Is as [<-|[<-|[]]]; cbn [fst args_match] in M; apply andb_true_iff in M; destruct M as [M M2].
    + apply andb_true_iff in M2. destruct M2 as [M2 _]. destruct (sat_string _ _ _ M H1) as [?|[? ->]]; [contradiction|]. destruct (sat_string _ _ _ M2 H2) as [?|[? ->]]; [contradiction|]. cbn. eauto.
    + destruct (Arr _ _ _ M Na H1) as [l [arr [-> G]]]. cbn. rewrite G. cbn. unfold pure. eauto.
  - specialize (Tf eq_refl). destruct F as [|a v ts vs H1 F1]; [cbn in Len; lia|]. destruct F1 as [|a2 v2 ts vs H2 F2]; [cbn in Len; lia|]. destruct F2; [|cbn in Len; lia]. assert (Na := told_both _ (Tf a ltac:(now left))). assert (Na2 := Not a2 ltac:(right; now left)).
    assert (M2 : satisfies a2 KString = true).
    { destruct Is as [<-|[<-|[]]]; cbn [fst args_match] in M; apply andb_true_iff in M; destruct M as [_ M]; apply andb_true_iff in M; apply M. }
    destruct (sat_string _ _ _ M2 H2) as [?|[? ->]]; [contradiction|]. cbn.
    destruct Is as [<-|[<-|[]]]; cbn [fst args_match] in M; apply andb_true_iff in M; destruct M as [M _].
    + destruct (sat_string _ _ _ M H1) as [?|[? ->]]; [destruct Na; contradiction|]. cbn. eauto.
    + destruct (Arr _ _ _ M (proj1 Na) H1) as [l [arr [-> G]]]. destruct (sat_strings _ _ _ _ _ M (proj1 Na) (proj2 Na) H1 eq_refl G) as [ss E]. cbn. rewrite G, E. unfold new_arr, halloc. eauto.
  - destruct F as [|a v ts vs H1 F1]; [cbn in Len; lia|]. destruct F1; [|cbn in Len; lia]. assert (Na := Not a ltac:(now left)).
    destruct Is as [<-|[<-|[]]]; cbn [fst args_match] in M; apply andb_true_iff in M; destruct M as [M _].
    + destruct a; try discriminate M; try contradiction. destruct H1 as [l [o [-> [G _]]]]. cbn. rewrite G. cbn. apply Ret.
    + destruct (Arr _ _ _ M Na H1) as [l [arr [-> G]]]. cbn. rewrite G. cbn. apply Ret.
Qed.
