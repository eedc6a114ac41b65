(** The two-representation map refines a finite map. *)
From Coq Require Import String Lia Bool List Arith Permutation.
From Verif Require Import Base VMap.
Import ListNotations.
Local Open Scope nat_scope.

Section Facts.
  Variable V : Type.
  Variable place : string -> nat.
  Notation vmap := (vmap V).
  Implicit Types (l : list (string * V)).

  Lemma find_aget : forall k l, find_entry V k l = aget k l.
  Proof. induction l as [|[k' v] r IH]; cbn; auto; now rewrite IH. Qed.
  Lemma remove_adel : forall k l, remove_entry V k l = adel k l.
  Proof. induction l as [|[k' v] r IH]; cbn; auto; now rewrite IH. Qed.
  Lemma replace_aset : forall k v l x, aget k l = Some x -> replace_entry V k v l = aset k v l.
  Proof.
    induction l as [|[k' v'] r IH]; cbn; intros x H; [discriminate|]. destruct (String.eqb k' k); auto.
    now rewrite (IH _ H).
  Qed.
  Lemma aset_snoc : forall k v l, aget k l = None -> aset k v l = l ++ [(k, v)].
  Proof.
    induction l as [|[k' v'] r IH]; cbn; intros H; auto. destruct (String.eqb k' k); [discriminate|].
    now rewrite IH.
  Qed.

  Definition good (l : list (string * V)) : Prop := NoDup (akeys l).
  (** [l] behaves as [f]. *)
  Definition is_map (l : list (string * V)) (f : fmap V) : Prop := good l /\ forall k, aget k l = f k.

  Lemma is_map_lists : forall l f, is_map l f -> lists V f l.
  Proof.
    intros l f [G A]. split; [exact G|]. intros k v. rewrite <- A. split.
    - now apply aget_in_nodup.
    - now apply aget_Some_in.
  Qed.
  Lemma put_perm : forall n e l, Permutation (e :: l) (put_at V n e l).
  Proof.
    induction n as [|n IH]; intros e [|x l]; cbn; auto.
    etransitivity; [apply perm_swap|]. auto.
  Qed.
  Lemma aget_perm : forall l m, Permutation l m -> good l -> forall k, aget k l = aget k m.
  Proof.
    intros l m P G k.
    assert (Gm : good m). { unfold good, akeys in *. eapply Permutation_NoDup; [|exact G]. now apply Permutation_map. }
    destruct (aget k l) as [v|] eqn:E.
    - symmetry. apply aget_in_nodup; auto. eapply Permutation_in; [exact P|]. now apply aget_Some_in.
    - symmetry. apply aget_None_notin. intros H. apply aget_None_notin in E. apply E.
      unfold akeys in *. eapply Permutation_in; [|exact H]. symmetry. now apply Permutation_map.
  Qed.
  Lemma put_map : forall k v l f, is_map l f -> f k = None -> is_map (put_at V (place k) (k, v) l) (fput V k v f).
  Proof.
    intros k v l f [G A] N. assert (G1 : good ((k, v) :: l)).
    { unfold good. cbn. constructor; auto. apply aget_None_notin. now rewrite A. }
    split.
    - unfold good, akeys in *. eapply Permutation_NoDup; [|exact G1]. apply Permutation_map. apply put_perm.
    - intros x. rewrite <- (aget_perm _ _ (put_perm (place k) (k, v) l) G1). cbn. unfold fput.
      rewrite String.eqb_sym. destruct (String.eqb x k); auto.
  Qed.
  Lemma aset_map : forall k v l f, is_map l f -> is_map (aset k v l) (fput V k v f).
  Proof.
    intros k v l f [G A]. split; [now apply aset_nodup|]. intros x. unfold fput.
    destruct (String.eqb_spec x k) as [->|Hne]; [apply aget_aset_eq|].
    rewrite aget_aset_ne by congruence. apply A.
  Qed.
  Lemma adel_map : forall k l f, is_map l f -> is_map (adel k l) (fdrop V k f).
  Proof.
    intros k l f [G A]. split; [now apply adel_nodup|]. intros x. unfold fdrop.
    destruct (String.eqb_spec x k) as [->|Hne]; [now apply aget_adel_eq|].
    rewrite aget_adel_ne by congruence. apply A.
  Qed.
  Lemma is_map_same : forall l f g, is_map l f -> same V f g -> is_map l g.
  Proof. intros l f g [G A] S. split; auto. intros k. now rewrite A. Qed.
  Lemma hm_insert_map : forall k v l f, is_map l f ->
    is_map (fst (hm_insert V place k v l)) (fput V k v f) /\ snd (hm_insert V place k v l) = f k.
  Proof.
    intros k v l f M. unfold hm_insert. pose proof (proj2 M k) as A.
    destruct (aget k l) as [old|] eqn:E; cbn; split; auto.
    - now apply aset_map.
    - apply put_map; auto.
  Qed.
  Lemma spill_map : forall l f h, is_map l f -> forall g, is_map h g ->
    (forall k, aget k l <> None -> g k = None) ->
    is_map (fold_left (fun h kv => fst (hm_insert V place (fst kv) (snd kv) h)) l h)
      (fun k => match f k with Some v => Some v | None => g k end).
  Proof.
    induction l as [|[k v] l IH]; intros f h [G A] g M D; cbn.
    - eapply is_map_same; [exact M|]. intros k. rewrite <- A. reflexivity.
    - inversion G as [|? ? N G']; subst. cbn in *.
      assert (Ml : is_map l (fun x => aget x l)) by (split; auto).
      destruct (hm_insert_map k v h g M) as [M1 _].
      assert (Nk : aget k l = None) by now apply aget_None_notin.
      pose proof (IH _ _ Ml _ M1) as R. eapply is_map_same; [apply R|].
      + intros x Hx. unfold fput. destruct (String.eqb_spec x k) as [->|Hne]; [congruence|].
        apply D. cbn. destruct (String.eqb k x); congruence.
      + intros x. cbn. rewrite <- A. cbn. unfold fput. rewrite (String.eqb_sym k x).
        destruct (String.eqb_spec x k) as [->|Hne]; [now rewrite Nk|reflexivity].
  Qed.

  (** The invariant: entries are a finite map; a small map has at most 32 of them. *)
  Definition rep (m : vmap) (f : fmap V) : Prop :=
    is_map (vm_entries V m) f /\ match m with Small l => length l <= spill_at | Large _ => True end.

  Lemma rep_spill : forall m f, rep m f -> rep (vm_spill V place m) f /\ exists h, vm_spill V place m = Large h.
  Proof.
    intros [l|h] f [M B]; cbn in *; [|split; [split; auto|eauto]]. split; [|eauto]. split; auto. cbn.
    eapply is_map_same; [apply (spill_map l f [] M (fun _ => None))|].
    - split; [constructor|reflexivity].
    - reflexivity.
    - intros k. cbn. now destruct (f k).
  Qed.
  Lemma rep_get : forall m f k, rep m f -> vm_get V k m = f k.
  Proof. intros [l|h] f k [[G A] _]; cbn in *; rewrite ?find_aget; auto. Qed.
  Lemma rep_large_insert : forall h f k v, rep (Large h) f ->
    rep (Large (fst (hm_insert V place k v h))) (fput V k v f) /\ snd (hm_insert V place k v h) = f k.
  Proof. intros h f k v [M _]. cbn in M. destruct (hm_insert_map k v h f M) as [A B]. split; auto. split; auto. Qed.
  Lemma aset_length : forall k v l, aget k l <> None -> length (aset k v l) = length l.
  Proof.
    induction l as [|[k' v'] r IH]; cbn; intros H; [congruence|]. destruct (String.eqb k' k); cbn; auto.
  Qed.
  Lemma rep_insert : forall m f k v, rep m f ->
    rep (fst (vm_insert V place k v m)) (fput V k v f) /\ snd (vm_insert V place k v m) = f k.
  Proof.
    intros [l|h] f k v R.
    - pose proof R as [M B]. cbn in M. pose proof (proj2 M k) as A. cbn [vm_insert]. rewrite find_aget.
      destruct (aget k l) as [old|] eqn:E.
      + cbn. split; auto. rewrite (replace_aset _ _ _ _ E). split; [now apply aset_map|].
        rewrite aset_length; [auto|congruence].
      + destruct (Nat.leb_spec spill_at (length l)) as [Hl|Hl].
        * destruct (rep_spill _ _ R) as [R1 [h Eh]]. rewrite Eh in *. 
          destruct (rep_large_insert h f k v R1) as [P Q]. destruct (hm_insert V place k v h). split; auto.
        * cbn. split; auto. rewrite <- aset_snoc by auto. split; [now apply aset_map|].
          rewrite aset_snoc by auto. rewrite app_length. cbn. lia.
    - cbn. destruct (rep_large_insert h f k v R) as [P Q]. destruct (hm_insert V place k v h). split; auto.
  Qed.
  Lemma adel_length : forall k l, length (adel k l) <= length l.
  Proof. induction l as [|[k' v'] r IH]; cbn; auto. destruct (String.eqb k' k); cbn; lia. Qed.
  Lemma rep_remove : forall m f k, rep m f ->
    rep (fst (vm_remove V k m)) (fdrop V k f) /\ snd (vm_remove V k m) = f k.
  Proof.
    intros [l|h] f k [M B]; cbn in *.
    - rewrite remove_adel, find_aget. split; [|apply M]. split; [now apply adel_map|].
      pose proof (adel_length k l). lia.
    - split; [|apply M]. split; auto. now apply adel_map.
  Qed.
  Lemma rep_entry : forall m f k, rep m f -> rep (vm_entry V place k m) f.
  Proof.
    intros [l|h] f k R; cbn [vm_entry]; auto. destruct (_ && _); auto. now apply rep_spill.
  Qed.
  Lemma rep_same : forall m f g, rep m f -> same V f g -> rep m g.
  Proof. intros m f g [M B] S. split; auto. eapply is_map_same; eauto. Qed.
  Lemma rep_extend : forall es m f, rep m f ->
    rep (vm_extend V place es m) (fold_left (fun f kv => fput V (fst kv) (snd kv) f) es f).
  Proof.
    unfold vm_extend. induction es as [|[k v] es IH]; intros m f R; cbn; auto. apply IH.
    now apply rep_insert.
  Qed.
  Lemma rep_map_values : forall g m f, rep m f -> rep (vm_map_values V g m) (fun k => option_map g (f k)).
  Proof.
    intros g.
    assert (A : forall l f, is_map l f -> is_map (map (fun kv => (fst kv, g (snd kv))) l) (fun k => option_map g (f k))).
    { intros l f [G A]. split.
      - unfold good, akeys in *. rewrite map_map. exact G.
      - intros k. rewrite <- A. clear. induction l as [|[k' v'] r IH]; cbn; auto. destruct (String.eqb k' k); auto. }
    intros [l|h] f [M B]; split; cbn in *; auto. now rewrite map_length.
  Qed.

  Lemma step_ok : forall m f o, rep m f ->
    exists f1, fstep V f o (snd (vm_step V place m o)) f1 /\ rep (fst (vm_step V place m o)) f1.
  Proof.
    intros m f o R. destruct o as [k v|k|k v|k v|es|g| |k| |]; cbn [vm_step fstep].
    - destruct (rep_insert m f k v R) as [A B]. destruct (vm_insert V place k v m) as [m1 r]. cbn in *. subst r.
      exists (fput V k v f). repeat split; auto; apply A.
    - destruct (rep_remove m f k R) as [A B]. destruct (vm_remove V k m) as [m1 r]. cbn in *. subst r.
      exists (fdrop V k f). repeat split; auto; apply A.
    - unfold vm_or_insert. pose proof (rep_entry m f k R) as R1. rewrite (rep_get _ _ k R1).
      destruct (f k) as [x|] eqn:E.
      + exists f. cbn. repeat split; auto; apply R1.
      + destruct (rep_insert _ _ k v R1) as [A B]. exists (fput V k v f). cbn.
        rewrite (rep_get _ _ k A). unfold fput at 1. rewrite String.eqb_refl. repeat split; auto; apply A.
    - unfold vm_entry_insert. pose proof (rep_entry m f k R) as R1. rewrite (rep_get _ _ k R1).
      destruct (f k) as [x|] eqn:E.
      + exists (fput V k v f). cbn. split; [split; [reflexivity|intros ?; reflexivity]|].
        destruct (vm_entry V place k m) as [l|h]; destruct R1 as [M B]; cbn in *.
        * pose proof (proj2 M k) as A. rewrite E in A. rewrite (replace_aset _ _ _ _ A). split; [now apply aset_map|].
          rewrite aset_length; [auto|congruence].
        * split; auto. now apply aset_map.
      + destruct (rep_insert _ _ k v R1) as [A B]. exists (fput V k v f). cbn. split; [split; [reflexivity|intros ?; reflexivity]|exact A].
    - eexists. split; [split; [reflexivity|intros ?; reflexivity]|]. now apply rep_extend.
    - eexists. split; [split; [reflexivity|intros ?; reflexivity]|]. now apply rep_map_values.
    - eexists. split; [split; [reflexivity|intros ?; reflexivity]|]. cbn.
      destruct m; split; cbn; auto; try (split; [constructor|reflexivity]); unfold spill_at; lia.
    - exists f. cbn. rewrite (rep_get _ _ _ R). repeat split; auto; apply R.
    - exists f. cbn. split; [split; [|intros ?; reflexivity]|exact R]. exists (vm_entries V m).
      split; [apply is_map_lists; apply R|]. now destruct m.
    - exists f. cbn. split; [split; [|intros ?; reflexivity]|exact R]. exists (vm_entries V m).
      split; [apply is_map_lists; apply R|reflexivity].
  Qed.
  Lemma fstep_same : forall f g o b f1, fstep V f o b f1 -> same V f g -> exists g1, fstep V g o b g1 /\ same V f1 g1.
  Proof.
    intros f g o b f1 S E.
    assert (L : forall l, lists V f l -> lists V g l).
    { intros l [N I]. split; auto. intros k v. rewrite <- E. auto. }
    exists f1. split; [|intros ?; reflexivity]. destruct o; cbn in *; rewrite <- ?E; auto.
    - destruct S as [A B]. split; auto. intros x. rewrite B. unfold fput. destruct (String.eqb x k); auto.
    - destruct S as [A B]. split; auto. intros x. rewrite B. unfold fdrop. destruct (String.eqb x k); auto.
    - destruct (f k) as [x|]; destruct S as [A B]; split; auto; intros y; rewrite B; auto.
      unfold fput. destruct (String.eqb y k); auto.
    - destruct S as [A B]. split; auto. intros x. rewrite B. unfold fput. destruct (String.eqb x k); auto.
    - destruct S as [A B]. split; auto. clear -B E. revert f g B E.
      assert (G : forall l f g, same V f g -> same V (fold_left (fun f kv => fput V (fst kv) (snd kv) f) l f)
        (fold_left (fun f kv => fput V (fst kv) (snd kv) f) l g)).
      { induction l0 as [|[k v] r IH]; intros f g E; cbn; auto. apply IH. intros x. unfold fput. destruct (String.eqb x k); auto. }
      intros f g B E x. rewrite B. now apply G.
    - destruct S as [A B]. split; auto. intros x. now rewrite B, E.
    - destruct S as [A B]. split; auto. intros x. now rewrite B, E.
    - destruct S as [(l & A & B) C]. split; [exists l; auto|]. intros x. now rewrite C.
    - destruct S as [(l & A & B) C]. split; [exists l; auto|]. intros x. now rewrite C.
  Qed.
  Lemma trace_ok : forall ops m f, rep m f -> fallows V f ops (vm_trace V place m ops).
  Proof.
    induction ops as [|o r IH]; intros m f R; cbn; auto. destruct (step_ok m f o R) as (f1 & A & B).
    destruct (vm_step V place m o) as [m1 b]. exists f1. split; auto.
  Qed.
  Lemma after_ok : forall ops m f, rep m f -> exists f1, rep (vm_after V place m ops) f1.
  Proof.
    induction ops as [|o r IH]; intros m f R; cbn; eauto. destruct (step_ok m f o R) as (f1 & A & B). eauto.
  Qed.
  Lemma new_rep : rep vm_new (fun _ => None).
  Proof. split; [split; [constructor|reflexivity]|cbn; lia]. Qed.
  Lemma capacity_rep : forall n, rep (vm_with_capacity n) (fun _ => None).
  Proof.
    intros n. unfold vm_with_capacity. destruct (spill_at <? n); (split; [split; [constructor|reflexivity]|cbn; auto; lia]).
  Qed.

  (** *** The statements *)
  Lemma map_refines : forall n ops,
    fallows V (fun _ => None) ops (vm_trace V place vm_new ops) /\
    fallows V (fun _ => None) ops (vm_trace V place (vm_with_capacity n) ops).
  Proof. intros. split; apply trace_ok; [apply new_rep|apply capacity_rep]. Qed.
  Lemma keys_unique : forall n ops,
    NoDup (map fst (vm_entries V (vm_after V place vm_new ops))) /\
    NoDup (map fst (vm_entries V (vm_after V place (vm_with_capacity n) ops))).
  Proof.
    intros n ops. destruct (after_ok ops _ _ new_rep) as (f & [[A _] _]).
    destruct (after_ok ops _ _ (capacity_rep n)) as (g & [[B _] _]). split; auto.
  Qed.
  (** Specification states are determined by the history, so equal histories show equal results, up to
      the order of iteration. *)
  Definition obs_alike (a b : mobs V) : Prop :=
    match a, b with BIter x, BIter y => Permutation x y | _, _ => a = b end.
  Lemma lists_perm : forall f a b, lists V f a -> lists V f b -> Permutation a b.
  Proof.
    intros f a b [Na A] [Nb B]. apply NoDup_Permutation.
    - clear -Na. induction a as [|x a IH]; cbn in *; [constructor|]. inversion Na; subst. constructor; auto.
      intros H. apply H1. now apply in_map.
    - clear -Nb. induction b as [|x a IH]; cbn in *; [constructor|]. inversion Nb; subst. constructor; auto.
      intros H. apply H1. now apply in_map.
    - intros [k v]. now rewrite A, B.
  Qed.
  Lemma step_alike : forall f o b f1 b2 f2, fstep V f o b f1 -> fstep V f o b2 f2 -> obs_alike b b2 /\ same V f1 f2.
  Proof.
    intros f o b f1 b2 f2 A B. destruct o; cbn in *.
    1,2,4,5,6,7,8: destruct A as [-> A], B as [-> B]; split; [cbn; auto|intros x; rewrite A, B; auto].
    - destruct (f k); destruct A as [-> A], B as [-> B]; (split; [cbn; auto|intros x; rewrite A, B; auto]).
    - destruct A as [(la & A1 & ->) A], B as [(lb & B1 & ->) B]. split; [|intros x; rewrite A, B; auto].
      cbn. f_equal. apply Permutation_length. eapply lists_perm; eauto.
    - destruct A as [(la & A1 & ->) A], B as [(lb & B1 & ->) B]. split; [|intros x; rewrite A, B; auto].
      cbn. eapply lists_perm; eauto.
  Qed.
  Lemma allows_alike : forall ops f g bs cs, same V f g -> fallows V f ops bs -> fallows V g ops cs -> Forall2 obs_alike bs cs.
  Proof.
    induction ops as [|o r IH]; intros f g [|b bs] [|c cs] E A B; cbn in *; try contradiction; constructor.
    - destruct A as (f1 & A1 & A2), B as (g1 & B1 & B2). destruct (fstep_same _ _ _ _ _ A1 E) as (f1' & A1' & Sa).
      now destruct (step_alike _ _ _ _ _ _ A1' B1).
    - destruct A as (f1 & A1 & A2), B as (g1 & B1 & B2). destruct (fstep_same _ _ _ _ _ A1 E) as (f1' & A1' & Sa).
      destruct (step_alike _ _ _ _ _ _ A1' B1) as [_ Sb]. eapply IH; [|exact A2|exact B2].
      intros x. now rewrite Sa, Sb.
  Qed.
End Facts.
Lemma representation_invisible : forall V p1 p2 n ops,
  Forall2 (obs_alike V) (vm_trace V p1 vm_new ops) (vm_trace V p2 (vm_with_capacity n) ops).
Proof.
  intros. eapply allows_alike with (f := fun _ => None); [intros ?; reflexivity|apply (map_refines V p1 0)|apply (map_refines V p2 n)].
Qed.
