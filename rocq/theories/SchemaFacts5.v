(** The types of schemas have no "nullable null"; used by PropSchema.v. *)
From Coq Require Import String Ascii ZArith Bool List Arith Lia.
From Verif Require Import Base Value Json VarType TypeSpec TypeFacts Schema SchemaSpec SchemaFacts SchemaFacts2.
Import ListNotations.
Local Open Scope string_scope.
Local Open Scope nat_scope.
Local Open Scope list_scope.

Lemma aset_mem : forall V k (v : V) m x, In x (aset k v m) -> x = (k, v) \/ In x m.
Proof.
  induction m as [|[k1 v1] m IH]; intros x; cbn.
  - intros [H|[]]; auto.
  - destruct (String.eqb k1 k) eqn:E; cbn.
    + apply String.eqb_eq in E. subst. intros [H|H]; auto.
    + intros [H|H]; auto. destruct (IH _ H); auto.
Qed.
Lemma prop_mem : forall m k t, proper (KObject m) -> In (k, t) m -> proper t.
Proof. intros m k t P. inversion P as [? H| |? H|]; subst; [contradiction|]. apply H. Qed.
Lemma prop_wrap : forall f t, proper t -> proper (wrap f t).
Proof. intros f t P. unfold wrap. destruct f; [|exact P]. cbn [andb]. destruct t; cbn [negb]; try exact P; apply PNullable; first [exact P|exact I]. Qed.
Lemma prop_mobj : forall o2 o1, (forall k t, In (k, t) o1 -> proper t) -> (forall k t, In (k, t) o2 -> proper t /\ forall l, proper l -> proper (mg t l)) ->
  forall k t, In (k, t) (mobj o2 o1) -> proper t.
Proof.
  unfold mobj. induction o2 as [|[k1 v] r IH]; intros o1 A B; [exact A|]. apply IH.
  - intros k t H. apply aset_mem in H as [H|H]; [|eauto]. injection H as -> ->. destruct (B k1 v (or_introl eq_refl)) as [Pv Pm]. destruct (aget k1 o1) as [c|] eqn:E; [|exact Pv]. apply Pm. apply (A k1). now apply aget_Some_in.
  - intros k t H. apply (B k). now right.
Qed.
Lemma prop_mg : forall r l, proper r -> proper l -> proper (mg r l).
Proof.
  assert (L : forall t, match t with KArray _ | KObject _ | KNullable _ => False | _ => True end -> proper t) by exact PLeaf.
  induction r as [| | | | | | |t IH|m IH|s|n l0|t IH] using vtype_ind'; intros l R W; rewrite mg_eq; apply prop_wrap; apply prop_base in W; destruct W as [W Wn]; cbn [base].
  1-11: try (generalize dependent (base l); clear l; intros l W Wn; destruct l as [| | | | | | |u|w|s1|n1 l1|u]; try discriminate Wn; cbn [core]; first [apply L; exact I | apply PNullable; [first [assumption | apply L; exact I]|exact I] |
    destruct (String.eqb _ _); apply L; exact I | idtac]).
  - apply prop_arr in W. apply prop_arr in R. destruct u; try (apply PArray; first [exact W | exact R]); destruct t; apply PArray; first [exact W | apply IH; assumption].
  - apply PObject. rewrite Forall_forall in IH. apply prop_mobj.
    + intros k t H. eapply prop_mem; eauto.
    + intros k t H. assert (Pt : proper t) by (exact (prop_mem m k t R H)). split; [exact Pt|]. intros l Pl. exact (IH (k, t) H l Pt Pl).
  - apply prop_null in R as [R Rn]. generalize dependent (base l). clear l. intros l W Wn.
    assert (E2 : nullable t = false) by (destruct t; auto; contradiction). rewrite <- (mg_plain t l Wn E2). now apply IH.
Qed.
Lemma prop_optional : forall t, proper t -> proper (wrap_optional t).
Proof. intros t P. destruct t; cbn; try exact P; apply PNullable; first [exact P|exact I]. Qed.
Lemma prop_reduce : forall l, (forall t, In t l -> proper t) -> proper (reduce l).
Proof.
  intros [|a l] H; [apply PLeaf; exact I|]. cbn [reduce]. assert (A : proper a) by (apply H; now left). assert (B : forall t, In t l -> proper t) by (intros; apply H; now right). clear H. revert a A.
  induction l as [|b l IH]; intros a A; [exact A|]. cbn [fold_left]. apply IH; [intros; apply B; now right|]. apply prop_mg; [|exact A]. apply B. now left.
Qed.
Lemma prop_typed : forall m it pr k, proper it -> (forall p n t, pr = Some p -> In (n, t) p -> proper t) -> proper (typed m it pr k).
Proof.
  intros m it pr k Pi Pp. unfold typed. destruct (String.eqb k "object").
  { destruct pr as [p|]; [|apply PLeaf; exact I]. apply PObject. intros n t H. apply in_map_iff in H as ([n1 t1] & E & H). injection E as <- <-. cbn [fst snd].
    assert (P : proper t1) by (eapply Pp; eauto). destruct (contains (required m) n1); [exact P|now apply prop_optional]. }
  destruct (String.eqb k "array"); [now apply PArray|].
  repeat match goal with |- context [if ?b then _ else _] => destruct b | |- context [match get_str ?a ?b with _ => _ end] => destruct (get_str a b) end; apply PLeaf; exact I.
Qed.
Lemma ty_proper : forall dicts, (forall name T, dicts name = Some T -> proper T) -> forall j,
  proper (ty dicts j) /\ match j with JArr l => forall c, In c l -> proper (ty dicts c) | JObj m => forall k s, In (k, s) m -> proper (ty dicts s) | _ => True end.
Proof.
  intros dicts Hd. induction j as [| | | |l IH|m IH] using json_ind'; try (split; [apply PLeaf; exact I|exact I]).
  - split; [apply PLeaf; exact I|]. rewrite Forall_forall in IH. intros c Ic. apply (IH c Ic).
  - rewrite Forall_forall in IH. split; [|intros k s Ic; apply (IH (k, s) Ic)]. rewrite ty_obj.
    destruct (get_str "$dictionary" m) as [name|]. { destruct (dicts name) eqn:E; [eauto|apply PLeaf; exact I]. }
    destruct (get_arr (case_key m) m) as [l|] eqn:Ec.
    { apply get_arr_some in Ec. apply prop_reduce. intros t H. apply in_map_iff in H as (c & <- & Ic). pose proof (IH _ (aget_Some_in _ _ _ Ec)) as [_ Hc]. cbn in Hc. auto. }
    destruct (enum_of m); [apply PLeaf; exact I|].
    assert (Pt : forall k, proper (typed m (items_of dicts m) (props_of dicts m) k)).
    { intros k. apply prop_typed.
      - unfold items_of. destruct (aget "items" m) as [s|] eqn:G; [|apply PLeaf; exact I]. apply (IH _ (aget_Some_in _ _ _ G)).
      - unfold props_of. intros p n t E H. destruct (aget "properties" m) as [[| | | | |p1]|] eqn:G; try discriminate. injection E as <-. apply in_map_iff in H as ([n1 s] & E & H). injection E as <- <-.
        pose proof (IH _ (aget_Some_in _ _ _ G)) as [_ Hc]. cbn in Hc. exact (Hc _ _ H). }
    destruct (aget "type" m) as [[| | |kind|kinds|]|]; try (apply PLeaf; exact I); [apply Pt|]. apply prop_reduce. intros t H. apply in_map_iff in H as (k & <- & _). apply Pt.
Qed.

(** ** Keys are listed once *)
Lemma wft_distinct : forall t, wft t -> distinct t.
Proof.
  intros t W p. revert t W. induction p as [|[|k] p IH]; intros t W m H; cbn in H.
  - assert (B : wft (bare t)) by (clear H; induction W; cbn; auto; [apply WLeaf; destruct t; try exact H; contradiction|now apply WArray|now apply WObject]). injection H as E. rewrite E in B. now apply wft_obj in B.
  - assert (B : wft (bare t)) by (clear H; induction W; cbn; auto; [apply WLeaf; destruct t; try exact H; contradiction|now apply WArray|now apply WObject]). destruct (bare t); try discriminate. apply wft_arr in B. eauto.
  - assert (B : wft (bare t)) by (clear H; induction W; cbn; auto; [apply WLeaf; destruct t; try exact H; contradiction|now apply WArray|now apply WObject]). destruct (bare t); try discriminate. apply wft_obj in B as [_ B]. destruct (aget k m0) as [x|] eqn:G; [|discriminate]. eauto.
Qed.
Lemma wft_optional : forall t, wft t -> wft (wrap_optional t).
Proof. intros t P. destruct t; cbn; try exact P; apply WNullable; exact P. Qed.
Lemma wft_reduce : forall l, (forall t, In t l -> wft t) -> wft (reduce l).
Proof.
  intros [|a l] H; [apply WLeaf; exact I|]. cbn [reduce]. assert (A : wft a) by (apply H; now left). assert (B : forall t, In t l -> wft t) by (intros; apply H; now right). clear H. revert a A.
  induction l as [|b l IH]; intros a A; [exact A|]. cbn [fold_left]. apply IH; [intros; apply B; now right|]. apply wft_mg; [|exact A]. apply B. now left.
Qed.
Lemma wft_typed : forall m it pr k, wft it -> (forall p, pr = Some p -> NoDup (map fst p) /\ forall n t, In (n, t) p -> wft t) -> wft (typed m it pr k).
Proof.
  intros m it pr k Pi Pp. unfold typed. destruct (String.eqb k "object").
  { destruct pr as [p|]; [|apply WLeaf; exact I]. destruct (Pp p eq_refl) as [N P]. apply WObject; [rewrite map_map; exact N|]. intros n t G. apply aget_Some_in in G. apply in_map_iff in G as ([n1 t1] & E & H). injection E as <- <-. cbn [fst snd].
    assert (Q : wft t1) by (eapply P; eauto). destruct (contains (required m) n1); [exact Q|now apply wft_optional]. }
  destruct (String.eqb k "array"); [now apply WArray|].
  repeat match goal with |- context [if ?b then _ else _] => destruct b | |- context [match get_str ?a ?b with _ => _ end] => destruct (get_str a b) end; apply WLeaf; exact I.
Qed.
Lemma ty_wft : forall dicts, (forall name T, dicts name = Some T -> wft T) -> forall j, wf_json j ->
  wft (ty dicts j) /\ match j with JArr l => forall c, In c l -> wft (ty dicts c) | JObj m => forall k s, In (k, s) m -> wft (ty dicts s) | _ => True end.
Proof.
  intros dicts Hd. induction j as [| | | |l IH|m IH] using json_ind'; intros W; try (split; [apply WLeaf; exact I|exact I]).
  - pose proof (ConvertFacts.wf_parts _ W) as Wl. cbn in Wl. split; [apply WLeaf; exact I|]. rewrite Forall_forall in IH. intros c Ic. apply (IH c Ic). auto.
  - apply ConvertFacts.wf_parts in W as [Nm W]. rewrite Forall_forall in IH. split; [|intros k s Ic; apply (IH (k, s) Ic); cbn; eauto]. rewrite ty_obj.
    destruct (get_str "$dictionary" m) as [name|]. { destruct (dicts name) eqn:E; [eauto|apply WLeaf; exact I]. }
    destruct (get_arr (case_key m) m) as [l|] eqn:Ec.
    { apply get_arr_some in Ec. apply wft_reduce. intros t H. apply in_map_iff in H as (c & <- & Ic). pose proof (aget_Some_in _ _ _ Ec) as Ig. destruct (IH _ Ig (W _ _ Ig)) as [_ Hc]. cbn in Hc. auto. }
    destruct (enum_of m); [apply WLeaf; exact I|].
    assert (Pt : forall k, wft (typed m (items_of dicts m) (props_of dicts m) k)).
    { intros k. apply wft_typed.
      - unfold items_of. destruct (aget "items" m) as [s|] eqn:G; [|apply WLeaf; exact I]. pose proof (aget_Some_in _ _ _ G) as Ig. apply (IH _ Ig (W _ _ Ig)).
      - unfold props_of. intros p E. destruct (aget "properties" m) as [[| | | | |p1]|] eqn:G; try discriminate. injection E as <-. pose proof (aget_Some_in _ _ _ G) as Ig. pose proof (W _ _ Ig) as Wp. destruct (IH _ Ig Wp) as [_ Hc]. cbn in Hc.
        apply ConvertFacts.wf_parts in Wp as [Np _]. split; [rewrite map_map; exact Np|]. intros n t H. apply in_map_iff in H as ([n1 s] & E & H). injection E as <- <-. exact (Hc _ _ H). }
    destruct (aget "type" m) as [[| | |kind|kinds|]|]; try (apply WLeaf; exact I); [apply Pt|]. apply wft_reduce. intros t H. apply in_map_iff in H as (k & <- & _). apply Pt.
Qed.
