(** Facts about the types of TypeScript types; used by PropTs.v. *)
From Coq Require Import String ZArith Bool List Arith Lia.
From Verif Require Import Base Dec Value Json VarType TypeSpec TypeFacts TypeMembers Schema SchemaSpec SchemaFacts SchemaFacts5 TsType TsSpec.
Import ListNotations.
Local Open Scope string_scope.
Local Open Scope nat_scope.
Local Open Scope list_scope.

Section Ind.
  Variable P : tstype -> Prop.
  Hypothesis Hleaf : forall t, match t with TsKey _ | TsLit _ | TsOther => True | _ => False end -> P t.
  Hypothesis H1 : forall t u, P t -> u = TsArr t \/ u = TsParen t \/ u = TsOpt t \/ u = TsRest t \/ (exists k, u = TsOp k t) -> P u.
  Hypothesis HL : forall l u, (forall t, In t l -> P t) -> u = TsTuple l \/ u = TsUnion l \/ u = TsInter l \/ (exists n, u = TsRef n l) -> P u.
  Hypothesis HO : forall m, (forall n o t, In (n, (o, t)) m -> P t) -> P (TsObj m).
  Fixpoint ts_ind (t : tstype) : P t.
  Proof.
    assert (L : forall l, (fix go (l : list tstype) : Prop := match l with [] => True | x :: r => P x /\ go r end) l).
    { fix go 1. intros [|x r]; [exact I|]. split; [apply ts_ind|apply go]. }
    assert (LI : forall l : list tstype, (fix go (l : list tstype) : Prop := match l with [] => True | x :: r => P x /\ go r end) l -> forall t, In t l -> P t).
    { clear. induction l as [|x r IH]; intros H t I; [destruct I|]. destruct H as [H1 H2], I as [<-|I]; auto. }
    destruct t as [k|l|t|l|m|l|l|t|t|t|k t|n l|].
    - apply Hleaf; exact I.
    - apply Hleaf; exact I.
    - apply (H1 t); [apply ts_ind|auto].
    - apply (HL l); [apply LI, L|auto].
    - apply HO. clear L LI. revert m. fix go 1. intros [|[n0 [o0 t0]] r] n o t; [intros []|]. intros [E|I]; [injection E as _ _ <-; apply ts_ind|exact (go r n o t I)].
    - apply (HL l); [apply LI, L|auto].
    - apply (HL l); [apply LI, L|auto].
    - apply (H1 t); [apply ts_ind|auto].
    - apply (H1 t); [apply ts_ind|auto].
    - apply (H1 t); [apply ts_ind|auto].
    - apply (H1 t); [apply ts_ind|]. do 4 right. eauto.
    - apply (HL l); [apply LI, L|]. do 3 right. eauto.
    - apply Hleaf; exact I.
  Qed.
End Ind.

(** ** A value of two types is a value of the merged type *)
Lemma fits_both : forall b a v, wft a -> wft b -> fits a v -> fits b v -> fits (mg b a) v.
Proof.
  assert (Lift : forall a b v, (fits (base a) v -> fits (base b) v -> fits (core (base a) (base b)) v) -> fits a v -> fits b v -> fits (mg b a) v).
  { intros a b v H A B. rewrite mg_eq. apply fits_base in A as [[N ->]|A]; [rewrite N; apply wrap_null|]. apply fits_base in B as [[N ->]|B]; [rewrite N, orb_true_r; apply wrap_null|]. apply fits_wrap. auto. }
  assert (Easy : forall A B v, match A, B with KArray _, KArray _ | KObject _, KObject _ => False | _, _ => True end -> fits A v -> fits B v -> fits (core A B) v) by (intros; now apply core_left).
  induction b as [| | | | | | |t IH|w IH|s|nm l|t IH] using vtype_ind'; intros a v Wa Wb; apply Lift; cbn [base]; apply wft_base in Wa.
  1-11: generalize dependent (base a); clear a; intros a Wa A B; destruct a as [| | | | | | |u|m|s1|n1 l1|u]; try (apply Easy; [exact I|exact A|exact B]).
  - apply wft_arr in Wa, Wb. assert (Q : u = KAny \/ t = KAny \/ core (KArray u) (KArray t) = KArray (mg t u)).
    { destruct u; try (left; reflexivity); destruct t; try (right; left; reflexivity); right; right; reflexivity. }
    destruct Q as [-> |[-> |Q]].
    + exact B.
    + destruct u; exact A.
    + rewrite Q. destruct A as [x [-> A]], B as [y [E B]]. injection E as <-. exists x. split; [reflexivity|]. intros z Z. apply IH; [exact Wa|exact Wb|exact (A z Z)|exact (B z Z)].
  - apply wft_obj in Wa, Wb. destruct Wa as [N1 Wa], Wb as [N2 Wb]. rewrite Forall_forall in IH. cbn [core]. unfold fits in A, B |- *.
    rewrite member_obj in A, B by assumption. rewrite member_obj by (now apply mobj_keys). destruct A as [o [-> [_ A]]], B as [o1 [E [_ B]]]. injection E as <-. exists o. split; [reflexivity|]. split; [discriminate|].
    intros k T G. rewrite mobj_get in G by exact N2. destruct (aget k m) as [X|] eqn:EX, (aget k w) as [Y|] eqn:EY; injection G as <- || discriminate G.
    + specialize (A k X EX). specialize (B k Y EY). destruct (aget k o) as [x|]; [|intros _; specialize (A eq_refl); specialize (B eq_refl)]; apply (IH (k, Y) (aget_Some_in _ _ _ EY)); cbn [snd]; eauto.
    + exact (A k X EX).
    + exact (B k Y EY).
  - apply wft_null in Wb. generalize dependent (base a). clear a. intros a Wa A B. destruct (nullable a || nullable t) eqn:E.
    + destruct a, t; try discriminate E; try exact I; try (apply Easy; [exact I|exact A|exact B]).
    + apply orb_false_iff in E. destruct E as [E1 E2]. rewrite <- (mg_plain t a E1 E2). now apply IH.
Qed.
Lemma fold_both : forall l a v, wft a -> (forall t, In t l -> wft t) -> fits a v -> (forall t, In t l -> fits t v) -> fits (fold_left merge l a) v.
Proof.
  induction l as [|b l IH]; intros a v Wa W A B; [exact A|]. cbn [fold_left]. apply IH.
  - apply wft_mg; [apply W; now left|exact Wa].
  - intros t I. apply W. now right.
  - apply fits_both; auto; [apply W|apply B]; now left.
  - intros t I. apply B. now right.
Qed.

(** ** Fields *)
Lemma fields_get : forall m acc f, ts_fields m acc = Some f -> forall n T, In (n, T) f -> In (n, T) acc \/ exists opt t, In (Some n, (opt, t)) m /\ T = if opt then wrap_optional t else t.
Proof.
  induction m as [|[[n0|] [opt t]] r IH]; intros acc f E n T I; cbn in E; [injection E as <-; auto| |discriminate].
  destruct (IH _ _ E n T I) as [H|(o & u & H & ->)].
  - apply aset_mem in H as [H|H]; [|auto]. injection H as -> ->. right. exists opt, t. split; [now left|reflexivity].
  - right. exists o, u. split; [now right|reflexivity].
Qed.
Lemma fields_once : forall m acc f, ts_fields m acc = Some f -> NoDup (map fst acc) -> NoDup (map fst f).
Proof.
  induction m as [|[[n0|] [opt t]] r IH]; intros acc f E N; cbn in E; [injection E as <-; auto| |discriminate]. eapply IH; [exact E|]. now apply aset_nodup.
Qed.
Lemma convert_wft : forall t, wft (convert t).
Proof.
  assert (L : forall t, match t with KArray _ | KObject _ | KNullable _ => False | _ => True end -> wft t) by exact WLeaf.
  induction t as [t H|t u IH H|l u IH H|m IH] using ts_ind.
  - destruct t; try contradiction; [destruct k|destruct l|]; apply L; exact I.
  - destruct H as [->|[->|[->|[->|[k ->]]]]]; cbn [convert]; auto; [now apply WArray|now apply WNullable].
  - assert (R : wft (reduce (map convert l))) by (apply wft_reduce; intros t I; apply in_map_iff in I as (x & <- & I); auto).
    destruct H as [->|[->|[->|[n ->]]]]; cbn [convert]; auto; [now apply WArray|].
    assert (F : wft (match map convert l with t :: _ => t | [] => KAny end)) by (destruct l as [|x l]; [apply L; exact I|apply IH; now left]).
    destruct (String.eqb n "Array" || String.eqb n "ReadonlyArray"); [now apply WArray|]. destruct (_ || _ || _); [exact F|]. destruct (String.eqb n "Date"); apply L; exact I.
  - cbn [convert]. destruct (ts_fields _ []) as [f|] eqn:E; [|apply L; exact I]. apply WObject; [eapply fields_once; [exact E|constructor]|].
    intros k t G. apply aget_Some_in in G. destruct (fields_get _ _ _ E k t G) as [[]|(opt & u & I1 & ->)]. apply in_map_iff in I1 as ([n [o x]] & E1 & I1). injection E1 as _ _ <-. cbn [snd].
    assert (W : wft (convert x)) by (eapply IH; eauto). destruct opt; [now apply wft_optional|exact W].
Qed.

(** ** Soundness *)
Lemma part_trans : forall x y z, part x y -> part y z -> part x z.
Proof.
  intros x y z A B. induction B as [|y t u B IH E|y t l u B IH I1 E|y n opt t m B IH I1]; auto.
  - exact (PIn1 x t u (IH A) E).
  - exact (PInL x t l u (IH A) I1 E).
  - exact (PInO x n opt t m (IH A) I1).
Qed.
Lemma sensible_part : forall x t, part x t -> sensible t -> sensible x.
Proof.
  intros x t Pt (A & B & C). split; [|split].
  - intros u H. apply (A u). eapply part_trans; eauto.
  - intros u H. apply (B u). eapply part_trans; eauto.
  - intros l u i k a b H. apply C. eapply part_trans; eauto.
Qed.
Lemma apart_list : forall l u, sensible u -> u = TsUnion l \/ u = TsTuple l -> pairwise (map convert l).
Proof.
  intros l u (_ & _ & C) E. apply pairwise_nth. intros i k a b N Ea Eb. rewrite nth_error_map in Ea, Eb. destruct (nth_error l i) as [x|] eqn:Ex; [|discriminate]. destruct (nth_error l k) as [y|] eqn:Ey; [|discriminate].
  injection Ea as <-. injection Eb as <-. destruct (C l u i k x y (PHere u) E N Ex Ey). now apply apart_of.
Qed.
Lemma convert_fits : forall t, sensible t -> forall x, has t x -> fits (convert t) x.
Proof.
  induction t as [t H|t u IH H|l u IH H|m IH] using ts_ind; intros S x V.
  - inversion V; subst; try contradiction; cbn; eauto.
    + destruct H0 as [-> | ->]; cbn; eauto.
    + destruct H0 as [-> |[-> | ->]]; cbn; eauto.
  - assert (St : sensible t) by (apply (sensible_part t u); [eapply PIn1; [constructor|exact H]|exact S]).
    destruct H as [->|[->|[->|[->|[k ->]]]]]; cbn [convert].
    + inversion V; subst. eexists. split; [reflexivity|]. intros y Iy. apply IH; auto.
    + inversion V; subst. auto.
    + inversion V as [| | | | | | | | | | | | | | | |? ? Hx| | | | | | |]; subst. destruct Hx as [->|Hx]; [now left|right; now apply IH].
    + exfalso. destruct S as [A _]. apply (A t). constructor.
    + destruct k; [exfalso; destruct S as (_ & B & _); apply (B t); constructor|]. inversion V; subst. auto.
  - assert (Sl : forall t, In t l -> sensible t) by (intros t I1; apply (sensible_part t u); [eapply PInL; [constructor|exact I1|exact H]|exact S]).
    destruct H as [->|[->|[->|[n ->]]]]; cbn [convert].
    + inversion V as [| | | | | | | | | | |ts vs Hx| | | | | | | | | | | |]; subst. exists vs. split; [reflexivity|]. intros y Iy. destruct (Hx y Iy) as (t & It & [Ht|(w & vs1 & -> & _)]).
      * apply reduce_fits; [eapply apart_list; eauto|]. exists (convert t). split; [now apply in_map|]. now apply IH; auto.
      * exfalso. destruct (Sl _ It) as [A _]. apply (A w). constructor.
    + inversion V; subst. apply reduce_fits; [eapply apart_list; eauto|]. exists (convert t). split; [now apply in_map|]. apply IH; auto.
    + inversion V as [| | | | | | | | | | | | | |ts y Hx| | | | | | | | |]; subst. destruct l as [|a l]; [exact I|]. cbn [map reduce]. apply fold_both.
      * apply convert_wft.
      * intros t I1. apply in_map_iff in I1 as (z & <- & _). apply convert_wft.
      * apply IH; [now left|apply Sl; now left|apply Hx; now left].
      * intros t I1. apply in_map_iff in I1 as (z & <- & Iz). apply IH; [now right|apply Sl; now right|apply Hx; now right].
    + inversion V as [| | | | | | | | | | | | | | | | | | |nm t r vs Hn Hx|nm t r y Hn Hx|r d|nm r y Hn|]; subst.
      * assert (E : String.eqb n "Array" || String.eqb n "ReadonlyArray" = true) by (destruct Hn as [-> | ->]; reflexivity). rewrite E. cbn [map]. exists vs. split; [reflexivity|]. intros y Iy. apply IH; [now left|apply Sl; now left|auto].
      * assert (E : String.eqb n "Array" || String.eqb n "ReadonlyArray" = false) by (destruct Hn as [-> |[-> | ->]]; reflexivity). rewrite E.
        assert (E1 : String.eqb n "Promise" || String.eqb n "Awaited" || String.eqb n "Readonly" = true) by (destruct Hn as [-> |[-> | ->]]; reflexivity). rewrite E1. cbn [map]. apply IH; [now left|apply Sl; now left|auto].
      * cbn. eauto.
      * cbn in Hn. destruct (String.eqb n "Array") eqn:E1; [apply String.eqb_eq in E1; subst; tauto|]. destruct (String.eqb n "ReadonlyArray") eqn:E2; [apply String.eqb_eq in E2; subst; tauto|].
        destruct (String.eqb n "Promise") eqn:E3; [apply String.eqb_eq in E3; subst; tauto|]. destruct (String.eqb n "Awaited") eqn:E4; [apply String.eqb_eq in E4; subst; tauto|]. destruct (String.eqb n "Readonly") eqn:E5; [apply String.eqb_eq in E5; subst; tauto|].
        destruct (String.eqb n "Date") eqn:E6; [apply String.eqb_eq in E6; subst; tauto|]. exact I.
  - cbn [convert]. destruct (ts_fields _ []) as [f|] eqn:E; [|exact I]. inversion V as [| | | | | | | | | | | |m0 o Hx| | | | | | | | | | |]; subst.
    apply member_obj; [eapply fields_once; [exact E|constructor]|]. exists o. split; [reflexivity|]. split; [discriminate|]. intros k T G. apply aget_Some_in in G.
    destruct (fields_get _ _ _ E k T G) as [[]|(opt & u & I1 & ->)]. apply in_map_iff in I1 as ([n [o1 y]] & E1 & I1). cbn [fst snd] in E1. injection E1 as -> -> <-.
    assert (Sy : sensible y) by (apply (sensible_part y (TsObj m)); [eapply PInO; [constructor|exact I1]|exact S]). destruct (Hx _ _ _ I1) as [Hm Hv].
    destruct (aget k o) as [z|] eqn:Go.
    + destruct (Hv z eq_refl) as [Hz|[-> ->]]; [|apply optional_fits; now right]. assert (F : fits (convert y) z) by (eapply IH; eauto). destruct opt; [apply optional_fits; now left|exact F].
    + intros _. destruct opt; [apply optional_fits; now right|]. eapply IH; eauto.
Qed.
