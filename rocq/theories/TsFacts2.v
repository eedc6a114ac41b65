(** Where the conversion of a TypeScript type loses nothing; used by PropTs.v. *)
From Coq Require Import String ZArith Bool List Arith Lia.
From Verif Require Import Base Dec Value Json VarType TypeSpec TypeFacts TypeMembers Schema SchemaSpec SchemaFacts SchemaFacts4 SchemaFacts5 TsType TsSpec TsFacts.
Import ListNotations.
Local Open Scope string_scope.
Local Open Scope nat_scope.
Local Open Scope list_scope.

Lemma consts_fit : forall l T x, match T with KConst _ | KEnum _ _ => True | _ => False end -> (fits (fold_left merge (map KConst l) T) x <-> fits T x \/ exists s, In s l /\ x = TStr s).
Proof.
  induction l as [|b l IH]; intros T x H; cbn [map fold_left]; [split; [auto|intros [H1|(s & [] & _)]; exact H1]|].
  assert (E : match merge T (KConst b) with KConst _ | KEnum _ _ => True | _ => False end /\ (fits (merge T (KConst b)) x <-> fits T x \/ x = TStr b)).
  { destruct T; try contradiction; unfold merge; rewrite mg_eq; cbn [base core nullable orb wrap andb].
    - destruct (String.eqb s b) eqn:E; unfold wrap; cbn.
      + apply String.eqb_eq in E. subst. split; [exact I|]. tauto.
      + split; [exact I|]. split; [intros (z & -> & [<-|[<-|[]]]); auto|intros [-> | ->]; eauto].
    - unfold wrap. cbn. split; [exact I|]. split.
      + intros (z & -> & Hz). apply push_in in Hz as [Hz| ->]; eauto.
      + intros [(z & -> & Hz)| ->]; eexists; (split; [reflexivity|]); apply push_in; auto. }
  destruct E as [E1 E2]. rewrite IH by exact E1. rewrite E2. split.
  - intros [[A|A]|(s & A & B)]; [auto|right; exists b; split; [now left|exact A]|right; exists s; split; [now right|exact B]].
  - intros [A|(s & [<-|A] & B)]; [auto|auto|right; eauto].
Qed.
Lemma fields_keep : forall m acc f n, ts_fields m acc = Some f -> ~ In (Some n) (map fst m) -> aget n f = aget n acc.
Proof.
  induction m as [|[[n0|] [opt t]] r IH]; intros acc f n E N; cbn in E; [now injection E as <-| |discriminate].
  cbn in N. rewrite (IH _ _ n E) by tauto. apply aget_aset_ne. intros ->. apply N. now left.
Qed.
Lemma fields_mem : forall m acc f n opt t, ts_fields m acc = Some f -> NoDup (map fst m) -> In (Some n, (opt, t)) m -> aget n f = Some (if opt then wrap_optional t else t).
Proof.
  induction m as [|[[n0|] [o u]] r IH]; intros acc f n opt t E N H; [destruct H| |discriminate]. cbn in E. inversion N as [|? ? N1 N2]; subst. destruct H as [H|H]; [|eapply IH; eauto].
  injection H as -> -> ->. rewrite (fields_keep _ _ _ n E N1). apply aget_aset_eq.
Qed.
Lemma fields_some : forall m acc, (forall n o t, In (n, (o, t)) m -> n <> None) -> exists f, ts_fields m acc = Some f.
Proof.
  induction m as [|[[n0|] [o u]] r IH]; intros acc H; cbn; [eauto| |exfalso; apply (H None o u); [now left|reflexivity]]. apply IH. intros n o1 t I. apply (H n o1 t). now right.
Qed.
Lemma optional_only : forall T x, fits (wrap_optional T) x -> fits T x \/ x = TNull.
Proof. intros T x H. destruct T; cbn in *; auto; destruct H as [H|H]; auto. Qed.
Lemma tight_exact : forall t, tight t -> forall x, has t x <-> fits (convert t) x.
Proof.
  induction 1 as [k Ik|a l|l Hl|t _ IH|m N Hm _ IH|t k _ IH Hn Hk|t _ IH|t _ IH|t _ IH|name t In1 _ IH|r|]; intros x.
  - cbn in Ik. destruct Ik as [<-|[<-|[<-|[<-|[<-|[<-|[<-|[<-|[]]]]]]]]]; cbn; (split; [intros V; inversion V; subst; eauto|intros V]).
    all: try match goal with K : _ \/ _ |- exists _, _ => exfalso; clear - K; intuition discriminate | K : _ \/ _ |- _ = TNull => exfalso; clear - K; intuition discriminate end.
    + destruct V as [z ->]. apply HNumber. now left.
    + destruct V as [z ->]. apply HNumber. now right.
    + destruct V as [z ->]. apply HString.
    + destruct V as [z ->]. apply HBool.
    + subst. apply HNull. auto.
    + subst. apply HNull. auto.
    + subst. apply HNull. auto.
    + apply HKeyAny.
  - cbn [convert map reduce ts_literal]. rewrite map_map. cbn [convert ts_literal]. rewrite consts_fit by exact I. split.
    + intros V. inversion V as [| | | | | | | | | | | | |ts t y It Ht| | | | | | | | | |]; subst. destruct It as [<-|It]; [inversion Ht; subst; now left|]. apply in_map_iff in It as (s & <- & Is). inversion Ht; subst. right. eauto.
    + intros [V|(s & Is & ->)].
      * cbn in V. subst. eapply HUnion; [left; reflexivity|constructor].
      * eapply HUnion; [right; apply in_map_iff; exists s; split; [reflexivity|exact Is]|constructor].
  - destruct l; try contradiction; cbn; (split; [intros V; inversion V; subst; eauto|intros V; first [subst; constructor|destruct V as [z ->]; constructor]]).
  - cbn [convert]. split.
    + intros V. inversion V; subst. eexists. split; [reflexivity|]. intros y Iy. apply IH. auto.
    + intros (l & -> & Hl). constructor. intros y Iy. apply IH. exact (Hl y Iy).
  - set (m1 := map (fun e : option string * (bool * tstype) => (fst e, (fst (snd e), convert (snd (snd e))))) m).
    assert (Hs : forall n o t, In (n, (o, t)) m1 -> n <> None).
    { intros n o t I1. unfold m1 in I1. apply in_map_iff in I1 as ([n1 [o1 t1]] & E & I1). injection E as <- <- <-. eapply Hm; eauto. }
    destruct (fields_some m1 [] Hs) as [f E]. assert (N1 : NoDup (map fst m1)) by (unfold m1; rewrite map_map; exact N).
    cbn [convert]. fold m1. rewrite E. unfold fits. rewrite member_obj by (eapply fields_once; [exact E|constructor]). split.
    + intros V. inversion V as [| | | | | | | | | | | |m0 o Hx| | | | | | | | | | |]; subst. exists o. split; [reflexivity|]. split; [discriminate|]. intros k T G. apply aget_Some_in in G.
      destruct (fields_get _ _ _ E k T G) as [[]|(opt & u & I1 & ->)]. unfold m1 in I1. apply in_map_iff in I1 as ([n [o1 y]] & E1 & I1). cbn [fst snd] in E1. injection E1 as -> -> <-. destruct (Hx _ _ _ I1) as [Hu Hv].
      destruct (aget k o) as [z|] eqn:Go.
      * destruct (Hv z eq_refl) as [Hz|[-> ->]]; [|apply optional_fits; now right]. assert (F : fits (convert y) z) by (eapply IH; eauto). destruct opt; [apply optional_fits; now left|exact F].
      * intros _. destruct opt; [apply optional_fits; now right|]. eapply IH; eauto.
    + intros (o & -> & _ & Hk). constructor. intros n opt t I1. assert (G : aget n f = Some (if opt then wrap_optional (convert t) else convert t)).
      { apply (fields_mem m1 [] f n opt (convert t) E N1). unfold m1. apply in_map_iff. exists (Some n, (opt, t)). auto. }
      specialize (Hk _ _ G). split.
      * intros -> Go. rewrite Go in Hk. eapply IH; [exact I1|]. exact (Hk eq_refl).
      * intros z Go. rewrite Go in Hk. destruct opt; [|left; eapply IH; [exact I1|exact Hk]]. apply optional_only in Hk as [Hk| ->]; [left; eapply IH; [exact I1|exact Hk]|right; auto].
  - assert (E : convert (TsUnion [t; TsKey k]) = KNullable (convert t)).
    { cbn [convert map reduce fold_left]. unfold merge. assert (Ek : keyword k = KNull) by (destruct Hk as [-> | ->]; reflexivity). rewrite Ek. apply mg_null. rewrite <- IH. exact Hn. }
    rewrite E. split.
    + intros V. inversion V as [| | | | | | | | | | | | |ts u y It Ht| | | | | | | | | |]; subst. destruct It as [<-|[<-|[]]]; [right; now apply IH|]. left. destruct Hk as [-> | ->]; inversion Ht; subst; auto; match goal with K : _ \/ _ |- _ => exfalso; clear - K; intuition discriminate end.
    + intros [->|V]; [eapply HUnion; [right; left; reflexivity|]; constructor; destruct Hk; auto|]. eapply HUnion; [left; reflexivity|]. now apply IH.
  - cbn [convert]. rewrite <- IH. split; [intros V; inversion V; subst; auto|now constructor].
  - cbn [convert]. split.
    + intros V. inversion V as [| | | | | | | | | | | | | | | |? ? Hx| | | | | | |]; subst. destruct Hx as [->|Hx]; [now left|right; now apply IH].
    + intros [->|V]; constructor; [now left|right; now apply IH].
  - cbn [convert]. rewrite <- IH. split; [intros V; inversion V; subst; auto|now constructor].
  - cbn [convert map]. cbn in In1.
    assert (Arr : name = "Array" \/ name = "ReadonlyArray" -> (has (TsRef name [t]) x <-> fits (KArray (convert t)) x)).
    { intros Hn. split.
      - intros V. inversion V as [| | | | | | | | | | | | | | | | | | |nm u r vs Hn1 Hx|nm u r y Hn1 Hx|r d|nm r y Hn1|]; subst.
        + exists vs. split; [reflexivity|]. intros y Iy. apply IH. auto.
        + destruct Hn as [-> | ->]; destruct Hn1 as [Q|[Q|Q]]; discriminate.
        + destruct Hn; discriminate.
        + exfalso. apply Hn1. cbn. destruct Hn; auto.
      - intros (l & -> & Hl). constructor; [exact Hn|]. intros y Iy. apply IH. exact (Hl y Iy). }
    assert (Same : name = "Promise" \/ name = "Awaited" \/ name = "Readonly" -> (has (TsRef name [t]) x <-> fits (convert t) x)).
    { intros Hn. rewrite <- IH. split.
      - intros V. inversion V as [| | | | | | | | | | | | | | | | | | |nm u r vs Hn1 Hx|nm u r y Hn1 Hx|r d|nm r y Hn1|]; subst.
        + destruct Hn as [-> |[-> | ->]]; destruct Hn1 as [Q|Q]; discriminate.
        + exact Hx.
        + destruct Hn as [Q|[Q|Q]]; discriminate.
        + exfalso. apply Hn1. cbn. destruct Hn as [Q|[Q|Q]]; auto 6.
      - intros V. now constructor. }
    destruct In1 as [<-|[<-|[<-|[<-|[<-|[]]]]]]; cbn [String.eqb Ascii.eqb Bool.eqb orb]; [apply Arr|apply Arr|apply Same|apply Same|apply Same]; auto.
  - cbn. split; [|intros [d ->]; constructor]. intros V. inversion V as [| | | | | | | | | | | | | | | | | | |nm u r1 vs Hn1 Hx|nm u r1 y Hn1 Hx|r1 d|nm r1 y Hn1|]; subst; eauto.
    + destruct Hn1; discriminate.
    + destruct Hn1 as [Q|[Q|Q]]; discriminate.
    + exfalso. apply Hn1. cbn. auto 8.
  - cbn. split; [auto|constructor].
Qed.
Lemma objs_apart : forall f g x, NoDup (map fst f) -> NoDup (map fst g) -> (forall k, In k (map fst f) -> ~ In k (map fst g)) ->
  (fits (KObject (mobj g f)) x <-> fits (KObject f) x /\ fits (KObject g) x).
Proof.
  intros f g x Nf Ng D. unfold fits. rewrite !member_obj by (first [assumption|now apply mobj_keys]). split.
  - intros (o & -> & _ & H). split; exists o; (split; [reflexivity|]); (split; [discriminate|]); intros k T G; apply H; rewrite mobj_get by exact Ng.
    + rewrite G. destruct (aget k g) eqn:E; [|reflexivity]. exfalso. apply (D k); apply TypeFacts.in_get; eauto.
    + destruct (aget k f) eqn:E; [|exact G]. exfalso. apply (D k); apply TypeFacts.in_get; eauto.
  - intros [(o & -> & _ & A) (o1 & E & _ & B)]. injection E as <-. exists o. split; [reflexivity|]. split; [discriminate|]. intros k T G. rewrite mobj_get in G by exact Ng.
    destruct (aget k f) as [X|] eqn:EX, (aget k g) as [Y|] eqn:EY; try (injection G as <-); [exfalso; apply (D k); apply TypeFacts.in_get; eauto|exact (A _ _ EX)|exact (B _ _ EY)|discriminate].
Qed.
Lemma obj_fields : forall m, tight (TsObj m) -> exists f, convert (TsObj m) = KObject f /\ NoDup (map fst f) /\ forall k, In k (map fst f) -> In (Some k) (map fst m).
Proof.
  intros m T. inversion T as [| | | |m0 N Hm _| | | | | | |]; subst. cbn [convert]. set (m1 := map (fun e : option string * (bool * tstype) => (fst e, (fst (snd e), convert (snd (snd e))))) m).
  assert (Hs : forall n o t, In (n, (o, t)) m1 -> n <> None).
  { intros n o t I1. unfold m1 in I1. apply in_map_iff in I1 as ([n1 [o1 t1]] & E & I1). injection E as <- <- <-. eapply Hm; eauto. }
  destruct (fields_some m1 [] Hs) as [f E]. rewrite E. exists f. split; [reflexivity|]. split; [eapply fields_once; [exact E|constructor]|].
  intros k Ik. apply in_map_iff in Ik as ([k1 T1] & Ek & Ik). cbn in Ek. subst. destruct (fields_get _ _ _ E k T1 Ik) as [[]|(opt & u & I1 & _)]. unfold m1 in I1. apply in_map_iff in I1 as ([n [o1 y]] & E1 & I1). injection E1 as -> _ _.
  apply in_map_iff. exists (Some k, (o1, y)). auto.
Qed.
Lemma inter_exact : forall m n x, tight (TsObj m) -> tight (TsObj n) -> (forall k, In (Some k) (map fst m) -> ~ In (Some k) (map fst n)) ->
  (has (TsInter [TsObj m; TsObj n]) x <-> fits (convert (TsInter [TsObj m; TsObj n])) x).
Proof.
  intros m n x Tm Tn D. destruct (obj_fields m Tm) as (f & Ef & Nf & Kf), (obj_fields n Tn) as (g & Eg & Ng & Kg).
  assert (E : convert (TsInter [TsObj m; TsObj n]) = KObject (mobj g f)).
  { change (convert (TsInter [TsObj m; TsObj n])) with (merge (convert (TsObj m)) (convert (TsObj n))). rewrite Ef, Eg. unfold merge. rewrite mg_eq. reflexivity. }
  rewrite E, objs_apart; auto; [|intros k H1 H2; exact (D k (Kf k H1) (Kg k H2))]. rewrite <- Ef, <- Eg, <- (tight_exact _ Tm), <- (tight_exact _ Tn). split.
  - intros V. inversion V as [| | | | | | | | | | | | | |ts y Hx| | | | | | | | |]; subst. split; apply Hx; cbn; auto.
  - intros [A B]. apply HInter. intros t [<-|[<-|[]]]; assumption.
Qed.
