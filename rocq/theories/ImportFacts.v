(** Following imports: which documents are found, in what order, and that it stops. *)
From Coq Require Import String Ascii ZArith Lia Bool List Arith Permutation.
From Verif Require Import Base Json Docs DocSpec.
Import ListNotations.
Local Open Scope string_scope.
Local Open Scope list_scope.
Local Open Scope nat_scope.

Lemma known_in : forall k l, known k l = true <-> In k l.
Proof.
  intros k l. unfold known. rewrite existsb_exists. split.
  - intros (x & I & E). apply String.eqb_eq in E. now subst.
  - intros I. exists k. split; [exact I|apply String.eqb_refl].
Qed.
Lemma known_not : forall k l, known k l = false <-> ~ In k l.
Proof. intros k l. rewrite <- known_in. destruct (known k l); split; congruence. Qed.

(** *** The dictionaries found *)
Lemma aget_app : forall V (a b : amap V) k, aget k (a ++ b) = match aget k a with Some v => Some v | None => aget k b end.
Proof. intros V a b k. induction a as [|[x v] a IH]; cbn; [reflexivity|]. destruct (String.eqb x k); [reflexivity|exact IH]. Qed.
Lemma amem_aget : forall V (m : amap V) k, amem k m = match aget k m with Some _ => true | None => false end.
Proof. intros V m k. unfold amem. now destruct (aget k m). Qed.
Lemma add_dict_get : forall l out k, aget k (fold_left add_dict l out) = match aget k out with Some v => Some v | None => aget k l end.
Proof.
  induction l as [|[a v] l IH]; intros out k; cbn [fold_left]; [cbn; now destruct (aget k out)|]. rewrite IH. unfold add_dict. cbn [fst]. rewrite amem_aget.
  destruct (aget a out) as [v0|] eqn:Ea.
  - destruct (aget k out) eqn:Ek; [reflexivity|]. cbn. destruct (String.eqb_spec a k) as [->|]; [congruence|reflexivity].
  - rewrite aget_app. destruct (aget k out) eqn:Ek; [reflexivity|]. cbn. destruct (String.eqb a k); reflexivity.
Qed.

Section Dicts.
  Variable load : loader.
  Variable roots : list string.
  Notation reach := (reach load roots).
  (** Every key to follow has been followed or is waiting. *)
  Record inv (stack visited : list string) (out : amap (list string)) : Prop := Inv {
    i_stack : forall k, In k stack -> reach k;
    i_seen : forall k, In k visited -> reach k /\ exists d, load k = Ok d;
    i_nodup : NoDup visited;
    i_roots : forall k, In k roots -> In k visited \/ In k stack;
    i_closed : forall k p k2, In k visited -> load k = Ok (DPolicy p) -> In k2 (pd_imports p) -> In k2 visited \/ In k2 stack;
    i_out : forall name, aget name out = aget name (flat_map (dicts_at load) (rev visited)) }.
  Lemma inv_start : inv (rev roots) [] [].
  Proof.
    constructor; try (intros; now cbn in *); [|constructor|].
    - intros k I. apply in_rev in I. now constructor.
    - intros k I. right. now apply in_rev in I.
  Qed.
  Lemma inv_done : forall visited out, inv [] visited out -> forall k, reach k -> In k visited.
  Proof.
    intros visited out V k R. induction R as [k I|k p k2 R IH L I].
    - destruct (i_roots _ _ _ V _ I) as [H|[]]; exact H.
    - destruct (i_closed _ _ _ V _ _ _ IH L I) as [H|[]]; exact H.
  Qed.
  Lemma import_dicts_inv : forall fuel stack visited out asked r, import_dicts fuel load stack visited out visited = Some (asked, r) -> inv stack visited out ->
    NoDup asked /\ (forall k, In k asked -> reach k) /\
    match r with
    | Ok found => (forall k, reach k -> In k asked /\ exists d, load k = Ok d) /\ forall name, aget name found = aget name (flat_map (dicts_at load) (rev asked))
    | Err _ => exists k e, reach k /\ load k = Err e
    end.
  Proof.
    induction fuel as [|fuel IH]; intros stack visited out asked r E V; cbn [import_dicts] in E; [discriminate|]. destruct stack as [|key stack].
    - injection E as <- <-. split; [apply (i_nodup _ _ _ V)|]. split; [intros k I; now apply (i_seen _ _ _ V)|]. split; [|apply (i_out _ _ _ V)].
      intros k R. pose proof (inv_done _ _ V k R) as I. split; [exact I|now apply (i_seen _ _ _ V)].
    - destruct (known key visited) eqn:K.
      + apply known_in in K. apply IH in E; [exact E|]. destruct V as [V1 V2 V3 V4 V5 V6]. constructor; auto.
        * intros k I. apply V1. now right.
        * intros k I. destruct (V4 k I) as [|[<-|]]; auto.
        * intros k p k2 I L I2. destruct (V5 k p k2 I L I2) as [|[<-|]]; auto.
      + apply known_not in K. assert (Rk : reach key) by (apply (i_stack _ _ _ V); now left). destruct (load key) as [d|e] eqn:L.
        * assert (Next : forall more, (forall k, In k more -> exists p, d = DPolicy p /\ In k (pd_imports p)) -> (forall p k, d = DPolicy p -> In k (pd_imports p) -> In k more) ->
            inv (more ++ stack) (key :: visited) (fold_left add_dict (dicts_at load key) out)).
          { intros more M1 M2. destruct V as [V1 V2 V3 V4 V5 V6]. constructor.
            - intros k I. apply in_app_or in I as [I|I]; [|apply V1; now right]. destruct (M1 k I) as (p & -> & Ip). eapply ReStep; eauto.
            - intros k [<-|I]; [eauto|auto].
            - constructor; auto.
            - intros k I. destruct (V4 k I) as [I2|[<-|I2]]; [left; now right|left; now left|right; apply in_or_app; now right].
            - intros k p k2 [<-|I] Lk I2.
              + right. apply in_or_app. left. apply (M2 p); [congruence|exact I2].
              + destruct (V5 k p k2 I Lk I2) as [I3|[<-|I3]]; [left; now right|left; now left|right; apply in_or_app; now right].
            - intros name. cbn [rev]. rewrite flat_map_app, aget_app, <- V6, add_dict_get. cbn [flat_map]. now rewrite app_nil_r. }
          unfold dicts_at in Next. rewrite L in Next. destruct d as [g|p].
          -- apply IH in E; [exact E|]. apply (Next []); [intros k []|intros p k Q; discriminate].
          -- apply IH in E; [exact E|]. apply Next; [intros k I; exists p; split; [reflexivity|now apply in_rev]|intros p2 k [= <-] I; now apply in_rev in I].
        * injection E as <- <-. split; [constructor; [exact K|apply (i_nodup _ _ _ V)]|]. split; [intros k [<-|I]; [exact Rk|now apply (i_seen _ _ _ V)]|]. exists key, e. auto.
  Qed.

  (** *** It stops *)
  Definition weight (k : string) : nat := S (match load k with Ok (DPolicy p) => length (pd_imports p) | _ => 0 end).
  Fixpoint left_over (ks visited : list string) : nat := match ks with [] => 0 | k :: r => (if known k visited then 0 else weight k) + left_over r visited end.
  Lemma left_over_le : forall ks visited key, left_over ks (key :: visited) <= left_over ks visited.
  Proof.
    intros ks visited key. induction ks as [|k ks IH]; cbn [left_over]; [lia|]. destruct (known k visited) eqn:K; [|destruct (known k (key :: visited)); lia].
    replace (known k (key :: visited)) with true; [lia|]. symmetry. apply known_in. right. now apply known_in.
  Qed.
  Lemma left_over_in : forall ks visited key, In key ks -> ~ In key visited -> left_over ks (key :: visited) + weight key <= left_over ks visited.
  Proof.
    intros ks visited key I N. induction ks as [|k ks IH]; [destruct I|]. cbn [left_over]. pose proof (left_over_le ks visited key) as Le. destruct I as [<-|I].
    - apply known_not in N. rewrite N. replace (known k (k :: visited)) with true by (symmetry; apply known_in; now left). lia.
    - specialize (IH I). destruct (known k visited) eqn:K; [|destruct (known k (key :: visited)); lia].
      replace (known k (key :: visited)) with true; [lia|]. symmetry. apply known_in. right. now apply known_in.
  Qed.
  Lemma import_dicts_stops : forall ks, import_closed load ks -> forall fuel stack visited out asked, incl stack ks -> length stack + left_over ks visited < fuel ->
    import_dicts fuel load stack visited out asked <> None.
  Proof.
    intros ks C. induction fuel as [|fuel IH]; intros stack visited out asked I L; [lia|]. cbn [import_dicts]. destruct stack as [|key stack]; [discriminate|]. cbn [length] in L.
    assert (I2 : incl stack ks) by (intros k Ik; apply I; now right). destruct (known key visited) eqn:K; [apply IH; [exact I2|lia]|].
    apply known_not in K. assert (Ik : In key ks) by (apply I; now left). pose proof (left_over_in ks visited key Ik K) as D. unfold weight in D. destruct (load key) as [[g|p]|e] eqn:Lk; [| |discriminate].
    - apply IH; [exact I2|lia].
    - apply IH; [|rewrite app_length, rev_length; lia]. intros k Ia. apply in_app_or in Ia as [Ia|Ia]; [|now apply I2]. apply in_rev in Ia. exact (C key p Ik Lk k Ia).
  Qed.
End Dicts.

(** *** The policies collected *)
Section Collect.
  Variable load : loader.
  Variable entry : string.
  Variable first : doc.
  Notation own := (with_entry load entry first).
  Notation reach := (reach own [entry]).
  Lemma enqueue_ok : forall imports enqueued queue enq2 queue2, enqueue load imports enqueued queue = Ok (enq2, queue2) -> In entry enqueued ->
    exists new, queue2 = queue ++ new /\ enq2 = rev (map fst new) ++ enqueued /\ (NoDup enqueued -> NoDup enq2) /\
      (forall k d, In (k, d) new -> In k imports /\ own k = Ok d) /\ (forall k, In k imports -> In k enq2).
  Proof.
    induction imports as [|k imports IH]; intros enqueued queue enq2 queue2 E Ie; cbn [enqueue] in E.
    - injection E as <- <-. exists []. rewrite app_nil_r. split; [reflexivity|]. split; [reflexivity|]. split; [auto|]. split; [intros ? ? []|intros ? []].
    - destruct (known k enqueued) eqn:K.
      + destruct (IH _ _ _ _ E Ie) as (new & -> & -> & N & A & B). exists new. split; [reflexivity|]. split; [reflexivity|]. split; [exact N|]. split.
        * intros k2 d I. destruct (A k2 d I). split; [now right|assumption].
        * intros k2 [<-|I]; [apply in_or_app; right; now apply known_in|auto].
      + apply known_not in K. destruct (load k) as [d|e] eqn:L; [|discriminate]. cbn [bind] in E.
        destruct (IH _ _ _ _ E (or_intror Ie)) as (new & -> & -> & N & A & B). exists ((k, d) :: new). rewrite <- app_assoc. split; [reflexivity|]. cbn [map fst rev]. split; [now rewrite <- app_assoc|]. split; [|split].
        * intros N2. apply N. now constructor.
        * intros k2 d2 [[= <- <-]|I]; [split; [now left|]|destruct (A k2 d2 I); split; [now right|assumption]]. unfold with_entry. destruct (String.eqb_spec k entry) as [->|]; [contradiction|exact L].
        * intros k2 [<-|I]; [apply in_or_app; right; now left|auto].
  Qed.
  Lemma enqueue_err : forall imports enqueued queue e, enqueue load imports enqueued queue = Err e -> In entry enqueued -> exists k, In k imports /\ own k = Err e.
  Proof.
    induction imports as [|k imports IH]; intros enqueued queue e E Ie; cbn [enqueue] in E; [discriminate|]. destruct (known k enqueued) eqn:K.
    - destruct (IH _ _ _ E Ie) as (k2 & I & L). exists k2. split; [now right|exact L].
    - apply known_not in K. destruct (load k) as [d|e2] eqn:L; cbn [bind] in E.
      + destruct (IH _ _ _ E (or_intror Ie)) as (k2 & I & L2). exists k2. split; [now right|exact L2].
      + injection E as ->. exists k. split; [now left|]. unfold with_entry. destruct (String.eqb_spec k entry) as [->|]; [contradiction|exact L].
  Qed.
  Record cinv (queue : list (string * doc)) (enqueued : list string) (documents : list (string * pdoc)) : Prop := CInv {
    c_enq : forall k, In k enqueued <-> In k (map fst documents) \/ In k (map fst queue);
    c_split : Permutation enqueued (map fst documents ++ map fst queue);
    c_nodup : NoDup enqueued;
    c_entry : In entry enqueued;
    c_queue : forall k d, In (k, d) queue -> reach k /\ own k = Ok d;
    c_docs : forall k p, In (k, p) documents -> reach k /\ own k = Ok (DPolicy p);
    c_closed : forall k p k2, In (k, p) documents -> In k2 (pd_imports p) -> In k2 enqueued }.
  Lemma collect_inv : forall fuel queue enqueued documents r, collect_policies fuel load queue enqueued documents = Some r -> cinv queue enqueued documents ->
    match r with
    | Ok l => NoDup (map fst l) /\ (forall k p, In (k, p) l <-> reach k /\ own k = Ok (DPolicy p)) /\ (forall k, reach k -> In k (map fst l))
    | Err _ => exists k, reach k /\ forall p, own k <> Ok (DPolicy p)
    end.
  Proof.
    induction fuel as [|fuel IH]; intros queue enqueued documents r E V; cbn [collect_policies] in E; [discriminate|]. destruct queue as [|[path d] queue].
    - injection E as <-. assert (All : forall k, reach k -> In k (map fst documents)).
      { intros k R. induction R as [k [<-|[]]|k p k2 R IHR L I].
        - pose proof (c_entry _ _ _ V) as Ie. apply (c_enq _ _ _ V) in Ie as [H|[]]. exact H.
        - apply in_map_iff in IHR as ([k3 p3] & Q & I3). cbn in Q. subst k3. destruct (c_docs _ _ _ V _ _ I3) as [_ L3]. assert (p3 = p) by congruence. subst p3.
          pose proof (c_closed _ _ _ V _ _ _ I3 I) as Ic. apply (c_enq _ _ _ V) in Ic as [H|[]]. exact H. }
      split; [|split; [|exact All]].
      + pose proof (c_nodup _ _ _ V) as N. pose proof (c_split _ _ _ V) as P. cbn in P. rewrite app_nil_r in P. eapply Permutation_NoDup; eauto.
      + intros k p. split; [apply (c_docs _ _ _ V)|]. intros [R L]. apply All in R. apply in_map_iff in R as ([k3 p3] & Q & I3). cbn in Q. subst k3. destruct (c_docs _ _ _ V _ _ I3) as [_ L3]. congruence.
    - destruct (c_queue _ _ _ V path d (or_introl eq_refl)) as [Rp Lp]. destruct d as [g|p].
      + injection E as <-. exists path. split; [exact Rp|]. intros p. congruence.
      + destruct (enqueue load (pd_imports p) enqueued queue) as [[enq2 queue2]|e] eqn:Q.
        * destruct (enqueue_ok _ _ _ _ _ Q (c_entry _ _ _ V)) as (new & -> & -> & N & A & B). apply IH in E; [exact E|]. destruct V as [V1 Vp V2 V3 V4 V5 V6]. constructor.
          -- intros k. rewrite in_app_iff, <- in_rev, !map_app, !in_app_iff. rewrite V1. cbn. tauto.
          -- rewrite !map_app. cbn [map fst] in *. replace ((map fst documents ++ [path]) ++ map fst queue ++ map fst new) with ((map fst documents ++ path :: map fst queue) ++ map fst new) by (now rewrite <- !app_assoc).
             eapply perm_trans; [apply Permutation_app_comm|]. apply Permutation_app; [exact Vp|]. apply Permutation_sym, Permutation_rev.
          -- now apply N.
          -- apply in_or_app. now right.
          -- intros k d I. apply in_app_or in I as [I|I]; [apply V4; now right|]. destruct (A k d I) as [I2 L2]. split; [|exact L2]. eapply ReStep; eauto.
          -- intros k p2 I. apply in_app_or in I as [I|[[= <- <-]|[]]]; auto.
          -- intros k p2 k2 I I2. apply in_app_or in I as [I|[[= <- <-]|[]]]; [apply in_or_app; right; eauto|auto].
        * injection E as <-. destruct (enqueue_err _ _ _ _ Q (c_entry _ _ _ V)) as (k & I & L). exists k. split; [eapply ReStep; eauto|]. intros p2. congruence.
  Qed.
  Lemma cinv_start : cinv [(entry, first)] [entry] [].
  Proof.
    constructor; cbn; try tauto; try (now left).
    - apply Permutation_refl.
    - constructor; [easy|constructor].
    - intros k d [[= <- <-]|[]]. split; [constructor; now left|]. unfold with_entry. now rewrite String.eqb_refl.
  Qed.
  (** It stops: each document is queued at most once. *)
  Lemma enqueue_bound : forall ks imports enqueued queue enq2 queue2, enqueue load imports enqueued queue = Ok (enq2, queue2) -> incl imports ks -> incl enqueued ks -> NoDup enqueued ->
    incl enq2 ks /\ NoDup enq2 /\ length queue2 + length enqueued = length queue + length enq2.
  Proof.
    intros ks. induction imports as [|k imports IH]; intros enqueued queue enq2 queue2 E I1 I2 N; cbn [enqueue] in E; [injection E as <- <-; auto|].
    assert (I3 : incl imports ks) by (intros x Ix; apply I1; now right). destruct (known k enqueued) eqn:K; [eauto|]. apply known_not in K. destruct (load k) as [d|e]; [|discriminate]. cbn [bind] in E.
    destruct (IH _ _ _ _ E I3) as (A & B & C); [intros x [<-|Ix]; [apply I1; now left|auto]|now constructor|]. split; [exact A|]. split; [exact B|]. rewrite app_length in C. cbn in C. lia.
  Qed.
  Lemma collect_stops : forall ks, import_closed own ks -> forall fuel queue enqueued documents, incl enqueued ks -> NoDup enqueued -> In entry enqueued ->
    (forall k d, In (k, d) queue -> In k ks /\ own k = Ok d) -> length queue + (length ks - length enqueued) < fuel -> collect_policies fuel load queue enqueued documents <> None.
  Proof.
    intros ks C. induction fuel as [|fuel IH]; intros queue enqueued documents I N Ie O L; [lia|]. cbn [collect_policies]. destruct queue as [|[path [g|p]] queue]; [discriminate|discriminate|].
    destruct (O path (DPolicy p) (or_introl eq_refl)) as [Ip Lp].
    destruct (enqueue load (pd_imports p) enqueued queue) as [[enq2 queue2]|e] eqn:Q; [|discriminate].
    destruct (enqueue_bound ks _ _ _ _ _ Q (C path p Ip Lp) I N) as (A & B & D). destruct (enqueue_ok _ _ _ _ _ Q Ie) as (new & -> & -> & _ & Nw & _).
    pose proof (NoDup_incl_length B A) as Lb. pose proof (NoDup_incl_length N I) as La.
    apply IH; [exact A|exact B|apply in_or_app; now right| |cbn [length] in L; lia].
    intros k d Ik. apply in_app_or in Ik as [Ik|Ik]; [apply O; now right|]. destruct (Nw k d Ik) as [Ii Lk]. split; [exact (C path p Ip Lp k Ii)|exact Lk].
  Qed.
End Collect.
