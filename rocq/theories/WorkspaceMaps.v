(** * Facts about the maps of a workspace: documents by path, parsed policies, groups *)
From Coq Require Import String List Bool Arith NArith Lia Relations.
Import ListNotations.
From Verif Require Import Base Convert.
From Verif Require ConvertFacts.
From Verif Require Import Workspace WorkspaceSpec.
Local Open Scope nat_scope.
Local Open Scope list_scope.

Lemma pmem_in : forall p l, pmem p l = true <-> In p l.
Proof.
  intros p l. unfold pmem. rewrite existsb_exists. split.
  - intros (x & I & E). apply String.eqb_eq in E. now subst.
  - intros I. exists p. split; [exact I|]. apply String.eqb_refl.
Qed.
Lemma pmem_not : forall p l, pmem p l = false <-> ~ In p l.
Proof. intros p l. rewrite <- pmem_in. destruct (pmem p l); split; congruence. Qed.

Lemma pmem_cons : forall p a l, pmem p (a :: l) = String.eqb p a || pmem p l.
Proof. reflexivity. Qed.
Lemma by_path_sorted : forall {V} (m : amap V), by_path m <-> ConvertFacts.sorted m.
Proof. intros V m. induction m as [|[k v] m IH]; [reflexivity|]. cbn. rewrite IH. reflexivity. Qed.
Lemma by_path_nodup : forall {V} (m : amap V), by_path m -> NoDup (map fst m).
Proof. intros V m H. apply ConvertFacts.sorted_nodup. now apply by_path_sorted. Qed.
Lemma by_path_eq : forall {V} (a b : amap V), by_path a -> by_path b -> (forall k, aget k a = aget k b) -> a = b.
Proof. intros V a b A B. apply ConvertFacts.sorted_eq; now apply by_path_sorted. Qed.
Lemma sort_map_by : forall {V} (m : amap V), by_path (sort_map m).
Proof. intros V m. apply by_path_sorted. exact (proj1 (ConvertFacts.bsort_all m)). Qed.
Lemma sort_map_get : forall {V} (m : amap V) k, NoDup (map fst m) -> aget k (sort_map m) = aget k m.
Proof. intros V m k N. exact (proj2 (ConvertFacts.bsort_all m) N k). Qed.
Lemma aget_in : forall {V} k (m : amap V), (exists v, aget k m = Some v) <-> In k (map fst m).
Proof.
  intros V k m. split.
  - intros (v & E). apply aget_Some_in in E. now apply (in_map fst) in E.
  - intros I. destruct (aget k m) as [v|] eqn:E; [eauto|]. apply aget_None_notin in E. contradiction.
Qed.
Lemma aget_nodup : forall {V} k v (m : amap V), NoDup (map fst m) -> In (k, v) m -> aget k m = Some v.
Proof.
  intros V k v m. induction m as [|[k1 v1] m IH]; intros N I; [destruct I|]. cbn in *. apply NoDup_cons_iff in N as [N1 N2].
  destruct I as [E|I].
  - injection E as <- <-. now rewrite String.eqb_refl.
  - destruct (String.eqb_spec k1 k) as [->|]; [|now apply IH]. exfalso. apply N1. now apply (in_map fst) in I.
Qed.
Lemma amem_in : forall {V} k (m : amap V), amem k m = true <-> In k (map fst m).
Proof.
  intros V k m. unfold amem. rewrite <- aget_in. destruct (aget k m) as [v|]; split; try congruence; eauto. intros (v & E). discriminate.
Qed.
Lemma amem_get : forall {V} k (m : amap V), amem k m = match aget k m with Some _ => true | None => false end.
Proof. reflexivity. Qed.
Lemma get_of_in : forall {V} k (m : amap V), amem k m = true -> exists v, aget k m = Some v.
Proof. intros V k m. unfold amem. destruct (aget k m); [eauto|discriminate]. Qed.

Lemma sort_keys : forall {V} (m : amap V) k, In k (map fst (sort_map m)) <-> In k (map fst m).
Proof.
  intros V m k. unfold sort_map.
  assert (G : forall o, In k (map fst (fold_left (fun o e => bset (fst e) (snd e) o) m o)) <-> In k (map fst m) \/ In k (map fst o)).
  { induction m as [|[a x] m IH]; intros o; [cbn; tauto|]. cbn [fold_left fst snd map In]. rewrite IH. rewrite <- (aget_in k (bset a x o)), <- (aget_in k o), ConvertFacts.bset_get.
    destruct (String.eqb_spec a k) as [->|N]; split; intros H.
    - left. now left. - right. eauto.
    - tauto. - destruct H as [[E|H]|H]; [congruence| |]; tauto. }
  rewrite G. cbn. tauto.
Qed.
Lemma sort_paths_in : forall l p, In p (sort_paths l) <-> In p l.
Proof. intros l p. unfold sort_paths. rewrite sort_keys, map_map, map_id. reflexivity. Qed.
Fixpoint ordered (l : list path) : Prop := match l with [] => True | k :: r => Forall (fun e => String.compare k e = Lt) r /\ ordered r end.
Lemma by_path_ordered : forall {V} (m : amap V), by_path m <-> ordered (map fst m).
Proof.
  intros V m. induction m as [|[k v] m IH]; [reflexivity|]. cbn. rewrite IH, Forall_map. reflexivity.
Qed.
Lemma sort_paths_ordered : forall l, ordered (sort_paths l).
Proof. intros l. unfold sort_paths. apply by_path_ordered, sort_map_by. Qed.

Lemma pick_in : forall {V} ms (m : amap V) p v, In (p, v) (pick ms m) <-> In p ms /\ aget p m = Some v.
Proof.
  intros V ms m p v. unfold pick. rewrite in_flat_map. split.
  - intros (x & I & H). destruct (aget x m) as [y|] eqn:E; [|destruct H]. destruct H as [H|[]]. injection H as -> ->. auto.
  - intros [I E]. exists p. rewrite E. split; [exact I|now left].
Qed.
Lemma pick_keys_incl : forall {V} ms (m : amap V) x, In x (map fst (pick ms m)) -> In x ms.
Proof. intros V ms m x I. apply in_map_iff in I as ((a & v) & E & I). cbn in E. subst a. now apply pick_in in I as [I _]. Qed.
Lemma pick_by : forall {V} ms (m : amap V), ordered ms -> by_path (pick ms m).
Proof.
  intros V ms m. induction ms as [|p ms IH]; intros O; [exact I|]. destruct O as [A B]. unfold pick in *. cbn [flat_map]. destruct (aget p m) as [v|]; [|now apply IH].
  cbn. split; [|now apply IH]. rewrite Forall_forall in *. intros [a x] J. apply A. apply (in_map fst) in J. exact (pick_keys_incl ms m a J).
Qed.
Lemma pick_get : forall {V} ms (m : amap V) p, ordered ms -> aget p (pick ms m) = if pmem p ms then aget p m else None.
Proof.
  intros V ms m p O. pose proof (by_path_nodup _ (pick_by ms m O)) as N. destruct (aget p (pick ms m)) as [v|] eqn:E.
  - apply aget_Some_in, pick_in in E as [E1 E2]. apply pmem_in in E1. now rewrite E1.
  - destruct (pmem p ms) eqn:P; [|reflexivity]. destruct (aget p m) as [v|] eqn:G; [|reflexivity]. apply pmem_in in P.
    rewrite (aget_nodup p v _ N) in E; [discriminate|]. apply pick_in. auto.
Qed.
Lemma pick_again : forall {V} ms (m : amap V), pick (map fst (pick ms m)) m = pick ms m.
Proof.
  intros V ms m. induction ms as [|p ms IH]; [reflexivity|]. unfold pick in *. cbn [flat_map]. destruct (aget p m) as [v|] eqn:E; cbn; [|exact IH].
  rewrite E. cbn. now rewrite IH.
Qed.
Lemma pick_map : forall {V W} (f : path -> V -> W) ms (m : amap V), pick ms (map (fun e => (fst e, f (fst e) (snd e))) m) = map (fun e => (fst e, f (fst e) (snd e))) (pick ms m).
Proof.
  intros V W f ms m. assert (G : forall p, aget p (map (fun e => (fst e, f (fst e) (snd e))) m) = option_map (f p) (aget p m)).
  { intros p. induction m as [|[k v] m IH]; [reflexivity|]. cbn. destruct (String.eqb_spec k p) as [->|]; [reflexivity|exact IH]. }
  induction ms as [|p ms IH]; [reflexivity|]. unfold pick in *. cbn [flat_map]. rewrite G, IH. destruct (aget p m); reflexivity.
Qed.

Section Groups.
  Context {PD GC PP SC RU UN EN SG AN DG AR FT DI : Type}.
  Let tools := @tools PD GC PP SC RU UN EN SG AN DG AR FT DI.
  Let arcs := @arcs PD GC.
  Variable T : tools.
  Variable M : arcs.

  Section Walk.
    Variable ps : amap PP.
    Hypothesis ND : NoDup (map fst ps).
    Let key (p : path) := In p (map fst ps).
    Let nb := neighbours T ps.
    Definition edge (p q : path) : Prop := key q /\ exists v, aget p ps = Some v /\ In q (t_imports T v).
    Lemma nb_spec : forall p q, key p -> (In q (nb p) <-> edge p q \/ edge q p).
    Proof.
      intros p q K. unfold nb, neighbours. rewrite in_app_iff, in_map_iff. split.
      - intros [H|((a & v) & E & I)].
        + left. destruct (aget p ps) as [v|] eqn:E; [|destruct H]. apply filter_In in H as [H A]. apply amem_in in A. split; eauto.
        + right. cbn in E. subst a. apply filter_In in I as [I A]. cbn in A. apply pmem_in in A. split; [exact K|]. exists v. split; [|exact A]. now apply aget_nodup.
      - intros [(A & v & E & I)|(A & v & E & I)].
        + left. rewrite E. apply filter_In. split; [exact I|]. now apply amem_in.
        + right. exists (q, v). split; [reflexivity|]. apply filter_In. split; [now apply aget_Some_in|]. cbn. now apply pmem_in.
    Qed.
    Lemma nb_key : forall p q, In q (nb p) -> key q.
    Proof.
      intros p q I. unfold nb, neighbours in I. apply in_app_iff in I as [I|I].
      - destruct (aget p ps); [|destruct I]. apply filter_In in I as [_ I]. now apply amem_in.
      - apply in_map_iff in I as (e & <- & I). apply filter_In in I as [I _]. now apply in_map.
    Qed.
    Lemma nb_sym : forall p q, key p -> In q (nb p) -> In p (nb q).
    Proof. intros p q K I. pose proof (nb_key _ _ I) as Kq. apply nb_spec in I; [|exact K]. apply nb_spec; [exact Kq|]. tauto. Qed.
    Inductive reach (p : path) : path -> Prop :=
    | reach_refl : reach p p
    | reach_step q r : reach p q -> In r (nb q) -> reach p r.
    Lemma reach_trans : forall p q r, reach p q -> reach q r -> reach p r.
    Proof. intros p q r A B. induction B; [exact A|]. econstructor; eauto. Qed.
    Lemma reach_key : forall p q, key p -> reach p q -> key q.
    Proof. intros p q K R. induction R; [exact K|]. eapply nb_key; eauto. Qed.
    Lemma reach_sym : forall p q, key p -> reach p q -> reach q p.
    Proof.
      intros p q K R. induction R as [|q r R IH I]; [constructor|]. eapply reach_trans; [|exact IH]. econstructor; [constructor|].
      apply nb_sym; [|exact I]. eapply reach_key; eauto.
    Qed.
    Definition weight (seen : list path) : nat := fold_right (fun e n => (if pmem (fst e) seen then 0 else S (length (nb (fst e)))) + n) 0 ps.
    Lemma weight_le_gen : forall seen l, S (fold_right (fun e n => (if pmem (fst e) seen then 0 else S (length (nb (fst e)))) + n) 0 l) <= fold_right (fun e n => S (length (nb (fst e))) + n) 1 (l : amap PP).
    Proof. intros seen l. induction l as [|e l IH]; [cbn; lia|]. cbn [fold_right]. destruct (pmem (fst e) seen); lia. Qed.
    Lemma weight_see : forall p seen, key p -> ~ In p seen -> weight (p :: seen) + S (length (nb p)) <= weight seen.
    Proof.
      intros p seen K N. unfold weight. clear ND. unfold key in K. revert K.
      assert (G : forall l, fold_right (fun e n => (if pmem (fst e) (p :: seen) then 0 else S (length (nb (fst e)))) + n) 0 (l : amap PP) <= fold_right (fun e n => (if pmem (fst e) seen then 0 else S (length (nb (fst e)))) + n) 0 l).
      { induction l as [|[a x] l IH]; [cbn; lia|]. cbn [fold_right fst]. rewrite pmem_cons. destruct (String.eqb a p); cbn [orb]; destruct (pmem a seen); lia. }
      assert (H : forall l, In p (map fst (l : amap PP)) -> fold_right (fun e n => (if pmem (fst e) (p :: seen) then 0 else S (length (nb (fst e)))) + n) 0 l + S (length (nb p)) <= fold_right (fun e n => (if pmem (fst e) seen then 0 else S (length (nb (fst e)))) + n) 0 l).
      { induction l as [|[a x] l IH]; intros K; [destruct K|]. cbn [fold_right fst]. rewrite pmem_cons. destruct (String.eqb_spec a p) as [E|E]; cbn [orb].
        - rewrite E. apply pmem_not in N. rewrite N. specialize (G l). lia.
        - destruct K as [K|K]; [cbn in K; congruence|]. specialize (IH K). destruct (pmem a seen); lia. }
      intros K. exact (H ps K).
    Qed.
    Lemma walk_ok : forall n stack seen members,
      length stack + weight seen <= n -> (forall s, In s stack -> key s) ->
      exists new, walk T ps n stack seen members = (new ++ seen, new ++ members) /\
        (forall x, In x new -> ~ In x seen /\ exists s, In s stack /\ reach s x) /\
        (forall s, In s stack -> In s (new ++ seen)) /\
        (forall x y, In x new -> In y (nb x) -> In y (new ++ seen)).
    Proof.
      induction n as [|n IH]; intros stack seen members L K.
      { destruct stack; [|cbn in L; lia]. exists []. repeat split; cbn; try tauto; intros; contradiction. }
      cbn [walk]. destruct stack as [|p r].
      { exists []. repeat split; cbn; try tauto; intros; contradiction. }
      destruct (pmem p seen) eqn:P.
      - destruct (IH r seen members) as (new & E & A & B & C); [cbn in L; lia|intros s I; apply K; now right|]. exists new. split; [exact E|]. split; [|split; [|exact C]].
        + intros x I. destruct (A x I) as (A1 & s & A2 & A3). split; [exact A1|]. exists s. split; [now right|exact A3].
        + intros s [<-|I]; [|now apply B]. apply in_app_iff. right. now apply pmem_in.
      - apply pmem_not in P. pose proof (weight_see p seen (K p (or_introl eq_refl)) P) as Wt.
        destruct (IH (nb p ++ r) (p :: seen) (p :: members)) as (new & E & A & B & C).
        + rewrite app_length. cbn in L. lia.
        + intros s I. apply in_app_iff in I as [I|I]; [eapply nb_key; eauto|]. apply K. now right.
        + exists (new ++ [p]). rewrite <- !app_assoc. cbn [app]. split; [exact E|]. split; [|split].
          * intros x I. apply in_app_iff in I as [I|[<-|[]]].
            -- destruct (A x I) as (A1 & s & A2 & A3). split; [intros J; apply A1; now right|]. apply in_app_iff in A2 as [A2|A2].
               ++ exists p. split; [now left|]. eapply reach_trans; [|exact A3]. econstructor; [constructor|exact A2].
               ++ exists s. split; [now right|exact A3].
            -- split; [exact P|]. exists p. split; [now left|constructor].
          * intros s [<-|I]; [apply in_app_iff; right; now left|]. apply B. apply in_app_iff. now right.
          * intros x y I J. apply in_app_iff in I as [I|[<-|[]]]; [eapply C; eauto|]. apply B. apply in_app_iff. now left.
    Qed.
    Definition closed (seen : list path) : Prop := forall x y, In x seen -> In y (nb x) -> In y seen.
    Lemma closed_reach : forall seen x y, closed seen -> In x seen -> reach x y -> In y seen.
    Proof. intros seen x y C I R. induction R; [exact I|]. eapply C; eauto. Qed.
    Definition whole (c : list path) : Prop := ordered c /\ forall p, In p c -> key p /\ forall q, In q c <-> reach p q.
    Lemma components_ok : forall todo seen, closed seen -> (forall x, In x seen -> key x) -> (forall x, In x todo -> key x) ->
      (forall c, In c (components T ps todo seen) -> whole c /\ c <> []) /\
      (forall p, In p todo -> In p seen \/ exists c, In c (components T ps todo seen) /\ In p c).
    Proof.
      induction todo as [|p r IH]; intros seen C Ks Kt; [split; intros; contradiction|]. cbn [components]. destruct (pmem p seen) eqn:P.
      - destruct (IH seen C Ks (fun x I => Kt x (or_intror I))) as [A B]. split; [exact A|]. intros x [<-|I]; [left; now apply pmem_in|]. now apply B.
      - apply pmem_not in P. assert (Kp : key p) by (apply Kt; now left).
        destruct (walk_ok (degree T ps) [p] seen []) as (new & E & A1 & A2 & A3).
        { cbn. unfold weight, degree. fold nb. pose proof (weight_le_gen seen ps). lia. }
        { intros s [<-|[]]. exact Kp. }
        rewrite E, app_nil_r.
        assert (R : forall x, In x new <-> reach p x).
        { intros x. split; [intros I; destruct (A1 x I) as (_ & s & [<-|[]] & R); exact R|]. intros R.
          assert (Ip : In p new) by (specialize (A2 p (or_introl eq_refl)); apply in_app_iff in A2 as [A2|A2]; [exact A2|contradiction]).
          assert (Q : forall z, reach p z -> ~ In z seen) by (intros z R0 I; apply P; eapply closed_reach; [exact C|exact I|]; now apply reach_sym).
          induction R as [|q x R IHR J]; [exact Ip|]. specialize (A3 q x IHR J). apply in_app_iff in A3 as [A3|A3]; [exact A3|]. exfalso. eapply Q; [|exact A3]. econstructor; eauto. }
        assert (Kn : forall x, In x new -> key x) by (intros x I; apply R in I; eapply reach_key; eauto).
        destruct (IH (new ++ seen)) as [B1 B2].
        + intros x y I J. apply in_app_iff in I as [I|I]; [eapply A3; eauto|]. apply in_app_iff. right. eapply C; eauto.
        + intros x I. apply in_app_iff in I as [I|I]; auto.
        + intros x I. apply Kt. now right.
        + split.
          * intros c [<-|I]; [|now apply B1]. split; [split; [apply sort_paths_ordered|]|].
            -- intros x I. apply (proj1 (sort_paths_in _ _)) in I. split; [now apply Kn|]. intros q. rewrite sort_paths_in, R. apply R in I. split; intros H.
               ++ eapply reach_trans; [apply reach_sym; [exact Kp|exact I]|exact H].
               ++ eapply reach_trans; eauto.
            -- intros Z. assert (J : In p (sort_paths new)) by (apply sort_paths_in, R; constructor). rewrite Z in J. destruct J.
          * intros x [<-|I].
            -- right. exists (sort_paths new). split; [now left|]. apply sort_paths_in, R. constructor.
            -- destruct (B2 x I) as [J|(c & J & K)].
               ++ apply in_app_iff in J as [J|J]; [|now left]. right. exists (sort_paths new). split; [now left|]. now apply sort_paths_in.
               ++ right. exists c. split; [now right|exact K].
    Qed.
    Lemma comp_index_ok : forall p cs i j, comp_index p cs i = Some j -> i <= j /\ exists c, nth_error cs (j - i) = Some c /\ In p c.
    Proof.
      intros p cs. induction cs as [|c cs IH]; intros i j E; [discriminate E|]. cbn in E. destruct (pmem p c) eqn:P.
      - injection E as <-. split; [lia|]. exists c. rewrite Nat.sub_diag. split; [reflexivity|]. now apply pmem_in.
      - apply IH in E as (L & c1 & E & I). split; [lia|]. exists c1. split; [|exact I]. replace (j - i) with (S (j - S i)) by lia. exact E.
    Qed.
    Lemma comp_index_none : forall p cs i, comp_index p cs i = None -> forall c, In c cs -> ~ In p c.
    Proof.
      intros p cs. induction cs as [|c cs IH]; intros i E d I; [destruct I|]. cbn in E. destruct (pmem p c) eqn:P; [discriminate|]. destruct I as [<-|I]; [now apply pmem_not|]. eapply IH; eauto.
    Qed.
    Definition comps : list (list path) := components T ps (map fst ps) [].
    Lemma comps_index : forall p, match comp_index p comps 0 with
                                  | Some i => i < length comps /\ whole (nth i comps []) /\ In p (nth i comps []) /\ key p
                                  | None => ~ key p
                                  end.
    Proof.
      intros p. destruct (components_ok (map fst ps) [] (fun x y I => match I with end) (fun x I => match I with end) (fun x I => I)) as [A B].
      fold comps in A, B. destruct (comp_index p comps 0) as [i|] eqn:E.
      - apply comp_index_ok in E as (_ & c & E & I). rewrite Nat.sub_0_r in E. assert (L : i < length comps) by (apply nth_error_Some; congruence).
        apply nth_error_nth with (d := []) in E as E1. rewrite E1. apply nth_error_In in E. destruct (A c E) as [W _]. split; [exact L|]. split; [exact W|]. split; [exact I|].
        now apply (proj2 W).
      - intros K. destruct (B p K) as [[]|(c & I & J)]. exact (comp_index_none _ _ _ E c I J).
    Qed.
    Lemma component_of_spec : forall p, ordered (component_of comps p) /\ forall q, In q (component_of comps p) <-> key p /\ reach p q.
    Proof.
      intros p. unfold component_of. pose proof (comps_index p) as H. destruct (comp_index p comps 0) as [i|].
      - destruct H as (L & [O W] & I & K). split; [exact O|]. intros q. destruct (W p I) as [_ Wq]. rewrite Wq. tauto.
      - split; [exact I|]. intros q. cbn. tauto.
    Qed.
  End Walk.

  (** ** From documents to policies *)
  Definition world_in (inputs : amap nat) : world := fun p => option_map (shows M) (aget p inputs).
  Definition pvals (inputs : amap nat) : amap PP := map (fun e => (fst e, t_parse T (fst e) (a_policy M (snd e)))) (policies_of M (sort_map inputs)).
  Lemma policies_of_ordered : forall m, by_path m -> by_path (policies_of M m).
  Proof.
    induction m as [|[k d] m IH]; intros B; [exact I|]. destruct B as [A B]. unfold policies_of in *. cbn [flat_map fst snd]. destruct (a_content M d) as [i|g]; [|now apply IH].
    cbn. split; [|now apply IH]. rewrite Forall_forall in *. intros [a x] J. apply in_flat_map in J as ((b & y) & J & E). cbn in E. destruct (a_content M y); [|destruct E].
    destruct E as [E|[]]. injection E as <- <-. exact (A (b, y) J).
  Qed.
  Lemma policies_of_get : forall m p, NoDup (map fst m) -> aget p (policies_of M m) = match aget p m with Some d => match a_content M d with CPolicy i => Some i | CGraph _ => None end | None => None end.
  Proof.
    intros m p. induction m as [|[k d] m IH]; intros N; [reflexivity|]. cbn in N. apply NoDup_cons_iff in N as [N1 N2]. specialize (IH N2). unfold policies_of in *. cbn [flat_map fst snd]. cbn [aget].
    destruct (String.eqb_spec k p) as [->|Ne].
    - destruct (a_content M d) as [i|g]; cbn [app aget]; [now rewrite String.eqb_refl|]. rewrite IH. apply aget_None_notin in N1. now rewrite N1.
    - destruct (a_content M d) as [i|g]; cbn [app aget]; [|exact IH]. destruct (String.eqb_spec k p); [congruence|exact IH].
  Qed.
  Lemma graphs_of_get : forall m p, NoDup (map fst m) -> aget p (graphs_of M m) = match aget p m with Some d => match a_content M d with CPolicy _ => None | CGraph _ => Some d end | None => None end.
  Proof.
    intros m p. induction m as [|[k d] m IH]; intros N; [reflexivity|]. cbn in N. apply NoDup_cons_iff in N as [N1 N2]. specialize (IH N2). unfold graphs_of in *. cbn [flat_map fst snd]. cbn [aget].
    destruct (String.eqb_spec k p) as [->|Ne].
    - destruct (a_content M d) as [i|g]; cbn [app aget]; [|now rewrite String.eqb_refl]. rewrite IH. apply aget_None_notin in N1. now rewrite N1.
    - destruct (a_content M d) as [i|g]; cbn [app aget]; [exact IH|]. destruct (String.eqb_spec k p); [congruence|exact IH].
  Qed.
  Lemma pvals_policies : forall inputs, NoDup (map fst inputs) -> policies T (world_in inputs) (pvals inputs).
  Proof.
    intros inputs N. pose proof (sort_map_by inputs) as B. split.
    - apply by_path_ordered. unfold pvals. rewrite map_map. cbn. apply by_path_ordered. now apply policies_of_ordered.
    - intros q v. unfold pvals.
      assert (G : forall m : amap nat, aget q (map (fun e => (fst e, t_parse T (fst e) (a_policy M (snd e)))) m) = option_map (fun i => t_parse T q (a_policy M i)) (aget q m)).
      { induction m as [|[k d] m IH]; [reflexivity|]. cbn. destruct (String.eqb_spec k q) as [->|]; [reflexivity|exact IH]. }
      rewrite G, policies_of_get by now apply by_path_nodup. rewrite sort_map_get by exact N. unfold policy_in, world_in, shows.
      destruct (aget q inputs) as [d|]; cbn; [|split; [discriminate|intros (? & ? & _); discriminate]]. destruct (a_content M d) as [i|g]; cbn.
      + split; [intros E; injection E as <-; eauto|]. intros (e & E & ->). injection E as <-. reflexivity.
      + split; [discriminate|]. intros (e & E & _). discriminate.
  Qed.

  (** ** Groups *)
  Section Group.
    Variable w : world (PD := PD) (GC := GC).
    Variable pv : amap PP.
    Hypothesis HP : policies T w pv.
    Lemma pv_key : forall p, In p (map fst pv) <-> exists v, policy_in T w p v.
    Proof. intros p. rewrite <- aget_in. split; intros (v & E); exists v; now apply (proj2 HP). Qed.
    Lemma reach_connected : forall p q, In p (map fst pv) -> reach pv p q -> connected T w p q.
    Proof.
      intros p q K R. induction R as [|q r R IH I]; [apply rst_refl|]. eapply rst_trans; [exact IH|].
      assert (Kq : In q (map fst pv)) by (eapply reach_key; eauto). apply nb_spec in I; [|apply by_path_nodup; exact (proj1 HP)|exact Kq].
      destruct I as [(Kr & v & E & I)|(Kr & v & E & I)].
      - apply rst_step. apply (proj2 HP) in E. apply pv_key in Kr as (u & U). exists v, u. auto.
      - apply rst_sym, rst_step. apply (proj2 HP) in E. apply pv_key in Kr as (u & U). exists v, u. auto.
    Qed.
    Lemma connected_reach : forall p q, connected T w p q -> p = q \/ (In p (map fst pv) /\ In q (map fst pv) /\ reach pv p q).
    Proof.
      assert (ND : NoDup (map fst pv)) by (apply by_path_nodup; exact (proj1 HP)).
      intros p q C. induction C as [p q (v & u & A & B & I)|p|p q C IH|p q r C1 IH1 C2 IH2].
      - right. assert (Kp : In p (map fst pv)) by (apply pv_key; eauto). assert (Kq : In q (map fst pv)) by (apply pv_key; eauto). split; [exact Kp|]. split; [exact Kq|].
        econstructor; [constructor|]. apply nb_spec; [exact ND|exact Kp|]. left. split; [exact Kq|]. exists v. split; [|exact I]. now apply (proj2 HP).
      - now left.
      - destruct IH as [->|(A & B & R)]; [now left|]. right. split; [exact B|]. split; [exact A|]. now apply reach_sym.
      - destruct IH1 as [->|(A & B & R)]; [exact IH2|]. destruct IH2 as [<-|(A2 & B2 & R2)]; [right; auto|]. right. split; [exact A|]. split; [exact B2|]. eapply reach_trans; eauto.
    Qed.
    Lemma component_spec : forall p q, In q (component_of (comps pv) p) <-> (exists v, policy_in T w p v) /\ (exists v, policy_in T w q v) /\ connected T w p q.
    Proof.
      intros p q. rewrite (proj2 (component_of_spec pv (by_path_nodup _ (proj1 HP)) p)). rewrite pv_key. split.
      - intros [K R]. split; [exact K|]. apply pv_key in K. split; [apply pv_key; eapply reach_key; eauto|now apply reach_connected].
      - intros (K & Kq & C). split; [exact K|]. destruct (connected_reach p q C) as [<-|(_ & _ & R)]; [constructor|exact R].
    Qed.
    Lemma component_ordered : forall p, ordered (component_of (comps pv) p).
    Proof. intros p. exact (proj1 (component_of_spec pv (by_path_nodup _ (proj1 HP)) p)). Qed.
    Lemma group_component : forall p v, policy_in T w p v -> group T w p (pick (component_of (comps pv) p) pv).
    Proof.
      intros p v P. split; [apply pick_by, component_ordered|]. intros q u. rewrite pick_get by apply component_ordered. destruct (pmem q (component_of (comps pv) p)) eqn:E.
      - apply pmem_in, component_spec in E. rewrite (proj2 HP). tauto.
      - apply pmem_not in E. split; [discriminate|]. intros [Q C]. exfalso. apply E. apply component_spec. eauto.
    Qed.
  End Group.
  Lemma group_unique : forall (w : world (PD := PD) (GC := GC)) p g g1, group T w p g -> group T w p g1 -> g = g1.
  Proof.
    intros w p g g1 [A B] [A1 B1]. apply by_path_eq; auto. intros k. destruct (aget k g) as [v|] eqn:E.
    - symmetry. apply B1. now apply B.
    - destruct (aget k g1) as [v|] eqn:E1; [|reflexivity]. apply B1, B in E1. congruence.
  Qed.
End Groups.
