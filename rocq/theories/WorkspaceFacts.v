(** * The caches of a workspace hold what a fresh computation would give: policies *)
From Coq Require Import String List Bool Arith NArith Lia Relations.
Import ListNotations.
From Verif Require Import Base Convert Workspace WorkspaceSpec WorkspaceMaps.
Local Open Scope nat_scope.
Local Open Scope list_scope.

Section Facts.
  Context {PD GC PP SC RU UN EN SG AN DG AR FT DI : Type}.
  Let tools := @tools PD GC PP SC RU UN EN SG AN DG AR FT DI.
  Let arcs := @arcs PD GC.
  Variable T : tools.
  Variable M : arcs.
  Hypothesis SF : scope_free T.
  Let db := @db PP RU UN EN AN DG AR FT.
  Let snap := @snap PP RU DG AR.
  Let alloc := nat -> option (path * PP).

  Definition ext (al al1 : alloc) : Prop := forall a x, al a = Some x -> al1 a = Some x.
  Lemma ext_refl : forall al, ext al al. Proof. intros al a x E. exact E. Qed.
  Lemma ext_trans : forall a b c, ext a b -> ext b c -> ext a c. Proof. intros a b c A B x y E. apply B, A, E. Qed.

  Definition parsed_ok (c : amap (nat * (nat * PP))) (al : alloc) : Prop :=
    forall p d a v, aget p c = Some (d, (a, v)) -> al a = Some (p, v) /\ v = t_parse T p (a_policy M d).
  Definition shallow_ok (c : amap (nat * list RU)) (al : alloc) : Prop :=
    forall p a rs, aget p c = Some (a, rs) -> exists v, al a = Some (p, v) /\ rs = rules_of T p v.
  Definition sub_ok (units : list (@uobj PP RU UN EN)) (id : nat) (sub : amap PP) : Prop :=
    exists u, nth_error units id = Some u /\ u_parsed u = sub /\ u_unit u = unit_of T sub /\ forall e, u_enriched u = Some e -> e = enriched_of T sub.
  Definition units_ok (c : list (list path * (list nat * nat))) (al : alloc) (units : list uobj) : Prop :=
    forall ms ars id, uget ms c = Some (ars, id) -> exists sub, map al ars = map Some sub /\ sub_ok units id sub.
  Definition grp (inputs : amap nat) (p : path) : amap PP := pick (component_of (comps T (pvals T M inputs)) p) (pvals T M inputs).
  Definition art_of (inputs : amap nat) (p : path) : AR := t_artifact T (unit_of T (grp inputs p)) (grp inputs p) (group_rules T (grp inputs p)).
  Definition pdiag_of (inputs : amap nat) (p : path) : DG :=
    t_pdiag T (pvals T M inputs) (map fst (graphs_of M (sort_map inputs))) (unit_of T (grp inputs p)) (enriched_of T (grp inputs p)) p.
  Record snap_ok (inputs : amap nat) (al : alloc) (units : list uobj) (s : snap) : Prop := {
    so_graphs : s_graphs s = graphs_of M (sort_map inputs);
    so_values : values (s_parsed s) = pvals T M inputs;
    so_arcs : forall p a v, In (p, (a, v)) (s_parsed s) -> al a = Some (p, v);
    so_shallow : s_shallow s = map (fun e => (fst e, rules_of T (fst e) (snd e))) (pvals T M inputs);
    so_comps : s_components s = comps T (pvals T M inputs);
    so_units : forall i id, nget i (s_units s) = Some id -> sub_ok units id (pick (nth i (comps T (pvals T M inputs)) []) (pvals T M inputs));
    so_arts : forall p v, aget p (s_artifacts s) = Some v -> v = art_of inputs p;
    so_diags : forall p v, aget p (s_diags s) = Some v -> (forall g, world_in M inputs p <> Some (SGraph g)) -> v = pdiag_of inputs p
  }.
  Record good (b : db) (al : alloc) : Prop := {
    g_nodup : NoDup (map fst (b_inputs b));
    g_al : forall a, b_next b <= a -> al a = None;
    g_parsed : parsed_ok (c_parsed (b_cache b)) al;
    g_shallow : shallow_ok (c_shallow (b_cache b)) al;
    g_units : units_ok (c_units (b_cache b)) al (b_units b);
    g_snap : forall s, b_snap b = Some s -> snap_ok (b_inputs b) al (b_units b) s
  }.
  (** What a question about policies leaves alone. *)
  Record quiet (b b1 : db) : Prop := {
    q_inputs : b_inputs b1 = b_inputs b;
    q_stack : b_stack b1 = b_stack b;
    q_frames : b_frames b1 = b_frames b;
    q_ftypes : b_ftypes b1 = b_ftypes b;
    q_resolver : b_resolver b1 = b_resolver b;
    q_graphs : forall p x, aget p (c_graphs (b_cache b1)) = Some x -> aget p (c_graphs (b_cache b)) = Some x;
    q_diags : forall s1, b_snap b1 = Some s1 -> forall p v, aget p (s_diags s1) = Some v -> exists s, b_snap b = Some s /\ aget p (s_diags s) = Some v
  }.
  Lemma quiet_refl : forall b, quiet b b.
  Proof. intros b. constructor; auto. intros s E p v G. eauto. Qed.
  Lemma quiet_trans : forall a b c, quiet a b -> quiet b c -> quiet a c.
  Proof.
    intros a b c A B. destruct A, B. constructor; try congruence; auto.
    intros s1 E p v G. destruct (q_diags1 _ E _ _ G) as (s & E1 & G1). eauto.
  Qed.
  Definition grows (u u1 : list (@uobj PP RU UN EN)) : Prop := forall id sub, sub_ok u id sub -> sub_ok u1 id sub.
  Lemma grows_refl : forall u, grows u u. Proof. intros u id sub H. exact H. Qed.
  Lemma grows_trans : forall a b c, grows a b -> grows b c -> grows a c. Proof. intros a b c A B id sub H. apply B, A, H. Qed.

  Lemma units_ok_mono : forall c al al1 u u1, ext al al1 -> grows u u1 -> units_ok c al u -> units_ok c al1 u1.
  Proof.
    intros c al al1 u u1 X G H ms ars id E. destruct (H ms ars id E) as (sub & A & B). exists sub. split; [|now apply G].
    clear - A X. revert sub A. induction ars as [|a ars IH]; intros [|x sub] A; try discriminate A; [reflexivity|]. cbn in *. injection A as A1 A2. f_equal; [now apply X|now apply IH].
  Qed.
  Lemma snap_ok_mono : forall i al al1 u u1 s, ext al al1 -> grows u u1 -> snap_ok i al u s -> snap_ok i al1 u1 s.
  Proof. intros i al al1 u u1 s X G H. destruct H. constructor; auto. Qed.

  Lemma keep_get : forall {V} live (m : amap V) p v, aget p (keep live m) = Some v -> aget p m = Some v.
  Proof.
    intros V live m p v. unfold keep. induction m as [|[k x] m IH]; intros E; [discriminate E|]. cbn in *. destruct (amem k live) eqn:A; cbn in E.
    - destruct (String.eqb k p); [exact E|now apply IH].
    - destruct (String.eqb_spec k p) as [->|]; [|now apply IH]. exfalso. clear IH. induction m as [|[k1 y] m IH]; [discriminate E|]. cbn in E.
      destruct (amem k1 live) eqn:A1; cbn in E; [|now apply IH]. destruct (String.eqb_spec k1 p) as [->|]; [congruence|now apply IH].
  Qed.
  Lemma uget_filter : forall f m k v, uget k (filter (fun e => f (fst e)) m) = Some v -> uget k m = Some v.
  Proof.
    intros f m k v. induction m as [|[k1 x] m IH]; intros E; [discriminate E|]. cbn in *. destruct (f k1) eqn:A; cbn in E.
    - destruct (list_eq_dec string_dec k1 k); [exact E|now apply IH].
    - destruct (list_eq_dec string_dec k1 k) as [->|]; [|now apply IH]. exfalso. clear IH. induction m as [|[k2 y] m IH]; [discriminate E|]. cbn in E.
      destruct (f k2) eqn:A1; cbn in E; [|now apply IH]. destruct (list_eq_dec string_dec k2 k) as [->|]; [congruence|now apply IH].
  Qed.

  Lemma parse_all_ok : forall ps c next al out c1 n1, (forall a, next <= a -> al a = None) -> parsed_ok c al -> parse_all T M ps c next = (out, c1, n1) ->
    exists al1, ext al al1 /\ (forall a, n1 <= a -> al1 a = None) /\ parsed_ok c1 al1 /\
      values out = map (fun e => (fst e, t_parse T (fst e) (a_policy M (snd e)))) ps /\
      (forall p a v, In (p, (a, v)) out -> al1 a = Some (p, v)).
  Proof.
    induction ps as [|[p d] ps IH]; intros c next al out c1 n1 N C E; cbn [parse_all] in E.
    { injection E as <- <- <-. exists al. split; [apply ext_refl|]. split; [exact N|]. split; [exact C|]. split; [reflexivity|]. intros p a v []. }
    assert (New : let v := t_parse T p (a_policy M d) in
      exists al0, ext al al0 /\ (forall a, S next <= a -> al0 a = None) /\ parsed_ok (aset p (d, (next, v)) c) al0 /\ al0 next = Some (p, v)).
    { intros v. exists (fun a => if a =? next then Some (p, v) else al a). repeat split.
      - intros a x A. destruct (Nat.eqb_spec a next) as [->|]; [|exact A]. rewrite N in A; [discriminate|lia].
      - intros a L. destruct (Nat.eqb_spec a next); [lia|]. apply N. lia.
      - destruct (string_dec p p0) as [->|Ne].
        + rewrite aget_aset_eq in H. injection H as <- <- <-. now rewrite Nat.eqb_refl.
        + rewrite aget_aset_ne in H by congruence. destruct (C _ _ _ _ H) as [A _]. destruct (Nat.eqb_spec a next) as [->|]; [|exact A]. rewrite N in A; [discriminate|lia].
      - destruct (string_dec p p0) as [->|Ne].
        + rewrite aget_aset_eq in H. injection H as <- <- <-. reflexivity.
        + rewrite aget_aset_ne in H by congruence. exact (proj2 (C _ _ _ _ H)).
      - now rewrite Nat.eqb_refl. }
    assert (Step : forall pa c0 n0 al0, ext al al0 -> (forall a, n0 <= a -> al0 a = None) -> parsed_ok c0 al0 -> al0 (fst pa) = Some (p, snd pa) -> snd pa = t_parse T p (a_policy M d) ->
      (let '(out, c2, n2) := parse_all T M ps c0 n0 in ((p, pa) :: out, c2, n2)) = (out, c1, n1) ->
      exists al1, ext al al1 /\ (forall a, n1 <= a -> al1 a = None) /\ parsed_ok c1 al1 /\
        values out = map (fun e => (fst e, t_parse T (fst e) (a_policy M (snd e)))) ((p, d) :: ps) /\
        (forall p a v, In (p, (a, v)) out -> al1 a = Some (p, v))).
    { intros [a v] c0 n0 al0 X0 N0 C0 A0 V0 E0. cbn [fst snd] in *. destruct (parse_all T M ps c0 n0) as [[out0 c2] n2] eqn:E1. injection E0 as <- <- <-.
      destruct (IH _ _ _ _ _ _ N0 C0 E1) as (al1 & X1 & N1 & C1 & V1 & I1). exists al1. split; [eapply ext_trans; eauto|]. split; [exact N1|]. split; [exact C1|]. split.
      - cbn. rewrite <- V0. f_equal. exact V1.
      - intros q b u [Z|I]; [injection Z as <- <- <-; now apply X1|now apply I1]. }
    destruct New as (al0 & X0 & N0 & C0 & A0).
    destruct (aget p c) as [[d0 [a v]]|] eqn:G; [destruct (Nat.eqb_spec d0 d) as [->|]|].
    - destruct (C _ _ _ _ G) as [A V]. eapply (Step (a, v) c next al); eauto using ext_refl.
    - eapply (Step (next, _) _ _ al0); eauto.
    - eapply (Step (next, _) _ _ al0); eauto.
  Qed.
  Lemma shallow_all_ok : forall sc ps c al out c1, (forall p a v, In (p, (a, v)) ps -> al a = Some (p, v)) -> shallow_ok c al -> shallow_all T sc ps c = (out, c1) ->
    shallow_ok c1 al /\ out = map (fun e => (fst e, rules_of T (fst e) (snd e))) (values ps).
  Proof.
    intros sc. induction ps as [|[p [a v]] ps IH]; intros c al out c1 A C E; cbn [shallow_all] in E.
    { injection E as <- <-. split; [exact C|reflexivity]. }
    assert (Ap : al a = Some (p, v)) by (apply A; now left).
    assert (Step : forall rs c0, shallow_ok c0 al -> rs = rules_of T p v -> (let '(out, c2) := shallow_all T sc ps c0 in ((p, rs) :: out, c2)) = (out, c1) ->
      shallow_ok c1 al /\ out = map (fun e => (fst e, rules_of T (fst e) (snd e))) (values ((p, (a, v)) :: ps))).
    { intros rs c0 C0 -> E0. destruct (shallow_all T sc ps c0) as [out0 c2] eqn:E1. injection E0 as <- <-.
      destruct (IH _ _ _ _ (fun q b u I => A q b u (or_intror I)) C0 E1) as [C1 ->]. split; [exact C1|reflexivity]. }
    assert (New : shallow_ok (aset p (a, t_shallow T sc p v) c) al).
    { intros q b rs G. destruct (string_dec p q) as [->|Ne].
      - rewrite aget_aset_eq in G. injection G as <- <-. exists v. split; [exact Ap|apply SF].
      - rewrite aget_aset_ne in G by congruence. now apply C. }
    destruct (aget p c) as [[a0 rs]|] eqn:G; [destruct (Nat.eqb_spec a0 a) as [->|]|].
    - apply (Step rs c); auto. destruct (C _ _ _ G) as (v1 & A1 & ->). congruence.
    - eapply Step; [exact New|apply SF|exact E].
    - eapply Step; [exact New|apply SF|exact E].
  Qed.

  Lemma snapshot_ok : forall b al s b1, good b al -> snapshot T M b = (s, b1) ->
    exists al1, good b1 al1 /\ ext al al1 /\ quiet b b1 /\ b_units b1 = b_units b /\ b_snap b1 = Some s /\ snap_ok (b_inputs b) al1 (b_units b) s.
  Proof.
    intros b al s b1 G E. unfold snapshot in E. destruct (b_snap b) as [s0|] eqn:S0.
    { injection E as <- <-. exists al. split; [exact G|]. split; [apply ext_refl|]. split; [apply quiet_refl|]. split; [reflexivity|]. split; [exact S0|]. now apply (g_snap _ _ G). }
    unfold compute_snap in E.
    destruct (parse_all T M (policies_of M (sort_map (b_inputs b))) (c_parsed (retain (b_inputs b) (b_cache b))) (b_next b)) as [[parsed cp] next] eqn:P.
    assert (PO : parsed_ok (c_parsed (retain (b_inputs b) (b_cache b))) al).
    { intros p d a v H. apply keep_get in H. exact (g_parsed _ _ G _ _ _ _ H). }
    destruct (parse_all_ok _ _ _ al _ _ _ (g_al _ _ G) PO P) as (al1 & X & N & C & V & A).
    destruct (shallow_all T (t_scope T (values parsed)) parsed (c_shallow (retain (b_inputs b) (b_cache b)))) as [sh cs] eqn:Sh.
    assert (HO : shallow_ok (c_shallow (retain (b_inputs b) (b_cache b))) al1).
    { intros p a rs H. apply keep_get in H. destruct (g_shallow _ _ G _ _ _ H) as (v & H1 & H2). exists v. split; [now apply X|exact H2]. }
    destruct (shallow_all_ok _ _ _ al1 _ _ A HO Sh) as [CS Ssh].
    injection E as <- <-.
    assert (SO : snap_ok (b_inputs b) al1 (b_units b)
      {| s_parsed := parsed; s_graphs := graphs_of M (sort_map (b_inputs b)); s_shallow := sh; s_components := components T (values parsed) (map fst parsed) [];
         s_units := []; s_diags := []; s_artifacts := [] |}).
    { constructor; cbn [s_parsed s_graphs s_shallow s_components s_units s_diags s_artifacts]; auto; try (intros; discriminate).
      - rewrite Ssh, V. reflexivity.
      - unfold comps. change (pvals T M (b_inputs b)) with (map (fun e => (fst e, t_parse T (fst e) (a_policy M (snd e)))) (policies_of M (sort_map (b_inputs b)))). rewrite <- V. f_equal.
        unfold values. now rewrite map_map. }
    exists al1. split; [|split; [exact X|split; [|split; [reflexivity|split; [reflexivity|exact SO]]]]].
    - constructor; cbn [b_inputs b_next b_cache b_units b_snap c_parsed c_shallow c_units]; auto.
      + exact (g_nodup _ _ G).
      + eapply units_ok_mono; [exact X|apply grows_refl|]. intros ms ars id H. apply (g_units _ _ G ms ars id). unfold retain in H. cbn in H. eapply (uget_filter (fun l => forallb (fun m => amem m (b_inputs b)) l)); exact H.
      + intros s1 E1. injection E1 as <-. exact SO.
    - constructor; cbn [b_inputs b_next b_cache b_units b_snap b_stack b_frames b_ftypes b_resolver c_graphs]; auto.
      + intros p x H. now apply keep_get in H.
      + intros s1 E1. injection E1 as <-. cbn. discriminate.
  Qed.

  Lemma values_get : forall (ps : amap (nat * PP)) p, aget p (values ps) = option_map snd (aget p ps).
  Proof. intros ps p. unfold values. induction ps as [|[k [a v]] ps IH]; [reflexivity|]. cbn. destruct (String.eqb k p); [reflexivity|exact IH]. Qed.
  Lemma pick_values : forall ms (ps : amap (nat * PP)), pick ms (values ps) = values (pick ms ps).
  Proof.
    intros ms ps. unfold pick. induction ms as [|p ms IH]; [reflexivity|]. cbn [flat_map]. rewrite values_get, IH. destruct (aget p ps) as [[a v]|]; reflexivity.
  Qed.
  Lemma same_arcs_eq : forall a b, same_arcs a b = true -> a = b.
  Proof.
    induction a as [|x a IH]; intros [|y b] E; try discriminate E; [reflexivity|]. cbn in E. apply andb_true_iff in E as [E1 E2]. apply Nat.eqb_eq in E1. subst. f_equal. now apply IH.
  Qed.
  Lemma picked_arcs : forall inputs al units s ms, snap_ok inputs al units s ->
    map al (map (fun e => fst (snd e)) (pick ms (s_parsed s))) = map Some (pick ms (pvals T M inputs)).
  Proof.
    intros inputs al units s ms H. rewrite <- (so_values _ _ _ _ H), pick_values.
    assert (A : forall p a v, In (p, (a, v)) (pick ms (s_parsed s)) -> al a = Some (p, v)).
    { intros p a v I. apply pick_in in I as [_ I]. apply aget_Some_in in I. now apply (so_arcs _ _ _ _ H). }
    induction (pick ms (s_parsed s)) as [|[p [a v]] l IH]; [reflexivity|]. cbn. f_equal; [apply A; now left|]. apply IH. intros q b u I. apply A. now right.
  Qed.
  Lemma map_Some_inj : forall {A} (a b : list A), map Some a = map Some b -> a = b.
  Proof. induction a as [|x a IH]; intros [|y b] E; try discriminate E; [reflexivity|]. cbn in E. injection E as -> E. f_equal. now apply IH. Qed.
  Lemma picked_rules : forall inputs al units s ms, snap_ok inputs al units s ->
    concat (map snd (pick ms (s_shallow s))) = group_rules T (pick ms (pvals T M inputs)).
  Proof.
    intros inputs al units s ms H. rewrite (so_shallow _ _ _ _ H), pick_map, map_map. reflexivity.
  Qed.

  Lemma uoc_ok : forall b al s ms id b1, good b al -> b_snap b = Some s -> unit_or_compute T b s ms = (id, b1) ->
    good b1 al /\ quiet b b1 /\ grows (b_units b) (b_units b1) /\ b_snap b1 = Some s /\ sub_ok (b_units b1) id (pick ms (pvals T M (b_inputs b))).
  Proof.
    intros b al s ms id b1 G S0 E. pose proof (g_snap _ _ G _ S0) as SO. unfold unit_or_compute in E.
    pose proof (picked_arcs _ _ _ _ ms SO) as PA.
    assert (Make : (length (b_units b), with_cache (with_units b (b_units b ++ [compute_unit T ms s]))
        {| c_parsed := c_parsed (b_cache b); c_shallow := c_shallow (b_cache b);
           c_units := (ms, (map (fun e => fst (snd e)) (pick ms (s_parsed s)), length (b_units b))) :: c_units (b_cache b); c_graphs := c_graphs (b_cache b) |}) = (id, b1) ->
        good b1 al /\ quiet b b1 /\ grows (b_units b) (b_units b1) /\ b_snap b1 = Some s /\ sub_ok (b_units b1) id (pick ms (pvals T M (b_inputs b)))).
    { intros H. injection H as <- <-. cbn [with_cache with_units b_units b_snap].
      assert (GR : grows (b_units b) (b_units b ++ [compute_unit T ms s])).
      { intros i sub (u & H & R). exists u. split; [|exact R]. rewrite nth_error_app1; [exact H|]. apply nth_error_Some. congruence. }
      assert (NW : sub_ok (b_units b ++ [compute_unit T ms s]) (length (b_units b)) (pick ms (pvals T M (b_inputs b)))).
      { exists (compute_unit T ms s). split; [rewrite nth_error_app2, Nat.sub_diag by lia; reflexivity|]. unfold compute_unit. cbn.
        rewrite (so_values _ _ _ _ SO), (picked_rules _ _ _ _ ms SO). split; [reflexivity|]. split; [reflexivity|]. intros e H. discriminate H. }
      split; [|split; [|split; [exact GR|split; [exact S0|exact NW]]]].
      - destruct G. constructor; cbn [with_cache with_units b_inputs b_next b_cache b_units b_snap c_parsed c_shallow c_units]; auto.
        + intros ks ars i H. cbn in H. destruct (list_eq_dec string_dec ms ks) as [->|].
          * injection H as <- <-. exists (pick ks (pvals T M (b_inputs b))). split; [exact PA|exact NW].
          * destruct (g_units0 _ _ _ H) as (sub & A & B). exists sub. split; [exact A|now apply GR].
        + intros s1 H. eapply snap_ok_mono; [apply ext_refl|exact GR|]. now apply g_snap0.
      - constructor; cbn [with_cache with_units b_inputs b_next b_cache b_units b_snap b_stack b_frames b_ftypes b_resolver c_graphs]; auto. intros s1 H p v V. eauto. }
    destruct (uget ms (c_units (b_cache b))) as [[old i]|] eqn:U; [destruct (same_arcs old _) eqn:Sa|]; try (now apply Make).
    injection E as <- <-. apply same_arcs_eq in Sa. destruct (g_units _ _ G _ _ _ U) as (sub & A & B).
    rewrite Sa, PA in A. apply map_Some_inj in A. subst sub. split; [exact G|]. split; [apply quiet_refl|]. split; [apply grows_refl|]. auto.
  Qed.
  Lemma set_unit_ok : forall b al s i id, good b al -> b_snap b = Some s -> sub_ok (b_units b) id (pick (nth i (comps T (pvals T M (b_inputs b))) []) (pvals T M (b_inputs b))) ->
    good (with_snap b (Some (set_snap_unit s i id))) al.
  Proof.
    intros b al s i id G S0 U. pose proof (g_snap _ _ G _ S0) as SO. destruct G. constructor; auto. cbn [with_snap b_snap b_inputs b_units]. intros s1 E. injection E as <-.
    destruct SO. constructor; auto. cbn. intros j k H. destruct (Nat.eqb_spec i j) as [->|]; [|now apply so_units0]. injection H as <-. exact U.
  Qed.
  Lemma unit_ok : forall b al p id b1, good b al -> unit T M b p = (id, b1) ->
    exists al1, good b1 al1 /\ ext al al1 /\ quiet b b1 /\ grows (b_units b) (b_units b1) /\ (exists s, b_snap b1 = Some s) /\ sub_ok (b_units b1) id (grp (b_inputs b) p).
  Proof.
    intros b al p id b1 G E. unfold unit in E. destruct (snapshot T M b) as [s b2] eqn:S0.
    destruct (snapshot_ok _ _ _ _ G S0) as (al1 & G2 & X & Q & U2 & S2 & SO). exists al1.
    assert (I2 : b_inputs b2 = b_inputs b) by exact (q_inputs _ _ Q).
    rewrite (so_comps _ _ _ _ SO) in E. unfold grp, component_of. destruct (comp_index p (comps T (pvals T M (b_inputs b))) 0) as [i|].
    - destruct (nget i (s_units s)) as [k|] eqn:K.
      + injection E as <- <-. split; [exact G2|]. split; [exact X|]. split; [exact Q|]. rewrite U2. split; [apply grows_refl|]. split; [eauto|].
        exact (so_units _ _ _ _ SO _ _ K).
      + destruct (unit_or_compute T b2 s (nth i (comps T (pvals T M (b_inputs b))) [])) as [k b3] eqn:O.
        destruct (uoc_ok _ _ _ _ _ _ G2 S2 O) as (G3 & Q3 & R3 & S3 & U3). injection E as <- <-. rewrite I2 in U3.
        split; [|split; [exact X|split; [|split; [|split]]]].
        * apply set_unit_ok; auto. rewrite (q_inputs _ _ Q3), I2. exact U3.
        * eapply quiet_trans; [exact Q|]. eapply quiet_trans; [exact Q3|]. constructor; auto. cbn [with_snap b_snap]. intros s1 H q v V. injection H as <-. exists s. split; [exact S3|]. exact V.
        * rewrite <- U2. exact R3.
        * cbn. eauto.
        * exact U3.
    - destruct (uoc_ok _ _ _ _ _ _ G2 S2 E) as (G3 & Q3 & R3 & S3 & U3). rewrite I2 in U3. split; [exact G3|]. split; [exact X|]. split; [eapply quiet_trans; eauto|]. split; [rewrite <- U2; exact R3|]. split; [eauto|]. exact U3.
  Qed.
  Lemma unit_at_ok : forall b id sub, sub_ok (b_units b) id sub -> u_unit (unit_at T b id) = unit_of T sub /\ u_parsed (unit_at T b id) = sub.
  Proof. intros b id sub (u & H & A & B & _). unfold unit_at. rewrite (nth_error_nth _ _ _ H). auto. Qed.
  Lemma put_nth : forall (l : list (@uobj PP RU UN EN)) i x j, nth_error (put l i x) j = if (i =? j) && (j <? length l) then Some x else nth_error l j.
  Proof.
    induction l as [|y l IH]; intros i x j; [destruct i, j; cbn; rewrite ?andb_false_r; reflexivity|]. destruct i, j; cbn [put nth_error]; try reflexivity.
    rewrite IH. cbn. reflexivity.
  Qed.
  Lemma enriched_ok : forall b al id e b1 p, good b al -> sub_ok (b_units b) id (grp (b_inputs b) p) -> enriched_of_unit T M b id = (e, b1) ->
    e = enriched_of T (grp (b_inputs b) p) /\
    exists al1, good b1 al1 /\ ext al al1 /\ quiet b b1 /\ grows (b_units b) (b_units b1) /\ ((exists s, b_snap b = Some s) -> exists s, b_snap b1 = Some s).
  Proof.
    intros b al id e b1 p G U E. destruct (unit_at_ok _ _ _ U) as [UA UB]. pose proof U as (u & N & P & Q & R).
    assert (UE : unit_at T b id = u) by (unfold unit_at; now rewrite (nth_error_nth _ _ _ N)).
    unfold enriched_of_unit in E. rewrite UE in *. destruct (u_enriched u) as [e0|] eqn:UE0.
    - injection E as <- <-. split; [now apply R|]. exists al. split; [exact G|]. split; [apply ext_refl|]. split; [apply quiet_refl|]. split; [apply grows_refl|auto].
    - destruct (snapshot T M b) as [s b2] eqn:S0. destruct (snapshot_ok _ _ _ _ G S0) as (al1 & G2 & X & Q2 & U2 & S2 & SO).
      rewrite UA, UB, (so_values _ _ _ _ SO), (picked_rules _ _ _ _ _ SO) in E. 
      assert (PK : pick (map fst (grp (b_inputs b) p)) (pvals T M (b_inputs b)) = grp (b_inputs b) p) by (unfold grp; apply pick_again). rewrite PK in E.
      injection E as <- <-. split; [reflexivity|]. exists al1. set (x := {| u_unit := _; u_parsed := _; u_rules := _; u_enriched := _ |}).
      assert (GR : grows (b_units b2) (put (b_units b2) id x)).
      { intros j sub (y & H & A & B & C). rewrite U2 in *. unfold sub_ok. rewrite put_nth. destruct (Nat.eqb_spec id j) as [->|].
        - destruct (Nat.ltb_spec j (length (b_units b))) as [L|L]; cbn [andb].
          + exists x. rewrite N in H. injection H as <-. rewrite UB in A. subst sub. split; [reflexivity|]. unfold x. cbn. split; [reflexivity|]. split; [reflexivity|]. intros e1 H. injection H as <-. reflexivity.
          + exists y. auto.
        - cbn [andb]. exists y. auto. }
      split; [|split; [exact X|split; [|split]]].
      + destruct G2. constructor; cbn [with_units b_inputs b_next b_cache b_units b_snap]; auto.
        * eapply units_ok_mono; [apply ext_refl|exact GR|exact g_units0].
        * intros s1 H. eapply snap_ok_mono; [apply ext_refl|exact GR|]. now apply g_snap0.
      + destruct Q2. constructor; cbn [with_units b_inputs b_next b_cache b_units b_snap b_stack b_frames b_ftypes b_resolver]; auto.
      + cbn. rewrite <- U2. exact GR.
      + intros _. cbn. eauto.
  Qed.
End Facts.
