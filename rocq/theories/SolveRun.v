(** The state of a policy's evaluation: every block that has run has at its property what it computes. *)
From Coq Require Import String Ascii Bool List Arith Lia Relations.
From Verif Require Import Base Dec Value Heap Ast Ops Compiler Eval Funcs HeapSpec HeapFacts Isolate Session PureFacts RunSpec ContentFacts
  Deps Driver DriverSpec DriverFacts DriverRun Blocks BlocksSpec AssertFacts BlocksFacts PolicyRun PolicySpec SolveFacts.
From Verif Require RepFacts KeepFacts PropPolicy.
Import ListNotations.
Local Open Scope string_scope.
Local Open Scope nat_scope.
Local Open Scope list_scope.

Lemma flat_direct : forall d x A r, In r (flat_dep d A x) -> pr_alias r = false -> pr_unresolved r = false.
Proof.
  assert (K : forall p a u r, In r (pushed p a u) -> u = false -> pr_unresolved r = false).
  { intros [|y p] a u r H ->; cbn in H; [destruct H|]. destruct H as [<-|[]]. reflexivity. }
  intros d x. revert d. induction x as [p v|p|p a l IH] using DepsClaims.rdep_ind'; intros d A r H D; cbn [flat_dep] in H.
  - eapply K; eauto.
  - destruct (resolve_path A p); cbn in H; [destruct H|]. destruct H as [<-|[]]. discriminate.
  - cbv zeta in H. apply in_app_iff in H as [H|H]; [eapply K; eauto|]. destruct (max_nesting <=? S d); [destruct H|].
    apply in_flat_map in H as (y & Hy & H). rewrite Forall_forall in IH. eapply IH; eauto.
Qed.
Lemma reported_direct : forall l x, In x (flatten_reads l) -> pr_alias x = false -> pr_unresolved x = false.
Proof. intros l x H. unfold flatten_reads in H. cbn [Nat.leb max_nesting] in H. apply in_flat_map in H as (y & Hy & H). eapply flat_direct; eauto. Qed.
Lemma find_ref : forall (p : policy) b k, NoDup (map fst p) -> In (b, k) p -> block_of p b = Some k.
Proof.
  unfold block_of. induction p as [|[c x] p IH]; intros b k N H; [destruct H|]. inversion N as [|y r N1 N2]; subst. cbn. destruct (beqb c b) eqn:E.
  - apply beqb_iff in E. subst c. destruct H as [H|H]; [injection H as ->; reflexivity|]. exfalso. apply N1. apply in_map_iff. exists (b, k). auto.
  - destruct H as [H|H]; [injection H as -> ->|now apply IH]. exfalso. assert (beqb b b = true) by now apply beqb_iff. congruence.
Qed.
Lemma block_of_in : forall (p : policy) b k, block_of p b = Some k -> In (b, k) p.
Proof.
  unfold block_of. intros p b k H. destruct (find (fun e => beqb (fst e) b) p) as [[c x]|] eqn:F; [|discriminate]. injection H as ->.
  apply find_some in F as [F E]. apply beqb_iff in E. cbn in E. now subst c.
Qed.

Section Run.
  Variable L : lib.
  Hypothesis HL : plain_lib L.
  Variable parse : ekind -> string -> res node.
  Variable rewrite : string -> option string.
  Variable recovered : string -> list string.
  Variable dm : list string.
  Variable p : policy.
  Hypothesis HP : sound_policy parse dm p.
  Notation X := (std_ext L).
  Notation blocks := (p_blocks p).
  Notation writers := (graph_writers dm blocks).
  Notation kn := (p_known p).
  Notation al := (p_always parse rewrite recovered p).
  Notation rd := (p_reads parse rewrite recovered p).
  Notation wants := (wants dm blocks kn al rd).
  Hypothesis acyclic : forall b, ~ clos_trans _ wants b b.

  Lemma key_writes : forall b k, In (b, k) p -> plan_writes k = [block_key k].
  Proof.
    intros b k H. destruct (sp_flat _ _ _ HP b k H) as (_ & Ne & _). destruct (sp_closed _ _ _ HP b k H) as [_ C].
    destruct k as [x e|x l|x arms]; cbn in *; rewrite ?(proj2 (String.eqb_neq _ _) Ne); auto. now rewrite (proj2 (String.eqb_neq _ _) C).
  Qed.
  Lemma key_inj : forall b k b' k', In (b, k) p -> In (b', k') p -> block_key k = block_key k' -> b = b' /\ k = k'.
  Proof.
    intros b k b' k' H H' E. pose proof (sp_keys _ _ _ HP) as N. clear HP acyclic. induction p as [|[c x] q IH]; [destruct H|].
    inversion N as [|y r N1 N2]; subst. destruct H as [H|H], H' as [H'|H'].
    - now inversion H; inversion H'; subst.
    - injection H as -> ->. exfalso. apply N1. rewrite E. apply in_map_iff. exists (b', k'). auto.
    - injection H' as -> ->. exfalso. apply N1. rewrite <- E. apply in_map_iff. exists (b, k). auto.
    - auto.
  Qed.
  Lemma touched_flat : forall e q, In e blocks -> touches dm (snd e) q -> exists k, In (fst e, k) p /\ q = block_key k.
  Proof.
    intros e q He (_ & w & Hw & _ & Ha). apply in_map_iff in He as ([b k] & <- & He). cbn in *. rewrite (key_writes b k He) in Hw.
    destruct Hw as [<-|[]]. exists k. split; auto. apply nodot_above; auto. apply flat_nodot. apply (sp_flat _ _ _ HP b k He).
  Qed.
  Lemma head_feeds : forall b k r, In (b, k) p -> feeds dm blocks (join_dots (block_key k :: r)) b.
  Proof.
    intros b k r H. pose proof (key_writes b k H) as W. pose proof (sp_flat _ _ _ HP b k H) as (F & _). pose proof (sp_undeclared _ _ _ HP b k H) as U.
    assert (T : touches dm [block_key k] (block_key k)) by (split; auto; exists (block_key k); split; [now left|]; split; auto; apply above_refl).
    exists (block_key k), (block_key k). split; [|split; [apply above_refl|]].
    - split; [apply join_above|]. split.
      + exists (b, plan_writes k). split; [apply in_map_iff; exists (b, k); auto|]. cbn. now rewrite W.
      + intros r' Ha (e & He & Ht). destruct (touched_flat e r' He Ht) as (k' & Hk' & ->). pose proof (sp_flat _ _ _ HP _ _ Hk') as (F' & _).
        left. eapply nodot_two; [now apply flat_nodot|now apply flat_nodot|exact Ha|apply join_above].
    - apply in_split in H as Hs. destruct Hs as (l1 & l2 & E). exists (map (fun e => (fst e, plan_writes (snd e))) l1), (plan_writes k), (map (fun e => (fst e, plan_writes (snd e))) l2).
      split; [unfold p_blocks; rewrite E at 1; rewrite map_app; reflexivity|]. rewrite W. split; auto. intros e He Ht.
      destruct (touched_flat e (block_key k)) as (k' & Hk' & Ek); auto.
      { unfold p_blocks. rewrite E, map_app. apply in_app_iff. now left. }
      destruct (key_inj b k (fst e) k' H Hk' Ek) as [Eb Ek']. apply in_map_iff in He as ([c x] & <- & He). cbn in *. subst c k'.
      pose proof (sp_refs _ _ _ HP) as N. rewrite E, map_app in N. cbn in N. apply NoDup_remove_2 in N. apply N. apply in_app_iff. left. apply in_map_iff. exists (b, x). auto.
  Qed.
  Lemma head_path : forall e k b blk, e <> "" -> head_of parse e k -> In (b, blk) p -> block_key blk = k ->
    exists q, In q (read_paths parse rewrite recovered e) /\ In b (longest writers q).
  Proof.
    intros e k b blk Ne (n & x & r & P & Hx & Ha & Px) H E. exists (join_dots (pr_path x)). split.
    - unfold read_paths. rewrite (proj2 (String.eqb_neq _ _) Ne), P. apply in_flat_map. exists x. split; auto. unfold read_entry.
      rewrite (reported_direct _ _ Hx Ha), Ha. now left.
    - apply longest_feeds. rewrite Px, <- E. now apply head_feeds.
  Qed.
  Lemma in_always : forall b k e q, In (b, k) p -> closed_block parse k -> In e (asked_sources k) -> In q (read_paths parse rewrite recovered e) -> In q (al b).
  Proof.
    intros b k e q H C He Hq. unfold p_always. rewrite (find_ref p b k) by (auto; apply HP). unfold plan_always. apply dedup_in. destruct k as [x y|x l|x arms]; cbn in He.
    - destruct He as [<-|[]]. exact Hq.
    - apply in_map_iff in He as (c & <- & Hc). apply in_flat_map. eauto.
    - apply filter_In in He as [He _]. apply in_map_iff in He as (a & <- & Ha). apply in_flat_map. eauto.
  Qed.
  Lemma in_reads : forall b k pk e q, In (b, k) p -> In e (chosen_sources k pk) -> In q (read_paths parse rewrite recovered e) -> In q (rd b pk).
  Proof.
    intros b k pk e q H He Hq. unfold p_reads. rewrite (find_ref p b k) by (auto; apply HP). destruct k as [x y|x l|x arms]; cbn in *; try (destruct He; fail).
    destruct pk as [[id|]|]; try (destruct He; fail). destruct (find _ arms) as [a|]; [|destruct He]. destruct (String.eqb (ma_value a) ""); [destruct He|].
    destruct He as [<-|[]]. now apply dedup_in.
  Qed.

  (** *** The store at the start, with the content of its properties. *)
  Variable ls le : loc.
  Variable start_shows : string -> tree -> Prop.
  Definition at_ (h : heap) : pworld := PW h (VObj ls) (VObj le).
  Definition settled (l : list bref) (e : string) : Prop := forall b k, In (b, k) p -> head_of parse e (block_key k) -> In b l.
  Lemma settled_incl : forall l l' e, incl l l' -> settled l e -> settled l' e.
  Proof. intros l l' e H S0 b k Hb Hh. apply H. eapply S0; eauto. Qed.
  Definition env : value := VObj le.
  Notation entry := (bref * option pick)%type.
  Definition nm (l : list entry) : list bref := map fst l.
  (** What a logged block has left, in the heap [h], with [l] run before it. *)
  Definition holds (h : heap) (l : list entry) (b : bref) (o : option pick) : Prop :=
    exists pk k t, o = Some pk /\ In (b, k) p /\ picked L parse h env k pk /\ gives_tree L parse h env k pk t /\ shows h env (block_key k) t /\
      forall e, In e (asked_sources k ++ chosen_sources k pk) -> settled (nm l) e.
  Definition JW (w : pworld) (lg : list entry) : Prop :=
    exists h ms me, w = at_ h /\ BlocksFacts.world ls le ms me h /\ aget "$" ms = None /\ aget "$" me = None /\
      (forall k t, (forall b blk, In (b, blk) p -> In b (nm lg) -> block_key blk <> k) -> (shows h env k t <-> start_shows k t)) /\
      (forall l1 b o l2, lg = l1 ++ (b, o) :: l2 -> holds h l1 b o).
  Definition KW (w w' : pworld) (l : list bref) : Prop :=
    forall e, closed_source parse e -> settled l e -> same_on L parse (pw_heap w) env (pw_heap w') env e.

  Lemma env_shows : forall ms me h k t, BlocksFacts.world ls le ms me h -> aget "$" ms = None -> aget "$" me = None -> (shows h env k t <-> shows h (VObj ls) k t).
  Proof.
    intros ms me h k t W Ds De. unfold env. rewrite (shows_field h le me k t), (shows_field h ls ms k t) by apply W.
    assert (E : aget k me = aget k ms) by (destruct (String.eqb_spec k "$") as [->|N]; [congruence|now apply W]). now rewrite E.
  Qed.
  Lemma KW_refl : forall w l, KW w w l.
  Proof. intros w l e _ _. split; [reflexivity|]. split; [reflexivity|]. reflexivity. Qed.
  Lemma KW_trans : forall w1 w2 w3 l1 l2, incl l1 l2 -> KW w1 w2 l1 -> KW w2 w3 l2 -> KW w1 w3 l1.
  Proof. intros w1 w2 w3 l1 l2 H A B e C S0. eapply same_trans; [apply A; auto|apply B; auto]. eapply settled_incl; eauto. Qed.
  Lemma holds_move : forall h h' lg l1 b o l2 key, lg = l1 ++ (b, o) :: l2 -> (forall b' k, In (b', k) p -> block_key k = key -> ~ In b' (nm lg)) ->
    (forall e, closed_source parse e -> ~ head_of parse e key -> same_on L parse h env h' env e) ->
    (forall k t, k <> key -> shows h env k t <-> shows h' env k t) ->
    (exists b' k, In (b', k) p /\ block_key k = key) ->
    holds h l1 b o -> holds h' l1 b o.
  Proof.
    intros h h' lg l1 b o l2 key E Nk Sm Sh (b' & k' & Hb' & Ek) (pk & k & t & -> & Hk & Pk & Gk & Shk & St).
    assert (Hin : incl (nm l1) (nm lg)). { subst lg. unfold nm. rewrite map_app. intros x Hx. apply in_app_iff. now left. }
    assert (Q : forall e, In e (asked_sources k ++ chosen_sources k pk) -> same_on L parse h env h' env e).
    { intros e He. destruct (sources_closed parse k pk e (sp_closed _ _ _ HP b k Hk) He) as [Ce Ne]. apply Sm; auto. intros Hh. rewrite <- Ek in Hh.
      apply (Nk b' k' Hb' Ek). apply Hin. eapply St; eauto. }
    exists pk, k, t. split; auto. split; auto. split; [eapply picked_same'; [|exact Pk]; intros e He; apply Q; apply in_app_iff; now left|].
    split; [eapply gives_same'; [|exact Gk]; exact Q|]. split; auto. apply Sh; auto. intros Ekk. subst key.
    apply (Nk b k Hk Ekk). subst lg. unfold nm. rewrite map_app. apply in_app_iff. right. now left.
  Qed.
  (** Evaluating adds objects only. *)
  Lemma same_ext : forall ms me h g e, BlocksFacts.world ls le ms me h -> hext h g -> reads_only parse e -> same_on L parse h env g env e.
  Proof. intros ms me h g e W E R. eapply (looks_same L HL parse ls le); eauto. eapply world_looks; eauto. Qed.
  Lemma ext_step : forall h g lg, JW (at_ h) lg -> hext h g -> JW (at_ g) lg /\ forall e, closed_source parse e -> same_on L parse h env g env e.
  Proof.
    intros h g lg (h1 & ms & me & E & W & Ds & De & Sh & Hd) X0. injection E as <-. pose proof (world_hext _ _ _ _ _ _ W X0) as W'.
    assert (Sg : forall k t, shows g env k t <-> shows h env k t).
    { intros k t. rewrite (env_shows ms me g k t W' Ds De), (env_shows ms me h k t W Ds De). eapply kept_shows; eauto. now apply kept_hext. }
    split; [|intros e C; eapply same_ext; eauto; now apply closed_reads]. exists g, ms, me. do 4 (split; auto). split; [intros k t Hk; rewrite Sg; auto|].
    intros l1 b o l2 El. destruct (Hd l1 b o l2 El) as (pk & k & t & Eo & Hk & Pk & Gk & Shk & St).
    assert (Q : forall e, In e (asked_sources k ++ chosen_sources k pk) -> same_on L parse h env g env e).
    { intros e He. destruct (sources_closed parse k pk e (sp_closed _ _ _ HP b k Hk) He) as [Ce Ne]. eapply same_ext; eauto. now apply closed_reads. }
    exists pk, k, t. split; auto. split; auto. split; [eapply picked_same'; [|exact Pk]; intros e He; apply Q; apply in_app_iff; now left|].
    split; [eapply gives_same'; [|exact Gk]; exact Q|]. split; auto. now apply Sg.
  Qed.
  Lemma commit_step : forall w lg b k pk w' r, JW w lg -> In (b, k) p -> ~ In b (nm lg) -> picked L parse (pw_heap w) env k pk ->
    (forall e, In e (asked_sources k ++ chosen_sources k pk) -> settled (nm lg) e) -> bcommit X parse k pk w = (w', r) ->
    match r with
    | Ok _ => JW w' (lg ++ [(b, Some pk)]) /\ KW w w' (nm lg)
    | Err _ => JW w' lg /\ KW w w' (nm lg) /\ forall t, ~ gives_tree L parse (pw_heap w') env k pk t
    end.
  Proof.
    intros w lg b k pk w' r J Hk Nb Pk St Ec. destruct J as (h & ms & me & -> & W & Ds & De & Sh & Hd). cbn [pw_heap at_] in Pk.
    pose proof (closed_plain parse k (sp_closed _ _ _ HP b k Hk)) as Pl. pose proof (sp_flat _ _ _ HP b k Hk) as Fl.
    pose proof (commit_spec L HL parse ls le ms me h W De k pk w' r Pl Fl Ec) as C.
    assert (J0 : JW (at_ h) lg) by (exists h, ms, me; auto 10). destruct r as [u|er].
    2: { destruct C as ((g & X0 & ->) & Ng). destruct (ext_step h g lg J0 X0) as [A B]. split; auto. split; [intros e Ce _; apply B, Ce|]. cbn [pw_heap]. intros t G. apply (Ng t).
         eapply gives_same'; [|exact G]. intros e He. apply same_sym. apply B. now destruct (sources_closed parse k pk e (sp_closed _ _ _ HP b k Hk) He). }
    destruct C as (g & v & t & X0 & Rv & Cv & Gt & ->). pose proof (world_hext _ _ _ _ _ _ W X0) as Wg.
    destruct (write_flat ls le ms me g (block_key k) v t Wg Fl Rv Cv) as (g' & Ew & W' & Kp & _). rewrite Ew.
    assert (Nd : block_key k <> "$") by apply Fl.
    assert (Ds' : aget "$" (aset (block_key k) v ms) = None) by (rewrite aget_aset_ne; auto).
    assert (De' : aget "$" (aset (block_key k) v me) = None) by (rewrite aget_aset_ne; auto).
    assert (Kh : kept h g' ls le) by (eapply kept_trans; [apply kept_hext; exact X0|exact Kp]).
    assert (Sg : forall k' t', k' <> block_key k -> shows h env k' t' <-> shows g' env k' t').
    { intros k' t' N. rewrite (env_shows ms me h k' t' W Ds De), (env_shows _ _ g' k' t' W' Ds' De'). symmetry. eapply kept_shows; eauto. apply aget_aset_ne. auto. }
    assert (Sm : forall e, closed_source parse e -> ~ head_of parse e (block_key k) -> same_on L parse h env g' env e).
    { intros e Ce Nh. apply (heads_same L HL parse h le g' le e Ce); [apply (world_trees _ _ _ _ _ W)|apply (world_trees _ _ _ _ _ W')|].
      intros k' Hk' t'. apply Sg. intros ->. destruct Hk' as [Q|Q]; [now apply Nd|now apply Nh]. }
    assert (Nk : forall b' k', In (b', k') p -> block_key k' = block_key k -> ~ In b' (nm lg)).
    { intros b' k' H' E. destruct (key_inj b' k' b k H' Hk E) as [-> _]. exact Nb. }
    assert (Ns : forall e, settled (nm lg) e -> ~ head_of parse e (block_key k)). { intros e S0 Hh. apply Nb. eapply S0; eauto. }
    split.
    - exists g', (aset (block_key k) v ms), (aset (block_key k) v me). do 4 (split; auto). split.
      + intros k' t' Hk'. rewrite <- Sg.
        * apply Sh. intros b' blk Hb' Hin. apply (Hk' b' blk Hb'). unfold nm. rewrite map_app. apply in_app_iff. now left.
        * intros ->. apply (Hk' b k Hk); auto. unfold nm. rewrite map_app. apply in_app_iff. right. now left.
      + intros l1 b' o l2 El. apply snoc_cases in El as [(-> & <- & Eb)|(l2' & -> & El)].
        * injection Eb as <- <-. exists pk, k, t. split; auto. split; auto.
          assert (Q : forall e, In e (asked_sources k ++ chosen_sources k pk) -> same_on L parse h env g' env e).
          { intros e He. apply Sm; [|apply Ns; auto]. now destruct (sources_closed parse k pk e (sp_closed _ _ _ HP b k Hk) He). }
          split; [eapply picked_same'; [|exact Pk]; intros e He; apply Q; apply in_app_iff; now left|].
          split; [eapply gives_same'; [|exact Gt]; exact Q|]. split; auto. unfold env. rewrite (shows_field g' le _ (block_key k) t (proj1 (proj2 (proj2 W')))).
          exists v. split; [apply aget_aset_eq|]. now apply (Kp v t Rv Cv).
        * eapply (holds_move h g' lg l1 b' o l2' (block_key k)); eauto.
    - intros e Ce S0. apply Sm; auto.
  Qed.
  Lemma select_step : forall w lg k b extras w' r, JW w lg -> In (b, k) p -> bselect X parse extras k w = (w', r) ->
    JW w' lg /\ (forall l, KW w w' l) /\
    match r with Ok pk => picked L parse (pw_heap w') env k pk | Err _ => forall pk, ~ picked L parse (pw_heap w') env k pk end.
  Proof.
    intros w lg k b extras w' r J Hk Es. destruct J as (h & ms & me & -> & W & Ds & De & Sh & Hd).
    assert (J0 : JW (at_ h) lg) by (exists h, ms, me; auto 10).
    pose proof (closed_plain parse k (sp_closed _ _ _ HP b k Hk)) as Pl.
    destruct (select_spec L HL parse ls le ms me h W De extras k w' r Pl Es) as (g & -> & X0 & R). destruct (ext_step h g lg J0 X0) as [A B]. split; [exact A|].
    assert (Q : forall e, In e (asked_sources k) -> same_on L parse h env g env e).
    { intros e He. apply B. destruct (sources_closed parse k PUnconditional e (sp_closed _ _ _ HP b k Hk)); auto. apply in_app_iff. now left. }
    split; [intros l e Ce _; apply B, Ce|]. cbn [pw_heap]. destruct r as [pk|er].
    - eapply picked_same'; [|exact R]. exact Q.
    - intros pk P0. apply (R pk). eapply picked_same'; [|exact P0]. intros e He. apply same_sym. auto.
  Qed.
  Lemma JW_heap : forall w lg, JW w lg -> w = at_ (pw_heap w).
  Proof. intros w lg (h & ms & me & -> & _). reflexivity. Qed.

  Variable extras : bool.
  Variable goals : list string.
  Variable w0 : pworld.
  Notation sel := (p_select X parse p extras).
  Notation com := (p_commit X parse p).
  Notation state := (dstate pworld pick).
  Notation Inv := (Inv pworld pick writers kn al rd goals).
  Notation step := (step pworld pick err writers kn al rd sel com goals w0).
  Notation asked := (asked pick writers kn al rd goals).
  Notation lg := (log pworld pick).
  Notation bs := (busy pworld pick).
  Notation wd := (Driver.world pworld pick).
  Notation run_block := (run_block pworld pick err writers kn al rd sel com).

  (** Blocks that may run: closed under what a block asks for. *)
  Variable D : bref -> Prop.
  Hypothesis D_always : forall b q w, D b -> In q (al b) -> In w (longest writers q) -> kn w = true -> D w.
  Hypothesis D_reads : forall b k pk w l q w', D b -> In (b, k) p -> JW w l -> picked L parse (pw_heap w) env k pk ->
    (forall e, In e (asked_sources k) -> settled (nm l) e) -> In q (rd b pk) -> In w' (longest writers q) -> kn w' = true -> D w'.

  (** The reason of a failure: a block that computes nothing although all it reads is settled. *)
  Definition Stuck (w : pworld) (l : list entry) : Prop :=
    exists b k, In (b, k) p /\ D b /\ ~ In b (nm l) /\ (forall e, In e (asked_sources k) -> settled (nm l) e) /\
      ((forall pk, ~ picked L parse (pw_heap w) env k pk) \/
       exists pk, picked L parse (pw_heap w) env k pk /\ (forall e, In e (chosen_sources k pk) -> settled (nm l) e) /\
                  forall t, ~ gives_tree L parse (pw_heap w) env k pk t).
  Definition Keeps (s s' : state) (r : unit + err) : Prop :=
    JW (wd s') (lg s') /\ KW (wd s) (wd s') (nm (lg s)) /\ (forall e, r = inr e -> Stuck (wd s') (lg s')) /\
    (forall b, In b (nm (lg s')) -> In b (nm (lg s)) \/ D b).
  Lemma log_incl : forall s s' r, step s s' r -> incl (nm (lg s)) (nm (lg s')).
  Proof. intros s s' r H. destruct (t_log _ _ _ _ _ _ _ _ _ _ _ _ _ _ H) as (x & E). rewrite E. unfold nm. rewrite map_app. intros b Hb. apply in_app_iff. now left. Qed.
  Lemma each_keep : forall {A} (f : A -> state -> answer pworld pick err) B l,
    (forall x s s' r, In x l -> Inv s -> bs s = B -> JW (wd s) (lg s) -> f x s = Some (s', r) -> step s s' r /\ Keeps s s' r) ->
    forall s s' r, Inv s -> bs s = B -> JW (wd s) (lg s) -> Driver.each pworld pick err f l s = Some (s', r) -> Keeps s s' r.
  Proof.
    intros A f B l Hf. induction l as [|x l IH]; intros s s' r HI HB J Hr; cbn [Driver.each] in Hr.
    - injection Hr as <- <-. split; auto. split; [apply KW_refl|]. split; [intros e E; discriminate|auto].
    - destruct (f x s) as [[s1 r1]|] eqn:Ef; [|discriminate]. destruct (Hf x s s1 r1 (or_introl eq_refl) HI HB J Ef) as [Hs (J1 & K1 & S1 & D1)].
      destruct r1 as [u|er].
      + assert (HB1 : bs s1 = B) by (rewrite (t_busy _ _ _ _ _ _ _ _ _ _ _ _ _ _ Hs); exact HB).
        destruct (IH (fun y s s' r Hy => Hf y s s' r (or_intror Hy)) s1 s' r (t_inv _ _ _ _ _ _ _ _ _ _ _ _ _ _ Hs) HB1 J1 Hr) as (J2 & K2 & S2 & D2).
        split; auto. split; [eapply KW_trans; eauto; eapply log_incl; eauto|]. split; auto. intros b Hb. destruct (D2 b Hb) as [H|H]; auto.
      + injection Hr as <- <-. split; auto.
  Qed.
  Definition RunKeep (run : bref -> state -> answer pworld pick err) : Prop :=
    forall b s s' r, Inv s -> asked (bs s) b -> JW (wd s) (lg s) -> (kn b = true -> D b) -> run b s = Some (s', r) -> Keeps s s' r.
  Lemma demands_keep : forall run, RunOK pworld pick err writers kn al rd sel com goals w0 run -> RunKeep run ->
    forall ps s s' r, Inv s -> (forall q w, In q ps -> In w (longest writers q) -> asked (bs s) w) -> JW (wd s) (lg s) ->
    (forall q w, In q ps -> In w (longest writers q) -> kn w = true -> D w) ->
    Driver.each pworld pick err (demand pworld pick err writers run) ps s = Some (s', r) -> Keeps s s' r.
  Proof.
    intros run OK HK ps s s' r HI Ha J Hd Hr. eapply (each_keep (demand pworld pick err writers run) (bs s) ps); eauto.
    intros q s1 s1' r1 Hq HI1 HB1 J1 Hr1.
    assert (Ha1 : forall w, In w (longest writers q) -> asked (bs s1) w) by (intros w Hw; rewrite HB1; eauto).
    split; [eapply demand_step; eauto|]. unfold demand in Hr1. eapply (each_keep run (bs s1) (longest writers q)); eauto.
    intros w s2 s2' r2 Hw HI2 HB2 J2 Hr2. assert (Ha2 : asked (bs s2) w) by (rewrite HB2; auto). split; [eapply OK; eauto|eapply HK; eauto].
  Qed.
  Lemma known_in : forall b k, In (b, k) p -> kn b = true.
  Proof. intros b k H. unfold p_known. now rewrite (find_ref p b k (sp_refs _ _ _ HP) H). Qed.
  (** Without circles, what is fed has run. *)
  Lemma fed_done : forall s b rest o q w, Inv s -> bs s = b :: rest -> kn b = true -> kn w = true ->
    uses pick al rd b o q -> In w (longest writers q) -> fed pworld pick s w -> In w (nm (lg s)).
  Proof.
    intros s b rest o q w HI HB Kb Kw Hu Hw [F|F]; [now apply (i_log _ _ _ _ _ _ _ _ HI)|]. exfalso.
    assert (N : needs pick writers kn al rd b w) by (split; auto; exists o, q; auto).
    pose proof (i_chain _ _ _ _ _ _ _ _ HI) as C. rewrite HB in C, F. pose proof (chain_depends pick writers kn al rd rest b w C F) as Dp.
    apply (acyclic b). eapply PropPolicy.step_rt_trans; [apply PropPolicy.needs_wants; exact N|apply PropPolicy.depends_wants; exact Dp].
  Qed.
  Lemma run_keep : forall fuel, RunKeep (run_block fuel).
  Proof.
    induction fuel as [|f IH]; intros b s s' r HI Ha J Db Hr; cbn [Driver.run_block] in Hr; [discriminate|].
    pose proof (run_block_ok pworld pick err writers kn al rd sel com goals w0 f) as OK.
    destruct (bmem b (ran pworld pick s) || bmem b (bs s)) eqn:Em.
    { injection Hr as <- <-. split; auto. split; [apply KW_refl|]. split; [intros e E; discriminate|auto]. }
    apply orb_false_iff in Em as [Em1 Em2].
    assert (Hnr : ~ In b (ran pworld pick s)) by (rewrite <- bmem_iff; congruence). assert (Hnb : ~ In b (bs s)) by (rewrite <- bmem_iff; congruence).
    assert (Hnl : ~ In b (nm (lg s))) by (intro Hc; apply Hnr, (i_ran _ _ _ _ _ _ _ _ HI), Hc).
    set (s0 := DState pworld pick (wd s) (ran pworld pick s) (b :: bs s) (lg s)) in *.
    destruct (run_inner pworld pick err writers kn al rd sel com (run_block f) b s0) as [[s1 r1]|] eqn:Ei; [|discriminate].
    assert (G : Keeps s0 s1 r1). 2: { injection Hr as <- <-. exact G. }
    clear Hr. destruct Ha as [Hreach Hneed].
    assert (HI0 : Inv s0).
    { destruct HI as [A1 A2 A3 A4 A5 A6 A7]. constructor; cbn [s0 log ran busy]; auto.
      - cbn [chain]. split; [destruct (bs s); auto|exact A6].
      - constructor; assumption. }
    unfold run_inner in Ei. destruct (kn b) eqn:Ek.
    2: { injection Ei as <- <-. split; auto. split; [apply KW_refl|]. split; [intros e E; discriminate|auto]. }
    specialize (Db eq_refl).
    assert (Ek' := Ek). unfold p_known in Ek'. destruct (block_of p b) as [k|] eqn:Bk; [|discriminate]. clear Ek'. pose proof (block_of_in p b k Bk) as Hk.
    pose proof (sp_closed _ _ _ HP b k Hk) as Ck.
    assert (Hask : forall q w o, uses pick al rd b o q -> In w (longest writers q) -> asked (b :: bs s) w).
    { intros q w o Hu Hw. assert (Hn : needs pick writers kn al rd b w) by (split; [exact Ek|exists o, q; auto]). split; [|exact Hn].
      destruct Hreach as [g [v [Hg [Hv Hd]]]]. exists g, v. split; [exact Hg|]. split; [exact Hv|]. apply rt_trans with b; [exact Hd|apply rt_step, Hn]. }
    destruct (Driver.each pworld pick err (demand pworld pick err writers (run_block f)) (al b) s0) as [[s2 r2]|] eqn:E1; [|discriminate].
    assert (Ha0 : forall q w, In q (al b) -> In w (longest writers q) -> asked (bs s0) w) by (intros q w Hq Hw; exact (Hask q w None (or_introl Hq) Hw)).
    destruct (demands_step _ _ _ _ _ _ _ _ _ _ _ _ OK (al b) s0 s2 r2 HI0 Ha0 E1) as [Hs2 Hf2].
    destruct (demands_keep _ OK IH (al b) s0 s2 r2 HI0 Ha0 J (fun q w => D_always b q w Db) E1) as (J2 & K2 & S2 & D2).
    destruct r2 as [u2|e2].
    2: { injection Ei as <- <-. split; auto. }
    assert (HB2 : bs s2 = b :: bs s) by (rewrite (t_busy _ _ _ _ _ _ _ _ _ _ _ _ _ _ Hs2); reflexivity).
    assert (Hn2 : ~ In b (nm (lg s2))).
    { intros Hc. destruct (t_new _ _ _ _ _ _ _ _ _ _ _ _ _ _ Hs2 b Hc) as [Hx|Hx]; [exact (Hnl Hx)|apply Hx; left; reflexivity]. }
    assert (St2 : forall e, In e (asked_sources k) -> settled (nm (lg s2)) e).
    { intros e He b' k' Hb' Hh. destruct (sources_closed parse k PUnconditional e Ck) as [_ Ne]; [apply in_app_iff; now left|].
      destruct (head_path e (block_key k') b' k' Ne Hh Hb' eq_refl) as (q & Hq & Hw). pose proof (in_always b k e q Hk Ck He Hq) as Hal.
      apply (fed_done s2 b (bs s) None q b' (t_inv _ _ _ _ _ _ _ _ _ _ _ _ _ _ Hs2) HB2 Ek (known_in b' k' Hb') (or_introl Hal) Hw). exact (Hf2 Logic.I q b' Hal Hw). }
    destruct (bselect X parse extras k (wd s2)) as [w2 o2] eqn:Es.
    assert (Es0 : sel b (wd s2) = (w2, match o2 with Ok pk => inl (Some pk) | Err e => inr e end)) by (unfold p_select; rewrite Bk, Es; now destruct o2).
    rewrite Es0 in Ei. clear Es0.
    destruct (select_step (wd s2) (lg s2) k b extras w2 o2 J2 Hk Es) as (J3 & K3 & P3).
    assert (K03 : KW (wd s0) w2 (nm (lg s0))) by (eapply KW_trans; [eapply log_incl; exact Hs2|exact K2|apply K3]).
    destruct o2 as [pk|er].
    2: { injection Ei as <- <-. split; [exact J3|]. split; [exact K03|]. split; [|exact D2]. intros e _. exists b, k. split; [exact Hk|]. split; [exact Db|]. split; [exact Hn2|]. split; [exact St2|]. left. exact P3. }
    cbv beta iota in Ei. set (s3 := DState pworld pick w2 (ran pworld pick s2) (bs s2) (lg s2)) in *.
    assert (HI3 : Inv s3) by (apply inv_world, (t_inv _ _ _ _ _ _ _ _ _ _ _ _ _ _ Hs2)).
    destruct (Driver.each pworld pick err (demand pworld pick err writers (run_block f)) (rd b pk) s3) as [[s4 r4]|] eqn:E2; [|discriminate].
    assert (Ha3 : forall q w, In q (rd b pk) -> In w (longest writers q) -> asked (bs s3) w).
    { intros q w Hq Hw. cbn [s3 busy]. rewrite HB2. apply (Hask q w (Some pk)); [right; exists pk; auto|exact Hw]. }
    destruct (demands_step _ _ _ _ _ _ _ _ _ _ _ _ OK (rd b pk) s3 s4 r4 HI3 Ha3 E2) as [Hs4 Hf4].
    destruct (demands_keep _ OK IH (rd b pk) s3 s4 r4 HI3 Ha3 J3 (fun q w => D_reads b k pk w2 (lg s2) q w Db Hk J3 P3 St2) E2) as (J4 & K4 & S4 & D4).
    assert (D04 : forall x, In x (nm (lg s4)) -> In x (nm (lg s0)) \/ D x) by (intros x Hx; destruct (D4 x Hx) as [Hy|Hy]; [exact (D2 x Hy)|now right]).
    assert (I34 : incl (nm (lg s2)) (nm (lg s4))) by (exact (log_incl s3 s4 r4 Hs4)).
    assert (K04 : KW (wd s0) (wd s4) (nm (lg s0))). { eapply KW_trans; [|exact K03|exact K4]. exact (log_incl s0 s2 (inl u2) Hs2). }
    destruct r4 as [u4|e4].
    2: { injection Ei as <- <-. split; auto. }
    assert (HB4 : bs s4 = b :: bs s) by (rewrite (t_busy _ _ _ _ _ _ _ _ _ _ _ _ _ _ Hs4); exact HB2).
    assert (Hn4 : ~ In b (nm (lg s4))).
    { intros Hc. destruct (t_new _ _ _ _ _ _ _ _ _ _ _ _ _ _ Hs4 b Hc) as [Hx|Hx]; [exact (Hn2 Hx)|apply Hx]. cbn [s3 busy]. rewrite HB2. left. reflexivity. }
    assert (St4 : forall e, In e (asked_sources k ++ chosen_sources k pk) -> settled (nm (lg s4)) e).
    { intros e He. destruct (sources_closed parse k pk e Ck He) as [_ Ne]. apply in_app_iff in He as [He|He]; [eapply settled_incl; [exact I34|auto]|].
      intros b' k' Hb' Hh. destruct (head_path e (block_key k') b' k' Ne Hh Hb' eq_refl) as (q & Hq & Hw). pose proof (in_reads b k pk e q Hk He Hq) as Hrd.
      apply (fed_done s4 b (bs s) (Some pk) q b' (t_inv _ _ _ _ _ _ _ _ _ _ _ _ _ _ Hs4) HB4 Ek (known_in b' k' Hb')); [right; exists pk; auto|exact Hw|].
      exact (Hf4 Logic.I q b' Hrd Hw). }
    assert (P4 : picked L parse (pw_heap (wd s4)) env k pk).
    { eapply picked_same'; [|exact P3]. intros e He. apply (K4 e); [|apply St2; exact He]. apply (sources_closed parse k PUnconditional e Ck). apply in_app_iff. now left. }
    destruct (bcommit X parse k pk (wd s4)) as [w5 o5] eqn:Ec.
    assert (Ec0 : com b pk (wd s4) = (w5, match o5 with Ok u => inl u | Err e => inr e end)) by (unfold p_commit; rewrite Bk, Ec; now destruct o5).
    rewrite Ec0 in Ei. clear Ec0.
    pose proof (commit_step (wd s4) (lg s4) b k pk w5 o5 J4 Hk Hn4 P4 St4 Ec) as C.
    assert (I04 : incl (nm (lg s0)) (nm (lg s4))). { intros x Hx. apply I34. exact (log_incl s0 s2 (inl u2) Hs2 x Hx). }
    destruct o5 as [u5|e5].
    - destruct C as [J5 K5]. injection Ei as <- <-. split; [exact J5|]. split; [eapply KW_trans; [exact I04|exact K04|exact K5]|]. split; [intros e E; discriminate|].
      cbn [log]. intros x Hx. unfold nm in Hx. rewrite map_app in Hx. apply in_app_iff in Hx as [Hx|[<-|[]]]; [exact (D04 x Hx)|now right].
    - destruct C as (J5 & K5 & N5). injection Ei as <- <-. split; [exact J5|]. split; [eapply KW_trans; [exact I04|exact K04|exact K5]|]. split; [|exact D04].
      intros e _. exists b, k. split; [exact Hk|]. split; [exact Db|]. split; [exact Hn4|]. cbn [log]. split; [intros x Hx; apply St4; apply in_app_iff; now left|]. right. exists pk. split.
      + eapply picked_same'; [|exact P4]. intros x Hx. apply (K5 x); [apply (sources_closed parse k PUnconditional x Ck); apply in_app_iff; now left|].
        apply St4. apply in_app_iff. now left.
      + split; [intros x Hx; apply St4; apply in_app_iff; now right|exact N5].
  Qed.
End Run.
