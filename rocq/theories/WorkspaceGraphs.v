(** * The caches of a workspace hold what a fresh computation would give: graphs *)
From Coq Require Import String List Bool Arith NArith Lia Relations.
Import ListNotations.
From Verif Require Import Base Convert Workspace WorkspaceSpec WorkspaceMaps WorkspaceFacts.
Local Open Scope nat_scope.
Local Open Scope list_scope.

Section Graphs.
  Context {PD GC PP SC RU UN EN SG AN DG AR FT DI : Type}.
  Let tools := @tools PD GC PP SC RU UN EN SG AN DG AR FT DI.
  Let arcs := @arcs PD GC.
  Variable T : tools.
  Variable M : arcs.
  Hypothesis SF : scope_free T.
  Let db := @db PP RU UN EN AN DG AR FT.
  Let snap := @snap PP RU DG AR.
  Let alloc := nat -> option (path * PP).
  Let world := @world PD GC.
  Let good := good T M.
  Let ftypes := N -> option (@fentry FT).

  Lemma good_same : forall (b b1 : db) al, b_inputs b1 = b_inputs b -> b_next b1 = b_next b -> b_units b1 = b_units b -> b_snap b1 = b_snap b ->
    c_parsed (b_cache b1) = c_parsed (b_cache b) -> c_shallow (b_cache b1) = c_shallow (b_cache b) -> c_units (b_cache b1) = c_units (b_cache b) ->
    good b al -> good b1 al.
  Proof. intros b b1 al A B C D E F G H. destruct H. constructor; rewrite ?A, ?B, ?C, ?D, ?E, ?F, ?G; auto. Qed.
  Lemma good_record : forall b al ps fs, good b al -> good (record b ps fs) al.
  Proof. intros b al ps fs G. eapply good_same; [..|exact G]; unfold record; destruct (b_frames b) as [|[d f] r]; reflexivity. Qed.
  Lemma record_inputs : forall (b : db) ps fs, b_inputs (record b ps fs) = b_inputs b.
  Proof. intros b ps fs. unfold record. destruct (b_frames b) as [|[d f] r]; reflexivity. Qed.
  Lemma record_snap : forall (b : db) ps fs, b_snap (record b ps fs) = b_snap b.
  Proof. intros b ps fs. unfold record. destruct (b_frames b) as [|[d f] r]; reflexivity. Qed.
  Lemma good_frames : forall b al st fr, good b al -> good (with_frames b st fr) al.
  Proof. intros b al st fr G. eapply good_same; [..|exact G]; reflexivity. Qed.
  Lemma good_ftypes : forall b al f, good b al -> good (with_ftypes b f) al.
  Proof. intros b al f G. eapply good_same; [..|exact G]; reflexivity. Qed.
  Lemma good_store : forall b al p d f a, good b al -> good (store_graph_analysis b p d f a) al.
  Proof. intros b al p d f a G. eapply good_same; [..|exact G]; reflexivity. Qed.

  (** ** Whatever happens in a graph, the policies' part stays good *)
  Definition kept (b b1 : db) : Prop := (exists al1, good b1 al1) /\ b_inputs b1 = b_inputs b /\ ((exists s, b_snap b = Some s) -> exists s, b_snap b1 = Some s).
  Lemma kept_trans : forall a b c, b_inputs b = b_inputs a -> ((exists s, b_snap a = Some s) -> exists s, b_snap b = Some s) -> kept b c -> kept a c.
  Proof. intros a b c A B (G & I & S0). split; [exact G|]. split; [congruence|auto]. Qed.
  Lemma function_kept : forall b al k o b1, good b al -> function_type T b k = (o, b1) -> kept b b1.
  Proof.
    intros b al k o b1 G E. unfold function_type in E.
    assert (H : forall b0, good b0 al -> b_inputs b0 = b_inputs b -> b_snap b0 = b_snap b -> kept b (record b0 [] [(k, fstate T (b_ftypes b0) k)])).
    { intros b0 G0 A B. split; [exists al; now apply good_record|]. rewrite record_inputs, record_snap, A, B. auto. }
    destruct (fget k (b_ftypes b)) as [[t|]|]; [| |destruct (b_resolver b) as [r|]]; injection E as <- <-; try (apply H; auto).
    now apply good_ftypes.
  Qed.
  Lemma sig_kept : forall ga, (forall b al p, good b al -> kept b (snd (ga b p))) -> forall b al key r b1, good b al -> decision_signature T M ga b key = (r, b1) -> kept b b1.
  Proof.
    intros ga H b al key r b1 G E. unfold decision_signature in E. pose proof (good_record b al [key] [] G) as G0.
    destruct (snapshot T M (record b [key] [])) as [s b2] eqn:S0. destruct (snapshot_ok T M SF _ _ _ _ G0 S0) as (al2 & G2 & X2 & Q2 & U2 & S2 & _).
    assert (I2 : b_inputs b2 = b_inputs b) by (rewrite (q_inputs _ _ Q2); apply record_inputs).
    assert (K2 : kept b b2) by (split; [eauto|]; split; eauto).
    destruct (amem key (s_graphs s)).
    - destruct (pmem key (b_stack b2)); [injection E as <- <-; exact K2|]. pose proof (H b2 al2 key G2) as K. destruct (ga b2 key) as [[a|] b3]; injection E as <- <-; cbn in K; eapply kept_trans; eauto.
    - destruct (amem key (s_parsed s)); [|injection E as <- <-; exact K2].
      set (b3 := match comp_index key (s_components s) 0 with Some i => record b2 (nth i (s_components s) []) [] | None => b2 end) in E.
      assert (G3 : good b3 al2) by (unfold b3; destruct (comp_index key (s_components s) 0); [now apply good_record|exact G2]).
      assert (I3 : b_inputs b3 = b_inputs b) by (unfold b3; destruct (comp_index key (s_components s) 0); [now rewrite record_inputs|exact I2]).
      destruct (unit T M b3 key) as [id b4] eqn:U. destruct (unit_ok T M SF _ _ _ _ _ G3 U) as (al4 & G4 & _ & Q4 & _ & S4 & U4).
      rewrite <- (q_inputs _ _ Q4) in U4. destruct (enriched_of_unit T M b4 id) as [e b5] eqn:En. destruct (enriched_ok T M SF _ _ _ _ _ _ G4 U4 En) as (_ & al5 & G5 & _ & Q5 & _ & S5).
      injection E as <- <-. split; [eauto|]. split; [rewrite (q_inputs _ _ Q5), (q_inputs _ _ Q4); exact I3|]. auto.
  Qed.
  Lemma run_kept : forall sig, (forall b al key r b1, good b al -> sig b key = (r, b1) -> kept b b1) -> forall q b al a b1, good b al -> run_prog T sig b q = (a, b1) -> kept b b1.
  Proof.
    intros sig H. induction q as [a0|key k IH|key k IH]; intros b al a b1 G E; cbn [run_prog] in E.
    - injection E as <- <-. split; [eauto|]. auto.
    - destruct (sig b key) as [r b2] eqn:E2. destruct (H _ _ _ _ _ G E2) as ((al2 & G2) & I2 & S2). eapply kept_trans; [exact I2|exact S2|]. eapply IH; eauto.
    - destruct (function_type T b key) as [o b2] eqn:E2. destruct (function_kept _ _ _ _ _ G E2) as ((al2 & G2) & I2 & S2). eapply kept_trans; [exact I2|exact S2|]. eapply IH; eauto.
  Qed.
  Lemma analysis_kept : forall n b al p, good b al -> kept b (snd (graph_analysis T M n b p)).
  Proof.
    induction n as [|n IH]; intros b al p G; [split; [eauto|]; auto|]. cbn [graph_analysis].
    destruct (snapshot T M b) as [s b2] eqn:S0. destruct (snapshot_ok T M SF _ _ _ _ G S0) as (al2 & G2 & X2 & Q2 & U2 & S2 & _).
    pose proof (q_inputs _ _ Q2) as I2. assert (K2 : kept b b2) by (split; [eauto|]; split; eauto).
    destruct (aget p (s_graphs s)) as [d|]; [|exact K2].
    destruct (cached_graph_analysis T b2 p) as [[a b3]|] eqn:C.
    { unfold cached_graph_analysis in C. destruct (aget p (c_graphs (b_cache b2))) as [[ds a0]|]; [|discriminate C]. destruct (_ && _); [|discriminate C]. injection C as <- <-. cbn [snd].
      split; [exists al2; now apply good_record|]. rewrite record_inputs, record_snap. split; [exact I2|eauto]. }
    destruct (a_content M d) as [i|g]; [exact K2|].
    destruct (dict_walk _ _ _ _ _ _ _) as [visited dicts].
    set (b3 := record (with_frames b2 (p :: b_stack b2) (([p], []) :: b_frames b2)) visited []).
    assert (G3 : good b3 al2) by (apply good_record, good_frames; exact G2).
    assert (I3 : b_inputs b3 = b_inputs b) by (unfold b3; rewrite record_inputs; exact I2).
    destruct (run_prog T (decision_signature T M (graph_analysis T M n)) b3 _) as [a b4] eqn:R.
    assert (K4 : kept b3 b4) by (eapply run_kept; [|exact G3|exact R]; intros; eapply sig_kept; [|eassumption|eassumption]; exact IH).
    destruct K4 as ((al4 & G4) & I4 & S4). destruct (match b_frames b4 with f :: _ => f | [] => ([], []) end) as [docs fns]. cbn [snd].
    split; [exists al4; apply good_store, good_record, good_frames; exact G4|].
    split.
    - unfold store_graph_analysis. cbn [with_cache b_inputs]. rewrite record_inputs. cbn. congruence.
    - intros _. unfold store_graph_analysis. cbn [with_cache b_snap]. rewrite record_snap. cbn. apply S4. unfold b3. rewrite record_snap. cbn. eauto.
  Qed.

  (** ** Dictionaries *)
  Section Dicts.
    Variable w : world.
    Variable ps : amap PP.
    Hypothesis HP : policies T w ps.
    Definition heavy (vis : list path) (l : amap PP) : nat := fold_right (fun e n => (if pmem (fst e) vis then 0 else length (t_imports T (snd e))) + n) 0 l.
    Lemma heavy_cons : forall vis a x l, heavy vis ((a, x) :: l) = (if pmem a vis then 0 else length (t_imports T x)) + heavy vis l.
    Proof. reflexivity. Qed.
    Lemma heavy_le : forall p vis l, heavy (p :: vis) l <= heavy vis l.
    Proof. intros p vis l. induction l as [|[a x] l IH]; [cbn; lia|]. rewrite !heavy_cons, pmem_cons. destruct (String.eqb a p); cbn [orb]; destruct (pmem a vis); lia. Qed.
    Lemma heavy_see : forall p v vis l, ~ In p vis -> aget p l = Some v -> heavy (p :: vis) l + length (t_imports T v) <= heavy vis l.
    Proof.
      intros p v vis l N. induction l as [|[a x] l IH]; intros E; [discriminate E|]. cbn in E. rewrite !heavy_cons, pmem_cons.
      destruct (String.eqb_spec a p) as [Ea|Ne]; cbn [orb].
      - subst a. injection E as ->. apply pmem_not in N. rewrite N. pose proof (heavy_le p vis l) as H. cbn [Nat.add]. rewrite Nat.add_comm. apply Nat.add_le_mono; [reflexivity|exact H].
      - specialize (IH E). destruct (pmem a vis); lia.
    Qed.
    Lemma dict_walk_ok : forall n queue vis seen out v1 o1, length queue + heavy vis ps <= n -> dict_walk T ps n queue vis seen out = (v1, o1) -> sees_dicts T w queue vis seen out v1 o1.
    Proof.
      induction n as [|n IH]; intros queue vis seen out v1 o1 L E.
      { destruct queue; [|cbn in L; lia]. cbn in E. injection E as <- <-. constructor. }
      cbn [dict_walk] in E. destruct queue as [|p r]; [injection E as <- <-; constructor|]. destruct (pmem p vis) eqn:P.
      - apply pmem_in in P. apply sd_again; [exact P|]. apply IH; [cbn in L; lia|exact E].
      - apply pmem_not in P. destruct (aget p ps) as [v|] eqn:A.
        + match type of E with (let '(_, _) := ?X in _) = _ => destruct X as [seen1 out1] eqn:F end. eapply sd_policy; [exact P|apply (proj2 HP); exact A|exact F|]. apply IH; [|exact E].
          rewrite app_length. pose proof (heavy_see p v vis ps P A). cbn in L. unfold path in *. lia.
        + apply sd_none; [exact P| |].
          * intros v H. apply (proj2 HP) in H. congruence.
          * apply IH; [|exact E]. pose proof (heavy_le p vis ps). cbn in L. lia.
    Qed.
    Lemma heavy_fuel : forall queue, length queue + heavy [] ps <= dict_fuel T ps queue.
    Proof.
      intros queue. unfold dict_fuel. assert (H : forall l, heavy [] l = fold_right (fun e n => length (t_imports T (snd e)) + n) 0 l) by (induction l as [|[a x] l IH]; [reflexivity|]; rewrite heavy_cons, IH; reflexivity).
      rewrite H. apply Nat.le_succ_diag_r.
    Qed.
  End Dicts.
  Lemma policy_in_fun : forall (w : world) p v v1, policy_in T w p v -> policy_in T w p v1 -> v = v1.
  Proof. intros w p v v1 (d & A & ->) (d1 & B & ->). congruence. Qed.
  Lemma sees_fun : forall (w : world) q vis seen out v1 o1, sees_dicts T w q vis seen out v1 o1 -> forall v2 o2, sees_dicts T w q vis seen out v2 o2 -> v1 = v2 /\ o1 = o2.
  Proof.
    intros w q vis seen out v1 o1 H. induction H as [|p r vis seen out v1 o1 I H IH|p r vis seen out v1 o1 N P H IH|p v r vis seen out s1 u1 v1 o1 N P F H IH]; intros v2 o2 K.
    - inversion K; subst. auto.
    - inversion K; subst; try contradiction. now apply IH.
    - inversion K; subst; try contradiction; [now apply IH|]. exfalso. eapply P; eauto.
    - inversion K as [| |? ? ? ? ? ? ? N2 P2|? v0 ? ? ? ? ? ? ? ? N2 P2 F2 K2]; subst; try contradiction; [exfalso; eapply P2; eauto|].
      rewrite (policy_in_fun _ _ _ _ P2 P) in *. assert (Z : (s1, u1) = (seen1, out1)) by congruence. injection Z as -> ->. now apply IH.
  Qed.
  Lemma sees_grows : forall (w : world) q vis seen out v1 o1, sees_dicts T w q vis seen out v1 o1 -> incl vis v1 /\ incl q v1.
  Proof.
    intros w q vis seen out v1 o1 H. induction H as [|p r vis seen out v1 o1 I H [A B]|p r vis seen out v1 o1 N P H [A B]|p v r vis seen out s1 u1 v1 o1 N P F H [A B]].
    - split; [apply incl_refl|intros x []].
    - split; [exact A|]. intros x [<-|J]; auto.
    - split; [intros x J; apply A; now right|]. intros x [<-|J]; [apply A; now left|auto].
    - split; [intros x J; apply A; now right|]. intros x [<-|J]; [apply A; now left|]. apply B. apply in_app_iff. now left.
  Qed.
  Lemma sees_moves : forall (w : world) q vis seen out v1 o1, sees_dicts T w q vis seen out v1 o1 -> forall w1 : world, (forall x, In x v1 -> w1 x = w x) -> sees_dicts T w1 q vis seen out v1 o1.
  Proof.
    intros w q vis seen out v1 o1 H. induction H as [|p r vis seen out v1 o1 I H IH|p r vis seen out v1 o1 N P H IH|p v r vis seen out s1 u1 v1 o1 N P F H IH]; intros w1 E.
    - constructor.
    - apply sd_again; auto.
    - apply sd_none; auto. intros v (d & A & ->). apply (P (t_parse T p d)). exists d. split; [|reflexivity]. rewrite <- A. symmetry. apply E. apply (proj1 (sees_grows _ _ _ _ _ _ _ H)). now left.
    - eapply sd_policy; eauto. destruct P as (d & A & ->). exists d. split; [|reflexivity]. rewrite <- A. apply E. apply (proj1 (sees_grows _ _ _ _ _ _ _ H)). now left.
  Qed.
  Lemma kind_moves : forall (w w1 : world) l, (forall x, In x l -> w1 x = w x) -> map (import_kind w1) l = map (import_kind w) l.
  Proof. intros w w1 l H. apply map_ext_in. intros x I. unfold import_kind. now rewrite (H x I). Qed.

  (** ** Each graph has one analysis *)
  Scheme means_ind2 := Minimality for means Sort Prop with answers_ind2 := Minimality for answers Sort Prop.
  Lemma means_fun : forall (w : world) (f : ftypes) p a, means T w f p a -> forall a1, means T w f p a1 -> a = a1.
  Proof.
    intros w f. apply (means_ind2 _ _ _ _ _ _ _ _ _ _ _ _ _ T w f (fun p a => forall a1, means T w f p a1 -> a = a1) (fun q a => forall a1, answers T w f q a1 -> a = a1)).
    - intros p g a vis ds A B _ IH a1 H. inversion H as [? g1 ? vis1 ds1 A1 B1 C1]; subst. assert (g = g1) by congruence. subst g1. destruct (sees_fun _ _ _ _ _ _ _ B _ _ B1) as [-> ->]. now apply IH.
    - intros a a1 H. inversion H; subst. reflexivity.
    - intros key k b a A IHA _ IH a1 H. inversion A as [? g ? ? ? W]; subst. inversion H as [|? ? b1 ? A1 B1|? ? v g1 ? (d & P & _)|? ? ? P| | |]; subst; try congruence. rewrite (IHA b1 A1) in *. now apply IH.
    - intros key k v g a (d & P & _) G _ IH a1 H. inversion H as [|? ? b1 ? A1 B1|? ? v1 g1 ? P1 G1 B1|? ? ? P1| | |]; subst; try congruence.
      + inversion A1; subst. congruence.
      + rewrite <- (group_unique _ _ _ _ _ G G1) in B1. now apply IH.
    - intros key k a P _ IH a1 H. inversion H as [|? ? b1 ? A1 B1|? ? v1 g1 ? (d & P1 & _) G1 B1|? ? ? P1| | |]; subst; try congruence.
      + inversion A1; subst. congruence.
      + now apply IH.
    - intros key k t a P _ IH a1 H. inversion H as [| | | |? ? t1 ? P1|? ? ? P1|? ? ? P1]; subst; try congruence. assert (t1 = t) by congruence. subst. now apply IH.
    - intros key k a P _ IH a1 H. inversion H as [| | | |? ? t1 ? P1|? ? ? P1|? ? ? P1]; subst; try congruence. now apply IH.
    - intros key k a P _ IH a1 H. inversion H as [| | | |? ? t1 ? P1|? ? ? P1|? ? ? P1]; subst; try congruence. now apply IH.
  Qed.

  (** ** Runs *)
  Variable W : world -> Prop.
  Hypothesis WE : forall w w1 : world, (forall p, w p = w1 p) -> W w -> W w1.
  Hypothesis WC : forall w, W w -> no_cycle T w.
  Hypothesis WG : forall w w1, W w -> W w1 -> same_group T w w1.
  Hypothesis HI : forall t t1, t_hash T t = t_hash T t1 -> t = t1.

  Definition fst8 (f : ftypes) (k : N) : N := match f k with None => 0%N | Some FUnresolved => 1%N | Some (FTyped t) => (2 + t_hash T t)%N end.
  Lemma fst8_inj : forall f g k, fst8 f k = fst8 g k -> f k = g k.
  Proof.
    intros f g k. unfold fst8. destruct (f k) as [[t|]|], (g k) as [[t1|]|]; intros E; try lia; try reflexivity. rewrite (HI t t1); [reflexivity|lia].
  Qed.
  Definition supp (w0 : world) (D : list path) (F : list (N * N)) (X : world -> ftypes -> Prop) : Prop :=
    forall w f, W w -> (forall q, In q D -> w q = w0 q) -> (forall k st, In (k, st) F -> fst8 f k = st) -> X w f.
  Lemma supp_more : forall w0 D F D1 F1 X, incl D D1 -> incl F F1 -> supp w0 D F X -> supp w0 D1 F1 X.
  Proof. intros w0 D F D1 F1 X A B H w f Ww C E. apply H; auto. Qed.
  Definition entry_ok (ds : deps) (p : path) (a : AN) : Prop :=
    forall w f, W w -> (forall q st, In (q, st) (d_docs ds) -> w q = option_map (shows M) st) -> (forall k st, In (k, st) (d_fns ds) -> fst8 f k = st) -> means T w f p a.
  Definition sound (b : db) : Prop := forall p ds a, aget p (c_graphs (b_cache b)) = Some (ds, a) -> entry_ok ds p a.
  Definition frames_add (fr : list (list path * list (N * N))) (D : list path) (F : list (N * N)) : list (list path * list (N * N)) :=
    match fr with [] => [] | (d, f) :: r => (D ++ d, F ++ f) :: r end.
  Lemma frames_add_add : forall fr D F D1 F1, frames_add (frames_add fr D F) D1 F1 = frames_add fr (D1 ++ D) (F1 ++ F).
  Proof. intros [|[d f] r] D F D1 F1; [reflexivity|]. cbn. now rewrite !app_assoc. Qed.
  Lemma frames_add_nil : forall fr, frames_add fr [] [] = fr.
  Proof. intros [|[d f] r]; reflexivity. Qed.
  Let types (b : db) : ftypes := fun k => fget k (b_ftypes b).
  Definition keeps_diags (b b1 : db) : Prop :=
    forall s1, b_snap b1 = Some s1 -> forall p v, aget p (s_diags s1) = Some v -> exists s, b_snap b = Some s /\ aget p (s_diags s) = Some v.
  Record still (b b1 : db) (D : list path) (F : list (N * N)) : Prop := {
    st_good : exists al, good b1 al;
    st_sound : sound b1;
    st_inputs : b_inputs b1 = b_inputs b;
    st_stack : b_stack b1 = b_stack b;
    st_frames : b_frames b1 = frames_add (b_frames b) D F;
    st_ftypes : b_ftypes b1 = b_ftypes b;
    st_resolver : b_resolver b1 = b_resolver b;
    st_diags : keeps_diags b b1
  }.
  Lemma still_trans : forall a b c D F D1 F1, still a b D F -> still b c D1 F1 -> still a c (D1 ++ D) (F1 ++ F).
  Proof.
    intros a b c D F D1 F1 A B. destruct A, B. constructor; try congruence; auto.
    - rewrite st_frames1, st_frames0. apply frames_add_add.
    - intros s1 E p v V. destruct (st_diags1 _ E _ _ V) as (s & E1 & V1). eauto.
  Qed.
  Lemma quiet_still : forall b b1 al1, sound b -> quiet b b1 -> good b1 al1 -> still b b1 [] [].
  Proof.
    intros b b1 al1 S0 Q G. destruct Q. constructor; eauto.
    - intros p ds a E. apply q_graphs in E. now apply S0 in E.
    - rewrite frames_add_nil. exact q_frames.
  Qed.
  Lemma record_still : forall b al D F, good b al -> sound b -> still b (record b D F) D F.
  Proof.
    intros b al D F G S0. constructor; try (unfold record; destruct (b_frames b) as [|[d f] r]; reflexivity).
    - exists al. now apply good_record.
    - unfold record. destruct (b_frames b) as [|[d f] r]; exact S0.
    - unfold record. destruct (b_frames b) as [|[d f] r] eqn:Fr; [rewrite Fr; reflexivity|reflexivity].
    - intros s1 E p v V. rewrite record_snap in E. eauto.
  Qed.

  Definition resolves (w : world) (f : ftypes) (key : path) (r : resolution) : Prop :=
    (exists b, means T w f key b /\ r = Found (t_gsig T b)) \/
    (exists v g, policy_in T w key v /\ group T w key g /\ r = Found (t_sig T (unit_of T g) (enriched_of T g) g)) \/
    (w key = None /\ r = Missing).
  Lemma resolves_answers : forall w f key r k a, resolves w f key r -> answers T w f (k r) a -> answers T w f (AskSig key k) a.
  Proof.
    intros w f key r k a [(b & A & ->)|[(v & g & A & B & ->)|(A & ->)]] H.
    - eapply an_graph; eauto. - eapply an_policy; eauto. - now apply an_missing.
  Qed.
  Definition stamped (b : db) (F : list (N * N)) : Prop := forall k st, In (k, st) F -> fst8 (types b) k = st.
  (** What the stack must be like when [p] is looked at. *)
  Definition stack_ok (w : world) (st : list path) (p : path) : Prop :=
    NoDup st /\ (forall s, In s st -> exists g, w s = Some (SGraph g)) /\ forall s, In s st -> clos_trans path (calls T w) s p.
  Lemma stack_fresh : forall w st p, W w -> stack_ok w st p -> ~ In p st.
  Proof. intros w st p Ww (_ & _ & H) I. exact (WC w Ww p (H p I)). Qed.
  Lemma group_moves : forall (w w1 : world) p v g, W w -> W w1 -> policy_in T w p v -> group T w p g -> (forall q, In q (map fst g) -> w1 q = w q) -> policy_in T w1 p v /\ group T w1 p g.
  Proof.
    intros w w1 p v g Ww Ww1 P [B H] E.
    assert (Pk : In p (map fst g)) by (apply aget_in; exists v; apply H; split; [exact P|apply rst_refl]).
    assert (Pm : forall q u, policy_in T w q u -> connected T w p q -> In q (map fst g)) by (intros q u Q C; apply aget_in; exists u; now apply H).
    assert (Mv : forall q u, policy_in T w q u -> connected T w p q -> policy_in T w1 q u).
    { intros q u Q C. pose proof (E q (Pm q u Q C)) as E1. destruct Q as (d & Q & ->). exists d. split; [|reflexivity]. now rewrite E1. }
    assert (Cq : forall x y, connected T w x y -> x = y \/ (exists u, policy_in T w x u) /\ exists u, policy_in T w y u).
    { intros x y C. induction C as [x y (v0 & u & A1 & A2 & _)|x|x y C IH|x y z C1 IH1 C2 IH2]; [right; eauto|now left| |].
      - destruct IH as [->|[A1 A2]]; [now left|]. right. auto.
      - destruct IH1 as [->|[A1 A2]]; [exact IH2|]. destruct IH2 as [<-|[B1 B2]]; right; auto. }
    assert (Cy : forall q, connected T w p q -> exists u, policy_in T w q u) by (intros q C; destruct (Cq p q C) as [<-|[_ H1]]; eauto).
    assert (Ag : forall q, connected T w p q -> w1 q = w q) by (intros q C; destruct (Cy q C) as (u & Q); apply E; eapply Pm; eauto).
    pose proof (WG w w1 Ww Ww1 p v P Ag) as Back.
    assert (Fwd : forall q, connected T w p q -> connected T w1 p q).
    { assert (Gen : forall x y, connected T w x y -> connected T w p x -> connected T w1 x y).
      { intros x y C. induction C as [x y (v0 & u & A1 & A2 & I)|x|x y C IH|x y z C1 IH1 C2 IH2]; intros Px.
        - apply rst_step. exists v0, u. split; [now apply Mv|]. split; [|exact I]. apply Mv; [exact A2|]. eapply rst_trans; [exact Px|]. apply rst_step. exists v0, u. auto.
        - apply rst_refl.
        - apply rst_sym. apply IH. eapply rst_trans; [exact Px|]. now apply rst_sym.
        - eapply rst_trans; [now apply IH1|]. apply IH2. eapply rst_trans; eauto. }
      intros q C. apply Gen; [exact C|apply rst_refl]. }
    split; [apply Mv; [exact P|apply rst_refl]|]. split; [exact B|]. intros q u. rewrite H. split.
    - intros [Q C]. split; [now apply Mv|now apply Fwd].
    - intros [Q C]. pose proof (Back q C) as C0. split; [|exact C0]. destruct (Cy q C0) as (u0 & Q0). rewrite (policy_in_fun _ _ _ _ Q (Mv q u0 Q0 C0)). exact Q0.
  Qed.

  Definition GA (n : nat) : Prop := forall b al p o b1, good b al -> sound b -> W (world_in M (b_inputs b)) -> b_resolver b = None ->
    stack_ok (world_in M (b_inputs b)) (b_stack b) p -> S (length (b_inputs b)) <= n + length (b_stack b) ->
    graph_analysis T M n b p = (o, b1) ->
    exists D F, still b b1 D F /\ stamped b F /\
      match world_in M (b_inputs b) p with
      | Some (SGraph _) => exists a, o = Some a /\ supp (world_in M (b_inputs b)) D F (fun w f => means T w f p a)
      | _ => o = None
      end.

  Lemma snap_world : forall inputs al units s p, NoDup (map fst inputs) -> snap_ok T M inputs al units s ->
    match world_in M inputs p with
    | Some (SGraph g) => exists d, aget p (s_graphs s) = Some d /\ aget p inputs = Some d /\ a_content M d = CGraph g
    | Some (SPolicy d) => aget p (s_graphs s) = None /\ exists v, aget p (s_parsed s) = Some v
    | None => aget p (s_graphs s) = None /\ aget p (s_parsed s) = None
    end.
  Proof.
    intros inputs al units s p N SO. pose proof (by_path_nodup _ (sort_map_by inputs)) as N1.
    assert (Gg : aget p (s_graphs s) = match aget p inputs with Some d => match a_content M d with CPolicy _ => None | CGraph _ => Some d end | None => None end).
    { rewrite (so_graphs _ _ _ _ _ _ SO), graphs_of_get by exact N1. now rewrite sort_map_get. }
    pose proof (pvals_policies T M inputs N) as [_ Pv]. specialize (Pv p). rewrite <- (so_values _ _ _ _ _ _ SO) in Pv.
    assert (Vg : option_map snd (aget p (s_parsed s)) = aget p (values (s_parsed s))) by (symmetry; apply values_get).
    unfold world_in, shows in *. destruct (aget p inputs) as [d|] eqn:I0; cbn in *.
    - destruct (a_content M d) as [i|g] eqn:C.
      + split; [exact Gg|]. assert (V : aget p (values (s_parsed s)) = Some (t_parse T p (a_policy M i))) by (apply Pv; exists (a_policy M i); rewrite I0; cbn; rewrite C; auto).
        rewrite V in Vg. destruct (aget p (s_parsed s)) as [[x y]|]; [eauto|discriminate Vg].
      + exists d. auto.
    - split; [exact Gg|]. destruct (aget p (s_parsed s)) as [[x y]|]; [|reflexivity]. cbn in Vg. symmetry in Vg. apply Pv in Vg as (e & Z & _). rewrite I0 in Z. discriminate Z.
  Qed.

  Lemma sig_ok : forall n, GA n -> forall b al key r b1, good b al -> sound b -> W (world_in M (b_inputs b)) -> b_resolver b = None ->
    stack_ok (world_in M (b_inputs b)) (b_stack b) key -> S (length (b_inputs b)) <= n + length (b_stack b) ->
    decision_signature T M (graph_analysis T M n) b key = (r, b1) ->
    exists D F, still b b1 D F /\ stamped b F /\ supp (world_in M (b_inputs b)) D F (fun w f => resolves w f key r).
  Proof.
    intros n IH b al key r b1 G S0 Ww NR SK Fu E. unfold decision_signature in E.
    pose proof (record_still b al [key] [] G S0) as R1. pose proof (good_record b al [key] [] G) as G1. set (b0 := record b [key] []) in *.
    destruct (snapshot T M b0) as [s b2] eqn:Sn. destruct (snapshot_ok T M SF _ _ _ _ G1 Sn) as (al2 & G2 & X2 & Q2 & U2 & S2 & SO).
    pose proof (still_trans _ _ _ _ _ _ _ R1 (quiet_still b0 b2 al2 (st_sound _ _ _ _ R1) Q2 G2)) as R2. cbn [app] in R2.
    assert (I0 : b_inputs b0 = b_inputs b) by exact (st_inputs _ _ _ _ R1). rewrite I0 in SO.
    pose proof (snap_world _ _ _ _ key (g_nodup _ _ _ _ G) SO) as SW.
    pose proof (st_inputs _ _ _ _ R2) as I2. pose proof (st_stack _ _ _ _ R2) as K2. pose proof (st_resolver _ _ _ _ R2) as V2. pose proof (st_ftypes _ _ _ _ R2) as F2.
    unfold amem in E. destruct (world_in M (b_inputs b) key) as [[d|g]|] eqn:Wk.
    - destruct SW as [Sg (pv & Sp)]. rewrite Sg, Sp in E.
      set (b3 := match comp_index key (s_components s) 0 with Some i => record b2 (nth i (s_components s) []) [] | None => b2 end) in E.
      assert (R3 : still b2 b3 (component_of (s_components s) key) [] /\ good b3 al2).
      { unfold b3, component_of. destruct (comp_index key (s_components s) 0).
        - split; [eapply record_still; [exact G2|exact (st_sound _ _ _ _ R2)]|now apply good_record].
        - split; [eapply quiet_still; [exact (st_sound _ _ _ _ R2)|apply quiet_refl|exact G2]|exact G2]. }
      destruct R3 as [R3 G3]. pose proof (still_trans _ _ _ _ _ _ _ R2 R3) as R13. cbn [app] in R13.
      destruct (unit T M b3 key) as [id b4] eqn:U. destruct (unit_ok T M SF _ _ _ _ _ G3 U) as (al4 & G4 & _ & Q4 & _ & S4 & U4).
      pose proof U4 as U4'. rewrite <- (q_inputs _ _ Q4) in U4. destruct (enriched_of_unit T M b4 id) as [e b5] eqn:En.
      destruct (enriched_ok T M SF _ _ _ _ _ _ G4 U4 En) as (Ee & al5 & G5 & _ & Q5 & Gr5 & S5). apply Gr5 in U4.
      destruct (unit_at_ok T b5 _ _ U4) as [Ua Ub]. rewrite Ua, Ub, Ee in E. injection E as <- <-.
      assert (R45 : still b3 b5 [] []) by (eapply quiet_still; [exact (st_sound _ _ _ _ R3)|eapply quiet_trans; eauto|exact G5]).
      pose proof (still_trans _ _ _ _ _ _ _ R13 R45) as R. cbn [app] in R. eexists _, _. split; [exact R|]. split; [intros k st []|].
      assert (I4 : b_inputs b4 = b_inputs b) by (rewrite (q_inputs _ _ Q4), (st_inputs _ _ _ _ R3); exact I2). rewrite I4. set (gk := grp T M (b_inputs b) key).
      assert (Pk : policy_in T (world_in M (b_inputs b)) key (t_parse T key d)) by (exists d; auto).
      pose proof (pvals_policies T M (b_inputs b) (g_nodup _ _ _ _ G)) as HPv.
      pose proof (group_component T (world_in M (b_inputs b)) _ HPv key _ Pk) as Gk. fold (grp T M (b_inputs b) key) in Gk. fold gk in Gk.
      intros w f Ww1 Ag _. right. left. destruct (group_moves _ w key _ gk Ww Ww1 Pk Gk) as [P1 G1'].
      + intros q I. apply Ag. apply in_or_app. left. rewrite (so_comps _ _ _ _ _ _ SO). unfold gk, grp in I. apply pick_keys_incl in I. exact I.
      + exists (t_parse T key d), gk. auto.
    - destruct SW as (d & Sg & Si & Sc). rewrite Sg in E. assert (Nk : ~ In key (b_stack b2)) by (rewrite K2; eapply stack_fresh; [exact Ww|exact SK]). apply pmem_not in Nk. rewrite Nk in E.
      destruct (graph_analysis T M n b2 key) as [o b3] eqn:Ga.
      assert (P2 : W (world_in M (b_inputs b2))) by (rewrite I2; exact Ww).
      destruct (IH b2 al2 key o b3 G2 (st_sound _ _ _ _ R2) P2) as (D & F & R3 & Sp & H); [congruence|rewrite I2, K2; exact SK|rewrite I2, K2; exact Fu|exact Ga|].
      rewrite I2, Wk in H. destruct H as (a & -> & H). injection E as <- <-. pose proof (still_trans _ _ _ _ _ _ _ R2 R3) as R. eexists _, _. split; [exact R|]. split.
      + intros k st I. rewrite app_nil_r in I. specialize (Sp k st I). unfold fst8, types in *. now rewrite <- F2.
      + intros w f Ww1 Ag As. left. exists a. split; [|reflexivity]. apply H; [exact Ww1| |].
        * intros q I. apply Ag. apply in_or_app. now left.
        * intros k st I. apply As. apply in_or_app. now left.
    - destruct SW as [Sg Sp]. rewrite Sg, Sp in E. injection E as <- <-. eexists _, _. split; [exact R2|]. split; [intros k st []|].
      intros w f Ww1 Ag _. right. right. split; [|reflexivity]. rewrite (Ag key (or_introl eq_refl)). exact Wk.
  Qed.
  Lemma fn_ok : forall b al k o b1, good b al -> sound b -> b_resolver b = None -> function_type T b k = (o, b1) ->
    still b b1 [] [(k, fst8 (types b) k)] /\ o = match types b k with Some (FTyped t) => OTyped t | Some FUnresolved => OUnresolved | None => OUnknown end.
  Proof.
    intros b al k o b1 G S0 NR E. unfold function_type in E. rewrite NR in E. unfold types. destruct (fget k (b_ftypes b)) as [[t|]|] eqn:Fk; injection E as <- <-; (split; [|reflexivity]); eapply record_still; eauto.
  Qed.
  Lemma run_ok : forall n, GA n -> forall q b al a b1, good b al -> sound b -> W (world_in M (b_inputs b)) -> b_resolver b = None ->
    (forall key, asks q key -> stack_ok (world_in M (b_inputs b)) (b_stack b) key) -> S (length (b_inputs b)) <= n + length (b_stack b) ->
    run_prog T (decision_signature T M (graph_analysis T M n)) b q = (a, b1) ->
    exists D F, still b b1 D F /\ stamped b F /\ supp (world_in M (b_inputs b)) D F (fun w f => answers T w f q a).
  Proof.
    intros n HG. induction q as [a0|key k IH|key k IH]; intros b al a b1 G S0 Ww NR SK Fu E; cbn [run_prog] in E.
    - injection E as <- <-. exists [], []. split; [eapply quiet_still; [exact S0|apply quiet_refl|exact G]|]. split; [intros k st []|]. intros w f _ _ _. constructor.
    - destruct (decision_signature T M (graph_analysis T M n) b key) as [r b2] eqn:E2.
      destruct (sig_ok n HG b al key r b2 G S0 Ww NR (SK key (ask_here key k)) Fu E2) as (D & F & R & St & Su).
      destruct (st_good _ _ _ _ R) as (al2 & G2). pose proof (st_inputs _ _ _ _ R) as I2. pose proof (st_stack _ _ _ _ R) as K2. pose proof (st_ftypes _ _ _ _ R) as F2.
      destruct (IH r b2 al2 a b1 G2 (st_sound _ _ _ _ R)) as (D1 & F1 & R1 & St1 & Su1).
      + rewrite I2. exact Ww.
      + rewrite (st_resolver _ _ _ _ R). exact NR.
      + intros x Hx. rewrite I2, K2. apply SK. now apply ask_after with r.
      + rewrite I2, K2. exact Fu.
      + exact E.
      + eexists _, _. split; [exact (still_trans _ _ _ _ _ _ _ R R1)|]. split.
        * intros j st I. apply in_app_iff in I as [I|I]; [|now apply St]. specialize (St1 j st I). unfold fst8, types in *. now rewrite <- F2.
        * intros w f Ww1 Ag As. eapply resolves_answers; [apply Su; auto|rewrite I2 in Su1; apply Su1; auto]; intros; (apply Ag || apply As); apply in_or_app; auto.
    - destruct (function_type T b key) as [o b2] eqn:E2. destruct (fn_ok b al key o b2 G S0 NR E2) as [R Oo].
      destruct (st_good _ _ _ _ R) as (al2 & G2). pose proof (st_inputs _ _ _ _ R) as I2. pose proof (st_stack _ _ _ _ R) as K2. pose proof (st_ftypes _ _ _ _ R) as F2.
      destruct (IH o b2 al2 a b1 G2 (st_sound _ _ _ _ R)) as (D1 & F1 & R1 & St1 & Su1).
      + rewrite I2. exact Ww.
      + rewrite (st_resolver _ _ _ _ R). exact NR.
      + intros x Hx. rewrite I2, K2. apply SK. now apply ask_fn with o.
      + rewrite I2, K2. exact Fu.
      + exact E.
      + eexists _, _. split; [exact (still_trans _ _ _ _ _ _ _ R R1)|]. split.
        * intros j st I. apply in_app_iff in I as [I|[I|[]]]; [|now injection I as <- <-]. specialize (St1 j st I). unfold fst8, types in *. now rewrite <- F2.
        * rewrite I2 in Su1. intros w f Ww1 Ag As. assert (A1 : answers T w f (k o) a) by (apply Su1; auto; intros; (apply Ag || apply As); apply in_or_app; auto).
          assert (Fk : f key = types b key) by (apply fst8_inj, As; apply in_or_app; right; now left). rewrite <- Fk in Oo.
          destruct (f key) as [[t|]|] eqn:Fe; subst o; [eapply an_typed|eapply an_unresolved|eapply an_unknown]; eauto.
  Qed.

  Lemma stack_short : forall inputs st p, NoDup (map fst inputs) -> stack_ok (world_in M inputs) st p -> length st <= length inputs.
  Proof.
    intros inputs st p N (A & B & _). rewrite <- (map_length fst inputs). apply NoDup_incl_length; [exact A|]. intros s I. destruct (B s I) as (g & E). unfold world_in in E.
    apply aget_in. destruct (aget s inputs); [eauto|discriminate E].
  Qed.
  Lemma map_amap_kind : forall inputs al units s l, NoDup (map fst inputs) -> snap_ok T M inputs al units s -> map (kind_of s) l = map (import_kind (world_in M inputs)) l.
  Proof.
    intros inputs al units s l N SO. apply map_ext. intros p. pose proof (snap_world _ _ _ _ p N SO) as H. unfold kind_of, import_kind, amem.
    destruct (world_in M inputs p) as [[d|g]|]; [destruct H as [A (v & B)]|destruct H as (d & A & B & C)|destruct H as [A B]].
    - now rewrite B.
    - rewrite A. assert (Z : aget p (s_parsed s) = None); [|now rewrite Z].
      destruct (aget p (s_parsed s)) as [[x y]|] eqn:E; [|reflexivity]. exfalso.
      pose proof (pvals_policies T M inputs N) as [_ Pv]. assert (V : aget p (pvals T M inputs) = Some y) by (rewrite <- (so_values _ _ _ _ _ _ SO), values_get, E; reflexivity).
      apply Pv in V as (e & V & _). unfold world_in in V. rewrite B in V. cbn in V. unfold shows in V. rewrite C in V. discriminate V.
    - now rewrite A, B.
  Qed.

  Lemma analysis_ok : forall n, GA n.
  Proof.
    induction n as [|n IH]; intros b al p o b1 G S0 Ww NR SK Fu E.
    { exfalso. pose proof (stack_short _ _ _ (g_nodup _ _ _ _ G) SK). cbn in Fu. lia. }
    cbn [graph_analysis] in E. destruct (snapshot T M b) as [s b2] eqn:Sn. destruct (snapshot_ok T M SF _ _ _ _ G Sn) as (al2 & G2 & X2 & Q2 & U2 & S2 & SO).
    pose proof (quiet_still b b2 al2 S0 Q2 G2) as R2. pose proof (st_inputs _ _ _ _ R2) as I2. pose proof (st_stack _ _ _ _ R2) as K2. pose proof (st_ftypes _ _ _ _ R2) as F2.
    pose proof (snap_world _ _ _ _ p (g_nodup _ _ _ _ G) SO) as SW. set (w0 := world_in M (b_inputs b)) in *.
    destruct (w0 p) as [[d|g]|] eqn:Wp.
    1, 3: destruct SW as [Sg _]; rewrite Sg in E; injection E as <- <-; exists [], []; split; [exact R2|]; split; [intros k st []|reflexivity].
    destruct SW as (d & Sg & Si & Sc). rewrite Sg in E.
    destruct (cached_graph_analysis T b2 p) as [[a b3]|] eqn:C.
    - unfold cached_graph_analysis in C. destruct (aget p (c_graphs (b_cache b2))) as [[ds a0]|] eqn:Cg; [|discriminate C]. destruct (forallb _ (d_docs ds) && _) eqn:V; [|discriminate C].
      injection C as <- <-. injection E as <- <-. apply andb_true_iff in V as [V1 V2]. rewrite forallb_forall in V1, V2.
      pose proof (record_still b2 al2 (map fst (d_docs ds)) (d_fns ds) G2 (st_sound _ _ _ _ R2)) as R3. pose proof (still_trans _ _ _ _ _ _ _ R2 R3) as R. rewrite !app_nil_r in R.
      eexists _, _. split; [exact R|]. split.
      + intros k st I. specialize (V2 (k, st) I). apply N.eqb_eq in V2. cbn in V2. unfold fst8, types. rewrite <- F2. exact V2.
      + exists a0. split; [reflexivity|]. intros w f Ww1 Ag As. apply (st_sound _ _ _ _ R2 _ _ _ Cg w f Ww1).
        * intros q st I. rewrite (Ag q) by (apply in_map_iff; exists (q, st); auto). specialize (V1 (q, st) I). unfold stamp_ok in V1. cbn in V1. rewrite I2 in V1. unfold w0, world_in.
          destruct st as [d1|].
          -- destruct (aget q (b_inputs b)) as [d2|]; [|discriminate V1]. apply Nat.eqb_eq in V1. now subst.
          -- unfold amem in V1. destruct (aget q (b_inputs b)); [discriminate V1|reflexivity].
        * exact As.
    - rewrite Sc in E. destruct (dict_walk T (values (s_parsed s)) (dict_fuel T (values (s_parsed s)) (t_gimports T g)) (t_gimports T g) [] [] []) as [visited dicts] eqn:Dw.
      pose proof (pvals_policies T M (b_inputs b) (g_nodup _ _ _ _ G)) as HPv. fold w0 in HPv. rewrite <- (so_values _ _ _ _ _ _ SO) in HPv.
      pose proof (dict_walk_ok w0 _ HPv _ _ _ _ _ _ _ (heavy_fuel _ _) Dw) as SD.
      rewrite (map_amap_kind _ _ _ _ _ (g_nodup _ _ _ _ G) SO) in E. fold w0 in E.
      set (q := t_analyse T p g dicts (map (import_kind w0) (t_gimports T g))) in *.
      set (b3 := record (with_frames b2 (p :: b_stack b2) (([p], []) :: b_frames b2)) visited []) in *.
      assert (B3 : b_inputs b3 = b_inputs b /\ b_stack b3 = p :: b_stack b /\ b_frames b3 = (visited ++ [p], []) :: b_frames b /\ b_ftypes b3 = b_ftypes b /\ b_resolver b3 = None /\ b_snap b3 = b_snap b2 /\ b_cache b3 = b_cache b2).
      { unfold b3, record. cbn. rewrite I2, K2, F2, (st_resolver _ _ _ _ R2), (st_frames _ _ _ _ R2), frames_add_nil. auto 10. }
      destruct B3 as (I3 & K3 & Fr3 & F3 & V3 & Sn3 & C3).
      assert (G3 : good b3 al2) by (apply good_record, good_frames; exact G2).
      assert (S3 : sound b3) by (intros x ds a H; rewrite C3 in H; exact (st_sound _ _ _ _ R2 _ _ _ H)).
      destruct (run_prog T (decision_signature T M (graph_analysis T M n)) b3 q) as [a b4] eqn:Rn.
      assert (SK' : forall key, asks q key -> stack_ok (world_in M (b_inputs b3)) (b_stack b3) key).
      { intros key A. rewrite I3, K3. fold w0. destruct SK as (A1 & A2 & A3). assert (Cp : calls T w0 p key) by (exists g, dicts, (map (import_kind w0) (t_gimports T g)); auto). split; [|split].
        - constructor; [|exact A1]. intros I. exact (WC w0 Ww p (A3 p I)).
        - intros x [<-|I]; [exists g; exact Wp|auto].
        - intros x [<-|I]; [now apply t_step|]. eapply t_trans; [exact (A3 x I)|now apply t_step]. }
      destruct (run_ok n IH q b3 al2 a b4 G3 S3) as (D & F & R4 & St & Su); [rewrite I3; exact Ww|exact V3|exact SK'|rewrite I3, K3; cbn; lia|exact Rn|].
      rewrite (st_frames _ _ _ _ R4), Fr3 in E. cbn [frames_add tl] in E. injection E as <- <-.
      destruct (st_good _ _ _ _ R4) as (al4 & G4). pose proof (st_inputs _ _ _ _ R4) as I4. pose proof (st_stack _ _ _ _ R4) as K4. pose proof (st_ftypes _ _ _ _ R4) as F4.
      set (DD := D ++ visited ++ [p]). set (FF := F ++ []).
      assert (Main : supp w0 DD FF (fun w f => means T w f p a)).
      { intros w f Ww1 Ag As.
        assert (E1 : forall x, In x visited -> w x = w0 x) by (intros x I; apply Ag; unfold DD; apply in_or_app; right; apply in_or_app; now left).
        assert (E2 : w p = w0 p) by (apply Ag; unfold DD; apply in_or_app; right; apply in_or_app; right; now left).
        apply means_graph with g visited dicts.
        - now rewrite E2.
        - eapply sees_moves; [exact SD|exact E1].
        - rewrite (kind_moves w0 w); [|intros x I; apply E1; exact (proj2 (sees_grows _ _ _ _ _ _ _ SD) x I)]. rewrite I3 in Su. fold w0 in Su. apply Su; [exact Ww1| |].
          + intros x I. apply Ag. unfold DD. apply in_or_app. now left.
          + intros k st I. apply As. unfold FF. now rewrite app_nil_r. }
      set (b5 := with_frames b4 (tl (b_stack b4)) (b_frames b)). set (b6 := record b5 DD FF).
      assert (B6 : b_inputs b6 = b_inputs b /\ b_stack b6 = b_stack b /\ b_frames b6 = frames_add (b_frames b) DD FF /\ b_ftypes b6 = b_ftypes b /\ b_resolver b6 = None /\ b_snap b6 = b_snap b4 /\ b_cache b6 = b_cache b4).
      { unfold b6, record, b5. cbn [with_frames b_frames b_stack]. rewrite K4, K3. cbn [tl]. assert (V4 : b_resolver b4 = None) by (rewrite (st_resolver _ _ _ _ R4); exact V3).
        destruct (b_frames b) as [|[x y] r]; cbn; rewrite I4, I3, F4, F3, ?V4; auto 10. }
      destruct B6 as (I6 & K6 & Fr6 & F6 & V6 & Sn6 & C6). exists DD, FF. split; [|split].
      + constructor.
        * exists al4. apply good_store. unfold b6. apply good_record, good_frames. exact G4.
        * intros x ds y H. unfold store_graph_analysis in H. cbn [with_cache b_cache c_graphs] in H. destruct (string_dec p x) as [<-|Ne].
          -- rewrite aget_aset_eq in H. injection H as <- <-. intros w f Ww1 Ag As. cbn [d_docs d_fns] in *. apply Main; [exact Ww1| |exact As].
             intros z I. unfold w0, world_in. rewrite <- I6. apply Ag. apply in_map_iff. exists z. auto.
          -- rewrite aget_aset_ne in H by exact Ne. rewrite C6 in H. exact (st_sound _ _ _ _ R4 _ _ _ H).
        * exact I6.
        * exact K6.
        * exact Fr6.
        * exact F6.
        * cbn. rewrite V6. symmetry. exact NR.
        * intros s1 H x v V. cbn in H. rewrite Sn6 in H. destruct (st_diags _ _ _ _ R4 _ H _ _ V) as (s2 & H2 & V2). rewrite Sn3 in H2. exact (st_diags _ _ _ _ R2 _ H2 _ _ V2).
      + intros k st I. unfold FF in I. rewrite app_nil_r in I. specialize (St k st I). unfold fst8, types in *. now rewrite <- F3.
      + exists a. split; [reflexivity|exact Main].
  Qed.
End Graphs.
