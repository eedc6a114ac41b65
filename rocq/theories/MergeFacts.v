(** Merging the outputs of several nodes. *)
From Coq Require Import String ZArith Lia Bool List Arith.
From Verif Require Import Base Dec Value Heap HeapSpec TreeFacts HeapFacts HeapClaims ContentFacts Graph Walker WalkSpec.
Import ListNotations.
Local Open Scope string_scope.
Local Open Scope list_scope.
Local Open Scope nat_scope.

(** Merging a patch into equal documents gives equal results. *)
Lemma tmerge_teq : forall p d d', wf_tree d -> wf_tree d' -> wf_tree p -> teq d d' = true -> teq (tmerge d p) (tmerge d' p) = true.
Proof.
  induction p using tree_ind'; intros d0 d' Wd Wd' Wp E; try (apply teq_refl; exact Wp).
  destruct d0 as [| | | | |dm|], d' as [| | | | |dm'|]; try discriminate; try (apply teq_refl; exact Wp).
  rewrite !tmerge_obj. assert (W1 := wf_tmerge _ _ Wd Wp). assert (W2 := wf_tmerge _ _ Wd' Wp). rewrite tmerge_obj in W1, W2.
  apply teq_keys; [exact W1|exact W2|]. intros k. inversion Wd as [| | | | | |? Nd Fd]; inversion Wd' as [| | | | | |? Nd' Fd']; inversion Wp as [| | | | | |? Np Fp]; subst.
  rewrite !tmerge_entries_get by assumption. pose proof (proj1 (teq_keys dm dm' Wd Wd') E k) as K.
  destruct (aget k m) as [p|] eqn:G; [|exact K].
  assert (I := aget_Some_in _ _ _ G). rewrite Forall_forall in H, Fp. specialize (H (k, p) I). specialize (Fp (k, p) I). cbn in H, Fp.
  assert (X : teq (tmerge (or_tnull (aget k dm)) p) (tmerge (or_tnull (aget k dm')) p) = true).
  { destruct (aget k dm) as [a|] eqn:Ga, (aget k dm') as [b|] eqn:Gb; try (exfalso; exact K); cbn [or_tnull].
    - apply H; [exact (wf_get _ _ _ Wd Ga)|exact (wf_get _ _ _ Wd' Gb)|exact Fp|exact K].
    - apply H; [constructor|constructor|exact Fp|reflexivity]. }
  destruct p; exact X || exact Logic.I.
Qed.
Lemma tmerge_top_teq : forall p d d', wf_tree d -> wf_tree d' -> wf_tree p -> teq d d' = true -> teq (tmerge_top d p) (tmerge_top d' p) = true.
Proof.
  intros p d d' W W' Wp E. destruct p; cbn [tmerge_top]; try exact E; [apply teq_refl; exact Wp|apply tmerge_teq; assumption].
Qed.
Lemma wf_tmerge_top : forall p d, wf_tree d -> wf_tree p -> wf_tree (tmerge_top d p).
Proof. intros p d W Wp. destruct p; cbn [tmerge_top]; try exact W; [exact Wp|apply wf_tmerge; assumption]. Qed.

(** ** What the result of a merge reaches *)
Definition within (h : heap) (v : value) : Prop := forall l, reachl h v l -> l < length h.
Definition box (con : loc -> value) : Prop := con = VArr \/ con = VObj.
Lemma repr_within : forall h v t, repr h v t -> within h v.
Proof. intros h v t R l H. eapply reachl_lt; eauto. Qed.
Lemma hext_old : forall h h1 l, hext h h1 -> l < length h -> hget h1 l = hget h l.
Proof. intros h h1 l (s & ->) L. unfold hget. apply nth_error_app1. exact L. Qed.
Lemma within_back : forall h h1 v w, within h v -> hext h h1 -> reach h1 v w -> reach h v w.
Proof.
  intros h h1 v w W X R. induction R as [v|l a x w G I R IH|l m k x w G I R IH]; [constructor| |].
  - assert (L : l < length h) by (apply W; left; constructor). rewrite (hext_old h h1 l X L) in G. eapply reach_arr; eauto. apply IH. intros l0 H. apply W. eapply reachl_arr; eauto.
  - assert (L : l < length h) by (apply W; right; constructor). rewrite (hext_old h h1 l X L) in G. eapply reach_obj; eauto. apply IH. intros l0 H. apply W. eapply reachl_obj; eauto.
Qed.
Lemma within_hext : forall h h1 v, within h v -> hext h h1 -> within h1 v.
Proof.
  intros h h1 v W X l [H|H]; apply (within_back h h1 v _ W X) in H.
  - assert (l < length h) by (apply W; left; exact H). destruct X as (s & ->). rewrite app_length. lia.
  - assert (l < length h) by (apply W; right; exact H). destruct X as (s & ->). rewrite app_length. lia.
Qed.
(** [v] in [h1] reaches only containers that are new since [h] or that satisfy [P]. *)
Definition news (h h1 : heap) (P : value -> Prop) (v : value) : Prop :=
  forall con l, box con -> reach h1 v (con l) -> length h <= l < length h1 \/ P (con l).
Lemma news_within : forall h h1 (P : value -> Prop) v, hext h h1 -> (forall con l, box con -> P (con l) -> l < length h) -> news h h1 P v -> within h1 v.
Proof.
  intros h h1 P v X HP N l [H|H].
  - destruct (N VArr l (or_introl eq_refl) H) as [L|L]; [lia|]. apply (HP VArr) in L; [|left; reflexivity]. destruct X as (s & ->). rewrite app_length. lia.
  - destruct (N VObj l (or_intror eq_refl) H) as [L|L]; [lia|]. apply (HP VObj) in L; [|right; reflexivity]. destruct X as (s & ->). rewrite app_length. lia.
Qed.
Lemma news_hext : forall h h1 h2 (P : value -> Prop) v, hext h1 h2 -> within h1 v -> news h h1 P v -> news h h2 P v.
Proof.
  intros h h1 h2 P v X W N con l B R. apply (within_back h1 h2 v _ W X) in R. destruct (N con l B R) as [L|L]; [left; destruct X as (s & ->); rewrite app_length; lia|auto].
Qed.
Lemma hext_length : forall h h1, hext h h1 -> length h <= length h1.
Proof. intros h h1 (s & ->). rewrite app_length. lia. Qed.

Lemma reach_obj_inv : forall h l w, reach h (VObj l) w -> w = VObj l \/ exists m k x, hget h l = Some (CObj m) /\ In (k, x) m /\ reach h x w.
Proof. intros h l w R. inversion R as [| |l0 m k x w0 G I R' E1 E2]; subst; [auto|right; eauto 8]. Qed.
Lemma merge_cow_reach : forall n h doc patch top h1 v c, within h doc -> within h patch -> merge_cow n h doc patch top = Some (h1, v, c) ->
  hext h h1 /\ news h h1 (fun w => reach h doc w \/ reach h patch w) v.
Proof.
  induction n as [|n IH]; intros h doc patch top h1 v c Wd Wp E; [discriminate|].
  assert (Keep : forall c', Some (h, doc, c') = Some (h1, v, c) -> hext h h1 /\ news h h1 (fun w => reach h doc w \/ reach h patch w) v).
  { intros c' X. injection X as <- <- _. split; [apply hext_refl|]. intros con l B R. auto. }
  assert (Take : forall c', Some (h, patch, c') = Some (h1, v, c) -> hext h h1 /\ news h h1 (fun w => reach h doc w \/ reach h patch w) v).
  { intros c' X. injection X as <- <- _. split; [apply hext_refl|]. intros con l B R. auto. }
  assert (Veq : match veq n [] h doc patch with Some (Ok true) => Some (h, doc, false) | Some (Ok false) => Some (h, patch, true) | _ => None end = Some (h1, v, c) ->
    hext h h1 /\ news h h1 (fun w => reach h doc w \/ reach h patch w) v).
  { destruct (veq n [] h doc patch) as [[[]|]|]; intros X; try discriminate; eauto. }
  destruct patch as [| | | |lp|lp|]; destruct top; cbn [merge_cow] in E; eauto; try (destruct doc; eauto; fail).
  all: destruct doc as [| | | | |ld|]; eauto.
  all: destruct (Nat.eqb ld lp); eauto.
  all: destruct (hobj h ld) as [dm|] eqn:Gd; [|discriminate]; destruct (hobj h lp) as [pm|] eqn:Gp; [|discriminate].
  all: apply hobj_hget in Gd; apply hobj_hget in Gp.
  all: match type of E with match ?f _ _ false _ with _ => _ end = _ => set (go := f) in E end.
  all: assert (Loop : forall r h0 m ch h2 m2 c2, incl r pm -> hext h h0 -> (forall k e, In (k, e) m -> news h h0 (fun w => reach h (VObj ld) w \/ reach h (VObj lp) w) e /\ within h0 e) ->
      go h0 m ch r = Some (h2, m2, c2) -> hext h h2 /\ forall k e, In (k, e) m2 -> news h h2 (fun w => reach h (VObj ld) w \/ reach h (VObj lp) w) e /\ within h2 e).
  1,3: intros r; induction r as [|[k x] r IHr]; intros h0 m ch h2 m2 c2 Ir X Hm Eg; [cbn in Eg; injection Eg as <- <- _; auto|].
  1,2: assert (Ix : In (k, x) pm) by (apply Ir; left; reflexivity); assert (Ir' : incl r pm) by (intros z Hz; apply Ir; right; exact Hz).
  1,2: assert (Wx : within h x) by (intros l R; apply Wp; eapply reachl_obj; eauto).
  1,2: destruct (value_null_dec x) as [->|Nx].
  1,3: cbn in Eg; apply (IHr h0 (adel k m) (ch || amem k m)%bool h2 m2 c2 Ir' X); [|exact Eg]; intros k' e I; apply (Hm k' e); eapply adel_in; exact I.
  1,2: set (entry := match aget k m with Some e => e | None => VNull end) in *.
  1,2: assert (We : news h h0 (fun w => reach h (VObj ld) w \/ reach h (VObj lp) w) entry /\ within h0 entry).
  1,3: unfold entry; destruct (aget k m) as [e|] eqn:Ge; [apply (Hm k e); apply aget_Some_in; exact Ge|];
       split; [intros con l B R; exfalso; inversion R as [vv Ev| |]; destruct B; subst con; discriminate|intros l [R|R]; inversion R].
  1,2: assert (Em : exists h3 e' c3, merge_cow n h0 entry x false = Some (h3, e', c3) /\ go h3 (aset k e' m) (ch || c3)%bool r = Some (h2, m2, c2)).
  1,3: unfold go in Eg; cbn in Eg; fold go in Eg; fold entry in Eg; destruct x; try congruence;
       match type of Eg with match ?t with _ => _ end = _ => destruct t as [[[h3 e'] c3]|]; [|discriminate] end; exists h3, e', c3; auto.
  1,2: destruct Em as (h3 & e' & c3 & Em & Eg'); destruct We as [We1 We2].
  1,2: destruct (IH h0 entry x false h3 e' c3 We2 (within_hext _ _ _ Wx X) Em) as (X3 & N3).
  1,2: assert (N3' : news h h3 (fun w => reach h (VObj ld) w \/ reach h (VObj lp) w) e').
  1,3: intros con l B R; destruct (N3 con l B R) as [L|[L|L]]; [left; pose proof (hext_length _ _ X); lia| |];
       [destruct (We1 con l B L) as [L'|L']; [left; pose proof (hext_length _ _ X3); lia|auto]|right; right; apply (within_back h h0 x _ Wx X) in L; eapply reach_obj; eauto].
  1,2: assert (Old : forall con l, box con -> reach h (VObj ld) (con l) \/ reach h (VObj lp) (con l) -> l < length h)
      by (intros con l B [R|R]; [apply Wd|apply Wp]; destruct B; subst con; [left|right|left|right]; exact R).
  1,2: apply (IHr h3 (aset k e' m) (ch || c3)%bool h2 m2 c2 Ir'); [eapply hext_trans; eauto| |exact Eg'].
  1,2: intros k' e I; apply aset_in in I; destruct I as [Ei|I]; [injection Ei as -> ->; split; [exact N3'|exact (news_within h h3 (fun w => reach h (VObj ld) w \/ reach h (VObj lp) w) e' (hext_trans _ _ _ X X3) Old N3')]|].
  1,2: destruct (Hm k' e I) as [Q1 Q2]; split; [eapply news_hext; eauto|eapply within_hext; eauto].
  all: destruct (go h dm false pm) as [[[h2 m2] c2]|] eqn:Eg; [|discriminate].
  all: destruct (Loop pm h dm false h2 m2 c2 (incl_refl _) (hext_refl _)) as (X2 & N2); [|exact Eg|].
  1,3: intros k e I; split; [intros con l B R; right; left; eapply reach_obj; eauto|intros l R; apply Wd; eapply reachl_obj; eauto].
  all: destruct c2; [|injection E as <- <- _; split; [exact X2|]; intros con l B R; right; left; eapply within_back; eauto].
  all: unfold new_obj, halloc in E; injection E as <- <- _; split; [eapply hext_trans; [exact X2|apply hext_alloc]|].
  all: intros con l B R; apply reach_obj_inv in R; destruct R as [Ev|(m & k & x & G & I & R')].
  1,3: destruct B; subst con; [discriminate|]; injection Ev as ->; left; rewrite app_length; cbn; pose proof (hext_length _ _ X2); lia.
  all: rewrite hget_alloc_new in G; injection G as <-; destruct (N2 k x I) as [Q1 Q2]; apply (within_back h2 (h2 ++ [CObj m2]) x _ Q2 (hext_alloc _ _)) in R'.
  all: destruct (Q1 con l B R') as [L|L]; [left; rewrite app_length; cbn; lia|right; exact L].
Qed.

(** ** Merging a list of values *)
Lemma merge_all_ok : forall vs ts h0 h acc ta done, hext h0 h -> Forall2 (repr h0) vs ts -> Forall wf_tree ts ->
  repr h acc ta -> wf_tree ta -> news h0 h (fun w => exists v, In v done /\ reach h0 v w) acc ->
  (forall v w, In v done -> In w vs -> share_ok h0 v w) -> apart h0 vs ->
  exists h1 v t, merge_all h acc vs = (h1, Ok v) /\ hext h h1 /\ repr h1 v t /\ wf_tree t /\
    forall ta', wf_tree ta' -> teq ta ta' = true -> teq t (fold_left tmerge_top ts ta') = true.
Proof.
  induction vs as [|v vs IH]; intros ts h0 h acc ta done X F W Ra Wa N Sd Ap; inversion F as [|? t ? ts' Rv F']; subst.
  - exists h, acc, ta. cbn. split; [reflexivity|]. split; [apply hext_refl|]. auto.
  - inversion W as [|? ? Wt W']; subst. destruct Ap as [Ap1 Ap2]. cbn [merge_all fold_left]. unfold merge_clone.
    assert (Rv' := repr_hext _ _ _ _ X Rv).
    assert (Sh : share_ok h acc v).
    { intros l tl R1 R2 Rl. apply (within_back h0 h v _ (repr_within _ _ _ Rv) X) in R2.
      assert (Ll : l < length h0) by (apply (repr_within _ _ _ Rv); right; exact R2).
      destruct (N VObj l (or_intror eq_refl) R1) as [L|(d & Id & Rd)]; [lia|].
      destruct (repr_reach _ _ _ _ Rv R2) as (t1 & R3 & _). rewrite (repr_fun _ _ _ Rl _ (repr_hext _ _ _ _ X R3)).
      apply (Sd d v Id (or_introl eq_refl) l t1 Rd R2 R3). }
    pose proof (height_le _ _ _ Ra) as Ha. pose proof (height_le _ _ _ Rv') as Hv.
    destruct (merge_cow_ok (S (S (S (2 * length h)))) h acc v ta t true Ra Rv' Wa Wt Sh ltac:(lia)) as (h1 & a & c & t' & E & X1 & R1 & W1 & T1 & _).
    destruct (merge_cow_reach _ _ _ _ _ _ _ _ (repr_within _ _ _ Ra) (repr_within _ _ _ Rv') E) as (_ & N1).
    rewrite E.
    destruct (IH ts' h0 h1 a t' (v :: done)) as (h2 & v2 & t2 & E2 & X2 & R2 & W2 & T2); auto.
    + eapply hext_trans; eauto.
    + intros con l B R. destruct (N1 con l B R) as [L|[L|L]].
      * left. pose proof (hext_length _ _ X). lia.
      * destruct (N con l B L) as [L'|(d & Id & Rd)]; [left; pose proof (hext_length _ _ X1); lia|]. right. exists d. split; [right; exact Id|exact Rd].
      * right. exists v. split; [left; reflexivity|]. exact (within_back h0 h v _ (repr_within _ _ _ Rv) X L).
    + intros d w [<-|Id] Iw; [rewrite Forall_forall in Ap1; apply Ap1; exact Iw|apply Sd; [exact Id|right; exact Iw]].
    + exists h2, v2, t2. split; [exact E2|]. split; [eapply hext_trans; eauto|]. split; [exact R2|]. split; [exact W2|].
      intros ta' Wt' Et. apply T2; [apply wf_tmerge_top; assumption|]. eapply teq_trans; [exact T1|]. apply tmerge_top_teq; assumption.
Qed.
Lemma merge_values_ok : forall h vs ts, wf_heap h -> Forall2 (repr h) vs ts -> apart h vs ->
  exists h1 v t, merge_values vs h = (h1, Ok v) /\ hext h h1 /\ repr h1 v t /\ teq t (merge_trees ts) = true.
Proof.
  intros h vs ts Wh F Ap.
  assert (We : wf_tree (TObj [])) by (constructor; constructor).
  assert (Fresh : exists v, new_obj h [] = (h ++ [CObj []], v) /\ repr (h ++ [CObj []]) v (TObj [])).
  { unfold new_obj, halloc. eexists. split; [reflexivity|]. eapply RObj; [apply hget_alloc_new|constructor]. }
  destruct Fresh as (o & Eo & Ro).
  assert (No : forall P, news h (h ++ [CObj []]) P o).
  { intros P con l B R. unfold new_obj, halloc in Eo. injection Eo as Eo. rewrite <- Eo in R. apply reach_obj_inv in R. destruct R as [Ev|(m & k & x & G & I & R')].
    - destruct B; subst con; [discriminate|]. injection Ev as ->. left. rewrite app_length. cbn. lia.
    - rewrite hget_alloc_new in G. injection G as <-. destruct I. }
  assert (Wts : Forall wf_tree ts). { clear -Wh F. induction F; constructor; auto. eapply repr_wf; eauto. }
  destruct F as [|v t vs ts Rv F].
  - unfold merge_values. rewrite Eo. exists (h ++ [CObj []]), o, (TObj []). split; [reflexivity|]. split; [apply hext_alloc|]. split; [exact Ro|]. apply teq_refl. exact We.
  - inversion Wts as [|? ? Wt Wts']; subst. destruct Ap as [Ap1 Ap2]. unfold merge_values, merge_trees.
    assert (Case : (exists l, (v = VObj l \/ v = VArr l) /\ (match t with TObj _ | TArr _ => t | _ => TObj [] end) = t) \/
      ((forall l, v <> VObj l) /\ (forall l, v <> VArr l) /\ (match t with TObj _ | TArr _ => t | _ => TObj [] end) = TObj [])).
    { inversion Rv; subst; try (right; split; [congruence|]; split; [congruence|reflexivity]); left; eexists; split; auto. }
    destruct Case as [(l & Ev & Et)|(N1 & N2 & Et)]; rewrite Et.
    + replace (match v with VObj _ | VArr _ => (h, v) | _ => new_obj h [] end) with (h, v) by (destruct Ev; subst v; reflexivity).
      destruct (merge_all_ok vs ts h h v t [v] (hext_refl _) F Wts' Rv Wt) as (h1 & a & t1 & E1 & X1 & R1 & W1 & T1).
      * intros con l0 B R. right. exists v. split; [left; reflexivity|exact R].
      * intros d w [<-|[]] Iw. rewrite Forall_forall in Ap1. apply Ap1. exact Iw.
      * exact Ap2.
      * exists h1, a, t1. split; [exact E1|]. split; [exact X1|]. split; [exact R1|]. apply T1; [exact Wt|]. apply teq_refl. exact Wt.
    + replace (match v with VObj _ | VArr _ => (h, v) | _ => new_obj h [] end) with (new_obj h []) by (destruct v; try reflexivity; exfalso; [eapply N2|eapply N1]; reflexivity).
      rewrite Eo.
      destruct (merge_all_ok vs ts h (h ++ [CObj []]) o (TObj []) [] (hext_alloc _ _) F Wts' Ro We) as (h1 & a & t1 & E1 & X1 & R1 & W1 & T1).
      * apply No.
      * intros d w [].
      * exact Ap2.
      * exists h1, a, t1. split; [exact E1|]. split; [eapply hext_trans; [apply hext_alloc|exact X1]|]. split; [exact R1|]. apply T1; [exact We|]. apply teq_refl. exact We.
Qed.
