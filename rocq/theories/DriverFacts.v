(** Facts about who writes a path. *)
From Coq Require Import String Ascii Bool List Arith Lia Sorted.
From Verif Require Import Base Driver DriverSpec.
Import ListNotations.
Local Open Scope string_scope.
Local Open Scope list_scope.

Lemma beqb_iff a b : beqb a b = true <-> a = b.
Proof.
  destruct a as [a1 a2], b as [b1 b2]. unfold beqb. cbn. rewrite andb_true_iff, !String.eqb_eq. split; [intros [-> ->]; reflexivity | intro E; inversion E; auto].
Qed.
Lemma bmem_iff b l : bmem b l = true <-> In b l.
Proof.
  unfold bmem. rewrite existsb_exists. split.
  - intros [x [Hx Hb]]. apply beqb_iff in Hb. subst. exact Hx.
  - intro H. exists b. split; [exact H | apply beqb_iff; reflexivity].
Qed.
Lemma bref_dec (a b : bref) : {a = b} + {a <> b}.
Proof. destruct (beqb a b) eqn:E; [left; apply beqb_iff; exact E | right; intro H; apply beqb_iff in H; congruence]. Qed.

(** Paths. *)
Lemma dot_prefixes_iff q : forall p, In p (dot_prefixes q) <-> exists r, q = (p ++ "." ++ r)%string.
Proof.
  induction q as [| c q IH]; intro p; cbn [dot_prefixes].
  - split; [intros [] | intros [r E]; destruct p; discriminate].
  - assert (IH' : In p (map (String c) (dot_prefixes q)) <-> exists p' r, p = String c p' /\ q = (p' ++ "." ++ r)%string).
    { rewrite in_map_iff. split.
      - intros [p' [Hp Hin]]. apply IH in Hin. destruct Hin as [r Hr]. exists p', r. auto.
      - intros [p' [r [Hp Hr]]]. exists p'. split; [auto | apply IH; exists r; exact Hr]. }
    destruct (Ascii.eqb c ".") eqn:Ec.
    + apply Ascii.eqb_eq in Ec. subst c. cbn [In]. rewrite IH'. split.
      * intros [H | [p' [r [Hp Hr]]]]; [subst p; exists q; reflexivity | subst; exists r; reflexivity].
      * intros [r E]. destruct p as [| c' p]; [left; reflexivity | right]. cbn in E. inversion E as [[E1 E2]]. subst c'. exists p, r. auto.
    + rewrite IH'. split.
      * intros [p' [r [Hp Hr]]]. subst. exists r. reflexivity.
      * intros [r E]. destruct p as [| c' p]; [cbn in E; inversion E as [[E1 E2]]; subst c; discriminate Ec |].
        cbn in E. inversion E as [[E1 E2]]. subst c'. exists p, r. auto.
Qed.
Lemma prefix_iff p q : String.prefix p q = true <-> exists r, q = (p ++ r)%string.
Proof.
  revert q. induction p as [| c p IH]; intro q.
  - split; [intros _; exists q; reflexivity | intros _; destruct q; reflexivity].
  - destruct q as [| d q]; [split; [discriminate | intros [r E]; discriminate] |].
    change (String.prefix (String c p) (String d q)) with (if ascii_dec c d then String.prefix p q else false).
    destruct (ascii_dec c d) as [Hcd | Hne].
    + subst d. rewrite IH. split; intros [r E]; exists r; [cbn; rewrite E; reflexivity | cbn in E; inversion E; reflexivity].
    + split; [discriminate | intros [r E]; cbn in E; inversion E; congruence].
Qed.
Lemma app_assoc_s (a b c : string) : ((a ++ b) ++ c)%string = (a ++ (b ++ c))%string.
Proof. induction a as [| x a IH]; cbn; [reflexivity | rewrite IH; reflexivity]. Qed.
Lemma extends_iff p q : extends p q = true <-> above p q.
Proof.
  unfold extends, above. rewrite orb_true_iff, String.eqb_eq, prefix_iff.
  split; (intros [H | [r H]]; [left; exact H | right; exists r]); rewrite H; [rewrite app_assoc_s | rewrite app_assoc_s]; reflexivity.
Qed.
Lemma in_model_iff dm p : in_model dm p = true <-> declared dm p.
Proof.
  unfold in_model, declared. rewrite existsb_exists. split; intros [m [Hm H]]; exists m; split; try exact Hm.
  - apply orb_true_iff in H. rewrite !extends_iff in H. exact H.
  - apply orb_true_iff. rewrite !extends_iff. exact H.
Qed.
Lemma in_model_false dm p : in_model dm p = false <-> ~ declared dm p.
Proof. rewrite <- in_model_iff. destruct (in_model dm p); split; intro H; congruence. Qed.
Lemma above_refl p : above p p. Proof. left; reflexivity. Qed.
Lemma above_trans p q r : above p q -> above q r -> above p r.
Proof.
  intros [-> | [x ->]] [<- | [y ->]].
  - left; reflexivity.
  - right; exists y; reflexivity.
  - right; exists x; reflexivity.
  - right. exists (x ++ "." ++ y)%string. rewrite !app_assoc_s. reflexivity.
Qed.
Lemma above_cons c p q : above p q -> above (String c p) (String c q).
Proof. intros [-> | [r ->]]; [left; reflexivity | right; exists r; reflexivity]. Qed.
Lemma above_iff p q : above p q <-> p = q \/ In p (dot_prefixes q).
Proof. unfold above. rewrite dot_prefixes_iff. reflexivity. Qed.
Lemma dot_prefixes_sorted q : StronglySorted above (dot_prefixes q).
Proof.
  induction q as [| c q IH]; cbn [dot_prefixes]; [constructor |].
  assert (H : StronglySorted above (map (String c) (dot_prefixes q))).
  { clear -IH. induction IH as [| x l H1 IH H2]; cbn; constructor; [exact IH |].
    rewrite Forall_forall in *. intros y Hy. apply in_map_iff in Hy. destruct Hy as [z [<- Hz]]. apply above_cons, H2, Hz. }
  destruct (Ascii.eqb c ".") eqn:Ec; [| exact H]. apply Ascii.eqb_eq in Ec. subst c.
  constructor; [exact H |]. rewrite Forall_forall. intros y Hy. apply in_map_iff in Hy. destruct Hy as [z [<- Hz]]. right. exists z. reflexivity.
Qed.

(** The map of writers. *)
Definition get_or {A} (o p : option A) : option A := match o with Some a => Some a | None => p end.
Lemma aget_note b w p q : aget q (note_writer b w p) = get_or (aget q w) (if String.eqb q p then Some b else None).
Proof.
  unfold note_writer. destruct (String.eqb q p) eqn:E.
  - apply String.eqb_eq in E. subst q. destruct (aget p w) as [x |] eqn:G; [rewrite G; reflexivity | rewrite aget_aset_eq; reflexivity].
  - apply String.eqb_neq in E. destruct (aget p w) as [x |] eqn:G; [| rewrite (aget_aset_ne p q b w (fun H => E (eq_sym H)) ) || rewrite aget_aset_ne by congruence]; destruct (aget q w); reflexivity.
Qed.
Lemma note_nodup b w p : NoDup (akeys w) -> NoDup (akeys (note_writer b w p)).
Proof. unfold note_writer. destruct (aget p w); [auto | apply aset_nodup]. Qed.
Lemma aget_notes dm b q l : forall w,
  aget q (fold_left (fun w q => if in_model dm q then w else note_writer b w q) l w)
  = get_or (aget q w) (if negb (in_model dm q) && existsb (String.eqb q) l then Some b else None).
Proof.
  induction l as [| p l IH]; intro w; cbn [fold_left existsb]; [rewrite andb_false_r; destruct (aget q w); reflexivity |].
  rewrite IH. destruct (in_model dm p) eqn:Ep.
  - destruct (String.eqb q p) eqn:E; [apply String.eqb_eq in E; subst p; rewrite Ep; reflexivity | reflexivity].
  - rewrite aget_note. destruct (aget q w); [reflexivity |]. cbn [get_or].
    destruct (String.eqb q p) eqn:E; [apply String.eqb_eq in E; subst p; rewrite Ep; reflexivity | reflexivity].
Qed.
Definition touchb (dm ws : list string) (p : string) : bool := negb (in_model dm p) && existsb (fun w => negb (in_model dm w) && extends p w) ws.
Lemma touchb_iff dm ws p : touchb dm ws p = true <-> touches dm ws p.
Proof.
  unfold touchb, touches. rewrite andb_true_iff, negb_true_iff, in_model_false, existsb_exists. split; intros [H [w [Hw Hb]]]; (split; [exact H |]); exists w; (split; [exact Hw |]).
  - apply andb_true_iff in Hb. destruct Hb as [Hb1 Hb2]. apply negb_true_iff, in_model_false in Hb1. apply extends_iff in Hb2. auto.
  - destruct Hb as [Hb1 Hb2]. apply andb_true_iff. split; [apply negb_true_iff, in_model_false; exact Hb1 | apply extends_iff; exact Hb2].
Qed.
Lemma aget_path_writers dm b w p q :
  aget q (path_writers dm b w p) = get_or (aget q w) (if touchb dm [p] q then Some b else None).
Proof.
  unfold path_writers, touchb. cbn [existsb]. destruct (in_model dm p) eqn:Ep; cbn [negb andb orb].
  - rewrite andb_false_r. destruct (aget q w); reflexivity.
  - rewrite aget_notes, aget_note. destruct (aget q w) as [x |]; [reflexivity |]. cbn [get_or].
    assert (Hx : extends q p = String.eqb q p || existsb (String.eqb q) (dot_prefixes p)).
    { apply eq_true_iff_eq. rewrite extends_iff, orb_true_iff, String.eqb_eq, existsb_exists, above_iff. split.
      - intros [H | H]; [left; exact H | right; exists q; split; [exact H | apply String.eqb_refl]].
      - intros [H | [x [H1 H2]]]; [left; exact H | right; apply String.eqb_eq in H2; subst; exact H1]. }
    rewrite Hx. destruct (String.eqb q p) eqn:E.
    + apply String.eqb_eq in E. subst p. rewrite Ep. reflexivity.
    + cbn [orb get_or]. rewrite orb_false_r. reflexivity.
Qed.
Lemma aget_block dm b q ws : forall w,
  aget q (fold_left (path_writers dm b) ws w) = get_or (aget q w) (if touchb dm ws q then Some b else None).
Proof.
  induction ws as [| p ws IH]; intro w; cbn [fold_left].
  - unfold touchb. cbn. rewrite andb_false_r. destruct (aget q w); reflexivity.
  - rewrite IH, aget_path_writers. destruct (aget q w); [reflexivity |]. cbn [get_or]. unfold touchb. cbn [existsb]. rewrite orb_false_r.
    destruct (negb (in_model dm q)); cbn [andb get_or]; [| reflexivity].
    destruct (negb (in_model dm p) && extends q p); reflexivity.
Qed.
Fixpoint first_block (dm : list string) (blocks : list (bref * list string)) (q : string) : option bref :=
  match blocks with [] => None | (b, ws) :: r => if touchb dm ws q then Some b else first_block dm r q end.
Lemma aget_found dm blocks q : forall w,
  aget q (fold_left (fun w e => fold_left (path_writers dm (fst e)) (snd e) w) blocks w) = get_or (aget q w) (first_block dm blocks q).
Proof.
  induction blocks as [| [b ws] r IH]; intro w; cbn [fold_left first_block fst snd]; [destruct (aget q w); reflexivity |].
  rewrite IH, aget_block. destruct (aget q w); [reflexivity |]. cbn [get_or]. destruct (touchb dm ws q); reflexivity.
Qed.
Lemma first_block_iff dm blocks q b : first_block dm blocks q = Some b <-> first_toucher dm blocks q b.
Proof.
  split.
  - induction blocks as [| [c ws] r IH]; cbn [first_block]; [discriminate |].
    destruct (touchb dm ws q) eqn:E.
    + intro H. inversion H; subst c. exists [], ws, r. split; [reflexivity |]. split; [apply touchb_iff; exact E | intros e []].
    + intro H. destruct (IH H) as [l1 [ws' [l2 [E1 [E2 E3]]]]]. exists ((c, ws) :: l1), ws', l2. subst r. split; [reflexivity |]. split; [exact E2 |].
      intros e [<- | He]; [cbn; rewrite <- touchb_iff, E; discriminate | apply E3, He].
  - intros [l1 [ws [l2 [-> [H1 H2]]]]]. induction l1 as [| [c ws'] l1 IH]; cbn [app first_block].
    + apply touchb_iff in H1. rewrite H1. reflexivity.
    + assert (Hn : touchb dm ws' q = false). { destruct (touchb dm ws' q) eqn:E; [exfalso; apply (H2 (c, ws')); [left; reflexivity | apply touchb_iff; exact E] | reflexivity]. }
      rewrite Hn. apply IH. intros e He. apply H2. right. exact He.
Qed.
Lemma fold_nodup {A} (f : amap bref -> A -> amap bref) : (forall w x, NoDup (akeys w) -> NoDup (akeys (f w x))) -> forall l w, NoDup (akeys w) -> NoDup (akeys (fold_left f l w)).
Proof. intros Hf l. induction l as [| x l IH]; intros w H; cbn; [exact H | apply IH, Hf, H]. Qed.
Lemma found_nodup dm blocks : NoDup (akeys (found_writers dm blocks)).
Proof.
  unfold found_writers. apply fold_nodup; [| constructor]. intros w [b ws] H. apply fold_nodup; [| exact H].
  intros w' p H'. unfold path_writers. destruct (in_model dm p); [exact H' |]. apply fold_nodup; [| apply note_nodup, H'].
  intros w2 q H2. destruct (in_model dm q); [exact H2 | apply note_nodup, H2].
Qed.
Lemma put_sorted_in e l x : In x (put_sorted e l) <-> x = e \/ In x l.
Proof.
  induction l as [| y l IH]; cbn [put_sorted]; [cbn; intuition congruence |].
  destruct (String.compare (fst e) (fst y)); cbn [In]; try (intuition congruence).
Qed.
Lemma put_sorted_nodup e l : ~ In (fst e) (akeys l) -> NoDup (akeys l) -> NoDup (akeys (put_sorted e l)).
Proof.
  unfold akeys. induction l as [| y l IH]; cbn [put_sorted map]; intros Hn H; [constructor; [intros [] | constructor] |].
  assert (Hc : NoDup (fst e :: fst y :: map fst l)) by (constructor; assumption).
  destruct (String.compare (fst e) (fst y)); cbn [map]; try exact Hc.
  inversion H as [| a b Ha Hb]; subst. constructor.
  - rewrite in_map_iff. intros [x [Hx Hin]]. apply put_sorted_in in Hin. destruct Hin as [-> | Hin].
    + apply Hn. left. symmetry. exact Hx.
    + apply Ha. rewrite <- Hx. apply in_map, Hin.
  - apply IH; [intro Hin; apply Hn; right; exact Hin | exact Hb].
Qed.
Lemma sort_in l x : In x (sort_writers l) <-> In x l.
Proof. unfold sort_writers. induction l as [| e l IH]; cbn [fold_right]; [reflexivity | rewrite put_sorted_in, IH; cbn [In]; intuition congruence]. Qed.
Lemma sort_nodup l : NoDup (akeys l) -> NoDup (akeys (sort_writers l)).
Proof.
  unfold sort_writers. induction l as [| e l IH]; cbn [fold_right akeys map]; intro H; [constructor |].
  inversion H as [| a b Ha Hb]; subst. apply put_sorted_nodup; [| apply IH, Hb].
  unfold akeys. rewrite in_map_iff. intros [x [Hx Hin]]. apply (sort_in l) in Hin. apply Ha. rewrite <- Hx. unfold akeys. apply in_map, Hin.
Qed.
Lemma aget_graph dm blocks q b : aget q (graph_writers dm blocks) = Some b <-> first_toucher dm blocks q b.
Proof.
  rewrite <- first_block_iff. unfold graph_writers. assert (Hnd := found_nodup dm blocks). split.
  - intro H. apply aget_Some_in in H. apply (proj1 (sort_in _ _)) in H. apply (aget_in_nodup _ _ _ Hnd) in H. unfold found_writers in H. rewrite aget_found in H. exact H.
  - intro H. apply aget_in_nodup; [apply sort_nodup, Hnd |]. apply (proj2 (sort_in _ _)), aget_Some_in. unfold found_writers. rewrite aget_found. exact H.
Qed.
Lemma graph_nodup dm blocks : NoDup (akeys (graph_writers dm blocks)).
Proof. apply sort_nodup, found_nodup. Qed.
Lemma graph_written dm blocks q : (exists b, aget q (graph_writers dm blocks) = Some b) <-> exists e, In e blocks /\ touches dm (snd e) q.
Proof.
  split.
  - intros [b H]. apply aget_graph in H. destruct H as [l1 [ws [l2 [-> [H _]]]]]. exists (b, ws). split; [apply in_elt | exact H].
  - intros [[b ws] [Hin Ht]]. destruct (first_block dm blocks q) as [c |] eqn:E.
    + exists c. apply aget_graph, first_block_iff, E.
    + exfalso. induction blocks as [| [d ws'] r IH]; [destruct Hin |]. cbn [first_block] in E. destruct (touchb dm ws' q) eqn:Et; [discriminate |].
      destruct Hin as [Heq | Hin]; [inversion Heq; subst; apply touchb_iff in Ht; cbn in Ht; congruence | exact (IH Hin E)].
Qed.

(** Who is asked to run for a path. *)
Section Demand.
  Variable writers : amap bref.
  Definition got (out : amap (list bref)) (p : string) : list bref := match aget p out with Some l => l | None => [] end.
  Lemma got_push owner out t p b : In b (got (push_writer owner out t) p) <-> In b (got out p) \/ (p = t /\ b = owner).
  Proof.
    unfold push_writer, got. destruct (String.eqb p t) eqn:E.
    - apply String.eqb_eq in E. subst p. rewrite aget_aset_eq.
      destruct (bmem owner (match aget t out with Some l => l | None => [] end)) eqn:M.
      + apply bmem_iff in M. split; [auto | intros [H | [_ ->]]; [exact H | exact M]].
      + rewrite in_app_iff. cbn [In]. intuition congruence.
    - apply String.eqb_neq in E. rewrite aget_aset_ne by congruence. intuition congruence.
  Qed.
  Definition writtenb (p : string) : bool := match aget p writers with Some _ => true | None => false end.
  Lemma got_prefixes owner p b l : forall out,
    In b (got (fold_left (fun out p => if writtenb p then push_writer owner out p else out) l out) p)
    <-> In b (got out p) \/ (In p l /\ writtenb p = true /\ b = owner).
  Proof.
    induction l as [| q l IH]; intro out; cbn [fold_left In]; [intuition |].
    rewrite IH. destruct (writtenb q) eqn:Eq.
    - rewrite got_push. split.
      + intros [[H | [-> H]] | [H [H2 H3]]]; auto.
      + intros [H | [[-> | H] [H2 H3]]]; auto.
    - split.
      + intros [H | [H [H2 H3]]]; auto.
      + intros [H | [[-> | H] [H2 H3]]]; auto. congruence.
  Qed.
  Lemma got_all p b l : forall out,
    In b (got (fold_left (fun out e => let '(path, owner) := e in fold_left (fun out p => if writtenb p then push_writer owner out p else out) (dot_prefixes path) (push_writer owner out path)) l out) p)
    <-> In b (got out p) \/ exists path, In (path, b) l /\ (p = path \/ (In p (dot_prefixes path) /\ writtenb p = true)).
  Proof.
    induction l as [| [path owner] l IH]; intro out; cbn [fold_left]; [split; [auto | intros [H | [x [[] _]]]; exact H] |].
    rewrite IH, got_prefixes, got_push. split.
    - intros [[[H | [H1 H2]] | [H1 [H2 H3]]] | [x [H1 H2]]]; [auto | | |]; right.
      + exists path. subst. split; [left; reflexivity | auto].
      + exists path. subst. split; [left; reflexivity | auto].
      + exists x. split; [right; exact H1 | exact H2].
    - intros [H | [x [[H1 | H1] H2]]]; [auto | |].
      + inversion H1; subst. left. destruct H2 as [H2 | [H2 H3]]; auto.
      + right. exists x. auto.
  Qed.
  Hypothesis nodup : NoDup (akeys writers).
  Lemma writers_for_iff p b : In b (writers_for writers p) <-> writtenb p = true /\ exists path, above p path /\ aget path writers = Some b.
  Proof.
    change (In b (writers_for writers p)) with (In b (got (demand_writers writers) p)). unfold demand_writers.
    change (fun (out : amap (list bref)) (e : string * bref) => let '(path, owner) := e in fold_left (fun (out0 : amap (list bref)) (p0 : string) => if match aget p0 writers with Some _ => true | None => false end then push_writer owner out0 p0 else out0) (dot_prefixes path) (push_writer owner out path))
      with (fun (out : amap (list bref)) (e : string * bref) => let '(path, owner) := e in fold_left (fun out p => if writtenb p then push_writer owner out p else out) (dot_prefixes path) (push_writer owner out path)).
    rewrite got_all. split.
    - intros [[] | [path [Hin H]]]. assert (Hg := aget_in_nodup _ _ _ nodup Hin). destruct H as [-> | [H Hw]].
      + split; [unfold writtenb; rewrite Hg; reflexivity | exists path; split; [apply above_refl | exact Hg]].
      + split; [exact Hw | exists path; split; [apply above_iff; right; exact H | exact Hg]].
    - intros [Hw [path [Ha Hg]]]. right. exists path. split; [apply aget_Some_in, Hg |]. apply above_iff in Ha. destruct Ha as [Ha | Ha]; auto.
  Qed.
  Lemma writers_for_nil p : writers_for writers p = [] <-> writtenb p = false.
  Proof.
    split.
    - intro H. destruct (writtenb p) eqn:E; [| reflexivity]. exfalso. assert (E' := E). unfold writtenb in E'. destruct (aget p writers) as [b |] eqn:G; [| discriminate].
      assert (Hin : In b (writers_for writers p)) by (apply writers_for_iff; split; [exact E | exists p; split; [apply above_refl | exact G]]). rewrite H in Hin. destruct Hin.
    - intro H. destruct (writers_for writers p) as [| b l] eqn:E; [reflexivity |]. exfalso.
      assert (Hin : In b (writers_for writers p)) by (rewrite E; left; reflexivity). apply writers_for_iff in Hin. destruct Hin as [Hw _]. congruence.
  Qed.
  Lemma sorted_split {A} (R : A -> A -> Prop) l : StronglySorted R l -> forall l1 x l2 y, l = l1 ++ x :: l2 -> In y l1 -> R y x.
  Proof.
    intros H. induction H as [| a l H1 IH H2]; intros l1 x l2 y E Hy; [destruct l1; discriminate |].
    destruct l1 as [| z l1]; [destruct Hy |]. cbn in E. inversion E; subst. destruct Hy as [-> | Hy].
    - rewrite Forall_forall in H2. apply H2, in_elt.
    - exact (IH l1 x l2 y eq_refl Hy).
  Qed.
  Lemma find_split {A} (f : A -> bool) l x : find f l = Some x -> exists l1 l2, l = l1 ++ x :: l2 /\ f x = true /\ forall y, In y l1 -> f y = false.
  Proof.
    induction l as [| a l IH]; cbn [find]; [discriminate |]. destruct (f a) eqn:E.
    - intro H. inversion H; subst. exists [], l. split; [reflexivity |]. split; [exact E | intros y []].
    - intro H. destruct (IH H) as [l1 [l2 [-> [H1 H2]]]]. exists (a :: l1), l2. split; [reflexivity |]. split; [exact H1 |].
      intros y [<- | Hy]; [exact E | apply H2, Hy].
  Qed.
  Lemma longest_iff q b : In b (longest writers q) <->
    exists r p, above r q /\ writtenb r = true /\ (forall r', above r' q -> writtenb r' = true -> above r' r) /\ above r p /\ aget p writers = Some b.
  Proof.
    unfold longest. destruct (writers_for writers q) as [| b0 l0] eqn:Eq.
    - apply writers_for_nil in Eq.
      assert (Hf : forall x, (fun q => match writers_for writers q with [] => false | _ => true end) x = writtenb x).
      { intro x. cbv beta. destruct (writers_for writers x) as [| c l] eqn:Ex.
        - apply writers_for_nil in Ex. symmetry. exact Ex.
        - destruct (writtenb x) eqn:Ew; [reflexivity |]. apply writers_for_nil in Ew. congruence. }
      destruct (find _ (rev (dot_prefixes q))) as [r |] eqn:Ef.
      + apply find_split in Ef. destruct Ef as [l1 [l2 [E1 [E2 E3]]]]. rewrite Hf in E2.
        assert (Hr : In r (dot_prefixes q)) by (apply in_rev; rewrite E1; apply in_elt).
        assert (Hmax : forall r', above r' q -> writtenb r' = true -> above r' r).
        { intros r' Ha Hw. apply above_iff in Ha. destruct Ha as [-> | Ha]; [congruence |].
          assert (Hi : In r' (rev (dot_prefixes q))) by (apply in_rev; rewrite rev_involutive; exact Ha).
          rewrite E1 in Hi. apply in_app_iff in Hi. destruct Hi as [Hi | [-> | Hi]]; [| apply above_refl |].
          - apply E3 in Hi. rewrite Hf in Hi. congruence.
          - assert (E4 : dot_prefixes q = rev l2 ++ r :: rev l1). { rewrite <- (rev_involutive (dot_prefixes q)), E1, rev_app_distr. cbn. rewrite <- app_assoc. reflexivity. }
            apply (sorted_split above _ (dot_prefixes_sorted q) _ _ _ _ E4). apply -> in_rev. exact Hi. }
        rewrite writers_for_iff. split.
        * intros [Hw [p [Hp Hg]]]. exists r, p. split; [apply above_iff; right; exact Hr | auto].
        * intros [r' [p [H1 [H2 [H3 [H4 H5]]]]]]. split; [exact E2 |]. exists p. split; [| exact H5]. apply above_trans with r'; [| exact H4].
          apply H3; [apply above_iff; right; exact Hr | exact E2].
      + split; [intros [] |]. intros [r [p [H1 [H2 _]]]]. apply above_iff in H1. destruct H1 as [-> | H1]; [congruence |].
        apply in_rev in H1. apply (find_none _ _ Ef) in H1. rewrite Hf in H1. congruence.
    - rewrite <- Eq. rewrite writers_for_iff. assert (Hw : writtenb q = true). { destruct (writtenb q) eqn:E; [reflexivity |]. apply writers_for_nil in E. congruence. }
      split.
      + intros [_ [p [Hp Hg]]]. exists q, p. split; [apply above_refl |]. auto.
      + intros [r [p [H1 [H2 [H3 [H4 H5]]]]]]. split; [exact Hw |]. exists p. split; [| exact H5]. apply above_trans with r; [apply H3; [apply above_refl | exact Hw] | exact H4].
  Qed.
End Demand.
Lemma longest_feeds dm blocks q b : In b (longest (graph_writers dm blocks) q) <-> feeds dm blocks q b.
Proof.
  rewrite longest_iff by apply graph_nodup.
  assert (Hw : forall r, writtenb (graph_writers dm blocks) r = true <-> exists e, In e blocks /\ touches dm (snd e) r).
  { intro r. rewrite <- graph_written. unfold writtenb. destruct (aget r (graph_writers dm blocks)) as [x |]; split; intro H; try discriminate; [exists x; reflexivity | reflexivity | destruct H; discriminate]. }
  unfold feeds, closest. split; intros [r [p H]]; exists r, p.
  - destruct H as [H1 [H2 [H3 [H4 H5]]]]. split; [| split; [exact H4 | apply aget_graph, H5]]. split; [exact H1 |]. split; [apply Hw, H2 |]. intros r' Ha Hb. apply H3; [exact Ha | apply Hw, Hb].
  - destruct H as [[H1 [H2 H3]] [H4 H5]]. split; [exact H1 |]. split; [apply Hw, H2 |]. split; [intros r' Ha Hb; apply H3; [exact Ha | apply Hw, Hb] |]. split; [exact H4 | apply aget_graph, H5].
Qed.
