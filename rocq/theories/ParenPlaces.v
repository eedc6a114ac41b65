(** Which parentheses are reported. *)
From Coq Require Import String Ascii ZArith Lia Bool List Arith.
From Verif Require Import Base Dec Value Heap Ast Parser Print RoundTrip PureFacts ParenLint ParenSpec ParenDrop.
Import ListNotations.
Local Open Scope string_scope.
Local Open Scope list_scope.
Local Open Scope nat_scope.

Lemma each_in : forall A (f : A -> list (list nat)) l i j x q, nth_error l j = Some x -> (In (i + j :: q) (at_each f i l) <-> In q (f x)).
Proof.
  intros A f l i j x q E. split.
  - intros H. apply in_each in H as (j' & x' & E' & Ej & H). assert (j = j') by lia. subst j'. congruence.
  - revert i j E. induction l as [|y l IH]; intros i [|j] E H; try discriminate; cbn in *; apply in_or_app.
    + injection E as <-. left. rewrite Nat.add_0_r. now apply in_map.
    + right. rewrite <- plus_n_Sm. apply (IH (S i)); auto.
Qed.
Lemma in_cons_map : forall i j q (F : list (list nat)), In (i :: q) (map (cons j) F) <-> i = j /\ In q F.
Proof. intros i j q F. rewrite in_map_iff. split; [intros (z & E & H); injection E as <- <-; auto|intros [-> H]; eauto]. Qed.
Definition csite (n : node) (a : list nat) (w : site) : site :=
  match n, a with
  | NParen m, _ => inner_site m w
  | NBinary _ o _, [0] => operand_site o SLeft
  | NBinary _ o _, _ => operand_site o SRight
  | NUnary _ _, _ | NCond _ _ _, _ => Guarded
  | NMember _ _, [0] | NSlice _ _ _, [0] | NMethod _ _ _, [0] => PostfixBase
  | _, _ => Delimited
  end.
Lemma step_in : forall n a x, step n a x -> forall w q, In (a ++ q) (findings n w) <-> In q (findings x (csite n a w)).
Proof.
  intros n a x H w q. destruct H; cbn [findings csite app]; rewrite ?in_app_iff, ?in_cons_map;
    try (destruct a as [a0|]); try (destruct b as [b0|]); rewrite ?in_cons_map;
    try match goal with |- context [match ?o with Some _ => _ | None => [] end] => destruct o end; rewrite ?in_cons_map; cbn [In];
    try (split; [intros Z; repeat match goal with K : _ \/ _ |- _ => destruct K as [K|K] end; intuition (try discriminate; try contradiction)|intuition auto]; fail).
  - (* parentheses *) split; [intros [K|[_ K]]; [destruct (is_redundant m w); [destruct K as [K|[]]; discriminate|contradiction]|exact K]|intros K; right; split; auto].
  - rewrite (each_in _ _ _ 0 i x q H). reflexivity.
  - rewrite (each_in _ _ _ 0 i x q H). reflexivity.
  - rewrite (each_in _ _ _ 0 i x q H). reflexivity.
  - rewrite (each_in _ _ _ 0 i (k, v) (0 :: q) H). cbn [fst snd]. rewrite in_app_iff, !in_cons_map. intuition discriminate.
  - rewrite (each_in _ _ _ 0 i (k, v) (1 :: q) H). cbn [fst snd]. rewrite in_app_iff, !in_cons_map. intuition discriminate.
  - rewrite (each_in _ _ _ 0 i x q H). intuition discriminate.
Qed.
Lemma place_in : forall n q p, place n q p -> forall w, exists w', forall r, In (q ++ r) (findings n w) <-> In r (findings p w').
Proof.
  intros n q p H. induction H as [n|n a x q p S0 H IH]; intros w; [exists w; intros r; reflexivity|].
  destruct (IH (csite n a w)) as [w' E]. exists w'. intros r. rewrite <- app_assoc, (step_in _ _ _ S0). apply E.
Qed.
Lemma top_in : forall m w, In [] (findings (NParen m) w) <-> is_redundant m w = true.
Proof.
  intros m w. cbn [findings]. rewrite in_app_iff. destruct (is_redundant m w); [cbn; tauto|]. split; [|discriminate]. intros [[]|H]. apply in_map_iff in H as (z & E & _). discriminate.
Qed.
Lemma atom_simple : forall m, is_atom m = true <-> simple m.
Proof. intros []; cbn; split; auto; try discriminate; try contradiction. Qed.
Lemma compound_operation : forall m, is_compound m = true <-> operation m.
Proof. intros []; cbn; split; auto; try discriminate; try contradiction. Qed.
Lemma family_kin : forall o o', same_family o o' = true <-> kin o o'.
Proof.
  intros o o'. unfold same_family, op_eqb, kin, arithmetic. rewrite orb_true_iff. destruct (operator_eq_dec o o') as [E|E].
  - tauto.
  - split; [intros [K|K]; [discriminate|right; destruct o; try discriminate; destruct o'; try discriminate; auto]|]. intros [K|[K1 K2]]; [congruence|right]. destruct o; try contradiction; destruct o'; try contradiction; reflexivity.
Qed.
Lemma order : forall o o' q la q' la', binary_op o = Some (q, la) -> binary_op o' = Some (q', la') ->
  (q <? q' = true <-> tightness o < tightness o') /\ (q' =? q = true <-> tightness o' = tightness o) /\ (la = true <-> o <> OpArith APow).
Proof.
  intros o o' q la q' la' H H'. rewrite Nat.ltb_lt, Nat.eqb_eq. destruct o as [[]|[]|[]| | | | | | |]; cbn in H; try discriminate; injection H as <- <-;
    destruct o' as [[]|[]|[]| | | | | | |]; cbn in H'; try discriminate; injection H' as <- <-; cbn; (split; [lia|split; [lia|split; congruence]]).
Qed.
(** Writable operators. *)
Lemma redundant_unneeded : forall p a x m w, step p a x -> is_paren p = false -> proper p -> proper m -> (is_redundant m (csite p a w) = true <-> unneeded p a m).
Proof.
  intros p a x m w H Np Pp Pm.
  assert (D : is_redundant m Delimited = true <-> simple m \/ operation m) by (cbn [is_redundant]; rewrite orb_true_iff, atom_simple, compound_operation; reflexivity).
  assert (G : is_redundant m Guarded = true <-> simple m) by apply atom_simple.
  assert (B : is_redundant m PostfixBase = true <-> chain m) by (destruct m; cbn; split; auto; try discriminate; try contradiction).
  assert (Bin : forall l o r sd, p = NBinary l o r -> is_redundant m (operand_site o sd) = true <-> unneeded p [match sd with SLeft => 0 | SRight => 1 end] m).
  { intros l o r sd ->. cbn [proper] in Pp. unfold operand_site. destruct (binary_op o) as [[q la]|] eqn:Eb; [|congruence]. cbn [is_redundant unneeded].
    destruct m; try apply atom_simple.
    - cbn [proper] in Pm. rewrite andb_true_iff, family_kin. destruct (unary_op op) as [u|] eqn:Eu; [|congruence]. rewrite Nat.ltb_lt. unfold kin, arithmetic.
      destruct op as [[]|[]|[]| | | | | | |]; cbn in Eu; try discriminate; injection Eu as <-; destruct o as [[]|[]|[]| | | | | | |]; cbn in Eb; try discriminate; injection Eb as <- <-;
        (split; [intros [[K|[K K']] L]; try discriminate; try contradiction; auto|intros [K [K'|K']]; try contradiction; try discriminate; (split; [tauto|lia])]).
    - cbn [proper] in Pm. rewrite andb_true_iff, family_kin. destruct (binary_op op) as [[q2 la2]|] eqn:E2; [|congruence]. destruct (order _ _ _ _ _ _ Eb E2) as (O1 & O2 & O3).
      rewrite orb_true_iff, andb_true_iff, O1, O2.
      assert (Z : match sd with SLeft => la | SRight => negb la end = true <-> (if operator_eq_dec o (OpArith APow) then [match sd with SLeft => 0 | SRight => 1 end] = [1] else [match sd with SLeft => 0 | SRight => 1 end] = [0])).
      { destruct (operator_eq_dec o (OpArith APow)) as [E|E]; destruct sd, la; cbn; split; intros Z; try discriminate; try reflexivity; exfalso; try (apply O3 in Z; congruence); try (pose proof (proj1 O3 eq_refl); congruence); pose proof (proj2 O3 E); discriminate. }
      rewrite Z. reflexivity. }
  destruct H; cbn [csite]; try discriminate Np; try exact D; try exact G; try exact B; try (apply (Bin _ _ _ SLeft eq_refl)); try (apply (Bin _ _ _ SRight eq_refl)).
Qed.
Theorem reported : forall n q p a m, place n q p -> step p a (NParen m) -> is_paren p = false -> proper p -> proper m -> (In (q ++ a) (paren_hints n) <-> unneeded p a m).
Proof.
  intros n q p a m Pl St Np Pp Pm. destruct (place_in _ _ _ Pl Delimited) as [w E]. unfold paren_hints. rewrite E. rewrite <- (app_nil_r a) at 1. rewrite (step_in _ _ _ St), top_in.
  eapply redundant_unneeded; eauto.
Qed.
Theorem nested : forall n q m, place n q (NParen (NParen m)) -> In q (paren_hints n).
Proof.
  intros n q m Pl. destruct (place_in _ _ _ Pl Delimited) as [w E]. unfold paren_hints. rewrite <- (app_nil_r q). rewrite E. apply top_in. destruct w; reflexivity.
Qed.

(** Nothing is reported twice. *)
Definition exact_pick (pick : list nat -> bool) (fs : list (list nat)) : Prop := forall q, pick q = true <-> In q fs.
Lemma exact_each : forall A (f : A -> list (list nat)) l pick, exact_pick pick (at_each f 0 l) -> forall j x, nth_error l j = Some x -> exact_pick (fun q => pick (j :: q)) (f x).
Proof. intros A f l pick H j x E q. rewrite (H (j :: q)). apply (each_in _ f l 0 j x q E). Qed.
Lemma each_none : forall A (f : A -> list (list nat)) (g : (list nat -> bool) -> A -> A) l pick i,
  (forall j x, nth_error l j = Some x -> exact_pick (fun q => pick (i + j :: q)) (f x)) -> Forall (fun x => forall pk, exact_pick pk (f x) -> f (g pk x) = []) l ->
  forall k, at_each f k (drop_each g pick i l) = [].
Proof.
  intros A f g. induction l as [|x l IH]; intros pick i H F k; cbn; [reflexivity|]. inversion F as [|? ? Fx Fl]; subst. rewrite Fx, IH; auto.
  - intros j y E. specialize (H (S j) y E). rewrite <- plus_n_Sm in H. exact H.
  - specialize (H 0 x eq_refl). rewrite Nat.add_0_r in H. exact H.
Qed.
Lemma head_redundant : forall m pick w, is_paren m = false -> is_redundant (drop pick m) w = is_redundant m w.
Proof. intros m pick w N. destruct m; try discriminate N; destruct w; reflexivity. Qed.
Lemma other_site : forall m w, is_paren m = false -> findings m w = findings m Delimited.
Proof. intros [] w N; try discriminate; reflexivity. Qed.
Lemma drop_not_paren : forall m pick, is_paren m = false -> is_paren (drop pick m) = false.
Proof. intros [] pick N; try discriminate; reflexivity. Qed.
Ltac just P := let q := fresh in try unfold exact_pick in P |- *; intros q; cbn beta; rewrite P; cbn [findings]; rewrite ?in_app_iff, ?in_cons_map; cbn [In]; intuition (try discriminate).
Theorem once : forall n pick w, plain_tree n = true -> exact_pick pick (findings n w) -> findings (drop pick n) w = [].
Proof.
  assert (L : forall l pick, Forall (fun n => forall pick w, plain_tree n = true -> exact_pick pick (findings n w) -> findings (drop pick n) w = []) l -> forallb plain_tree l = true ->
    exact_pick pick (at_each (fun x => findings x Delimited) 0 l) -> at_each (fun x => findings x Delimited) 0 (drop_each drop pick 0 l) = []).
  { intros l pick H T E. apply each_none; [intros j x Ej; exact (exact_each _ _ _ _ E j x Ej)|]. rewrite Forall_forall in *. rewrite forallb_forall in T. intros x Hx pk Pk. apply H; auto. }
  induction n using node_ind'; intros pick w T P; cbn [drop]; try reflexivity; try discriminate T; cbn [plain_tree] in T; (repeat rewrite andb_true_iff in T); cbn [findings].
  - apply L; auto.
  - apply L; auto.
  - cbn [findings] in P. apply each_none; [intros j x Ej; exact (exact_each _ _ _ _ P j x Ej)|]. rewrite Forall_forall in *. rewrite forallb_forall in T. intros x Hx pk Pk. cbn [fst snd].
    destruct (H x Hx) as [Ha Hb]. specialize (T x Hx). apply andb_true_iff in T as [Ta Tb].
    rewrite (Ha (fun q => pk (0 :: q)) Delimited Ta), (Hb (fun q => pk (1 :: q)) Delimited Tb); [reflexivity|intros q; rewrite (Pk (1 :: q)), in_app_iff, !in_cons_map; intuition discriminate|intros q; rewrite (Pk (0 :: q)), in_app_iff, !in_cons_map; intuition discriminate].
  - rewrite (IHn (fun q => pick (0 :: q)) Delimited T); [reflexivity|]. just P.
  - pose proof (P []) as P0. rewrite top_in in P0.
    assert (Pi : exact_pick (fun q => pick (0 :: q)) (findings n (inner_site n w))).
    { intros q. rewrite (P (0 :: q)). cbn [findings]. rewrite in_app_iff, in_cons_map. split; [intros [K|[_ K]]; [destruct (is_redundant n w); [destruct K as [K|[]]; discriminate|contradiction]|exact K]|intros K; right; split; auto]. }
    destruct (pick []) eqn:E0.
    + destruct (is_paren n) eqn:Ep; [destruct n; try discriminate Ep; apply IHn; auto|]. rewrite (other_site _ w (drop_not_paren n _ Ep)). apply IHn; auto. rewrite (inner_other _ w Ep) in Pi. exact Pi.
    + assert (R : is_redundant n w = false) by (destruct (is_redundant n w); [symmetry; apply P0; reflexivity|reflexivity]).
      assert (Ep : is_paren n = false) by (destruct n; try reflexivity; destruct w; discriminate R). cbn [findings]. rewrite (head_redundant n _ w Ep), R.
      rewrite (inner_other _ w Ep) in Pi. pose proof (drop_not_paren n (fun q => pick (0 :: q)) Ep) as Ed. pose proof (IHn _ _ T Pi) as F.
      change (match drop (fun q => pick (0 :: q)) n with NParen _ => w | _ => Delimited end) with (inner_site (drop (fun q => pick (0 :: q)) n) w). rewrite (inner_other _ w Ed), F. reflexivity.
  - destruct T as [Ta Tb]. rewrite (IHn1 (fun q => pick (0 :: q)) PostfixBase Ta), (IHn2 (fun q => pick (1 :: q)) Delimited Tb); [reflexivity|just P|just P].
  - destruct T as [[Ta Tf] Tt]. cbn [findings] in P. rewrite (IHn (fun q => pick (0 :: q)) PostfixBase Ta); [|destruct f, t; just P]. cbn [map app].
    destruct f as [x|], t as [y|]; cbn in H, H0.
    + rewrite (H (fun q => pick (1 :: q)) Delimited Tf), (H0 (fun q => pick (2 :: q)) Delimited Tt); [reflexivity|just P|just P].
    + rewrite (H (fun q => pick (1 :: q)) Delimited Tf); [reflexivity|just P].
    + rewrite (H0 (fun q => pick (2 :: q)) Delimited Tt); [reflexivity|just P].
    + reflexivity.
  - destruct T as [Ta Tb]. rewrite (IHn1 (fun q => pick (0 :: q)) Delimited Ta), (IHn2 (fun q => pick (1 :: q)) Delimited Tb); [reflexivity|just P|just P].
  - destruct T as [[Ta Tb] Tc]. rewrite (IHn1 (fun q => pick (0 :: q)) Guarded Ta), (IHn2 (fun q => pick (1 :: q)) Guarded Tb), (IHn3 (fun q => pick (2 :: q)) Guarded Tc); [reflexivity|just P|just P|just P].
  - rewrite (IHn (fun q => pick (0 :: q)) Guarded T); [reflexivity|]. just P.
  - destruct T as [Ta Tb]. rewrite (IHn1 (fun q => pick (0 :: q)) (operand_site op SLeft) Ta), (IHn2 (fun q => pick (1 :: q)) (operand_site op SRight) Tb); [reflexivity|just P|just P].
  - apply L; auto.
  - destruct T as [Ta Tb]. rewrite (IHn (fun q => pick (0 :: q)) PostfixBase Ta); [|just P]. cbn [map app]. rewrite L; auto. just P.
Qed.
(** What can be written has no assignments and no errors. *)
Section Can.
  Variables (pn : string -> option dec) (hr : bool) (nt : dec -> string) (fl : flavor).
  Notation can := (canon nt pn hr fl).
  Definition quiet (n : node) : Prop := forall d c p f, can n d c p f -> plain_tree n = true.
  Lemma quiet_list : forall l b d, Forall (fun n => quiet n /\ body_ok quiet n) l -> Forall (subl pn hr fl nt d b) l -> forallb plain_tree l = true.
  Proof. intros l b d H C. apply forallb_forall. rewrite Forall_forall in *. intros x Hx. destruct (C x Hx) as [Cx _]. exact (proj1 (H x Hx) _ _ _ _ Cx). Qed.
  Lemma quiet_all : forall n, quiet n /\ body_ok quiet n.
  Proof.
    induction n using node_ind'; (split; [|try exact I; try exact (proj1 IHn)]);
      repeat match goal with IH : quiet _ /\ _ |- _ => destruct IH as [IH _] end;
      intros d0 c0 p0 f0 HC; try reflexivity; try (destruct HC; fail); cbn [plain_tree].
    - apply can_template in HC. apply forallb_forall. rewrite Forall_forall in *. intros x Hx. exact (proj1 (H x Hx) _ _ _ _ (HC x Hx)).
    - apply can_array in HC as [_ HC]. eapply quiet_list; eauto.
    - apply can_object in HC as [_ HC]. apply forallb_forall. rewrite Forall_forall in *. intros x Hx. destruct (HC x Hx) as [[Ca _] Cb]. destruct (H x Hx) as [[Ha _] [Hb _]].
      rewrite (Ha _ _ _ _ Ca), (Hb _ _ _ _ Cb). reflexivity.
    - eapply IHn; exact HC.
    - destruct HC as (_ & A & B). rewrite (IHn1 _ _ _ _ A), (IHn2 _ _ _ _ B). reflexivity.
    - destruct HC as (_ & A & B & C). rewrite (IHn _ _ _ _ A). destruct f, t; cbn in *; rewrite ?(proj1 H _ _ _ _ B), ?(proj1 H0 _ _ _ _ (proj1 C)); reflexivity.
    - destruct HC as (_ & A & B & _). rewrite (IHn1 _ _ _ _ A), (IHn2 _ _ _ _ B). reflexivity.
    - destruct HC as (_ & _ & A & B & C). rewrite (IHn1 _ _ _ _ A), (IHn2 _ _ _ _ B), (IHn3 _ _ _ _ C). reflexivity.
    - destruct HC as (u & _ & _ & A). exact (IHn _ _ _ _ A).
    - destruct HC as (q & la & _ & _ & _ & _ & A & B). rewrite (IHn1 _ _ _ _ A), (IHn2 _ _ _ _ B). reflexivity.
    - destruct k; [apply all_args in HC; eapply quiet_list; eauto|destruct HC as [_ HC]; apply all_args in HC; eapply quiet_list; eauto|].
      destruct l as [|x [|y [|z l]]]; try (destruct HC; fail); destruct y; try (destruct HC; fail).
      destruct HC as [A B]. inversion H as [|? ? [Hx _] Hl]; subst. inversion Hl as [|? ? [_ Hb] _]; subst. cbn [body_ok] in Hb. cbn. rewrite (Hx _ _ _ _ A), (Hb _ _ _ _ B). reflexivity.
    - apply can_method in HC as (_ & A & _ & C). rewrite (IHn _ _ _ _ A). eapply quiet_list; eauto.
  Qed.
End Can.
Lemma plain_no_assign : forall n, plain_tree n = true -> no_assign n = true.
Proof.
  assert (L : forall l, Forall (fun n => plain_tree n = true -> no_assign n = true) l -> forallb plain_tree l = true -> forallb no_assign l = true).
  { intros l H. apply forallb_impl_F. exact H. }
  induction n using node_ind'; cbn [plain_tree no_assign]; intros E; auto; (repeat rewrite andb_true_iff in E); rewrite ?andb_true_iff; try (intuition auto; fail).
  - eapply forallb_impl_F; [|exact E]. eapply Forall_impl; [|exact H]. intros [a b] [A B]. cbn in *. rewrite !andb_true_iff. tauto.
  - destruct E as [[A B] C]. repeat split; auto; [destruct f; auto|destruct t; auto].
Qed.
