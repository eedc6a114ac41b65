(** Values with the list of locations they occupy; writing under a path in an object nobody else refers to. *)
From Coq Require Import String Ascii ZArith Lia Bool List Arith.
From Verif Require Import Base Dec Value Heap HeapSpec TreeFacts HeapFacts DotFacts NodeSpec HeapClaims ContentFacts ExprNodeFacts Nodes.
Import ListNotations.
Local Open Scope list_scope.
Local Open Scope nat_scope.

(** [repr] with the locations visited. *)
Inductive own (h : heap) : value -> tree -> list loc -> Prop :=
| ONull : own h VNull TNull []
| OBool : forall b, own h (VBool b) (TBool b) []
| ONum : forall d, own h (VNum d) (TNum d) []
| OStr : forall s, own h (VStr s) (TStr s) []
| ODyn : forall d, own h (VDyn d) (TDyn d) []
| OArr : forall l a ts fp, hget h l = Some (CArr a) -> owna h a ts fp -> own h (VArr l) (TArr ts) (l :: fp)
| OObj : forall l m ts fp, hget h l = Some (CObj m) -> ownm h m ts fp -> own h (VObj l) (TObj ts) (l :: fp)
with owna (h : heap) : list value -> list tree -> list loc -> Prop :=
| OANil : owna h [] [] []
| OACons : forall v t f a ts fp, own h v t f -> owna h a ts fp -> owna h (v :: a) (t :: ts) (f ++ fp)
with ownm (h : heap) : amap value -> amap tree -> list loc -> Prop :=
| OMNil : ownm h [] [] []
| OMCons : forall k v t f a ts fp, own h v t f -> ownm h a ts fp -> ownm h ((k, v) :: a) ((k, t) :: ts) (f ++ fp).
Scheme own_rec1 := Induction for own Sort Prop
with owna_rec1 := Induction for owna Sort Prop
with ownm_rec1 := Induction for ownm Sort Prop.
Combined Scheme own_mutind from own_rec1, owna_rec1, ownm_rec1.

Lemma own_repr_all : forall h, (forall v t f, own h v t f -> repr h v t) /\ (forall a ts f, owna h a ts f -> Forall2 (repr h) a ts) /\
  (forall m ts f, ownm h m ts f -> Forall2 (fun kv kt => fst kv = fst kt /\ repr h (snd kv) (snd kt)) m ts).
Proof.
  intros h. apply (own_mutind h (fun v t f _ => repr h v t) (fun a ts f _ => Forall2 (repr h) a ts)
    (fun m ts f _ => Forall2 (fun kv kt => fst kv = fst kt /\ repr h (snd kv) (snd kt)) m ts)); intros; try (constructor; auto; fail).
  - eapply RArr; eauto.
  - eapply RObj; eauto.
Qed.
Lemma own_repr : forall h v t f, own h v t f -> repr h v t.
Proof. intros h. apply (own_repr_all h). Qed.
Lemma own_frame_all : forall h g, (forall v t f, own h v t f -> (forall l, In l f -> hget g l = hget h l) -> own g v t f) /\
  (forall a ts f, owna h a ts f -> (forall l, In l f -> hget g l = hget h l) -> owna g a ts f) /\
  (forall m ts f, ownm h m ts f -> (forall l, In l f -> hget g l = hget h l) -> ownm g m ts f).
Proof.
  intros h g. apply (own_mutind h (fun v t f _ => (forall l, In l f -> hget g l = hget h l) -> own g v t f)
    (fun a ts f _ => (forall l, In l f -> hget g l = hget h l) -> owna g a ts f)
    (fun m ts f _ => (forall l, In l f -> hget g l = hget h l) -> ownm g m ts f)); intros; try (constructor; fail).
  - econstructor; [rewrite H0; [eassumption|cbn; auto]|]. apply H. intros; apply H0; cbn; auto.
  - econstructor; [rewrite H0; [eassumption|cbn; auto]|]. apply H. intros; apply H0; cbn; auto.
  - constructor; [apply H|apply H0]; intros; apply H1; apply in_or_app; auto.
  - constructor; [apply H|apply H0]; intros; apply H1; apply in_or_app; auto.
Qed.
Lemma own_frame : forall h g v t f, own h v t f -> (forall l, In l f -> hget g l = hget h l) -> own g v t f.
Proof. intros h g. apply (own_frame_all h g). Qed.
Lemma ownm_frame : forall h g v t f, ownm h v t f -> (forall l, In l f -> hget g l = hget h l) -> ownm g v t f.
Proof. intros h g. apply (own_frame_all h g). Qed.
Lemma own_lt_all : forall h, (forall v t f, own h v t f -> forall l, In l f -> l < length h) /\ (forall a ts f, owna h a ts f -> forall l, In l f -> l < length h) /\
  (forall m ts f, ownm h m ts f -> forall l, In l f -> l < length h).
Proof.
  intros h. apply (own_mutind h (fun v t f _ => forall l, In l f -> l < length h) (fun a ts f _ => forall l, In l f -> l < length h)
    (fun m ts f _ => forall l, In l f -> l < length h)); cbn; intros; try tauto.
  - destruct H0 as [<-|H0]; [unfold hget in e; apply nth_error_Some; congruence|auto].
  - destruct H0 as [<-|H0]; [unfold hget in e; apply nth_error_Some; congruence|auto].
  - apply in_app_or in H1 as [H1|H1]; auto.
  - apply in_app_or in H1 as [H1|H1]; auto.
Qed.
Lemma own_lt : forall h v t f l, own h v t f -> In l f -> l < length h.
Proof. intros h v t f l O I. eapply (proj1 (own_lt_all h)); eauto. Qed.
Lemma ownm_lt : forall h v t f l, ownm h v t f -> In l f -> l < length h.
Proof. intros h v t f l O I. eapply (proj2 (proj2 (own_lt_all h))); eauto. Qed.
Lemma own_hext : forall h g v t f, own h v t f -> hext h g -> own g v t f.
Proof.
  intros h g v t f O (s & ->). eapply own_frame; eauto. intros l I. unfold hget. apply nth_error_app1. eapply own_lt; eauto.
Qed.
Lemma own_reach_all : forall h, (forall v t f, own h v t f -> forall l, In l f -> reachl h v l) /\
  (forall a ts f, owna h a ts f -> forall l, In l f -> exists x, In x a /\ reachl h x l) /\
  (forall m ts f, ownm h m ts f -> forall l, In l f -> exists k x, In (k, x) m /\ reachl h x l).
Proof.
  intros h. apply (own_mutind h (fun v t f _ => forall l, In l f -> reachl h v l) (fun a ts f _ => forall l, In l f -> exists x, In x a /\ reachl h x l)
    (fun m ts f _ => forall l, In l f -> exists k x, In (k, x) m /\ reachl h x l)); cbn; intros; try tauto.
  - destruct H0 as [<-|H0]; [left; constructor|]. destruct (H _ H0) as (x & I & R). eapply reachl_arr; eauto.
  - destruct H0 as [<-|H0]; [right; constructor|]. destruct (H _ H0) as (k & x & I & R). eapply reachl_obj; eauto.
  - apply in_app_or in H1 as [H1|H1]; [exists v; auto|]. destruct (H0 _ H1) as (x & I & R). eauto.
  - apply in_app_or in H1 as [H1|H1]; [exists k, v; auto|]. destruct (H0 _ H1) as (k0 & x & I & R). eauto.
Qed.
Lemma own_reach : forall h v t f l, own h v t f -> In l f -> reachl h v l.
Proof. intros h v t f l O I. eapply (proj1 (own_reach_all h)); eauto. Qed.

Lemma NoDup_app3 : forall A (a b : list A), NoDup (a ++ b) <-> NoDup a /\ NoDup b /\ (forall x, In x a -> ~ In x b).
Proof.
  intros A. induction a as [|x a IH]; intros b; cbn; [split; [repeat split; auto; constructor|intros (_ & H & _); exact H]|].
  rewrite !NoDup_cons_iff, IH, in_app_iff. split.
  - intros (N & Na & Nb & D). repeat split; auto. intros y [<-|I]; auto.
  - intros ((N & Na) & Nb & D). split; [|split; [|split]]; auto. intros [H|H]; auto. eapply D; eauto.
Qed.

(** A tree-shaped value visits each location once. *)
Lemma repr_own : forall h v t, repr h v t -> tshape h v -> exists f, own h v t f /\ NoDup f.
Proof.
  intros h v t R. induction R using repr_ind'; intros T; try (exists []; split; constructor).
  - inversion T as [| | | | |? ? G D F|]; subst. rewrite H in G. injection G as <-.
    assert (E : exists f, owna h a ts f /\ NoDup f).
    { clear H T. induction H1 as [|x y xs ys P Q IH]; [exists []; split; constructor|]. inversion H0; subst. inversion D; subst. inversion F; subst.
      destruct (P H6) as (f & A & B). destruct (IH H5 H7 H4) as (fp & A' & B'). exists (f ++ fp). split; [constructor; auto|]. apply NoDup_app3. repeat split; auto.
      intros l0 I1 I2. destruct (proj1 (proj2 (own_reach_all h)) _ _ _ A' l0 I2) as (z & Iz & Rz). rewrite Forall_forall in H2. apply (H2 z Iz l0); auto.
      eapply own_reach; eauto. }
    destruct E as (f & A & B). exists (l :: f). split; [econstructor; eauto|]. constructor; auto. intros I.
    destruct (proj1 (proj2 (own_reach_all h)) _ _ _ A l I) as (z & Iz & Rz). eapply (acyclic_arr h l (TArr ts) a z); eauto. eapply RArr; eauto.
  - inversion T as [| | | | | |? ? G D F]; subst. rewrite H in G. injection G as <-.
    assert (E : exists f, ownm h m ts f /\ NoDup f).
    { clear H T. induction H1 as [|[kx x] [ky y] xs ys [Ek P] Q IH]; [exists []; split; constructor|]. cbn [fst snd] in *. subst ky.
      inversion H0; subst. cbn [map snd] in D. inversion D; subst. inversion F; subst. cbn [snd] in *.
      destruct (P H6) as (f & A & B). destruct (IH H5 H7 H4) as (fp & A' & B'). exists (f ++ fp). split; [constructor; auto|]. apply NoDup_app3. repeat split; auto.
      intros l0 I1 I2. destruct (proj2 (proj2 (own_reach_all h)) _ _ _ A' l0 I2) as (kz & z & Iz & Rz). rewrite Forall_forall in H2.
      apply (H2 z (in_map snd _ _ Iz) l0); auto. eapply own_reach; eauto. }
    destruct E as (f & A & B). exists (l :: f). split; [econstructor; eauto|]. constructor; auto. intros I.
    destruct (proj2 (proj2 (own_reach_all h)) _ _ _ A l I) as (kz & z & Iz & Rz). eapply (acyclic_obj h l (TObj ts) m kz z); eauto. eapply RObj; eauto.
Qed.

(** *** Replacing an entry *)
Lemma ownm_split : forall h m ts fp k, ownm h m ts fp ->
  match aget k m with
  | None => aget k ts = None
  | Some y => exists ty f1 fy f2, aget k ts = Some ty /\ own h y ty fy /\ fp = f1 ++ fy ++ f2 /\
      forall g z tz fz, own g z tz fz -> (forall l, In l f1 -> hget g l = hget h l) -> (forall l, In l f2 -> hget g l = hget h l) ->
        ownm g (aset k z m) (aset k tz ts) (f1 ++ fz ++ f2)
  end.
Proof.
  intros h m ts fp k O. induction O as [|k0 v t f a ts fp Ov Om IH]; cbn; [reflexivity|].
  destruct (String.eqb k0 k) eqn:Ek.
  - exists t, [], f, fp. split; [reflexivity|]. split; [exact Ov|]. split; [reflexivity|]. intros g z tz fz Oz F1 F2. cbn [app].
    constructor; [exact Oz|]. eapply ownm_frame; eauto.
  - destruct (aget k a) as [y|].
    + destruct IH as (ty & f1 & fy & f2 & A & B & -> & C). exists ty, (f ++ f1), fy, f2. split; [exact A|]. split; [exact B|]. split; [now rewrite <- app_assoc|].
      intros g z tz fz Oz F1 F2. rewrite <- app_assoc. constructor; [|apply C; auto; intros; apply F1; apply in_or_app; auto].
      eapply own_frame; eauto. intros; apply F1; apply in_or_app; auto.
    + exact IH.
Qed.
Lemma ownm_add : forall h m ts fp k g z tz fz, ownm h m ts fp -> aget k m = None -> own g z tz fz -> (forall l, In l fp -> hget g l = hget h l) ->
  ownm g (aset k z m) (aset k tz ts) (fp ++ fz).
Proof.
  intros h m ts fp k g z tz fz O. induction O as [|k0 v t f a ts fp Ov Om IH]; cbn; intros N Oz F.
  - rewrite <- (app_nil_r fz). constructor; [exact Oz|constructor].
  - destruct (String.eqb k0 k) eqn:Ek; [discriminate|]. rewrite <- app_assoc. constructor; [|apply IH; auto; intros; apply F; apply in_or_app; auto].
    eapply own_frame; eauto. intros; apply F; apply in_or_app; auto.
Qed.

Definition apart (f g : list loc) : Prop := forall l, In l f -> ~ In l g.
Lemma insert_own : forall p h v t f x tx fx h1 o, p <> [] -> own h v t f -> NoDup f -> own h x tx fx -> NoDup fx -> apart f fx ->
  dot_insert_parts h v p x = (h1, o) ->
  exists f1, own h1 v (twrite p tx t) f1 /\ NoDup f1 /\ (forall l, In l f1 -> In l f \/ In l fx \/ length h <= l) /\
    (forall l, l < length h -> ~ In l f -> hget h1 l = hget h l) /\ length h <= length h1.
Proof.
  induction p as [|k p IH]; intros h v t f x tx fx h1 o Np Ov Nf Ox Nx Ap E; [congruence|]. clear Np.
  assert (Same : (forall l, v <> VObj l) -> exists f1, own h1 v (twrite (k :: p) tx t) f1 /\ NoDup f1 /\ (forall l, In l f1 -> In l f \/ In l fx \/ length h <= l) /\
    (forall l, l < length h -> ~ In l f -> hget h1 l = hget h l) /\ length h <= length h1).
  { intros Nv. rewrite dot_insert_nonobj in E by (auto; discriminate). injection E as <- <-. exists f.
    assert (twrite (k :: p) tx t = t) as -> by (inversion Ov; subst; try reflexivity; exfalso; eapply Nv; reflexivity). repeat split; auto. }
  destruct v as [|b|d|s|l|l|d]; try (apply Same; intros; discriminate). clear Same.
  inversion Ov as [| | | | | |? m ts fp G Om]; subst. apply NoDup_cons_iff in Nf as [Nl Nf]. pose proof (proj2 (hobj_hget _ _ _) G) as Go.
  assert (Ll : l < length h) by (unfold hget in G; apply nth_error_Some; congruence).
  assert (Al : ~ In l fx) by (apply Ap; cbn; auto). assert (Af : apart fp fx) by (intros z I; apply Ap; cbn; auto).
  destruct p as [|k2 p].
  - rewrite dot_insert_one, Go in E. injection E as <- <-. cbn [twrite].
    pose proof (ownm_split h m ts fp k Om) as Sp. destruct (aget k m) as [y|] eqn:A.
    + destruct Sp as (ty & f1 & fy & f2 & _ & _ & -> & C).
      exists (l :: f1 ++ fx ++ f2). apply NoDup_app3 in Nf as (N1 & N2 & D1). apply NoDup_app3 in N2 as (Ny & N2 & D2). split; [|split; [|split; [|split]]].
      * econstructor; [apply hget_hset_eq; exact Ll|]. apply C.
        -- eapply own_frame; eauto. intros z I. apply hget_hset_ne. congruence.
        -- intros z I. apply hget_hset_ne. intros <-. apply Nl. apply in_or_app; auto.
        -- intros z I. apply hget_hset_ne. intros <-. apply Nl. apply in_or_app; right. apply in_or_app; auto.
      * apply NoDup_cons_iff. split.
        -- intros I. apply in_app_or in I as [I|I]; [apply Nl; apply in_or_app; auto|]. apply in_app_or in I as [I|I]; [auto|]. apply Nl. apply in_or_app; right. apply in_or_app; auto.
        -- apply NoDup_app3. split; [exact N1|]. split.
           ++ apply NoDup_app3. repeat split; auto. intros z I1 I2. apply (Af z); auto. apply in_or_app; right; apply in_or_app; auto.
           ++ intros z I1 I2. apply in_app_or in I2 as [I2|I2]; [apply (Af z); auto; apply in_or_app; auto|]. apply (D1 z); auto. apply in_or_app; auto.
      * intros z [<-|I]; [cbn; auto|]. apply in_app_or in I as [I|I]; [left; right; apply in_or_app; auto|]. apply in_app_or in I as [I|I]; [auto|].
        left; right. apply in_or_app; right. apply in_or_app; auto.
      * intros z Lz Nz. apply hget_hset_ne. intros <-. apply Nz. cbn; auto.
      * rewrite hset_length. lia.
    + exists (l :: fp ++ fx). split; [|split; [|split; [|split]]].
      * econstructor; [apply hget_hset_eq; exact Ll|]. eapply ownm_add; eauto.
        -- eapply own_frame; eauto. intros z I. apply hget_hset_ne. congruence.
        -- intros z I. apply hget_hset_ne. congruence.
      * apply NoDup_cons_iff. split; [intros I; apply in_app_or in I; tauto|]. apply NoDup_app3. auto.
      * intros z [<-|I]; [cbn; auto|]. apply in_app_or in I as [I|I]; cbn; auto.
      * intros z Lz Nz. apply hget_hset_ne. intros <-. apply Nz. cbn; auto.
      * rewrite hset_length. lia.
  - rewrite dot_insert_cons, Go in E by discriminate. pose proof (ownm_split h m ts fp k Om) as Sp. destruct (aget k m) as [y|] eqn:A.
    + destruct Sp as (ty & f1 & fy & f2 & At & Oy & -> & C). apply NoDup_app3 in Nf as (N1 & N2 & D1). apply NoDup_app3 in N2 as (Ny & N2 & D2).
      assert (Incl : forall z, In z fy -> In z (f1 ++ fy ++ f2)) by (intros; apply in_or_app; right; apply in_or_app; auto).
      destruct (IH h y ty fy x tx fx h1 o) as (f3 & O3 & N3 & I3 & Fr & Len); auto; [discriminate|intros z I; apply Af; auto|].
      assert (K1 : forall z, In z f1 -> z < length h) by (intros z I; eapply ownm_lt; eauto; apply in_or_app; auto).
      assert (K2 : forall z, In z f2 -> z < length h) by (intros z I; eapply ownm_lt; eauto; apply in_or_app; right; apply in_or_app; auto).
      exists (l :: f1 ++ f3 ++ f2). change (twrite (k :: k2 :: p) tx (TObj ts)) with (TObj (aset k (twrite (k2 :: p) tx (match aget k ts with Some y0 => y0 | None => TObj [] end)) ts)).
      rewrite At. split; [|split; [|split; [|split]]].
      * econstructor; [rewrite Fr; [exact G|exact Ll|]|].
        -- intros I. apply Nl. auto.
        -- assert (aset k y m = m) as <- by (clear -A; induction m as [|[k0 v0] m IHm]; cbn in *; [discriminate|]; destruct (String.eqb k0 k) eqn:Ek;
             [apply String.eqb_eq in Ek; subst; congruence|now rewrite IHm]).
           apply C; [exact O3| |].
           ++ intros z I. apply Fr; auto. intros I2. apply (D1 z); auto. apply in_or_app; auto.
           ++ intros z I. apply Fr; auto. intros I2. apply (D2 z); auto.
      * apply NoDup_cons_iff. split.
        -- intros I. apply in_app_or in I as [I|I]; [apply Nl; apply in_or_app; auto|]. apply in_app_or in I as [I|I].
           ++ destruct (I3 _ I) as [I4|[I4|I4]]; [apply Nl; auto|auto|lia].
           ++ apply Nl. apply in_or_app; right. apply in_or_app; auto.
        -- apply NoDup_app3. split; [exact N1|]. split.
           ++ apply NoDup_app3. repeat split; auto. intros z I1 I2. destruct (I3 _ I1) as [I4|[I4|I4]].
              ** apply (D2 z); auto.
              ** apply (Af z); auto. apply in_or_app; right; apply in_or_app; auto.
              ** specialize (K2 _ I2). lia.
           ++ intros z I1 I2. apply in_app_or in I2 as [I2|I2].
              ** destruct (I3 _ I2) as [I4|[I4|I4]]; [apply (D1 z); auto; apply in_or_app; auto|apply (Af z); auto; apply in_or_app; auto|specialize (K1 _ I1); lia].
              ** apply (D1 z); auto. apply in_or_app; auto.
      * intros z [<-|I]; [cbn; auto|]. apply in_app_or in I as [I|I]; [left; right; apply in_or_app; auto|]. apply in_app_or in I as [I|I].
        -- destruct (I3 _ I) as [I4|[I4|I4]]; auto. left; right; auto.
        -- left; right. apply in_or_app; right. apply in_or_app; auto.
      * intros z Lz Nz. apply Fr; auto. intros I. apply Nz. right. auto.
      * exact Len.
    + set (h0 := hset (h ++ [CObj []]) l (CObj (aset k (VObj (length h)) m))) in *.
      assert (L0 : length h0 = S (length h)) by (unfold h0; rewrite hset_length, app_length; cbn; lia).
      assert (Old : forall z, z < length h -> z <> l -> hget h0 z = hget h z).
      { intros z Lz Nz. unfold h0. rewrite hget_hset_ne by auto. unfold hget. apply nth_error_app1. exact Lz. }
      assert (New : hget h0 (length h) = Some (CObj [])).
      { unfold h0. rewrite hget_hset_ne by lia. unfold hget. rewrite nth_error_app2 by lia. now rewrite Nat.sub_diag. }
      assert (Lx : forall z, In z fx -> z < length h) by (intros z I; eapply own_lt; eauto).
      assert (Lf : forall z, In z fp -> z < length h) by (intros z I; eapply ownm_lt; eauto).
      destruct (IH h0 (VObj (length h)) (TObj []) [length h] x tx fx h1 o) as (f3 & O3 & N3 & I3 & Fr & Len); auto.
      * discriminate.
      * econstructor; [exact New|constructor].
      * repeat constructor. intros [].
      * eapply own_frame; eauto. intros z I. apply Old; [auto|congruence].
      * intros z [<-|[]] I. specialize (Lx _ I). lia.
      * exists (l :: fp ++ f3). change (twrite (k :: k2 :: p) tx (TObj ts)) with (TObj (aset k (twrite (k2 :: p) tx (match aget k ts with Some y0 => y0 | None => TObj [] end)) ts)).
        rewrite Sp.
        assert (I3' : forall z, In z f3 -> In z fx \/ length h <= z).
        { intros z I. destruct (I3 _ I) as [[<-|[]]|[I4|I4]]; [right; lia|auto|right; lia]. }
        split; [|split; [|split; [|split]]].
        -- econstructor; [rewrite Fr; [apply hget_hset_eq; rewrite app_length; cbn; lia|lia|]|].
           ++ intros [H|[]]. lia.
           ++ eapply ownm_add; eauto. intros z I. rewrite Fr; [apply Old; [auto|congruence]|specialize (Lf _ I); lia|].
              intros [H|[]]. specialize (Lf _ I). lia.
        -- apply NoDup_cons_iff. split.
           ++ intros I. apply in_app_or in I as [I|I]; [auto|]. destruct (I3' _ I); [auto|lia].
           ++ apply NoDup_app3. repeat split; auto. intros z I1 I2. destruct (I3' _ I2); [apply (Af z); auto|specialize (Lf _ I1); lia].
        -- intros z [<-|I]; [cbn; auto|]. apply in_app_or in I as [I|I]; [cbn; auto|]. destruct (I3' _ I); auto.
        -- intros z Lz Nz. rewrite Fr; [apply Old; [exact Lz|intros ->; apply Nz; cbn; auto]|lia|intros [H|[]]; lia].
        -- lia.
Qed.

(** A deep clone owns fresh locations only. *)
Lemma copy_own : forall h v t, repr h v t -> exists h1 v1 f, copy h v = (h1, Ok v1) /\ hext h h1 /\ own h1 v1 t f /\ NoDup f /\ forall l, In l f -> length h <= l.
Proof.
  intros h v t R. destruct (deep_clone_ok (S (length h)) h v t R) as (h1 & v1 & E & X & R1 & Fr & T).
  { pose proof (height_le _ _ _ R). lia. }
  destruct (repr_own h1 v1 t R1 T) as (f & O & N). exists h1, v1, f. unfold copy. rewrite E. repeat split; auto. intros l I. apply Fr. eapply own_reach; eauto.
Qed.
Lemma insert_field_own : forall key h v t f x tx fx, own h v t f -> NoDup f -> own h x tx fx -> NoDup fx -> apart f fx ->
  exists f1, own (fst (dot_insert h v key x)) v (twrite (split_dot key) tx t) f1 /\ NoDup f1 /\ (forall l, In l f1 -> In l f \/ In l fx \/ length h <= l) /\
    (forall l, l < length h -> ~ In l f -> hget (fst (dot_insert h v key x)) l = hget h l) /\ length h <= length (fst (dot_insert h v key x)).
Proof.
  intros key h v t f x tx fx Ov Nf Ox Nx Ap. unfold dot_insert. destruct (dot_insert_parts h v (split_dot key) x) as [h1 o] eqn:E.
  eapply insert_own; eauto. apply split_dot_ne.
Qed.
