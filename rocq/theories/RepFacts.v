(** Evaluation of an assignment-free expression depends on the content of its context only: not on
    where objects live in memory nor on which of them are shared. *)
From Coq Require Import String Ascii ZArith Lia Bool List Arith.
From Verif Require Import Base Dec Value Heap Ast Ops Compiler Vm Eval Funcs HeapSpec TreeFacts HeapFacts PureFacts.
Import ListNotations.
Local Open Scope nat_scope.

(** The two values have the same content, each in its own memory. *)
Definition alike (h1 h2 : heap) (v1 v2 : value) : Prop := exists t, repr h1 v1 t /\ repr h2 v2 t.
Definition kalike (h1 h2 : heap) (a b : string * value) : Prop := fst a = fst b /\ alike h1 h2 (snd a) (snd b).

Inductive aview (h1 h2 : heap) : value -> value -> Prop :=
| ANull : aview h1 h2 VNull VNull
| ABool : forall b, aview h1 h2 (VBool b) (VBool b)
| ANum : forall d, aview h1 h2 (VNum d) (VNum d)
| AStr : forall s, aview h1 h2 (VStr s) (VStr s)
| ADyn : forall d, aview h1 h2 (VDyn d) (VDyn d)
| AArr : forall l1 l2 a1 a2, harr h1 l1 = Some a1 -> harr h2 l2 = Some a2 -> Forall2 (alike h1 h2) a1 a2 ->
    aview h1 h2 (VArr l1) (VArr l2)
| AObj : forall l1 l2 m1 m2, hobj h1 l1 = Some m1 -> hobj h2 l2 = Some m2 -> Forall2 (kalike h1 h2) m1 m2 ->
    aview h1 h2 (VObj l1) (VObj l2).

Lemma F2_alike : forall h1 h2 a1 a2 ts, Forall2 (repr h1) a1 ts -> Forall2 (repr h2) a2 ts -> Forall2 (alike h1 h2) a1 a2.
Proof.
  intros h1 h2 a1 a2 ts H. revert a2. induction H; intros a2 G; inversion G; subst; constructor; auto.
  eexists; eauto.
Qed.
Lemma alike_view : forall h1 h2 v1 v2, alike h1 h2 v1 v2 -> aview h1 h2 v1 v2.
Proof.
  intros h1 h2 v1 v2 (t & A & B). inversion A; subst; inversion B; subst; try constructor.
  - eapply AArr; [apply harr_hget; eauto|apply harr_hget; eauto|]. eapply F2_alike; eauto.
  - eapply AObj; [apply hobj_hget; eauto|apply hobj_hget; eauto|]. clear - H0 H4. revert m0 H4.
    induction H0 as [|a b ? ? [E R]]; intros m0 G; inversion G as [|? ? ? ? [E2 R2]]; subst; constructor; auto.
    split; [congruence|]. eexists; eauto.
Qed.
Lemma F2_split : forall h1 h2 a1 a2, Forall2 (alike h1 h2) a1 a2 -> exists ts, Forall2 (repr h1) a1 ts /\ Forall2 (repr h2) a2 ts.
Proof.
  induction 1 as [|x y ? ? (t & A & B) H IH]; [exists []; auto|]. destruct IH as (ts & C & D). exists (t :: ts). auto.
Qed.
Lemma F2_ksplit : forall h1 h2 a1 a2, Forall2 (kalike h1 h2) a1 a2 -> exists ts,
  Forall2 (fun kv kt => fst kv = fst kt /\ repr h1 (snd kv) (snd kt)) a1 ts /\
  Forall2 (fun kv kt => fst kv = fst kt /\ repr h2 (snd kv) (snd kt)) a2 ts.
Proof.
  induction 1 as [|[k x] [k' y] ? ? [E (t & A & B)] H IH]; [exists []; auto|]. destruct IH as (ts & C & D).
  cbn in *. exists ((k, t) :: ts). split; constructor; cbn; auto.
Qed.
Lemma view_alike : forall h1 h2 v1 v2, aview h1 h2 v1 v2 -> alike h1 h2 v1 v2.
Proof.
  intros h1 h2 v1 v2 H. destruct H; try (eexists; split; constructor).
  - destruct (F2_split _ _ _ _ H1) as (ts & A & B). exists (TArr ts).
    split; eapply RArr; eauto; apply harr_hget; auto.
  - destruct (F2_ksplit _ _ _ _ H1) as (ts & A & B). exists (TObj ts).
    split; eapply RObj; eauto; apply hobj_hget; auto.
Qed.
Lemma alike_hext : forall h1 h2 g1 g2 v1 v2, hext h1 g1 -> hext h2 g2 -> alike h1 h2 v1 v2 -> alike g1 g2 v1 v2.
Proof. intros h1 h2 g1 g2 v1 v2 E1 E2 (t & A & B). exists t. split; eapply repr_hext; eauto. Qed.
Lemma F2_hext : forall h1 h2 g1 g2 v1 v2, hext h1 g1 -> hext h2 g2 -> Forall2 (alike h1 h2) v1 v2 -> Forall2 (alike g1 g2) v1 v2.
Proof. intros h1 h2 g1 g2 v1 v2 E1 E2 H. induction H; constructor; eauto using alike_hext. Qed.
Lemma K2_hext : forall h1 h2 g1 g2 v1 v2, hext h1 g1 -> hext h2 g2 -> Forall2 (kalike h1 h2) v1 v2 -> Forall2 (kalike g1 g2) v1 v2.
Proof. intros h1 h2 g1 g2 v1 v2 E1 E2 H. induction H as [|? ? ? ? []]; constructor; auto. split; eauto using alike_hext. Qed.

Lemma new_arr_alike : forall h1 h2 a1 a2, Forall2 (alike h1 h2) a1 a2 ->
  alike (fst (new_arr h1 a1)) (fst (new_arr h2 a2)) (snd (new_arr h1 a1)) (snd (new_arr h2 a2)).
Proof.
  intros h1 h2 a1 a2 H. unfold new_arr, halloc; cbn. apply view_alike. eapply AArr.
  - apply harr_hget. apply hget_alloc_new.
  - apply harr_hget. apply hget_alloc_new.
  - eapply F2_hext; [apply hext_alloc|apply hext_alloc|auto].
Qed.
Lemma new_obj_alike : forall h1 h2 a1 a2, Forall2 (kalike h1 h2) a1 a2 ->
  alike (fst (new_obj h1 a1)) (fst (new_obj h2 a2)) (snd (new_obj h1 a1)) (snd (new_obj h2 a2)).
Proof.
  intros h1 h2 a1 a2 H. unfold new_obj, halloc; cbn. apply view_alike. eapply AObj.
  - apply hobj_hget. apply hget_alloc_new.
  - apply hobj_hget. apply hget_alloc_new.
  - eapply K2_hext; [apply hext_alloc|apply hext_alloc|auto].
Qed.

Definition oalike (h1 h2 : heap) (a b : option value) : Prop :=
  match a, b with Some x, Some y => alike h1 h2 x y | None, None => True | _, _ => False end.
Lemma aget_alike : forall h1 h2 m1 m2 k, Forall2 (kalike h1 h2) m1 m2 -> oalike h1 h2 (aget k m1) (aget k m2).
Proof.
  intros h1 h2 m1 m2 k H. induction H as [|[a x] [b y] ? ? [E A]]; cbn; auto. cbn in E, A. subst b.
  destruct (String.eqb a k); auto.
Qed.
Lemma aset_alike : forall h1 h2 m1 m2 k x y, Forall2 (kalike h1 h2) m1 m2 -> alike h1 h2 x y ->
  Forall2 (kalike h1 h2) (aset k x m1) (aset k y m2).
Proof.
  intros h1 h2 m1 m2 k x y H A. induction H as [|[a v] [b w] ? ? [E B]]; cbn.
  - constructor; [split; auto|constructor].
  - cbn in E, B. subst b. destruct (String.eqb a k); constructor; auto; split; auto.
Qed.
Lemma null_alike : forall h1 h2, alike h1 h2 VNull VNull.
Proof. intros. apply view_alike. constructor. Qed.
Lemma bool_alike : forall h1 h2 b, alike h1 h2 (VBool b) (VBool b).
Proof. intros. apply view_alike. constructor. Qed.
Lemma num_alike : forall h1 h2 b, alike h1 h2 (VNum b) (VNum b).
Proof. intros. apply view_alike. constructor. Qed.
Lemma str_alike : forall h1 h2 b, alike h1 h2 (VStr b) (VStr b).
Proof. intros. apply view_alike. constructor. Qed.
Lemma dyn_alike : forall h1 h2 b, alike h1 h2 (VDyn b) (VDyn b).
Proof. intros. apply view_alike. constructor. Qed.
#[local] Hint Resolve null_alike bool_alike num_alike str_alike dyn_alike hext_refl hext_alloc : rp.
Lemma or_null_alike : forall h1 h2 a b, oalike h1 h2 a b -> alike h1 h2 (or_null a) (or_null b).
Proof. intros h1 h2 [x|] [y|]; cbn; intros; try contradiction; auto with rp. Qed.
Lemma nth_alike : forall h1 h2 a b n, Forall2 (alike h1 h2) a b -> oalike h1 h2 (nth_error a n) (nth_error b n).
Proof. intros h1 h2 a b n H. revert n. induction H; intros [|n]; cbn; auto. Qed.
Lemma znth_alike : forall h1 h2 a b n, Forall2 (alike h1 h2) a b -> oalike h1 h2 (znth a n) (znth b n).
Proof.
  intros h1 h2 a b n H. unfold znth. rewrite (Forall2_len _ _ _ H).
  destruct (n <? Z.of_nat (length b))%Z; cbn; auto. now apply nth_alike.
Qed.
Lemma F2_nil : forall {A B} (R : A -> B -> Prop) a b, Forall2 R a b -> (a = [] <-> b = []).
Proof. intros A B R a b H. inversion H; split; congruence. Qed.

Definition ralike (h1 h2 : heap) (a b : res value) : Prop :=
  match a, b with Ok x, Ok y => alike h1 h2 x y | Err e, Err f => e = f | _, _ => False end.
Definition halike (a b : heap * res value) : Prop := ralike (fst a) (fst b) (snd a) (snd b).
#[local] Hint Unfold ralike : rp.

Lemma fetch_alike : forall h1 h2 a1 a2 b1 b2, alike h1 h2 a1 a2 -> alike h1 h2 b1 b2 ->
  ralike h1 h2 (op_fetch h1 a1 b1) (op_fetch h2 a2 b2).
Proof.
  intros h1 h2 a1 a2 b1 b2 A B. apply alike_view in A, B. destruct A, B; cbn; auto with rp.
  - destruct (dec_to_usize d); cbn; auto. destruct (zstr_get s z (z + 1)); auto with rp.
  - destruct (dec_to_usize d); cbn; auto. rewrite H, H0. apply or_null_alike. now apply znth_alike.
  - rewrite H, H0. apply or_null_alike. now apply aget_alike.
Qed.
Lemma get_key_alike : forall h1 h2 a1 a2 k, alike h1 h2 a1 a2 -> alike h1 h2 (get_key h1 a1 k) (get_key h2 a2 k).
Proof.
  intros h1 h2 a1 a2 k A. apply alike_view in A. destruct A; cbn; auto with rp.
  rewrite H, H0. apply or_null_alike. now apply aget_alike.
Qed.
Lemma get_index_alike : forall h1 h2 a1 a2 k, alike h1 h2 a1 a2 -> alike h1 h2 (get_index h1 a1 k) (get_index h2 a2 k).
Proof.
  intros h1 h2 a1 a2 k A. apply alike_view in A. destruct A; cbn; auto with rp.
  - destruct (zstr_get s k (k + 1)); auto with rp.
  - rewrite H, H0. apply or_null_alike. now apply znth_alike.
Qed.
Lemma any_alike : forall h1 h2 (f : value -> bool) a b, (forall x y, alike h1 h2 x y -> f x = f y) ->
  Forall2 (alike h1 h2) a b -> existsb f a = existsb f b.
Proof. intros h1 h2 f a b Hf H. induction H; cbn; auto. now rewrite IHForall2, (Hf _ _ H). Qed.
Lemma in_alike : forall h1 h2 a1 a2 b1 b2, alike h1 h2 a1 a2 -> alike h1 h2 b1 b2 ->
  ralike h1 h2 (op_in h1 a1 b1) (op_in h2 a2 b2).
Proof.
  intros h1 h2 a1 a2 b1 b2 A B. apply alike_view in A, B.
  assert (G : forall f, (forall x y, alike h1 h2 x y -> f x = f y) -> forall l1 l2 c1 c2,
    harr h1 l1 = Some c1 -> harr h2 l2 = Some c2 -> Forall2 (alike h1 h2) c1 c2 -> arr_any h1 l1 f = arr_any h2 l2 f).
  { intros f Hf l1 l2 c1 c2 E1 E2 F. unfold arr_any. rewrite E1, E2. eapply any_alike; eauto. }
  destruct A, B; cbn; auto with rp;
    try (erewrite G; [apply bool_alike| |eassumption|eassumption|eassumption];
         intros x y A; apply alike_view in A; destruct A; reflexivity).
  all: repeat match goal with x : dyn |- _ => destruct x end; cbn; auto with rp.
  all: try (erewrite G; [apply bool_alike| |eassumption|eassumption|eassumption];
            intros x y A; apply alike_view in A; destruct A; reflexivity).
  all: try (destruct (interval_includes _ _); cbn; auto with rp; fail).
  rewrite H, H0. unfold amem. pose proof (aget_alike _ _ _ _ s H1) as O.
  destruct (aget s m1), (aget s m2); cbn in O; try contradiction; auto with rp.
Qed.
Lemma equal_alike : forall h1 h2 a1 a2 b1 b2, alike h1 h2 a1 a2 -> alike h1 h2 b1 b2 -> op_equal a1 b1 = op_equal a2 b2.
Proof. intros h1 h2 a1 a2 b1 b2 A B. apply alike_view in A, B. destruct A, B; reflexivity. Qed.
Lemma compare_alike : forall h1 h2 c a1 a2 b1 b2, alike h1 h2 a1 a2 -> alike h1 h2 b1 b2 ->
  ralike h1 h2 (op_compare c a1 b1) (op_compare c a2 b2).
Proof.
  intros h1 h2 c a1 a2 b1 b2 A B. apply alike_view in A, B. destruct A, B; cbn; auto with rp;
    try (destruct d; cbn; auto; fail). destruct d, d0; cbn; auto with rp.
Qed.
Lemma interval_alike : forall h1 h2 l r a1 a2 b1 b2, alike h1 h2 a1 a2 -> alike h1 h2 b1 b2 ->
  ralike h1 h2 (op_interval l r a1 b1) (op_interval l r a2 b2).
Proof.
  intros h1 h2 l r a1 a2 b1 b2 A B. apply alike_view in A, B. destruct A, B; cbn; auto with rp;
    try (destruct d; cbn; auto; fail). destruct d, d0; cbn; auto with rp.
Qed.
Lemma negate_alike : forall h1 h2 a1 a2, alike h1 h2 a1 a2 -> ralike h1 h2 (op_negate a1) (op_negate a2).
Proof. intros h1 h2 a1 a2 A. apply alike_view in A. destruct A; cbn; auto with rp. Qed.
Lemma not_alike : forall h1 h2 a1 a2, alike h1 h2 a1 a2 -> ralike h1 h2 (op_not a1) (op_not a2).
Proof. intros h1 h2 a1 a2 A. apply alike_view in A. destruct A; cbn; auto with rp. Qed.
Lemma all_strs_alike : forall h1 h2 a b, Forall2 (alike h1 h2) a b -> all_strs a = all_strs b.
Proof.
  intros h1 h2 a b H. induction H; auto. apply alike_view in H. destruct H; cbn; auto. now rewrite IHForall2.
Qed.
Lemma join_alike : forall h1 h2 a1 a2 s, alike h1 h2 a1 a2 -> ralike h1 h2 (op_join h1 a1 (VStr s)) (op_join h2 a2 (VStr s)).
Proof.
  intros h1 h2 a1 a2 s A. apply alike_view in A. destruct A; cbn; auto with rp.
  rewrite H, H0, (all_strs_alike _ _ _ _ H1). destruct (all_strs a2); cbn; auto with rp.
Qed.
Lemma zsub_alike : forall h1 h2 a b x y, Forall2 (alike h1 h2) a b ->
  match zsub a x y, zsub b x y with Some p, Some q => Forall2 (alike h1 h2) p q | None, None => True | _, _ => False end.
Proof.
  intros h1 h2 a b x y H. unfold zsub. rewrite (Forall2_len _ _ _ H). destruct (_ && _); auto.
  assert (K : forall n, Forall2 (alike h1 h2) (skipn n a) (skipn n b)).
  { clear -H. induction H; intros [|n]; cbn; auto. }
  specialize (K (Z.to_nat x)). generalize (Z.to_nat (y + 1 - x)). clear -K.
  induction K; intros [|n]; cbn; auto.
Qed.
Lemma slice_alike : forall h1 h2 a1 a2 b1 b2 c1 c2, alike h1 h2 a1 a2 -> alike h1 h2 b1 b2 -> alike h1 h2 c1 c2 ->
  halike (op_slice h1 a1 b1 c1) (op_slice h2 a2 b2 c2).
Proof.
  intros h1 h2 a1 a2 b1 b2 c1 c2 A B C. apply alike_view in A, B, C. unfold op_slice, halike.
  destruct C; cbn [fst snd ralike]; auto. destruct B; cbn [fst snd ralike]; auto.
  destruct (dec_to_usize d); cbn [fst snd ralike]; auto. destruct (dec_to_usize d0); cbn [fst snd ralike]; auto.
  destruct A; cbn [fst snd ralike]; auto.
  - destruct (zstr_get s z (z0 + 1)); cbn; auto with rp.
  - rewrite H, H0. pose proof (zsub_alike _ _ _ _ z z0 H1) as S. destruct (zsub a1 z z0), (zsub a2 z z0); try contradiction.
    + apply (new_arr_alike _ _ _ _ S).
    + cbn; auto.
Qed.
Lemma len_alike : forall h1 h2 a1 a2, alike h1 h2 a1 a2 -> ralike h1 h2 (op_len h1 a1) (op_len h2 a2).
Proof.
  intros h1 h2 a1 a2 A. apply alike_view in A. destruct A; cbn; auto with rp.
  rewrite H, H0. cbn. rewrite (Forall2_len _ _ _ H1). auto with rp.
Qed.
Lemma flatten1_alike : forall h1 h2 a b, Forall2 (alike h1 h2) a b -> Forall2 (alike h1 h2) (flatten1 h1 a) (flatten1 h2 b).
Proof.
  intros h1 h2 a b H. induction H; cbn; auto. apply Forall2_app; auto. clear IHForall2 H0.
  pose proof H as A. apply alike_view in H. destruct H; auto. now rewrite H, H0.
Qed.
Lemma flatten_alike : forall h1 h2 a1 a2, alike h1 h2 a1 a2 -> halike (op_flatten h1 a1) (op_flatten h2 a2).
Proof.
  intros h1 h2 a1 a2 A. apply alike_view in A. unfold op_flatten, halike. destruct A; cbn [fst snd ralike]; auto.
  rewrite H, H0. apply (new_arr_alike _ _ _ _ (flatten1_alike _ _ _ _ H1)).
Qed.
Lemma add_alike : forall X h1 h2 a1 a2 b1 b2, alike h1 h2 a1 a2 -> alike h1 h2 b1 b2 ->
  ralike h1 h2 (op_add X a1 b1) (op_add X a2 b2).
Proof. intros X h1 h2 a1 a2 b1 b2 A B. apply alike_view in A, B. destruct A, B; cbn; auto with rp. destruct (x_add X d d0); cbn; auto with rp. Qed.
Lemma sub_alike : forall X h1 h2 a1 a2 b1 b2, alike h1 h2 a1 a2 -> alike h1 h2 b1 b2 ->
  ralike h1 h2 (op_sub X a1 b1) (op_sub X a2 b2).
Proof. intros X h1 h2 a1 a2 b1 b2 A B. apply alike_view in A, B. destruct A, B; cbn; auto with rp. destruct (x_sub X d d0); cbn; auto with rp. Qed.
Lemma mul_alike : forall X h1 h2 a1 a2 b1 b2, alike h1 h2 a1 a2 -> alike h1 h2 b1 b2 ->
  ralike h1 h2 (op_mul X a1 b1) (op_mul X a2 b2).
Proof. intros X h1 h2 a1 a2 b1 b2 A B. apply alike_view in A, B. destruct A, B; cbn; auto with rp. destruct (x_mul X d d0); cbn; auto with rp. Qed.
Lemma div_alike : forall X h1 h2 a1 a2 b1 b2, alike h1 h2 a1 a2 -> alike h1 h2 b1 b2 ->
  ralike h1 h2 (op_div X a1 b1) (op_div X a2 b2).
Proof. intros X h1 h2 a1 a2 b1 b2 A B. apply alike_view in A, B. destruct A, B; cbn; auto with rp. destruct (x_div X d d0); cbn; auto with rp. Qed.
Lemma mod_alike : forall X h1 h2 a1 a2 b1 b2, alike h1 h2 a1 a2 -> alike h1 h2 b1 b2 ->
  ralike h1 h2 (op_mod X a1 b1) (op_mod X a2 b2).
Proof. intros X h1 h2 a1 a2 b1 b2 A B. apply alike_view in A, B. destruct A, B; cbn; auto with rp. destruct (x_rem X d d0); cbn; auto with rp. Qed.
Lemma pow_alike : forall X h1 h2 a1 a2 b1 b2, alike h1 h2 a1 a2 -> alike h1 h2 b1 b2 ->
  ralike h1 h2 (op_pow X a1 b1) (op_pow X a2 b2).
Proof. intros X h1 h2 a1 a2 b1 b2 A B. apply alike_view in A, B. destruct A, B; cbn; auto with rp. destruct (x_pow X d d0); cbn; auto with rp. Qed.
Lemma bin_alike : forall X op h1 h2 a1 a2 b1 b2, alike h1 h2 a1 a2 -> alike h1 h2 b1 b2 ->
  ralike h1 h2 (bin_value X op h1 a1 b1) (bin_value X op h2 a2 b2).
Proof.
  intros X op h1 h2 a1 a2 b1 b2 A B. destruct op as [a|l|c| | | | | | |]; [destruct a|destruct l|destruct c|..]; cbn [bin_value];
    try (cbn; reflexivity); try (now apply compare_alike); try (now apply add_alike); try (now apply sub_alike);
    try (now apply mul_alike); try (now apply div_alike); try (now apply mod_alike); try (now apply pow_alike);
    try (now apply in_alike).
  - rewrite (equal_alike _ _ _ _ _ _ A B). cbn. apply bool_alike.
  - rewrite (equal_alike _ _ _ _ _ _ A B). cbn. apply bool_alike.
  - pose proof (in_alike _ _ _ _ _ _ A B) as R. destruct (op_in h1 a1 b1), (op_in h2 a2 b2); cbn in *; try contradiction; auto.
    now apply not_alike.
Qed.

(** *** Scopes and loops. [P]: the names that may be read; [full]: may the whole scope be read. *)
Section Ctx.
  Variable P : string -> bool.
  Variable full : bool.
  Definition ealike (h1 h2 : heap) (e1 e2 : scope) : Prop :=
    alike h1 h2 (sc_base e1) (sc_base e2) /\
    (forall k, P k = true -> oalike h1 h2 (local_str e1 k) (local_str e2 k)) /\
    (full = true -> Forall2 (kalike h1 h2) (sc_locals e1) (sc_locals e2)).
  Definition lalike (h1 h2 : heap) (a b : loop) : Prop :=
    alike h1 h2 (lp_array a) (lp_array b) /\ lp_len a = lp_len b /\ lp_iter a = lp_iter b /\ lp_count a = lp_count b.
  Lemma ealike_hext : forall h1 h2 g1 g2 a b, hext h1 g1 -> hext h2 g2 -> ealike h1 h2 a b -> ealike g1 g2 a b.
  Proof.
    intros h1 h2 g1 g2 a b E1 E2 (A & B & C). split; [eauto using alike_hext|]. split.
    - intros k Hk. specialize (B k Hk). destruct (local_str a k), (local_str b k); cbn in *; auto. eauto using alike_hext.
    - intros F. eapply K2_hext; eauto.
  Qed.
  Lemma lalike_hext : forall h1 h2 g1 g2 a b, hext h1 g1 -> hext h2 g2 -> Forall2 (lalike h1 h2) a b -> Forall2 (lalike g1 g2) a b.
  Proof.
    intros h1 h2 g1 g2 a b E1 E2 H. induction H as [|? ? ? ? (A & B & C & D)]; constructor; auto.
    split; eauto using alike_hext.
  Qed.
  Lemma scope_get_alike : forall h1 h2 e1 e2 k, ealike h1 h2 e1 e2 -> P k = true ->
    oalike h1 h2 (scope_get h1 e1 k) (scope_get h2 e2 k).
  Proof.
    intros h1 h2 e1 e2 k (A & B & _) Hk. specialize (B k Hk). unfold scope_get.
    destruct (local_str e1 k), (local_str e2 k); cbn in B; try contradiction; auto.
    apply alike_view in A. destruct A; cbn; auto. rewrite H, H0. now apply aget_alike.
  Qed.
  Lemma fetch_env_alike : forall h1 h2 e1 e2 k, ealike h1 h2 e1 e2 -> P k = true ->
    ralike h1 h2 (op_fetch_env h1 e1 k) (op_fetch_env h2 e2 k).
  Proof.
    intros h1 h2 e1 e2 k (A & B & _) Hk. specialize (B k Hk). unfold op_fetch_env.
    destruct (local_str e1 k), (local_str e2 k); cbn in B; try contradiction; auto.
    apply alike_view in A. destruct A; cbn; auto with rp. rewrite H, H0. apply or_null_alike. now apply aget_alike.
  Qed.
  Lemma fold_aset_alike : forall h1 h2 l1 l2, Forall2 (kalike h1 h2) l1 l2 -> forall m1 m2, Forall2 (kalike h1 h2) m1 m2 ->
    Forall2 (kalike h1 h2) (fold_left (fun acc kv => aset (fst kv) (snd kv) acc) l1 m1)
      (fold_left (fun acc kv => aset (fst kv) (snd kv) acc) l2 m2).
  Proof.
    intros h1 h2 l1 l2 H. induction H as [|[k x] [k' y] ? ? [E A]]; intros m1 m2 M; cbn in *; auto.
    subst k'. apply IHForall2. now apply aset_alike.
  Qed.
  Lemma materialize_alike : forall h1 h2 e1 e2, ealike h1 h2 e1 e2 -> full = true ->
    alike (fst (materialize h1 e1)) (fst (materialize h2 e2)) (snd (materialize h1 e1)) (snd (materialize h2 e2)).
  Proof.
    intros h1 h2 [b1 l1] [b2 l2] (A & _ & C) F. specialize (C F). cbn in *. unfold materialize; cbn.
    inversion C; subst; cbn; auto. pose proof A as A0. apply alike_view in A. destruct A; cbn; auto. rewrite H1, H2.
    apply new_obj_alike. apply (fold_aset_alike h1 h2 (x :: l) (y :: l')); auto.
  Qed.
End Ctx.
Lemma pointer_alike : forall h1 h2 a b d, Forall2 (lalike h1 h2) a b -> ralike h1 h2 (op_pointer h1 a d) (op_pointer h2 b d).
Proof.
  intros h1 h2 a b d H. unfold op_pointer. revert d. induction H as [|x y ? ? (A & B & C & D)]; intros [|d]; cbn; auto.
  - rewrite C. apply alike_view in A. destruct A; cbn; auto. rewrite H0, H1.
    pose proof (nth_alike _ _ _ _ (lp_iter y) H2) as N. destruct (nth_error a1 _), (nth_error a2 _); cbn in *; try contradiction; auto.
Qed.
Lemma begin_alike : forall h1 h2 a1 a2, alike h1 h2 a1 a2 ->
  match op_begin h1 a1, op_begin h2 a2 with
  | (g1, Ok l1), (g2, Ok l2) => lalike g1 g2 l1 l2
  | (_, Err e), (_, Err f) => e = f
  | _, _ => False
  end.
Proof.
  intros h1 h2 a1 a2 A. pose proof A as A0. apply alike_view in A. destruct A; cbn [op_begin]; auto.
  - destruct d; auto. destruct (interval_to_array i) as [a|] eqn:E; auto.
    assert (F : Forall2 (alike h1 h2) a a).
    { unfold interval_to_array in E. destruct (iv_left i), (iv_right i); try discriminate.
      match type of E with match ?x with _ => _ end = _ => destruct x end; [|discriminate].
      match type of E with match ?x with _ => _ end = _ => destruct x end; [|discriminate].
      injection E as <-. induction (zrange z z0); cbn; constructor; auto with rp. }
    pose proof (new_arr_alike _ _ _ _ F) as N. destruct (new_arr h1 a), (new_arr h2 a). cbn in *. repeat split; auto.
  - rewrite H, H0. repeat split; cbn; auto. now rewrite (Forall2_len _ _ _ H1).
Qed.
Lemma build_alike : forall h1 h2 p q,
  Forall2 (fun a b => alike h1 h2 (fst a) (fst b) /\ alike h1 h2 (snd a) (snd b)) p q ->
  forall m1 m2, Forall2 (kalike h1 h2) m1 m2 ->
  match build_object p m1, build_object q m2 with
  | Ok a, Ok b => Forall2 (kalike h1 h2) a b
  | Err e, Err f => e = f
  | _, _ => False
  end.
Proof.
  intros h1 h2 p q H. induction H as [|[k x] [k' y] ? ? [A B]]; intros m1 m2 M; cbn; auto.
  cbn in A, B. apply alike_view in A. destruct A; auto. apply IHForall2. now apply aset_alike.
Qed.

(** *** Outcomes *)
Definition orel {A} (R : heap -> heap -> A -> A -> Prop) (h1 h2 : heap) (env1 env2 : scope) (o1 o2 : outc A) : Prop :=
  match o1, o2 with
  | ORet a1 e1 g1, ORet a2 e2 g2 => R g1 g2 a1 a2 /\ e1 = env1 /\ e2 = env2 /\ hext h1 g1 /\ hext h2 g2
  | OErr e1 g1, OErr e2 g2 => e1 = e2 /\ hext h1 g1 /\ hext h2 g2
  | _, _ => False
  end.
Lemma orel_trans : forall {A} (R : heap -> heap -> A -> A -> Prop) h1 h2 g1 g2 env1 env2 o1 o2,
  hext h1 g1 -> hext h2 g2 -> orel R g1 g2 env1 env2 o1 o2 -> orel R h1 h2 env1 env2 o1 o2.
Proof.
  intros A R h1 h2 g1 g2 env1 env2 [a1 e1 k1|e1 k1] [a2 e2 k2|e2 k2] E1 E2; cbn; try tauto.
  - intros (? & ? & ? & ? & ?). repeat split; auto; eapply hext_trans; eauto.
  - intros (? & ? & ?). repeat split; auto; eapply hext_trans; eauto.
Qed.
Lemma orel_bind : forall {A B} (R : heap -> heap -> A -> A -> Prop) (S : heap -> heap -> B -> B -> Prop) h1 h2 env1 env2 o1 o2 k1 k2,
  orel R h1 h2 env1 env2 o1 o2 ->
  (forall a1 a2 g1 g2, hext h1 g1 -> hext h2 g2 -> R g1 g2 a1 a2 -> orel S g1 g2 env1 env2 (k1 a1 env1 g1) (k2 a2 env2 g2)) ->
  orel S h1 h2 env1 env2 (obind o1 k1) (obind o2 k2).
Proof.
  intros A B R S h1 h2 env1 env2 [a1 e1 g1|e1 g1] [a2 e2 g2|e2 g2] k1 k2 O K; cbn in *; try tauto.
  destruct O as (H & -> & -> & E1 & E2). eapply orel_trans; [exact E1|exact E2|]. auto.
Qed.
Lemma orel_lift : forall h1 h2 env1 env2 r1 r2, ralike h1 h2 r1 r2 -> orel alike h1 h2 env1 env2 (lift env1 h1 r1) (lift env2 h2 r2).
Proof. intros h1 h2 env1 env2 [] []; cbn; intros; try contradiction; repeat split; auto using hext_refl. Qed.
Lemma orel_hlift : forall h1 h2 env1 env2 r1 r2, hext h1 (fst r1) -> hext h2 (fst r2) -> halike r1 r2 ->
  orel alike h1 h2 env1 env2 (hlift env1 r1) (hlift env2 r2).
Proof. intros h1 h2 env1 env2 [g1 []] [g2 []] E1 E2; cbn in *; intros; try contradiction; repeat split; auto. Qed.
Lemma orel_ret : forall h1 h2 env1 env2 v1 v2, alike h1 h2 v1 v2 -> orel alike h1 h2 env1 env2 (ORet v1 env1 h1) (ORet v2 env2 h2).
Proof. intros. cbn. repeat split; auto using hext_refl. Qed.
Lemma orel_err : forall {A} (R : heap -> heap -> A -> A -> Prop) h1 h2 env1 env2 e, orel R h1 h2 env1 env2 (OErr e h1) (OErr e h2).
Proof. intros. cbn. repeat split; auto using hext_refl. Qed.
Lemma orel_seq : forall {A B} (R : heap -> heap -> B -> B -> Prop) (f1 f2 : A -> scope -> heap -> outc B) env1 env2,
  (forall h1 h2 g1 g2 a b, hext h1 g1 -> hext h2 g2 -> R h1 h2 a b -> R g1 g2 a b) ->
  forall l h1 h2,
  Forall (fun x => forall g1 g2, hext h1 g1 -> hext h2 g2 -> orel R g1 g2 env1 env2 (f1 x env1 g1) (f2 x env2 g2)) l ->
  orel (fun g1 g2 => Forall2 (R g1 g2)) h1 h2 env1 env2 (eval_seq f1 l env1 h1) (eval_seq f2 l env2 h2).
Proof.
  intros A B R f1 f2 env1 env2 Mono. induction l as [|x l IH]; intros h1 h2 F; cbn.
  - repeat split; auto using hext_refl.
  - inversion F as [|? ? Fx Fl]; subst. eapply orel_bind; [apply Fx; apply hext_refl|].
    intros a1 a2 g1 g2 E1 E2 Ra. eapply orel_bind.
    + apply IH. eapply Forall_impl; [|exact Fl]. cbn. intros y Hy k1 k2 K1 K2. apply Hy; eapply hext_trans; eauto.
    + cbn. intros b1 b2 k1 k2 K1 K2 Rb. repeat split; auto using hext_refl. constructor; eauto.
Qed.

(** Names an assignment-free expression may read. *)
Section Names.
  Variable P : string -> bool.
  Variable full : bool.
  Fixpoint reads (n : node) : bool :=
    match n with
    | NIdent s => P s
    | NRoot => full
    | NTemplate l | NArray l | NCall _ l => forallb reads l
    | NObject l => forallb (fun kv => reads (fst kv) && reads (snd kv)) l
    | NAssign l o => forallb (fun kv => reads (fst kv) && reads (snd kv)) l
                     && match o with Some x => reads x | None => true end
    | NClosure b _ => reads b
    | NParen x | NUnary x _ => reads x
    | NMember a b | NInterval a b _ _ | NBinary a _ b => reads a && reads b
    | NSlice a f t =>
        reads a && match f with Some x => reads x | None => true end
        && match t with Some x => reads x | None => true end
    | NCond a b c => reads a && reads b && reads c
    | NMethod _ x l => reads x && forallb reads l
    | _ => true
    end.
End Names.

(** Library functions and methods whose result depends on the content of their arguments only. *)
Definition content_ext (X : ext) : Prop :=
  (forall k h1 h2 a1 a2, Forall2 (alike h1 h2) a1 a2 -> halike (x_call X k a1 h1) (x_call X k a2 h2)) /\
  (forall k h1 h2 a1 a2, Forall2 (alike h1 h2) a1 a2 -> halike (x_method X k a1 h1) (x_method X k a2 h2)).

Section Eval.
  Variable X : ext.
  Hypothesis HX : content_ext X.
  Hypothesis HP : pure_ext X.
  Variable P : string -> bool.
  Variable full : bool.
  Variables root1 root2 : scope.
  Notation ealike := (ealike P full).

  Lemma call_alike : forall k h1 h2 a1 a2, Forall2 (alike h1 h2) a1 a2 -> halike (op_call X k a1 h1) (op_call X k a2 h2).
  Proof.
    intros k h1 h2 a1 a2 A. unfold op_call. destruct (x_arity X k); [|cbn; reflexivity].
    pose proof (proj1 HX k h1 h2 a1 a2 A) as R.
    destruct (x_call X k a1 h1) as [g1 [v1|e1]], (x_call X k a2 h2) as [g2 [v2|e2]]; cbn in R; try contradiction.
    - exact R.
    - subst e2. destruct e1; reflexivity.
  Qed.
  Lemma method_alike : forall k h1 h2 a1 a2, Forall2 (alike h1 h2) a1 a2 -> halike (op_method X k a1 h1) (op_method X k a2 h2).
  Proof.
    intros k h1 h2 a1 a2 A. unfold op_method. destruct (x_marity X k); [|cbn; reflexivity].
    pose proof (proj2 HX k h1 h2 a1 a2 A) as R.
    destruct (x_method X k a1 h1) as [g1 [v1|e1]], (x_method X k a2 h2) as [g2 [v2|e2]]; cbn in R; try contradiction.
    - exact R.
    - subst e2. destruct e1; reflexivity.
  Qed.

  Lemma static_alike : forall al n env1 env2 h1 h2, reads P full n = true -> ealike h1 h2 root1 root2 -> ealike h1 h2 env1 env2 ->
    match eval_static root1 al n env1 h1, eval_static root2 al n env2 h2 with
    | Some (g1, v1), Some (g2, v2) => alike g1 g2 v1 v2 /\ hext h1 g1 /\ hext h2 g2
    | None, None => True
    | _, _ => False
    end.
  Proof.
    intros al n env1 env2 h1 h2. induction n using node_ind'; intros Hr Er Ee; cbn [eval_static]; auto.
    - cbn in Hr. destruct (bound_at al s); auto. repeat split; auto using hext_refl. apply or_null_alike.
      eapply scope_get_alike; eauto.
    - cbn in Hr. pose proof (materialize_alike _ _ _ _ _ _ Er Hr) as M.
      pose proof (hext_materialize h1 root1) as M1. pose proof (hext_materialize h2 root2) as M2.
      destruct (materialize h1 root1), (materialize h2 root2). cbn in *. auto.
    - cbn in Hr. apply andb_true_iff in Hr as [Hr1 Hr2].
      specialize (IHn1 Hr1 Er Ee). destruct n2; auto.
      + destruct (dec_to_u32 d); auto.
        destruct (eval_static root1 al n1 env1 h1) as [[g1 v1]|], (eval_static root2 al n1 env2 h2) as [[g2 v2]|]; cbn; try tauto.
        destruct IHn1 as (A & B & C). repeat split; auto. now apply get_index_alike.
      + destruct (eval_static root1 al n1 env1 h1) as [[g1 v1]|], (eval_static root2 al n1 env2 h2) as [[g2 v2]|]; cbn; try tauto.
        destruct IHn1 as (A & B & C). repeat split; auto. now apply get_key_alike.
  Qed.

  Definition rel_at (n : node) : Prop := no_assign n = true -> reads P full n = true ->
    forall al loops1 loops2 env1 env2 h1 h2, ealike h1 h2 root1 root2 -> ealike h1 h2 env1 env2 -> Forall2 (lalike h1 h2) loops1 loops2 ->
    orel alike h1 h2 env1 env2 (eval X root1 al loops1 n env1 h1) (eval X root2 al loops2 n env2 h2).

  Definition lorel (h1 h2 : heap) (env1 env2 : scope) (o1 o2 : lout) : Prop :=
    match o1, o2 with
    | LDone lp1 a1 e1 g1, LDone lp2 a2 e2 g2 =>
        lalike g1 g2 lp1 lp2 /\ Forall2 (alike g1 g2) a1 a2 /\ e1 = env1 /\ e2 = env2 /\ hext h1 g1 /\ hext h2 g2
    | LBreak v1 e1 g1, LBreak v2 e2 g2 => alike g1 g2 v1 v2 /\ e1 = env1 /\ e2 = env2 /\ hext h1 g1 /\ hext h2 g2
    | LErr e1 g1, LErr e2 g2 => e1 = e2 /\ hext h1 g1 /\ hext h2 g2
    | _, _ => False
    end.
  Lemma judge_alike : forall h1 h2 c v1 v2, alike h1 h2 v1 v2 -> judge c v1 = judge c v2.
  Proof. intros h1 h2 c v1 v2 A. apply alike_view in A. destruct A, c; reflexivity. Qed.
  Lemma judge_break : forall c v r, judge c v = Break r -> exists b, r = VBool b.
  Proof. intros c v r H. destruct c, v; cbn in H; try discriminate; destruct b; try discriminate; injection H as <-; eauto. Qed.
  Lemma advance_alike : forall c body1 body2 env1 env2 lp1 lp2 a1 a2 h1 h2,
    (orel alike h1 h2 env1 env2 (body1 lp1 env1 h1) (body2 lp2 env2 h2)) ->
    lalike h1 h2 lp1 lp2 -> Forall2 (alike h1 h2) a1 a2 ->
    lorel h1 h2 env1 env2 (advance c body1 lp1 a1 env1 h1) (advance c body2 lp2 a2 env2 h2).
  Proof.
    intros c body1 body2 env1 env2 lp1 lp2 a1 a2 h1 h2 B L A. unfold advance.
    destruct (body1 lp1 env1 h1) as [v1 e1 g1|e1 g1], (body2 lp2 env2 h2) as [v2 e2 g2|e2 g2]; cbn in B; try contradiction; [|exact B].
    destruct B as (V & -> & -> & E1 & E2). rewrite (judge_alike _ _ c _ _ V).
    destruct (judge c v2) as [b|r|e] eqn:J.
    - set (l1 := if counts c && b then bump_count lp1 else lp1). set (l2 := if counts c && b then bump_count lp2 else lp2).
      assert (L' : lalike g1 g2 l1 l2).
      { destruct L as (L1 & L2 & L3 & L4). unfold l1, l2. destruct (counts c && b); split; cbn; eauto using alike_hext. }
      assert (A' : Forall2 (alike g1 g2) a1 a2) by (eapply F2_hext; eauto).
      assert (AV : Forall2 (alike g1 g2) (a1 ++ [v1]) (a2 ++ [v2])) by (apply Forall2_app; auto).
      destruct c; try (cbn [lorel]; auto 10; fail).
      destruct b; [|cbn [lorel]; auto 10].
      pose proof (pointer_alike g1 g2 [l1] [l2] 0 (Forall2_cons _ _ L' (Forall2_nil _))) as PT.
      destruct (op_pointer g1 [l1] 0), (op_pointer g2 [l2] 0); cbn in PT; try contradiction; cbn [lorel]; auto.
      split; auto. split; [apply Forall2_app; auto|auto].
    - destruct (judge_break _ _ _ J) as [b ->]. cbn. auto with rp.
    - cbn. auto.
  Qed.
  Lemma iterate_alike : forall c body1 body2 env1 env2 h1 h2,
    (forall lp1 lp2 g1 g2, hext h1 g1 -> hext h2 g2 -> lalike g1 g2 lp1 lp2 ->
      orel alike g1 g2 env1 env2 (body1 lp1 env1 g1) (body2 lp2 env2 g2)) ->
    forall n lp1 lp2 a1 a2 g1 g2, hext h1 g1 -> hext h2 g2 -> lalike g1 g2 lp1 lp2 -> Forall2 (alike g1 g2) a1 a2 ->
    lorel g1 g2 env1 env2 (iterate c body1 n lp1 a1 env1 g1) (iterate c body2 n lp2 a2 env2 g2).
  Proof.
    intros c body1 body2 env1 env2 h1 h2 Hb. induction n as [|n IH]; intros lp1 lp2 a1 a2 g1 g2 E1 E2 L A; cbn [iterate].
    - cbn. repeat split; auto using hext_refl; apply L.
    - pose proof (advance_alike c body1 body2 env1 env2 lp1 lp2 a1 a2 g1 g2 (Hb _ _ _ _ E1 E2 L) L A) as R.
      destruct (advance c body1 lp1 a1 env1 g1) as [l1 b1 e1 k1|v1 e1 k1|e1 k1], (advance c body2 lp2 a2 env2 g2) as [l2 b2 e2 k2|v2 e2 k2|e2 k2];
        cbn in R; try contradiction; try exact R.
      destruct R as (L' & A' & -> & -> & K1 & K2).
      assert (LB : lalike k1 k2 (bump_it l1) (bump_it l2)).
      { destruct L' as (P1 & P2 & P3 & P4). repeat split; cbn; auto. }
      pose proof (IH (bump_it l1) (bump_it l2) b1 b2 k1 k2 (hext_trans _ _ _ E1 K1) (hext_trans _ _ _ E2 K2) LB A') as R.
      destruct (iterate c body1 n (bump_it l1) b1 env1 k1), (iterate c body2 n (bump_it l2) b2 env2 k2); cbn in *; try contradiction;
        intuition eauto using hext_trans.
  Qed.
  Lemma closure_value_alike : forall c lp1 lp2 a1 a2 env1 env2 h1 h2, lalike h1 h2 lp1 lp2 -> Forall2 (alike h1 h2) a1 a2 ->
    orel alike h1 h2 env1 env2 (closure_value c lp1 a1 env1 h1) (closure_value c lp2 a2 env2 h2).
  Proof.
    intros c lp1 lp2 a1 a2 env1 env2 h1 h2 (L1 & L2 & L3 & L4) A. destruct c; cbn [closure_value]; rewrite ?L4;
      try (apply orel_ret; auto with rp; fail).
    - pose proof (new_arr_alike _ _ _ _ A) as N. pose proof (hext_new_arr h1 a1). pose proof (hext_new_arr h2 a2).
      destruct (new_arr h1 a1), (new_arr h2 a2). cbn in *. auto.
    - pose proof (new_arr_alike _ _ _ _ A) as N. pose proof (hext_new_arr h1 a1). pose proof (hext_new_arr h2 a2).
      destruct (new_arr h1 a1), (new_arr h2 a2). cbn in *. auto.
    - pose proof (new_arr_alike _ _ _ _ A) as N. pose proof (hext_new_arr h1 a1) as E1. pose proof (hext_new_arr h2 a2) as E2.
      destruct (new_arr h1 a1) as [g1 w1], (new_arr h2 a2) as [g2 w2]. cbn [fst snd] in *.
      eapply orel_trans; [exact E1|exact E2|]. apply orel_hlift; [apply hext_flatten|apply hext_flatten|]. now apply flatten_alike.
  Qed.

  Lemma eval_alike : forall n, rel_at n.
  Proof.
    induction n using node_ind'; intros Hn Hr al loops1 loops2 env1 env2 h1 h2 Er Ee El; cbn in Hn, Hr; cbn [eval];
      rewrite ?andb_true_iff in Hn; rewrite ?andb_true_iff in Hr; try discriminate;
      try (apply orel_ret; auto with rp; fail); try apply orel_err;
      try (apply orel_lift; now apply pointer_alike).
    - (* template *)
      eapply orel_bind with (R := fun g1 g2 => Forall2 (alike g1 g2)).
      + apply orel_seq; [intros; eapply alike_hext; eauto|]. rewrite forallb_forall in Hn, Hr. rewrite Forall_forall in *.
        intros x Hx g1 g2 E1 E2. eapply orel_bind.
        * apply H; eauto using ealike_hext, lalike_hext.
        * intros v1 v2 k1 k2 K1 K2 V. apply orel_hlift; [now apply hext_call|now apply hext_call|]. apply call_alike. auto.
      + intros vs1 vs2 g1 g2 E1 E2 V. pose proof (new_arr_alike _ _ _ _ V) as N. pose proof (hext_new_arr g1 vs1) as K1. pose proof (hext_new_arr g2 vs2) as K2.
        destruct (new_arr g1 vs1), (new_arr g2 vs2). cbn [fst snd] in *. eapply orel_trans; [exact K1|exact K2|].
        apply orel_lift. now apply join_alike.
    - (* array *)
      eapply orel_bind with (R := fun g1 g2 => Forall2 (alike g1 g2)).
      + apply orel_seq; [intros; eapply alike_hext; eauto|]. rewrite forallb_forall in Hn, Hr. rewrite Forall_forall in *.
        intros x Hx g1 g2 E1 E2. apply H; eauto using ealike_hext, lalike_hext.
      + intros vs1 vs2 g1 g2 E1 E2 V. pose proof (new_arr_alike _ _ _ _ V) as N. pose proof (hext_new_arr g1 vs1) as K1. pose proof (hext_new_arr g2 vs2) as K2.
        destruct (new_arr g1 vs1), (new_arr g2 vs2). cbn in *. auto.
    - (* object *)
      eapply orel_bind with (R := fun g1 g2 => Forall2 (fun a b => alike g1 g2 (fst a) (fst b) /\ alike g1 g2 (snd a) (snd b))).
      + apply orel_seq; [intros ? ? ? ? ? ? ? ? []; split; eapply alike_hext; eauto|]. rewrite forallb_forall in Hn, Hr. rewrite Forall_forall in *.
        intros [a b] Hx g1 g2 E1 E2. specialize (H _ Hx) as [Ha Hb]. specialize (Hn _ Hx). specialize (Hr _ Hx). cbn in *.
        apply andb_true_iff in Hn as [N1 N2]. apply andb_true_iff in Hr as [R1 R2].
        eapply orel_bind; [apply Ha; eauto using ealike_hext, lalike_hext|].
        intros v1 v2 k1 k2 K1 K2 V. eapply orel_bind with (R := alike).
        * apply orel_hlift; [now apply hext_call|now apply hext_call|]. apply call_alike. auto.
        * intros s1 s2 q1 q2 Q1 Q2 S. eapply orel_bind.
          -- apply Hb; eauto; [eapply ealike_hext; [| |exact Er]|eapply ealike_hext; [| |exact Ee]|eapply lalike_hext; [| |exact El]]; eauto using hext_trans.
          -- intros w1 w2 z1 z2 Z1 Z2 W. cbn. repeat split; auto using hext_refl. eapply alike_hext; eauto.
      + intros vs1 vs2 g1 g2 E1 E2 V.
        assert (V' : Forall2 (fun a b => alike g1 g2 (fst a) (fst b) /\ alike g1 g2 (snd a) (snd b)) (rev vs1) (rev vs2)).
        { clear -V. induction V; cbn; auto. apply Forall2_app; auto. }
        pose proof (build_alike _ _ _ _ V' [] [] (Forall2_nil _)) as B.
        apply orel_hlift.
        * destruct (build_object (rev vs1) []); cbn; [apply hext_alloc|apply hext_refl].
        * destruct (build_object (rev vs2) []); cbn; [apply hext_alloc|apply hext_refl].
        * destruct (build_object (rev vs1) []), (build_object (rev vs2) []); try contradiction; [|cbn; auto].
          apply (new_obj_alike _ _ _ _ B).
    - (* identifier *)
      destruct (bound_at al s); apply orel_lift; [now apply pointer_alike|eapply fetch_env_alike; eauto].
    - (* closure *) apply IHn; auto.
    - (* paren *) apply IHn; auto.
    - (* root *)
      pose proof (materialize_alike _ _ _ _ _ _ Ee Hr) as M.
      pose proof (hext_materialize h1 env1) as M1. pose proof (hext_materialize h2 env2) as M2.
      destruct (materialize h1 env1), (materialize h2 env2). cbn in *. auto.
    - (* member *)
      destruct Hn as [N1 N2], Hr as [R1 R2].
      pose proof (static_alike al (NMember n1 n2) env1 env2 h1 h2 ltac:(cbn; now rewrite R1, R2) Er Ee) as S.
      destruct (eval_static root1 al (NMember n1 n2) env1 h1) as [[g1 v1]|], (eval_static root2 al (NMember n1 n2) env2 h2) as [[g2 v2]|]; try contradiction.
      + cbn. tauto.
      + eapply orel_bind; [apply IHn1; auto|]. intros v1 v2 g1 g2 E1 E2 V.
        eapply orel_bind; [apply IHn2; eauto using ealike_hext, lalike_hext|]. intros w1 w2 k1 k2 K1 K2 W.
        apply orel_lift. apply fetch_alike; eauto using alike_hext.
    - (* slice *)
      destruct Hn as [[N1 N2] N3], Hr as [[R1 R2] R3]. eapply orel_bind; [apply IHn; auto|]. intros v1 v2 g1 g2 E1 E2 V.
      eapply orel_bind with (R := alike).
      { destruct t; [apply H0; eauto using ealike_hext, lalike_hext|]. apply orel_lift.
        pose proof (len_alike _ _ _ _ V) as L. destruct (op_len g1 v1), (op_len g2 v2); cbn in *; try contradiction; auto.
        apply sub_alike; auto with rp. }
      intros t1 t2 k1 k2 K1 K2 T. eapply orel_bind with (R := alike).
      { destruct f; [|apply orel_ret; auto with rp].
        apply H; auto; [eapply ealike_hext; [| |exact Er]|eapply ealike_hext; [| |exact Ee]|eapply lalike_hext; [| |exact El]]; eauto using hext_trans. }
      intros f1 f2 q1 q2 Q1 Q2 F. apply orel_hlift; [apply hext_slice|apply hext_slice|].
      apply slice_alike; eauto using alike_hext, hext_trans.
    - (* interval *)
      destruct Hn as [N1 N2], Hr as [R1 R2]. eapply orel_bind; [apply IHn1; auto|]. intros v1 v2 g1 g2 E1 E2 V.
      eapply orel_bind; [apply IHn2; eauto using ealike_hext, lalike_hext|]. intros w1 w2 k1 k2 K1 K2 W.
      apply orel_lift. apply interval_alike; eauto using alike_hext.
    - (* cond *)
      destruct Hn as [[N1 N2] N3], Hr as [[R1 R2] R3]. eapply orel_bind; [apply IHn1; auto|]. intros v1 v2 g1 g2 E1 E2 V.
      apply alike_view in V. destruct V; try apply orel_err.
      destruct b; [apply IHn2|apply IHn3]; eauto using ealike_hext, lalike_hext.
    - (* unary *)
      eapply orel_bind; [apply IHn; auto|]. intros v1 v2 g1 g2 E1 E2 V.
      destruct op as [a|l|c| | | | | | |]; [destruct a|destruct l|..]; try apply orel_err;
        [now apply orel_ret|apply orel_lift; now apply negate_alike|apply orel_lift; now apply not_alike].
    - (* binary *)
      destruct Hn as [N1 N2], Hr as [R1 R2]. eapply orel_bind; [apply IHn1; auto|]. intros v1 v2 g1 g2 E1 E2 V.
      assert (Rt : orel alike g1 g2 env1 env2 (eval X root1 al loops1 n2 env1 g1) (eval X root2 al loops2 n2 env2 g2))
        by (apply IHn2; eauto using ealike_hext, lalike_hext).
      assert (Both : forall o, orel alike g1 g2 env1 env2
        (obind (eval X root1 al loops1 n2 env1 g1) (fun rv env h => lift env h (bin_value X o h v1 rv)))
        (obind (eval X root2 al loops2 n2 env2 g2) (fun rv env h => lift env h (bin_value X o h v2 rv)))).
      { intros o. eapply orel_bind; [exact Rt|]. intros w1 w2 k1 k2 K1 K2 W. apply orel_lift. apply bin_alike; eauto using alike_hext. }
      destruct op as [ao|lo|co| | | | | | |]; try (apply Both; fail).
      destruct lo; try apply Both.
      + pose proof V as V0. apply alike_view in V. destruct V; try apply orel_err. destruct b; [exact Rt|now apply orel_ret].
      + pose proof V as V0. apply alike_view in V. destruct V; try apply orel_err. destruct b; [now apply orel_ret|exact Rt].
      + pose proof V as V0. apply alike_view in V. destruct V; try (now apply orel_ret). exact Rt.
    - (* call *)
      assert (Plain : orel alike h1 h2 env1 env2
        (obind (eval_seq (eval X root1 al loops1) l env1 h1) (fun vs env h => hlift env (op_call X k vs h)))
        (obind (eval_seq (eval X root2 al loops2) l env2 h2) (fun vs env h => hlift env (op_call X k vs h)))).
      { eapply orel_bind with (R := fun g1 g2 => Forall2 (alike g1 g2)).
        - apply orel_seq; [intros; eapply alike_hext; eauto|]. rewrite forallb_forall in Hn, Hr. rewrite Forall_forall in *.
          intros x Hx g1 g2 E1 E2. apply H; eauto using ealike_hext, lalike_hext.
        - intros vs1 vs2 g1 g2 E1 E2 V. apply orel_hlift; [now apply hext_call|now apply hext_call|]. now apply call_alike. }
      destruct k as [f|f|c]; auto. clear Plain. destruct l as [|a0 [|a1 r]]; try apply orel_err.
      inversion H as [|? ? H0 H']; subst. inversion H' as [|? ? H1 H'']; subst. cbn in Hn, Hr.
      rewrite !andb_true_iff in Hn, Hr. destruct Hn as [N0 [N1 _]], Hr as [R0 [R1 _]].
      eapply orel_bind; [apply H0; auto|]. intros v1 v2 g1 g2 E1 E2 V.
      pose proof (begin_alike _ _ _ _ V) as B. pose proof (hext_begin g1 v1) as K1. pose proof (hext_begin g2 v2) as K2.
      destruct (op_begin g1 v1) as [k1 [l1|e1]], (op_begin g2 v2) as [k2 [l2|e2]]; cbn [fst] in *; try contradiction.
      2:{ subst e2. cbn. auto. }
      assert (X1 : hext h1 k1) by eauto using hext_trans. assert (X2 : hext h2 k2) by eauto using hext_trans.
      replace (lp_len l1) with (lp_len l2) by (symmetry; apply B).
      pose proof (iterate_alike c (fun lp => eval X root1 al (lp :: loops1) a1) (fun lp => eval X root2 al (lp :: loops2) a1) env1 env2 k1 k2) as I.
      specialize (I ltac:(intros lp1 lp2 q1 q2 Q1 Q2 L; apply H1; auto;
        [eapply ealike_hext; [| |exact Er]|eapply ealike_hext; [| |exact Ee]|constructor; [exact L|eapply lalike_hext; [| |exact El]]];
        eauto using hext_trans)).
      specialize (I (lp_len l2) l1 l2 [] [] k1 k2 (hext_refl _) (hext_refl _) B (Forall2_nil _)).
      eapply orel_trans; [exact K1|exact K2|].
      destruct (iterate c (fun lp => eval X root1 al (lp :: loops1) a1) (lp_len l2) l1 [] env1 k1) as [p1 q1 e1 z1|w1 e1 z1|e1 z1],
               (iterate c (fun lp => eval X root2 al (lp :: loops2) a1) (lp_len l2) l2 [] env2 k2) as [p2 q2 e2 z2|w2 e2 z2|e2 z2];
        cbn in I; try contradiction.
      + destruct I as (A & Bq & -> & -> & Z1 & Z2). eapply orel_trans; [exact Z1|exact Z2|]. now apply closure_value_alike.
      + exact I.
      + exact I.
    - (* method *)
      destruct Hn as [N1 N2], Hr as [R1 R2]. eapply orel_bind; [apply IHn; auto|]. intros v1 v2 g1 g2 E1 E2 V.
      eapply orel_bind with (R := fun g1 g2 => Forall2 (alike g1 g2)).
      + apply orel_seq; [intros; eapply alike_hext; eauto|]. rewrite forallb_forall in N2, R2. rewrite Forall_forall in *.
        intros x Hx k1 k2 K1 K2. apply H; auto; [eapply ealike_hext; [| |exact Er]|eapply ealike_hext; [| |exact Ee]|eapply lalike_hext; [| |exact El]]; eauto using hext_trans.
      + intros vs1 vs2 k1 k2 K1 K2 W. apply orel_hlift; [now apply hext_method|now apply hext_method|]. apply method_alike.
        constructor; auto. eauto using alike_hext.
  Qed.
End Eval.
