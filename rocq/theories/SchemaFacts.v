(** Facts about the types of schemas; used by PropSchema.v. *)
From Coq Require Import String Ascii ZArith Bool List Arith Lia.
From Verif Require Import Base Value Json VarType TypeSpec TypeFacts TypeMembers ConvertSpec ConvertFacts Schema SchemaSpec.
Import ListNotations.
Local Open Scope string_scope.
Local Open Scope nat_scope.
Local Open Scope list_scope.

Lemma at_key_get : forall A (f : json -> A) d k m, at_key f d k m = match aget k m with Some v => f v | None => d end.
Proof. induction m as [|[k1 v] m IH]; [reflexivity|]. cbn. destruct (String.eqb k1 k); [reflexivity|exact IH]. Qed.
Lemma strs_in : forall l s, In s (strs l) <-> In (JStr s) l.
Proof.
  induction l as [|x l IH]; intros s; [reflexivity|]. destruct x; cbn; rewrite IH.
  all: split; intros H; auto; try (destruct H as [H|H]; [discriminate|exact H]).
  - destruct H as [H|H]; [subst; now left|now right].
  - destruct H as [H|H]; [injection H as ->; now left|now right].
Qed.
Lemma strs_len : forall l, length (strs l) = length l -> forall x, In x l -> exists s, x = JStr s.
Proof.
  assert (B : forall l, length (strs l) <= length l) by (induction l as [|[]]; cbn; lia).
  induction l as [|y l IH]; intros E x I; [destruct I|]. specialize (B l). destruct y; cbn in E; try lia. destruct I as [<-|I]; [eauto|]. apply IH; [lia|exact I].
Qed.
Lemma strs_all : forall l, (forall x, In x l -> exists s, x = JStr s) -> length (strs l) = length l.
Proof. induction l as [|y l IH]; intros H; [reflexivity|]. destruct (H y (or_introl eq_refl)) as [s ->]. cbn. f_equal. apply IH. intros x I. apply H. now right. Qed.
Lemma strs_once : forall l, NoDup l -> NoDup (strs l).
Proof. induction 1 as [|x l N D IH]; [constructor|]. destruct x; cbn; auto. constructor; [now rewrite strs_in|exact IH]. Qed.

(** ** Merging types that are not both of arrays, nor both of objects *)
Definition shape (T : vtype) : nat := match base T with KArray _ => 1 | KObject _ => 2 | _ => 0 end.
Definition apart (a b : vtype) : Prop := shape a = 0 \/ shape a <> shape b.
Lemma apart_sym : forall a b, apart a b -> apart b a.
Proof. unfold apart. intros a b H. destruct (Nat.eq_dec (shape b) 0); [now left|]. right. lia. Qed.
Lemma fits_wrap : forall f T t, fits T t -> fits (wrap f T) t.
Proof. intros f T t H. unfold wrap. destruct (f && _); [now right|exact H]. Qed.
Lemma fits_base : forall T t, fits T t -> (nullable T = true /\ t = TNull) \/ fits (base T) t.
Proof. intros T t H. destruct T; cbn; auto. destruct H as [H|H]; auto. Qed.
Lemma core_left : forall A B t, match A, B with KArray _, KArray _ | KObject _, KObject _ => False | _, _ => True end -> fits A t -> fits (core A B) t.
Proof.
  intros A B t N H.
  destruct A, B; cbn [core]; try contradiction; try exact H; try exact I; try (now right); try (now left).
  all: try (cbn in H; subst; eexists; split; [reflexivity|]; apply push_in; now right).
  all: try (cbn in H; destruct H as (s0 & -> & Hs); cbn; eauto; fail).
  all: try (cbn in H; subst; cbn; eauto; fail).
  - cbn in H. subst. destruct (String.eqb s s0); [reflexivity|]. cbn. eauto.
  - cbn in H. destruct H as (z & -> & Hz). exists z. split; [reflexivity|]. apply push_in. now left.
  - cbn in H. destruct H as (z & -> & Hz). exists z. split; [reflexivity|]. apply pushes_in. now left.
Qed.
Lemma core_right : forall A B t, match A, B with KArray _, KArray _ | KObject _, KObject _ => False | _, _ => True end -> fits B t -> fits (core A B) t.
Proof.
  intros A B t N H.
  destruct A, B; cbn [core]; try contradiction; try exact H; try exact I; try (now right); try (now left).
  all: try (cbn in H; subst; eexists; split; [reflexivity|]; apply push_in; now right).
  all: try (cbn in H; destruct H as (z & -> & Hz); cbn; eauto; fail).
  all: try (cbn in H; subst; cbn; eauto; fail).
  - cbn in H. subst. destruct (String.eqb s s0) eqn:E; [apply String.eqb_eq in E; subst; reflexivity|]. cbn. eauto.
  - cbn in H. destruct H as (z & -> & Hz). exists z. split; [reflexivity|]. apply push_in. now left.
  - cbn in H. destruct H as (z & -> & Hz). exists z. split; [reflexivity|]. apply pushes_in. now right.
Qed.
Lemma wrap_null : forall T, fits (wrap true T) TNull.
Proof. intros T. unfold wrap. destruct T; cbn; auto. Qed.
Lemma apart_base : forall a b, apart a b -> match base a, base b with KArray _, KArray _ | KObject _, KObject _ => False | _, _ => True end.
Proof. unfold apart, shape. intros a b H. destruct (base a), (base b); auto; lia. Qed.
Lemma mg_fits : forall a b t, apart a b -> fits a t \/ fits b t -> fits (mg b a) t.
Proof.
  intros a b t A H. rewrite mg_eq. apply apart_base in A. destruct H as [H|H]; apply fits_base in H as [[N ->]|H].
  - rewrite N. apply wrap_null.
  - apply fits_wrap. now apply core_left.
  - rewrite N, orb_true_r. apply wrap_null.
  - apply fits_wrap. now apply core_right.
Qed.
Lemma mg_shape : forall a b c, apart a c -> apart b c -> apart a b -> apart (mg b a) c.
Proof.
  intros a b c A B D. rewrite mg_eq. unfold apart, shape in *. rewrite base_wrap.
  destruct (base a), (base b); cbn [core base]; auto; try lia; try (destruct (String.eqb _ _); cbn; auto).
Qed.
Inductive pairwise : list vtype -> Prop :=
| PNil : pairwise []
| PCons : forall a l, (forall b, In b l -> apart a b) -> pairwise l -> pairwise (a :: l).
Lemma fold_fits : forall l a t, pairwise (a :: l) -> (exists b, In b (a :: l) /\ fits b t) -> fits (fold_left merge l a) t.
Proof.
  induction l as [|b l IH]; intros a t P (c & I & F); cbn [fold_left].
  - destruct I as [->|[]]. exact F.
  - inversion P as [|? ? A P1]; subst. inversion P1 as [|? ? B P2]; subst. assert (Ab : apart a b) by (apply A; now left).
    apply IH.
    + constructor; [|exact P2]. intros d Id. apply mg_shape; auto. apply A. now right.
    + destruct I as [->|[->|I]].
      * exists (merge c b). split; [now left|]. apply mg_fits; auto.
      * exists (merge a c). split; [now left|]. apply mg_fits; auto.
      * exists c. split; [now right|exact F].
Qed.
Lemma reduce_fits : forall l t, pairwise l -> (exists b, In b l /\ fits b t) -> fits (reduce l) t.
Proof. intros [|a l] t P H; [exact I|]. now apply fold_fits. Qed.
Lemma pairwise_nth : forall l, (forall i k a b, i <> k -> nth_error l i = Some a -> nth_error l k = Some b -> apart a b) -> pairwise l.
Proof.
  induction l as [|a l IH]; intros H; constructor.
  - intros b I. apply In_nth_error in I as [k E]. apply (H 0 (S k) a b); auto.
  - apply IH. intros i k x y N E1 E2. apply (H (S i) (S k)); auto.
Qed.
Lemma shape_arrays : forall T, shape T = 1 -> arrays T.
Proof. unfold shape, arrays. intros T H. exists (match base T with KArray e => e | o => o end). destruct T; cbn in *; try discriminate; auto. destruct T; cbn in *; try discriminate; auto. Qed.
Lemma shape_objects : forall T, shape T = 2 -> objects T.
Proof.
  unfold shape, objects. intros T H. exists (match base T with KObject e => e | _ => [] end).
  destruct T; cbn in *; try discriminate; auto. destruct T; cbn in *; try discriminate; auto.
Qed.
Lemma apart_of : forall a b, ~ (arrays a /\ arrays b) -> ~ (objects a /\ objects b) -> apart a b.
Proof.
  intros a b H1 H2. unfold apart. destruct (Nat.eq_dec (shape a) 0) as [|N]; [now left|]. right. intros E.
  assert (S : shape a = 1 \/ shape a = 2) by (unfold shape in *; destruct (base a); auto; lia).
  destruct S as [S|S]; [apply H1|apply H2]; split; (apply shape_arrays || apply shape_objects); lia.
Qed.
Lemma optional_fits : forall T t, fits T t \/ t = TNull -> fits (wrap_optional T) t.
Proof. intros T t [H| ->]; destruct T; cbn; auto; try (right; exact H); now left. Qed.

(** ** The parts of a schema *)
Lemma jget_app : forall p q j, jget (p ++ q) j = match jget p j with Some x => jget q x | None => None end.
Proof. induction p as [|[k|i] p IH]; intros q j; [reflexivity| |]; cbn; destruct j; auto; [destruct (aget k m)|destruct (nth_error l i)]; auto. Qed.
Lemma inside_sub : forall p j s m, jget p j = Some s -> inside s m -> inside j m.
Proof. intros p j s m E [q H]. exists (p ++ q). now rewrite jget_app, E. Qed.
Definition good (dicts : string -> option vtype) (j : json) : Prop := wf_json j /\ dateless j /\ kinds_once j /\ cases_apart (ty dicts) j.
Lemma wf_get : forall p j s, wf_json j -> jget p j = Some s -> wf_json s.
Proof.
  induction p as [|[k|i] p IH]; intros j s W E; cbn in E; [now injection E as <-| |].
  - destruct j; try discriminate. destruct (aget k m) as [x|] eqn:G; [|discriminate]. apply wf_parts in W as [_ W]. apply aget_Some_in in G. eauto.
  - destruct j; try discriminate. destruct (nth_error l i) as [x|] eqn:G; [|discriminate]. pose proof (wf_parts _ W) as W1. cbn in W1. apply nth_error_In in G. eauto.
Qed.
Lemma good_sub : forall dicts p j s, good dicts j -> jget p j = Some s -> good dicts s.
Proof.
  intros dicts p j s (W & D & K & C) E. split; [eapply wf_get; eauto|]. split; [|split].
  - intros m f I. apply D. eapply inside_sub; eauto.
  - intros m l I. apply K. eapply inside_sub; eauto.
  - intros m l i k a b key I. apply C. eapply inside_sub; eauto.
Qed.
Lemma means_str : forall s t, means (JStr s) t -> t = TStr s.
Proof. intros s t H. specialize (H []). exact H. Qed.
Lemma means_null : forall c, means c TNull -> c = JNull.
Proof.
  intros c H. specialize (H []). cbn in H. destruct c; cbn in H; try discriminate; auto.
  - destruct H as (d & q & E & _). discriminate.
  - destruct H as (ts & E & _). discriminate.
  - destruct H as (ts & E & _). discriminate.
Qed.
Lemma contains_spec : forall l s, contains l s = true <-> In s l. Proof. exact contains_in. Qed.
Lemma typed_shape : forall m it pr k, (shape (typed m it pr k) = 1 -> k = "array") /\ (shape (typed m it pr k) = 2 -> k = "object").
Proof.
  intros m it pr k. unfold typed, shape. destruct (String.eqb k "object") eqn:E1; [apply String.eqb_eq in E1|].
  { destruct pr; cbn; split; intros; auto; discriminate. }
  destruct (String.eqb k "array") eqn:E2; [apply String.eqb_eq in E2; cbn; split; intros; auto; discriminate|].
  repeat match goal with |- context [if ?b then _ else _] => destruct b | |- context [match get_str ?a ?b with _ => _ end] => destruct (get_str a b) end; cbn; split; discriminate.
Qed.
Lemma typed_apart : forall m it pr kinds, NoDup kinds -> pairwise (map (typed m it pr) kinds).
Proof.
  intros m it pr kinds N. induction N as [|k l H N IH]; constructor; [|exact IH]. intros b I. apply in_map_iff in I as (k2 & <- & I).
  destruct (typed_shape m it pr k) as [A1 A2], (typed_shape m it pr k2) as [B1 B2]. unfold apart. destruct (Nat.eq_dec (shape (typed m it pr k)) 0) as [|Z]; [now left|]. right. intros E.
  assert (S : shape (typed m it pr k) = 1 \/ shape (typed m it pr k) = 2) by (unfold shape in *; destruct (base (typed m it pr k)); auto; lia).
  destruct S as [S|S]; apply H; [rewrite (A1 S), <- (B1 ltac:(lia))|rewrite (A2 S), <- (B2 ltac:(lia))]; exact I.
Qed.
(** All objects inside a document; for the examples. *)
Fixpoint objs (j : json) : list (list (string * json)) :=
  match j with JObj m => m :: flat_map (fun e => objs (snd e)) m | JArr l => flat_map objs l | _ => [] end.
Lemma inside_objs : forall j m, inside j m -> In m (objs j).
Proof.
  intros j m [p E]. revert j E. induction p as [|[k|i] p IH]; intros j E; cbn in E.
  - injection E as ->. now left.
  - destruct j; try discriminate. destruct (aget k m0) as [x|] eqn:A; [|discriminate]. apply aget_Some_in in A. right. apply in_flat_map. exists (k, x). split; [exact A|]. now apply IH.
  - destruct j; try discriminate. destruct (nth_error l i) as [x|] eqn:A; [|discriminate]. apply nth_error_In in A. apply in_flat_map. exists x. split; [exact A|]. now apply IH.
Qed.
