(** Shared definitions: errors, association maps, byte-string helpers. *)
From Coq Require Import String Ascii ZArith Lia Bool Arith List.
Import ListNotations.
Local Open Scope nat_scope.

(** VMError (core/expression/src/vm/error.rs) and compiler errors. Simplification: the free-text
    message is dropped, only the opcode name is kept. [EPanic] stands for a Rust panic. *)
Inductive err : Type :=
| EOp (opcode : string)
| EStackOutOfBounds
| EOpcodeOutOfBounds
| EPanic (what : string).

Inductive res (A : Type) : Type :=
| Ok (a : A)
| Err (e : err).
Arguments Ok {A} a.
Arguments Err {A} e.

Definition bind {A B} (r : res A) (f : A -> res B) : res B :=
  match r with Ok a => f a | Err e => Err e end.

Notation "'do' x <- r ; k" := (bind r (fun x => k))
  (at level 200, x pattern, r at level 100, k at level 200, right associativity).

Definition of_option {A} (o : option A) (e : err) : res A :=
  match o with Some a => Ok a | None => Err e end.

(** ** Association maps with insertion order.
    Models [VariableMap] (core/types/src/variable/map.rs:19-191) as seen by its users: find by key,
    replace in place, push at the end. The Small/Large representations are modelled separately in
    VMap.v and shown there to refine this view. *)
Section AMap.
  Context {V : Type}.
  Definition amap := list (string * V).

  (** map.rs:53-72 [get]/[get_str]: first entry with that key. *)
  Fixpoint aget (k : string) (m : amap) : option V :=
    match m with
    | [] => None
    | (k', v) :: r => if String.eqb k' k then Some v else aget k r
    end.

  (** map.rs:112-130 [insert]: replace the slot if present, else push. *)
  Fixpoint aset (k : string) (v : V) (m : amap) : amap :=
    match m with
    | [] => [(k, v)]
    | (k', v') :: r => if String.eqb k' k then (k', v) :: r else (k', v') :: aset k v r
    end.

  (** map.rs:132-140 [remove]: drop the first entry with that key. *)
  Fixpoint adel (k : string) (m : amap) : amap :=
    match m with
    | [] => []
    | (k', v') :: r => if String.eqb k' k then r else (k', v') :: adel k r
    end.

  Definition amem (k : string) (m : amap) : bool :=
    match aget k m with Some _ => true | None => false end.

  Definition akeys (m : amap) : list string := map fst m.

  Lemma aget_aset_eq : forall k v m, aget k (aset k v m) = Some v.
  Proof.
    induction m as [|[k' v'] r IH]; cbn.
    - now rewrite String.eqb_refl.
    - destruct (String.eqb k' k) eqn:E; cbn; rewrite E; auto.
  Qed.

  Lemma aget_aset_ne : forall k k2 v m, k <> k2 -> aget k2 (aset k v m) = aget k2 m.
  Proof.
    induction m as [|[k' v'] r IH]; cbn; intros Hne.
    - apply String.eqb_neq in Hne. now rewrite Hne.
    - destruct (String.eqb k' k) eqn:E; cbn.
      + apply String.eqb_eq in E; subst k'.
        apply String.eqb_neq in Hne. now rewrite Hne.
      + destruct (String.eqb k' k2); auto.
  Qed.

  Lemma aget_None_notin : forall k m, aget k m = None <-> ~ In k (akeys m).
  Proof.
    induction m as [|[k' v'] r IH]; cbn.
    - split; auto.
    - destruct (String.eqb k' k) eqn:E; split; intros H.
      + discriminate.
      + apply String.eqb_eq in E. subst. exfalso; auto.
      + apply String.eqb_neq in E. intros [->|Hin]; [congruence|].
        apply IH in H. auto.
      + apply IH. auto.
  Qed.

  Lemma aget_Some_in : forall k v m, aget k m = Some v -> In (k, v) m.
  Proof.
    induction m as [|[k' v'] r IH]; cbn; [discriminate|].
    destruct (String.eqb k' k) eqn:E.
    - apply String.eqb_eq in E; subst. intros [= ->]. auto.
    - auto.
  Qed.

  Lemma aget_in_nodup : forall k v m, NoDup (akeys m) -> In (k, v) m -> aget k m = Some v.
  Proof.
    induction m as [|[k' v'] r IH]; cbn; [intros _ []|].
    intros Hnd [Heq|Hin].
    - injection Heq as -> ->. now rewrite String.eqb_refl.
    - inversion Hnd; subst. destruct (String.eqb k' k) eqn:E.
      + apply String.eqb_eq in E; subst. exfalso. apply H1.
        unfold akeys. change k with (fst (k, v)). now apply in_map.
      + auto.
  Qed.

  Lemma akeys_aset : forall k v m,
    akeys (aset k v m) = if amem k m then akeys m else akeys m ++ [k].
  Proof.
    unfold amem, akeys. induction m as [|[k' v'] r IH]; cbn; auto.
    destruct (String.eqb k' k) eqn:E; cbn; auto.
    rewrite IH. destruct (aget k r); auto.
  Qed.

  Lemma aset_nodup : forall k v m, NoDup (akeys m) -> NoDup (akeys (aset k v m)).
  Proof.
    intros k v m H. rewrite akeys_aset. unfold amem.
    destruct (aget k m) eqn:E; auto.
    apply aget_None_notin in E.
    apply NoDup_Add with (a := k) (l := akeys m).
    - rewrite <- (app_nil_r (akeys m)) at 1. apply Add_app.
    - auto.
  Qed.

  Lemma adel_incl : forall k m x, In x (akeys (adel k m)) -> In x (akeys m).
  Proof.
    induction m as [|[k' v'] r IH]; cbn; auto.
    intros x. destruct (String.eqb k' k); cbn; auto.
    intros [->|H]; auto.
  Qed.

  Lemma adel_nodup : forall k m, NoDup (akeys m) -> NoDup (akeys (adel k m)).
  Proof.
    induction m as [|[k' v'] r IH]; cbn; auto.
    intros H. inversion H; subst. destruct (String.eqb k' k); auto.
    cbn. constructor; auto. intros Hin. apply adel_incl in Hin. auto.
  Qed.

  Lemma aget_adel_eq : forall k m, NoDup (akeys m) -> aget k (adel k m) = None.
  Proof.
    induction m as [|[k' v'] r IH]; cbn; auto.
    intros H. inversion H; subst. destruct (String.eqb k' k) eqn:E.
    - apply String.eqb_eq in E; subst. now apply aget_None_notin.
    - cbn. rewrite E. auto.
  Qed.

  Lemma aget_adel_ne : forall k k2 m, k <> k2 -> aget k2 (adel k m) = aget k2 m.
  Proof.
    induction m as [|[k' v'] r IH]; cbn; auto.
    intros Hne. destruct (String.eqb k' k) eqn:E.
    - apply String.eqb_eq in E; subst. apply String.eqb_neq in Hne. now rewrite Hne.
    - cbn. destruct (String.eqb k' k2); auto.
  Qed.

  Lemma adel_noop : forall k m, aget k m = None -> adel k m = m.
  Proof.
    induction m as [|[k' v'] r IH]; cbn; auto.
    destruct (String.eqb k' k); [discriminate|]. intros H. now rewrite IH.
  Qed.

  Lemma aset_in : forall k v m x, In x (aset k v m) -> x = (k, v) \/ In x m.
  Proof.
    induction m as [|[k' v'] r IH]; cbn; intros x.
    - intros [<-|[]]; auto.
    - destruct (String.eqb k' k) eqn:E; cbn.
      + apply String.eqb_eq in E; subst. intros [<-|H]; auto.
      + intros [<-|H]; auto. destruct (IH _ H); auto.
  Qed.

  Lemma adel_in : forall k m x, In x (adel k m) -> In x m.
  Proof.
    induction m as [|[k' v'] r IH]; cbn; auto.
    intros x. destruct (String.eqb k' k); cbn; auto.
    intros [<-|H]; auto.
  Qed.
End AMap.
Arguments amap V : clear implicits.

(** ** Byte strings. Rust [str::split('.')] (core/types/src/variable/mod.rs:191,202,233,253):
    always yields at least one (possibly empty) part. *)
Fixpoint split_on (c : ascii) (s : string) : list string :=
  match s with
  | EmptyString => [EmptyString]
  | String a r =>
      if Ascii.eqb a c then EmptyString :: split_on c r
      else match split_on c r with
           | [] => [String a EmptyString]
           | h :: t => String a h :: t
           end
  end.

Definition dot_char : ascii := "."%char.
Definition split_dot (s : string) : list string := split_on dot_char s.

Lemma split_on_nonempty : forall c s, split_on c s <> [].
Proof.
  induction s; cbn; try congruence.
  destruct (Ascii.eqb a c); try congruence. destruct (split_on c s); congruence.
Qed.

(** Rust [str::contains(char)]. *)
Fixpoint contains_char (c : ascii) (s : string) : bool :=
  match s with
  | EmptyString => false
  | String a r => Ascii.eqb a c || contains_char c r
  end.

Lemma split_on_no_char : forall c s, contains_char c s = false -> split_on c s = [s].
Proof.
  induction s; cbn; auto. intros H. apply orb_false_iff in H as [H1 H2].
  rewrite H1, IHs; auto.
Qed.

(** Joining with the separator: inverse of [split_on] (specification helper). *)
Fixpoint join_on (c : ascii) (l : list string) : string :=
  match l with
  | [] => EmptyString
  | [x] => x
  | x :: r => (x ++ String c (join_on c r))%string
  end.

Lemma join_split : forall c s, join_on c (split_on c s) = s.
Proof.
  induction s; cbn; auto.
  destruct (Ascii.eqb a c) eqn:E.
  - apply Ascii.eqb_eq in E; subst.
    pose proof (split_on_nonempty c s) as Hn.
    destruct (split_on c s) eqn:Es; [congruence|]. cbn [join_on] in *.
    cbn. f_equal. destruct l; auto.
  - destruct (split_on c s) as [|h t] eqn:Es.
    + exfalso. now apply (split_on_nonempty c s).
    + cbn in *. destruct t; cbn in *; subst; auto.
Qed.

Lemma split_join_single : forall c l, l <> [] ->
  Forall (fun s => contains_char c s = false) l -> split_on c (join_on c l) = l.
Proof.
  assert (Hpre : forall c x s, contains_char c x = false ->
            split_on c (x ++ String c s) = x :: split_on c s).
  { induction x as [|a x IH]; cbn; intros s H.
    - now rewrite Ascii.eqb_refl.
    - apply orb_false_iff in H as [H1 H2]. rewrite H1, IH; auto. }
  induction l as [|x r IH]; [congruence|]. intros _ HF. inversion HF; subst.
  destruct r as [|y r].
  - cbn. now apply split_on_no_char.
  - change (join_on c (x :: y :: r)) with (x ++ String c (join_on c (y :: r)))%string.
    rewrite Hpre by auto. f_equal. apply IH; auto. congruence.
Qed.

(** UTF-8 character boundary test [str::is_char_boundary]: index 0, len, or a byte that is not a
    continuation byte (0b10xxxxxx). *)
Definition is_cont_byte (a : ascii) : bool :=
  let n := nat_of_ascii a in (128 <=? n) && (n <? 192).

Fixpoint sget (i : nat) (s : string) : option ascii :=
  match s, i with
  | EmptyString, _ => None
  | String a _, O => Some a
  | String _ r, S j => sget j r
  end.

Definition is_char_boundary (s : string) (i : nat) : bool :=
  if Nat.eqb i 0 then true
  else match sget i s with
       | None => Nat.eqb i (String.length s)
       | Some a => negb (is_cont_byte a)
       end.

(** [str::get(a..b)]: [None] when out of range or not on character boundaries. *)
Definition str_get (s : string) (a b : nat) : option string :=
  if (a <=? b) && is_char_boundary s a && is_char_boundary s b
  then Some (substring a (b - a) s) else None.


(** List update. *)
Fixpoint lupd {A} (i : nat) (x : A) (l : list A) : list A :=
  match l, i with
  | [], _ => []
  | _ :: r, O => x :: r
  | y :: r, S j => y :: lupd j x r
  end.

Lemma lupd_length : forall {A} i (x : A) l, length (lupd i x l) = length l.
Proof. induction i; destruct l; cbn; auto. Qed.

Lemma nth_lupd_eq : forall {A} i (x : A) l, i < length l -> nth_error (lupd i x l) i = Some x.
Proof. induction i; destruct l; cbn; intros; try lia; auto. apply IHi. lia. Qed.

Lemma nth_lupd_ne : forall {A} i j (x : A) l, i <> j -> nth_error (lupd i x l) j = nth_error l j.
Proof. induction i; destruct l, j; cbn; intros; auto; try lia. Qed.

Lemma Forall2_imp : forall {A B} (R S : A -> B -> Prop) l l',
  (forall a b, R a b -> S a b) -> Forall2 R l l' -> Forall2 S l l'.
Proof. intros A B R S l l' H F. induction F; constructor; auto. Qed.

Lemma Forall2_nth : forall {A B} (R : A -> B -> Prop) l l', Forall2 R l l' ->
  forall i a, nth_error l i = Some a -> exists b, nth_error l' i = Some b /\ R a b.
Proof.
  intros A B R l l' F. induction F; intros i a H1; destruct i; cbn in *; try discriminate.
  - injection H1 as <-. eauto.
  - eauto.
Qed.
