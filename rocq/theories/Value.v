(** Values, heap of shared cells, value trees. *)
From Coq Require Import String Ascii ZArith Lia Bool List Arith.
From Verif Require Import Base Dec.
Import ListNotations.

(** Bracket (core/expression/src/lexer/token.rs:166-179). *)
Inductive bracket := LParen | RParen | LSquare | RSquare | LCurly | RCurly.

(** VmDate (core/expression/src/vm/date/mod.rs:18). Simplification: a valid date is its instant (an
    integer number of time units) and a time-zone name; equality and order use the instant only, as
    chrono's [DateTime] does. [None] is an invalid date. *)
Record vmdate := VmDate { vd_instant : option Z; vd_tz : string }.

(** VmIntervalData, VmInterval (core/expression/src/vm/interval.rs:11-16,102-106). *)
Inductive idata := INum (d : dec) | IDate (d : vmdate).
Record interval := Interval {
  iv_lb : bracket; iv_rb : bracket; iv_left : idata; iv_right : idata }.

Inductive dyn := DDate (d : vmdate) | DInterval (i : interval).

(** A location stands for the pointer of an [Rc<RefCell<..>>] (core/types/src/rccell.rs). *)
Definition loc := nat.

(** Variable (core/types/src/variable/mod.rs:37-45). Simplification: a [Dynamic] value carries its
    content and no pointer identity; [PartialEq] on two dynamic values is therefore structural here. *)
Inductive value :=
| VNull
| VBool (b : bool)
| VNum (d : dec)
| VStr (s : string)
| VArr (l : loc)
| VObj (l : loc)
| VDyn (d : dyn).

Inductive cell :=
| CArr (a : list value)
| CObj (m : amap value).

Definition heap := list cell.

Definition hget (h : heap) (l : loc) : option cell := nth_error h l.
Definition hset (h : heap) (l : loc) (c : cell) : heap := lupd l c h.
(** [Rc::new(RefCell::new(..))]: a fresh location. *)
Definition halloc (h : heap) (c : cell) : heap * loc := (h ++ [c], length h).

Definition harr (h : heap) (l : loc) : option (list value) :=
  match hget h l with Some (CArr a) => Some a | _ => None end.
Definition hobj (h : heap) (l : loc) : option (amap value) :=
  match hget h l with Some (CObj m) => Some m | _ => None end.

(** [Variable::from_array], [from_object], [empty_object] (variable/mod.rs:80-98). *)
Definition new_arr (h : heap) (a : list value) : heap * value :=
  let (h1, l) := halloc h (CArr a) in (h1, VArr l).
Definition new_obj (h : heap) (m : amap value) : heap * value :=
  let (h1, l) := halloc h (CObj m) in (h1, VObj l).

Lemma hget_app_l : forall h h' l c, hget h l = Some c -> hget (h ++ h') l = Some c.
Proof.
  unfold hget. intros. rewrite nth_error_app1; auto. apply nth_error_Some. congruence.
Qed.
Lemma hget_alloc_new : forall h c, hget (h ++ [c]) (length h) = Some c.
Proof. intros. unfold hget. rewrite nth_error_app2 by lia. now rewrite Nat.sub_diag. Qed.
Lemma hget_lt : forall h l c, hget h l = Some c -> l < length h.
Proof. intros. apply nth_error_Some. unfold hget in H. congruence. Qed.
Lemma hget_hset_eq : forall h l c, l < length h -> hget (hset h l c) l = Some c.
Proof. intros. now apply nth_lupd_eq. Qed.
Lemma hget_hset_ne : forall h l l' c, l <> l' -> hget (hset h l c) l' = hget h l'.
Proof. intros. now apply nth_lupd_ne. Qed.
Lemma hset_length : forall h l c, length (hset h l c) = length h.
Proof. intros. apply lupd_length. Qed.
Lemma hobj_hget : forall h l m, hobj h l = Some m <-> hget h l = Some (CObj m).
Proof.
  intros. unfold hobj. destruct (hget h l) as [[|]|]; split; congruence.
Qed.
Lemma harr_hget : forall h l m, harr h l = Some m <-> hget h l = Some (CArr m).
Proof.
  intros. unfold harr. destruct (hget h l) as [[|]|]; split; congruence.
Qed.

(** ** Well-formed heaps: every location that occurs points to a cell of the right kind and objects
    have no repeated key. This is what Rust's types guarantee. *)
Definition wf_val (h : heap) (v : value) : Prop :=
  match v with
  | VArr l => exists a, hget h l = Some (CArr a)
  | VObj l => exists m, hget h l = Some (CObj m)
  | _ => True
  end.
Definition wf_cell (h : heap) (c : cell) : Prop :=
  match c with
  | CArr a => Forall (wf_val h) a
  | CObj m => NoDup (akeys m) /\ Forall (fun kv => wf_val h (snd kv)) m
  end.
Definition wf_heap (h : heap) : Prop := forall l c, hget h l = Some c -> wf_cell h c.

(** [h'] extends [h]: nothing that existed changed, new cells may have been added. *)
Definition hext (h h' : heap) : Prop := exists s, h' = h ++ s.

Lemma hext_refl : forall h, hext h h.
Proof. intros. exists []. now rewrite app_nil_r. Qed.
Lemma hext_trans : forall a b c, hext a b -> hext b c -> hext a c.
Proof. intros a b c [s ->] [t ->]. exists (s ++ t). now rewrite app_assoc. Qed.
Lemma hext_alloc : forall h c, hext h (h ++ [c]).
Proof. intros. now exists [c]. Qed.
Lemma hext_get : forall h h' l c, hext h h' -> hget h l = Some c -> hget h' l = Some c.
Proof. intros h h' l c [s ->]. apply hget_app_l. Qed.
Lemma hext_length : forall h h', hext h h' -> length h <= length h'.
Proof. intros h h' [s ->]. rewrite app_length. lia. Qed.
Lemma hext_wf_val : forall h h' v, hext h h' -> wf_val h v -> wf_val h' v.
Proof.
  intros h h' v He. destruct v; cbn; auto; intros [x Hx]; exists x; eapply hext_get; eauto.
Qed.
Lemma hext_wf_cell : forall h h' c, hext h h' -> wf_cell h c -> wf_cell h' c.
Proof.
  intros h h' c He. destruct c; cbn.
  - apply Forall_impl. intros. eapply hext_wf_val; eauto.
  - intros [H1 H2]. split; auto. revert H2. apply Forall_impl. intros. eapply hext_wf_val; eauto.
Qed.

(** ** Trees: the JSON-like content of a value, the abstract view used in specifications. *)
Inductive tree :=
| TNull
| TBool (b : bool)
| TNum (d : dec)
| TStr (s : string)
| TArr (a : list tree)
| TObj (m : list (string * tree))
| TDyn (d : dyn).

Section TreeInd.
  Variable P : tree -> Prop.
  Hypothesis HNull : P TNull.
  Hypothesis HBool : forall b, P (TBool b).
  Hypothesis HNum : forall d, P (TNum d).
  Hypothesis HStr : forall s, P (TStr s).
  Hypothesis HArr : forall a, Forall P a -> P (TArr a).
  Hypothesis HObj : forall m, Forall (fun kv => P (snd kv)) m -> P (TObj m).
  Hypothesis HDyn : forall d, P (TDyn d).
  Fixpoint tree_ind' (t : tree) : P t :=
    match t with
    | TNull => HNull
    | TBool b => HBool b
    | TNum d => HNum d
    | TStr s => HStr s
    | TArr a => HArr a ((fix go l : Forall P l :=
                           match l with
                           | [] => Forall_nil _
                           | x :: r => Forall_cons x (tree_ind' x) (go r)
                           end) a)
    | TObj m => HObj m ((fix go l : Forall (fun kv => P (snd kv)) l :=
                           match l with
                           | [] => Forall_nil _
                           | x :: r => Forall_cons x (tree_ind' (snd x)) (go r)
                           end) m)
    | TDyn d => HDyn d
    end.
End TreeInd.

(** [repr h v t]: value [v] in heap [h] has content [t]. No tree represents a cyclic value. *)
Inductive repr (h : heap) : value -> tree -> Prop :=
| RNull : repr h VNull TNull
| RBool : forall b, repr h (VBool b) (TBool b)
| RNum : forall d, repr h (VNum d) (TNum d)
| RStr : forall s, repr h (VStr s) (TStr s)
| RArr : forall l a ts, hget h l = Some (CArr a) -> Forall2 (repr h) a ts -> repr h (VArr l) (TArr ts)
| RObj : forall l m ts, hget h l = Some (CObj m) ->
    Forall2 (fun kv kt => fst kv = fst kt /\ repr h (snd kv) (snd kt)) m ts ->
    repr h (VObj l) (TObj ts)
| RDyn : forall d, repr h (VDyn d) (TDyn d).

Section ReprInd.
  Variable h : heap.
  Variable P : value -> tree -> Prop.
  Hypothesis HNull : P VNull TNull.
  Hypothesis HBool : forall b, P (VBool b) (TBool b).
  Hypothesis HNum : forall d, P (VNum d) (TNum d).
  Hypothesis HStr : forall s, P (VStr s) (TStr s).
  Hypothesis HArr : forall l a ts, hget h l = Some (CArr a) -> Forall2 (repr h) a ts ->
    Forall2 P a ts -> P (VArr l) (TArr ts).
  Hypothesis HObj : forall l m ts, hget h l = Some (CObj m) ->
    Forall2 (fun kv kt => fst kv = fst kt /\ repr h (snd kv) (snd kt)) m ts ->
    Forall2 (fun kv kt => fst kv = fst kt /\ P (snd kv) (snd kt)) m ts ->
    P (VObj l) (TObj ts).
  Hypothesis HDyn : forall d, P (VDyn d) (TDyn d).
  Fixpoint repr_ind' (v : value) (t : tree) (r : repr h v t) {struct r} : P v t :=
    match r in repr _ v t return P v t with
    | RNull _ => HNull
    | RBool _ b => HBool b
    | RNum _ d => HNum d
    | RStr _ s => HStr s
    | RArr _ l a ts Hg Hf => HArr l a ts Hg Hf
        ((fix go (a : list value) (ts : list tree) (f : Forall2 (repr h) a ts) : Forall2 P a ts :=
            match f in Forall2 _ a ts return Forall2 P a ts with
            | Forall2_nil _ => Forall2_nil _
            | Forall2_cons x y p f' => Forall2_cons x y (repr_ind' _ _ p) (go _ _ f')
            end) a ts Hf)
    | RObj _ l m ts Hg Hf => HObj l m ts Hg Hf
        ((fix go (m : list (string * value)) (ts : list (string * tree))
             (f : Forall2 (fun kv kt => fst kv = fst kt /\ repr h (snd kv) (snd kt)) m ts) :
             Forall2 (fun kv kt => fst kv = fst kt /\ P (snd kv) (snd kt)) m ts :=
            match f in Forall2 _ m ts
                  return Forall2 (fun kv kt => fst kv = fst kt /\ P (snd kv) (snd kt)) m ts with
            | Forall2_nil _ => Forall2_nil _
            | Forall2_cons x y p f' =>
                Forall2_cons x y
                  (match p with conj p1 p2 => conj p1 (repr_ind' _ _ p2) end) (go _ _ f')
            end) m ts Hf)
    | RDyn _ d => HDyn d
    end.
End ReprInd.

Lemma repr_hext : forall h h' v t, hext h h' -> repr h v t -> repr h' v t.
Proof.
  intros h h' v t He Hr. induction Hr using repr_ind'; try constructor.
  - eapply RArr; eauto using hext_get.
  - eapply RObj; eauto using hext_get.
Qed.

(** The content of a value is unique. *)
Lemma repr_fun : forall h v t, repr h v t -> forall t', repr h v t' -> t = t'.
Proof.
  intros h v t Hr. induction Hr using repr_ind'; intros t' Ht'; inversion Ht'; subst; auto.
  - rewrite H in H3. injection H3 as <-. f_equal.
    clear H H0 Ht'. revert ts0 H4. induction H1; intros ts0 H4; inversion H4; subst; auto.
    f_equal; auto.
  - rewrite H in H3. injection H3 as <-. f_equal.
    clear H H0 Ht'. revert ts0 H4. induction H1; intros ts0 H4; inversion H4; subst; auto.
    destruct H as [E1 E2], H3 as [E3 E4]. destruct x, y, y0; cbn in *. subst.
    f_equal; auto. f_equal; auto.
Qed.

(** Fuelled reader used to compute the content of a value in examples. *)
Fixpoint reify (fuel : nat) (h : heap) (v : value) : option tree :=
  match fuel with
  | O => None
  | S n =>
      match v with
      | VNull => Some TNull
      | VBool b => Some (TBool b)
      | VNum d => Some (TNum d)
      | VStr s => Some (TStr s)
      | VDyn d => Some (TDyn d)
      | VArr l =>
          match harr h l with
          | None => None
          | Some a =>
              option_map TArr ((fix go a := match a with
                                | [] => Some []
                                | x :: r => match reify n h x, go r with
                                            | Some t, Some ts => Some (t :: ts)
                                            | _, _ => None
                                            end
                                end) a)
          end
      | VObj l =>
          match hobj h l with
          | None => None
          | Some m =>
              option_map TObj ((fix go m := match m with
                                | [] => Some []
                                | (k, x) :: r => match reify n h x, go r with
                                            | Some t, Some ts => Some ((k, t) :: ts)
                                            | _, _ => None
                                            end
                                end) m)
          end
      end
  end.

Lemma reify_repr : forall n h v t, reify n h v = Some t -> repr h v t.
Proof.
  induction n as [|n IH]; intros h v t H; [discriminate|].
  destruct v; cbn in H; try (injection H as <-; constructor).
  - destruct (harr h l) as [a|] eqn:Ea; [|discriminate]. apply harr_hget in Ea.
    match type of H with option_map _ ?x = _ => destruct x as [ts|] eqn:Et end; [|discriminate].
    injection H as <-. eapply RArr; eauto. clear Ea.
    revert ts Et. induction a as [|x r IHr]; intros ts Et.
    + injection Et as <-. constructor.
    + destruct (reify n h x) eqn:Ex; [|discriminate].
      match type of Et with match ?y with _ => _ end = _ => destruct y eqn:Ey end; [|discriminate].
      injection Et as <-. constructor; auto.
  - destruct (hobj h l) as [a|] eqn:Ea; [|discriminate]. apply hobj_hget in Ea.
    match type of H with option_map _ ?x = _ => destruct x as [ts|] eqn:Et end; [|discriminate].
    injection H as <-. eapply RObj; eauto. clear Ea.
    revert ts Et. induction a as [|[k x] r IHr]; intros ts Et.
    + injection Et as <-. constructor.
    + destruct (reify n h x) eqn:Ex; [|discriminate].
      match type of Et with match ?y with _ => _ end = _ => destruct y eqn:Ey end; [|discriminate].
      injection Et as <-. constructor; cbn; auto.
Qed.

(** Writing a tree into the heap: [Variable::from(Value)] (core/types/src/variable/conv.rs) allocates
    a fresh cell per array/object. Used to set up contexts in statements and examples. *)
Fixpoint build (h : heap) (t : tree) : heap * value :=
  match t with
  | TNull => (h, VNull)
  | TBool b => (h, VBool b)
  | TNum d => (h, VNum d)
  | TStr s => (h, VStr s)
  | TDyn d => (h, VDyn d)
  | TArr a =>
      let '(h1, vs) := (fix go h a := match a with
                        | [] => (h, [])
                        | x :: r => let (h1, v) := build h x in
                                    let (h2, vs) := go h1 r in (h2, v :: vs)
                        end) h a in
      new_arr h1 vs
  | TObj m =>
      let '(h1, vs) := (fix go h m := match m with
                        | [] => (h, [])
                        | (k, x) :: r => let (h1, v) := build h x in
                                    let (h2, vs) := go h1 r in (h2, (k, v) :: vs)
                        end) h m in
      new_obj h1 vs
  end.

Lemma build_repr : forall t h h' v, build h t = (h', v) -> hext h h' /\ repr h' v t.
Proof.
  induction t using tree_ind'; cbn; intros h h' v Hb;
    try (injection Hb as <- <-; split; [apply hext_refl | constructor]).
  - match type of Hb with (let '(_, _) := ?x in _) = _ => destruct x as [h1 vs] eqn:E end.
    unfold new_arr, halloc in Hb. injection Hb as <- <-.
    assert (hext h h1 /\ Forall2 (repr h1) vs a) as [He Hf].
    { revert h h1 vs E. induction H as [|x r Hx Hr IH]; intros h h1 vs E.
      - injection E as <- <-. split; [apply hext_refl|constructor].
      - destruct (build h x) as [h2 v2] eqn:E2.
        match type of E with (let (_, _) := ?x in _) = _ => destruct x as [h3 vs3] eqn:E3 end.
        injection E as <- <-. apply Hx in E2 as [A1 A2]. apply IH in E3 as [B1 B2].
        split; [eapply hext_trans; eauto|]. constructor; eauto using repr_hext. }
    split; [eapply hext_trans; eauto using hext_alloc|].
    eapply RArr; [apply hget_alloc_new|].
    eapply Forall2_imp; [|exact Hf]. intros; eapply repr_hext; eauto using hext_alloc.
  - match type of Hb with (let '(_, _) := ?x in _) = _ => destruct x as [h1 vs] eqn:E end.
    unfold new_obj, halloc in Hb. injection Hb as <- <-.
    assert (hext h h1 /\ Forall2 (fun kv kt => fst kv = fst kt /\ repr h1 (snd kv) (snd kt)) vs m)
      as [He Hf].
    { revert h h1 vs E. induction H as [|[k x] r Hx Hr IH]; intros h h1 vs E.
      - injection E as <- <-. split; [apply hext_refl|constructor].
      - destruct (build h x) as [h2 v2] eqn:E2.
        match type of E with (let (_, _) := ?x in _) = _ => destruct x as [h3 vs3] eqn:E3 end.
        injection E as <- <-. apply Hx in E2 as [A1 A2]. apply IH in E3 as [B1 B2].
        split; [eapply hext_trans; eauto|]. constructor; cbn; eauto using repr_hext. }
    split; [eapply hext_trans; eauto using hext_alloc|].
    eapply RObj; [apply hget_alloc_new|].
    eapply Forall2_imp; [|exact Hf]. cbn. intros ? ? [? ?]. split; auto.
    eapply repr_hext; eauto using hext_alloc.
Qed.
