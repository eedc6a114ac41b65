(** Parentheses that are reported can be left out: the text is read as the same tree without them. *)
From Coq Require Import String Ascii ZArith Lia Bool List Arith.
From Verif Require Import Base Dec Value Ast Lexer Parser ParserFacts Print RoundTrip ParensFacts ParenLint ParenSpec.
Import ListNotations.
Local Open Scope string_scope.
Local Open Scope list_scope.
Local Open Scope nat_scope.

(** ** Places *)
Definition picks (pick : list nat -> bool) (fs : list (list nat)) : Prop := forall q, pick q = true -> In q fs.
Lemma in_each : forall A (f : A -> list (list nat)) l i k q, In (k :: q) (at_each f i l) -> exists j x, nth_error l j = Some x /\ k = i + j /\ In q (f x).
Proof.
  intros A f. induction l as [|x l IH]; intros i k q H; cbn in H; [contradiction|]. apply in_app_or in H as [H|H].
  - apply in_map_iff in H as (z & E & Hz). injection E as <- <-. exists 0, x. split; [reflexivity|]. split; [lia|exact Hz].
  - destruct (IH _ _ _ H) as (j & y & A1 & A2 & A3). exists (S j), y. split; [exact A1|]. split; [lia|exact A3].
Qed.
Definition picks_each {A} (f : A -> list (list nat)) (pick : list nat -> bool) (i : nat) (l : list A) : Prop :=
  forall j x, nth_error l j = Some x -> picks (fun q => pick (i + j :: q)) (f x).
Lemma each_picks : forall A (f : A -> list (list nat)) l pick, picks pick (at_each f 0 l) -> picks_each f pick 0 l.
Proof. intros A f l pick H j x E q Hq. apply H in Hq. apply in_each in Hq as (j' & x' & E' & Ej & Hx). assert (j = j') by lia. subst j'. congruence. Qed.
Lemma each_head : forall A (f : A -> list (list nat)) pick i x l, picks_each f pick i (x :: l) -> picks (fun q => pick (i :: q)) (f x).
Proof. intros A f pick i x l H. specialize (H 0 x eq_refl). rewrite Nat.add_0_r in H. exact H. Qed.
Lemma each_tail : forall A (f : A -> list (list nat)) pick i x l, picks_each f pick i (x :: l) -> picks_each f pick (S i) l.
Proof. intros A f pick i x l H j y E. specialize (H (S j) y E). rewrite <- plus_n_Sm in H. exact H. Qed.
Ltac here P := let q := fresh in let Hq := fresh in intros q Hq; apply P in Hq; cbn [findings] in Hq; rewrite ?in_app_iff in Hq;
  repeat match type of Hq with _ \/ _ => destruct Hq as [Hq|Hq] end;
  repeat match goal with
  | K : In _ (map (cons _) _) |- _ => let z := fresh in let E := fresh in let Hz := fresh in apply in_map_iff in K as (z & E & Hz); first [discriminate E|injection E as <-]; exact Hz
  | K : In _ (if ?b then [[]] else []) |- _ => destruct b; [destruct K as [K|[]]; discriminate K|destruct K]
  | K : In _ [] |- _ => destruct K
  end.

(** A list whose elements are all kept well. *)
Lemma each_all : forall A (g : (list nat -> bool) -> A -> A) (F : A -> list (list nat)) (Q : A -> Prop) l pick i, picks_each F pick i l ->
  Forall (fun x => forall pk, picks pk (F x) -> Q (g pk x)) l -> Forall Q (drop_each g pick i l).
Proof.
  intros A g F Q l. induction l as [|x l IH]; intros pick i P H; cbn; constructor; inversion H as [|? ? Hx Hl]; subst.
  - apply Hx. exact (each_head _ _ _ _ _ _ P).
  - apply IH; [eapply each_tail; exact P|exact Hl].
Qed.
Lemma each_map : forall A B (g : (list nat -> bool) -> A -> A) (s : A -> B) l pick i, Forall (fun x => forall pk, s (g pk x) = s x) l -> map s (drop_each g pick i l) = map s l.
Proof. intros A B g s l. induction l as [|x l IH]; intros pick i H; cbn; [reflexivity|]. inversion H as [|? ? Hx Hl]; subst. rewrite Hx, IH; auto. Qed.
Lemma each_forallb : forall A (g : (list nat -> bool) -> A -> A) (s : A -> bool) l pick i, Forall (fun x => forall pk, s (g pk x) = s x) l -> forallb s (drop_each g pick i l) = forallb s l.
Proof. intros A g s l. induction l as [|x l IH]; intros pick i H; cbn; [reflexivity|]. inversion H as [|? ? Hx Hl]; subst. rewrite Hx, IH; auto. Qed.
Lemma each_nil : forall A (g : (list nat -> bool) -> A -> A) l pick i, l <> [] -> drop_each g pick i l <> [].
Proof. intros A g [|x l] pick i H; [congruence|discriminate]. Qed.

(** ** What stays the same *)
Lemma strip_drop : forall n pick, strip (drop pick n) = strip n.
Proof.
  induction n using node_ind'; intros pick; cbn [drop]; try reflexivity; cbn [strip]; rewrite ?IHn, ?IHn1, ?IHn2, ?IHn3; try reflexivity.
  - f_equal. apply each_map. eapply Forall_impl; [|exact H]. auto.
  - f_equal. apply each_map. eapply Forall_impl; [|exact H]. auto.
  - f_equal. apply each_map. eapply Forall_impl; [|exact H]. intros [a b] [Ha Hb] pk. cbn in *. now rewrite Ha, Hb.
  - destruct (pick []); cbn [strip]; apply IHn.
  - f_equal; [destruct f; cbn in *; now rewrite ?H|destruct t; cbn in *; now rewrite ?H0].
  - f_equal. apply each_map. eapply Forall_impl; [|exact H]. auto.
  - f_equal. apply each_map. eapply Forall_impl; [|exact H]. auto.
Qed.
Lemma opening_drop : forall n pick, opening (drop pick n) = opening n.
Proof.
  induction n using node_ind'; intros pick; cbn [drop]; try reflexivity; cbn [opening]; rewrite ?IHn, ?IHn1, ?IHn2, ?IHn3; try reflexivity.
  - apply each_forallb. eapply Forall_impl; [|exact H]. auto.
  - apply each_forallb. eapply Forall_impl; [|exact H]. auto.
  - apply each_forallb. eapply Forall_impl; [|exact H]. intros [a b] [Ha Hb] pk. cbn in *. now rewrite Ha, Hb.
  - destruct (pick []); cbn [opening]; apply IHn.
  - destruct f, t; cbn in *; now rewrite ?H, ?H0.
  - apply each_forallb. eapply Forall_impl; [|exact H]. auto.
  - f_equal. apply each_forallb. eapply Forall_impl; [|exact H]. auto.
Qed.

(** ** What is reported *)
Lemma redundant_delimited : forall m w, is_redundant m w = true -> is_redundant m Delimited = true.
Proof. intros m w H. destruct w; destruct m; cbn in *; auto; discriminate. Qed.
Lemma findings_delimited : forall n w, incl (findings n w) (findings n Delimited).
Proof.
  induction n using node_ind'; intros w; try (apply incl_refl). cbn [findings]. intros q Hq. apply in_app_or in Hq as [Hq|Hq]; apply in_or_app; [left|right].
  - destruct (is_redundant n w) eqn:E; [|contradiction]. rewrite (redundant_delimited _ _ E). exact Hq.
  - destruct n; try exact Hq. apply in_map_iff in Hq as (z & <- & Hz). apply in_map. apply (IHn w). exact Hz.
Qed.
Lemma picks_delimited : forall pick n w, picks pick (findings n w) -> picks pick (findings n Delimited).
Proof. intros pick n w P q Hq. apply (findings_delimited n w). apply P. exact Hq. Qed.
Lemma paren_pick : forall pick m w, picks pick (findings (NParen m) w) -> pick [] = true -> is_redundant m w = true.
Proof.
  intros pick m w P E. apply P in E. cbn [findings] in E. apply in_app_or in E as [E|E]; [destruct (is_redundant m w); [reflexivity|contradiction]|].
  apply in_map_iff in E as (z & E & _). discriminate.
Qed.
Definition inner_site (m : node) (w : site) : site := match m with NParen _ => w | _ => Delimited end.
Lemma paren_in : forall pick m w, picks pick (findings (NParen m) w) -> picks (fun q => pick (0 :: q)) (findings m (inner_site m w)).
Proof. intros pick m w P. here P. Qed.
Definition is_paren (n : node) : bool := match n with NParen _ => true | _ => false end.
Lemma inner_other : forall m w, is_paren m = false -> inner_site m w = Delimited.
Proof. intros [] w H; try reflexivity; discriminate. Qed.

(** Negations do not come out of parentheses next to an operator. *)
Definition strict (w : site) : Prop := w = Guarded \/ exists o sd, w = operand_site o sd.
Lemma negation_drop : forall n pick w, strict w -> picks pick (findings n w) -> negation (drop pick n) = true -> negation n = true.
Proof.
  induction n using node_ind'; intros pick w W P E; cbn [drop] in E; try discriminate; try exact E.
  destruct (pick []) eqn:E0; [|discriminate]. pose proof (paren_pick _ _ _ P E0) as R. apply paren_in in P.
  destruct (is_paren n) eqn:Ep.
  - destruct n; try discriminate. cbn [inner_site] in P. pose proof (IHn _ w W P E) as K. discriminate.
  - exfalso. assert (N : negation n = true) by (destruct n; try exact E; discriminate). destruct n; try discriminate N. cbn in N. destruct op as [|[]| | | | | | | |]; try discriminate N.
    destruct W as [->|(o & sd & ->)]; [discriminate R|]. unfold operand_site in R. destruct (binary_op o) as [[q la]|] eqn:Eb; [|discriminate R].
    cbn [is_redundant] in R. apply andb_true_iff in R as [R _]. unfold same_family, op_eqb in R. destruct (operator_eq_dec (OpLogic LNot) o) as [<-|]; [discriminate Eb|discriminate R].
Qed.
Lemma calm_drop : forall n pick w, picks pick (findings n w) -> calm n = true -> calm (drop pick n) = true.
Proof.
  assert (L : forall l pick, Forall (fun n => forall pick w, picks pick (findings n w) -> calm n = true -> calm (drop pick n) = true) l ->
    picks_each (fun x => findings x Delimited) pick 0 l -> forallb calm l = true -> forallb calm (drop_each drop pick 0 l) = true).
  { intros l pick H P C. apply forallb_forall. apply Forall_forall. eapply each_all; [exact P|]. rewrite forallb_forall in C. rewrite Forall_forall in *. intros x Hx pk Pk. eapply H; eauto. }
  induction n using node_ind'; intros pick w P C; cbn [drop]; try reflexivity; cbn [calm] in C |- *; rewrite ?andb_true_iff in *.
  - apply L; auto. apply each_picks. exact P.
  - apply L; auto. apply each_picks. exact P.
  - cbn [findings] in P. apply each_picks in P. apply forallb_forall. apply Forall_forall. eapply each_all; [exact P|]. rewrite forallb_forall in C. rewrite Forall_forall in *. intros kv Hkv pk Pk.
    destruct (H kv Hkv) as [Ha Hb]. specialize (C kv Hkv). apply andb_true_iff in C as [Ca Cb]. cbn [fst snd]. apply andb_true_iff. split.
    + eapply Ha; [|exact Ca]. here Pk.
    + eapply Hb; [|exact Cb]. here Pk.
  - eapply IHn; [|exact C]. here P.
  - apply paren_in in P. destruct (pick []); cbn [calm]; eapply IHn; eauto.
  - destruct C as [Ca Cb]. split; [eapply IHn1; [here P|auto]|eapply IHn2; [here P|auto]].
  - destruct C as [[Ca Cf] Ct]. cbn [findings] in P. split; [split|].
    + eapply IHn; [|exact Ca]. intros q Hq. apply P in Hq. rewrite !in_app_iff in Hq. destruct Hq as [Hq|[Hq|Hq]].
      * apply in_map_iff in Hq as (z & E & Hz). injection E as <-. exact Hz.
      * destruct f; [|contradiction]. apply in_map_iff in Hq as (z & E & _). discriminate.
      * destruct t; [|contradiction]. apply in_map_iff in Hq as (z & E & _). discriminate.
    + destruct f as [x|]; [|reflexivity]. eapply H; [|exact Cf]. intros q Hq. apply P in Hq. rewrite !in_app_iff in Hq. destruct Hq as [Hq|[Hq|Hq]].
      * apply in_map_iff in Hq as (z & E & _). discriminate.
      * apply in_map_iff in Hq as (z & E & Hz). injection E as <-. exact Hz.
      * destruct t; [|contradiction]. apply in_map_iff in Hq as (z & E & _). discriminate.
    + destruct t as [x|]; [|reflexivity]. eapply H0; [|exact Ct]. intros q Hq. apply P in Hq. rewrite !in_app_iff in Hq. destruct Hq as [Hq|[Hq|Hq]].
      * apply in_map_iff in Hq as (z & E & _). discriminate.
      * destruct f; [|contradiction]. apply in_map_iff in Hq as (z & E & _). discriminate.
      * apply in_map_iff in Hq as (z & E & Hz). injection E as <-. exact Hz.
  - destruct C as [Ca Cb]. split; [eapply IHn1; [here P|auto]|eapply IHn2; [here P|auto]].
  - destruct C as [[Ca Cb] Cc]. repeat split; [eapply IHn1; [here P|auto]|eapply IHn2; [here P|auto]|eapply IHn3; [here P|auto]].
  - destruct C as [Ca Cb]. assert (Pn : picks (fun q => pick (0 :: q)) (findings n Guarded)) by here P. split; [eapply IHn; [exact Pn|auto]|].
    destruct op; try reflexivity. destruct (negation (drop _ n)) eqn:E; [|reflexivity]. rewrite (negation_drop n _ Guarded (or_introl eq_refl) Pn E) in Cb. discriminate.
  - destruct C as [[Ca Cb] Cc]. assert (Pn : picks (fun q => pick (1 :: q)) (findings n2 (operand_site op SRight))) by here P. repeat split; [eapply IHn1; [here P|auto]|eapply IHn2; [exact Pn|auto]|].
    destruct (tighter op); [|reflexivity]. destruct (negation (drop _ n2)) eqn:E; [|reflexivity]. rewrite (negation_drop n2 _ (operand_site op SRight) (or_intror (ex_intro _ op (ex_intro _ SRight eq_refl))) Pn E) in Cc. discriminate.
  - apply L; auto. apply each_picks. exact P.
  - destruct C as [Ca Cb]. split; [eapply IHn; [here P|auto]|]. apply L; auto. apply each_picks. here P.
Qed.

(** ** Levels *)
Section Levels.
  Variable pn : string -> option dec.
  Variable hr : bool.
  Variable nt : dec -> string.
  Notation can := (canon nt pn hr FStandard).

  Lemma can_ctx : forall n d c c' p f, can n d c p f -> can n d c' p f.
  Proof.
    induction n using node_ind'; intros d0 c0 c1 p0 f0 HC; try exact HC.
    - destruct HC as (A & B & C & D0). split; [exact A|]. split; [exact B|]. split; [eapply IHn1; exact C|exact D0].
    - destruct HC as (q & la & A & B & C & _ & E & F). exists q, la. repeat (split; [assumption|]). split; [apply no_ends|]. split; [eapply IHn1; exact E|exact F].
  Qed.
  Lemma can_atom : forall n d c p f c' p' f', is_atom n = true -> can n d c p f -> can n d c' p' f'.
  Proof. intros n d c p f c' p' f' A H. destruct n; try discriminate A; exact H. Qed.
  Lemma raise_p : forall n d c p f p', can n d c p f -> p' <= f -> can n d c p' f.
  Proof.
    induction n using node_ind'; intros d0 c0 p0 f0 p' HC L; try exact HC.
    - destruct HC as (A & B & C). split; [lia|]. split; assumption.
    - destruct HC as (q & la & A & B & C & D0 & E & F). exists q, la. split; [exact A|]. split; [unfold right_level in C; destruct la; lia|]. split; [exact C|]. split; [exact D0|].
      split; [|exact F]. eapply IHn1; [exact E|]. unfold right_level in C; destruct la; lia.
  Qed.
  Lemma loose : forall o q la, binary_op o = Some (q, la) -> tighter o = false -> q < 50.
  Proof. intros o q la H T. destruct o as [[]|[]|[]| | | | | | |]; cbn in *; try discriminate; injection H as <- _; lia. Qed.
  Lemma top_level : forall o q la, binary_op o = Some (q, la) -> q <= 80.
  Proof. intros o q la H. destruct o as [[]|[]|[]| | | | | | |]; cbn in *; try discriminate; injection H as <- _; lia. Qed.
  Lemma sign_or_not : forall o u, unary_op o = Some u -> (u = 200 /\ (exists a, o = OpArith a)) \/ (u = 50 /\ o = OpLogic LNot).
  Proof. intros o u H. destruct o as [[]|[]|[]| | | | | | |]; cbn in *; try discriminate; injection H as <-; eauto. Qed.
  Lemma same_assoc : forall o o' q la la', binary_op o = Some (q, la) -> binary_op o' = Some (q, la') -> la = la'.
  Proof.
    intros o o' q la la' H H'. destruct o as [[]|[]|[]| | | | | | |]; cbn in H; try discriminate; injection H as <- <-;
      destruct o' as [[]|[]|[]| | | | | | |]; cbn in H'; try discriminate; injection H' as <-; reflexivity.
  Qed.
  Lemma raise_f : forall n d c p f, can n d c p 0 -> f < p -> f <= 80 -> calm n = true -> (negation n = true -> f < 50) -> can n d c p f.
  Proof.
    induction n using node_ind'; intros d0 c0 p0 f0 HC L M K N; try exact HC.
    - destruct HC as (A & _). lia.
    - destruct HC as (u & A & B & C). exists u. split; [exact A|]. cbn [calm] in K. apply andb_true_iff in K as [K1 K2]. destruct (sign_or_not _ _ A) as [[-> [a ->]]|[-> ->]].
      + split; [lia|]. apply IHn; auto; [lia|]. intros E. rewrite E in K2. discriminate.
      + specialize (N eq_refl). split; [exact N|]. apply IHn; auto.
    - destruct HC as (q & la & A & B & C & D0 & E & F). exists q, la. cbn [calm] in K. rewrite !andb_true_iff in K. destruct K as [[K1 K2] K3].
      assert (Lf : f0 < right_level q la) by (unfold right_level; destruct la; lia).
      split; [exact A|]. split; [exact B|]. split; [exact Lf|]. split; [exact D0|]. split; [exact E|]. apply IHn2; auto.
      intros Ng. rewrite Ng in K3. destruct (tighter op) eqn:T; [discriminate|]. pose proof (loose _ _ _ A T). lia.
  Qed.

  (** ** Sites and levels *)
  Definition fits (w : site) (p f : nat) : Prop :=
    match w with
    | Delimited => p = 0 /\ f = 0
    | Operand o q la SLeft => binary_op o = Some (q, la) /\ p <= q /\ f = q
    | Operand o q la SRight => binary_op o = Some (q, la) /\ p = right_level q la /\ f < right_level q la
    | PostfixBase | Guarded => True
    end.
  (** Parentheses that are redundant at a site can be left out there. *)
  Lemma unwrap : forall m x d c p f w, is_redundant m w = true -> fits w p f -> is_paren m = false ->
    (is_atom m = true -> is_atom x = true) ->
    (forall l o r, m = NBinary l o r -> exists l' r', x = NBinary l' o r') -> (forall y o, m = NUnary y o -> exists y', x = NUnary y' o) ->
    can x d CxGlobal 0 0 -> calm x = true -> can x d c p f.
  Proof.
    intros m x d c p f w R F Np At Bi Un C K.
    assert (Ha : is_atom m = true -> can x d c p f) by (intros A; eapply can_atom; [exact (At A)|exact C]).
    destruct w as [|o q la sd| |]; cbn [is_redundant] in R.
    - destruct F as [-> ->]. eapply can_ctx. exact C.
    - assert (Fb : binary_op o = Some (q, la)) by (destruct sd; apply F).
      assert (Lim : f <= q /\ (sd = SLeft -> p <= q /\ f = q) /\ (sd = SRight -> p = right_level q la)).
      { destruct sd; cbn in F; destruct F as (_ & F1 & F2); (split; [unfold right_level in *; destruct la; lia|]); split; intros Z; try discriminate Z; auto. }
      destruct Lim as (Lf & Ll & Lr). pose proof (top_level _ _ _ Fb) as Lt.
      destruct m; try (apply Ha; exact R).
      + (* unary *) apply andb_true_iff in R as [R1 R2]. destruct (Un _ _ eq_refl) as (y' & ->). destruct (unary_op op) as [u|] eqn:Eu; [|discriminate]. apply Nat.ltb_lt in R2.
        destruct C as (u' & A & B & C). rewrite Eu in A. injection A as <-. exists u. split; [exact Eu|]. split; [lia|].
        destruct (sign_or_not _ _ Eu) as [[-> [a ->]]|[-> ->]].
        * cbn [calm] in K. apply andb_true_iff in K as [K1 K2]. apply raise_f; auto; [lia|lia|]. intros E. rewrite E in K2. discriminate.
        * exfalso. unfold same_family, op_eqb in R1. destruct (operator_eq_dec (OpLogic LNot) o) as [<-|]; [discriminate Fb|discriminate R1].
      + (* binary *) apply andb_true_iff in R as [_ R2]. destruct (Bi _ _ _ eq_refl) as (l' & r' & ->). destruct (binary_op op) as [[q2 la2]|] eqn:Eb; [|discriminate].
        destruct C as (q' & la' & A & B & C & D0 & E & G). rewrite Eb in A. injection A as <- <-. exists q2, la2.
        assert (Le : q <= q2) by (apply orb_true_iff in R2 as [R2|R2]; [apply Nat.ltb_lt in R2; lia|apply andb_true_iff in R2 as [R2 _]; apply Nat.eqb_eq in R2; lia]).
        assert (Lp : p <= q2).
        { destruct sd; [destruct (Ll eq_refl); lia|]. rewrite (Lr eq_refl). unfold right_level. destruct la; [|lia]. apply orb_true_iff in R2 as [R2|R2]; [apply Nat.ltb_lt in R2; lia|].
          apply andb_true_iff in R2 as [_ R2]. discriminate R2. }
        assert (Lff : f < right_level q2 la2).
        { apply orb_true_iff in R2 as [R2|R2]; [apply Nat.ltb_lt in R2; unfold right_level; destruct la2; lia|]. apply andb_true_iff in R2 as [R2 R3]. apply Nat.eqb_eq in R2. subst q2.
          rewrite (same_assoc _ _ _ _ _ Eb Fb) in *. destruct sd; [subst la; unfold right_level; lia|]. destruct la; [discriminate|]. cbn in F. destruct F as (_ & _ & F2). exact F2. }
        cbn [calm] in K. rewrite !andb_true_iff in K. destruct K as [[K1 K2] K3]. pose proof (top_level _ _ _ Eb) as Lt2.
        split; [exact Eb|]. split; [exact Lp|]. split; [exact Lff|]. split; [apply no_ends|]. split.
        * eapply can_ctx. eapply raise_p; [exact E|lia].
        * apply raise_f; auto; [lia|]. intros Ng. rewrite Ng in K3. destruct (tighter op) eqn:T; [discriminate|]. pose proof (loose _ _ _ Eb T). lia.
    - apply Ha. destruct m; try discriminate; reflexivity.
    - apply Ha. exact R.
  Qed.
  Lemma drop_atom : forall m pick, is_paren m = false -> is_atom m = true -> is_atom (drop pick m) = true.
  Proof. intros m pick N A. destruct m; try discriminate; reflexivity. Qed.
  Lemma post_drop : forall n pick, picks pick (findings n PostfixBase) -> postfixable n = true -> postfixable (drop pick n) = true.
  Proof.
    induction n using node_ind'; intros pick P E; try discriminate E; try reflexivity. cbn [drop]. destruct (pick []) eqn:E0; [|reflexivity].
    pose proof (paren_pick _ _ _ P E0) as R. apply paren_in in P. destruct n; try discriminate R; try reflexivity. cbn [inner_site] in P. apply IHn; auto.
  Qed.
  (** Texts of such trees do not begin with a closing bracket. *)
  Lemma not_closed : forall n d c p f b, can n d c p f -> opening n = true -> b = RSquare \/ b = RParen -> not_led nt b n.
  Proof.
    unfold not_led. induction n using node_ind'; intros d0 c0 p0 f0 bb HC Op Hb; cbn [words opening] in *; rewrite ?andb_true_iff in Op; try (destruct HC; fail);
      try (apply head_is_other; destruct Hb as [->| ->]; congruence).
    - unfold wname. apply head_is_other. destruct (ident_of_str s); destruct Hb as [->| ->]; congruence.
    - pose proof HC as (_ & HA & _). rewrite spell_app. destruct (T_started pn hr FStandard nt n1 _ _ _ _ HA) as (k & v & r & E & _).
      assert (K : head_is (KBracket bb) (spell (words nt n1)) = false) by (eapply IHn1; [exact HA|tauto|exact Hb]). unfold T in E. rewrite E in K |- *. exact K.
    - pose proof HC as (_ & HA & _). rewrite spell_app. destruct (T_started pn hr FStandard nt n _ _ _ _ HA) as (k & v & r & E & _).
      assert (K : head_is (KBracket bb) (spell (words nt n)) = false) by (eapply IHn; [exact HA|tauto|exact Hb]). unfold T in E. rewrite E in K |- *. exact K.
    - apply head_is_other. destruct Op as [_ Op]. destruct lb; try discriminate Op; destruct Hb as [->| ->]; congruence.
    - pose proof HC as (_ & _ & HA & _). rewrite spell_app. destruct (T_started pn hr FStandard nt n1 _ _ _ _ HA) as (k & v & r & E & _).
      assert (K : head_is (KBracket bb) (spell (words nt n1)) = false) by (eapply IHn1; [exact HA|tauto|exact Hb]). unfold T in E. rewrite E in K |- *. exact K.
    - pose proof HC as (q & la & _ & _ & _ & _ & HA & _). rewrite spell_app. destruct (T_started pn hr FStandard nt n1 _ _ _ _ HA) as (k & v & r & E & _).
      assert (K : head_is (KBracket bb) (spell (words nt n1)) = false) by (eapply IHn1; [exact HA|tauto|exact Hb]). unfold T in E. rewrite E in K |- *. exact K.
    - destruct k; try (apply head_is_other; destruct Hb as [->| ->]; congruence).
      destruct l as [|x [|y [|z l]]]; try (destruct HC; fail); destruct y; try (destruct HC; fail). apply head_is_other; destruct Hb as [->| ->]; congruence.
    - pose proof HC as (_ & HA & _). rewrite spell_app. destruct (T_started pn hr FStandard nt n _ _ _ _ HA) as (k' & v & r & E & _).
      assert (K : head_is (KBracket bb) (spell (words nt n)) = false) by (eapply IHn; [exact HA|tauto|exact Hb]). unfold T in E. rewrite E in K |- *. exact K.
  Qed.

  (** ** The theorem *)
  Definition safe (n : node) : Prop := forall w d c p f pick, can n d c p f -> calm n = true -> opening n = true -> fits w p f -> picks pick (findings n w) -> can (drop pick n) d c p f.
  Lemma all_safe : forall l, Forall (fun n => safe n /\ body_ok safe n) l -> Forall safe l.
  Proof. intros l H. eapply Forall_impl; [|exact H]. intros a HA; exact (proj1 HA). Qed.
  Definition tops (b : bracket) (d : nat) : list node -> Prop := fix go l := match l with [] => True | x :: r => (can x d CxGlobal 0 0 /\ not_led nt b x) /\ go r end.
  Lemma tops_drop : forall b, b = RSquare \/ b = RParen -> forall l d pick i, Forall safe l -> Forall (subl pn hr FStandard nt d b) l -> forallb calm l = true -> forallb opening l = true ->
    picks_each (fun x => findings x Delimited) pick i l -> tops b d (drop_each drop pick i l).
  Proof.
    intros b Hb. induction l as [|x l IH]; intros d pick i S0 C K Op P; cbn; [exact I|]. inversion S0 as [|? ? Sx Sl]; subst. inversion C as [|? ? [Cx _] Cl]; subst. cbn in K, Op.
    apply andb_true_iff in K as [Kx Kl]. apply andb_true_iff in Op as [Ox Ol].
    assert (Dx : can (drop (fun q => pick (i :: q)) x) d CxGlobal 0 0) by (apply (Sx Delimited); auto; [split; reflexivity|exact (each_head _ _ _ _ _ _ P)]).
    split; [split; [exact Dx|eapply not_closed; [exact Dx|rewrite opening_drop; exact Ox|exact Hb]]|]. apply IH; auto. eapply each_tail. exact P.
  Qed.
  Definition alls (d : nat) : list node -> Prop := fix go l := match l with [] => True | x :: r => can x d CxGlobal 0 0 /\ go r end.
  Lemma alls_drop : forall l d pick i, Forall safe l -> Forall (sub pn hr FStandard nt d) l -> forallb calm l = true -> forallb opening l = true ->
    picks_each (fun x => findings x Delimited) pick i l -> alls d (drop_each drop pick i l).
  Proof.
    induction l as [|x l IH]; intros d pick i S0 C K Op P; cbn; [exact I|]. inversion S0 as [|? ? Sx Sl]; subst. inversion C as [|? ? Cx Cl]; subst. cbn in K, Op.
    apply andb_true_iff in K as [Kx Kl]. apply andb_true_iff in Op as [Ox Ol]. split; [|apply IH; auto; eapply each_tail; exact P].
    apply (Sx Delimited); auto; [split; reflexivity|exact (each_head _ _ _ _ _ _ P)].
  Qed.
  Definition pairs (d : nat) : list (node * node) -> Prop :=
    fix go l := match l with [] => True | kv :: r => (can (fst kv) d CxGlobal 0 0 /\ not_led nt RSquare (fst kv) /\ can (snd kv) d CxGlobal 0 0) /\ go r end.
  Lemma pairs_drop : forall l d pick i, Forall (fun kv => (safe (fst kv) /\ body_ok safe (fst kv)) /\ safe (snd kv) /\ body_ok safe (snd kv)) l ->
    Forall (fun kv => subl pn hr FStandard nt d RSquare (fst kv) /\ sub pn hr FStandard nt d (snd kv)) l ->
    forallb (fun kv => calm (fst kv) && calm (snd kv)) l = true -> forallb (fun kv => opening (fst kv) && opening (snd kv)) l = true ->
    picks_each (fun kv => map (cons 0) (findings (fst kv) Delimited) ++ map (cons 1) (findings (snd kv) Delimited)) pick i l ->
    pairs d (drop_each (fun pick kv => (drop (fun q => pick (0 :: q)) (fst kv), drop (fun q => pick (1 :: q)) (snd kv))) pick i l).
  Proof.
    induction l as [|x l IH]; intros d pick i S0 C K Op P; cbn; [exact I|]. inversion S0 as [|? ? [[Hx _] [Hy _]] Hl]; subst. inversion C as [|? ? [[Cx _] Cy] Cl]; subst.
    cbn in K, Op. rewrite !andb_true_iff in K, Op. destruct K as [[Kx Ky] Kl], Op as [[Ox Oy] Ol]. pose proof (each_head _ _ _ _ _ _ P) as Ph. cbn beta in Ph.
    assert (Dx : can (drop (fun q => pick (i :: 0 :: q)) (fst x)) d CxGlobal 0 0) by (apply (Hx Delimited); auto; [split; reflexivity|here Ph]).
    split; [|apply IH; auto; eapply each_tail; exact P]. split; [exact Dx|]. split; [eapply not_closed; [exact Dx|rewrite opening_drop; exact Ox|now left]|].
    apply (Hy Delimited); auto; [split; reflexivity|here Ph].
  Qed.
  Theorem drop_can_ : forall n, safe n /\ body_ok safe n.
  Proof.
    induction n using node_ind'; (split; [|try exact I; try exact (proj1 IHn)]);
      repeat match goal with IH : safe _ /\ _ |- _ => destruct IH as [IH _] end;
      intros w d0 c0 p0 f0 pick HC K Op F P; cbn [drop]; try exact HC; try (destruct HC; fail); cbn [calm opening] in K, Op; (repeat rewrite andb_true_iff in K); (repeat rewrite andb_true_iff in Op).
    - (* template *) apply can_template in HC. apply all_safe in H. cbn [findings] in P. apply each_picks in P. cbn [canon]. apply alls_drop; auto.
    - (* array *) apply can_array in HC as [NE HC]. apply all_safe in H. cbn [findings] in P. apply each_picks in P. cbn [canon]. split; [intros Hr; apply each_nil; auto|].
      apply (tops_drop RSquare (or_introl eq_refl)); auto.
    - (* object *) apply can_object in HC as [NE HC]. cbn [findings] in P. apply each_picks in P. cbn [canon]. split; [intros Hr; apply each_nil; auto|]. apply pairs_drop; auto.
    - (* parentheses *) pose proof (paren_in _ _ _ P) as Pi. cbn [canon] in HC. destruct (pick []) eqn:E0.
      + pose proof (paren_pick _ _ _ P E0) as R. destruct (is_paren n) eqn:Ep.
        * destruct n; try discriminate Ep. cbn [inner_site] in Pi. apply (IHn w); auto.
        * rewrite (inner_other _ _ Ep) in Pi. eapply (unwrap n); [exact R|exact F|exact Ep|intros A; apply drop_atom; auto| | | |eapply calm_drop; [exact Pi|exact K]].
          -- intros l o r ->. cbn [drop]. eauto.
          -- intros y o ->. cbn [drop]. eauto.
          -- apply (IHn Delimited); auto. split; reflexivity.
      + cbn [canon]. apply (IHn Delimited); auto; [split; reflexivity|]. eapply picks_delimited; exact Pi.
    - (* member *) destruct HC as (A & B & C), K as [Ka Kb], Op as [Oa Ob]. assert (Pa : picks (fun q => pick (0 :: q)) (findings n1 PostfixBase)) by here P.
      split; [apply post_drop; auto|]. split; [apply (IHn1 PostfixBase); auto; exact I|]. apply (IHn2 Delimited); auto; [split; reflexivity|here P].
    - (* slice *) destruct HC as (A & B & C & D0), K as [[Ka Kf] Kt], Op as [[Oa Of] Ot]. cbn [findings] in P.
      assert (Pa : picks (fun q => pick (0 :: q)) (findings n PostfixBase)) by (destruct f, t; here P).
      split; [apply post_drop; auto|]. split; [apply (IHn PostfixBase); auto; exact I|]. split.
      + destruct f as [x|]; [|exact I]. cbn in H. apply (proj1 H Delimited); auto; [split; reflexivity|destruct t; here P].
      + destruct t as [x|]; [|exact I]. cbn in H0. destruct D0 as [D1 D2].
        assert (Dx : can (drop (fun q => pick (2 :: q)) x) d0 CxGlobal 0 0) by (apply (proj1 H0 Delimited); auto; [split; reflexivity|destruct f; here P]).
        split; [exact Dx|]. eapply not_closed; [exact Dx|rewrite opening_drop; exact Ot|now left].
    - (* interval *) destruct HC as (A & B & C & D0), K as [Ka Kb], Op as [[Oa Ob] Ol]. split; [exact A|]. split; [apply (IHn1 Delimited); auto; [split; reflexivity|here P]|].
      split; [apply (IHn2 Delimited); auto; [split; reflexivity|here P]|]. destruct rb; try exact I; destruct n2; try (destruct D0; fail); exact I.
    - (* conditional *) destruct HC as (A & B & C1 & C2 & C3), K as [[Ka Kb] Kc], Op as [[Oa Ob] Oc]. split; [exact A|]. split; [exact B|]. split; [apply (IHn1 Guarded); auto; [exact I|here P]|].
      split; [apply (IHn2 Guarded); auto; [exact I|here P]|apply (IHn3 Guarded); auto; [exact I|here P]].
    - (* unary *) destruct HC as (u & A & B & C), K as [Ka Kb]. exists u. split; [exact A|]. split; [exact B|]. apply (IHn Guarded); auto; [exact I|here P].
    - (* binary *) destruct HC as (q & la & A & B & C & D0 & E & G), K as [[Ka Kb] Kc], Op as [Oa Ob]. exists q, la. split; [exact A|]. split; [exact B|]. split; [exact C|]. split; [exact D0|].
      assert (Site : forall sd, operand_site op sd = Operand op q la sd) by (intros sd; unfold operand_site; now rewrite A).
      split; [apply (IHn1 (operand_site op SLeft)); auto; [rewrite Site; repeat split; auto|here P]|apply (IHn2 (operand_site op SRight)); auto; [rewrite Site; repeat split; auto|here P]].
    - (* call *) cbn [findings] in P. apply each_picks in P. destruct k.
      + cbn [canon] in HC |- *. apply all_safe in H. apply all_args in HC. apply (tops_drop RParen (or_intror eq_refl)); auto.
      + destruct HC as [Kn HC]. split; [exact Kn|]. apply all_safe in H. apply all_args in HC. apply (tops_drop RParen (or_intror eq_refl)); auto.
      + destruct l as [|x [|y [|z l]]]; try (destruct HC; fail); destruct y; try (destruct HC; fail).
        destruct HC as [Cx Cb]. inversion H as [|? ? [Hx _] Hl]; subst. inversion Hl as [|? ? [_ Hb] _]; subst. cbn [body_ok] in Hb. cbn in K, Op. rewrite !andb_true_iff in K, Op.
        destruct K as (Kx & Kb & _), Op as (Ox & Ob & _). cbn [drop_each drop canon]. pose proof (each_head _ _ _ _ _ _ P) as Px. pose proof (each_head _ _ _ _ _ _ (each_tail _ _ _ _ _ _ P)) as Py. split.
        * apply (Hx Delimited); auto. split; reflexivity.
        * apply (Hb Delimited); auto; [split; reflexivity|here Py].
    - (* method *) apply can_method in HC as (A & B & C & D0). destruct K as [Ka Kb], Op as [Oa Ob]. apply all_safe in H. assert (Pa : picks (fun q => pick (0 :: q)) (findings n PostfixBase)) by here P.
      split; [apply post_drop; auto|]. split; [apply (IHn PostfixBase); auto; exact I|]. split; [exact C|]. apply (tops_drop RParen (or_intror eq_refl)); auto. apply each_picks. here P.
  Qed.
  Theorem drop_can : forall n pick, can n 0 CxGlobal 0 0 -> calm n = true -> opening n = true -> picks pick (paren_hints n) -> can (drop pick n) 0 CxGlobal 0 0.
  Proof. intros n pick C K Op P. apply (proj1 (drop_can_ n) Delimited); auto. split; reflexivity. Qed.
End Levels.

(** ** Intervals and words stay *)
Fixpoint ranged (n : node) : bool :=
  match n with
  | NParen m | NClosure m _ | NUnary m _ => ranged m
  | NBinary l _ r => ranged l || ranged r
  | NCond a t e => ranged a || (ranged t || ranged e)
  | NMember m p => ranged m || ranged p
  | NSlice m a b => ranged m || (match a with Some x => ranged x | None => false end || match b with Some x => ranged x | None => false end)
  | NInterval _ _ _ _ => true
  | NArray l | NTemplate l | NCall _ l => existsb ranged l
  | NObject l => existsb (fun kv => ranged (fst kv) || ranged (snd kv)) l
  | NMethod _ m l => ranged m || existsb ranged l
  | _ => false
  end.
Lemma each_existsb : forall A (g : (list nat -> bool) -> A -> A) (s : A -> bool) l pick i, Forall (fun x => forall pk, s (g pk x) = s x) l -> existsb s (drop_each g pick i l) = existsb s l.
Proof. intros A g s l. induction l as [|x l IH]; intros pick i H; cbn; [reflexivity|]. inversion H as [|? ? Hx Hl]; subst. rewrite Hx, IH; auto. Qed.
Lemma ranged_drop : forall n pick, ranged (drop pick n) = ranged n.
Proof.
  induction n using node_ind'; intros pick; cbn [drop]; try reflexivity; cbn [ranged]; rewrite ?IHn, ?IHn1, ?IHn2, ?IHn3; try reflexivity.
  - apply each_existsb. eapply Forall_impl; [|exact H]. auto.
  - apply each_existsb. eapply Forall_impl; [|exact H]. auto.
  - apply each_existsb. eapply Forall_impl; [|exact H]. intros [a b] [Ha Hb] pk. cbn in *. now rewrite Ha, Hb.
  - destruct (pick []); cbn [ranged]; apply IHn.
  - destruct f, t; cbn in *; now rewrite ?H, ?H0.
  - apply each_existsb. eapply Forall_impl; [|exact H]. auto.
  - f_equal. apply each_existsb. eapply Forall_impl; [|exact H]. auto.
Qed.
Section Words.
  Variable pn : string -> option dec.
  Variable hr : bool.
  Variable nt : dec -> string.
  Notation can := (canon nt pn hr FStandard).
  Definition hrs (w : list word) : bool := has_range (spell w).
  Lemma hrs_app : forall a b, hrs (a ++ b) = hrs a || hrs b.
  Proof. intros a b. unfold hrs. rewrite spell_app. unfold has_range. apply existsb_app. Qed.
  Lemma hrs_cons : forall w a, hrs (w :: a) = hrs [w] || hrs a.
  Proof. intros w a. exact (hrs_app [w] a). Qed.
  Lemma hrs_seps : forall A (f : A -> list word) l, hrs (seps comma (map f l)) = existsb (fun x => hrs (f x)) l.
  Proof.
    intros A f. induction l as [|x l IH]; [reflexivity|]. destruct l as [|y l]; [cbn; now rewrite orb_false_r|].
    change (seps comma (map f (x :: y :: l))) with (f x ++ comma :: seps comma (map f (y :: l))). rewrite hrs_app, hrs_cons, IH. reflexivity.
  Qed.
  Lemma exists_eq : forall A (f g : A -> bool) l, Forall (fun x => f x = g x) l -> existsb f l = existsb g l.
  Proof. intros A f g l H. induction H as [|x l Hx Hl IH]; cbn; [reflexivity|]. now rewrite Hx, IH. Qed.
  Lemma both : forall A (P Q R : A -> Prop) l, Forall P l -> Forall Q l -> (forall x, P x -> Q x -> R x) -> Forall R l.
  Proof. intros A P Q R l H. induction H as [|x l Hx Hl IH]; intros K I0; inversion K; subst; constructor; auto. Qed.
  Lemma bin_range : forall o q, binary_op o = Some q -> hrs [wop o] = false.
  Proof. intros o q H. destruct o as [[]|[]|[]| | | | | | |]; try discriminate H; reflexivity. Qed.
  Lemma un_range : forall o q, unary_op o = Some q -> hrs [wop o] = false.
  Proof. intros o q H. destruct o as [[]|[]|[]| | | | | | |]; try discriminate H; reflexivity. Qed.
  Lemma br_range : forall b, hrs [wbr b] = false.
  Proof. intros []; reflexivity. Qed.
  Lemma name_range : forall s, hrs [wname s] = false.
  Proof. intros s. unfold wname. destruct (ident_of_str s); reflexivity. Qed.
  Definition tells (n : node) : Prop := forall d c p f, can n d c p f -> hrs (words nt n) = ranged n.
  Lemma tells_list : forall l b d, Forall (fun n => tells n /\ body_ok tells n) l -> Forall (subl pn hr FStandard nt d b) l -> existsb (fun x => hrs (words nt x)) l = existsb ranged l.
  Proof. intros l b d H C. apply exists_eq. eapply both; [exact H|exact C|]. intros x [T0 _] [Cx _]. eapply T0. exact Cx. Qed.
  Lemma tells_all : forall n, tells n /\ body_ok tells n.
  Proof.
    induction n using node_ind'; (split; [|try exact I; try exact (proj1 IHn)]);
      repeat match goal with IH : tells _ /\ _ |- _ => destruct IH as [IH _] end;
      intros d0 c0 p0 f0 HC; try reflexivity; try (destruct HC; fail).
    - apply can_template in HC. cbn [words ranged]. rewrite hrs_cons, hrs_app. cbn [orb]. change (hrs [WTok (KQuote QBacktick) "`"]) with false. rewrite orb_false_r. cbn [orb].
      induction l as [|x l IH]; [reflexivity|]. inversion H as [|? ? [Hx _] Hl]; subst. inversion HC as [|? ? Cx Cl]; subst. cbn [flat_map existsb]. rewrite hrs_app, (IH Hl Cl). f_equal.
      rewrite <- (Hx _ _ _ _ Cx). destruct x; try (rewrite hrs_cons, hrs_app; change (hrs [WTok KTplStart "${"]) with false; change (hrs [WTok KTplEnd "}"]) with false; rewrite orb_false_r; reflexivity). reflexivity.
    - apply can_array in HC as [_ HC]. cbn [words ranged]. rewrite hrs_cons, hrs_app, hrs_seps, !br_range, orb_false_r. cbn [orb]. eapply tells_list; eauto.
    - apply can_object in HC as [_ HC]. cbn [words ranged]. rewrite hrs_cons, hrs_app, hrs_seps, !br_range, orb_false_r. cbn [orb]. apply exists_eq. eapply both; [exact H|exact HC|].
      intros kv [[Ha _] [Hb _]] [[Ca _] Cb]. rewrite hrs_app, hrs_cons. change (hrs [wop OpSlice]) with false. rewrite (Hb _ _ _ _ Cb). cbn [orb]. f_equal. rewrite <- (Ha _ _ _ _ Ca).
      destruct (fst kv); try (rewrite hrs_cons, hrs_app, !br_range, orb_false_r; reflexivity). reflexivity.
    - cbn [words ranged]. apply name_range.
    - cbn [words ranged]. rewrite hrs_cons, hrs_app, !br_range, orb_false_r. cbn [orb]. eapply IHn; exact HC.
    - destruct HC as (_ & A & B). cbn [words ranged]. rewrite hrs_app, (IHn1 _ _ _ _ A). f_equal. rewrite <- (IHn2 _ _ _ _ B).
      destruct n2; try (rewrite hrs_cons, hrs_app, !br_range, orb_false_r; reflexivity). destruct (plain_name s); [reflexivity|]. rewrite hrs_cons, hrs_app, !br_range, orb_false_r. reflexivity.
    - destruct HC as (_ & A & B & C). cbn [words ranged]. rewrite hrs_app, (IHn _ _ _ _ A). f_equal. rewrite hrs_cons, br_range, hrs_app, hrs_cons, hrs_app, br_range, orb_false_r. cbn [orb].
      f_equal.
      + destruct f as [x|]; [|reflexivity]. cbn in H. exact (proj1 H _ _ _ _ B).
      + change (hrs [wop OpSlice]) with false. cbn [orb]. destruct t as [x|]; [|reflexivity]. cbn in H0. exact (proj1 H0 _ _ _ _ (proj1 C)).
    - cbn [words ranged]. rewrite hrs_cons, hrs_app, hrs_cons. change (hrs [wop OpRange]) with true. cbn [orb]. rewrite !orb_true_r. reflexivity.
    - destruct HC as (_ & _ & A & B & C). cbn [words ranged]. rewrite hrs_app, hrs_cons, hrs_app, (hrs_cons (wop OpSlice)), (IHn1 _ _ _ _ A), (IHn2 _ _ _ _ B), (IHn3 _ _ _ _ C). reflexivity.
    - destruct HC as (u & A & _ & B). cbn [words ranged]. rewrite hrs_cons, (un_range _ _ A), (IHn _ _ _ _ B). reflexivity.
    - destruct HC as (q & la & A & _ & _ & _ & B & C). cbn [words ranged]. rewrite hrs_app, hrs_cons, (bin_range _ _ A), (IHn1 _ _ _ _ B), (IHn2 _ _ _ _ C). reflexivity.
    - destruct k.
      + apply all_args in HC. cbn [words ranged]. rewrite hrs_cons, (hrs_cons (wbr LParen)), hrs_app, hrs_seps, !br_range, orb_false_r. cbn [orb]. eapply tells_list; eauto.
      + destruct HC as [_ HC]. apply all_args in HC. cbn [words ranged]. rewrite hrs_cons, (hrs_cons (wbr LParen)), hrs_app, hrs_seps, !br_range, orb_false_r. cbn [orb]. eapply tells_list; eauto.
      + destruct l as [|x [|y [|z l]]]; try (destruct HC; fail); destruct y; try (destruct HC; fail).
        destruct HC as [A B]. inversion H as [|? ? [Hx _] Hl]; subst. inversion Hl as [|? ? [_ Hb] _]; subst. cbn [body_ok] in Hb. cbn [words ranged existsb].
        rewrite hrs_cons, (hrs_cons (wbr LParen)), hrs_app, hrs_app, (hrs_cons comma), hrs_app, !br_range, !orb_false_r, (Hx _ _ _ _ A), (Hb _ _ _ _ B). change (hrs [WTok KLiteral (fname (FClosure c))]) with false. change (hrs [comma]) with false. cbn [orb]. destruct alias; reflexivity.
    - apply can_method in HC as (_ & A & _ & C). cbn [words ranged]. rewrite hrs_app, (hrs_cons (wop OpDot)), (hrs_cons (WTok KLiteral k)), (hrs_cons (wbr LParen)), hrs_app, hrs_seps, !br_range, orb_false_r, (IHn _ _ _ _ A). cbn [orb]. f_equal.
      change (hrs [wop OpDot]) with false. cbn [orb]. eapply tells_list; eauto.
  Qed.
  Lemma range_drop : forall n pick d c p f, can n d c p f -> can (drop pick n) d c p f -> hrs (words nt (drop pick n)) = hrs (words nt n).
  Proof. intros n pick d c p f A B. rewrite (proj1 (tells_all n) _ _ _ _ A), (proj1 (tells_all _) _ _ _ _ B). apply ranged_drop. Qed.
End Words.

(** The words can be written. *)
Section Spelled.
  Variable pn : string -> option dec.
  Variable hr : bool.
  Variable nt : dec -> string.
  Notation can := (canon nt pn hr FStandard).
  Notation ok := (Forall word_ok).
  Fixpoint spelled (n : node) : Prop :=
    let all := fix go l := match l with [] => True | x :: r => spelled x /\ go r end in
    match n with
    | NNumber x => number_text (nt x)
    | NString s => word_ok (WStr (quote_for s) s)
    | NTemplate _ => False
    | NIdent s => word_ok (wname s)
    | NParen m | NUnary m _ => spelled m
    | NClosure m a => spelled m /\ match a with Some x => plain_name x = true | None => True end
    | NBinary l _ r => spelled l /\ spelled r
    | NCond a t e => spelled a /\ spelled t /\ spelled e
    | NMember m p => spelled m /\ match p with NString s => if plain_name s then True else word_ok (WStr (quote_for s) s) | _ => spelled p end
    | NSlice m a b => spelled m /\ match a with Some x => spelled x | None => True end /\ match b with Some x => spelled x | None => True end
    | NInterval l r _ _ => spelled l /\ spelled r
    | NArray l => all l
    | NCall k l => plain_name (fname k) = true /\ all l
    | NObject l => (fix go l := match l with [] => True | kv :: r => (spelled (fst kv) /\ spelled (snd kv)) /\ go r end) l
    | NMethod k m l => spelled m /\ plain_name k = true /\ all l
    | _ => True
    end.
  Definition alln : list node -> Prop := fix go l := match l with [] => True | x :: r => spelled x /\ go r end.
  Lemma alln_all : forall l, alln l <-> Forall spelled l.
  Proof. induction l as [|x l IH]; cbn; split; auto; [intros [A B]; constructor; tauto|intros H; inversion H; subst; tauto]. Qed.
  Definition allp : list (node * node) -> Prop := fix go l := match l with [] => True | kv :: r => (spelled (fst kv) /\ spelled (snd kv)) /\ go r end.
  Lemma allp_all : forall l, allp l <-> Forall (fun kv => spelled (fst kv) /\ spelled (snd kv)) l.
  Proof. induction l as [|x l IH]; cbn; split; auto; [intros [A B]; constructor; tauto|intros H; inversion H; subst; tauto]. Qed.
  Lemma ok_app : forall a b, ok (a ++ b) <-> ok a /\ ok b.
  Proof. intros. apply Forall_app. Qed.
  Lemma ok_cons : forall w a, ok (w :: a) <-> word_ok w /\ ok a.
  Proof. intros w a. split; [intros H; inversion H; auto|intros []; constructor; auto]. Qed.
  Lemma ok_op : forall o a, ok (wop o :: a) <-> ok a.
  Proof. intros o a. rewrite ok_cons. split; [tauto|split; auto; reflexivity]. Qed.
  Lemma ok_br : forall b a, ok (wbr b :: a) <-> ok a.
  Proof. intros o a. rewrite ok_cons. split; [tauto|split; auto; reflexivity]. Qed.
  Lemma ok_nil : ok [] <-> True.
  Proof. split; auto. Qed.
  Lemma ok_one : forall w, ok [w] <-> word_ok w.
  Proof. intros w. rewrite ok_cons, ok_nil. tauto. Qed.
  Lemma ok_seps : forall A (f : A -> list word) l, ok (seps comma (map f l)) <-> Forall (fun x => ok (f x)) l.
  Proof.
    intros A f. induction l as [|x l IH]; [split; constructor|]. destruct l as [|y l]; [cbn; split; [repeat constructor; auto|intros H; inversion H; auto]|].
    change (seps comma (map f (x :: y :: l))) with (f x ++ wop OpComma :: seps comma (map f (y :: l))). rewrite ok_app, ok_op, IH. split; [intros []; constructor; auto|intros H; inversion H; auto].
  Qed.
  Lemma forall_iff : forall A (P Q : A -> Prop) l, Forall (fun x => P x <-> Q x) l -> (Forall P l <-> Forall Q l).
  Proof. intros A P Q l H. induction H as [|x l Hx Hl IH]; [split; constructor|]. split; intros K; inversion K; subst; constructor; tauto. Qed.
  Definition spells (n : node) : Prop := forall d c p f, can n d c p f -> (ok (words nt n) <-> spelled n).
  Lemma spells_list : forall l b d, Forall (fun n => spells n /\ body_ok spells n) l -> Forall (subl pn hr FStandard nt d b) l -> (ok (seps comma (map (words nt) l)) <-> alln l).
  Proof. intros l b d H C. rewrite ok_seps, alln_all. apply forall_iff. eapply both; [exact H|exact C|]. intros x [T0 _] [Cx _]. eapply T0. exact Cx. Qed.
  Lemma spells_all : forall n, spells n /\ body_ok spells n.
  Proof.
    induction n using node_ind'; (split; [|try exact I; try exact (proj1 IHn)]);
      repeat match goal with IH : spells _ /\ _ |- _ => destruct IH as [IH _] end;
      intros d0 c0 p0 f0 HC; try (destruct HC; fail); cbn [words].
    - rewrite ok_one. cbn. tauto.
    - rewrite ok_one. cbn. tauto.
    - rewrite ok_one. cbn. tauto.
    - rewrite ok_one. cbn. tauto.
    - rewrite ok_cons. cbn. tauto.
    - rewrite ok_one. cbn. tauto.
    - apply can_array in HC as [_ HC]. rewrite ok_br, ok_app, ok_br, ok_nil. cbn [spelled]. pose proof (spells_list _ _ _ H HC) as E. unfold alln in E. tauto.
    - apply can_object in HC as [_ HC]. rewrite ok_br, ok_app, ok_br, ok_nil, ok_seps. change (spelled (NObject l)) with (allp l). rewrite allp_all.
      assert (E : forall P Q : Prop, (P <-> Q) -> (P /\ True <-> Q)) by tauto. apply E. clear E. apply forall_iff. eapply both; [exact H|exact HC|].
      intros kv [[Ha _] [Hb _]] [[Ca _] Cb]. rewrite ok_app, ok_op, (Hb _ _ _ _ Cb). rewrite <- (Ha _ _ _ _ Ca). destruct (fst kv); try (rewrite ok_br, ok_app, ok_br, ok_nil; tauto). tauto.
    - rewrite ok_one. reflexivity.
    - rewrite ok_br, ok_app, ok_br, ok_nil. pose proof (IHn _ _ _ _ HC). cbn [spelled]. tauto.
    - rewrite ok_one. cbn. tauto.
    - destruct HC as (_ & A & B). rewrite ok_app. cbn [spelled]. pose proof (IHn1 _ _ _ _ A). pose proof (IHn2 _ _ _ _ B).
      assert (E : forall w, ok (wbr LSquare :: w ++ [wbr RSquare]) <-> ok w) by (intros w; rewrite ok_br, ok_app, ok_br, ok_nil; tauto).
      destruct n2; try (rewrite E; tauto). destruct (plain_name s) eqn:Ps; [rewrite ok_op, ok_one; cbn; tauto|]. rewrite E. cbn [words spelled] in *. tauto.
    - destruct HC as (_ & A & B & C). rewrite ok_app, ok_br, ok_app, ok_op, ok_app, ok_br, ok_nil. cbn [spelled]. pose proof (IHn _ _ _ _ A).
      assert (Ef : ok match f with Some x => words nt x | None => [] end <-> match f with Some x => spelled x | None => True end) by (destruct f; [cbn in H; exact (proj1 H _ _ _ _ B)|apply ok_nil]).
      assert (Et : ok match t with Some x => words nt x | None => [] end <-> match t with Some x => spelled x | None => True end) by (destruct t; [cbn in H0; exact (proj1 H0 _ _ _ _ (proj1 C))|apply ok_nil]).
      tauto.
    - destruct HC as (_ & A & B & _). rewrite ok_br, ok_app, ok_op, ok_app, ok_br, ok_nil. cbn [spelled]. pose proof (IHn1 _ _ _ _ A). pose proof (IHn2 _ _ _ _ B). tauto.
    - destruct HC as (_ & _ & A & B & C). rewrite ok_app, ok_op, ok_app, ok_op. cbn [spelled]. pose proof (IHn1 _ _ _ _ A). pose proof (IHn2 _ _ _ _ B). pose proof (IHn3 _ _ _ _ C). tauto.
    - destruct HC as (u & _ & _ & B). rewrite ok_op. cbn [spelled]. exact (IHn _ _ _ _ B).
    - destruct HC as (q & la & _ & _ & _ & _ & B & C). rewrite ok_app, ok_op. cbn [spelled]. pose proof (IHn1 _ _ _ _ B). pose proof (IHn2 _ _ _ _ C). tauto.
    - destruct k.
      + apply all_args in HC. rewrite ok_cons, ok_br, ok_app, ok_br, ok_nil. pose proof (spells_list _ _ _ H HC) as E. cbn [spelled]. unfold alln in E. cbn [word_ok]. tauto.
      + destruct HC as [_ HC]. apply all_args in HC. rewrite ok_cons, ok_br, ok_app, ok_br, ok_nil. pose proof (spells_list _ _ _ H HC) as E. cbn [spelled]. unfold alln in E. cbn [word_ok]. tauto.
      + destruct l as [|x [|y [|z l]]]; try (destruct HC; fail); destruct y; try (destruct HC; fail).
        destruct HC as [A B]. inversion H as [|? ? [Hx _] Hl]; subst. inversion Hl as [|? ? [_ Hb] _]; subst. cbn [body_ok] in Hb.
        rewrite ok_cons, ok_br, ok_app, ok_app. unfold comma. rewrite ok_op, ok_app, ok_br, ok_nil. cbn [spelled]. pose proof (Hx _ _ _ _ A). pose proof (Hb _ _ _ _ B). cbn [word_ok].
        assert (E : ok match alias with Some a => [WTok KLiteral "as"; WTok KLiteral a] | None => [] end <-> match alias with Some a => plain_name a = true | None => True end).
        { destruct alias; [|apply ok_nil]. rewrite ok_cons, ok_one. cbn [word_ok]. split; [tauto|split; [reflexivity|tauto]]. }
        tauto.
    - apply can_method in HC as (_ & A & _ & C). rewrite ok_app, ok_op, ok_cons, ok_br, ok_app, ok_br, ok_nil. cbn [spelled word_ok]. pose proof (IHn _ _ _ _ A). pose proof (spells_list _ _ _ H C) as E.
      unfold alln in E. tauto.
  Qed.
  Lemma each_true : forall A (g : (list nat -> bool) -> A -> A) (Q : A -> Prop) l pick i, Forall (fun x => forall pk, Q x -> Q (g pk x)) l -> Forall Q l -> Forall Q (drop_each g pick i l).
  Proof. intros A g Q l. induction l as [|x l IH]; intros pick i H K; cbn; constructor; inversion H; inversion K; subst; auto. Qed.
  Lemma spelled_drop : forall n pick, spelled n -> spelled (drop pick n).
  Proof.
    assert (L : forall l pick i, Forall (fun n => forall pick, spelled n -> spelled (drop pick n)) l -> alln l -> alln (drop_each drop pick i l)).
    { intros l pick i H K. apply alln_all. apply alln_all in K. apply each_true; auto. }
    induction n using node_ind'; intros pick S0; cbn [drop]; auto.
    - change (alln (drop_each drop pick 0 l)). apply L; auto.
    - change (allp (drop_each (fun pick kv => (drop (fun q => pick (0 :: q)) (fst kv), drop (fun q => pick (1 :: q)) (snd kv))) pick 0 l)). apply allp_all. change (allp l) in S0. apply allp_all in S0. apply each_true; auto.
      eapply Forall_impl; [|exact H]. intros [a b] [Ha Hb] pk [Sa Sb]. cbn in *. auto.
    - destruct S0 as [A B]. split; auto.
    - destruct (pick []); [apply IHn; exact S0|cbn [spelled]; apply IHn; exact S0].
    - destruct S0 as [A B]. split; auto.
      assert (C : match drop (fun q => pick (1 :: q)) n2 with NString s => if plain_name s then True else word_ok (WStr (quote_for s) s) | _ => True end).
      { destruct (is_paren n2) eqn:Ep; [|destruct n2; try discriminate Ep; try exact I; exact B]. assert (S2 : spelled n2) by (destruct n2; try discriminate Ep; exact B).
        pose proof (IHn2 (fun q => pick (1 :: q)) S2) as K. destruct (drop _ n2); try exact I. destruct (plain_name s); [exact I|exact K]. }
      destruct (drop (fun q => pick (1 :: q)) n2) eqn:E; try exact C;
        (assert (K : spelled (drop (fun q => pick (1 :: q)) n2) \/ exists s, n2 = NString s) by (destruct n2; eauto; left; apply IHn2; exact B)); (destruct K as [K|[s0 ->]]; [rewrite E in K; exact K|discriminate E]).
    - destruct S0 as (A & B & C). split; auto. split; [destruct f; [cbn in H; auto|exact I]|destruct t; [cbn in H0; auto|exact I]].
    - destruct S0 as [A B]. split; auto.
    - destruct S0 as (A & B & C). split; auto.
    - cbn [spelled] in *. auto.
    - destruct S0 as [A B]. split; auto.
    - destruct S0 as [A B]. split; auto. change (alln (drop_each drop pick 0 l)). apply L; auto.
    - destruct S0 as (A & B & C). split; auto. split; auto. change (alln (drop_each drop (fun q => pick (1 :: q)) 0 l)). apply L; auto.
  Qed.
  Lemma ok_drop : forall n pick d c p f, can n d c p f -> can (drop pick n) d c p f -> ok (words nt n) -> ok (words nt (drop pick n)).
  Proof. intros n pick d c p f A B W. apply (proj1 (spells_all _) _ _ _ _ B). apply spelled_drop. apply (proj1 (spells_all _) _ _ _ _ A). exact W. Qed.
End Spelled.

Theorem drop_reads : forall pn nt n pick, canon nt pn (has_range (spell (words nt n))) FStandard n 0 CxGlobal 0 0 -> calm n = true -> opening n = true -> picks pick (paren_hints n) ->
  canon nt pn (has_range (spell (words nt (drop pick n)))) FStandard (drop pick n) 0 CxGlobal 0 0.
Proof.
  intros pn nt n pick C K Op P. pose proof (drop_can _ _ _ n pick C K Op P) as D0. pose proof (range_drop _ _ _ n pick _ _ _ _ C D0) as E. unfold hrs in E. rewrite E. exact D0.
Qed.
Theorem drop_words : forall pn nt n pick, canon nt pn (has_range (spell (words nt n))) FStandard n 0 CxGlobal 0 0 -> calm n = true -> opening n = true -> picks pick (paren_hints n) ->
  Forall word_ok (words nt n) -> Forall word_ok (words nt (drop pick n)).
Proof. intros pn nt n pick C K Op P. eapply ok_drop; [exact C|]. apply drop_can; auto. Qed.
