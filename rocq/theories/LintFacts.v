(** Facts about the hints on decision tables. *)
From Coq Require Import String Bool List Arith Lia Permutation.
From Verif Require Import Base Dec Value Heap Ast Ops Compiler Eval Funcs HeapSpec HeapFacts Isolate Session PureFacts Blocks BlocksSpec ContentFacts MemoFacts
  PTable PTableSpec PTableSel PTableRun Lint LintSpec.
From Verif Require Table.
Import ListNotations.
Local Open Scope string_scope.
Local Open Scope nat_scope.
Local Open Scope list_scope.

Lemma same_cells_eq : forall a b, same_cells a b = true <-> a = b.
Proof.
  induction a as [|x a IH]; intros [|y b]; cbn; split; try congruence; try discriminate.
  - intros H. apply andb_true_iff in H as [A B]. apply String.eqb_eq in A. apply IH in B. congruence.
  - intros H. injection H as <- <-. rewrite String.eqb_refl. now apply IH.
Qed.
Lemma shadow_map : forall A (f g : A -> string) l, cells_shadow (map f l) (map g l) = true <-> forall c, In c l -> f c = "" \/ f c = g c.
Proof.
  intros A f g. induction l as [|x l IH]; cbn; [split; auto; intros _ c []|]. rewrite andb_true_iff, orb_true_iff, !String.eqb_eq, IH. split.
  - intros [H K] c [<-|Hc]; auto.
  - intros H. split; auto.
Qed.
Lemma shadow_trans : forall A (f g k : A -> string) l, cells_shadow (map f l) (map g l) = true -> cells_shadow (map g l) (map k l) = true -> cells_shadow (map f l) (map k l) = true.
Proof.
  intros A f g k l. rewrite !shadow_map. intros H K c Hc. destruct (H c Hc) as [E|E]; [now left|]. destruct (K c Hc) as [F|F]; [left; congruence|right; congruence].
Qed.
Lemma map_eq_in : forall A B (f g : A -> B) l, map f l = map g l <-> forall c, In c l -> f c = g c.
Proof.
  intros A B f g. induction l as [|x l IH]; cbn; [split; auto; intros _ c []|]. split.
  - intros H. injection H as H K. intros c [<-|Hc]; auto. now apply IH.
  - intros H. f_equal; auto. apply IH. auto.
Qed.
Lemma bare_cell : forall r k, lint_cell r k = bare r k.
Proof. reflexivity. Qed.
Lemma shadows_asks : forall t e l, shadows (row_view t e) (row_view t l) = true <-> asks_less t e l.
Proof. intros t e l. unfold shadows. cbn. rewrite shadow_map. reflexivity. Qed.
Lemma first_hit_spec : forall t rows, first_hit t = Some rows -> one_hit t /\ rows = map (row_view t) (pt_rows t).
Proof.
  intros t rows H. unfold first_hit, one_hit in *. destruct (pt_out t) as [|o os] eqn:Eo; [discriminate|]. destruct (pt_in t) as [|c cs]; [discriminate|].
  destruct (existsb pc_collect (o :: os)) eqn:Ex; [discriminate|]. injection H as <-. split; auto. split; [discriminate|]. split; [discriminate|].
  intros p Hp. destruct (pc_collect p) eqn:Ep; auto. enough (existsb pc_collect (o :: os) = true) by congruence. apply existsb_exists. eauto.
Qed.
Lemma one_hit_first : forall t, one_hit t -> first_hit t = Some (map (row_view t) (pt_rows t)).
Proof.
  intros t (A & B & C). unfold first_hit. destruct (pt_out t) as [|o os] eqn:Eo; [congruence|]. destruct (pt_in t) as [|c cs]; [congruence|].
  destruct (existsb pc_collect (o :: os)) eqn:Ex; auto. apply existsb_exists in Ex as (p & Hp & Ep). rewrite C in Ep; [discriminate|exact Hp].
Qed.

(** *** Which rows are reported. *)
Lemma shadowed_some : forall l b i j, shadowed_by i b l = Some j ->
  i <= j /\ (exists e, nth_error b (j - i) = Some e /\ shadows e l = true) /\ forall j' e, j' < j - i -> nth_error b j' = Some e -> shadows e l = false.
Proof.
  intros l. induction b as [|e b IH]; intros i j H; cbn in H; [discriminate|]. destruct (shadows e l) eqn:Es.
  - injection H as <-. rewrite Nat.sub_diag. split; [lia|]. split; [cbn; eauto|]. intros. lia.
  - apply IH in H as (A & (x & B & C) & D). replace (j - i) with (S (j - S i)) by lia. split; [lia|]. split; [cbn; eauto|].
    intros [|j'] e' Lj E; cbn in E; [injection E as <-; auto|]. eapply D; [|exact E]. lia.
Qed.
Lemma shadowed_none : forall l b i, shadowed_by i b l = None -> forall j e, nth_error b j = Some e -> shadows e l = false.
Proof.
  intros l. induction b as [|e b IH]; intros i H j x E; [now destruct j|]. cbn in H. destruct (shadows e l) eqn:Es; [discriminate|].
  destruct j as [|j]; cbn in E; [injection E as <-; auto|]. eapply IH; eauto.
Qed.
Definition reports (all : list rview) (h : row_hint) : Prop :=
  exists e l, rh_earlier h < rh_row h /\ nth_error all (rh_row h) = Some l /\ nth_error all (rh_earlier h) = Some e /\ shadows e l = true /\
    (forall j e', j < rh_earlier h -> nth_error all j = Some e' -> shadows e' l = false) /\ rh_duplicate h = same_cells (rv_in e) (rv_in l) && same_cells (rv_out e) (rv_out l).
Lemma hints_from : forall rows before h, In h (row_hints_from (length before) before rows) <-> length before <= rh_row h /\ reports (before ++ rows) h.
Proof.
  induction rows as [|l rows IH]; intros before h.
  - cbn. split; [intros []|]. intros [A (e & l & _ & B & _)]. rewrite app_nil_r in B. apply nth_error_None in A. congruence.
  - cbn [row_hints_from]. rewrite in_app_iff. specialize (IH (before ++ [l]) h). rewrite app_length in IH. cbn [length] in IH. rewrite Nat.add_1_r in IH. rewrite IH, <- app_assoc. cbn [app].
    assert (Nl : nth_error (before ++ l :: rows) (length before) = Some l) by (rewrite nth_error_app2, Nat.sub_diag; auto).
    assert (Nb : forall j, j < length before -> nth_error (before ++ l :: rows) j = nth_error before j) by (intros; now rewrite nth_error_app1).
    destruct (shadowed_by 0 before l) as [j|] eqn:Es.
    + apply shadowed_some in Es as (_ & (e & Ee & Sh) & Lst). rewrite Nat.sub_0_r in *. assert (Lj : j < length before) by (apply nth_error_Some; congruence).
      rewrite (nth_error_nth _ _ (RView [] []) Ee). split.
      * intros [[<-|[]]|[A B]]; [|split; auto; lia]. cbn [rh_row]. split; [lia|]. exists e, l. cbn [rh_row rh_earlier rh_duplicate]. rewrite (Nb j Lj). split; [exact Lj|]. split; [exact Nl|]. split; [exact Ee|]. split; [exact Sh|]. split; [|reflexivity].
        intros j' e' L' E'. rewrite Nb in E' by lia. eapply Lst; eauto.
      * intros [A B]. destruct (Nat.eq_dec (rh_row h) (length before)) as [Eq|Ne]; [|right; split; auto; lia]. left. left.
        destruct B as (e1 & l1 & L1 & N1 & N2 & S1 & F1 & D1). rewrite Eq, Nl in N1. injection N1 as <-.
        rewrite Nb in N2 by lia. destruct h as [r q d]. cbn [rh_row rh_earlier rh_duplicate] in *. subst r.
        assert (q = j). { destruct (Nat.lt_trichotomy q j) as [Q|[Q|Q]]; auto; exfalso.
          - rewrite (Lst q e1 Q N2) in S1. discriminate.
          - rewrite (F1 j e Q) in Sh; [discriminate|]. now rewrite Nb. }
        subst q. assert (e1 = e) by congruence. subst e1. f_equal. auto.
    + pose proof (shadowed_none _ _ _ Es) as No. split.
      * intros [[]|[A B]]. split; auto. lia.
      * intros [A B]. right. split; auto. destruct (Nat.eq_dec (rh_row h) (length before)) as [Eq|Ne]; [|lia]. exfalso.
        destruct B as (e1 & l1 & L1 & N1 & N2 & S1 & _). rewrite Eq, Nl in N1. injection N1 as <-. rewrite Nb in N2 by lia. rewrite (No _ _ N2) in S1. discriminate.
Qed.
Lemma view_nth : forall t i v, nth_error (map (row_view t) (pt_rows t)) i = Some v -> exists r, nth_error (pt_rows t) i = Some r /\ v = row_view t r.
Proof.
  intros t i v H. rewrite nth_error_map in H. destruct (nth_error (pt_rows t) i) as [r|]; cbn in H; [|discriminate]. injection H as <-. eauto.
Qed.
Lemma hints_spec : forall t h, In h (row_hints t) <-> one_hit t /\ exists e l, rh_earlier h < rh_row h /\ nth_error (pt_rows t) (rh_row h) = Some l /\
  nth_error (pt_rows t) (rh_earlier h) = Some e /\ asks_less t e l /\ (forall j e', j < rh_earlier h -> nth_error (pt_rows t) j = Some e' -> ~ asks_less t e' l) /\
  (rh_duplicate h = true <-> same_row t e l).
Proof.
  intros t h. unfold row_hints. destruct (first_hit t) as [rows|] eqn:Ef.
  2:{ split; [intros []|]. intros [A _]. rewrite (one_hit_first _ A) in Ef. discriminate. }
  apply first_hit_spec in Ef as [O ->]. change 0 with (@length rview []). rewrite hints_from. cbn [app length]. unfold reports.
  assert (D : forall e l b, b = same_cells (rv_in (row_view t e)) (rv_in (row_view t l)) && same_cells (rv_out (row_view t e)) (rv_out (row_view t l)) <->
    (b = true <-> same_row t e l)).
  { intros e l b. unfold same_row. cbn [row_view rv_in rv_out].
    assert (Q : same_cells (map (fun c => lint_cell e (ic_id c)) (pt_in t)) (map (fun c => lint_cell l (ic_id c)) (pt_in t)) &&
      same_cells (map (fun o => lint_cell e (pc_id o)) (pt_out t)) (map (fun o => lint_cell l (pc_id o)) (pt_out t)) = true <->
      (forall c, In c (pt_in t) -> bare e (ic_id c) = bare l (ic_id c)) /\ (forall o, In o (pt_out t) -> bare e (pc_id o) = bare l (pc_id o))).
    { rewrite andb_true_iff, !same_cells_eq, !map_eq_in. reflexivity. }
    split; [intros ->; exact Q|]. intros H. destruct b, (same_cells _ _ && same_cells _ _); auto; [symmetry; apply Q, H; auto|]. apply H. apply Q. auto. }
  split.
  - intros [_ (e & l & A & B & C & S0 & F & G)]. apply view_nth in B as (l' & B & ->), C as (e' & C & ->). split; auto. exists e', l'. split; auto. split; auto. split; auto.
    split; [now apply shadows_asks|]. split; [|now apply D]. intros j x Lj Ex As. apply shadows_asks in As. rewrite (F j (row_view t x)) in As; [discriminate|auto|].
    now apply map_nth_error.
  - intros [_ (e & l & A & B & C & S0 & F & G)]. split; [lia|]. exists (row_view t e), (row_view t l). split; auto. split; [now apply map_nth_error|]. split; [now apply map_nth_error|].
    split; [now apply shadows_asks|]. split; [|now apply D]. intros j x Lj Ex. apply view_nth in Ex as (x' & Ex & ->). destruct (shadows _ _) eqn:Es; auto. apply shadows_asks in Es. exfalso. exact (F j x' Lj Ex Es).
Qed.

(** *** Cells of tidy tables. *)
Lemma tidy_text : forall t r k, tidy t -> In r (pt_rows t) -> cell_text k r = if String.eqb (bare r k) "" then None else Some (bare r k).
Proof.
  intros t r k T Hr. unfold cell_text, bare. destruct (aget k r) as [s|] eqn:E; auto. rewrite (T r k s Hr E). reflexivity.
Qed.
Lemma bare_text : forall t r r' k, tidy t -> In r (pt_rows t) -> In r' (pt_rows t) -> bare r k = bare r' k <-> cell_text k r = cell_text k r'.
Proof.
  intros t r r' k T A B. rewrite (tidy_text t r k T A), (tidy_text t r' k T B). destruct (String.eqb_spec (bare r k) ""), (String.eqb_spec (bare r' k) ""); split; congruence.
Qed.
Section Sem.
  Variable L : lib.
  Hypothesis HL : plain_lib L.
  Variable parse : ekind -> string -> res node.
  Notation X := (std_ext L).
  Section Ctx.
  Variables (h : heap) (ctx : value).
  Notation cell_says := (cell_says X parse h ctx).
  Notation row_says := (row_says X parse h ctx).
  Notation holds_row := (holds_row X parse h ctx).
  Lemma row_yes : forall cs r, row_says cs r = Some true <-> forall c, In c cs -> cell_says c r = Some true.
  Proof.
    induction cs as [|c cs IH]; intros r; cbn [PTableSpec.row_says]; [split; auto; intros _ c []|]. split.
    - destruct (cell_says c r) as [[]|] eqn:E; try discriminate. intros H d [<-|Hd]; auto. now apply IH.
    - intros H. rewrite (H c (or_introl eq_refl)). apply IH. intros d Hd. apply H. now right.
  Qed.
  Lemma holds_yes : forall t r, holds_row t r = true <-> forall c, In c (pt_in t) -> cell_says c r = Some true.
  Proof.
    intros t r. rewrite <- row_yes. unfold PTableSpec.holds_row. destruct (row_says (pt_in t) r) as [[]|]; split; congruence.
  Qed.
  Lemma same_text : forall c r r', cell_text (ic_id c) r = cell_text (ic_id c) r' -> cell_says c r = cell_says c r'.
  Proof. intros c r r' E. unfold PTableSpec.cell_says. now rewrite E. Qed.
  Lemma no_text : forall c r, cell_text (ic_id c) r = None -> cell_says c r = Some true.
  Proof. intros c r E. unfold PTableSpec.cell_says. now rewrite E. Qed.
  Lemma asks_cell : forall t e l c, tidy t -> In e (pt_rows t) -> In l (pt_rows t) -> bare e (ic_id c) = "" \/ bare e (ic_id c) = bare l (ic_id c) ->
    cell_says c l = Some true -> cell_says c e = Some true.
  Proof.
    intros t e l c T He Hl [E|E] H.
    - apply no_text. rewrite (tidy_text t e _ T He), E. reflexivity.
    - rewrite <- H. apply same_text. now apply (bare_text t).
  Qed.
  Lemma asks_holds : forall t e l, tidy t -> In e (pt_rows t) -> In l (pt_rows t) -> asks_less t e l -> holds_row t l = true -> holds_row t e = true.
  Proof. intros t e l T He Hl A. rewrite !holds_yes. intros H c Hc. eapply asks_cell; eauto. Qed.
  End Ctx.

  (** *** Tables that say the same. *)
  Lemma shows_once : forall h v k a b, shows h v k a -> shows h v k b -> a = b.
  Proof. intros h v k a b (u & E & R) (u2 & E2 & R2). rewrite E in E2. injection E2 as <-. eapply repr_fun; eauto. Qed.
  Lemma agree : forall t t' w, in_step w -> plain_table parse t -> plain_table parse t' -> one_hit t -> pt_out t' = pt_out t ->
    let ctx := pw_env w in let h := pw_heap (bind_env w) in
    smooth X parse h ctx t -> smooth X parse h ctx t' ->
    (forall o, In o (active t) -> hd_error (sources X parse h ctx t' o) = hd_error (sources X parse h ctx t o)) ->
    same_effect X parse t t' w.
  Proof.
    intros t t' w W P P' O Eo ctx h S1 S2 Hd arrange extras w1 w2 q1 q2 Pm R1 R2.
    assert (Ea : active t' = active t) by (unfold active; now rewrite Eo).
    destruct (table_spec L HL parse arrange extras t w w1 q1 Pm W P (or_intror (or_intror S1)) R1) as (_ & _ & _ & K1 & D1).
    destruct (table_spec L HL parse arrange extras t' w w2 q2 Pm W P' (or_intror (or_intror S2)) R2) as (_ & _ & _ & K2 & D2).
    fold ctx h in D1, D2.
    assert (Cs : forall o x, In o (active t) -> column_says X parse h ctx t' o x <-> column_says X parse h ctx t o x).
    { intros o x Ho. specialize (Hd o Ho). unfold column_says. destruct O as (_ & _ & Nc). rewrite Nc by (apply active_in in Ho; tauto).
      destruct (sources X parse h ctx t' o), (sources X parse h ctx t o); cbn in Hd; try discriminate; [tauto|]. injection Hd as <-. tauto. }
    assert (Sm : forall s, smooth X parse h ctx s -> forall r, In r (pt_rows s) -> row_says X parse h ctx (pt_in s) r <> None).
    { intros s Ss r Hr. specialize (Ss). assert (Z : forall c, In c (pt_in s) -> cell_says X parse h ctx c r <> None) by (intros; now apply Ss). clear Ss. revert Z.
      induction (pt_in s) as [|c cs IH]; intros Z; cbn [row_says]; [discriminate|]. destruct (cell_says X parse h ctx c r) as [[]|] eqn:E; try discriminate.
      - apply IH. intros d Hd'. apply Z. now right.
      - exfalso. exact (Z c (or_introl eq_refl) E). }
    assert (F : forall s, smooth X parse h ctx s -> fails X parse h ctx s -> exists o, In o (active s) /\ forall x, ~ column_says X parse h ctx s o x).
    { intros s Ss [(i & r & A & _ & B)|Z]; auto. exfalso. apply (Sm s Ss r); auto. eapply nth_error_In; eauto. }
    assert (Ff : table_fields t' = table_fields t) by (unfold table_fields; now rewrite Ea).
    destruct q1 as [l1|e1], q2 as [l2|e2].
    - split; [split; eauto|]. intros _ k x. destruct D1 as (_ & D1 & _), D2 as (_ & D2 & _). destruct (in_dec string_dec k (table_fields t)) as [Hk|Hk].
      2:{ rewrite (K1 k x Hk), (K2 k x); [tauto|]. now rewrite Ff. }
      apply in_map_iff in Hk as (o & <- & Ho). destruct (D1 o Ho) as (x1 & C1 & V1). destruct (D2 o) as (x2 & C2 & V2); [now rewrite Ea|]. apply Cs in C2; auto.
      pose proof (column_once _ _ _ _ _ _ _ _ C1 C2) as <-. split; intros Z; [rewrite (shows_once _ _ _ _ _ Z V1)|rewrite (shows_once _ _ _ _ _ Z V2)]; auto.
    - exfalso. destruct D1 as (_ & D1 & _). apply F in D2 as (o & Ho & No); auto. rewrite Ea in Ho. destruct (D1 o Ho) as (x & C & _). apply (No x). now apply Cs.
    - exfalso. destruct D2 as (_ & D2 & _). apply F in D1 as (o & Ho & No); auto. destruct (D2 o) as (x & C & _); [now rewrite Ea|]. apply (No x). now apply Cs.
    - split; [split; intros [l Z]; discriminate|]. intros [l Z]; discriminate.
  Qed.

  (** *** Without rows. *)
  Lemma keep_in : forall ks rs i r, In r (keep_rows i ks rs) -> In r rs.
  Proof. intros ks. induction rs as [|x rs IH]; intros i r H; cbn in H; [contradiction|]. destruct (existsb (Nat.eqb i) ks); [right; eauto|]. destruct H; [now left|right; eauto]. Qed.
  Lemma in_ks : forall i ks, existsb (Nat.eqb i) ks = true <-> In i ks.
  Proof. intros i ks. rewrite existsb_exists. split; [intros (x & A & B); apply Nat.eqb_eq in B; congruence|]. intros H. exists i. split; auto. apply Nat.eqb_refl. Qed.
  Lemma keep_head : forall A (f : row -> list A) ks rs i,
    (forall k r, nth_error rs k = Some r -> In (i + k) ks -> f r <> [] -> exists j e, j < k /\ ~ In (i + j) ks /\ nth_error rs j = Some e /\ f e <> []) ->
    hd_error (flat_map f (keep_rows i ks rs)) = hd_error (flat_map f rs).
  Proof.
    intros A f ks. induction rs as [|r rs IH]; intros i H; cbn [keep_rows flat_map]; auto.
    assert (Tl : f r = [] -> hd_error (flat_map f (keep_rows (S i) ks rs)) = hd_error (flat_map f rs)).
    { intros E. apply IH. intros k x Ex Hk Nf. destruct (H (S k) x Ex) as (j & e & Lj & Nj & Ej & Fe); auto; [now rewrite Nat.add_succ_r|].
      destruct j as [|j]; [cbn in Ej; injection Ej as <-; congruence|]. exists j, e. split; [lia|]. rewrite Nat.add_succ_r in Nj. auto. }
    destruct (existsb (Nat.eqb i) ks) eqn:Ei.
    - destruct (f r) as [|x l] eqn:Ef; [cbn; now apply Tl|]. exfalso. apply in_ks in Ei. destruct (H 0 r eq_refl) as (j & _ & Lj & _); [now rewrite Nat.add_0_r|congruence|lia].
    - cbn [flat_map]. destruct (f r) as [|x l] eqn:Ef; cbn; auto.
  Qed.
  Lemma plain_rows : forall t t', pt_in t' = pt_in t -> pt_out t' = pt_out t -> (forall r, In r (pt_rows t') -> In r (pt_rows t)) -> plain_table parse t -> plain_table parse t'.
  Proof.
    intros t t' Ei Eo Er [P1 P2 P3 P4 P5 P6 P7]. assert (Ea : active t' = active t) by (unfold active; now rewrite Eo).
    assert (Ef : table_fields t' = table_fields t) by (unfold table_fields; now rewrite Ea). constructor; rewrite ?Eo, ?Ef, ?Ei, ?Ea; eauto.
  Qed.
  Definition safe_hint (t : ptable) (h : row_hint) : Prop :=
    rh_duplicate h = true \/ exists e, nth_error (pt_rows t) (rh_earlier h) = Some e /\ full_row t e.
  Lemma rows_effect : forall t ks w, in_step w -> plain_table parse t -> tidy t -> smooth X parse (pw_heap (bind_env w)) (pw_env w) t ->
    (forall k, In k ks -> exists h, In h (row_hints t) /\ rh_row h = k /\ safe_hint t h) -> (exists k, In k ks) -> same_effect X parse t (without_rows ks t) w.
  Proof.
    intros t ks w W P T S0 H [k0 Hk0]. assert (O : one_hit t) by (destruct (H k0 Hk0) as (h & A & _); apply hints_spec in A; tauto).
    assert (Sub : forall r, In r (pt_rows (without_rows ks t)) -> In r (pt_rows t)) by (intros r; apply keep_in).
    apply agree; auto; [apply (plain_rows t); auto|intros c r Hc Hr; apply S0; auto|]. intros o Ho. unfold sources. cbn [without_rows pt_rows].
    set (f := fun r => if holds_row X parse (pw_heap (bind_env w)) (pw_env w) t r then match cell_text (pc_id o) r with Some src => [src] | None => [] end else []).
    change (hd_error (flat_map f (keep_rows 0 ks (pt_rows t))) = hd_error (flat_map f (pt_rows t))). apply keep_head. intros k r Er Hk Nf. cbn [Nat.add] in Hk.
    destruct (H k Hk) as (g & Hg & <- & Sg). apply hints_spec in Hg as (_ & e & l & Lt & El & Ee & As & Fst & Dup). rewrite El in Er. injection Er as <-.
    exists (rh_earlier g), e. split; auto. pose proof (nth_error_In _ _ El) as Il. pose proof (nth_error_In _ _ Ee) as Ie. split; [|split; auto].
    - cbn [Nat.add]. intros Bad. destruct (H _ Bad) as (g2 & Hg2 & E2 & _). apply hints_spec in Hg2 as (_ & e2 & l2 & Lt2 & El2 & Ee2 & As2 & _).
      rewrite E2 in *. rewrite Ee in El2. injection El2 as <-. apply (Fst _ _ Lt2 Ee2). apply shadows_asks. unfold shadows. cbn [row_view rv_in].
      eapply shadow_trans; [apply (proj2 (shadows_asks t e2 e) As2)|apply (proj2 (shadows_asks t e l) As)].
    - unfold f in *. destruct (holds_row X parse (pw_heap (bind_env w)) (pw_env w) t l) eqn:Hl; [|congruence]. rewrite (asks_holds _ _ t e l T Ie Il As Hl).
      destruct Sg as [Sd|(e' & Ee' & Fu)].
      + apply Dup in Sd as [_ Sd]. rewrite (proj1 (bare_text t e l (pc_id o) T Ie Il)); auto. apply Sd. apply active_in in Ho. tauto.
      + rewrite Ee in Ee'. injection Ee' as <-. specialize (Fu o Ho). destruct (cell_text (pc_id o) e); congruence.
  Qed.

  (** *** Without a column. *)
  Lemma drop_split : forall A k (l : list A), drop_nth k l = firstn k l ++ skipn (S k) l.
  Proof. intros A. induction k as [|k IH]; intros [|x l]; cbn; auto. now rewrite IH. Qed.
  Lemma drop_map : forall A B (f : A -> B) k l, drop_nth k (map f l) = map f (drop_nth k l).
  Proof. intros A B f. induction k as [|k IH]; intros [|x l]; cbn; auto. now rewrite IH. Qed.
  Lemma drop_in : forall A k (l : list A) c x, nth_error l k = Some c -> (In x l <-> x = c \/ In x (drop_nth k l)).
  Proof.
    intros A. induction k as [|k IH]; intros [|y l] c x E; cbn in *; try discriminate; [injection E as ->; split; intuition auto|].
    rewrite (IH l c x E). intuition auto.
  Qed.
  Lemma drop_sub : forall A k (l : list A) x, In x (drop_nth k l) -> In x l.
  Proof. intros A. induction k as [|k IH]; intros [|y l] x H; cbn in *; auto. destruct H; auto. Qed.
  Lemma column_in : forall k t, pt_in (without_column k t) = drop_nth k (pt_in t).
  Proof. intros. cbn. now rewrite drop_split. Qed.
  Lemma col_sub : forall k t c, In c (pt_in (without_column k t)) -> In c (pt_in t).
  Proof. intros k t c. rewrite column_in. apply drop_sub. Qed.
  Lemma plain_column : forall k t, plain_table parse t -> plain_table parse (without_column k t).
  Proof.
    intros k t [P1 P2 P3 P4 P5 P6 P7]. constructor; auto; cbn [pt_out pt_rows without_column].
    - intros c f Hc. apply P4. eapply col_sub; eauto.
    - intros c r src Hc. apply P5. eapply col_sub; eauto.
    - intros c r src Hc. apply P6. eapply col_sub; eauto.
  Qed.
  Lemma holds_column : forall h ctx k t c r, nth_error (pt_in t) k = Some c ->
    (holds_row X parse h ctx t r = true <-> cell_says X parse h ctx c r = Some true /\ holds_row X parse h ctx (without_column k t) r = true).
  Proof.
    intros h ctx k t c r Ec. rewrite !holds_yes, column_in. split.
    - intros H. split; [apply H; eapply nth_error_In; eauto|]. intros d Hd. apply H. eapply drop_sub; eauto.
    - intros [A B] d Hd. apply (drop_in _ _ _ _ _ Ec) in Hd as [->|Hd]; auto.
  Qed.
  Lemma col_hints_in : forall rows n c k b, In (k, b) (col_hints_from rows c n) -> c <= k < c + n /\
    if b then no_conditions rows k = true else no_conditions rows k = false /\ never_affects rows k = true.
  Proof.
    intros rows. induction n as [|n IH]; intros c k b H; cbn in H; [contradiction|]. apply in_app_or in H as [H|H].
    - destruct (no_conditions rows c) eqn:E; [destruct H as [H|[]]; injection H as <- <-; split; [lia|auto]|].
      destruct (never_affects rows c) eqn:E2; [|contradiction]. destruct H as [H|[]]; injection H as <- <-; split; [lia|auto].
    - apply IH in H as [A B]. split; [lia|auto].
  Qed.
  Lemma col_hint : forall t k b, In (k, b) (col_hints t) -> one_hit t /\ exists c, nth_error (pt_in t) k = Some c /\
    let rows := map (row_view t) (pt_rows t) in if b then no_conditions rows k = true else no_conditions rows k = false /\ never_affects rows k = true.
  Proof.
    intros t k b H. unfold col_hints in H. destruct (first_hit t) as [rows|] eqn:Ef; [|contradiction]. apply first_hit_spec in Ef as [O ->]. split; auto.
    destruct (_ <? 2); [contradiction|]. apply col_hints_in in H as [A B]. destruct (nth_error (pt_in t) k) as [c|] eqn:Ec; [eauto|]. apply nth_error_None in Ec. lia.
  Qed.
  Lemma col_cell_at : forall t k c r, nth_error (pt_in t) k = Some c -> col_cell k (row_view t r) = bare r (ic_id c).
  Proof. intros t k c r E. unfold col_cell. cbn [row_view rv_in]. apply nth_error_nth. now apply (map_nth_error (fun c => lint_cell r (ic_id c))). Qed.
  Lemma no_cond_in : forall rows n c k, c <= k < c + n -> no_conditions rows k = true -> In (k, true) (col_hints_from rows c n).
  Proof.
    intros rows. induction n as [|n IH]; intros c k H E; [lia|]. cbn [col_hints_from]. apply in_or_app. destruct (Nat.eq_dec k c) as [->|Ne].
    - left. rewrite E. now left.
    - right. apply IH; auto. lia.
  Qed.
  Lemma col_true : forall t k, In (k, true) (col_hints t) <-> one_hit t /\ 2 <= length (pt_rows t) /\ exists c, nth_error (pt_in t) k = Some c /\
    forall r, In r (pt_rows t) -> bare r (ic_id c) = "".
  Proof.
    intros t k. split.
    - intros H. pose proof (col_hint t k true H) as (O & c & Ec & No). split; auto. split.
      + unfold col_hints in H. rewrite (one_hit_first t O) in H. destruct (Nat.ltb_spec (length (map (row_view t) (pt_rows t))) 2) as [Lt|Ge]; [contradiction|]. now rewrite map_length in Ge.
      + exists c. split; auto. intros r Hr. unfold no_conditions in No. rewrite forallb_forall in No. specialize (No _ (in_map (row_view t) _ _ Hr)). apply String.eqb_eq in No.
        now rewrite (col_cell_at t k c r Ec) in No.
    - intros (O & Ln & c & Ec & No). unfold col_hints. rewrite (one_hit_first t O), map_length. destruct (Nat.ltb_spec (length (pt_rows t)) 2) as [Lt|Ge]; [lia|].
      apply no_cond_in; [split; [lia|]; apply nth_error_Some; congruence|]. unfold no_conditions. apply forallb_forall. intros v Hv. apply in_map_iff in Hv as (r & <- & Hr).
      rewrite (col_cell_at t k c r Ec), (No r Hr). reflexivity.
  Qed.
  Lemma column_effect : forall t k w, in_step w -> plain_table parse t -> tidy t -> smooth X parse (pw_heap (bind_env w)) (pw_env w) t ->
    In (k, true) (col_hints t) -> same_effect X parse t (without_column k t) w.
  Proof.
    intros t k w W P T S0 H. apply col_hint in H as (O & c & Ec & No). apply agree; auto; [now apply plain_column|intros d r Hd Hr; apply S0; auto; eapply col_sub; eauto|].
    intros o Ho. f_equal. unfold sources. cbn [without_column pt_rows]. rewrite !flat_map_concat_map. f_equal. apply map_ext_in. intros r Hr.
    assert (Cs : cell_says X parse (pw_heap (bind_env w)) (pw_env w) c r = Some true).
    { apply no_text. unfold no_conditions in No. rewrite forallb_forall in No. specialize (No _ (in_map (row_view t) _ _ Hr)). apply String.eqb_eq in No.
      rewrite (col_cell_at t k c r Ec) in No. rewrite (tidy_text t r _ T Hr), No. reflexivity. }
    pose proof (holds_column (pw_heap (bind_env w)) (pw_env w) k t c r Ec) as Hc. change (PTbl _ _ _) with (without_column k t).
    destruct (holds_row X parse (pw_heap (bind_env w)) (pw_env w) t r), (holds_row X parse (pw_heap (bind_env w)) (pw_env w) (without_column k t) r); auto;
      [destruct Hc as [Hc _]; destruct (Hc eq_refl); discriminate|destruct Hc as [_ Hc]; discriminate Hc; auto].
  Qed.

  (** *** Groups. *)
  Definition grouped (c : nat) (done : list rview) (gs : list (list string * list nat)) : Prop :=
    NoDup (map fst gs) /\ (forall i r, nth_error done i = Some r -> exists m, In (drop_nth c (rv_in r), m) gs /\ In i m) /\
    forall key m, In (key, m) gs -> forall i, In i m -> exists r, nth_error done i = Some r /\ drop_nth c (rv_in r) = key.
  Lemma put_in : forall key i gs k m, NoDup (map fst gs) -> (In (k, m) (put_group key i gs) <->
    (k <> key /\ In (k, m) gs) \/ (k = key /\ ((exists m0, In (key, m0) gs /\ m = m0 ++ [i]) \/ (~ In key (map fst gs) /\ m = [i])))).
  Proof.
    intros key i. induction gs as [|[k0 m0] gs IH]; intros k m N; cbn [put_group].
    - cbn. split; [intros [H|[]]; injection H as <- <-; right; split; auto|]. intros [[_ []]|[-> [(m0 & [] & _)|[_ ->]]]]. now left.
    - inversion N as [|? ? Nk Nr]; subst. destruct (same_cells k0 key) eqn:Es.
      + apply same_cells_eq in Es. subst k0. cbn. split.
        * intros [H|H]; [injection H as <- <-; right; split; auto; left; exists m0; auto|]. left. split; auto. intros ->. apply Nk. apply (in_map fst) in H. exact H.
        * intros [[A [B|B]]|[-> [(m1 & [B|B] & ->)|[B ->]]]]; auto.
          -- injection B as <- <-. congruence.
          -- injection B as <-. now left.
          -- exfalso. apply Nk. apply (in_map fst) in B. exact B.
          -- exfalso. apply B. now left.
      + assert (Ne : k0 <> key) by (intros ->; rewrite (proj2 (same_cells_eq key key) eq_refl) in Es; discriminate). cbn [In]. rewrite (IH k m Nr). cbn [map fst In]. split.
        * intros [H|[[A B]|[-> [(m1 & B & ->)|[B ->]]]]]; [injection H as <- <-; left; auto|left; auto|right; split; auto; left; eauto|right; split; auto; right; split; auto; intros [Z|Z]; auto].
        * intros [[A [B|B]]|[-> [(m1 & [B|B] & ->)|[B ->]]]].
          -- now left.
          -- right. left. auto.
          -- injection B as <- <-. congruence.
          -- right. right. split; [auto|]. left. eauto.
          -- right. right. split; [auto|]. right. split; [|auto]. intros Z. apply B. now right.
  Qed.
  Lemma put_nodup : forall key i gs, NoDup (map fst gs) -> NoDup (map fst (put_group key i gs)).
  Proof.
    intros key i. induction gs as [|[k0 m0] gs IH]; intros N; cbn [put_group]; [cbn; repeat constructor; auto|]. inversion N as [|? ? Nk Nr]; subst. destruct (same_cells k0 key) eqn:Es; [exact N|].
    cbn [map fst]. constructor; auto. intros H. apply in_map_iff in H as ([k m] & E & H). cbn in E. subst k. apply put_in in H as [[A B]|[-> _]]; auto.
    - apply Nk. apply (in_map fst) in B. exact B.
    - rewrite (proj2 (same_cells_eq key key) eq_refl) in Es. discriminate.
  Qed.
  Lemma groups_ok : forall c rows done gs, grouped c done gs -> grouped c (done ++ rows) (groups_from c (length done) rows gs).
  Proof.
    intros c. induction rows as [|r rows IH]; intros done gs G; cbn [groups_from]; [now rewrite app_nil_r|].
    replace (done ++ r :: rows) with ((done ++ [r]) ++ rows) by now rewrite <- app_assoc.
    replace (S (length done)) with (length (done ++ [r])) by (rewrite app_length; cbn; lia). apply IH. destruct G as (N & A & B).
    set (key := drop_nth c (rv_in r)). split; [now apply put_nodup|]. split.
    - intros i x E. destruct (Nat.lt_ge_cases i (length done)) as [Li|Ge].
      + rewrite nth_error_app1 in E by auto. destruct (A i x E) as (m & Im & Hi). destruct (list_eq_dec string_dec (drop_nth c (rv_in x)) key) as [Ek|Nk].
        * exists (m ++ [length done]). split; [|apply in_or_app; auto]. apply put_in; auto. right. split; auto. left. exists m. rewrite <- Ek. auto.
        * exists m. split; auto. apply put_in; auto.
      + rewrite nth_error_app2 in E by auto. destruct (i - length done) as [|q] eqn:Eq; cbn in E; [|destruct q; discriminate]. injection E as <-.
        assert (i = length done) by lia. subst i. fold key. destruct (in_dec (list_eq_dec string_dec) key (map fst gs)) as [Hk|Hk].
        * apply in_map_iff in Hk as ([k m] & Ek & Hk). cbn in Ek. subst k. exists (m ++ [length done]). split; [|apply in_or_app; right; now left]. apply put_in; auto. right. split; auto. left. eauto.
        * exists [length done]. split; [|now left]. apply put_in; auto.
    - intros k m Hm i Hi. apply put_in in Hm; auto.
      assert (Old : forall m0, In (k, m0) gs -> In i m0 -> exists x, nth_error (done ++ [r]) i = Some x /\ drop_nth c (rv_in x) = k).
      { intros m0 H0 H1. destruct (B _ _ H0 _ H1) as (x & E & F). exists x. split; auto. rewrite nth_error_app1; auto. apply nth_error_Some. congruence. }
      assert (New : nth_error (done ++ [r]) (length done) = Some r) by (rewrite nth_error_app2, Nat.sub_diag; auto).
      destruct Hm as [[_ Hm]|[-> [(m0 & Hm & ->)|[_ ->]]]]; eauto.
      + apply in_app_or in Hi as [Hi|[<-|[]]]; eauto.
      + destruct Hi as [<-|[]]. eauto.
  Qed.
  Lemma groups_all : forall c rows, grouped c rows (groups_from c 0 rows []).
  Proof.
    intros c rows. apply (groups_ok c rows [] []). split; [constructor|]. split; [intros [|i] r E; discriminate|]. intros key m [].
  Qed.
  Lemma merges_all : forall rows c gs b, groups_merge rows c gs = Some b -> forall g, In g gs -> group_merges rows c g <> None.
  Proof.
    intros rows c. induction gs as [|g gs IH]; intros b H x Hx; [contradiction|]. cbn in H. destruct (group_merges rows c g) eqn:E; [|discriminate].
    destruct (groups_merge rows c gs) eqn:E2; [|discriminate]. destruct Hx as [<-|Hx]; [congruence|]. eapply IH; eauto.
  Qed.
  Lemma falls_row : forall c rs key ms outs i, falls_through c i rs key ms outs = true -> exists r, In r rs /\ cells_shadow (drop_nth c (rv_in r)) key = true /\ col_cell c r = "".
  Proof.
    intros c. induction rs as [|r rs IH]; intros key ms outs i H; cbn in H; [discriminate|].
    assert (Tl : falls_through c (S i) rs key ms outs = true -> exists r0, In r0 (r :: rs) /\ cells_shadow (drop_nth c (rv_in r0)) key = true /\ col_cell c r0 = "").
    { intros Z. destruct (IH _ _ _ _ Z) as (x & A & B). exists x. split; auto. now right. }
    destruct (cells_shadow (drop_nth c (rv_in r)) key) eqn:Es; auto. destruct (String.eqb_spec (col_cell c r) "") as [E|E].
    - exists r. split; [now left|auto].
    - destruct (existsb (Nat.eqb i) ms); auto. discriminate.
  Qed.
  Lemma fst_uniq : forall A B (gs : list (A * B)) k m m', NoDup (map fst gs) -> In (k, m) gs -> In (k, m') gs -> m = m'.
  Proof.
    intros A B. induction gs as [|[k0 m0] gs IH]; intros k m m' N; [intros []|]. inversion N as [|? ? Nk Nr]; subst. cbn [In]. intros [H1|H1] [H2|H2]; [congruence| | |eauto].
    - injection H1 as -> ->. exfalso. apply Nk. apply (in_map fst) in H2. exact H2.
    - injection H2 as -> ->. exfalso. apply Nk. apply (in_map fst) in H1. exact H1.
  Qed.
  Lemma shadow_refl : forall l, cells_shadow l l = true.
  Proof. induction l as [|x l IH]; cbn; auto. rewrite String.eqb_refl, orb_true_r. exact IH. Qed.
  (** Rows with the same other cells have the same outputs; one of them, or a row asking no more of the other cells, leaves the column empty. *)
  Lemma affects_spec : forall c rows, never_affects rows c = true ->
    (forall i j r s, nth_error rows i = Some r -> nth_error rows j = Some s -> drop_nth c (rv_in r) = drop_nth c (rv_in s) -> rv_out r = rv_out s) /\
    (forall i r, nth_error rows i = Some r -> exists s, In s rows /\ cells_shadow (drop_nth c (rv_in s)) (drop_nth c (rv_in r)) = true /\ col_cell c s = "").
  Proof.
    intros c rows H. unfold never_affects in H. destruct (groups_merge rows c _) as [b|] eqn:E; [|discriminate]. pose proof (merges_all _ _ _ _ E) as M. clear E H.
    destruct (groups_all c rows) as (N & A & B).
    assert (Va : forall i r, nth_error rows i = Some r -> view_at rows i = r) by (intros; unfold view_at; now apply nth_error_nth).
    split.
    - intros i j r s Ei Ej Ek. destruct (A i r Ei) as (m & Im & Hi). destruct (A j s Ej) as (m' & Im' & Hj). rewrite <- Ek in Im'. pose proof (fst_uniq _ _ _ _ _ _ N Im Im') as <-.
      specialize (M _ Im). cbn [group_merges] in M. destruct (existsb _ m) eqn:Ex; [congruence|].
      assert (Sm : forall q, In q m -> rv_out (view_at rows q) = rv_out (view_at rows (hd 0 m))).
      { intros q Hq. apply same_cells_eq. destruct (same_cells _ _) eqn:Es; auto. exfalso. assert (Z : true = false); [|discriminate]. rewrite <- Ex. symmetry. apply existsb_exists. exists q. split; auto. now rewrite Es. }
      rewrite <- (Va i r Ei), <- (Va j s Ej), (Sm i Hi), (Sm j Hj). reflexivity.
    - intros i r Ei. destruct (A i r Ei) as (m & Im & Hi). specialize (M _ Im). cbn [group_merges] in M. destruct (existsb (fun i0 => negb _) m); [congruence|].
      assert (Wild : forall q, In q m -> col_cell c (view_at rows q) = "" -> exists s, In s rows /\ cells_shadow (drop_nth c (rv_in s)) (drop_nth c (rv_in r)) = true /\ col_cell c s = "").
      { intros q Hq Eq. destruct (B _ _ Im q Hq) as (s & Es & Ks). rewrite (Va q s Es) in Eq. exists s. split; [eapply nth_error_In; eauto|]. split; auto. rewrite Ks. apply shadow_refl. }
      assert (Many : (if negb (existsb (fun i0 => String.eqb (col_cell c (view_at rows i0)) "") m) && negb (falls_through c 0 rows (drop_nth c (rv_in r)) m (rv_out (view_at rows (hd 0 m))))
        then @None bool else Some true) <> None -> exists s, In s rows /\ cells_shadow (drop_nth c (rv_in s)) (drop_nth c (rv_in r)) = true /\ col_cell c s = "").
      { intros Z. destruct (existsb _ m) eqn:Ex.
        - apply existsb_exists in Ex as (q & Hq & Eq). apply String.eqb_eq in Eq. eauto.
        - destruct (falls_through _ _ _ _ _ _) eqn:Ef; [|cbn in Z; congruence]. eapply falls_row; eauto. }
      destruct m as [|q m]; [contradiction|]. destruct m as [|q' m].
      + destruct (String.eqb_spec (col_cell c (view_at rows q)) "") as [Eq|Eq]; [|congruence]. apply (Wild q); [now left|auto].
      + apply Many. destruct (negb _ && negb _); congruence.
  Qed.
  (** What the search for a row to fall through to has found. *)
  Lemma falls_found : forall c rs key ms outs i, falls_through c i rs key ms outs = true ->
    exists j s, nth_error rs j = Some s /\ cells_shadow (drop_nth c (rv_in s)) key = true /\ col_cell c s = "" /\ rv_out s = outs /\
      forall q e, q < j -> nth_error rs q = Some e -> cells_shadow (drop_nth c (rv_in e)) key = true -> In (i + q) ms.
  Proof.
    intros c. induction rs as [|r rs IH]; intros key ms outs i H; cbn in H; [discriminate|].
    assert (Tl : falls_through c (S i) rs key ms outs = true -> (cells_shadow (drop_nth c (rv_in r)) key = true -> In i ms) ->
      exists j s, nth_error (r :: rs) j = Some s /\ cells_shadow (drop_nth c (rv_in s)) key = true /\ col_cell c s = "" /\ rv_out s = outs /\
      forall q e, q < j -> nth_error (r :: rs) q = Some e -> cells_shadow (drop_nth c (rv_in e)) key = true -> In (i + q) ms).
    { intros Z Y. destruct (IH _ _ _ _ Z) as (j & s & A1 & A2 & A3 & A4 & A5). exists (S j), s. repeat (split; [assumption|]). intros [|q] e Lq Eq Sq.
      - rewrite Nat.add_0_r. apply Y. cbn in Eq. injection Eq as ->. exact Sq.
      - rewrite <- plus_n_Sm. apply (A5 q e); auto. lia. }
    destruct (cells_shadow (drop_nth c (rv_in r)) key) eqn:Es; [|apply Tl; auto; discriminate]. destruct (String.eqb_spec (col_cell c r) "") as [E|E].
    - exists 0, r. apply same_cells_eq in H. repeat (split; [auto; fail|]). intros q e Lq. lia.
    - destruct (existsb (Nat.eqb i) ms) eqn:Ei; [|discriminate]. apply Tl; auto. intros _. apply existsb_exists in Ei as (x & Hx & Ex). apply Nat.eqb_eq in Ex. now subst.
  Qed.
  Lemma affects_falls : forall c rows, never_affects rows c = true -> forall i r, nth_error rows i = Some r ->
    exists j s, nth_error rows j = Some s /\ cells_shadow (drop_nth c (rv_in s)) (drop_nth c (rv_in r)) = true /\ col_cell c s = "" /\ rv_out s = rv_out r /\
      (drop_nth c (rv_in s) = drop_nth c (rv_in r) \/
       forall q e, q < j -> nth_error rows q = Some e -> cells_shadow (drop_nth c (rv_in e)) (drop_nth c (rv_in r)) = true -> drop_nth c (rv_in e) = drop_nth c (rv_in r)).
  Proof.
    intros c rows H i r Ei. destruct (affects_spec c rows H) as [Out _]. unfold never_affects in H. destruct (groups_merge rows c _) as [b|] eqn:E; [|discriminate].
    pose proof (merges_all _ _ _ _ E) as M. clear E H. destruct (groups_all c rows) as (N & A & B).
    assert (Va : forall i r, nth_error rows i = Some r -> view_at rows i = r) by (intros; unfold view_at; now apply nth_error_nth).
    destruct (A i r Ei) as (m & Im & Hi). specialize (M _ Im). cbn [group_merges] in M. destruct (existsb (fun i0 => negb _) m) eqn:Ex0; [congruence|].
    assert (Wild : forall q, In q m -> col_cell c (view_at rows q) = "" -> exists j s, nth_error rows j = Some s /\
      cells_shadow (drop_nth c (rv_in s)) (drop_nth c (rv_in r)) = true /\ col_cell c s = "" /\ rv_out s = rv_out r /\
      (drop_nth c (rv_in s) = drop_nth c (rv_in r) \/
       forall q e, q < j -> nth_error rows q = Some e -> cells_shadow (drop_nth c (rv_in e)) (drop_nth c (rv_in r)) = true -> drop_nth c (rv_in e) = drop_nth c (rv_in r))).
    { intros q Hq Eq. destruct (B _ _ Im q Hq) as (s & Es & Ks). rewrite (Va q s Es) in Eq. exists q, s. split; auto. split; [rewrite Ks; apply shadow_refl|].
      split; auto. split; [apply (Out q i s r); auto|now left]. }
    destruct m as [|q m]; [contradiction|]. destruct m as [|q' m].
    { destruct (String.eqb_spec (col_cell c (view_at rows q)) "") as [Eq|Eq]; [|congruence]. apply (Wild q); [now left|auto]. }
    destruct (existsb (fun i0 => String.eqb (col_cell c (view_at rows i0)) "") (q :: q' :: m)) eqn:Ex.
    { apply existsb_exists in Ex as (x & Hx & Eq). apply String.eqb_eq in Eq. eauto. }
    destruct (falls_through c 0 rows _ _ _) eqn:Ef; [|cbn in M; congruence]. destruct (falls_found _ _ _ _ _ _ Ef) as (j & s & A1 & A2 & A3 & A4 & A5).
    exists j, s. split; auto. split; auto. split; auto. cbn [hd] in A4. split.
    - rewrite A4. destruct (B _ _ Im q (or_introl eq_refl)) as (s0 & Es & Ks). rewrite (Va q s0 Es). apply (Out q i s0 r); auto.
    - right. intros p e Lp Ep Sp. specialize (A5 p e Lp Ep Sp). destruct (B _ _ Im _ A5) as (e0 & Ee & Ke). cbn in Ee. congruence.
  Qed.
  Lemma column_falls : forall t k i r, In (k, false) (col_hints t) -> nth_error (pt_rows t) i = Some r ->
    exists c j s, nth_error (pt_in t) k = Some c /\ nth_error (pt_rows t) j = Some s /\ bare s (ic_id c) = "" /\ asks_less (without_column k t) s r /\
      (forall o, In o (pt_out t) -> bare s (pc_id o) = bare r (pc_id o)) /\
      (asks_same (without_column k t) s r \/
       forall q e, q < j -> nth_error (pt_rows t) q = Some e -> asks_less (without_column k t) e r -> asks_same (without_column k t) e r).
  Proof.
    intros t k i r H Ei. apply col_hint in H as (_ & c & Ec & _ & Na).
    assert (Sh : forall e, cells_shadow (drop_nth k (rv_in (row_view t e))) (drop_nth k (rv_in (row_view t r))) = true <-> asks_less (without_column k t) e r).
    { intros e. cbn [row_view rv_in]. rewrite !drop_map, shadow_map. unfold asks_less. rewrite column_in. reflexivity. }
    assert (Sm : forall e, drop_nth k (rv_in (row_view t e)) = drop_nth k (rv_in (row_view t r)) <-> asks_same (without_column k t) e r).
    { intros e. cbn [row_view rv_in]. rewrite !drop_map, map_eq_in. unfold asks_same. rewrite column_in. reflexivity. }
    destruct (affects_falls _ _ Na i _ (map_nth_error (row_view t) _ _ Ei)) as (j & v & A1 & A2 & A3 & A4 & A5).
    destruct (nth_error (pt_rows t) j) as [s|] eqn:Es.
    2:{ apply nth_error_None in Es. exfalso. assert (X0 : nth_error (map (row_view t) (pt_rows t)) j = None) by (apply nth_error_None; rewrite map_length; lia). congruence. }
    rewrite (map_nth_error (row_view t) _ _ Es) in A1. injection A1 as <-. exists c, j, s. split; auto. split; auto. rewrite (col_cell_at t k c s Ec) in A3. split; auto.
    split; [now apply Sh|]. split; [intros o Ho; cbn [row_view rv_out] in A4; exact (proj1 (map_eq_in _ _ (fun o => lint_cell s (pc_id o)) (fun o => lint_cell r (pc_id o)) _) A4 o Ho)|].
    destruct A5 as [A5|A5]; [left; now apply Sm|right]. intros q e Lq Eq Aq. apply Sm. apply (A5 q); auto; [now apply map_nth_error|now apply Sh].
  Qed.
  Lemma hd_const : forall A B (f : A -> list B) x l, (forall r, In r l -> f r = [] \/ f r = x) -> (exists r, In r l /\ f r = x) -> hd_error (flat_map f l) = hd_error x.
  Proof.
    intros A B f x. induction l as [|a l IH]; intros H (r & Hr & Er); [contradiction|]. cbn [flat_map]. destruct x as [|b x].
    - assert (Z : forall m, (forall r, In r m -> f r = []) -> flat_map f m = []) by (induction m as [|y m IHm]; cbn; intros K; auto; rewrite (K y), IHm; auto).
      rewrite (Z l), app_nil_r; [|intros q Hq; destruct (H q (or_intror Hq)); auto]. destruct (H a (or_introl eq_refl)) as [->| ->]; auto.
    - destruct (H a (or_introl eq_refl)) as [E|E]; rewrite E; [|reflexivity]. cbn [app]. apply IH; [intros q Hq; apply H; now right|].
      destruct Hr as [->|Hr]; [congruence|eauto].
  Qed.
  Lemma merge_effect : forall t k w, in_step w -> plain_table parse t -> tidy t -> smooth X parse (pw_heap (bind_env w)) (pw_env w) t ->
    In (k, false) (col_hints t) -> rows_exclude X parse (pw_heap (bind_env w)) (pw_env w) k t -> same_effect X parse t (without_column k t) w.
  Proof.
    intros t k w W P T S0 H Rx. apply col_hint in H as (O & c & Ec & _ & Na). apply affects_spec in Na as [Out Wild].
    apply agree; auto; [now apply plain_column|intros d r Hd Hr; apply S0; auto; eapply col_sub; eauto|].
    intros o Ho. set (h := pw_heap (bind_env w)) in *. set (ctx := pw_env w) in *. unfold sources. cbn [without_column pt_rows]. change (PTbl _ _ _) with (without_column k t).
    set (g := fun r => match cell_text (pc_id o) r with Some src => [src] | None => [] end).
    assert (Key : forall r s, In r (pt_rows t) -> In s (pt_rows t) -> holds_row X parse h ctx (without_column k t) r = true -> holds_row X parse h ctx (without_column k t) s = true ->
      drop_nth k (rv_in (row_view t r)) = drop_nth k (rv_in (row_view t s))).
    { intros r s Hr Hs Kr Ks. cbn [row_view rv_in]. rewrite !drop_map, <- column_in. apply map_eq_in. intros d Hd. change (lint_cell r (ic_id d)) with (bare r (ic_id d)).
      change (lint_cell s (ic_id d)) with (bare s (ic_id d)). apply (bare_text t); auto. }
    assert (G : forall r s, In r (pt_rows t) -> In s (pt_rows t) -> holds_row X parse h ctx (without_column k t) r = true -> holds_row X parse h ctx (without_column k t) s = true -> g r = g s).
    { intros r s Hr Hs Kr Ks. pose proof (Key r s Hr Hs Kr Ks) as Ek. apply In_nth_error in Hr as (i & Ei). apply In_nth_error in Hs as (j & Ej).
      pose proof (Out i j _ _ (map_nth_error (row_view t) _ _ Ei) (map_nth_error (row_view t) _ _ Ej) Ek) as Eo. cbn [row_view rv_out] in Eo.
      assert (E : bare r (pc_id o) = bare s (pc_id o)) by (apply (proj1 (map_eq_in _ _ (fun o => lint_cell r (pc_id o)) (fun o => lint_cell s (pc_id o)) _) Eo); apply active_in in Ho; tauto).
      apply (bare_text t) in E; auto; [|eapply nth_error_In; eauto|eapply nth_error_In; eauto]. unfold g. now rewrite E. }
    destruct (existsb (holds_row X parse h ctx (without_column k t)) (pt_rows t)) eqn:Ex.
    - apply existsb_exists in Ex as (r0 & Hr0 & K0).
      assert (Ws : exists s, In s (pt_rows t) /\ holds_row X parse h ctx t s = true).
      { pose proof Hr0 as N0. apply In_nth_error in N0 as (i & Ei). destruct (Wild i _ (map_nth_error (row_view t) _ _ Ei)) as (v & Hv & Sv & Cv).
        apply in_map_iff in Hv as (s & <- & Hs). exists s. split; auto. apply (holds_column h ctx k t c s Ec). rewrite (col_cell_at t k c s Ec) in Cv. split.
        - apply no_text. rewrite (tidy_text t s _ T Hs), Cv. reflexivity.
        - cbn [row_view rv_in] in Sv. rewrite !drop_map, <- column_in in Sv. pose proof (proj1 (shadow_map _ _ _ _) Sv) as Sv'. apply holds_yes. intros d Hd.
          rewrite holds_yes in K0. eapply (asks_cell h ctx t s r0); eauto. }
      destruct Ws as (s & Hs & Ks). pose proof (proj2 (proj1 (holds_column h ctx k t c s Ec) Ks)) as Ks'.
      rewrite (hd_const _ _ _ (g s)), (hd_const _ _ _ (g s)); auto.
      + intros r Hr. destruct (holds_row X parse h ctx t r) eqn:E; [right|now left]. apply (holds_column h ctx k t c r Ec) in E as [_ E]. exact (G r s Hr Hs E Ks').
      + exists s. split; auto. rewrite Ks. reflexivity.
      + intros r Hr. destruct (holds_row X parse h ctx (without_column k t) r) eqn:E; [right|now left]. exact (G r s Hr Hs E Ks').
      + exists s. split; auto. rewrite Ks'. reflexivity.
    - assert (None_ : forall r, In r (pt_rows t) -> holds_row X parse h ctx (without_column k t) r = false).
      { intros r Hr. destruct (holds_row _ _ _ _ _ r) eqn:E; auto. rewrite <- Ex. symmetry. apply existsb_exists. eauto. }
      f_equal. rewrite !flat_map_concat_map. f_equal. apply map_ext_in. intros r Hr. rewrite (None_ r Hr).
      destruct (holds_row X parse h ctx t r) eqn:E; auto. apply (holds_column h ctx k t c r Ec) in E as [_ E]. rewrite (None_ r Hr) in E. discriminate.
  Qed.
End Sem.
