(** Selecting the rows of a policy's decision table. *)
From Coq Require Import String Bool List Arith Lia.
From Verif Require Import Base Dec Value Heap Ast Ops Compiler Vm Eval Funcs HeapSpec TreeFacts HeapFacts Isolate Session PureFacts RepFacts ContentFacts MemoFacts
  Blocks BlocksSpec PTable PTableSpec.
From Verif Require Table TableSpec TableFacts IndexFacts Discriminant.
Import ListNotations.
Local Open Scope string_scope.
Local Open Scope nat_scope.
Local Open Scope list_scope.

Lemma nth_lupd : forall A (l : list (option A)) i j x, i < length l -> nth j (lupd i x l) None = if Nat.eqb i j then x else nth j l None.
Proof.
  induction l as [|y l IH]; intros [|i] [|j] x H; cbn in *; try lia; auto. apply IH. lia.
Qed.
Lemma lupd_len : forall A (l : list A) i x, length (lupd i x l) = length l.
Proof. induction l as [|y l IH]; intros [|i] x; cbn; auto. Qed.

(** What a cell says, if anything. *)
Definition is_yes (o : option bool) : bool := match o with Some true => true | _ => false end.

Section Sel.
  Variable L : lib.
  Hypothesis HL : plain_lib L.
  Variable parse : ekind -> string -> res node.
  Notation X := (std_ext L).
  Variables (env : value) (h0 : heap) (t : ptable).
  Hypothesis Henv : has_tree h0 env.
  Hypothesis Pin : forall c f, In c (pt_in t) -> field_of c = Some f -> uses_only parse not_dollar KStandard f.
  Hypothesis Pcond : forall c r src, In c (pt_in t) -> In r (pt_rows t) -> field_of c = None -> cell_text (ic_id c) r = Some src -> uses_only parse not_dollar KStandard src.
  Hypothesis Ptest : forall c r src, In c (pt_in t) -> In r (pt_rows t) -> field_of c <> None -> cell_text (ic_id c) r = Some src -> uses_only parse (fun _ => true) KUnary src.
  Notation start := (scope_new env).
  Notation cell_says := (cell_says X parse h0 env).
  Notation row_says := (row_says X parse h0 env).
  Notation holds_row := (holds_row X parse h0 env t).
  Notation reached := (reached X parse h0 env t).

  Definition okst (s : tstate) : Prop :=
    hext h0 (ts_heap s) /\ (ts_scope s = start \/ exists w, has_tree (ts_heap s) w /\ ts_scope s = set_local start "$" w) /\
    length (ts_refs s) = length (pt_in t) /\
    forall i c f v, nth_error (pt_in t) i = Some c -> field_of c = Some f -> nth i (ts_refs s) None = Some v ->
      exists k v0 x, srun X parse KStandard f start h0 = (k, Ok v0) /\ repr k v0 x /\ repr (ts_heap s) v x.
  Lemma scope_alike : forall s, okst s -> ealike not_dollar false h0 (ts_heap s) start (ts_scope s).
  Proof.
    intros s (A & B & _). destruct Henv as [te Te].
    assert (Bs : sc_base (ts_scope s) = env) by (destruct B as [->|(w & _ & ->)]; reflexivity).
    split; [|split; [|discriminate]].
    - rewrite Bs. cbn. exists te. split; [exact Te|]. eapply repr_hext; eauto.
    - intros k K. destruct B as [->|(w & _ & ->)]; [exact Logic.I|]. unfold local_str, set_local. cbn [sc_locals scope_new].
      rewrite aget_aset_ne; [exact Logic.I|]. unfold not_dollar in K. apply negb_true_iff in K. apply String.eqb_neq in K. unfold dollar in K. congruence.
  Qed.
  Lemma dollar_alike : forall g1 g2 v1 v2, hext h0 g1 -> hext h0 g2 -> alike g1 g2 v1 v2 ->
    ealike (fun _ => true) false g1 g2 (set_local start "$" v1) (set_local start "$" v2).
  Proof.
    intros g1 g2 v1 v2 E1 E2 A. destruct Henv as [te Te]. split; [|split; [|discriminate]].
    - cbn. exists te. split; eapply repr_hext; eauto.
    - intros k _. unfold local_str, set_local. cbn [sc_locals scope_new aset aget]. destruct (String.eqb "$" k); [exact A|exact Logic.I].
  Qed.
  Lemma run_std : forall s src h1 r, okst s -> uses_only parse not_dollar KStandard src -> srun X parse KStandard src (ts_scope s) (ts_heap s) = (h1, r) ->
    hext (ts_heap s) h1 /\
    same_outcome (snd (srun X parse KStandard src start h0), fst (srun X parse KStandard src start h0)) (r, h1).
  Proof.
    intros s src h1 r S0 U E. split.
    - eapply TableFacts.srun_hext; [|exact E]. intros n P. now apply U.
    - pose proof (TableFacts.srun_alike L HL parse KStandard src start (ts_scope s) h0 (ts_heap s) not_dollar false U (scope_alike s S0)) as A.
      rewrite E in A. exact A.
  Qed.
  Lemma okst_heap : forall s g, okst s -> hext (ts_heap s) g -> okst (TS (ts_scope s) (ts_refs s) g).
  Proof.
    intros s g (A & B & C & D) E. split; [eapply hext_trans; eauto|]. cbn. split.
    - destruct B as [B|(w & [x W] & B)]; [now left|right]. exists w. split; [exists x; eapply repr_hext; eauto|exact B].
    - split; auto. intros i c f v Ec Ef Ev. destruct (D i c f v Ec Ef Ev) as (k & v0 & x & R & R1 & R2). exists k, v0, x. split; auto. split; auto. eapply repr_hext; eauto.
  Qed.
  Lemma field_ok : forall i c f s s1 r, okst s -> nth_error (pt_in t) i = Some c -> field_of c = Some f -> field_value X parse i f s = (s1, r) ->
    okst s1 /\ hext (ts_heap s) (ts_heap s1) /\ ts_scope s1 = ts_scope s /\
    match r with
    | Ok v => exists k v0 x, srun X parse KStandard f start h0 = (k, Ok v0) /\ hext h0 k /\ repr k v0 x /\ repr (ts_heap s1) v x
    | Err e => exists k, srun X parse KStandard f start h0 = (k, Err e)
    end.
  Proof.
    intros i c f s s1 r S0 Ec Ef E. pose proof (Pin c f (nth_error_In _ _ Ec) Ef) as U. unfold field_value in E.
    assert (Hk : forall k q, srun X parse KStandard f start h0 = (k, q) -> hext h0 k).
    { intros k q Ek. eapply TableFacts.srun_hext; [|exact Ek]. intros n P. now apply U. }
    destruct (nth i (ts_refs s) None) as [v|] eqn:Ev.
    - injection E as <- <-. split; auto. split; [apply hext_refl|]. split; auto. pose proof S0 as (_ & _ & _ & D).
      destruct (D i c f v Ec Ef Ev) as (k & v0 & x & R & R1 & R2). exists k, v0, x. split; auto. split; eauto.
    - destruct (srun X parse KStandard f (ts_scope s) (ts_heap s)) as [h1 q] eqn:Eq. destruct (run_std s f h1 q S0 U Eq) as [H1 O].
      destruct (srun X parse KStandard f start h0) as [k r0] eqn:E0. cbn [fst snd] in O.
      destruct q as [v|e]; injection E as <- <-.
      + destruct r0 as [v0|e0]; cbn in O; [|contradiction]. destruct O as (x & R1 & R2). pose proof (okst_heap s h1 S0 H1) as (A & B & C & D).
        split; [|split; [exact H1|split; [reflexivity|exists k, v0, x; eauto]]]. split; [exact A|]. split; [exact B|]. cbn [ts_refs ts_scope ts_heap] in *. split; [now rewrite lupd_len|].
        intros j c' f' v' Ec' Ef' Ev'. rewrite nth_lupd in Ev' by (rewrite C; apply nth_error_Some; congruence). destruct (Nat.eqb_spec i j) as [<-|N].
        * injection Ev' as <-. rewrite Ec in Ec'. injection Ec' as <-. rewrite Ef in Ef'. injection Ef' as <-. exists k, v0, x. auto.
        * eapply D; eauto.
      + destruct r0 as [v0|e0]; cbn in O; [contradiction|]. subst e0. split; [now apply okst_heap|]. split; auto. split; eauto.
  Qed.
  Lemma set_dollar_twice : forall s v, okst s -> set_local (ts_scope s) dollar v = set_local start "$" v.
  Proof. intros s v (_ & [->|(w & _ & ->)] & _); [reflexivity|]. unfold set_local; cbn [sc_base sc_locals]. now rewrite aset_aset. Qed.
  Lemma cell_ok : forall i c r s s1 q, okst s -> nth_error (pt_in t) i = Some c -> In r (pt_rows t) -> evaluate_cell X parse i c r s = (s1, q) ->
    okst s1 /\ cell_says c r = match q with Ok b => Some b | Err _ => None end.
  Proof.
    intros i c r s s1 q S0 Ec Ir E. unfold evaluate_cell in E. unfold PTableSpec.cell_says. destruct (cell_text (ic_id c) r) as [src|] eqn:Tx; [|injection E as <- <-; auto].
    pose proof (nth_error_In _ _ Ec) as Ic. destruct (field_of c) as [f|] eqn:Ef.
    - destruct (field_value X parse i f s) as [s2 [v|e]] eqn:Fv; destruct (field_ok _ _ _ _ _ _ S0 Ec Ef Fv) as (S2 & H2 & Sc & R).
      2:{ injection E as <- <-. destruct R as (k & ->). auto. }
      destruct R as (k & v0 & x & -> & Hk & R1 & R2). rewrite (set_dollar_twice s2 v S2) in E.
      assert (U : uses_only parse (fun _ => true) KUnary src) by (eapply Ptest; eauto; congruence).
      assert (Al : alike k (ts_heap s2) v0 v) by (exists x; auto).
      pose proof S2 as (A2 & _). pose proof (TableFacts.srun_alike L HL parse KUnary src _ _ k (ts_heap s2) _ _ U (dollar_alike _ _ _ _ Hk A2 Al)) as O.
      destruct (srun X parse KUnary src (set_local start "$" v) (ts_heap s2)) as [g r2] eqn:Eg. injection E as <- <-. cbn [fst snd] in O.
      assert (Hg : hext (ts_heap s2) g) by (eapply TableFacts.srun_hext; [|exact Eg]; intros n P; now apply U). split.
      + pose proof (okst_heap s2 g S2 Hg) as (A & B & C & D). split; [exact A|]. split; [|split; [exact C|exact D]]. cbn [ts_scope ts_heap]. right. exists v. split; [exists x; exact (repr_hext _ _ _ _ Hg R2)|reflexivity].
      + destruct (srun X parse KUnary src (set_local start "$" v0) k) as [g0 r0]. cbn [fst snd] in *. destruct r0 as [w0|e0], r2 as [w2|e2]; cbn in O; try contradiction; auto.
        destruct O as (y & Y1 & Y2). inversion Y1; subst; inversion Y2; subst; reflexivity.
    - assert (U : uses_only parse not_dollar KStandard src) by (eapply Pcond; eauto).
      destruct (srun X parse KStandard src (ts_scope s) (ts_heap s)) as [h1 o] eqn:Eo. destruct (run_std s src h1 o S0 U Eo) as [H1 O]. unfold outcome.
      destruct (srun X parse KStandard src start h0) as [k r0]. cbn [fst snd] in *. destruct o as [v|e]; injection E as <- <-; (split; [now apply okst_heap|]).
      + destruct r0 as [v0|e0]; cbn in O; [|contradiction]. destruct O as (y & Y1 & Y2). inversion Y1; subst; inversion Y2; subst; try reflexivity. now destruct b.
      + destruct r0 as [v0|e0]; cbn in O; [contradiction|]. reflexivity.
  Qed.

  (** *** Rows. *)
  Lemma inputs_ok : forall cs dec i r s s1 q, okst s -> In r (pt_rows t) -> (forall j, nth_error cs j = nth_error (pt_in t) (i + j)) ->
    (forall j c, nth_error cs j = Some c -> dec (i + j) = true -> cell_says c r = Some true) ->
    row_inputs X parse dec i cs r s = (s1, q) ->
    okst s1 /\ row_says cs r = match q with Ok b => Some b | Err _ => None end.
  Proof.
    induction cs as [|c cs IH]; intros dec i r s s1 q S0 Ir Sf Dc E; cbn [row_inputs PTableSpec.row_says] in *; [injection E as <- <-; auto|].
    assert (Ec : nth_error (pt_in t) i = Some c) by (specialize (Sf 0); rewrite Nat.add_0_r in Sf; now rewrite <- Sf).
    assert (Sf' : forall j, nth_error cs j = nth_error (pt_in t) (S i + j)) by (intros j; specialize (Sf (S j)); cbn in Sf; rewrite Sf; f_equal; lia).
    assert (Dc' : forall j c, nth_error cs j = Some c -> dec (S i + j) = true -> cell_says c r = Some true).
    { intros j c' Ej Dj. apply (Dc (S j)); auto. rewrite <- Dj. f_equal. lia. }
    destruct (dec i) eqn:Di.
    - rewrite (Dc 0 c eq_refl) by (rewrite Nat.add_0_r; auto). eapply IH; eauto.
    - destruct (evaluate_cell X parse i c r s) as [s2 q2] eqn:Eq. destruct (cell_ok _ _ _ _ _ _ S0 Ec Ir Eq) as [S2 Cs]. rewrite Cs.
      destruct q2 as [[|]|e]; [eapply IH; eauto| |]; injection E as <- <-; auto.
  Qed.
  Lemma full_ok : forall cs u f i r s s1 q, okst s -> In r (pt_rows t) -> (forall j, nth_error cs j = nth_error (pt_in t) (i + j)) ->
    row_full X parse u f i cs r s = (s1, q) ->
    okst s1 /\ match q with
               | Ok l => l = map (fun c => is_yes (cell_says c r)) cs /\ (u || f = false -> row_says cs r = Some (forallb (fun b => b) l))
               | Err _ => u || f = false /\ row_says cs r = None
               end.
  Proof.
    induction cs as [|c cs IH]; intros u f i r s s1 q S0 Ir Sf E; cbn [row_full PTableSpec.row_says] in *; [injection E as <- <-; auto|].
    assert (Ec : nth_error (pt_in t) i = Some c) by (specialize (Sf 0); rewrite Nat.add_0_r in Sf; now rewrite <- Sf).
    assert (Sf' : forall j, nth_error cs j = nth_error (pt_in t) (S i + j)) by (intros j; specialize (Sf (S j)); cbn in Sf; rewrite Sf; f_equal; lia).
    destruct (evaluate_cell X parse i c r s) as [s2 q2] eqn:Eq. destruct (cell_ok _ _ _ _ _ _ S0 Ec Ir Eq) as [S2 Cs].
    assert (K : exists b, (match q2 with Err e => if u || f then Ok false else Err e | Ok b => Ok b end = Ok b /\ b = is_yes (cell_says c r) /\
        (u || f = false -> cell_says c r = Some b)) \/
      (match q2 with Err e => if u || f then Ok false else Err e | Ok b => Ok b end = Err (match q2 with Err e => e | Ok _ => EStackOutOfBounds end) /\ u || f = false /\ cell_says c r = None)).
    { rewrite Cs. destruct q2 as [b|e]; [exists b; left; destruct b; auto|]. destruct (u || f); [exists false; left; split; auto; split; auto; discriminate|exists false; right; auto]. }
    destruct K as (b & [(K & Eb & Kb)|(K & Uf & Cn)]); rewrite K in E.
    - destruct (row_full X parse u (f || negb b) (S i) cs r s2) as [s3 q3] eqn:Er. destruct (IH _ _ _ _ _ _ _ S2 Ir Sf' Er) as [S3 R].
      destruct q3 as [l|e]; injection E as <- <-; split; auto.
      + destruct R as [Rl Rr]. split; [cbn [map]; congruence|]. intros Uf. rewrite (Kb Uf). destruct b.
        * cbn [forallb andb]. apply Rr. now rewrite orb_false_r.
        * reflexivity.
      + destruct R as [Uf Rn]. destruct b; [|destruct u, f; discriminate]. cbn in Uf. rewrite orb_false_r in Uf. split; auto. now rewrite (Kb Uf).
    - injection E as <- <-. split; auto. split; auto. now rewrite Cn.
  Qed.

  (** *** The index. *)
  Notation classify := (Discriminant.index_arm parse).
  Notation itb := (Table.Table (pt_rows t) (pt_in t) [] Table.PFirst).

  Lemma smooth_rows : smooth X parse h0 env t -> forall cs r, incl cs (pt_in t) -> In r (pt_rows t) -> row_says cs r = Some (forallb (fun c => is_yes (cell_says c r)) cs).
  Proof.
    intros Sm. induction cs as [|c cs IH]; intros r Ic Ir; cbn [PTableSpec.row_says forallb]; auto.
    pose proof (Sm c r (Ic c (or_introl eq_refl)) Ir) as N. destruct (cell_says c r) as [[|]|]; [|reflexivity|congruence]. cbn. apply IH; auto. intros x Hx. apply Ic. now right.
  Qed.
  Lemma smooth_false : smooth X parse h0 env t -> forall c r, In c (pt_in t) -> In r (pt_rows t) -> cell_says c r = Some false -> row_says (pt_in t) r = Some false.
  Proof.
    intros Sm c r Ic Ir Cf. rewrite (smooth_rows Sm _ _ (incl_refl _) Ir). destruct (forallb _ (pt_in t)) eqn:A; [|reflexivity].
    rewrite forallb_forall in A. specialize (A c Ic). rewrite Cf in A. discriminate.
  Qed.
  Lemma decided_cell : smooth X parse h0 env t -> forall c r f k v0, In c (pt_in t) -> In r (pt_rows t) -> field_of c = Some f ->
    srun X parse KStandard f start h0 = (k, Ok v0) ->
    IndexFacts.recognised (IndexFacts.cell_arm classify c r) = true -> cell_says c r = Some (IndexFacts.arm_has (IndexFacts.cell_arm classify c r) v0).
  Proof.
    intros Sm c r f k v0 Ic Ir Fc Rn Rc. pose proof (Sm c r Ic Ir) as N. unfold PTableSpec.cell_says, IndexFacts.cell_arm in *.
    change (Table.in_cell c r) with (cell_text (ic_id c) r) in *. destruct (cell_text (ic_id c) r) as [src|]; [|discriminate Rc].
    rewrite Fc, Rn in *. rewrite <- (IndexFacts.index_arm_exact X parse src (set_local start "$" v0) k v0 Rc eq_refl).
    destruct (snd (srun X parse KUnary src (set_local start "$" v0) k)) as [[| | | | | |]|]; try congruence. reflexivity.
  Qed.
  Lemma build_field : forall c x, Table.build_column classify (pt_rows t) c = Some x -> exists f, field_of c = Some f.
  Proof.
    intros c x B. destruct (IndexFacts.build_column_ok _ _ _ _ B) as ((f & Ef & Nf) & _). exists f. unfold field_of. rewrite Ef.
    now rewrite (proj2 (String.eqb_neq _ _) Nf).
  Qed.
  Definition narrowed (ix : Table.index) (k : nat) (a : Table.rowset) : Prop := forall i r, nth_error (pt_rows t) i = Some r ->
    (Table.has a i = false -> row_says (pt_in t) r = Some false) /\
    (Table.has a i = true -> forall j c x, j < k -> nth_error (pt_in t) j = Some c -> nth_error ix j = Some (Some x) ->
       Table.has (Table.cx_captured x) i = true -> cell_says c r = Some true).
  Definition narrowing (ix : Table.index) (k : nat) (acc : option Table.rowset) : Prop :=
    match acc with
    | Some a => narrowed ix k a
    | None => forall j x, j < k -> nth_error ix j <> Some (Some x)
    end.
  Lemma candidates_ok : smooth X parse h0 env t -> forall ix, ix = map (Table.build_column classify (pt_rows t)) (pt_in t) ->
    forall cs k acc s, (forall j, nth_error cs j = nth_error (pt_in t) (k + j)) -> okst s -> narrowing ix k acc ->
    exists s1 o, candidate_rows X parse (map (Table.build_column classify (pt_rows t)) cs) k cs acc s = (s1, Ok o) /\ okst s1 /\
      match o with Some a => narrowed ix (length (pt_in t)) a | None => True end.
  Proof.
    intros Sm ix Eix. induction cs as [|c cs IH]; intros k acc s Sf Hs Na; cbn [candidate_rows map].
    - exists s, acc. split; [reflexivity|]. split; [exact Hs|]. destruct acc as [a|]; [|exact Logic.I].
      assert (Lk : length (pt_in t) <= k) by (apply nth_error_None; specialize (Sf 0); rewrite Nat.add_0_r in Sf; now rewrite <- Sf).
      intros i r E. destruct (Na i r E) as [N1 N2]. split; [exact N1|]. intros Hi j c x Lj. apply (N2 Hi j c x). lia.
    - assert (Ec : nth_error (pt_in t) k = Some c) by (specialize (Sf 0); rewrite Nat.add_0_r in Sf; now rewrite <- Sf).
      assert (Sf' : forall j, nth_error cs j = nth_error (pt_in t) (S k + j)) by (intros j; specialize (Sf (S j)); cbn in Sf; rewrite Sf; f_equal; lia).
      assert (Ex : nth_error ix k = Some (Table.build_column classify (pt_rows t) c)) by (subst ix; now apply map_nth_error).
      assert (Skip : Table.build_column classify (pt_rows t) c = None -> narrowing ix (S k) acc).
      { intros Nb. destruct acc as [a|]; cbn [narrowing] in *.
        - intros i r E. destruct (Na i r E) as [N1 N2]. split; [exact N1|]. intros Hi j c0 x Lj Ej Exj. destruct (Nat.eq_dec j k) as [->|]; [congruence|]. apply (N2 Hi j c0 x); auto; lia.
        - intros j x Lj. destruct (Nat.eq_dec j k) as [->|]; [congruence|]. apply Na. lia. }
      destruct (Table.build_column classify (pt_rows t) c) as [x|] eqn:Bc; [|exact (IH (S k) acc s Sf' Hs (Skip eq_refl))].
      destruct (IndexFacts.build_column_ok _ _ _ _ Bc) as (_ & Kn). destruct (build_field _ _ Bc) as (f & Fc). rewrite Fc.
      pose proof (nth_error_In _ _ Ec) as Ic.
      destruct (field_value X parse k f s) as [s1 [w|e]] eqn:Er; destruct (field_ok _ _ _ _ _ _ Hs Ec Fc Er) as (S1 & H1 & _ & Res).
      2:{ exfalso. (* some row has a recognised cell in this column, and smooth says it can be evaluated *)
          destruct Res as (k0 & Re). unfold Table.build_column in Bc. destruct (ic_field c); [|discriminate]. destruct (String.eqb s0 ""); [discriminate|].
          destruct (Table.cx_captured (Table.index_rows classify c 0 (pt_rows t) (Table.Column [] [] [] [] []))) as [|i0 l0] eqn:Cp; [discriminate|]. injection Bc as <-.
          assert (Hr : exists r, nth_error (pt_rows t) i0 = Some r).
          { destruct (nth_error (pt_rows t) i0) as [r|] eqn:En; eauto. exfalso.
            assert (B : forall rs j y, (forall i, In i (Table.cx_captured y) -> i < j) -> forall i, In i (Table.cx_captured (Table.index_rows classify c j rs y)) -> i < j + length rs).
            { induction rs as [|r rs IHr]; intros j y Hy i Hi; cbn in *; [rewrite Nat.add_0_r; auto|].
              apply IHr in Hi; [lia|]. intros i1 H2. destruct y as [ys yn yb yc yf]. unfold Table.index_row in H2. cbn in Hy.
              destruct (Table.in_cell c r); [destruct (classify s2)|]; cbn in H2; try (specialize (Hy _ H2); lia); destruct H2 as [<-|H2]; try lia; specialize (Hy _ H2); lia. }
            apply nth_error_None in En. specialize (B (pt_rows t) 0 (Table.Column [] [] [] [] []) (fun i F => match F with end) i0). rewrite Cp in B. specialize (B (or_introl eq_refl)). cbn in B. lia. }
          destruct Hr as (r & Hr). destruct (Kn i0 r Hr) as (K1 & _). rewrite Cp in K1. unfold Table.has in K1. cbn [existsb] in K1. rewrite Nat.eqb_refl in K1. cbn in K1.
          apply (Sm c r Ic (nth_error_In _ _ Hr)). unfold PTableSpec.cell_says. unfold IndexFacts.cell_arm in K1. change (Table.in_cell c r) with (cell_text (ic_id c) r) in K1.
          destruct (cell_text (ic_id c) r); [|discriminate]. now rewrite Fc, Re. }
      destruct Res as (k1 & v0 & x0 & Rn & _ & R1 & R2).
      assert (Step : narrowing ix (S k) (Some (match acc with None => Table.cx_fallback x ++ Table.rows_for x w | Some a => filter (Table.has (Table.cx_fallback x ++ Table.rows_for x w)) a end))).
      { intros i r E. pose proof (nth_error_In _ _ E) as Ir. destruct (Kn i r E) as (K1 & K2 & K3).
        assert (Hh : Table.has (Table.cx_fallback x ++ Table.rows_for x w) i = negb (IndexFacts.recognised (IndexFacts.cell_arm classify c r)) || IndexFacts.arm_has (IndexFacts.cell_arm classify c r) v0).
        { rewrite IndexFacts.has_app, K2, K3. f_equal. symmetry. eapply IndexFacts.arm_has_repr; eauto. }
        assert (Cl : Table.has (Table.cx_fallback x ++ Table.rows_for x w) i = false -> row_says (pt_in t) r = Some false).
        { intros Hf. rewrite Hh in Hf. apply orb_false_iff in Hf as [Hf1 Hf2]. apply negb_false_iff in Hf1. apply (smooth_false Sm c); auto.
          rewrite (decided_cell Sm c r f k1 v0 Ic Ir Fc Rn Hf1). now rewrite Hf2. }
        assert (Ch : Table.has (Table.cx_fallback x ++ Table.rows_for x w) i = true -> Table.has (Table.cx_captured x) i = true -> cell_says c r = Some true).
        { intros Ht Hp. rewrite K1 in Hp. rewrite Hh, Hp in Ht. cbn in Ht. rewrite (decided_cell Sm c r f k1 v0 Ic Ir Fc Rn Hp). now rewrite Ht. }
        destruct acc as [a|]; cbn [narrowing] in Na.
        - destruct (Na i r E) as [N1 N2]. rewrite IndexFacts.has_filter. split.
          + intros Hf. apply andb_false_iff in Hf as [Hf|Hf]; auto.
          + intros Ht j c0 y0 Lj Ej Exj Hp. apply andb_true_iff in Ht as [Ha Ht]. destruct (Nat.eq_dec j k) as [->|]; [|eapply N2; eauto; lia].
            rewrite Ec in Ej. injection Ej as <-. rewrite Ex in Exj. injection Exj as <-. auto.
        - split; [exact Cl|]. intros Ht j c0 y0 Lj Ej Exj Hp. destruct (Nat.eq_dec j k) as [->|]; [|exfalso; eapply (Na j y0); [lia|exact Exj]].
          rewrite Ec in Ej. injection Ej as <-. rewrite Ex in Exj. injection Exj as <-. auto. }
      destruct (IH (S k) _ s1 Sf' S1 Step) as (s2 & o & A1 & A2 & A3).
      destruct w as [| | | | | |d]; try (exists s2, o; split; [exact A1|]; auto).
      exists s1, None. auto.
  Qed.

  (** *** The rows that count. *)
  Fixpoint hits (i : nat) (rs : list row) : list nat :=
    match rs with
    | [] => []
    | r :: rs => if holds_row r then i :: hits (S i) rs else hits (S i) rs
    end.
  Definition has_cell (o : pcol) (r : row) : bool := match cell_text (pc_id o) r with Some _ => true | None => false end.
  Definition got (o : pcol) (pre : list row) : bool := existsb (fun r => holds_row r && has_cell o r) pre.
  Definition done_with (pre : list row) : bool :=
    negb (existsb pc_collect (active t)) && forallb (fun o => pc_collect o || got o pre) (active t) && existsb holds_row pre.
  Definition is_used (pre : list row) (u : list (nat * string)) : Prop :=
    forall j id, In (j, id) u <-> exists o r, In o (active t) /\ pc_id o = id /\ nth_error pre j = Some r /\ holds_row r = true /\ has_cell o r = true /\
      (pc_collect o = true \/ got o (firstn j pre) = false).
  Definition pend (pre : list row) (o : pcol) : bool := negb (pc_collect o) && negb (got o pre).
  Record sinv (pre : list row) (taken : list bool) (pending : nat) (matched : list nat) (used : list (nat * string)) : Prop := {
    si_taken : taken = map (fun o => negb (pc_collect o) && got o pre) (active t);
    si_pending : pending = length (filter (pend pre) (active t));
    si_matched : matched = hits 0 pre;
    si_used : is_used pre used }.
  Lemma hits_app : forall a b i, hits i (a ++ b) = hits i a ++ hits (i + length a) b.
  Proof.
    induction a as [|r a IH]; intros b i; cbn; [now rewrite Nat.add_0_r|]. rewrite IH. replace (S i + length a) with (i + S (length a)) by lia.
    destruct (holds_row r); reflexivity.
  Qed.
  Lemma hits_nil : forall a i, hits i a = [] <-> existsb holds_row a = false.
  Proof. induction a as [|r a IH]; intros i; cbn; [tauto|]. destruct (holds_row r); cbn; [split; discriminate|apply IH]. Qed.
  Lemma hits_in : forall a i j, In j (hits i a) <-> exists r, i <= j /\ nth_error a (j - i) = Some r /\ holds_row r = true.
  Proof.
    induction a as [|r a IH]; intros i j; cbn [hits].
    - split; [intros []|intros (r & _ & E & _)]. destruct (j - i); discriminate.
    - assert (K : In j (hits (S i) a) <-> exists r0, S i <= j /\ nth_error (r :: a) (j - i) = Some r0 /\ holds_row r0 = true).
      { rewrite IH. split; intros (r0 & A & B & C); exists r0; (split; [lia|]); (split; [|exact C]); replace (j - i) with (S (j - S i)) in * by lia; exact B. }
      destruct (holds_row r) eqn:Hr; cbn [In]; rewrite K; split.
      + intros [<-|(r0 & A & B)]; [exists r; split; auto; rewrite Nat.sub_diag; auto|exists r0; split; [lia|auto]].
      + intros (r0 & A & B & C). destruct (Nat.eq_dec i j) as [->|N]; [now left|right]. exists r0. split; [lia|auto].
      + intros (r0 & A & B). exists r0. split; [lia|auto].
      + intros (r0 & A & B & C). destruct (Nat.eq_dec i j) as [->|N]; [rewrite Nat.sub_diag in B; injection B as <-; congruence|]. exists r0. split; [lia|auto].
  Qed.
  Lemma got_snoc : forall o pre r, got o (pre ++ [r]) = got o pre || (holds_row r && has_cell o r).
  Proof. intros o pre r. unfold got. rewrite existsb_app. cbn. now rewrite orb_false_r. Qed.
  Lemma satisfied_done : forall pre taken pending matched used, sinv pre taken pending matched used ->
    negb (existsb pc_collect (active t)) && Nat.eqb pending 0 && negb (match matched with [] => true | _ => false end) = done_with pre.
  Proof.
    intros pre taken pending matched used [_ -> -> _]. unfold done_with. f_equal; [f_equal|].
    - induction (active t) as [|o l IH]; cbn; auto. unfold pend in *. destruct (pc_collect o), (got o pre); cbn in *; auto.
    - destruct (hits 0 pre) eqn:E.
      + apply hits_nil in E. now rewrite E.
      + cbn. destruct (existsb holds_row pre) eqn:E2; auto. apply (hits_nil pre 0) in E2. congruence.
  Qed.
  Lemma undone_reached : forall pre rs, pt_rows t = pre ++ rs -> done_with pre = false -> reached (length pre).
  Proof.
    intros pre rs Er D. unfold PTableSpec.reached. assert (Np : forall j r, j < length pre -> nth_error (pt_rows t) j = Some r -> In r pre).
    { intros j r Lj Ej. rewrite Er, nth_error_app1 in Ej by auto. eapply nth_error_In; eauto. }
    unfold done_with in D. destruct (existsb pc_collect (active t)) eqn:C.
    { left. apply existsb_exists in C as (o & A & B). eauto. }
    destruct (existsb holds_row pre) eqn:H.
    - right. right. cbn in D. rewrite andb_true_r in D.
      assert (K : exists o, In o (active t) /\ pc_collect o || got o pre = false).
      { clear C. induction (active t) as [|o l IH]; cbn in *; [discriminate|]. destruct (pc_collect o || got o pre) eqn:E; [|eauto]. destruct IH as (o' & A & B); auto. exists o'. auto. }
      destruct K as (o & A & B). apply orb_false_iff in B as [B1 B2]. exists o. split; auto. split; auto. intros j r Lj Ej Hr.
      destruct (cell_text (pc_id o) r) eqn:T; auto. exfalso. assert (G : got o pre = true); [|congruence]. apply existsb_exists. exists r. split; [eauto|].
      unfold has_cell. now rewrite Hr, T.
    - right. left. intros j r Lj Ej. destruct (holds_row r) eqn:Hr; auto. exfalso. assert (G : existsb holds_row pre = true); [|congruence].
      apply existsb_exists. eauto.
  Qed.
  Lemma done_unreached : forall pre rs i, pt_rows t = pre ++ rs -> done_with pre = true -> length pre <= i -> ~ reached i.
  Proof.
    intros pre rs i Er D Li R. unfold done_with in D. apply andb_true_iff in D as [D D3]. apply andb_true_iff in D as [D1 D2]. apply negb_true_iff in D1.
    rewrite forallb_forall in D2. assert (Np : forall r, In r pre -> exists j, j < i /\ nth_error (pt_rows t) j = Some r).
    { intros r Hr. apply In_nth_error in Hr as [j Hj]. exists j. assert (j < length pre) by (apply nth_error_Some; congruence). split; [lia|].
      rewrite Er, nth_error_app1; auto. }
    destruct R as [(o & A & B)|[R|(o & A & B & R)]].
    - assert (G : existsb pc_collect (active t) = true); [|congruence]. apply existsb_exists. eauto.
    - apply existsb_exists in D3 as (r & Hr & Y). destruct (Np r Hr) as (j & Lj & Ej). rewrite (R j r Lj Ej) in Y. discriminate.
    - specialize (D2 o A). rewrite B in D2. cbn in D2. apply existsb_exists in D2 as (r & Hr & Y). apply andb_true_iff in Y as [Y1 Y2].
      destruct (Np r Hr) as (j & Lj & Ej). unfold has_cell in Y2. rewrite (R j r Lj Ej Y1) in Y2. discriminate.
  Qed.
  Lemma filter_split : forall A (f g : A -> bool) l, length (filter f l) = length (filter (fun x => f x && g x) l) + length (filter (fun x => f x && negb (g x)) l).
  Proof. intros A f g. induction l as [|x l IH]; cbn; auto. destruct (f x), (g x); cbn; lia. Qed.
  Lemma take_ok : forall i r pre cols pending taken1 p1 u,
    take_cells i cols r (map (fun o => negb (pc_collect o) && got o pre) cols) pending = (taken1, p1, u) ->
    taken1 = map (fun o => negb (pc_collect o) && (got o pre || has_cell o r)) cols /\
    p1 = pending - length (filter (fun o => pend pre o && has_cell o r) cols) /\
    forall j id, In (j, id) u <-> j = i /\ exists o, In o cols /\ pc_id o = id /\ has_cell o r = true /\ (pc_collect o = true \/ got o pre = false).
  Proof.
    intros i r pre. induction cols as [|o cols IH]; intros pending taken1 p1 u E; cbn [take_cells map] in E.
    - injection E as <- <- <-. split; [reflexivity|]. split; [cbn; lia|]. intros j id. split; [intros []|intros (_ & o & [] & _)].
    - set (mine := match cell_text (pc_id o) r with
                   | None => (negb (pc_collect o) && got o pre, pending, [])
                   | Some _ => if pc_collect o then (negb (pc_collect o) && got o pre, pending, [(i, pc_id o)])
                               else if negb (pc_collect o) && got o pre then (negb (pc_collect o) && got o pre, pending, [])
                               else (true, pred pending, [(i, pc_id o)])
                   end) in E.
      assert (M : exists a p uu, mine = (a, p, uu) /\ a = negb (pc_collect o) && (got o pre || has_cell o r) /\
        p = pending - (if pend pre o && has_cell o r then 1 else 0) /\
        (forall j id, In (j, id) uu <-> j = i /\ pc_id o = id /\ has_cell o r = true /\ (pc_collect o = true \/ got o pre = false))).
      { unfold mine, pend, has_cell. destruct (cell_text (pc_id o) r), (pc_collect o) eqn:Co, (got o pre) eqn:Go; cbn [negb andb orb]; do 3 eexists; (split; [reflexivity|]);
          (split; [reflexivity|]); (split; [lia|]); intros j id; cbn [In]; split;
          try (intros []; fail); try (intros (_ & _ & ? & _); discriminate);
          try (intros [E0|[]]; injection E0 as <- <-; auto); try (intros (-> & <- & _); auto; fail); intros (_ & _ & _ & [?|?]); discriminate. }
      destruct M as (a & p & uu & -> & Ea & Ep & Eu). destruct (take_cells i cols r (map (fun o => negb (pc_collect o) && got o pre) cols) p) as [[tk2 p2] u2] eqn:Et.
      injection E as <- <- <-. destruct (IH _ _ _ _ Et) as (T1 & T2 & T3). split; [cbn; congruence|]. split.
      + rewrite T2, Ep. cbn [filter]. destruct (pend pre o && has_cell o r); cbn [length]; lia.
      + intros j id. rewrite in_app_iff, Eu, T3. split.
        * intros [(A & B & C & D)|(A & o' & B & C)]; (split; [exact A|]); [exists o|exists o']; cbn; auto.
        * intros (A & o' & [<-|B] & C); [left; tauto|right; split; eauto].
  Qed.
  Lemma sinv_start : sinv [] (repeat false (length (active t))) (length (filter (fun o => negb (pc_collect o)) (active t))) [] [].
  Proof.
    constructor.
    - induction (active t) as [|o l IH]; cbn; auto. rewrite IH. now rewrite andb_false_r.
    - f_equal. apply filter_ext. intros o. unfold pend, got. cbn. now rewrite andb_true_r.
    - reflexivity.
    - intros j id. split; [intros []|]. intros (o & r & _ & _ & E & _). destruct j; discriminate.
  Qed.
  Lemma sinv_miss : forall pre r taken pending matched used, sinv pre taken pending matched used -> holds_row r = false -> sinv (pre ++ [r]) taken pending matched used.
  Proof.
    intros pre r taken pending matched used [A B C D] H. assert (G : forall o, got o (pre ++ [r]) = got o pre) by (intros o; rewrite got_snoc, H; cbn; apply orb_false_r).
    constructor.
    - rewrite A. apply map_ext. intros o. now rewrite G.
    - rewrite B. f_equal. apply filter_ext. intros o. unfold pend. now rewrite G.
    - rewrite hits_app, C. cbn. rewrite H. now rewrite app_nil_r.
    - intros j id. rewrite (D j id). split.
      + intros (o & r0 & I1 & I2 & I3 & I4 & I5 & I6). exists o, r0. assert (Lj : j < length pre) by (apply nth_error_Some; congruence).
        rewrite nth_error_app1 by auto. rewrite firstn_app. replace (j - length pre) with 0 by lia. cbn. rewrite app_nil_r. auto 10.
      + intros (o & r0 & I1 & I2 & I3 & I4 & I5 & I6). assert (Lj : j < length pre).
        { destruct (Nat.lt_ge_cases j (length pre)) as [|Ge]; auto. rewrite nth_error_app2 in I3 by auto. destruct (j - length pre) as [|n]; [injection I3 as <-; congruence|destruct n; discriminate]. }
        rewrite nth_error_app1 in I3 by auto. rewrite firstn_app in I6. replace (j - length pre) with 0 in I6 by lia. cbn in I6. rewrite app_nil_r in I6. exists o, r0. auto 10.
  Qed.
  Lemma sinv_hit : forall pre r taken pending matched used taken1 p1 u, sinv pre taken pending matched used -> holds_row r = true ->
    take_cells (length pre) (active t) r taken pending = (taken1, p1, u) ->
    sinv (pre ++ [r]) taken1 p1 (matched ++ [length pre]) (used ++ u).
  Proof.
    intros pre r taken pending matched used taken1 p1 u [A B C D] H E. rewrite A in E. destruct (take_ok _ _ _ _ _ _ _ _ E) as (T1 & T2 & T3).
    assert (G : forall o, got o (pre ++ [r]) = got o pre || has_cell o r) by (intros o; now rewrite got_snoc, H).
    constructor.
    - rewrite T1. apply map_ext. intros o. now rewrite G.
    - rewrite T2, B. rewrite (filter_split _ (pend pre) (fun o => has_cell o r) (active t)).
      replace (filter (pend (pre ++ [r])) (active t)) with (filter (fun x => pend pre x && negb (has_cell x r)) (active t)); [lia|].
      apply filter_ext. intros o. unfold pend. rewrite G. destruct (pc_collect o), (got o pre), (has_cell o r); reflexivity.
    - rewrite hits_app, C. cbn. now rewrite H.
    - intros j id. rewrite in_app_iff, (D j id), T3. split.
      + intros [(o & r0 & I1 & I2 & I3 & I4 & I5 & I6)|(-> & o & I1 & I2 & I3 & I4)].
        * exists o, r0. assert (Lj : j < length pre) by (apply nth_error_Some; congruence).
          rewrite nth_error_app1 by auto. rewrite firstn_app. replace (j - length pre) with 0 by lia. cbn. rewrite app_nil_r. auto 10.
        * exists o, r. rewrite nth_error_app2, Nat.sub_diag by auto. rewrite firstn_app, Nat.sub_diag, firstn_all. cbn. rewrite app_nil_r. auto 10.
      + intros (o & r0 & I1 & I2 & I3 & I4 & I5 & I6). destruct (Nat.lt_ge_cases j (length pre)) as [Lj|Ge].
        * left. rewrite nth_error_app1 in I3 by auto. rewrite firstn_app in I6. replace (j - length pre) with 0 in I6 by lia. cbn in I6. rewrite app_nil_r in I6. exists o, r0. auto 10.
        * right. rewrite nth_error_app2 in I3 by auto. destruct (j - length pre) as [|n] eqn:Ej; [|destruct n; discriminate]. injection I3 as <-.
          assert (j = length pre) by lia. subst j. rewrite firstn_app, Nat.sub_diag, firstn_all in I6. cbn in I6. rewrite app_nil_r in I6. split; auto. exists o. auto.
  Qed.

  (** *** The loop. *)
  Definition row_bits (r : row) : list bool := map (fun c => is_yes (cell_says c r)) (pt_in t).
  (** What the index may say about the rows. *)
  Definition honest (cand : option Table.rowset) (dec : nat -> nat -> bool) : Prop :=
    forall a i r, cand = Some a -> nth_error (pt_rows t) i = Some r ->
      (Table.has a i = false -> row_says (pt_in t) r = Some false) /\
      (Table.has a i = true -> forall j c, nth_error (pt_in t) j = Some c -> dec i j = true -> cell_says c r = Some true).
  Definition selected (q : res (list nat * list (nat * string) * list (list bool))) (extras : bool) (bits : list (list bool)) (rs : list row) : Prop :=
    match q with
    | Ok (m, u, b) =>
        exists p rest, pt_rows t = p ++ rest /\ m = hits 0 p /\ is_used p u /\ (forall r, In r p -> row_says (pt_in t) r <> None) /\
          (forall i, i < length p -> reached i) /\ (rest = [] \/ done_with p = true) /\ (extras = true -> b = bits ++ map row_bits rs)
    | Err _ => exists i r, nth_error (pt_rows t) i = Some r /\ reached i /\ row_says (pt_in t) r = None
    end.
  Lemma select_sat : forall rs pre cand dec taken pending matched used bits s s1 q, (exists p0, pt_rows t = p0 ++ rs) ->
    negb (existsb pc_collect (active t)) && Nat.eqb pending 0 && negb (match matched with [] => true | _ => false end) = true -> okst s ->
    select_rows X parse t true cand dec pre rs taken pending matched used bits s = (s1, q) ->
    okst s1 /\ q = Ok (matched, used, bits ++ map row_bits rs).
  Proof.
    induction rs as [|r rs IH]; intros pre cand dec taken pending matched used bits s s1 q [p0 Ep] Sat S0 E; cbn [select_rows] in E.
    - injection E as <- <-. cbn. rewrite app_nil_r. auto.
    - rewrite Sat in E. cbn [andb negb] in E. assert (Ir : In r (pt_rows t)) by (rewrite Ep; apply in_app_iff; right; now left).
      destruct (row_full X parse true false 0 (pt_in t) r s) as [s2 q2] eqn:Ef. destruct (full_ok (pt_in t) _ _ 0 _ _ _ _ S0 Ir (fun j => eq_refl) Ef) as [S2 R].
      destruct q2 as [l|e]; [|destruct R; discriminate]. destruct R as [-> _]. rewrite orb_true_r in E.
      assert (Ex : exists q0, pt_rows t = q0 ++ rs) by (exists (p0 ++ [r]); rewrite <- app_assoc; exact Ep).
      destruct (IH _ _ _ _ _ _ _ _ _ _ _ Ex Sat S2 E) as [S1 ->]. split; auto. cbn [map]. rewrite <- app_assoc. reflexivity.
  Qed.
  Lemma select_loop : forall rs pre extras cand dec taken pending matched used bits s s1 q, pt_rows t = pre ++ rs -> okst s ->
    sinv pre taken pending matched used -> (forall r, In r pre -> row_says (pt_in t) r <> None) -> (forall i, i < length pre -> reached i) ->
    honest cand dec -> select_rows X parse t extras cand dec (length pre) rs taken pending matched used bits s = (s1, q) ->
    okst s1 /\ selected q extras bits rs.
  Proof.
    induction rs as [|r rs IH]; intros pre extras cand dec taken pending matched used bits s s1 q Er S0 I0 Np Rp Hn E; cbn [select_rows] in E.
    - injection E as <- <-. split; auto. cbn [selected]. exists pre, []. destruct I0 as [_ _ Im Iu]. split; auto. split; auto. split; auto. split; auto. split; auto. split; auto.
      intros _. cbn. now rewrite app_nil_r.
    - rewrite (satisfied_done _ _ _ _ _ I0) in E. destruct (done_with pre) eqn:Dn.
      + destruct extras; cbn [andb negb] in E.
        * assert (Ef : select_rows X parse t true cand dec (length pre) (r :: rs) taken pending matched used bits s = (s1, q)).
          { cbn [select_rows]. rewrite (satisfied_done _ _ _ _ _ I0), Dn. exact E. }
          destruct (select_sat _ _ _ _ _ _ _ _ _ _ _ _ (ex_intro _ pre Er) (eq_trans (satisfied_done _ _ _ _ _ I0) Dn) S0 Ef) as [S1 ->]. split; auto.
          cbn [selected]. exists pre, (r :: rs). destruct I0 as [_ _ Im Iu]. split; auto. split; auto. split; auto.
        * injection E as <- <-. split; auto. cbn [selected]. exists pre, (r :: rs). destruct I0 as [_ _ Im Iu]. split; auto. split; auto. split; auto. split; auto. split; auto. split; auto. discriminate.
      + assert (Ir : In r (pt_rows t)) by (rewrite Er; apply in_app_iff; right; now left).
        assert (En : nth_error (pt_rows t) (length pre) = Some r) by (rewrite Er, nth_error_app2, Nat.sub_diag; auto).
        pose proof (undone_reached pre (r :: rs) Er Dn) as Rch. cbn [andb] in E.
        match type of E with (let '(s3, q3) := ?x in _) = _ => destruct x as [s2 q2] eqn:Eq end.
        assert (K : okst s2 /\ match q2 with Ok (b, l) => row_says (pt_in t) r = Some b /\ (extras = true -> l = row_bits r) | Err _ => row_says (pt_in t) r = None end).
        { destruct extras.
          - destruct (row_full X parse false false 0 (pt_in t) r s) as [s3 q3] eqn:Ef. destruct (full_ok (pt_in t) _ _ 0 _ _ _ _ S0 Ir (fun j => eq_refl) Ef) as [S3 R].
            destruct q3 as [l|e]; injection Eq as <- <-; split; auto; [|tauto]. destruct R as [-> R2]. split; auto.
          - destruct cand as [a|].
            + destruct (Hn a (length pre) r eq_refl En) as [H1 H2]. destruct (Table.has a (length pre)) eqn:Ha.
              * destruct (row_inputs X parse (dec (length pre)) 0 (pt_in t) r s) as [s3 q3] eqn:Ef.
                destruct (inputs_ok (pt_in t) _ 0 _ _ _ _ S0 Ir (fun j => eq_refl) (fun j c Ej Dj => H2 eq_refl j c Ej Dj) Ef) as [S3 R].
                destruct q3 as [b|e]; injection Eq as <- <-; split; auto. split; auto. discriminate.
              * injection Eq as <- <-. split; auto. split; auto. discriminate.
            + destruct (row_inputs X parse (fun _ => false) 0 (pt_in t) r s) as [s3 q3] eqn:Ef.
              destruct (inputs_ok (pt_in t) (fun _ => false) 0 _ _ _ _ S0 Ir (fun j => eq_refl) (fun j c Ej Dj => ltac:(discriminate Dj)) Ef) as [S3 R].
              destruct q3 as [b|e]; injection Eq as <- <-; split; auto. split; auto. discriminate. }
        destruct K as [S2 K]. destruct q2 as [[b l]|e].
        2:{ injection E as <- <-. split; auto. cbn [selected]. exists (length pre), r. auto. }
        destruct K as [Ks Kl]. rewrite orb_false_r in E.
        assert (Er' : pt_rows t = (pre ++ [r]) ++ rs) by (rewrite <- app_assoc; exact Er).
        assert (Np' : forall r0, In r0 (pre ++ [r]) -> row_says (pt_in t) r0 <> None).
        { intros r0 H0. apply in_app_iff in H0 as [H0|[<-|[]]]; auto. congruence. }
        assert (Rp' : forall i, i < length (pre ++ [r]) -> reached i).
        { intros i Li. rewrite app_length in Li. cbn in Li. destruct (Nat.eq_dec i (length pre)) as [->|]; auto. apply Rp. lia. }
        assert (Ln : S (length pre) = length (pre ++ [r])) by (rewrite app_length; cbn; lia). rewrite Ln in E.
        assert (Fin : forall q, selected q extras (bits ++ [l]) rs -> selected q extras bits (r :: rs)).
        { intros [[[m u] b0]|e]; cbn [selected]; auto. intros (p & rest & H1 & H2 & H3 & H4 & H5 & H6 & H7). exists p, rest. split; auto. split; auto. split; auto. split; auto. split; auto. split; auto.
          intros Ex. rewrite (H7 Ex), (Kl Ex). cbn [map]. now rewrite <- app_assoc. }
        destruct b; cbn [negb] in E.
        * assert (Hr : holds_row r = true) by (unfold PTableSpec.holds_row; now rewrite Ks).
          destruct (take_cells (length pre) (active t) r taken pending) as [[taken1 p1] u1] eqn:Et.
          destruct (IH _ _ _ _ _ _ _ _ _ _ _ _ Er' S2 (sinv_hit _ _ _ _ _ _ _ _ _ I0 Hr Et) Np' Rp' Hn E) as [S1 R]. auto.
        * assert (Hr : holds_row r = false) by (unfold PTableSpec.holds_row; now rewrite Ks).
          destruct (IH _ _ _ _ _ _ _ _ _ _ _ _ Er' S2 (sinv_miss _ _ _ _ _ _ I0 Hr) Np' Rp' Hn E) as [S1 R]. auto.
  Qed.
  Definition chosen (extras : bool) (q : res tsel) : Prop :=
    match q with
    | Ok l => exists p rest, pt_rows t = p ++ rest /\ tl_matched l = hits 0 p /\ is_used p (tl_used l) /\ (forall r, In r p -> row_says (pt_in t) r <> None) /\
        (forall i, i < length p -> reached i) /\ (rest = [] \/ done_with p = true) /\
        tl_bits l = if extras then Some (map row_bits (pt_rows t)) else None
    | Err _ => exists i r, nth_error (pt_rows t) i = Some r /\ reached i /\ row_says (pt_in t) r = None
    end.
  Lemma tselect_ok : forall extras w w1 q, bind_env w = PW h0 (pw_store w) env ->
    extras = true \/ table_index parse t = None \/ smooth X parse h0 env t ->
    tselect X parse extras t w = (w1, q) ->
    (exists g, w1 = PW g (pw_store w) env /\ hext h0 g) /\ chosen extras q.
  Proof.
    intros extras w w1 q Bw Md E. unfold tselect in E. cbv zeta in E. rewrite Bw in E. cbn [pw_heap pw_store pw_env] in E.
    set (s0 := TS start (repeat None (length (pt_in t))) h0) in E.
    assert (S0 : okst s0).
    { split; [apply hext_refl|]. split; [now left|]. split; [apply repeat_length|]. intros i c f v _ _ Ev. cbn in Ev. exfalso. clear - Ev.
      revert i Ev. induction (length (pt_in t)) as [|n IH]; intros [|i] Ev; cbn in Ev; try discriminate. eauto. }
    assert (C : exists s1 cand, (if extras then (s0, Ok None) else match table_index parse t with None => (s0, Ok None) | Some ix => candidate_rows X parse ix 0 (pt_in t) None s0 end) = (s1, Ok cand) /\
      okst s1 /\ honest cand (fun i col => match table_index parse t with Some ix => Table.decides ix col i | None => false end)).
    { assert (Hno : honest None (fun i col => match table_index parse t with Some ix => Table.decides ix col i | None => false end)) by (intros a i r Ea; discriminate).
      destruct extras; [exists s0, None; auto|]. destruct (table_index parse t) as [ix|] eqn:Ei; [|exists s0, None; auto].
      destruct Md as [Md|[Md|Sm]]; try discriminate. pose proof Ei as Ei'. unfold table_index, Table.build_index in Ei. cbn [Table.tb_rows Table.tb_in] in Ei.
      destruct (length (pt_rows t) <? 8); [discriminate|]. destruct (existsb _ _); [|discriminate]. injection Ei as <-.
      destruct (candidates_ok Sm _ eq_refl (pt_in t) 0 None s0 (fun j => eq_refl) S0) as (s1 & o & A1 & A2 & A3); [intros j x Lj; lia|].
      exists s1, o. split; [exact A1|]. split; [exact A2|]. intros a i r -> En. destruct (A3 i r En) as [B1 B2]. split; [exact B1|]. intros Ha j c Ej Dj.
      unfold Table.decides in Dj. destruct (nth_error (map (Table.build_column classify (pt_rows t)) (pt_in t)) j) as [[x|]|] eqn:Ex; try discriminate.
      apply (B2 Ha j c x); auto. apply nth_error_Some. congruence. }
    destruct C as (s1 & cand & Ec & S1 & Hn). rewrite Ec in E.
    destruct (select_rows X parse t extras cand _ 0 (pt_rows t) _ _ [] [] [] s1) as [s2 q2] eqn:Es.
    destruct (select_loop (pt_rows t) [] extras cand _ _ _ _ _ _ _ _ _ eq_refl S1 sinv_start (fun r F => match F with end) (fun i F => ltac:(cbn in F; lia)) Hn Es) as [S2 R].
    destruct q2 as [[[m u] b]|e]; injection E as <- <-; (split; [exists (ts_heap s2); split; [reflexivity|apply S2]|]); cbn [chosen selected] in *; auto.
    destruct R as (p & rest & H1 & H2 & H3 & H4 & H5 & H6 & H7). exists p, rest. cbn [tl_matched tl_used tl_bits]. split; auto. split; auto. split; auto. split; auto. split; auto. split; auto.
    destruct extras; auto. now rewrite (H7 eq_refl).
  Qed.
End Sel.
