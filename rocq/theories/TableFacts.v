(** Decision tables do what TableSpec.v says. *)
From Coq Require Import String Ascii ZArith Lia Bool List Arith.
From Verif Require Import Base Dec Value Heap HeapSpec TreeFacts HeapFacts DotFacts Ast Ops Compiler Vm Eval Funcs PureFacts RepFacts ContentFacts MemoFacts Isolate Session
  Graph Walker Nodes NodeSpec TransformFacts ExprNodeFacts OwnFacts Table TableSpec HeapClaims.
Import ListNotations.
Local Open Scope string_scope.
Local Open Scope list_scope.
Local Open Scope nat_scope.

Lemma same_outcome_truth : forall r1 h1 r2 h2, same_outcome (r1, h1) (r2, h2) -> truth r1 = truth r2.
Proof.
  intros [v1|e1] h1 [v2|e2] h2 S; cbn in S; try contradiction; [|now subst]. destruct S as (t & R1 & R2).
  inversion R1; subst; inversion R2; subst; reflexivity.
Qed.

Section T.
  Variable L : lib.
  Hypothesis HL : plain_lib L.
  Variable parse : ekind -> string -> res node.
  Let X := std_ext L.
  Variables (env : value) (nodes : option value) (h0 : heap) (tb : table).
  Hypothesis Henv : has_tree h0 env.
  Hypothesis Hnodes : forall n, nodes = Some n -> has_tree h0 n.
  Hypothesis Hq : quiet parse tb.
  Hypothesis Hc : calm X parse env nodes h0 tb.
  Notation start := (start env nodes).
  Notation cell_holds := (cell_holds X parse env nodes h0).
  Notation holds := (holds X parse env nodes h0).
  Notation yields := (yields X parse env nodes h0).
  Notation cells_yield := (cells_yield X parse env nodes h0).

  Lemma srun_hext : forall k src sc g g1 r, (forall n, parse k src = Ok n -> no_assign n = true) -> srun X parse k src sc g = (g1, r) -> hext g g1.
  Proof.
    intros k src sc g g1 r N E. unfold srun in E. destruct (parse k src) as [n|]; [|injection E as <- <-; apply hext_refl].
    destruct (compile X n); [|injection E as <- <-; apply hext_refl].
    pose proof (evaluate_pure X n sc g (std_pure L) (no_assign_flat n (N n eq_refl))) as P.
    destruct (evaluate X n sc g) as [r1 g2]. injection E as <- <-. exact P.
  Qed.
  Lemma srun_alike : forall k src s1 s2 g1 g2 P full, (forall n, parse k src = Ok n -> no_assign n = true /\ reads P full n = true) ->
    ealike P full g1 g2 s1 s2 ->
    same_outcome (snd (srun X parse k src s1 g1), fst (srun X parse k src s1 g1)) (snd (srun X parse k src s2 g2), fst (srun X parse k src s2 g2)).
  Proof.
    intros k src s1 s2 g1 g2 P full N E. unfold srun. destruct (parse k src) as [n|]; [|reflexivity]. destruct (compile X n); [|reflexivity].
    destruct (N n eq_refl) as [Na Nr]. pose proof (evaluate_alike L P full n s1 s2 g1 g2 HL Na Nr E) as S. fold X in S.
    destruct (evaluate X n s1 g1), (evaluate X n s2 g2). exact S.
  Qed.

  (** The session of the table at work: [$] is whatever the last test left, remembered references have the value they have on their own. *)
  Definition st (s : session) (g : heap) : Prop :=
    hext h0 g /\ (ss_scope s = start \/ exists w, has_tree g w /\ ss_scope s = set_local start "$" w) /\
    forall f v, aget f (ss_refs s) = Some v -> exists g1 v0 t, srun X parse KStandard f start h0 = (g1, Ok v0) /\ repr g1 v0 t /\ repr g v t.
  Lemma st_hext : forall s g g1, st s g -> hext g g1 -> st s g1.
  Proof.
    intros s g g1 (A & B & C) E. split; [eapply hext_trans; eauto|]. split.
    - destruct B as [B|(w & W & B)]; [now left|right]. exists w. split; [eapply has_tree_hext; eauto|exact B].
    - intros f v F. destruct (C f v F) as (k & v0 & t & R & R1 & R2). exists k, v0, t. split; [exact R|]. split; [exact R1|]. eapply repr_hext; eauto.
  Qed.
  Lemma st_start : st (node_session env nodes) h0.
  Proof.
    unfold node_session. split; [apply hext_refl|]. destruct nodes as [n|]; cbn; (split; [left; reflexivity|intros f v F; discriminate]).
  Qed.
  Lemma start_alike : forall s g, st s g -> ealike not_dollar false h0 g start (ss_scope s).
  Proof.
    intros s g (A & B & _). assert (Bs : sc_base (ss_scope s) = env) by (destruct B as [->|(w & _ & ->)]; reflexivity).
    assert (Lo : forall k, not_dollar k = true -> local_str (ss_scope s) k = local_str start k).
    { intros k K. destruct B as [->|(w & _ & ->)]; [reflexivity|]. unfold local_str, set_local; cbn [sc_locals]. apply aget_aset_ne.
      unfold not_dollar in K. apply negb_true_iff in K. apply String.eqb_neq in K. unfold dollar in K. congruence. }
    split; [|split; [|discriminate]].
    - rewrite Bs. cbn [sc_base]. eapply alike_both; eauto. apply hext_refl.
    - intros k K. rewrite (Lo k K). unfold local_str. cbn [sc_locals start]. destruct nodes as [n|] eqn:En; [|exact I]. cbn [aget].
      destruct (String.eqb "$nodes" k); [|exact I]. cbn. eapply alike_both; eauto. apply hext_refl.
  Qed.
  Lemma dollar_alike : forall g1 g2 v1 v2, hext h0 g1 -> hext h0 g2 -> alike g1 g2 v1 v2 ->
    ealike (fun _ => true) true g1 g2 (set_local start "$" v1) (set_local start "$" v2).
  Proof.
    intros g1 g2 v1 v2 E1 E2 A.
    assert (K : Forall2 (kalike g1 g2) (sc_locals (set_local start "$" v1)) (sc_locals (set_local start "$" v2))).
    { cbn. destruct nodes as [n|] eqn:En; cbn; [|repeat constructor; auto]. constructor; [split; [reflexivity|]; cbn; eapply alike_both; eauto|repeat constructor; auto]. }
    split; [cbn; eapply alike_both; eauto|]. split; [intros k _; now apply aget_alike|auto].
  Qed.

  Lemma std_no_assign : forall src, std_source tb src -> forall n, parse KStandard src = Ok n -> no_assign n = true.
  Proof. intros src S n P. eapply (proj1 Hq); eauto. Qed.
  (** A standard expression means the same at any time. *)
  Lemma std_run : forall s g src g1 r, st s g -> std_source tb src -> s_std X parse src s g = (g1, r) ->
    hext g g1 /\ same_outcome (snd (srun X parse KStandard src start h0), fst (srun X parse KStandard src start h0)) (r, g1) /\ (forall m, r <> Err (EPanic m)).
  Proof.
    intros s g src g1 r S So E. unfold s_std in E. split; [eapply srun_hext; [|exact E]; now apply std_no_assign|].
    pose proof (srun_alike KStandard src start (ss_scope s) h0 g not_dollar false (fun n P => proj1 Hq src n So P) (start_alike s g S)) as A.
    rewrite E in A. cbn [fst snd] in A. split; [exact A|]. intros m ->. pose proof (proj1 Hc src m So) as C.
    destruct (snd (srun X parse KStandard src start h0)) as [v|e]; cbn in A; [contradiction|]. subst e. now apply C.
  Qed.
  Lemma ref_run : forall s g f s1 g1 r c, st s g -> In c (tb_in tb) -> ic_field c = Some f -> s_ref X parse f s g = (s1, g1, r) ->
    hext g g1 /\ st s1 g1 /\
    match r with
    | Ok _ => exists k v0 t w, srun X parse KStandard f start h0 = (k, Ok v0) /\ hext h0 k /\ repr k v0 t /\ repr g1 w t /\ ss_scope s1 = set_local start "$" w /\ aget f (ss_refs s1) = Some w
    | Err e => (exists k, srun X parse KStandard f start h0 = (k, Err e)) /\ (forall m, e <> EPanic m)
    end.
  Proof.
    intros s g f s1 g1 r c S Ic Fc E. assert (So : std_source tb f) by (left; eauto). unfold s_ref in E.
    assert (Loc : forall w, set_local (ss_scope s) dollar w = set_local start "$" w).
    { intros w. destruct S as (_ & [->|(w0 & _ & ->)] & _); [reflexivity|]. unfold set_local; cbn [sc_base sc_locals]. now rewrite aset_aset. }
    destruct (aget f (ss_refs s)) as [v|] eqn:A.
    - injection E as <- <- <-. pose proof S as (S1 & S2 & S3). destruct (S3 f v A) as (k & v0 & t & R & R1 & R2). split; [apply hext_refl|].
      assert (hext h0 k) by (eapply srun_hext; [|exact R]; now apply std_no_assign).
      split; [|exists k, v0, t, v; unfold s_local; cbn; rewrite Loc; repeat split; auto].
      unfold s_local. split; [exact S1|]. cbn [ss_scope ss_refs]. split; [|exact S3]. right. exists v. split; [now exists t|apply Loc].
    - destruct (srun X parse KStandard f (ss_scope s) g) as [k1 r1] eqn:E1.
      pose proof (std_run s g f k1 r1 S So E1) as (H & O & P). destruct (srun X parse KStandard f start h0) as [k r0] eqn:E0. cbn [fst snd] in O.
      destruct r1 as [v|e]; injection E as <- <- <-.
      + destruct r0 as [v0|e0]; cbn in O; [|contradiction]. destruct O as (t & R1 & R2).
        assert (hext h0 k) by (eapply srun_hext; [|exact E0]; now apply std_no_assign).
        split; [exact H|]. cbn [ss_scope ss_refs]. split.
        * pose proof (st_hext _ _ _ S H) as (S1 & S2 & S3). split; [exact S1|]. split; [right; exists v; split; [now exists t|apply Loc]|].
          cbn [ss_refs]. intros f2 v2 A2. destruct (string_dec f f2) as [<-|N].
          -- rewrite aget_aset_eq in A2. injection A2 as <-. exists k, v0, t. auto.
          -- rewrite aget_aset_ne in A2 by auto. auto.
        * exists k, v0, t, v. repeat split; auto. apply aget_aset_eq.
      + destruct r0 as [v0|e0]; cbn in O; [contradiction|]. subst e0. split; [exact H|]. split; [eapply st_hext; eauto|].
        split; [eauto|]. intros m ->. now apply (P m).
  Qed.

  Lemma in_cell_text : forall c r, in_cell c r = text (ic_id c) r.
  Proof. reflexivity. Qed.
  Lemma calm_truth : forall r, (forall m, r <> Err (EPanic m)) -> truth r = Ok (is_true r).
  Proof. intros [[| | | | | |]|[]] N; cbn; auto. exfalso. eapply N. reflexivity. Qed.

  (** *** Cells and rows *)
  Lemma cell_ok : forall c r s g, st s g -> In c (tb_in tb) -> In r (tb_rows tb) ->
    exists s1 g1, cell_passes X parse c r s g = (s1, g1, Ok (cell_holds c r)) /\ hext g g1 /\ st s1 g1.
  Proof.
    intros c r s g S Ic Ir. unfold cell_passes, TableSpec.cell_holds. rewrite in_cell_text. destruct (text (ic_id c) r) as [src|] eqn:T.
    2: { exists s, g. split; [reflexivity|]. split; [apply hext_refl|exact S]. }
    destruct (ic_field c) as [f|] eqn:F.
    - assert (Us : unary_source tb f src) by (exists c, r; auto).
      destruct (s_ref X parse f s g) as [[s1 g1] q] eqn:E. destruct (ref_run s g f s1 g1 q c S Ic F E) as (H & S1 & Q). destruct q as [u|e].
      + destruct Q as (k & v0 & t & w & E0 & H0 & R1 & R2 & Sc & _). rewrite E0. unfold s_unary. rewrite Sc.
        destruct (srun X parse KUnary src (set_local start "$" w) g1) as [g2 o] eqn:E2.
        assert (Na : forall n, parse KUnary src = Ok n -> no_assign n = true) by (intros n P; eapply (proj2 Hq); eauto).
        pose proof (srun_alike KUnary src (set_local start "$" v0) (set_local start "$" w) k g1 (fun _ => true) true
          (fun n P => conj (Na n P) (reads_all n)) (dollar_alike k g1 v0 w H0 (proj1 S1) (ex_intro _ t (conj R1 R2)))) as A.
        rewrite E2 in A. cbn [fst snd] in A. pose proof (same_outcome_truth _ _ _ _ A) as Tr.
        pose proof (srun_hext _ _ _ _ _ _ Na E2) as H2. exists s1, g2. split; [|split; [eapply hext_trans; eauto|eapply st_hext; eauto]].
        f_equal. rewrite calm_truth in Tr by (intros m; now apply (proj2 Hc f src k v0 m)).
        destruct o as [[| | | | | |]|[]]; cbn in *; congruence.
      + destruct Q as ((k & E0) & Np). rewrite E0. exists s1, g1. split; [|auto]. f_equal. apply calm_truth. intros m C. injection C as ->. now apply (Np m).
    - assert (So : std_source tb src) by (right; left; exists c, r; auto).
      destruct (s_std X parse src s g) as [g1 o] eqn:E. destruct (std_run s g src g1 o S So E) as (H & A & P). exists s, g1.
      split; [|split; [exact H|eapply st_hext; eauto]]. f_equal. apply same_outcome_truth in A. rewrite <- A. apply calm_truth. intros m. now apply (proj1 Hc).
  Qed.
  Lemma row_ok : forall cs dec i r s g, st s g -> incl cs (tb_in tb) -> In r (tb_rows tb) ->
    (forall j c, nth_error cs j = Some c -> dec (i + j) = true -> cell_holds c r = true) ->
    exists s1 g1, row_matches X parse dec i cs r s g = (s1, g1, Ok (forallb (fun c => cell_holds c r) cs)) /\ hext g g1 /\ st s1 g1.
  Proof.
    induction cs as [|c cs IH]; intros dec i r s g Hs In_ Ir D; cbn [row_matches forallb].
    - exists s, g. split; [reflexivity|]. split; [apply hext_refl|exact Hs].
    - assert (D' : forall j c, nth_error cs j = Some c -> dec (S i + j) = true -> cell_holds c r = true).
      { intros j c0 N Dj. apply (D (S j) c0); auto. now rewrite <- plus_n_Sm. }
      destruct (dec i) eqn:Di.
      + rewrite (D 0 c eq_refl) by (now rewrite Nat.add_0_r). cbn [andb]. apply IH; auto. intros x Ix. apply In_. now right.
      + destruct (cell_ok c r s g Hs (In_ c (or_introl eq_refl)) Ir) as (s1 & g1 & E & H & S1). rewrite E. destruct (cell_holds c r); cbn [andb].
        * destruct (IH dec (S i) r s1 g1 S1) as (s2 & g2 & E2 & H2 & S2); auto; [intros x Ix; apply In_; now right|].
          exists s2, g2. split; [exact E2|]. split; [eapply hext_trans; eauto|exact S2].
        * exists s1, g1. auto.
  Qed.

  Lemma value_ok : forall o r src s g g1 q, st s g -> In o (tb_out tb) -> In r (tb_rows tb) -> text (oc_id o) r = Some src ->
    s_std X parse src s g = (g1, q) -> hext g g1 /\ (forall m, q <> Err (EPanic m)) /\
      exists x, yields src x /\ match q with Ok v => exists t, x = Some t /\ repr g1 v t | Err _ => x = None end.
  Proof.
    intros o r src s g g1 q S Io Ir T E. destruct (std_run s g src g1 q S) as (H & A & P); auto; [right; right; eauto|]. split; [exact H|]. split; [exact P|].
    unfold TableSpec.yields. destruct (srun X parse KStandard src start h0) as [k [v0|e0]]; cbn [fst snd] in A; destruct q as [v|e]; cbn in A; try contradiction.
    - destruct A as (t & R1 & R2). exists (Some t). split; [eauto|eauto].
    - exists None. auto.
  Qed.
  Lemma out_cell_text : forall o r, out_cell o r = match text (oc_id o) r with
    | Some src => if String.eqb (fst (write_path o)) "" then None else Some (fst (write_path o), src, snd (write_path o)) | None => None end.
  Proof. intros o r. unfold out_cell, text. destruct (write_path o) as [p c]. cbn. destruct (String.eqb p ""), (aget (oc_id o) r) as [s|]; auto; destruct (String.eqb s ""); auto. Qed.
  Lemma cells_exist : forall ios r, incl (map snd ios) (tb_out tb) -> In r (tb_rows tb) -> exists vs, cells_yield (written ios r) vs.
  Proof.
    intros ios r In_ Ir. induction ios as [|[i o] ios IH]; [exists []; constructor|]. destruct IH as (vs & V); [intros x Ix; apply In_; now right|].
    cbn [written flat_map fst snd]. destruct (text (oc_id o) r) as [src|] eqn:T; [|exists vs; exact V]. destruct (String.eqb (fst (write_path o)) ""); [exists vs; exact V|].
    destruct (s_std X parse src (node_session env nodes) h0) as [g1 q] eqn:E.
    destruct (value_ok o r src _ _ g1 q st_start (In_ o (or_introl eq_refl)) Ir T E) as (_ & _ & x & Y & _).
    exists (Cell i (fst (write_path o)) (snd (write_path o)) x :: vs). constructor; [cbn; auto|exact V].
  Qed.
  Lemma yields_fun : forall src a b, yields src a -> yields src b -> a = b.
  Proof.
    intros src a b A B. unfold TableSpec.yields in *. destruct (srun X parse KStandard src start h0) as [k [v|e]]; [|congruence].
    destruct A as (t & -> & R1), B as (t' & -> & R2). now rewrite (repr_fun _ _ _ R1 _ R2).
  Qed.
  Lemma cells_fun : forall cs a, cells_yield cs a -> forall b, cells_yield cs b -> a = b.
  Proof.
    induction 1 as [|c [i p q x] cs a (A1 & A2 & A3 & A4) A IH]; intros b B; [now inversion B|]. inversion B as [|? [i' p' q' x'] ? b' (B1 & B2 & B3 & B4) B']; subst.
    cbn in *. rewrite (yields_fun _ _ _ A4 B4), (IH _ B'). congruence.
  Qed.

  (** The output cells of a row, each written into the row's own object. *)
  Lemma outputs_ok : forall ios r s gb g out acc f vs, st s gb -> hext gb g -> incl (map snd ios) (tb_out tb) -> In r (tb_rows tb) ->
    own g out acc f -> NoDup f -> (forall l, In l f -> length gb <= l) -> cells_yield (written ios r) vs ->
    exists g1, run_outputs X parse (map snd ios) r s out g = (g1, Ok (all_ok vs)) /\ hext gb g1 /\
      (all_ok vs = true -> exists f1, own g1 out (write_all vs acc) f1 /\ NoDup f1 /\ forall l, In l f1 -> length gb <= l).
  Proof.
    induction ios as [|[i o] ios IH]; intros r s gb g out acc f vs S Hg In_ Ir O N B V; cbn [map snd run_outputs].
    - inversion V; subst. exists g. split; [reflexivity|]. split; [exact Hg|]. intros _. exists f. auto.
    - assert (In' : incl (map snd ios) (tb_out tb)) by (intros x Ix; apply In_; now right).
      rewrite out_cell_text. cbn [written flat_map fst snd] in V. destruct (text (oc_id o) r) as [src|] eqn:T; [|eapply IH; eauto].
      destruct (String.eqb (fst (write_path o)) ""); [eapply IH; eauto|]. cbn [app] in V. inversion V as [|c v cs vs' (C1 & C2 & C3 & Y) V']; subst. cbn in C1, C2, C3, Y.
      destruct (s_std X parse src s g) as [g1 q] eqn:E. destruct (value_ok o r src s g g1 q (st_hext _ _ _ S Hg) (In_ o (or_introl eq_refl)) Ir T E) as (H1 & P & x & Yx & Q).
      rewrite (yields_fun _ _ _ Yx Y) in Q. destruct q as [w|e].
      + destruct Q as (t & Ev & R). destruct (copy_own g1 w t R) as (g2 & w1 & fx & Ec & H2 & Ox & Nx & Fx). rewrite Ec. cbn [all_ok forallb write_all fold_left]. rewrite Ev, C2.
        assert (O2 : own g2 out acc f) by (eapply own_hext; eauto using hext_trans).
        assert (Lg : length gb <= length g1) by (apply hext_length; eauto using hext_trans).
        assert (Ap : apart f fx).
        { intros l I1 I2. specialize (Fx l I2). pose proof (own_lt _ _ _ _ l (own_hext _ _ _ _ _ O H1) I1). lia. }
        destruct (insert_field_own (fst (write_path o)) g2 out acc f w1 t fx O2 N Ox Nx Ap) as (f2 & O3 & N3 & I3 & Fr & Le).
        set (g3 := fst (dot_insert g2 out (fst (write_path o)) w1)) in *. pose proof (hext_trans _ _ _ (hext_trans _ _ _ Hg H1) H2) as Hb2.
        apply (IH r s gb g3 out (twrite (split_dot (fst (write_path o))) t acc) f2 vs'); auto.
        * apply hext_pointwise; [pose proof (hext_length _ _ Hb2); lia|]. intros l Ll. rewrite Fr.
          -- destruct Hb2 as (z & ->). unfold hget. now apply nth_error_app1.
          -- pose proof (hext_length _ _ Hb2). lia.
          -- intros I. specialize (B l I). lia.
        * intros l I. destruct (I3 l I) as [I4|[I4|I4]]; auto; [specialize (Fx l I4); lia|]. pose proof (hext_length _ _ Hb2). lia.
      + subst. cbn [all_ok forallb]. rewrite Q. cbn [andb]. exists g1. destruct e; try (split; [reflexivity|]; split; [eapply hext_trans; eauto|discriminate]).
        exfalso. eapply P. reflexivity.
  Qed.
  Lemma map_snd_numbered : forall A (l : list A), map snd (numbered l) = l.
  Proof. intros A l. unfold numbered. generalize 0. induction l as [|x l IH]; intros n; cbn; [reflexivity|]. now rewrite IH. Qed.
  Lemma trace_ok : forall tr cs r s g, st s g -> incl cs (tb_in tb) -> exists g1, trace_row X parse tr cs r s g = (g1, Ok tt) /\ hext g g1.
  Proof.
    intros [|] cs r s g S In_; [|exists g; split; [reflexivity|apply hext_refl]]. unfold trace_row. revert g S. induction cs as [|c cs IH]; intros g S; cbn [trace_parts].
    - exists g. split; [reflexivity|apply hext_refl].
    - assert (In' : incl cs (tb_in tb)) by (intros x Ix; apply In_; now right).
      destruct (aget (ic_id c) r); [|now apply IH]. destruct (ic_field c) as [f|] eqn:F; [|now apply IH]. destruct (aget f (ss_refs s)); [now apply IH|].
      destruct (s_std X parse f s g) as [g1 q] eqn:E. destruct (std_run s g f g1 q S) as (H & _ & P); auto; [left; exists c; split; [apply In_; now left|exact F]|].
      destruct (IH In' g1 (st_hext _ _ _ S H)) as (g2 & E2 & H2). assert (hext g g2) by (eapply hext_trans; eauto).
      destruct q as [v|e]; [exists g2; auto|]. destruct e; try (exists g2; auto; fail). exfalso. eapply P. reflexivity.
  Qed.
  (** A whole row. *)
  Definition fair (p : pruning) : Prop := forall i r, nth_error (tb_rows tb) i = Some r ->
    (skipped p i = true -> holds tb r = false) /\
    (skipped p i = false -> forall j c, nth_error (tb_in tb) j = Some c -> decided p i j = true -> cell_holds c r = true).
  Lemma evaluate_row_ok : forall tr dec r s g, st s g -> In r (tb_rows tb) ->
    (forall j c, nth_error (tb_in tb) j = Some c -> dec j = true -> cell_holds c r = true) ->
    exists s1 g1 o, row_says X parse env nodes h0 tb r o /\ hext g g1 /\ st s1 g1 /\
      match o with
      | None => evaluate_row X parse tr tb dec r s g = (s1, g1, Ok None)
      | Some t => exists v, evaluate_row X parse tr tb dec r s g = (s1, g1, Ok (Some v)) /\ repr g1 v t
      end.
  Proof.
    intros tr dec r s g S Ir D. destruct (cells_exist (numbered (tb_out tb)) r) as (vs & V); auto; [rewrite map_snd_numbered; apply incl_refl|].
    destruct (row_ok (tb_in tb) dec 0 r s g S (incl_refl _) Ir D) as (s1 & g1 & E & H & S1). unfold evaluate_row. rewrite E.
    unfold row_says. change (forallb (fun c => cell_holds c r) (tb_in tb)) with (holds tb r). destruct (holds tb r) eqn:Hr.
    2: { exists s1, g1, None. split; [exists vs; auto|auto]. }
    cbn [new_obj halloc]. set (g2 := g1 ++ [CObj []]).
    assert (H2 : hext g1 g2) by (now exists [CObj []]).
    destruct (outputs_ok (numbered (tb_out tb)) r s1 g1 g2 (VObj (length g1)) (TObj []) [length g1] vs) as (g3 & E3 & H3 & O3); auto.
    - rewrite map_snd_numbered. apply incl_refl.
    - econstructor; [unfold g2, hget; rewrite nth_error_app2 by lia; now rewrite Nat.sub_diag|constructor].
    - repeat constructor. intros [].
    - intros l [<-|[]]. lia.
    - rewrite map_snd_numbered in E3. unfold new_obj, halloc. fold g2. rewrite E3. destruct (all_ok vs) eqn:Ok_.
      + destruct (trace_ok tr (tb_in tb) r s1 g3 (st_hext _ _ _ S1 H3) (incl_refl _)) as (g4 & E4 & H4). rewrite E4.
        destruct (O3 eq_refl) as (f1 & O & _). exists s1, g4, (Some (write_all vs (TObj []))). split; [exists vs; rewrite Ok_; auto|].
        split; [eauto using hext_trans|]. split; [eapply st_hext; eauto using hext_trans|]. exists (VObj (length g1)). split; [reflexivity|].
        eapply repr_hext; eauto. eapply own_repr; eauto.
      + exists s1, g3, None. split; [exists vs; rewrite Ok_; auto|]. split; [eauto using hext_trans|]. split; [eapply st_hext; eauto|reflexivity].
  Qed.

  Notation row_says := (row_says X parse env nodes h0 tb).
  Lemma says_total : forall r, In r (tb_rows tb) -> exists o, row_says r o.
  Proof.
    intros r Ir. destruct (cells_exist (numbered (tb_out tb)) r) as (vs & V); auto; [rewrite map_snd_numbered; apply incl_refl|]. eexists. exists vs. split; [exact V|reflexivity].
  Qed.
  Lemma says_fun : forall r a b, row_says r a -> row_says r b -> a = b.
  Proof. intros r a b (va & A & ->) (vb & B & ->). now rewrite (cells_fun _ _ A _ B). Qed.
  Lemma all_say : forall rs, incl rs (tb_rows tb) -> exists os, Forall2 row_says rs os.
  Proof.
    induction rs as [|r rs IH]; intros In_; [exists []; constructor|]. destruct IH as (os & F); [intros x Ix; apply In_; now right|].
    destruct (says_total r (In_ r (or_introl eq_refl))) as (o & O). exists (o :: os). now constructor.
  Qed.
  Definition suffix (i : nat) (rs : list row) : Prop := forall j r, nth_error rs j = Some r -> nth_error (tb_rows tb) (i + j) = Some r.
  Lemma suffix_next : forall i r rs, suffix i (r :: rs) -> nth_error (tb_rows tb) i = Some r /\ suffix (S i) rs.
  Proof.
    intros i r rs H. split; [rewrite <- (Nat.add_0_r i); now apply H|]. intros j x E. rewrite plus_Sn_m, plus_n_Sm. now apply H.
  Qed.
  Lemma suffix_incl : forall i rs, suffix i rs -> incl rs (tb_rows tb).
  Proof. intros i rs H x Ix. apply In_nth_error in Ix as (j & E). eapply nth_error_In. eapply H. exact E. Qed.
  Lemma says_skipped : forall r, In r (tb_rows tb) -> holds tb r = false -> row_says r None.
  Proof. intros r Ir Hr. destruct (says_total r Ir) as (o & vs & V & E). exists vs. split; [exact V|]. now rewrite Hr. Qed.

  Lemma first_hit_ok : forall tr p rs i s g, fair p -> suffix i rs -> st s g ->
    exists os g1, Forall2 row_says rs os /\ hext g g1 /\
      match somes os with
      | [] => first_hit X parse tr tb p i rs s g = (g1, Ok VNull)
      | t :: _ => exists v, first_hit X parse tr tb p i rs s g = (g1, Ok v) /\ repr g1 v t
      end.
  Proof.
    intros tr p. induction rs as [|r rs IH]; intros i s g Fp Sf Hs; cbn [first_hit].
    - exists [], g. split; [constructor|]. split; [apply hext_refl|reflexivity].
    - destruct (suffix_next _ _ _ Sf) as [Ei Sf']. pose proof (nth_error_In _ _ Ei) as Ir. destruct (Fp i r Ei) as [F1 F2]. destruct (skipped p i) eqn:Sk.
      + destruct (IH (S i) s g Fp Sf' Hs) as (os & g1 & A & B & C). exists (None :: os), g1. split; [constructor; [apply says_skipped; auto|exact A]|]. auto.
      + destruct (evaluate_row_ok tr (decided p i) r s g Hs Ir (F2 eq_refl)) as (s1 & g1 & o & Y & H & S1 & E). destruct o as [t|].
        * destruct E as (v & E & R). rewrite E. destruct (all_say rs (suffix_incl _ _ Sf')) as (os & A). exists (Some t :: os), g1.
          split; [now constructor|]. split; [exact H|]. cbn [somes]. eauto.
        * rewrite E. destruct (IH (S i) s1 g1 Fp Sf' S1) as (os & g2 & A & B & C). exists (None :: os), g2. split; [now constructor|]. split; [eapply hext_trans; eauto|exact C].
  Qed.
  Lemma F2_repr_hext : forall g g1 vs ts, hext g g1 -> Forall2 (repr g) vs ts -> Forall2 (repr g1) vs ts.
  Proof. intros g g1 vs ts H F. induction F; constructor; auto. eapply repr_hext; eauto. Qed.
  Lemma collect_ok : forall tr p rs i s g, fair p -> suffix i rs -> st s g ->
    exists os g1 vs, Forall2 row_says rs os /\ hext g g1 /\ collect X parse tr tb p i rs s g = (g1, Ok vs) /\ Forall2 (repr g1) vs (somes os).
  Proof.
    intros tr p. induction rs as [|r rs IH]; intros i s g Fp Sf Hs; cbn [collect].
    - exists [], g, []. split; [constructor|]. split; [apply hext_refl|]. split; [reflexivity|constructor].
    - destruct (suffix_next _ _ _ Sf) as [Ei Sf']. pose proof (nth_error_In _ _ Ei) as Ir. destruct (Fp i r Ei) as [F1 F2]. destruct (skipped p i) eqn:Sk.
      + destruct (IH (S i) s g Fp Sf' Hs) as (os & g1 & vs & A & B & C & D). exists (None :: os), g1, vs. split; [constructor; [apply says_skipped; auto|exact A]|]. auto.
      + destruct (evaluate_row_ok tr (decided p i) r s g Hs Ir (F2 eq_refl)) as (s1 & g1 & o & Y & H & S1 & E).
        destruct (IH (S i) s1 g1 Fp Sf' S1) as (os & g2 & vs & A & B & C & D). exists (o :: os), g2. destruct o as [t|].
        * destruct E as (v & E & R). rewrite E, C. exists (v :: vs). split; [now constructor|]. split; [eapply hext_trans; eauto|]. split; [reflexivity|].
          cbn [somes]. constructor; [eapply repr_hext; eauto|exact D].
        * rewrite E, C. exists vs. split; [now constructor|]. split; [eapply hext_trans; eauto|]. auto.
  Qed.

  (** *** First hit with collected columns *)
  Notation wanted := (fun (scal : bool) vs => if scal then vs else collects vs).
  Definition values (vs : list (cell (option tree))) : list (nat * tree) := flat_map (fun c => match cl_val c with Some t => [(cl_col c, t)] | None => [] end) vs.
  Lemma all_ok_cons : forall c vs, all_ok (c :: vs) = match cl_val c with Some _ => true | None => false end && all_ok vs.
  Proof. reflexivity. Qed.
  Lemma owna_frame : forall h g a ts f, owna h a ts f -> (forall l, In l f -> hget g l = hget h l) -> owna g a ts f.
  Proof. intros h g. apply (own_frame_all h g). Qed.
  Lemma owna_lt : forall h a ts f l, owna h a ts f -> In l f -> l < length h.
  Proof. intros h a ts f l O I. eapply (proj1 (proj2 (own_lt_all h))); eauto. Qed.
  Lemma owna_hext : forall h g a ts f, owna h a ts f -> hext h g -> owna g a ts f.
  Proof. intros h g a ts f O (z & ->). eapply owna_frame; eauto. intros l I. unfold hget. apply nth_error_app1. eapply owna_lt; eauto. Qed.

  (** With an object for the other columns ([out], holding [acc]) the row writes into it; without, those columns are passed over. *)
  Definition scal_own (g : heap) (scal : option value) (acc : tree) (f : list loc) : Prop :=
    match scal with Some out => own g out acc f | None => f = [] end.
  Lemma cells_ok : forall os k r s gb g scal acc f vs, st s gb -> hext gb g -> incl os (tb_out tb) -> In r (tb_rows tb) ->
    scal_own g scal acc f -> NoDup f -> (forall l, In l f -> length gb <= l) -> cells_yield (written (combine (seq k (length os)) os) r) vs ->
    let ws := wanted (match scal with Some _ => true | None => false end) vs in
    exists g1, hext gb g1 /\ length g <= length g1 /\ (forall l, l < length g -> ~ In l f -> hget g1 l = hget g l) /\
      if all_ok ws then
        exists xs f1 fx, run_cells X parse k os r s scal g = (g1, Ok (Some xs)) /\ map fst xs = map fst (values (collects vs)) /\
          scal_own g1 scal (write_all (filter (fun c => negb (cl_coll c)) vs) acc) f1 /\ owna g1 (map snd xs) (map snd (values (collects vs))) fx /\
          NoDup (f1 ++ fx) /\ (forall l, In l f1 -> In l f \/ length g <= l) /\ (forall l, In l fx -> length g <= l)
      else run_cells X parse k os r s scal g = (g1, Ok None).
  Proof.
    induction os as [|o os IH]; intros k r s gb g scal acc f vs Hs Hg In_ Ir O N B V; cbn [run_cells].
    - cbn in V. inversion V; subst. exists g. split; [exact Hg|]. split; [lia|]. split; [auto|]. assert (all_ok (wanted (match scal with Some _ => true | None => false end) []) = true) as -> by (destruct scal; reflexivity).
      exists [], f, []. split; [reflexivity|]. split; [reflexivity|]. split; [exact O|]. split; [constructor|]. rewrite app_nil_r. split; [exact N|]. split; [auto|intros l []].
    - assert (In' : incl os (tb_out tb)) by (intros x Ix; apply In_; now right).
      rewrite out_cell_text. cbn [length seq combine written flat_map fst snd] in V.
      destruct (text (oc_id o) r) as [src|] eqn:T; [|eapply IH; eauto].
      destruct (String.eqb (fst (write_path o)) ""); [eapply IH; eauto|]. cbn [app] in V. inversion V as [|c v cs vs' (C1 & C2 & C3 & Y) V']; subst. cbn in C1, C2, C3, Y.
      destruct (snd (write_path o)) eqn:Coll; cbn [negb andb].
      + (* collected *)
        assert (Wn : wanted (match scal with Some _ => true | None => false end) (v :: vs') = v :: wanted (match scal with Some _ => true | None => false end) vs').
        { destruct scal; cbn; [reflexivity|]. rewrite C3. reflexivity. }
        cbv zeta. rewrite Wn, all_ok_cons. assert (Cv : collects (v :: vs') = v :: collects vs') by (cbn; now rewrite C3).
        assert (Fv : filter (fun c => negb (cl_coll c)) (v :: vs') = filter (fun c => negb (cl_coll c)) vs') by (cbn; now rewrite C3).
        rewrite Cv, Fv. destruct (s_std X parse src s g) as [g1 q] eqn:E.
        destruct (value_ok o r src s g g1 q (st_hext _ _ _ Hs Hg) (In_ o (or_introl eq_refl)) Ir T E) as (H1 & P & x & Yx & Q). rewrite (yields_fun _ _ _ Yx Y) in Q. destruct q as [w|e].
        * destruct Q as (t & Ev & R). destruct (copy_own g1 w t R) as (g2 & w1 & fx & Ec & H2 & Ox & Nx & Fx). rewrite Ec, Ev. cbn [andb].
          pose proof (hext_trans _ _ _ H1 H2) as H12. pose proof (hext_length _ _ H1) as L1. pose proof (hext_length _ _ H2) as L2.
          assert (O2 : scal_own g2 scal acc f) by (destruct scal; cbn in *; [eapply own_hext; eauto|exact O]).
          assert (Lf : forall l, In l f -> l < length g) by (intros l I; destruct scal; cbn in O; [eapply own_lt; eauto|subst; destruct I]).
          destruct (IH (S k) r s gb g2 scal acc f vs' Hs (hext_trans _ _ _ Hg H12) In' Ir O2 N B V') as (g3 & H3 & L3 & Fr & Res). cbv zeta in Res.
          assert (Fr' : forall l, l < length g -> ~ In l f -> hget g3 l = hget g l).
          { intros l Ll Nl. rewrite Fr by (auto; lia). destruct H12 as (z & ->). unfold hget. now apply nth_error_app1. }
          exists g3. split; [exact H3|]. split; [lia|]. split; [exact Fr'|].
          destruct (all_ok (wanted (match scal with Some _ => true | None => false end) vs')).
          -- destruct Res as (xs & f1 & fx1 & Er & Em & Os & Oa & Nn & I1 & I2). rewrite Er. exists ((k, w1) :: xs), f1, (fx ++ fx1). split; [reflexivity|].
             cbn [values flat_map]. rewrite Ev. cbn [app map fst snd]. split; [rewrite Em, C1; reflexivity|]. split; [exact Os|].
             assert (Lx : forall l, In l fx -> length g1 <= l < length g2) by (intros l I; split; [auto|eapply own_lt; eauto]).
             split.
             { constructor; [|exact Oa]. eapply own_frame; [exact Ox|]. intros l I. apply Fr; [apply Lx; exact I|]. intros I3. specialize (Lx l I). specialize (Lf l I3). lia. }
             apply NoDup_app3 in Nn as (N1 & N2 & N3). split.
             { apply NoDup_app3. split; [exact N1|]. split.
               - apply NoDup_app3. split; [exact Nx|]. split; [exact N2|]. intros l I3 I4. specialize (Lx l I3). specialize (I2 l I4). lia.
               - intros l I3 I4. apply in_app_or in I4 as [I4|I4]; [|now apply (N3 l)]. specialize (Lx l I4). destruct (I1 l I3) as [I5|I5]; [specialize (Lf l I5)|]; lia. }
             split; [intros l I; destruct (I1 l I); [auto|right; lia]|]. intros l I. apply in_app_or in I as [I|I]; [specialize (Lx l I); lia|specialize (I2 l I); lia].
          -- rewrite Res. reflexivity.
        * rewrite Q. cbn [andb]. exists g1. split; [eapply hext_trans; eauto|]. split; [now apply hext_length|]. split.
          -- intros l Ll _. destruct H1 as (z & ->). unfold hget. now apply nth_error_app1.
          -- destruct e; try reflexivity. exfalso. eapply P. reflexivity.
      + (* not collected *)
        assert (Cv : collects (v :: vs') = collects vs') by (cbn; now rewrite C3). cbv zeta. rewrite Cv. destruct scal as [out|]; cbn [negb andb].
        2: { destruct (IH (S k) r s gb g None (write_all (filter (fun c => negb (cl_coll c)) [v]) acc) f vs' Hs Hg In' Ir O N B V') as (g3 & H3 & L3 & Fr & Res). cbv zeta in Res.
             exists g3. split; [exact H3|]. split; [exact L3|]. split; [exact Fr|]. cbn beta iota in Res |- *. destruct (all_ok (collects vs')); exact Res. }
        cbn beta iota. rewrite all_ok_cons. assert (Fv : filter (fun c => negb (cl_coll c)) (v :: vs') = v :: filter (fun c => negb (cl_coll c)) vs') by (cbn; now rewrite C3). rewrite Fv.
        destruct (s_std X parse src s g) as [g1 q] eqn:E.
        destruct (value_ok o r src s g g1 q (st_hext _ _ _ Hs Hg) (In_ o (or_introl eq_refl)) Ir T E) as (H1 & P & x & Yx & Q). rewrite (yields_fun _ _ _ Yx Y) in Q. destruct q as [w|e].
        * destruct Q as (t & Ev & R). destruct (copy_own g1 w t R) as (g2 & w1 & fx & Ec & H2 & Ox & Nx & Fx). rewrite Ec, Ev. cbn [andb].
          pose proof (hext_trans _ _ _ H1 H2) as H12. pose proof (hext_length _ _ H1) as L1. pose proof (hext_length _ _ H2) as L2. cbn in O.
          assert (O2 : own g2 out acc f) by (eapply own_hext; eauto).
          assert (Lf : forall l, In l f -> l < length g) by (intros l I; eapply own_lt; eauto).
          assert (Ap : apart f fx) by (intros l I3 I4; specialize (Fx l I4); specialize (Lf l I3); lia).
          destruct (insert_field_own (fst (write_path o)) g2 out acc f w1 t fx O2 N Ox Nx Ap) as (f2 & O3 & N3 & I3 & Fr & Le).
          set (g3 := fst (dot_insert g2 out (fst (write_path o)) w1)) in *. pose proof (hext_trans _ _ _ Hg H12) as Hb2. pose proof (hext_length _ _ Hb2) as Lb.
          assert (Hb3 : hext gb g3).
          { apply hext_pointwise; [lia|]. intros l Ll. rewrite Fr; [destruct Hb2 as (z & ->); unfold hget; now apply nth_error_app1|lia|]. intros I. specialize (B l I). lia. }
          pose proof (hext_length _ _ Hg) as Lbg.
          assert (I3' : forall l, In l f2 -> In l f \/ length g <= l).
          { intros l I. destruct (I3 l I) as [I4|[I4|I4]]; [auto|right; specialize (Fx l I4); lia|right; lia]. }
          destruct (IH (S k) r s gb g3 (Some out) (twrite (split_dot (fst (write_path o))) t acc) f2 vs' Hs Hb3 In' Ir O3 N3) as (g4 & H4 & L4 & Fr4 & Res); auto.
          { intros l I. destruct (I3' l I) as [I4|I4]; [auto|lia]. }
          cbn beta iota zeta in Res.
          exists g4. split; [exact H4|]. split; [lia|]. split.
          { intros l Ll Nl. rewrite Fr4; [|lia|intros I; destruct (I3' l I); [auto|lia]]. rewrite Fr by (auto; lia). destruct H12 as (z & ->). unfold hget. now apply nth_error_app1. }
          destruct (all_ok vs'); [|exact Res]. destruct Res as (xs & f1 & fx1 & Er & Em & Os & Oa & Nn & J1 & J2). exists xs, f1, fx1.
          split; [exact Er|]. split; [exact Em|]. split; [cbn [write_all fold_left]; rewrite Ev, C2; exact Os|]. split; [exact Oa|]. split; [exact Nn|].
          split; [intros l I; destruct (J1 l I) as [I4|I4]; [auto|right; lia]|]. intros l I. specialize (J2 l I). lia.
        * rewrite Q. cbn [andb]. exists g1. split; [eapply hext_trans; eauto|]. split; [now apply hext_length|]. split.
          -- intros l Ll _. destruct H1 as (z & ->). unfold hget. now apply nth_error_app1.
          -- destruct e; try reflexivity. exfalso. eapply P. reflexivity.
  Qed.

  Definition info (r : row) (mv : bool * list (cell (option tree))) : Prop := fst mv = holds tb r /\ cells_yield (written (numbered (tb_out tb)) r) (snd mv).
  Lemma info_total : forall r, In r (tb_rows tb) -> exists vs, cells_yield (written (numbered (tb_out tb)) r) vs /\ info r (holds tb r, vs).
  Proof. intros r Ir. destruct (cells_exist (numbered (tb_out tb)) r) as (vs & V); auto; [rewrite map_snd_numbered; apply incl_refl|]. exists vs. repeat split; auto. Qed.
  Definition later (rs : list (bool * list (cell (option tree)))) : list (cell (option tree)) :=
    concat (map (fun mv => collects (snd mv)) (filter (fun mv => fst mv && all_ok (collects (snd mv))) rs)).
  Lemma values_app : forall a b, values (a ++ b) = values a ++ values b.
  Proof. intros. apply flat_map_app. Qed.
  Lemma owna_app : forall g a ta fa b tb' fb, owna g a ta fa -> owna g b tb' fb -> owna g (a ++ b) (ta ++ tb') (fa ++ fb).
  Proof. intros g a ta fa b tb' fb A B. induction A; cbn; [exact B|]. rewrite <- app_assoc. now constructor. Qed.
  Lemma gather_some : forall tr p o rs i s g, fair p -> suffix i rs -> st s g ->
    exists is g1 xs fx, Forall2 info rs is /\ hext g g1 /\ gather X parse tr tb p i rs s (Some o) g = (g1, Ok (Some o, xs)) /\
      map fst xs = map fst (values (later is)) /\ owna g1 (map snd xs) (map snd (values (later is))) fx /\ NoDup fx /\ (forall l, In l fx -> length g <= l).
  Proof.
    intros tr p o. induction rs as [|r rs IH]; intros i s g Fp Sf Hs; cbn [gather].
    - exists [], g, [], []. split; [constructor|]. split; [apply hext_refl|]. split; [reflexivity|]. split; [reflexivity|]. split; [constructor|]. split; [constructor|intros l []].
    - destruct (suffix_next _ _ _ Sf) as [Ei Sf']. pose proof (nth_error_In _ _ Ei) as Ir. destruct (Fp i r Ei) as [F1 F2]. destruct (info_total r Ir) as (vs & V & I0).
      destruct (skipped p i) eqn:Sk.
      + destruct (IH (S i) s g Fp Sf' Hs) as (is & g1 & xs & fx & A & B & C & D). exists ((holds tb r, vs) :: is), g1, xs, fx. split; [now constructor|].
        unfold later. cbn [filter fst snd map]. rewrite (F1 eq_refl). cbn [andb]. auto.
      + destruct (row_ok (tb_in tb) (decided p i) 0 r s g Hs (incl_refl _) Ir (F2 eq_refl)) as (s1 & g1 & E & H & S1). rewrite E.
        change (forallb (fun c => cell_holds c r) (tb_in tb)) with (holds tb r). destruct (holds tb r) eqn:Hr.
        2: { destruct (IH (S i) s1 g1 Fp Sf' S1) as (is & g2 & xs & fx & A & B & C & D1 & D2 & D3 & D4). exists ((false, vs) :: is), g2, xs, fx. split; [now constructor|].
             split; [eapply hext_trans; eauto|]. split; [exact C|]. split; [exact D1|]. split; [exact D2|]. split; [exact D3|]. intros l I. specialize (D4 l I). pose proof (hext_length _ _ H). lia. }
        destruct (cells_ok (tb_out tb) 0 r s1 g1 g1 None (TObj []) [] vs S1 (hext_refl _) (incl_refl _) Ir eq_refl (NoDup_nil _) (fun l (I : In l []) => match I with end) V) as (g2 & H2 & L2 & _ & Res).
        cbn beta iota zeta in Res. pose proof (hext_length _ _ H) as L1. destruct (all_ok (collects vs)) eqn:Ac.
        * destruct Res as (ys & f1 & fy & Er & Em & Os & Oa & Nn & J1 & J2). cbn in Os. subst f1. rewrite Er.
          destruct (trace_ok tr (tb_in tb) r s1 g2 (st_hext _ _ _ S1 H2) (incl_refl _)) as (g3 & E3 & H3). rewrite E3.
          destruct (IH (S i) s1 g3 Fp Sf' (st_hext _ _ _ S1 (hext_trans _ _ _ H2 H3))) as (is & g4 & xs & fx & A & B & C & D1 & D2 & D3 & D4). rewrite C.
          exists ((true, vs) :: is), g4, (ys ++ xs), (fy ++ fx). split; [now constructor|]. split; [eauto using hext_trans|]. split; [reflexivity|].
          assert (Lt : later ((true, vs) :: is) = collects vs ++ later is) by (unfold later; cbn [filter fst snd andb]; now rewrite Ac). rewrite Lt, values_app, !map_app.
          split; [now rewrite Em, D1|]. split; [apply owna_app; [eapply owna_hext; eauto using hext_trans|exact D2]|]. cbn [app] in Nn.
          pose proof (hext_length _ _ H3) as L3. split.
          -- apply NoDup_app3. split; [exact Nn|]. split; [exact D3|]. intros l I1 I2. specialize (D4 l I2). pose proof (owna_lt _ _ _ _ l Oa I1). lia.
          -- intros l I. apply in_app_or in I as [I|I]; [specialize (J2 l I); lia|specialize (D4 l I); lia].
        * rewrite Res. destruct (IH (S i) s1 g2 Fp Sf' (st_hext _ _ _ S1 H2)) as (is & g4 & xs & fx & A & B & C & D1 & D2 & D3 & D4).
          exists ((true, vs) :: is), g4, xs, fx. split; [now constructor|]. split; [eauto using hext_trans|]. split; [exact C|].
          unfold later. cbn [filter fst snd andb]. rewrite Ac. split; [exact D1|]. split; [exact D2|]. split; [exact D3|]. intros l I. specialize (D4 l I). lia.
  Qed.
  Lemma gather_none : forall tr p rs i s g, fair p -> suffix i rs -> st s g ->
    exists is g1, Forall2 info rs is /\ hext g g1 /\
      match scan is with
      | None => gather X parse tr tb p i rs s None g = (g1, Ok (None, []))
      | Some (t, ws) => exists o f xs fx, gather X parse tr tb p i rs s None g = (g1, Ok (Some o, xs)) /\ own g1 o t f /\
          map fst xs = map fst (values ws) /\ owna g1 (map snd xs) (map snd (values ws)) fx /\ NoDup (f ++ fx) /\ (forall l, In l (f ++ fx) -> length g <= l)
      end.
  Proof.
    intros tr p. induction rs as [|r rs IH]; intros i s g Fp Sf Hs; cbn [gather].
    - exists [], g. split; [constructor|]. split; [apply hext_refl|reflexivity].
    - destruct (suffix_next _ _ _ Sf) as [Ei Sf']. pose proof (nth_error_In _ _ Ei) as Ir. destruct (Fp i r Ei) as [F1 F2]. destruct (info_total r Ir) as (vs & V & I0).
      assert (Go : forall g2, holds tb r && all_ok vs = false -> hext g g2 -> forall s2, st s2 g2 ->
        gather X parse tr tb p (S i) rs s2 None g2 = gather X parse tr tb p i (r :: rs) s None g ->
        exists is g1, Forall2 info (r :: rs) is /\ hext g g1 /\
          match scan is with
          | None => gather X parse tr tb p i (r :: rs) s None g = (g1, Ok (None, []))
          | Some (t, ws) => exists o f xs fx, gather X parse tr tb p i (r :: rs) s None g = (g1, Ok (Some o, xs)) /\ own g1 o t f /\
              map fst xs = map fst (values ws) /\ owna g1 (map snd xs) (map snd (values ws)) fx /\ NoDup (f ++ fx) /\ (forall l, In l (f ++ fx) -> length g <= l)
          end).
      { intros g2 Nr H2 s2 S2 Eq. destruct (IH (S i) s2 g2 Fp Sf' S2) as (is & g1 & A & B & C). exists ((holds tb r, vs) :: is), g1. split; [now constructor|].
        split; [eapply hext_trans; eauto|]. cbn [scan]. rewrite Nr, <- Eq. pose proof (hext_length _ _ H2) as L2.
        destruct (scan is) as [[t ws]|]; [|exact C]. destruct C as (o & f & xs & fx & C1 & C2 & C3 & C4 & C5 & C6). exists o, f, xs, fx. repeat split; auto. intros l I. specialize (C6 l I). lia. }
      cbn [gather] in Go. destruct (skipped p i) eqn:Sk.
      + apply (Go g) with (s2 := s); auto; [rewrite (F1 eq_refl); reflexivity|apply hext_refl].
      + destruct (row_ok (tb_in tb) (decided p i) 0 r s g Hs (incl_refl _) Ir (F2 eq_refl)) as (s1 & g1 & E & H & S1). rewrite E in Go |- *.
        change (forallb (fun c => cell_holds c r) (tb_in tb)) with (holds tb r) in Go |- *. destruct (holds tb r) eqn:Hr.
        2: { apply (Go g1) with (s2 := s1); auto. }
        cbn [new_obj halloc] in Go |- *. set (g2 := g1 ++ [CObj []]) in *. assert (H2 : hext g1 g2) by (now exists [CObj []]).
        destruct (cells_ok (tb_out tb) 0 r s1 g1 g2 (Some (VObj (length g1))) (TObj []) [length g1] vs S1 H2 (incl_refl _) Ir) as (g3 & H3 & L3 & Fr & Res); auto.
        { cbn. econstructor; [unfold g2, hget; rewrite nth_error_app2 by lia; now rewrite Nat.sub_diag|constructor]. }
        { repeat constructor. intros []. }
        { intros l [<-|[]]. lia. }
        cbn beta iota zeta in Res. pose proof (hext_length _ _ H) as L1. pose proof (hext_length _ _ H2) as L2. unfold new_obj, halloc in Go |- *. fold g2 in Go |- *.
        destruct (all_ok vs) eqn:Ac.
        * clear Go. destruct Res as (ys & f1 & fy & Er & Em & Os & Oa & Nn & J1 & J2). cbn in Os. rewrite Er.
          destruct (trace_ok tr (tb_in tb) r s1 g3 (st_hext _ _ _ S1 H3) (incl_refl _)) as (g4 & E4 & H4). rewrite E4.
          destruct (gather_some tr p (VObj (length g1)) rs (S i) s1 g4 Fp Sf' (st_hext _ _ _ S1 (hext_trans _ _ _ H3 H4))) as (is & g5 & xs & fx & A & B & C & D1 & D2 & D3 & D4). rewrite C.
          exists ((true, vs) :: is), g5. split; [now constructor|]. split; [eauto using hext_trans|]. cbn [scan]. rewrite Ac. cbn [andb].
          exists (VObj (length g1)), f1, (ys ++ xs), (fy ++ fx). split; [reflexivity|]. split; [eapply own_hext; eauto using hext_trans|]. fold (later is).
          rewrite values_app, !map_app. split; [now rewrite Em, D1|]. split; [apply owna_app; [eapply owna_hext; eauto using hext_trans|exact D2]|].
          pose proof (hext_length _ _ H4) as L4. rewrite app_assoc. split.
          -- apply NoDup_app3. split; [exact Nn|]. split; [exact D3|]. intros l I1 I2. specialize (D4 l I2). apply in_app_or in I1 as [I1|I1].
             ++ pose proof (own_lt _ _ _ _ l Os I1). lia.
             ++ pose proof (owna_lt _ _ _ _ l Oa I1). lia.
          -- intros l I. apply in_app_or in I as [I|I]; [|specialize (D4 l I); lia]. apply in_app_or in I as [I|I]; [|specialize (J2 l I); lia].
             destruct (J1 l I) as [[<-|[]]|J]; lia.
        * rewrite Res in Go |- *. apply (Go g3) with (s2 := s1); auto; [eauto using hext_trans|eapply st_hext; eauto].
  Qed.

  (** *** Writing the collected columns *)
  Lemma owna_part : forall (q : nat -> bool) g xs ys fx, map fst xs = map fst ys -> owna g (map snd xs) (map snd ys) fx -> NoDup fx ->
    exists f1 f2, owna g (map snd (filter (fun x => q (fst x)) xs)) (map snd (filter (fun x => q (fst x)) ys)) f1 /\
      owna g (map snd (filter (fun x => negb (q (fst x))) xs)) (map snd (filter (fun x => negb (q (fst x))) ys)) f2 /\ NoDup (f1 ++ f2) /\ incl (f1 ++ f2) fx.
  Proof.
    intros q g. induction xs as [|[k x] xs IH]; intros [|[k' y] ys] fx E O N; try discriminate.
    - exists [], []. split; [constructor|]. split; [constructor|]. split; [constructor|intros l []].
    - cbn [map fst snd] in *. injection E as -> E. inversion O as [|? ? f ? ? fp Ox Oa]; subst. apply NoDup_app3 in N as (N1 & N2 & N3).
      destruct (IH ys fp E Oa N2) as (f1 & f2 & A & B & C & D). cbn [filter fst]. apply NoDup_app3 in C as (C1 & C2 & C3). destruct (q k'); cbn [negb map snd].
      + exists (f ++ f1), f2. split; [now constructor|]. split; [exact B|]. split.
        * rewrite <- app_assoc. apply NoDup_app3. split; [exact N1|]. split; [apply NoDup_app3; auto|]. intros l I1 I2. apply (N3 l); auto.
        * intros l I. rewrite <- app_assoc in I. apply in_app_or in I as [I|I]; apply in_or_app; auto.
      + exists f1, (f ++ f2). split; [exact A|]. split; [now constructor|]. split.
        * apply NoDup_app3. split; [exact C1|]. split.
          -- apply NoDup_app3. repeat split; auto. intros l I1 I2. apply (N3 l); auto. apply D. apply in_or_app; auto.
          -- intros l I1 I2. apply in_app_or in I2 as [I2|I2]; [|now apply (C3 l)]. apply (N3 l); auto. apply D. apply in_or_app; auto.
        * intros l I. apply in_app_or in I as [I|I]; [apply in_or_app; right; apply D; apply in_or_app; auto|].
          apply in_app_or in I as [I|I]; apply in_or_app; auto. right. apply D. apply in_or_app; auto.
  Qed.
  Definition from {A} (i : nat) (l : list (nat * A)) := filter (fun x => i <=? fst x) l.
  Definition at_col {A} (i : nat) (l : list (nat * A)) := filter (fun x => Nat.eqb (fst x) i) l.
  Lemma from_at : forall A i (l : list (nat * A)), filter (fun x => Nat.eqb (fst x) i) (from i l) = at_col i l.
  Proof.
    intros A i l. unfold from, at_col. induction l as [|[k x] l IH]; [reflexivity|]. cbn [filter fst]. destruct (i <=? k) eqn:Lk; cbn [filter fst].
    - rewrite IH. reflexivity.
    - rewrite IH. destruct (Nat.eqb_spec k i) as [->|]; auto. apply Nat.leb_gt in Lk. lia.
  Qed.
  Lemma from_next : forall A i (l : list (nat * A)), filter (fun x => negb (Nat.eqb (fst x) i)) (from i l) = from (S i) l.
  Proof.
    intros A i l. unfold from. induction l as [|[k x] l IH]; [reflexivity|]. cbn [filter fst]. destruct (i <=? k) eqn:Lk; cbn [filter fst].
    - apply Nat.leb_le in Lk. destruct (Nat.eqb_spec k i) as [->|]; cbn [negb]; rewrite IH.
      + destruct (S i <=? i) eqn:Q; auto. apply Nat.leb_le in Q. lia.
      + destruct (S i <=? k) eqn:Q; auto. apply Nat.leb_gt in Q. lia.
    - rewrite IH. apply Nat.leb_gt in Lk. destruct (S i <=? k) eqn:Q; auto. apply Nat.leb_le in Q. lia.
  Qed.
  Definition put (ys : list (nat * tree)) (acc : tree) (io : nat * out_col) : tree :=
    let (path, coll) := write_path (snd io) in
    if coll && negb (String.eqb path "") then twrite (split_dot path) (TArr (map snd (at_col (fst io) ys))) acc else acc.
  Lemma map_fst_filter : forall A B (q : nat -> bool) (xs : list (nat * A)) (ys : list (nat * B)), map fst xs = map fst ys ->
    map fst (filter (fun x => q (fst x)) xs) = map fst (filter (fun x => q (fst x)) ys).
  Proof.
    intros A B q. induction xs as [|[k x] xs IH]; intros [|[k' y] ys] E; try discriminate; [reflexivity|]. cbn in *. injection E as -> E.
    destruct (q k'); cbn; now rewrite (IH ys E).
  Qed.
  Lemma write_collected_ok : forall os i xs ys g out t f fx b, map fst xs = map fst ys -> owna g (map snd (from i xs)) (map snd (from i ys)) fx -> own g out t f -> NoDup (f ++ fx) ->
    b <= length g -> (forall l, In l (f ++ fx) -> b <= l) ->
    exists f1, own (write_collected i os xs out g) out (fold_left (put ys) (combine (seq i (length os)) os) t) f1 /\
      length g <= length (write_collected i os xs out g) /\ (forall l, l < b -> hget (write_collected i os xs out g) l = hget g l).
  Proof.
    induction os as [|o os IH]; intros i xs ys g out t f fx b Em Oa O N Lb B; cbn [write_collected length seq combine fold_left].
    - exists f. split; [exact O|]. split; [lia|auto].
    - pose proof (proj1 (NoDup_app3 _ _ _) N) as (N1 & N2 & N3).
      destruct (owna_part (fun k => Nat.eqb k i) g (from i xs) (from i ys) fx (map_fst_filter _ _ (fun k => i <=? k) _ _ Em) Oa N2) as (fa & fb & Pa & Pb & Pn & Pi).
      rewrite !from_at in Pa. rewrite !from_next in Pb. apply NoDup_app3 in Pn as (Na & Nb & Nab). unfold put at 2. cbn [fst snd]. destruct (write_path o) as [path coll].
      replace (negb coll || String.eqb path "") with (negb (coll && negb (String.eqb path ""))) by (destruct coll, (String.eqb path ""); reflexivity).
      destruct (coll && negb (String.eqb path "")); cbn [negb].
      + unfold new_arr, halloc. set (g1 := g ++ [CArr (map snd (filter (fun iv => Nat.eqb (fst iv) i) xs))]).
        assert (Hg : hext g g1) by (eexists; reflexivity). pose proof (hext_length _ _ Hg) as Lg.
        assert (Lfx : forall l, In l fx -> l < length g) by (intros l I; exact (owna_lt _ _ _ _ l Oa I)).
        assert (Ia : forall l, In l fa -> In l fx) by (intros l I; apply Pi; apply in_or_app; auto). assert (Ib : forall l, In l fb -> In l fx) by (intros l I; apply Pi; apply in_or_app; auto).
        assert (Ov : own g1 (VArr (length g)) (TArr (map snd (at_col i ys))) (length g :: fa)).
        { econstructor; [unfold g1, hget; rewrite nth_error_app2 by lia; rewrite Nat.sub_diag; reflexivity|]. eapply owna_hext; eauto. }
        assert (Nv : NoDup (length g :: fa)) by (constructor; [intros I; specialize (Lfx _ (Ia _ I)); lia|exact Na]).
        assert (Ap : apart f (length g :: fa)).
        { intros l I1 [<-|I2]; [pose proof (own_lt _ _ _ _ _ O I1); lia|]. apply (N3 l); auto. }
        destruct (insert_field_own path g1 out t f (VArr (length g)) (TArr (map snd (at_col i ys))) (length g :: fa) (own_hext _ _ _ _ _ O Hg) N1 Ov Nv Ap) as (f2 & O2 & N4 & I2 & Fr & Le).
        set (g2 := fst (dot_insert g1 out path (VArr (length g)))) in *.
        destruct (IH (S i) xs ys g2 out (twrite (split_dot path) (TArr (map snd (at_col i ys))) t) f2 fb b Em) as (f3 & O3 & L3 & F3); auto.
        * eapply owna_frame; [exact Pb|]. intros l I. specialize (Lfx _ (Ib _ I)). rewrite Fr; [|lia|].
          -- unfold g1, hget. now apply nth_error_app1.
          -- intros I1. apply (N3 l); auto.
        * apply NoDup_app3. split; [exact N4|]. split; [exact Nb|]. intros l I1 I3. destruct (I2 l I1) as [I4|[[<-|I4]|I4]].
          -- apply (N3 l); auto.
          -- specialize (Lfx _ (Ib _ I3)). lia.
          -- now apply (Nab l).
          -- specialize (Lfx _ (Ib _ I3)). lia.
        * lia.
        * intros l I. apply in_app_or in I as [I|I]; [|apply B; apply in_or_app; auto]. destruct (I2 l I) as [I4|[[<-|I4]|I4]]; [apply B; apply in_or_app; auto|lia| |lia].
          apply B. apply in_or_app; auto.
        * exists f3. split; [exact O3|]. split; [lia|]. intros l Ll. rewrite F3 by auto. rewrite Fr; [|lia|].
          -- unfold g1, hget. apply nth_error_app1. lia.
          -- intros I. specialize (B l (in_or_app _ _ _ (or_introl I))). lia.
      + apply IH with (f := f) (fx := fb); auto.
        * apply NoDup_app3. split; [exact N1|]. split; [exact Nb|]. intros l I1 I2. apply (N3 l); auto. apply Pi. apply in_or_app; auto.
        * intros l I. apply B. apply in_app_or in I as [I|I]; apply in_or_app; auto. right. apply Pi. apply in_or_app; auto.
  Qed.
  Lemma values_at : forall i ws, map snd (at_col i (values ws)) = somes (map cl_val (filter (fun c => Nat.eqb (cl_col c) i) ws)).
  Proof.
    intros i. induction ws as [|[k p q [t|]] ws IH]; [reflexivity| |]; cbn [values flat_map cl_val cl_col filter map].
    - cbn [app]. unfold at_col in *. cbn [filter fst]. destruct (Nat.eqb k i); cbn [map snd somes cl_val]; [f_equal|]; exact IH.
    - cbn [app]. destruct (Nat.eqb k i); cbn [map somes cl_val]; exact IH.
  Qed.
  Lemma collected_put : forall ws t, collected tb ws t = fold_left (put (values ws)) (numbered (tb_out tb)) t.
  Proof.
    intros ws t. unfold collected. generalize (numbered (tb_out tb)). intros ios. revert t. induction ios as [|[i o] ios IH]; intros t; [reflexivity|]. cbn [fold_left].
    rewrite IH. f_equal. unfold put. cbn [fst snd]. destruct (write_path o) as [path coll]. now rewrite values_at.
  Qed.

  (** *** The node *)
  Lemma rows_suffix : suffix 0 (tb_rows tb).
  Proof. intros j r E. exact E. Qed.
  (** What the table says as a whole. *)
  Definition table_says (o : res tree) : Prop :=
    match tb_policy tb with
    | PCollect => exists os, Forall2 row_says (tb_rows tb) os /\ o = Ok (TArr (somes os))
    | PFirst =>
        if existsb (fun o => snd (write_path o)) (tb_out tb) then
          exists is, Forall2 info (tb_rows tb) is /\ o = Ok (match scan is with Some (t, ws) => collected tb ws t | None => TNull end)
        else exists os, Forall2 row_says (tb_rows tb) os /\ o = Ok (match somes os with t :: _ => t | [] => TNull end)
    end.
  Lemma table_ok : forall tr p s g, st s g -> fair p ->
    exists g1 v t, table_says (Ok t) /\ hext h0 g1 /\ repr g1 v t /\
      match tb_policy tb with
      | PCollect =>
          match collect X parse tr tb p 0 (tb_rows tb) s g with
          | (h2, Err e) => (h2, Err e)
          | (h2, Ok vs) => let (h3, a) := new_arr h2 vs in (h3, Ok a)
          end
      | PFirst =>
          if existsb (fun o => snd (write_path o)) (tb_out tb) then
            match gather X parse tr tb p 0 (tb_rows tb) s None g with
            | (h2, Err e) => (h2, Err e)
            | (h2, Ok (None, _)) => (h2, Ok VNull)
            | (h2, Ok (Some o, vs)) => (write_collected 0 (tb_out tb) vs o h2, Ok o)
            end
          else first_hit X parse tr tb p 0 (tb_rows tb) s g
      end = (g1, Ok v).
  Proof.
    intros tr p s g Hs Fp. unfold table_says. pose proof (proj1 Hs) as H0. destruct (tb_policy tb).
    - destruct (existsb (fun o => snd (write_path o)) (tb_out tb)).
      + destruct (gather_none tr p (tb_rows tb) 0 s g Fp rows_suffix Hs) as (is & g1 & A & B & C). destruct (scan is) as [[t ws]|] eqn:Sc.
        * destruct C as (o & f & xs & fx & -> & O & Em & Oa & N & Bd). pose proof (hext_length _ _ B) as Lb.
          assert (F0 : forall A0 (l : list (nat * A0)), from 0 l = l).
          { intros A0 l. unfold from. induction l as [|x l IH]; [reflexivity|]. cbn. f_equal. exact IH. }
          destruct (write_collected_ok (tb_out tb) 0 xs (values ws) g1 o t f fx (length g) Em) as (f1 & O1 & L1 & F1); auto.
          { rewrite !F0. exact Oa. }
          assert (Hw : hext g (write_collected 0 (tb_out tb) xs o g1)).
          { apply hext_pointwise; [lia|]. intros l Ll. rewrite F1 by auto. destruct B as (z & ->). unfold hget. now apply nth_error_app1. }
          exists (write_collected 0 (tb_out tb) xs o g1), o, (collected tb ws t). split; [exists is; rewrite Sc; auto|]. split; [eapply hext_trans; eauto|]. split; [|reflexivity].
          rewrite collected_put. eapply own_repr. exact O1.
        * rewrite C. exists g1, VNull, TNull. split; [exists is; rewrite Sc; auto|]. split; [eapply hext_trans; eauto|]. split; [constructor|reflexivity].
      + destruct (first_hit_ok tr p (tb_rows tb) 0 s g Fp rows_suffix Hs) as (os & g1 & A & B & C). destruct (somes os) as [|t r] eqn:So.
        * rewrite C. exists g1, VNull, TNull. split; [exists os; rewrite So; auto|]. split; [eapply hext_trans; eauto|]. split; [constructor|reflexivity].
        * destruct C as (v & -> & R). exists g1, v, t. split; [exists os; rewrite So; auto|]. split; [eapply hext_trans; eauto|]. auto.
    - destruct (collect_ok tr p (tb_rows tb) 0 s g Fp rows_suffix Hs) as (os & g1 & vs & A & B & -> & D). cbn [new_arr halloc].
      exists (g1 ++ [CArr vs]), (VArr (length g1)), (TArr (somes os)). split; [exists os; auto|]. assert (H1 : hext g1 (g1 ++ [CArr vs])) by (eexists; reflexivity).
      split; [eauto using hext_trans|]. split; [|reflexivity]. eapply RArr; [unfold hget; rewrite nth_error_app2 by lia; rewrite Nat.sub_diag; reflexivity|].
      eapply F2_repr_hext; eauto.
  Qed.
  Lemma no_pruning_fair : fair no_pruning.
  Proof. intros i r E. split; intros; discriminate. Qed.
  Lemma table_plain : forall tr, exists g1 v t, table_says (Ok t) /\ hext h0 g1 /\ repr g1 v t /\ table_node X parse tr None tb env nodes h0 = (g1, Ok v).
  Proof.
    intros tr. destruct (table_ok tr no_pruning (node_session env nodes) h0 st_start no_pruning_fair) as (g1 & v & t & A & B & C & D). exists g1, v, t.
    split; [exact A|]. split; [exact B|]. split; [exact C|]. unfold table_node. replace (if tr then None else @None index) with (@None index) by (destruct tr; reflexivity). exact D.
  Qed.
  Lemma F2_fun : forall A B (R : A -> B -> Prop), (forall a b b', R a b -> R a b' -> b = b') -> forall l m, Forall2 R l m -> forall m', Forall2 R l m' -> m = m'.
  Proof. intros A B R F. induction 1; intros m' H'; inversion H'; subst; [reflexivity|]. f_equal; eauto. Qed.
  Lemma info_fun : forall r a b, info r a -> info r b -> a = b.
  Proof. intros r [ma va] [mb vb] (A1 & A2) (B1 & B2). cbn in *. rewrite (cells_fun _ _ A2 _ B2). congruence. Qed.
  Lemma table_says_fun : forall a b, table_says a -> table_says b -> a = b.
  Proof.
    intros a b. unfold table_says. destruct (tb_policy tb); [destruct (existsb _ _)|]; intros (x & A & ->) (y & B & ->).
    - now rewrite (F2_fun _ _ _ info_fun _ _ A _ B).
    - now rewrite (F2_fun _ _ _ says_fun _ _ A _ B).
    - now rewrite (F2_fun _ _ _ says_fun _ _ A _ B).
  Qed.
End T.
