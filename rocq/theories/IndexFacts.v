(** The index never rules out a row that holds: C28. *)
From Coq Require Import String Ascii ZArith QArith Lia Bool List Arith.
From Verif Require Import Base Dec Value Heap HeapSpec TreeFacts HeapFacts Ast Ops Compiler Vm Eval ExprFacts Funcs PureFacts RunSpec RepFacts ContentFacts MemoFacts Isolate Session
  Nodes OwnFacts Table TableSpec TableFacts Discriminant CoverSpec CoverFacts ArmFacts.
Import ListNotations.
Local Open Scope string_scope.
Local Open Scope list_scope.
Local Open Scope nat_scope.

(** *** The maps of a column *)
Section Maps.
  Context {K : Type}.
  Variable eqb : K -> K -> bool.
  Hypothesis Esym : forall a b, eqb a b = eqb b a.
  Hypothesis Etrans : forall a b c, eqb a b = true -> eqb b c = true -> eqb a c = true.
  Definition mrows (k : K) (m : list (K * rowset)) : rowset := match mget eqb k m with Some s => s | None => [] end.
  Lemma madd_rows : forall k i m k' j, has (mrows k' (madd eqb k i m)) j = has (mrows k' m) j || (eqb k k' && Nat.eqb j i).
  Proof.
    intros k i m k' j. unfold mrows. induction m as [|[a s] m IH]; cbn [madd mget].
    - destruct (eqb k k'); cbn; [now rewrite orb_false_r|reflexivity].
    - destruct (eqb a k) eqn:Ak; cbn [mget].
      + destruct (eqb a k') eqn:Ak'.
        * replace (eqb k k') with true by (symmetry; apply Etrans with a; [now rewrite Esym|exact Ak']). cbn [has existsb andb]. apply orb_comm.
        * replace (eqb k k') with false; [now rewrite orb_false_r|]. symmetry. destruct (eqb k k') eqn:Kk; [|reflexivity]. rewrite <- Ak'. symmetry. now apply Etrans with k.
      + destruct (eqb a k') eqn:Ak'; [|exact IH]. replace (eqb k k') with false; [now rewrite orb_false_r|]. symmetry. destruct (eqb k k') eqn:Kk; [|reflexivity].
        rewrite <- Ak. symmetry. apply Etrans with k'; [exact Ak'|now rewrite Esym].
  Qed.
  Lemma fold_rows : forall l i m k' j, has (mrows k' (fold_left (fun m k => madd eqb k i m) l m)) j = has (mrows k' m) j || (existsb (fun k => eqb k k') l && Nat.eqb j i).
  Proof.
    induction l as [|k l IH]; intros i m k' j; cbn [fold_left existsb]; [cbn; now rewrite orb_false_r|]. rewrite IH, madd_rows, <- orb_assoc. f_equal. destruct (eqb k k'), (existsb _ l), (Nat.eqb j i); reflexivity.
  Qed.
End Maps.
Definition arm_has (a : arm) (v : value) : bool :=
  match a, v with
  | AStrings l, VStr s => existsb (fun k => String.eqb k s) l
  | ABools l, VBool b => existsb (fun k => Bool.eqb k b) l
  | ANumbers l, VNum n => existsb (fun k => dec_eqb k n) l
  | _, _ => false
  end.
Definition recognised (a : arm) : bool := match a with AOther => false | _ => true end.
Lemma bool_eqb_sym : forall a b, Bool.eqb a b = Bool.eqb b a.
Proof. intros [] []; reflexivity. Qed.
Lemma bool_eqb_trans : forall a b c, Bool.eqb a b = true -> Bool.eqb b c = true -> Bool.eqb a c = true.
Proof. intros [] [] []; auto. Qed.
Lemma str_eqb_trans : forall a b c, String.eqb a b = true -> String.eqb b c = true -> String.eqb a c = true.
Proof. intros a b c A B. apply String.eqb_eq in A, B. subst. apply String.eqb_refl. Qed.
(** A column knows about a row: tested cells are captured and found by value, the others are left to evaluation. *)
Definition knows (x : column) (i : nat) (a : arm) : Prop :=
  has (cx_captured x) i = recognised a /\ has (cx_fallback x) i = negb (recognised a) /\ forall v, has (rows_for x v) i = arm_has a v.
Definition blank (x : column) (i : nat) : Prop := has (cx_captured x) i = false /\ has (cx_fallback x) i = false /\ forall v, has (rows_for x v) i = false.
Definition cell_arm (classify : string -> arm) (c : in_col) (r : row) : arm := match in_cell c r with Some src => classify src | None => AOther end.
Lemma rows_for_rows : forall x v, rows_for x v = match v with VStr s => mrows String.eqb s (cx_strings x) | VNum n => mrows dec_eqb n (cx_numbers x) | VBool b => mrows Bool.eqb b (cx_bools x) | _ => [] end.
Proof. intros x []; reflexivity. Qed.
Lemma index_row_ok : forall cl c i r x, blank x i ->
  knows (index_row cl c i r x) i (cell_arm cl c r) /\
  forall j, j <> i -> has (cx_captured (index_row cl c i r x)) j = has (cx_captured x) j /\ has (cx_fallback (index_row cl c i r x)) j = has (cx_fallback x) j /\
    forall v, has (rows_for (index_row cl c i r x) v) j = has (rows_for x v) j.
Proof.
  intros cl c i r [ss ns bs cap fb] (B1 & B2 & B3). cbn [cx_captured cx_fallback] in *. unfold index_row, cell_arm, knows.
  assert (Bs : forall s, has (mrows String.eqb s ss) i = false) by (intros s; exact (B3 (VStr s))).
  assert (Bn : forall s, has (mrows dec_eqb s ns) i = false) by (intros s; exact (B3 (VNum s))).
  assert (Bb : forall s, has (mrows Bool.eqb s bs) i = false) by (intros s; exact (B3 (VBool s))).
  assert (Hi : forall s, has (i :: s) i = true) by (intros s; cbn; now rewrite Nat.eqb_refl).
  assert (Hj : forall s j, j <> i -> has (i :: s) j = has s j) by (intros s j N; cbn; apply Nat.eqb_neq in N; now rewrite N).
  destruct (in_cell c r) as [src|]; [destruct (cl src) as [l|l|l|]|]; cbn [cx_captured cx_fallback recognised negb].
  1: split; [split; [apply Hi|]; split; [exact B2|]|].
  3: split; [split; [apply Hi|]; split; [exact B2|]|].
  5: split; [split; [apply Hi|]; split; [exact B2|]|].
  7: split; [split; [exact B1|]; split; [apply Hi|]|].
  9: split; [split; [exact B1|]; split; [apply Hi|]|].
  1,3,5,7,9: intros v; rewrite rows_for_rows; cbn [cx_strings cx_numbers cx_bools]; destruct v; cbn [arm_has]; auto.
  1: rewrite fold_rows by eauto using String.eqb_sym, str_eqb_trans; now rewrite Bs, Nat.eqb_refl, andb_true_r.
  1: rewrite fold_rows by eauto using bool_eqb_sym, bool_eqb_trans; now rewrite Bb, Nat.eqb_refl, andb_true_r.
  1: rewrite fold_rows by eauto using dec_eqb_sym, dec_eqb_trans; now rewrite Bn, Nat.eqb_refl, andb_true_r.
  all: intros j N; rewrite ?Hj by exact N; split; [reflexivity|]; split; [reflexivity|]; intros v; rewrite !rows_for_rows; cbn [cx_strings cx_numbers cx_bools]; destruct v; auto.
  all: apply Nat.eqb_neq in N.
  1: rewrite fold_rows by eauto using String.eqb_sym, str_eqb_trans; now rewrite N, andb_false_r, orb_false_r.
  1: rewrite fold_rows by eauto using bool_eqb_sym, bool_eqb_trans; now rewrite N, andb_false_r, orb_false_r.
  1: rewrite fold_rows by eauto using dec_eqb_sym, dec_eqb_trans; now rewrite N, andb_false_r, orb_false_r.
Qed.
Lemma index_rows_ok : forall cl c rs k x, (forall j, k <= j -> blank x j) ->
  (forall j r, nth_error rs j = Some r -> knows (index_rows cl c k rs x) (k + j) (cell_arm cl c r)) /\
  (forall j, j < k -> has (cx_captured (index_rows cl c k rs x)) j = has (cx_captured x) j /\ has (cx_fallback (index_rows cl c k rs x)) j = has (cx_fallback x) j /\
     forall v, has (rows_for (index_rows cl c k rs x) v) j = has (rows_for x v) j).
Proof.
  intros cl c. induction rs as [|r rs IH]; intros k x B; cbn [index_rows].
  - split; [intros [|j] r E; discriminate|auto].
  - destruct (index_row_ok cl c k r x (B k (le_n k))) as [Kn Ot].
    destruct (IH (S k) (index_row cl c k r x)) as [A1 A2].
    { intros j Lj. destruct (Ot j ltac:(lia)) as (O1 & O2 & O3). destruct (B j ltac:(lia)) as (C1 & C2 & C3). split; [congruence|]. split; [congruence|]. intros v. rewrite O3. apply C3. }
    split.
    + intros [|j] r0 E; cbn in E.
      * injection E as <-. rewrite Nat.add_0_r. destruct (A2 k ltac:(lia)) as (O1 & O2 & O3). destruct Kn as (K1 & K2 & K3). split; [congruence|]. split; [congruence|]. intros v. rewrite O3. apply K3.
      * replace (k + S j) with (S k + j) by lia. now apply A1.
    + intros j Lj. destruct (A2 j ltac:(lia)) as (O1 & O2 & O3). destruct (Ot j ltac:(lia)) as (P1 & P2 & P3). split; [congruence|]. split; [congruence|]. intros v. now rewrite O3.
Qed.
Lemma build_column_ok : forall cl rs c x, build_column cl rs c = Some x -> (exists f, ic_field c = Some f /\ f <> "") /\
  forall j r, nth_error rs j = Some r -> knows x j (cell_arm cl c r).
Proof.
  intros cl rs c x E. unfold build_column in E. destruct (ic_field c) as [f|]; [|discriminate]. destruct (String.eqb f "") eqn:Ef; [discriminate|].
  split; [exists f; split; [reflexivity|]; intros ->; discriminate|]. destruct (cx_captured (index_rows cl c 0 rs (Column [] [] [] [] []))) eqn:Cp; [discriminate|]. injection E as <-.
  apply (index_rows_ok cl c rs 0 (Column [] [] [] [] [])). intros j _. split; [reflexivity|]. split; [reflexivity|]. intros []; reflexivity.
Qed.

(** *** The cells the index decides *)
Lemma in_cell_text : forall c r, in_cell c r = text (ic_id c) r.
Proof. intros c r. unfold in_cell, text. destruct (aget (ic_id c) r); reflexivity. Qed.
(** A cell that is recognised holds exactly for the values of its test. *)
Lemma cell_test_exact : forall X parse src t sc g v, cell_test parse src = t -> test_path t <> None -> local_str sc "$" = Some v ->
  (is_true (snd (srun X parse KUnary src sc g)) = true <-> passes t v) /\ (forall m, snd (srun X parse KUnary src sc g) <> Err (EPanic m)).
Proof.
  intros X parse src t sc g v E T D. unfold cell_test in E. destruct (trim src) as [|a0 l0]; [subst t; cbn in T; congruence|]. unfold srun.
  destruct (parse KUnary src) as [n|e]; [|subst t; cbn in T; congruence].
  assert (Et : from_node n = t /\ test_path t = Some ["$"]).
  { destruct (from_node n) as [p l|p l|p c| |]; try (subst t; cbn in T; congruence); (destruct (path_eqb p ["$"]) eqn:Q; [|subst t; cbn in T; congruence]); apply path_eqb_eq in Q; subst; auto. }
  destruct Et as [<- Tp]. assert (Hp : forall g1, hext g g1 -> eval X sc [] [] (path_node ["$"]) sc g1 = ORet v sc g1).
  { intros g1 _. cbn. unfold op_fetch_env. now rewrite D. }
  destruct (from_node_answers X sc g ["$"] v Hp n Tp) as (_ & (code & Cc) & An). rewrite Cc. destruct (An g (hext_refl g)) as (g1 & _ & Res). unfold evaluate.
  destruct Res as [(b & -> & I)|(m & -> & I)]; cbn [snd is_true].
  - split; [exact I|discriminate].
  - split; [|discriminate]. split; [discriminate|]. intros P. exfalso. apply I. destruct (from_node n); cbn in P |- *; auto; destruct P as (x & Ex & _); eauto.
Qed.
Lemma index_arm_exact : forall X parse src sc g v, recognised (index_arm parse src) = true -> local_str sc "$" = Some v ->
  is_true (snd (srun X parse KUnary src sc g)) = arm_has (index_arm parse src) v.
Proof.
  intros X parse src sc g v R D. unfold index_arm in *.
  assert (B : forall a b : bool, (a = true <-> b = true) -> a = b) by (intros [] [] [H1 H2]; auto; symmetry; auto).
  apply B. destruct (cell_test parse src) as [p l|p l|p c| |] eqn:E; try discriminate R.
  1,2: destruct (cell_test_exact X parse src _ sc g v E ltac:(discriminate) D) as [I _]; rewrite I; clear I; cbn [passes arm_has].
  - destruct v as [| | |s| | |]; (split; [intros (s0 & F & I0)|intros F]); try discriminate.
    + injection F as <-. apply existsb_exists. exists s. split; [exact I0|apply String.eqb_refl].
    + apply existsb_exists in F as (s0 & I0 & Q). apply String.eqb_eq in Q. subst. eauto.
  - destruct v as [|b| | | | |]; (split; [intros (s0 & F & I0)|intros F]); try discriminate.
    + injection F as <-. apply existsb_exists. exists b. split; [exact I0|apply Bool.eqb_reflx].
    + apply existsb_exists in F as (s0 & I0 & Q). apply Bool.eqb_prop in Q. subst. eauto.
  - destruct (points c) as [l|] eqn:Pc; [|discriminate R]. destruct (cell_test_exact X parse src _ sc g v E ltac:(discriminate) D) as [I _]; rewrite I; clear I; cbn [passes arm_has].
    destruct v as [| |x| | | |]; (split; [intros (s0 & F & I0)|intros F]); try discriminate.
    + injection F as <-. apply existsb_exists. now apply (covered_points _ _ _ Pc).
    + exists x. split; [reflexivity|]. apply (covered_points _ _ _ Pc). now apply existsb_exists in F.
Qed.

(** *** The rows left over *)
Section T.
  Variable L : lib.
  Hypothesis HL : plain_lib L.
  Variable parse : ekind -> string -> res node.
  Let X := std_ext L.
  Variables (env : value) (nodes : option value) (h0 : heap) (tb : table).
  Hypothesis Henv : has_tree h0 env.
  Hypothesis Hnodes : forall n, nodes = Some n -> has_tree h0 n.
  Hypothesis Hq : quiet parse tb.
  Hypothesis Hc : calm X parse env nodes h0 tb.
  Notation start := (start env nodes).
  Notation cell_holds := (cell_holds X parse env nodes h0).
  Notation holds := (holds X parse env nodes h0).
  Notation st := (st L parse env nodes h0).
  Notation classify := (index_arm parse).

  Lemma local_dollar : forall w, local_str (set_local start "$" w) "$" = Some w.
  Proof.
    intros w. unfold local_str, TableSpec.start. cbn [set_local sc_locals]. destruct nodes; reflexivity.
  Qed.
  Lemma arm_has_repr : forall a g1 g2 v w t, repr g1 v t -> repr g2 w t -> arm_has a v = arm_has a w.
  Proof. intros a g1 g2 v w t R1 R2. inversion R1; subst; inversion R2; subst; destruct a; reflexivity. Qed.
  Lemma decided_cell : forall c r f k v0, text (ic_id c) r <> None -> ic_field c = Some f -> srun X parse KStandard f start h0 = (k, Ok v0) ->
    recognised (cell_arm classify c r) = true -> cell_holds c r = arm_has (cell_arm classify c r) v0.
  Proof.
    intros c r f k v0 Tx Fc Rn Rc. unfold TableSpec.cell_holds, cell_arm in *. rewrite in_cell_text in *. destruct (text (ic_id c) r) as [src|]; [|congruence]. rewrite Fc.
    fold start. rewrite Rn. apply index_arm_exact; [exact Rc|apply local_dollar].
  Qed.
  Lemma arm_text : forall c r, recognised (cell_arm classify c r) = true -> text (ic_id c) r <> None.
  Proof. intros c r R. unfold cell_arm in R. rewrite in_cell_text in R. destruct (text (ic_id c) r); [discriminate|discriminate R]. Qed.
  Lemma holds_cell : forall c r, In c (tb_in tb) -> cell_holds c r = false -> holds tb r = false.
  Proof.
    intros c r Ic F. unfold TableSpec.holds. destruct (forallb (fun c => cell_holds c r) (tb_in tb)) eqn:A; [|reflexivity]. rewrite forallb_forall in A. rewrite (A c Ic) in F. discriminate.
  Qed.
  (** Rows not among [a] do not hold; for rows among [a], the cells the first [k] columns capture hold. *)
  Definition narrowed (ix : index) (k : nat) (a : rowset) : Prop := forall i r, nth_error (tb_rows tb) i = Some r ->
    (has a i = false -> holds tb r = false) /\
    (has a i = true -> forall j c x, j < k -> nth_error (tb_in tb) j = Some c -> nth_error ix j = Some (Some x) -> has (cx_captured x) i = true -> cell_holds c r = true).
  Definition narrowing (ix : index) (k : nat) (acc : option rowset) : Prop :=
    match acc with
    | Some a => narrowed ix k a
    | None => forall j x, j < k -> nth_error ix j <> Some (Some x)
    end.
  Lemma has_filter : forall f a i, has (filter f a) i = has a i && f i.
  Proof.
    intros f a i. induction a as [|x a IH]; [reflexivity|]. cbn [filter]. destruct (f x) eqn:Fx; cbn [has existsb]; fold (has (filter f a) i); fold (has a i); rewrite IH.
    - destruct (Nat.eqb_spec i x) as [->|]; cbn; [now rewrite Fx|reflexivity].
    - destruct (Nat.eqb_spec i x) as [->|]; cbn; [now rewrite Fx, andb_false_r|reflexivity].
  Qed.
  Lemma has_app : forall a b i, has (a ++ b) i = has a i || has b i.
  Proof. intros a b i. apply existsb_app. Qed.
  Lemma candidates_ok : forall ix, ix = map (build_column classify (tb_rows tb)) (tb_in tb) ->
    forall cs k acc s g, (forall j, nth_error cs j = nth_error (tb_in tb) (k + j)) -> st s g -> narrowing ix k acc ->
    exists s1 g1 o, candidates X parse (map (build_column classify (tb_rows tb)) cs) cs acc s g = (s1, g1, Ok o) /\ hext g g1 /\ st s1 g1 /\
      match o with Some a => narrowed ix (length (tb_in tb)) a | None => True end.
  Proof.
    intros ix Eix. induction cs as [|c cs IH]; intros k acc s g Sf Hs Na; cbn [candidates map].
    - exists s, g, acc. split; [reflexivity|]. split; [apply hext_refl|]. split; [exact Hs|]. destruct acc as [a|]; [|exact I].
      assert (Lk : length (tb_in tb) <= k) by (apply nth_error_None; specialize (Sf 0); rewrite Nat.add_0_r in Sf; now rewrite <- Sf).
      intros i r E. destruct (Na i r E) as [N1 N2]. split; [exact N1|]. intros Hi j c x Lj. apply (N2 Hi j c x). lia.
    - assert (Ec : nth_error (tb_in tb) k = Some c) by (specialize (Sf 0); rewrite Nat.add_0_r in Sf; now rewrite <- Sf).
      assert (Sf' : forall j, nth_error cs j = nth_error (tb_in tb) (S k + j)) by (intros j; specialize (Sf (S j)); cbn in Sf; rewrite Sf; f_equal; lia).
      assert (Ex : nth_error ix k = Some (build_column classify (tb_rows tb) c)) by (subst ix; now apply map_nth_error).
      assert (Skip : build_column classify (tb_rows tb) c = None -> narrowing ix (S k) acc).
      { intros Nb. destruct acc as [a|]; cbn [narrowing] in *.
        - intros i r E. destruct (Na i r E) as [N1 N2]. split; [exact N1|]. intros Hi j c0 x Lj Ej Exj. destruct (Nat.eq_dec j k) as [->|]; [congruence|]. apply (N2 Hi j c0 x); auto; lia.
        - intros j x Lj. destruct (Nat.eq_dec j k) as [->|]; [congruence|]. apply Na. lia. }
      destruct (build_column classify (tb_rows tb) c) as [x|] eqn:Bc.
      2: { destruct (IH (S k) acc s g Sf' Hs (Skip eq_refl)) as (s1 & g1 & o & A). exists s1, g1, o. exact A. }
      destruct (build_column_ok _ _ _ _ Bc) as ((f & Fc & Nf) & Kn). rewrite Fc. destruct (String.eqb_spec f "") as [|_]; [congruence|].
      destruct (s_ref X parse f s g) as [[s1 g1] [u|e]] eqn:Er; pose proof (ref_run L HL parse env nodes h0 tb Henv Hnodes Hq Hc s g f s1 g1 _ c Hs (nth_error_In _ _ Ec) Fc Er) as (H1 & S1 & Res).
      2: { destruct Res as [_ Np]. exists s1, g1, None. split; [destruct e as [q| | |q]; try reflexivity; now destruct (Np q)|]. auto. }
      destruct Res as (k1 & v0 & t & w & Rn & _ & R1 & R2 & _ & Ag). rewrite Ag.
      assert (Step : narrowing ix (S k) (Some (match acc with None => cx_fallback x ++ rows_for x w | Some a => filter (has (cx_fallback x ++ rows_for x w)) a end))).
      { intros i r E. destruct (Kn i r E) as (K1 & K2 & K3).
        assert (Hh : has (cx_fallback x ++ rows_for x w) i = negb (recognised (cell_arm classify c r)) || arm_has (cell_arm classify c r) v0).
        { rewrite has_app, K2, K3. f_equal. symmetry. eapply arm_has_repr; eauto. }
        assert (Cl : has (cx_fallback x ++ rows_for x w) i = false -> holds tb r = false).
        { intros Hf. rewrite Hh in Hf. apply orb_false_iff in Hf as [Hf1 Hf2]. apply negb_false_iff in Hf1. apply (holds_cell c); [eapply nth_error_In; eauto|].
          rewrite (decided_cell c r f k1 v0 (arm_text _ _ Hf1) Fc Rn Hf1). exact Hf2. }
        assert (Ch : has (cx_fallback x ++ rows_for x w) i = true -> has (cx_captured x) i = true -> cell_holds c r = true).
        { intros Ht Hp. rewrite K1 in Hp. rewrite Hh, Hp in Ht. cbn in Ht. now rewrite (decided_cell c r f k1 v0 (arm_text _ _ Hp) Fc Rn Hp). }
        destruct acc as [a|]; cbn [narrowing] in Na.
        - destruct (Na i r E) as [N1 N2]. rewrite has_filter. split.
          + intros Hf. apply andb_false_iff in Hf as [Hf|Hf]; auto.
          + intros Ht j c0 x0 Lj Ej Exj Hp. apply andb_true_iff in Ht as [Ha Ht]. destruct (Nat.eq_dec j k) as [->|]; [|eapply N2; eauto; lia].
            rewrite Ec in Ej. injection Ej as <-. rewrite Ex in Exj. injection Exj as <-. auto.
        - split; [exact Cl|]. intros Ht j c0 x0 Lj Ej Exj Hp. destruct (Nat.eq_dec j k) as [->|]; [|exfalso; eapply (Na j x0); [lia|exact Exj]].
          rewrite Ec in Ej. injection Ej as <-. rewrite Ex in Exj. injection Exj as <-. auto. }
      destruct (IH (S k) _ s1 g1 Sf' S1 Step) as (s2 & g2 & o & A1 & A2 & A3 & A4).
      destruct w as [| | | | | |d]; try (exists s2, g2, o; split; [exact A1|]; split; [eapply hext_trans; eauto|]; auto).
      exists s1, g1, None. auto.
  Qed.
  Lemma prune_ok : forall ix, ix = build_index classify tb ->
    exists s1 g1 p, prune X parse ix tb (node_session env nodes) h0 = (s1, g1, Ok p) /\ st s1 g1 /\ fair L parse env nodes h0 tb p.
  Proof.
    intros ix E. pose proof (st_start L parse env nodes h0 tb Hnodes Hc) as S0.
    assert (Np : fair L parse env nodes h0 tb no_pruning) by (intros i r _; split; intros; discriminate).
    destruct ix as [ix|]; cbn [prune]; [|exists (node_session env nodes), h0, no_pruning; auto].
    unfold build_index in E. destruct (length (tb_rows tb) <? 8); [discriminate|]. destruct (existsb _ _); [|discriminate]. injection E as ->.
    destruct (candidates_ok _ eq_refl (tb_in tb) 0 None (node_session env nodes) h0) as (s1 & g1 & o & -> & H1 & S1 & Nr); auto; [intros j x Lj; lia|].
    destruct o as [a|]; [|exists s1, g1, no_pruning; auto]. eexists s1, g1, _. split; [reflexivity|]. split; [exact S1|].
    intros i r Er. destruct (Nr i r Er) as [N1 N2]. cbn [skipped decided]. split; [intros Sk; apply N1; now apply negb_true_iff|].
    intros Sk j c Ej D. apply negb_false_iff in Sk. unfold decides in D. destruct (nth_error (map (build_column classify (tb_rows tb)) (tb_in tb)) j) as [[x|]|] eqn:Ex; try discriminate.
    apply (N2 Sk j c x); auto. apply nth_error_Some. congruence.
  Qed.
  (** Traced or not, indexed or not: the table gives what its rows say. *)
  Lemma table_any : forall tr ix, ix = None \/ ix = build_index classify tb ->
    exists g1 v t, table_says L parse env nodes h0 tb (Ok t) /\ hext h0 g1 /\ repr g1 v t /\ table_node X parse tr ix tb env nodes h0 = (g1, Ok v).
  Proof.
    intros tr ix Hix. assert (Pr : exists s1 g1 p, prune X parse (if tr then None else ix) tb (node_session env nodes) h0 = (s1, g1, Ok p) /\ st s1 g1 /\ fair L parse env nodes h0 tb p).
    { assert (No : exists s1 g1 p, prune X parse None tb (node_session env nodes) h0 = (s1, g1, Ok p) /\ st s1 g1 /\ fair L parse env nodes h0 tb p).
      { exists (node_session env nodes), h0, no_pruning. split; [reflexivity|]. split; [exact (st_start L parse env nodes h0 tb Hnodes Hc)|]. intros i r _; split; intros; discriminate. }
      destruct tr; [exact No|]. destruct Hix as [->|E]; [exact No|]. now apply prune_ok. }
    destruct Pr as (s1 & g1 & p & Ep & S1 & Fp). unfold table_node. rewrite Ep.
    exact (table_ok L HL parse env nodes h0 tb Henv Hnodes Hq Hc tr p s1 g1 S1 Fp).
  Qed.
End T.

(** *** The claims *)
Definition with_or_without (parse : ekind -> string -> res node) (tb : table) (ix : option index) : Prop := ix = None \/ ix = build_index (index_arm parse) tb.
Lemma table_gives : forall L parse env nodes h tb tr ix, in_order L parse env nodes h tb -> with_or_without parse tb ix ->
  exists t, table_says L parse env nodes h tb (Ok t) /\ gives h (table_node (std_ext L) parse tr ix tb env nodes h) t.
Proof.
  intros L parse env nodes h tb tr ix (HL & He & Hn & Hq & Hc) Hix. destruct (table_any L HL parse env nodes h tb He Hn Hq Hc tr ix Hix) as (g1 & v & t & S & Hx & R & E).
  exists t. split; [exact S|]. exists g1, v. split; [exact E|]. split; [exact R|]. intros l c. now apply hext_get.
Qed.
Lemma first_hit_table : forall L parse env nodes h tb tr ix, in_order L parse env nodes h tb -> with_or_without parse tb ix ->
  tb_policy tb = PFirst -> (forall o, In o (tb_out tb) -> snd (write_path o) = false) ->
  exists os, Forall2 (row_says (std_ext L) parse env nodes h tb) (tb_rows tb) os /\
    gives h (table_node (std_ext L) parse tr ix tb env nodes h) (hd TNull (somes os)).
Proof.
  intros L parse env nodes h tb tr ix Ho Hix P Nc. destruct (table_gives L parse env nodes h tb tr ix Ho Hix) as (t & S & G). unfold table_says in S. rewrite P in S.
  assert (Ex : existsb (fun o => snd (write_path o)) (tb_out tb) = false).
  { destruct (existsb _ _) eqn:Q; [|reflexivity]. apply existsb_exists in Q as (o & Io & Q). rewrite (Nc o Io) in Q. discriminate. }
  rewrite Ex in S. destruct S as (os & F & E). injection E as ->. exists os. split; [exact F|]. destruct (somes os); exact G.
Qed.
Lemma collect_table : forall L parse env nodes h tb tr ix, in_order L parse env nodes h tb -> with_or_without parse tb ix ->
  tb_policy tb = PCollect ->
  exists os, Forall2 (row_says (std_ext L) parse env nodes h tb) (tb_rows tb) os /\
    gives h (table_node (std_ext L) parse tr ix tb env nodes h) (TArr (somes os)).
Proof.
  intros L parse env nodes h tb tr ix Ho Hix P. destruct (table_gives L parse env nodes h tb tr ix Ho Hix) as (t & S & G). unfold table_says in S. rewrite P in S.
  destruct S as (os & F & E). injection E as ->. eauto.
Qed.
Lemma first_collect_table : forall L parse env nodes h tb tr ix, in_order L parse env nodes h tb -> with_or_without parse tb ix ->
  tb_policy tb = PFirst -> (exists o, In o (tb_out tb) /\ snd (write_path o) = true) ->
  exists rs, Forall2 (fun r mv => fst mv = holds (std_ext L) parse env nodes h tb r /\ cells_yield (std_ext L) parse env nodes h (written (numbered (tb_out tb)) r) (snd mv)) (tb_rows tb) rs /\
    gives h (table_node (std_ext L) parse tr ix tb env nodes h) (match scan rs with Some (t, vs) => collected tb vs t | None => TNull end).
Proof.
  intros L parse env nodes h tb tr ix Ho Hix P (o & Io & Co). destruct (table_gives L parse env nodes h tb tr ix Ho Hix) as (t & S & G). unfold table_says in S. rewrite P in S.
  assert (Ex : existsb (fun o => snd (write_path o)) (tb_out tb) = true) by (apply existsb_exists; eauto).
  rewrite Ex in S. destruct S as (is & F & E). injection E as ->. exists is. split; [exact F|exact G].
Qed.
Lemma same_table : forall L parse env nodes h tb tr1 ix1 tr2 ix2, in_order L parse env nodes h tb -> with_or_without parse tb ix1 -> with_or_without parse tb ix2 ->
  exists t, gives h (table_node (std_ext L) parse tr1 ix1 tb env nodes h) t /\ gives h (table_node (std_ext L) parse tr2 ix2 tb env nodes h) t.
Proof.
  intros L parse env nodes h tb tr1 ix1 tr2 ix2 Ho H1 H2. destruct (table_gives L parse env nodes h tb tr1 ix1 Ho H1) as (t1 & S1 & G1).
  destruct (table_gives L parse env nodes h tb tr2 ix2 Ho H2) as (t2 & S2 & G2). pose proof (table_says_fun L parse env nodes h tb _ _ S1 S2) as E. injection E as <-. eauto.
Qed.
(** What [hd] of the rows that say something is. *)
Lemma somes_first : forall A (os : list (option A)) i t, nth_error os i = Some (Some t) -> (forall j, j < i -> nth_error os j = Some None) -> forall d, hd d (somes os) = t.
Proof.
  intros A. induction os as [|o os IH]; intros [|i] t E B d; cbn in E; try discriminate.
  - injection E as ->. reflexivity.
  - pose proof (B 0 ltac:(lia)) as B0. cbn in B0. injection B0 as ->. cbn. apply (IH i t E). intros j Lj. exact (B (S j) ltac:(lia)).
Qed.
Lemma first_row : forall L parse env nodes h tb tr ix i r t, in_order L parse env nodes h tb -> with_or_without parse tb ix ->
  tb_policy tb = PFirst -> (forall o, In o (tb_out tb) -> snd (write_path o) = false) ->
  nth_error (tb_rows tb) i = Some r -> row_says (std_ext L) parse env nodes h tb r (Some t) ->
  (forall j r', j < i -> nth_error (tb_rows tb) j = Some r' -> row_says (std_ext L) parse env nodes h tb r' None) ->
  gives h (table_node (std_ext L) parse tr ix tb env nodes h) t.
Proof.
  intros L parse env nodes h tb tr ix i r t Ho Hix P Nc Er Sr Bf. destruct (first_hit_table L parse env nodes h tb tr ix Ho Hix P Nc) as (os & F & G).
  assert (N : forall j r' o, nth_error (tb_rows tb) j = Some r' -> row_says (std_ext L) parse env nodes h tb r' o -> nth_error os j = Some o).
  { clear -F. intros j. revert F. generalize (tb_rows tb). intros rs F. revert j. induction F as [|r0 o0 rs os S0 F IH]; intros [|j] r' o E S1; cbn in E |- *; try discriminate; [|now apply (IH j r' o E)].
    injection E as ->. f_equal. exact (says_fun L parse env nodes h tb r' _ _ S0 S1). }
  rewrite (somes_first _ os i t) in G; [exact G|now apply (N i r)|]. intros j Lj.
  destruct (nth_error (tb_rows tb) j) as [r'|] eqn:Ej; [apply (N j r' None Ej); now apply (Bf j)|]. apply nth_error_None in Ej. assert (i < length (tb_rows tb)) by (apply nth_error_Some; congruence). lia.
Qed.
Lemma no_row : forall L parse env nodes h tb tr ix, in_order L parse env nodes h tb -> with_or_without parse tb ix ->
  tb_policy tb = PFirst -> (forall o, In o (tb_out tb) -> snd (write_path o) = false) ->
  (forall r, In r (tb_rows tb) -> row_says (std_ext L) parse env nodes h tb r None) ->
  gives h (table_node (std_ext L) parse tr ix tb env nodes h) TNull.
Proof.
  intros L parse env nodes h tb tr ix Ho Hix P Nc Bf. destruct (first_hit_table L parse env nodes h tb tr ix Ho Hix P Nc) as (os & F & G).
  replace (hd TNull (somes os)) with TNull in G; [exact G|]. clear G. revert F Bf. generalize (tb_rows tb). intros rs F Bf. induction F as [|r0 o0 rs os S0 F IH]; [reflexivity|].
  rewrite (says_fun L parse env nodes h tb r0 _ _ S0 (Bf r0 (or_introl eq_refl))). cbn. apply IH. intros r I. apply Bf. now right.
Qed.

(** *** C29 in terms of evaluations. *)
Lemma analysis_exact : forall X n root h p v, test_path (from_node n) = Some p ->
  (forall g, (forall l c, hget h l = Some c -> hget g l = Some c) -> RunSpec.yields X (path_node p) root g (Ok v) g) ->
  exists r h1, RunSpec.yields X n root h r h1 /\ (forall l c, hget h l = Some c -> hget h1 l = Some c) /\ (r = Ok (VBool true) <-> passes (from_node n) v).
Proof.
  intros X n root h p v T Hp. assert (Hp' : forall g, hext h g -> eval X root [] [] (path_node p) root g = ORet v root g).
  { intros g Hg. apply yields_eval; [|apply Hp; intros l c; now apply hext_get]. clear. destruct p as [|k p]; [reflexivity|]. cbn. assert (A : no_assign (NIdent k) = true) by reflexivity. revert A. generalize (NIdent k). induction p as [|k2 p IH]; intros n A; [exact A|]. cbn. apply IH. cbn. now rewrite A. }
  destruct (from_node_answers X root h p v Hp' n T) as (_ & Cc & An). destruct (An h (hext_refl h)) as (g1 & Hg & Res).
  destruct Res as [(b & E & I)|(m & E & I)]; pose proof (eval_yields X n root h _ Cc E) as Y; cbn in Y; eexists _, g1; (split; [exact Y|]); (split; [intros l c; now apply hext_get|]).
  - rewrite <- I. split; [now intros [= ->]|now intros ->].
  - split; [discriminate|]. intros P. exfalso. apply I. destruct (from_node n); cbn in P |- *; auto; destruct P as (x & Ex & _); eauto.
Qed.
Lemma cell_exact : forall X parse src sc h v, test_path (cell_test parse src) <> None -> local_str sc "$" = Some v ->
  (snd (srun X parse KUnary src sc h) = Ok (VBool true) <-> passes (cell_test parse src) v).
Proof.
  intros X parse src sc h v T D. destruct (cell_test_exact X parse src _ sc h v eq_refl T D) as [I _]. rewrite <- I.
  destruct (snd (srun X parse KUnary src sc h)) as [[]|]; cbn; split; congruence.
Qed.

(** *** The field of an output column. *)
Definition spaces (s : string) : bool := forallb is_space (list_ascii_of_string s).
Definition solid (s : string) : Prop := exists c m, (list_ascii_of_string s = [c] /\ is_space c = false) \/ (exists d, list_ascii_of_string s = c :: m ++ [d] /\ is_space c = false /\ is_space d = false).
Lemma chars_app : forall a b, list_ascii_of_string (a ++ b)%string = list_ascii_of_string a ++ list_ascii_of_string b.
Proof. induction a as [|c a IH]; intros b; cbn; [reflexivity|]. now rewrite IH. Qed.
Lemma drop_spaces : forall a l, forallb is_space a = true -> drop_space (a ++ l) = drop_space l.
Proof. induction a as [|c a IH]; intros l H; [reflexivity|]. cbn [forallb app drop_space] in *. apply andb_true_iff in H as [-> H]. auto. Qed.
Lemma forallb_rev : forall A (f : A -> bool) l, forallb f l = true -> forallb f (rev l) = true.
Proof. intros A f l H. rewrite forallb_forall in *. intros x I. apply H. now apply in_rev. Qed.
Lemma solid_front : forall s l, solid s -> drop_space (list_ascii_of_string s ++ l) = list_ascii_of_string s ++ l.
Proof. intros s l (c & m & [(-> & E)|(d & -> & E & _)]); cbn [app drop_space]; now rewrite E. Qed.
Lemma solid_back : forall s l, solid s -> drop_space (rev (list_ascii_of_string s) ++ l) = rev (list_ascii_of_string s) ++ l.
Proof. intros s l (c & m & [(-> & E)|(d & -> & _ & E)]); [cbn [rev app drop_space]; now rewrite E|]. cbn [rev]. rewrite rev_app_distr. cbn [rev app drop_space]. now rewrite E. Qed.
Lemma trim_end_spaces : forall l b, forallb is_space b = true -> trim_end (l ++ b) = trim_end l.
Proof. intros l b H. unfold trim_end. rewrite rev_app_distr, drop_spaces; [reflexivity|now apply forallb_rev]. Qed.
Lemma trim_end_solid : forall s, solid s -> trim_end (list_ascii_of_string s) = list_ascii_of_string s.
Proof. intros s H. unfold trim_end. pose proof (solid_back s [] H) as E. rewrite !app_nil_r in E. now rewrite E, rev_involutive. Qed.
Lemma column_collected : forall id a s c b, spaces a = true -> solid s -> spaces c = true -> spaces b = true ->
  write_path (OutCol id (a ++ s ++ c ++ "[]" ++ b)%string) = (s, true).
Proof.
  intros id a s c b Ha Hs Hc Hb. unfold write_path, trim. cbn [oc_field]. rewrite !chars_app. cbn [list_ascii_of_string app]. rewrite (drop_spaces _ _ Ha), solid_front by exact Hs.
  replace (list_ascii_of_string s ++ list_ascii_of_string c ++ "["%char :: "]"%char :: list_ascii_of_string b)
    with ((list_ascii_of_string s ++ list_ascii_of_string c ++ ["["%char; "]"%char]) ++ list_ascii_of_string b) by now rewrite <- !app_assoc.
  rewrite (trim_end_spaces _ _ Hb). replace (trim_end (list_ascii_of_string s ++ list_ascii_of_string c ++ ["["%char; "]"%char])) with (list_ascii_of_string s ++ list_ascii_of_string c ++ ["["%char; "]"%char]).
  2: { unfold trim_end. rewrite !rev_app_distr. cbn [rev app]. cbn [drop_space is_space existsb Ascii.eqb Bool.eqb orb]. cbn. rewrite !rev_app_distr, !rev_involutive, <- !app_assoc. reflexivity. }
  unfold strip_brackets. rewrite !rev_app_distr. cbn [rev app]. rewrite rev_app_distr, !rev_involutive, (trim_end_spaces _ _ Hc), trim_end_solid by exact Hs. now rewrite string_of_list_ascii_of_string.
Qed.
Lemma column_plain : forall id a s b, spaces a = true -> solid s -> spaces b = true -> (forall p, s <> (p ++ "[]")%string) ->
  write_path (OutCol id (a ++ s ++ b)%string) = (s, false).
Proof.
  intros id a s b Ha Hs Hb N. unfold write_path, trim. cbn [oc_field]. rewrite !chars_app, (drop_spaces _ _ Ha), solid_front by exact Hs. rewrite (trim_end_spaces _ _ Hb), trim_end_solid by exact Hs.
  replace (strip_brackets (list_ascii_of_string s)) with (@None (list ascii)); [now rewrite string_of_list_ascii_of_string|]. symmetry. destruct (strip_brackets (list_ascii_of_string s)) as [p|] eqn:E; [|reflexivity]. exfalso.
  apply (N (string_of_list_ascii p)). unfold strip_brackets in E. assert (Q : exists r, rev (list_ascii_of_string s) = "]"%char :: "["%char :: r /\ p = rev r).
  { destruct (rev (list_ascii_of_string s)) as [|x [|y r]]; try discriminate E.
    - destruct x as [[] [] [] [] [] [] [] []]; discriminate E.
    - exists r. destruct x as [[] [] [] [] [] [] [] []]; try discriminate E; destruct y as [[] [] [] [] [] [] [] []]; try discriminate E. now injection E as <-. }
  destruct Q as (r & Q & ->). rewrite <- (string_of_list_ascii_of_string s). rewrite <- (rev_involutive (list_ascii_of_string s)), Q. cbn [rev].
  clear. rewrite <- app_assoc. cbn. induction (rev r) as [|x l IH]; [reflexivity|]. cbn. now rewrite IH.
Qed.
