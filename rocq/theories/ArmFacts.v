(** The cell analyser is right about the conditions it recognises: C29. *)
From Coq Require Import String Ascii ZArith QArith Lia Lqa Bool List Arith.
From Verif Require Import Base Dec Value Heap HeapFacts HeapSpec Ast Ops Compiler Vm Eval CompilerFacts ExprFacts PureFacts RunSpec OpFacts Isolate Table Discriminant CoverSpec CoverFacts.
Import ListNotations.
Local Open Scope string_scope.
Local Open Scope list_scope.
Local Open Scope nat_scope.

(** *** Paths *)
Lemma path_snoc : forall q k, q <> [] -> path_node (q ++ [k]) = NMember (path_node q) (NString k).
Proof. intros [|a q] k N; [congruence|]. cbn [path_node app]. now rewrite fold_left_app. Qed.
Lemma extract_path_ok : forall n q, extract_path n = Some q -> q <> [] /\ n = path_node q.
Proof.
  fix IH 1. intros n q E. destruct n; try discriminate.
  - cbn in E. injection E as <-. split; [discriminate|reflexivity].
  - cbn in E. destruct n2; try discriminate. destruct (extract_path n1) as [q1|] eqn:E1; [|discriminate]. injection E as <-.
    destruct (IH n1 q1 E1) as [N ->]. split; [now destruct q1|]. now rewrite path_snoc.
Qed.
Lemma fast_path : forall q k, exists t, compile_member_fast [] (fold_left (fun n k => NMember n (NString k)) q (NIdent k)) = Some t.
Proof.
  intros q k. induction q as [|a q IH] using rev_ind; [eexists; reflexivity|]. rewrite fold_left_app. cbn. destruct IH as (t & ->). eauto.
Qed.
Lemma compiles_path : forall X q, compiles X (path_node q).
Proof.
  intros X [|k q]; [eexists; reflexivity|]. cbn [path_node]. destruct q as [|a q] using rev_ind; [eexists; reflexivity|clear IHq].
  destruct (fast_path (q ++ [a]) k) as (t & F). rewrite fold_left_app in *. cbn [fold_left] in *. unfold compiles, compile. cbn [compile_node]. rewrite F. eexists. reflexivity.
Qed.
Lemma no_assign_path : forall q, no_assign (path_node q) = true.
Proof.
  intros [|k q]; [reflexivity|]. cbn [path_node]. induction q as [|a q IH] using rev_ind; [reflexivity|]. rewrite fold_left_app. cbn [fold_left no_assign]. now rewrite IH.
Qed.

(** The value is of the kind the test is about. *)
Definition kind_of (v : value) (t : arm_test) : Prop :=
  match t with
  | TEnum _ _ => exists s, v = VStr s
  | TBools _ _ => exists b, v = VBool b
  | TNumber _ _ => exists x, v = VNum x
  | _ => False
  end.
Section Arm.
  Variable X : ext.
  Variables (root : scope) (h : heap) (p : list string) (v : value).
  (** The path has the value [v], whatever is allocated later. *)
  Hypothesis Hp : forall g, hext h g -> eval X root [] [] (path_node p) root g = ORet v root g.
  Notation kind := (kind_of v).
  Notation ev n g := (eval X root [] [] n root g).

  (** Parentheses. *)
  Lemma unwrap_eval : forall n g, ev n g = ev (unwrap n) g.
  Proof. fix IH 1. intros n g. destruct n; try reflexivity. apply (IH n g). Qed.
  Lemma unwrap_no_assign : forall n, no_assign n = no_assign (unwrap n).
  Proof. fix IH 1. intros n. destruct n; try reflexivity. apply (IH n). Qed.
  Lemma unwrap_compiles : forall n, compiles X (unwrap n) -> compiles X n.
  Proof. fix IH 1. intros n. destruct n; try (intros H; exact H). intros H. destruct (IH n H) as (c & E). exists c. exact E. Qed.

  Definition lit (n : node) (w : value) : Prop := no_assign n = true /\ compiles X n /\ forall g, ev n g = ORet w root g.
  Lemma lit_unwrap : forall n w, lit (unwrap n) w -> lit n w.
  Proof. intros n w (A & B & C). split; [now rewrite unwrap_no_assign|]. split; [now apply unwrap_compiles|]. intros g. rewrite unwrap_eval. apply C. Qed.
  Definition is_path (n : node) (q : list string) : Prop := no_assign n = true /\ compiles X n /\ forall g, ev n g = ev (path_node q) g.
  Lemma operand_ok : forall n, match operand_of n with
    | OPath q => is_path n q
    | ONum d => lit n (VNum d)
    | OStr s => lit n (VStr s)
    | OBool b => lit n (VBool b)
    | OOther => True
    end.
  Proof.
    intros n. unfold operand_of. destruct (unwrap n) eqn:U; cbn [extract_path]; auto.
    1-3: apply lit_unwrap; rewrite U; split; [reflexivity|]; split; [eexists; reflexivity|reflexivity].
    - split; [now rewrite unwrap_no_assign, U|]. split; [apply unwrap_compiles; rewrite U; eexists; reflexivity|]. intros g. now rewrite unwrap_eval, U.
    - destruct (extract_path (NMember n0_1 n0_2)) as [q|] eqn:E; cbn [extract_path] in E; rewrite E; [|exact I].
      destruct (extract_path_ok (NMember n0_1 n0_2) q E) as [N Q]. split; [rewrite unwrap_no_assign, U, Q; apply no_assign_path|].
      split; [apply unwrap_compiles; rewrite U, Q; apply compiles_path|]. intros g. now rewrite unwrap_eval, U, Q.
    - destruct op as [a| | | | | | | | |]; auto. destruct a; auto. destruct (unwrap n0) eqn:U0; auto. apply lit_unwrap. rewrite U.
      assert (Li : lit n0 (VNum d)) by (apply lit_unwrap; rewrite U0; split; [reflexivity|]; split; [eexists; reflexivity|reflexivity]).
      destruct Li as (A & B & C). split; [exact A|]. split; [now apply compiles_neg|]. intros g. cbn [eval]. rewrite C. reflexivity.
  Qed.

  (** A condition answers according to the test; if it fails, the value is of the wrong kind. *)
  Definition answers_to (n : node) (t : arm_test) : Prop := no_assign n = true /\ compiles X n /\
    forall g, hext h g -> exists g1, hext g g1 /\
      ((exists b, ev n g = ORet (VBool b) root g1 /\ (b = true <-> passes t v)) \/ (exists m, ev n g = OErr (EOp m) g1 /\ ~ kind t)).
  Lemma binary_answers : forall l c r t, c <> CNotIn -> no_assign l = true -> no_assign r = true -> compiles X l -> compiles X r ->
    (forall g, hext h g -> exists g1 a b, hext g g1 /\ ev l g = ORet a root g /\ ev r g = ORet b root g1 /\
       ((exists x, bin_value X (OpCmp c) g1 a b = Ok (VBool x) /\ (x = true <-> passes t v)) \/ (exists m, bin_value X (OpCmp c) g1 a b = Err (EOp m) /\ ~ kind t))) ->
    answers_to (NBinary l (OpCmp c) r) t.
  Proof.
    intros l c r t Nc Nl Nr Cl Cr H. split; [cbn; now rewrite Nl, Nr|]. split; [apply compiles_binary; auto; left; destruct c; discriminate|].
    intros g Hg. destruct (H g Hg) as (g1 & a & b & Hx & El & Er & Res). exists g1. split; [exact Hx|]. cbn [eval]. rewrite El. cbn [obind]. rewrite Er. cbn [obind].
    destruct Res as [(x & E & I)|(m & E & I)]; [left; exists x|right; exists m]; (split; [|exact I]); destruct c; rewrite E; reflexivity.
  Qed.
  Lemma equality_answers : forall l r t, equality l r = t -> test_path t = Some p -> answers_to (NBinary l (OpCmp CEq) r) t.
  Proof.
    intros l r t E T.
    assert (G : forall q a b w, (is_path a q /\ lit b w) \/ (lit a w /\ is_path b q) -> q = p ->
      forall t, (forall x, op_equal v w = VBool x -> (x = true <-> passes t v)) -> op_equal v w = op_equal w v -> answers_to (NBinary a (OpCmp CEq) b) t).
    { intros q a b w AB -> t0 Q Sy. apply binary_answers; [discriminate|..].
      1-4: destruct AB as [[(A1 & A2 & A3) (B1 & B2 & B3)]|[(A1 & A2 & A3) (B1 & B2 & B3)]]; assumption.
      intros g Hg. exists g. destruct AB as [[(A1 & A2 & A3) (B1 & B2 & B3)]|[(A1 & A2 & A3) (B1 & B2 & B3)]].
      - exists v, w. split; [apply hext_refl|]. rewrite A3, (Hp g Hg), B3. split; [reflexivity|]. split; [reflexivity|]. left. eexists. split; [reflexivity|]. apply Q. reflexivity.
      - exists w, v. split; [apply hext_refl|]. rewrite B3, (Hp g Hg), A3. split; [reflexivity|]. split; [reflexivity|]. left. cbn [bin_value]. rewrite <- Sy. eexists. split; [reflexivity|]. apply Q. reflexivity. }
    assert (Qs : forall q s x, op_equal v (VStr s) = VBool x -> (x = true <-> passes (TEnum q [s]) v)).
    { intros q s x Q. destruct (op_equal_spec v (VStr s)) as (y & Ey & I). rewrite Q in Ey. injection Ey as <-. rewrite I. cbn. destruct v as [| | |z| | |[|]]; cbn; split; try tauto;
        try (intros (zz & F & _); discriminate). 1: intros ->; exists s; split; [reflexivity|now left]. intros (s0 & F & [->|[]]). congruence. }
    assert (Qb : forall q s x, op_equal v (VBool s) = VBool x -> (x = true <-> passes (TBools q [s]) v)).
    { intros q s x Q. destruct (op_equal_spec v (VBool s)) as (y & Ey & I). rewrite Q in Ey. injection Ey as <-. rewrite I. cbn. destruct v as [|z| | | | |[|]]; cbn; split; try tauto;
        try (intros (zz & F & _); discriminate). 1: intros ->; exists s; split; [reflexivity|now left]. intros (s0 & F & [->|[]]). congruence. }
    assert (Qn : forall q s x, op_equal v (VNum s) = VBool x -> (x = true <-> passes (TNumber q (point s)) v)).
    { intros q s x Q. destruct (op_equal_spec v (VNum s)) as (y & Ey & I). rewrite Q in Ey. injection Ey as <-. rewrite I. cbn [passes]. destruct v as [| |z| | | |[|]]; cbn [scalar_eq]; split; try tauto;
        try (intros (zz & F & _); discriminate). 1: intros F; exists z; split; [reflexivity|now apply covered_point]. intros (s0 & F & Cv). injection F as <-. now apply covered_point in Cv. }
    assert (Sy : forall w, (exists s, w = VStr s) \/ (exists s, w = VBool s) \/ (exists s, w = VNum s) -> op_equal v w = op_equal w v).
    { intros w W. destruct W as [(s & ->)|[(s & ->)|(s & ->)]]; unfold op_equal; destruct v as [| | | | | |[|]]; try reflexivity; f_equal; [apply String.eqb_sym|destruct b, s; reflexivity|apply dec_eqb_sym]. }
    unfold equality in E. pose proof (operand_ok l) as Ol. pose proof (operand_ok r) as Or.
    destruct (operand_of l) as [q|n|s|b|]; destruct (operand_of r) as [q'|n'|s'|b'|]; subst t; cbn in T; try discriminate; injection T as T;
      (eapply G; [first [left; split; eassumption|right; split; eassumption]|exact T|first [apply Qs|apply Qb|apply Qn]|apply Sy; eauto]).
  Qed.
  Lemma flip_holds : forall o x y, In o [CLt; CLe; CGt; CGe] -> bin_value X (OpCmp (flip_cmp o)) [] x y = bin_value X (OpCmp o) [] y x.
  Proof.
    intros o x y I. assert (K : forall a b, dec_cmp a b = CompOpp (dec_cmp b a)) by (intros; unfold dec_cmp; apply Z.compare_antisym).
    assert (D : forall a b, vmdate_cmp a b = CompOpp (vmdate_cmp b a)).
    { intros [[a|] ?] [[b|] ?]; unfold vmdate_cmp; cbn; auto. apply Z.compare_antisym. }
    cbn in I. destruct I as [<-|[<-|[<-|[<-|[]]]]]; cbn; unfold op_compare; destruct x as [| | | | | |[|]], y as [| | | | | |[|]]; try reflexivity;
      match goal with
      | |- context[dec_cmp ?a ?b] => rewrite (K a b); destruct (dec_cmp b a)
      | |- context[vmdate_cmp ?a ?b] => rewrite (D a b); destruct (vmdate_cmp b a)
      end; reflexivity.
  Qed.
  Lemma compare_answers : forall o n c q, In o [CLt; CLe; CGt; CGe] -> single o n = Some c ->
    (exists x, bin_value X (OpCmp o) [] v (VNum n) = Ok (VBool x) /\ (x = true <-> passes (TNumber q c) v)) \/
    (exists m, bin_value X (OpCmp o) [] v (VNum n) = Err (EOp m) /\ ~ kind (TNumber q c)).
  Proof.
    intros o n c q I S. cbn in I. destruct I as [<-|[<-|[<-|[<-|[]]]]]; cbn in S; injection S as <-; cbn [bin_value op_compare].
    all: destruct v as [| |z| | | |[|]]; try (right; eexists; split; [reflexivity|]; intros (x & F); discriminate).
    all: left; eexists; split; [reflexivity|]; cbn [passes]; pose proof (dec_cmp_dec z n) as K; split.
    all: try (intros T; exists z; split; [reflexivity|]; eexists; split; [left; reflexivity|]; cbn; destruct (dec_cmp z n); cbn in T; try discriminate; split; auto; lra).
    all: intros (x & F & s & [<-|[]] & O & U); injection F as <-; cbn in O, U; destruct (dec_cmp z n); cbn; auto; exfalso; lra.
  Qed.
  Lemma numeric_answers : forall l o r t, In o [CLt; CLe; CGt; CGe] -> numeric l o r = t -> test_path t = Some p -> answers_to (NBinary l (OpCmp o) r) t.
  Proof.
    intros l o r t I E T. unfold numeric in E. pose proof (operand_ok l) as Ol. pose proof (operand_ok r) as Or.
    destruct (operand_of l) as [q|n|s|b|]; destruct (operand_of r) as [q'|n'|s'|b'|]; try (subst t; discriminate).
    - destruct (single o n') as [c|] eqn:S; subst t; [|discriminate]. cbn in T. injection T as ->. destruct Ol as (A1 & A2 & A3). destruct Or as (B1 & B2 & B3).
      apply binary_answers; auto; [cbn in I; intuition congruence|]. intros g Hg. exists g, v, (VNum n'). split; [apply hext_refl|]. rewrite A3, (Hp g Hg), B3. repeat split.
      pose proof (compare_answers o n' c p I S) as K. cbn in I. destruct I as [<-|[<-|[<-|[<-|[]]]]]; exact K.
    - destruct (single (flip_cmp o) n) as [c|] eqn:S; subst t; [|discriminate]. cbn in T. injection T as ->. destruct Ol as (A1 & A2 & A3). destruct Or as (B1 & B2 & B3).
      assert (I' : In (flip_cmp o) [CLt; CLe; CGt; CGe]) by (cbn in I; destruct I as [<-|[<-|[<-|[<-|[]]]]]; cbn; auto).
      apply binary_answers; auto; [cbn in I; intuition congruence|]. intros g Hg. exists g, (VNum n), v. split; [apply hext_refl|]. rewrite B3, (Hp g Hg), A3. repeat split.
      pose proof (compare_answers (flip_cmp o) n c p I' S) as K. rewrite (flip_holds o v (VNum n) I) in K. cbn in I. destruct I as [<-|[<-|[<-|[<-|[]]]]]; exact K.
  Qed.

  (** Arrays of literals. *)
  Lemma array_lit : forall ns ws, Forall2 lit ns ws -> no_assign (NArray ns) = true /\ compiles X (NArray ns) /\ forall g, ev (NArray ns) g = ORet (VArr (length g)) root (g ++ [CArr ws]).
  Proof.
    intros ns ws F. split; [cbn; induction F as [|n w ns ws Hn F IH]; [reflexivity|]; cbn; rewrite IH; destruct Hn as (-> & _); reflexivity|]. split.
    - unfold compiles. setoid_rewrite compile_cgen. cbn [cgen].
      assert (C : exists c, rconcat (cgen X []) ns = Ok c).
      { induction F as [|n w ns ws Hn Hs IH]; [eexists; reflexivity|]. destruct IH as [c E]. cbn. rewrite E. destruct Hn as (_ & (c1 & C1) & _). rewrite compile_cgen in C1. rewrite C1. cbn. eexists. reflexivity. }
      destruct C as [c ->]. eexists. reflexivity.
    - intros g. cbn [eval]. assert (E : eval_seq (eval X root [] []) ns root g = ORet ws root g).
      { induction F as [|n w ns ws Hn Hs IH]; [reflexivity|].
        assert (U : forall f (n : node) l, eval_seq f (n :: l) root g = Eval.obind (f n root g) (fun v env h0 =>
          Eval.obind (eval_seq f l env h0) (fun vs env h0 => ORet (A := list value) (v :: vs) env h0))) by reflexivity.
        rewrite U. destruct Hn as (_ & _ & E). rewrite E. cbn [Eval.obind]. rewrite IH. reflexivity. }
      rewrite E. reflexivity.
  Qed.
  Lemma all_some_lits : forall A (f : node -> option A) (k : A -> value) ns l, (forall n x, f n = Some x -> lit n (k x)) -> all_some f ns = Some l -> Forall2 lit ns (map k l).
  Proof.
    intros A f k. induction ns as [|n ns IH]; intros l H E; cbn in E; [injection E as <-; constructor|]. destruct (f n) as [x|] eqn:Fx; [|discriminate].
    destruct (all_some f ns) as [l'|]; [|discriminate]. injection E as <-. constructor; auto.
  Qed.
  Lemma in_array_answers : forall l r items ws t, is_path l p -> unwrap r = NArray items -> Forall2 lit items ws ->
    (forall g l0, hget g l0 = Some (CArr ws) ->
       (exists x, op_in g v (VArr l0) = Ok (VBool x) /\ (x = true <-> passes t v)) \/ (exists m, op_in g v (VArr l0) = Err (EOp m) /\ ~ kind t)) ->
    answers_to (NBinary l (OpCmp CIn) r) t.
  Proof.
    intros l r items ws t (A1 & A2 & A3) U F H. destruct (array_lit items ws F) as (B1 & B2 & B3). apply binary_answers; auto; [discriminate|now rewrite unwrap_no_assign, U|apply unwrap_compiles; now rewrite U|].
    intros g Hg. exists (g ++ [CArr ws]), v, (VArr (length g)). split; [now exists [CArr ws]|]. rewrite A3, (Hp g Hg), (unwrap_eval r), U, B3. split; [reflexivity|]. split; [reflexivity|].
    apply H. unfold hget. rewrite nth_error_app2 by lia. now rewrite Nat.sub_diag.
  Qed.
  Lemma existsb_map_in : forall A (k : A -> value) (f : value -> bool) l (P : A -> Prop), (forall x, f (k x) = true <-> P x) -> (existsb f (map k l) = true <-> exists x, In x l /\ P x).
  Proof.
    intros A k f l P H. rewrite existsb_exists. split.
    - intros (w & I & F). apply in_map_iff in I as (x & <- & I). exists x. split; auto. now apply H.
    - intros (x & I & Q). exists (k x). split; [now apply in_map|]. now apply H.
  Qed.
  Lemma existsb_map_no : forall A (k : A -> value) (f : value -> bool) l, (forall x, f (k x) = false) -> existsb f (map k l) = false.
  Proof. intros A k f l H. induction l as [|x l IH]; [reflexivity|]. cbn. now rewrite H, IH. Qed.
  Lemma covered_fold : forall ds c x, covered (fold_left (fun c n => c ++ point n) ds c) x <-> covered c x \/ exists n, In n ds /\ (dec_val x == dec_val n)%Q.
  Proof.
    induction ds as [|d ds IH]; intros c x; cbn [fold_left].
    - split; [auto|]. intros [C|(n & [] & _)]. exact C.
    - rewrite IH, covered_app, covered_point. split.
      + intros [[C|E]|(n & I & E)]; [now left|right; exists d; cbn; auto|right; exists n; cbn; auto].
      + intros [C|(n & [<-|I] & E)]; auto. right. eauto.
  Qed.
  Lemma in_set_answers : forall l r t, in_set l r = t -> test_path t = Some p -> answers_to (NBinary l (OpCmp CIn) r) t.
  Proof.
    intros l r t E T. unfold in_set in E. pose proof (operand_ok l) as Ol. destruct (operand_of l) as [q|n|s|b|]; try (subst t; discriminate).
    destruct (unwrap r) as [ | | | | | |items| | | | | | | | |lo hi lb rb| | | | | | ] eqn:U; try (subst t; discriminate).
    - assert (Q : q = p).
      { destruct items as [|i0 items]; [subst t; discriminate|]. destruct (all_some _ (i0 :: items)) in E; [subst t; cbn in T; congruence|].
        destruct (all_some _ (i0 :: items)) in E; [subst t; cbn in T; congruence|]. destruct (all_some _ (i0 :: items)) as [[|d ds]|] in E; subst t; cbn in T; congruence. }
      subst q. destruct items as [|i0 items]; [subst t; discriminate|]. set (its := i0 :: items) in *.
      destruct (all_some (fun n => match unwrap n with NString s => Some s | _ => None end) its) as [vs|] eqn:S1.
      { subst t. eapply in_array_answers; [exact Ol|exact U| |].
        - refine (all_some_lits _ _ VStr _ _ _ S1). intros n s Fs. destruct (unwrap n) eqn:Un; try discriminate. injection Fs as <-. apply lit_unwrap. rewrite Un. split; [reflexivity|]. split; [eexists; reflexivity|reflexivity].
        - intros g l0 G. assert (Ga : harr g l0 = Some (map VStr vs)) by (unfold harr; now rewrite G). unfold op_in, arr_any. rewrite Ga.
          destruct v as [|b0|x0|s0|l1|l1|[d0|i1]]; cbn [kind_of passes].
          all: try (right; eexists; split; [reflexivity|]; intros (s1 & F); discriminate).
          all: left; eexists; split; [reflexivity|].
          4: { rewrite (existsb_map_in _ VStr _ vs (fun s1 => s1 = s0)); [|intros s1; rewrite String.eqb_eq; split; congruence].
               split; [intros (s1 & I1 & ->); eauto|]. intros (s1 & F & I1). injection F as <-. eauto. }
          all: rewrite existsb_map_no by reflexivity; split; [discriminate|intros (s1 & F & _); discriminate]. }
      destruct (all_some (fun n => match unwrap n with NBool b => Some b | _ => None end) its) as [vs|] eqn:S2.
      { subst t. eapply in_array_answers; [exact Ol|exact U| |].
        - refine (all_some_lits _ _ VBool _ _ _ S2). intros n s Fs. destruct (unwrap n) eqn:Un; try discriminate. injection Fs as <-. apply lit_unwrap. rewrite Un. split; [reflexivity|]. split; [eexists; reflexivity|reflexivity].
        - intros g l0 G. assert (Ga : harr g l0 = Some (map VBool vs)) by (unfold harr; now rewrite G). unfold op_in, arr_any. rewrite Ga.
          destruct v as [|b0|x0|s0|l1|l1|[d0|i1]]; cbn [kind_of passes].
          all: try (right; eexists; split; [reflexivity|]; intros (s1 & F); discriminate).
          all: left; eexists; split; [reflexivity|].
          2: { rewrite (existsb_map_in _ VBool _ vs (fun s1 => s1 = b0)); [|intros s1; rewrite Bool.eqb_true_iff; split; congruence].
               split; [intros (s1 & I1 & ->); eauto|]. intros (s1 & F & I1). injection F as <-. eauto. }
          all: rewrite existsb_map_no by reflexivity; split; [discriminate|intros (s1 & F & _); discriminate]. }
      destruct (all_some (fun n => match operand_of n with ONum d => Some d | _ => None end) its) as [[|d ds]|] eqn:S3; try (subst t; discriminate).
      subst t. eapply in_array_answers; [exact Ol|exact U| |].
      + refine (all_some_lits _ _ VNum _ _ _ S3). intros n s Fs. pose proof (operand_ok n) as On. destruct (operand_of n); try discriminate. injection Fs as <-. exact On.
      + intros g l0 G. assert (Ga : harr g l0 = Some (map VNum (d :: ds))) by (unfold harr; now rewrite G). unfold op_in, arr_any. rewrite Ga.
        destruct v as [|b0|x0|s0|l1|l1|[d0|i1]]; cbn [kind_of passes].
        all: try (right; eexists; split; [reflexivity|]; intros (s1 & F); discriminate).
        all: left; eexists; split; [reflexivity|].
        3: { rewrite (existsb_map_in _ VNum _ (d :: ds) (fun s1 => (dec_val x0 == dec_val s1)%Q)); [|intros s1; apply dec_eqb_val]. split.
             - intros (s1 & I1 & E1). exists x0. split; [reflexivity|]. rewrite covered_fold, covered_point. destruct I1 as [<-|I1]; eauto.
             - intros (s1 & F & Cv). injection F as <-. rewrite covered_fold, covered_point in Cv. destruct Cv as [E1|(n & I1 & E1)]; [exists d|exists n]; cbn; auto. }
        all: rewrite existsb_map_no by reflexivity; split; [discriminate|intros (s1 & F & _); discriminate].
    - pose proof (operand_ok lo) as Olo. pose proof (operand_ok hi) as Ohi. destruct (operand_of lo) as [|a| | |]; try (subst t; discriminate). destruct (operand_of hi) as [|b| | |]; try (subst t; discriminate).
      destruct (interval_cover a lb b rb) as [c|] eqn:Ic; subst t; [|discriminate]. cbn in T. injection T as ->.
      destruct Ol as (A1 & A2 & A3). destruct Olo as (B1 & B2 & B3). destruct Ohi as (C1 & C2 & C3).
      apply binary_answers; auto; [discriminate|rewrite unwrap_no_assign, U; cbn; now rewrite B1, C1|apply unwrap_compiles; rewrite U; now apply compiles_interval|].
      intros g Hg. exists g, v, (VDyn (DInterval (Interval lb rb (INum a) (INum b)))). split; [apply hext_refl|]. rewrite A3, (Hp g Hg), (unwrap_eval r), U. split; [reflexivity|].
      split; [cbn [eval]; rewrite B3; cbn [obind]; rewrite C3; reflexivity|]. cbn [bin_value].
      unfold interval_cover in Ic. destruct lb, rb; try discriminate; injection Ic as <-; unfold op_in, interval_includes; cbn [iv_lb iv_rb iv_left iv_right idata_cmp of_option bind].
      all: destruct v as [|b0|x0|s0|l1|l1|[d0|i1]]; cbn [kind_of passes].
      all: try (right; eexists; split; [reflexivity|]; intros (s1 & F); discriminate).
      all: left; eexists; split; [reflexivity|].
      all: try (cbn; split; [discriminate|intros (s1 & F & _); discriminate]).
      all: pose proof (dec_cmp_dec a x0) as K1; pose proof (dec_cmp_dec b x0) as K2; split.
      all: try (intros Tr; exists x0; split; [reflexivity|]; eexists; split; [left; reflexivity|]; cbn; destruct (dec_cmp a x0), (dec_cmp b x0); cbn in Tr; try discriminate; split; lra).
      all: intros (s1 & F & sg & [<-|[]] & O & U1); injection F as <-; cbn in O, U1; destruct (dec_cmp a x0), (dec_cmp b x0); cbn; auto; exfalso; lra.
  Qed.
  Lemma path_eqb_eq : forall a b, path_eqb a b = true -> a = b.
  Proof. intros a b. unfold path_eqb. destruct (list_eq_dec string_dec a b); congruence. Qed.
  Lemma passes_kind : forall t, passes t v -> kind t.
  Proof. intros [| | | |]; cbn; auto; intros (x & E & _); eauto. Qed.
  Lemma and_answers : forall l r ta tb t, answers_to l ta -> answers_to r tb -> arm_and ta tb = t -> test_path t = Some p -> answers_to (NBinary l (OpLogic LAnd) r) t.
  Proof.
    intros l r ta tb t (A1 & A2 & A3) (B1 & B2 & B3) E T. destruct ta as [| |pa ca| |], tb as [| |pb cb| |]; cbn in E; try (subst t; discriminate).
    destruct (path_eqb pa pb); [|subst t; discriminate]. destruct (intersect ca cb) as [c|] eqn:Ci; subst t; [|discriminate].
    split; [cbn; now rewrite A1, B1|]. split; [apply compiles_binary; auto; right; discriminate|].
    assert (Pc : passes (TNumber pa c) v <-> passes (TNumber pa ca) v /\ passes (TNumber pb cb) v).
    { cbn [passes]. split.
      - intros (x & Ex & Cv). apply (covered_intersect _ _ _ _ Ci) in Cv as [C1 C2]. split; exists x; auto.
      - intros [(x & Ex & C1) (y & Ey & C2)]. assert (y = x) by congruence. subst y. exists x. split; [exact Ex|]. apply (covered_intersect _ _ _ _ Ci). auto. }
    intros g Hg. destruct (A3 g Hg) as (g1 & H1 & [(x & E1 & I1)|(m & E1 & I1)]).
    - destruct x.
      + destruct (B3 g1 (hext_trans _ _ _ Hg H1)) as (g2 & H2 & [(y & E2 & I2)|(m & E2 & I2)]); exists g2; (split; [eapply hext_trans; eauto|]).
        * left. exists y. cbn [eval]. rewrite E1. cbn [obind]. split; [exact E2|]. rewrite Pc. intuition (auto; try discriminate).
        * right. exists m. cbn [eval]. rewrite E1. cbn [obind]. split; [exact E2|exact I2].
      + exists g1. split; [exact H1|]. left. exists false. cbn [eval]. rewrite E1. split; [reflexivity|]. rewrite Pc. intuition (auto; try discriminate).
    - exists g1. split; [exact H1|]. right. exists m. cbn [eval]. rewrite E1. split; [reflexivity|exact I1].
  Qed.
  Lemma or_answers : forall l r ta tb t, answers_to l ta -> answers_to r tb -> arm_or ta tb = t -> test_path t = Some p -> answers_to (NBinary l (OpLogic LOr) r) t.
  Proof.
    intros l r ta tb t (A1 & A2 & A3) (B1 & B2 & B3) E T.
    assert (K : (passes t v <-> passes ta v \/ passes tb v) /\ (kind t <-> kind ta) /\ (kind t <-> kind tb)).
    { destruct ta as [pa va|pa va|pa ca| |], tb as [pb vb|pb vb|pb cb| |]; cbn in E; try (subst t; discriminate);
        (destruct (path_eqb pa pb); subst t; [|discriminate]); cbn [passes kind_of]; (split; [|tauto]).
      1,2: setoid_rewrite in_app_iff; split; [intros (s & Es & [I|I])|intros [(s & Es & I)|(s & Es & I)]]; eauto.
      setoid_rewrite covered_app. split; [intros (s & Es & [I|I])|intros [(s & Es & I)|(s & Es & I)]]; eauto. }
    destruct K as (Pt & K1 & K2). clear E. split; [cbn; now rewrite A1, B1|]. split; [apply compiles_binary; auto; right; discriminate|].
    intros g Hg. destruct (A3 g Hg) as (g1 & H1 & [(x & E1 & I1)|(m & E1 & I1)]).
    - destruct x.
      + exists g1. split; [exact H1|]. left. exists true. cbn [eval]. rewrite E1. split; [reflexivity|]. rewrite Pt. intuition (auto; try discriminate).
      + destruct (B3 g1 (hext_trans _ _ _ Hg H1)) as (g2 & H2 & [(y & E2 & I2)|(m & E2 & I2)]); exists g2; (split; [eapply hext_trans; eauto|]).
        * left. exists y. cbn [eval]. rewrite E1. cbn [obind]. split; [exact E2|]. rewrite Pt. intuition (auto; try discriminate).
        * right. exists m. cbn [eval]. rewrite E1. cbn [obind]. split; [exact E2|]. tauto.
    - exists g1. split; [exact H1|]. right. exists m. cbn [eval]. rewrite E1. split; [reflexivity|]. tauto.
  Qed.
  Lemma and_path : forall ta tb, test_path (arm_and ta tb) = Some p -> test_path ta = Some p /\ test_path tb = Some p.
  Proof.
    intros [| |pa ca| |] [| |pb cb| |]; cbn; try discriminate. destruct (path_eqb pa pb) eqn:Q; [|discriminate]. apply path_eqb_eq in Q. destruct (intersect ca cb); cbn; [|discriminate]. intros E. split; congruence.
  Qed.
  Lemma or_path : forall ta tb, test_path (arm_or ta tb) = Some p -> test_path ta = Some p /\ test_path tb = Some p.
  Proof.
    intros [pa|pa|pa ca| |] [pb|pb|pb cb| |]; cbn; try discriminate; destruct (path_eqb pa pb) eqn:Q; try discriminate; apply path_eqb_eq in Q; cbn; intros E; split; congruence.
  Qed.
  Lemma from_node_answers : forall n, test_path (from_node n) = Some p -> answers_to n (from_node n).
  Proof.
    fix IH 1. intros n T. destruct n as [ | | | | | | | | | | |n| | | | | | |l op r| | | ]; try discriminate.
    - destruct (IH n T) as (A & B & C). split; [exact A|]. split; [destruct B as (c & Ec); exists c; exact Ec|exact C].
    - cbn [from_node] in *. destruct op as [|lo|c| | | | | | |]; try discriminate.
      + destruct lo; try discriminate.
        * destruct (and_path _ _ T) as [T1 T2]. eapply and_answers; [exact (IH l T1)|exact (IH r T2)|reflexivity|exact T].
        * destruct (or_path _ _ T) as [T1 T2]. eapply or_answers; [exact (IH l T1)|exact (IH r T2)|reflexivity|exact T].
      + destruct c; try discriminate.
        * now apply equality_answers.
        * apply numeric_answers; cbn; auto.
        * apply numeric_answers; cbn; auto.
        * apply numeric_answers; cbn; auto.
        * apply numeric_answers; cbn; auto.
        * now apply in_set_answers.
  Qed.
End Arm.
