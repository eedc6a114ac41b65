(** Facts about the hint: what it reports, and that the match block says the same. *)
From Coq Require Import String Bool List Arith Lia.
From Verif Require Import Base Dec Value Heap Ast Ops Compiler Eval CompilerFacts Funcs HeapSpec HeapFacts Isolate Session PureFacts RunSpec Driver Blocks BlocksSpec BlocksFacts PreferMatch PreferSpec.
From Verif Require RepFacts ContentFacts KeepFacts KeepLib DriverFacts.
Import ListNotations.
Local Open Scope string_scope.
Local Open Scope nat_scope.
Local Open Scope list_scope.

(** *** Chains. *)
Lemma chain_exists : forall n, exists l e, chain n l e.
Proof.
  induction n using node_ind'; try (eexists; eexists; apply Ch_end; congruence).
  - destruct IHn as (l & e & H). eauto using Ch_paren.
  - destruct IHn3 as (l & e & H). eauto using Ch_cond.
Qed.
Lemma chain_conds : forall n l e, chain n l e -> chain_conditions n = map fst l.
Proof. induction 1 as [n l e _ IH|e N1 N2|c v f l e _ IH]; cbn; [exact IH| |now rewrite IH]. destruct e; try reflexivity; [exfalso; eapply N1; reflexivity|exfalso; eapply N2; reflexivity]. Qed.

(** *** Paths. *)
Lemma visits_part : forall m x n, part x n -> In m (visits x) -> In m (visits n).
Proof.
  intros m x n P H. destruct P; cbn [visits]; right; rewrite ?in_app_iff, ?in_flat_map; eauto 6;
  (exists (k, v); split; [assumption|cbn [fst snd]; rewrite in_app_iff; auto]) || (left; exists (k, v); split; [assumption|cbn [fst snd]; rewrite in_app_iff; auto]).
Qed.
Lemma visits_iff : forall n m, In m (visits n) <-> inside m n.
Proof.
  intros n m. split.
  - revert m. induction n using node_ind'; intros m [<-|I]; try apply In_self; try (destruct I; fail); rewrite ?in_app_iff, ?in_flat_map in I;
    repeat match goal with
      | I : _ \/ _ |- _ => destruct I as [I|I]
      | I : exists x, In x _ /\ _ |- _ => destruct I as (? & ?I & I)
      | H : Forall _ ?l, J : In _ ?l |- _ => rewrite Forall_forall in H; specialize (H _ J); cbv beta in H
      | H : _ /\ _ |- _ => destruct H
      | I : In _ (visits _ ++ visits _) |- _ => apply in_app_iff in I
      | x : (node * node)%type |- _ => destruct x; cbn [fst snd] in *
      | I : In _ (match ?o with Some _ => _ | None => _ end) |- _ => destruct o; [|destruct I]
      end; eauto using In_part, part.
  - induction 1 as [n|m x n P _ IH]; [destruct n; now left|]. eapply visits_part; eauto.
Qed.
Lemma quoted_iff : forall n s, quoted n s <-> bare n = NString s.
Proof. intros n s. split; [induction 1; auto|]. induction n; cbn; intros H; try discriminate H; [injection H as ->; constructor|constructor; auto]. Qed.
Scheme spells_mind := Minimality for spells Sort Prop with spells_in_mind := Minimality for spells_in Sort Prop.
Lemma dotted_iff : forall n, (forall s, spells_in n s <-> dotted_in n = Some s).
Proof.
  intros n s. split.
  - revert n s. apply (spells_in_mind (fun n s => dotted_in n = Some s) (fun n s => dotted_in n = Some s)); cbn; auto.
    intros m b p s _ E Q. rewrite E. apply quoted_iff in Q. now rewrite Q.
  - revert s. induction n using node_ind'; cbn; intros s0 Hd; try discriminate Hd.
    + injection Hd as ->. constructor. constructor.
    + apply Si_paren. auto.
    + destruct (dotted_in n1) as [b|]; [|discriminate Hd]. destruct (bare n2) eqn:B; try discriminate Hd. injection Hd as <-. constructor. constructor; [auto|now apply quoted_iff].
Qed.
Lemma spells_iff : forall n s, spells n s <-> dotted_path n = Some s.
Proof.
  intros n s. split.
  - intros H. assert (D : dotted_in n = Some s) by (apply dotted_iff; now constructor). destruct H; exact D.
  - intros H. assert (D : dotted_in n = Some s) by (destruct n; cbn in *; auto; discriminate H). apply dotted_iff in D. destruct D as [n s D|n s D]; [exact D|discriminate H].
Qed.
Lemma all_paths_iff : forall n p, In p (all_paths n) <-> mentions n p.
Proof.
  intros n p. unfold all_paths, mentions. rewrite in_flat_map. split.
  - intros (m & V & H). exists m. split; [now apply visits_iff|]. apply spells_iff. destruct (dotted_path m); [destruct H as [->|[]]; reflexivity|destruct H].
  - intros (m & V & H). exists m. split; [now apply visits_iff|]. apply spells_iff in H. rewrite H. now left.
Qed.
Lemma app_dot : forall p r, (p ++ "." ++ r = (p ++ ".") ++ r)%string.
Proof. induction p as [|c p IH]; intros r; [reflexivity|]. cbn. now rewrite <- IH. Qed.
Lemma app_len : forall a b, String.length (a ++ b) = String.length a + String.length b.
Proof. induction a as [|c a IH]; intros b; [reflexivity|]. cbn. now rewrite IH. Qed.
Lemma maximal_iff : forall n p, In p (maximal_paths n) <-> subject n p.
Proof.
  intros n p. unfold maximal_paths, subject. rewrite filter_In, nodup_In, all_paths_iff, negb_true_iff. split; intros [A B]; (split; [exact A|]).
  - intros r M. apply all_paths_iff in M. assert (T : existsb (fun q => (String.length p <? String.length q) && prefix (p ++ ".") q) (nodup string_dec (all_paths n)) = true).
    { apply existsb_exists. exists (p ++ "." ++ r)%string. split; [now apply nodup_In|]. apply andb_true_iff. split; [apply Nat.ltb_lt; rewrite !app_len; cbn; lia|]. apply DriverFacts.prefix_iff. exists r. apply app_dot. }
    congruence.
  - apply not_true_is_false. intros T. apply existsb_exists in T as (q & I & T). apply andb_true_iff in T as [_ T]. apply DriverFacts.prefix_iff in T as (r & ->). apply nodup_In, all_paths_iff in I. rewrite <- app_dot in I. exact (B r I).
Qed.
Lemma smember_iff : forall s l, smember s l = true <-> In s l.
Proof. intros s l. unfold smember. rewrite existsb_exists. split; [intros (x & I & E); apply String.eqb_eq in E; now subst|]. intros I. exists s. split; [exact I|apply String.eqb_refl]. Qed.
Lemma maximal_nodup : forall n, NoDup (maximal_paths n).
Proof. intros n. unfold maximal_paths. apply NoDup_filter, NoDup_nodup. Qed.
Lemma common_in : forall ls acc p, In p (fold_left (fun acc paths => filter (fun p => smember p paths) acc) ls acc) <-> In p acc /\ forall l, In l ls -> In p l.
Proof.
  induction ls as [|l ls IH]; intros acc p; cbn [fold_left]; [split; [intros H; split; [exact H|intros l []]|tauto]|].
  rewrite IH, filter_In, smember_iff. split.
  - intros [[A B] C]. split; [exact A|]. intros l' [<-|I]; auto.
  - intros [A B]. split; [split; [exact A|apply B; now left]|]. intros l' I. apply B. now right.
Qed.
Lemma common_nodup : forall ls acc, NoDup acc -> NoDup (fold_left (fun acc paths => filter (fun p => smember p paths) acc) ls acc).
Proof. induction ls as [|l ls IH]; intros acc N; [exact N|]. cbn. apply IH. now apply NoDup_filter. Qed.
Lemma inspect_iff : forall n l e, chain n l e -> forall i, inspect n = Some i <-> 2 <= length l /\ fst i = length l /\
  match snd i with Some p => common_subject l p /\ (forall q, common_subject l q -> q = p) | None => ~ exists p, common_subject l p /\ (forall q, common_subject l q -> q = p) end.
Proof.
  intros n l e C [k s]. unfold inspect. rewrite (chain_conds _ _ _ C), map_map. destruct l as [|[c0 v0] l]; [cbn; split; [discriminate|lia]|].
  cbn [map fst snd length]. rewrite map_length. set (common := fold_left _ _ _).
  assert (K : forall p, In p common <-> common_subject ((c0, v0) :: l) p).
  { intros p. unfold common. rewrite common_in, maximal_iff. unfold common_subject. split.
    - intros [A B] c v [E|I]; [injection E as <- <-; exact A|]. apply maximal_iff. apply B. apply in_map_iff. exists (c, v). auto.
    - intros H. split; [apply (H c0 v0); now left|]. intros x I. apply in_map_iff in I as ([c v] & <- & I). apply maximal_iff. apply (H c v). now right. }
  assert (N : NoDup common) by (apply common_nodup, maximal_nodup).
  destruct (Nat.ltb_spec (S (length l)) 2) as [H|H]; [split; [discriminate|lia]|].
  split.
  - intros E. injection E as <- <-. split; [exact H|]. split; [reflexivity|]. destruct common as [|p [|q r]].
    + intros (p & A & _). apply K in A. destruct A.
    + split; [apply K; now left|]. intros q A. apply K in A. destruct A as [->|[]]. reflexivity.
    + intros (p0 & A & B). assert (E1 : p = p0) by (apply B, K; now left). assert (E2 : q = p0) by (apply B, K; right; now left). inversion N as [|? ? N1 _]; subst. apply N1. now left.
  - intros (_ & -> & S). f_equal. f_equal. destruct s as [p|].
    + destruct S as [A B]. apply K in A. destruct common as [|x [|y r]]; [destruct A|destruct A as [->|[]]; reflexivity|].
      exfalso. assert (E1 : x = p) by (apply B, K; now left). assert (E2 : y = p) by (apply B, K; right; now left). inversion N as [|? ? N1 _]; subst. apply N1. now left.
    + destruct common as [|x [|y r]]; try reflexivity. exfalso. apply S. exists x. split; [apply K; now left|]. intros q A. apply K in A. destruct A as [->|[]]. reflexivity.
Qed.

(** *** The match block. *)
Section Same.
  Variable L : lib.
  Hypothesis HL : ContentFacts.plain_lib L.
  Variable parse : ekind -> string -> res node.
  Notation X := (std_ext L).
  Definition fine (n : node) : Prop := no_assign n = true /\ RepFacts.reads (fun _ => true) false n = true /\ exists c, cgen X [] n = Ok c.
  Lemma fine_paren : forall n, fine (NParen n) <-> fine n.
  Proof. intros n. unfold fine. cbn [no_assign RepFacts.reads cgen]. tauto. Qed.
  Lemma fine_cond : forall c v f, fine (NCond c v f) -> fine c /\ fine v /\ fine f.
  Proof.
    intros c v f (A & B & (k & C)). cbn [no_assign] in A. cbn [RepFacts.reads] in B. rewrite !andb_true_iff in A, B. cbn [cgen] in C.
    destruct (cgen X [] c) as [x|] eqn:E1; [|discriminate C]. cbn in C. destruct (cgen X [] v) as [y|] eqn:E2; [|discriminate C]. cbn in C. destruct (cgen X [] f) as [z|] eqn:E3; [|discriminate C].
    unfold fine. intuition eauto.
  Qed.
  Lemma paren_ev : forall n sc g, evaluate X (NParen n) sc g = evaluate X n sc g.
  Proof. reflexivity. Qed.
  Lemma cond_ev : forall c v f sc g, no_assign c = true -> evaluate X (NCond c v f) sc g =
    match evaluate X c sc g with
    | (Ok (VBool true), g1) => evaluate X v sc g1
    | (Ok (VBool false), g1) => evaluate X f sc g1
    | (Ok _, g1) => (Err (EOp "JumpIfFalse"), g1)
    | (Err e, g1) => (Err e, g1)
    end.
  Proof.
    intros c v f sc g N. unfold evaluate. cbn [eval]. pose proof (eval_env X sc c N [] [] sc g) as S. destruct (eval X sc [] [] c sc g) as [x env g1|]; cbn [obind]; [|reflexivity].
    cbn in S. subst env. destruct x as [|[]| | | | |]; reflexivity.
  Qed.
  Lemma unwraps_ev : forall m n, unwraps m n -> (fine m <-> fine n) /\ forall sc g, evaluate X m sc g = evaluate X n sc g.
  Proof.
    induction 1 as [n|m n _ [F E]|m n _ [F E]]; [split; [tauto|reflexivity]| |].
    - rewrite fine_paren. split; [exact F|]. intros. rewrite paren_ev. apply E.
    - rewrite fine_paren. split; [exact F|]. intros. rewrite paren_ev. apply E.
  Qed.
  Lemma says_run : forall src n, says parse src n -> fine n -> reads_only parse src /\ forall sc g, srun X parse KStandard src sc g = (snd (evaluate X n sc g), fst (evaluate X n sc g)).
  Proof.
    intros src n (_ & m & P & U) F. apply unwraps_ev in U as [FU E]. apply FU in F as (A & B & (k & C)). split.
    - intros m' P'. rewrite P in P'. injection P' as <-. auto.
    - intros sc g. unfold srun. rewrite P. rewrite compile_cgen, C. rewrite <- E. destruct (evaluate X m sc g). reflexivity.
  Qed.

  Section World.
    Variables (ls le : loc) (ms me : amap value) (h : heap).
    Hypothesis W : world ls le ms me h.
    Notation ctx := (VObj le).
    Notation sc := (scope_new ctx).
    Lemma ev_hext : forall n g, fine n -> hext g (snd (evaluate X n sc g)).
    Proof. intros n g (A & _). exact (evaluate_pure X n sc g (std_pure L) (no_assign_flat n A)). Qed.
    (** An expression gives the same in all later moments. *)
    Lemma later : forall src n g, says parse src n -> fine n -> hext h g ->
      match fst (evaluate X n sc g) with
      | Ok (VBool b) => outcome X parse h ctx src = Ok (VBool b)
      | Ok v => exists v', outcome X parse h ctx src = Ok v' /\ forall b, v' <> VBool b
      | Err e => outcome X parse h ctx src = Err e
      end.
    Proof.
      intros src n g S F E. destruct (says_run src n S F) as [R Q].
      pose proof (run_looks L HL parse ls le h g ctx ctx src (world_looks _ _ _ _ _ _ W E) R) as O. unfold outcome.
      rewrite (Q sc g) in O. cbn [fst snd] in O. destruct (snd (srun X parse KStandard src sc h)) as [v1|e1], (fst (evaluate X n sc g)) as [v2|e2]; cbn in O; try contradiction; [|now rewrite O].
      apply KeepFacts.alike_view in O. inversion O; subst; try reflexivity; eexists; (split; [reflexivity|discriminate]).
    Qed.
    Lemma later_tree : forall src n g t, says parse src n -> fine n -> hext h g ->
      (evaluates X parse h ctx src t <-> exists v, fst (evaluate X n sc g) = Ok v /\ repr (snd (evaluate X n sc g)) v t).
    Proof.
      intros src n g t S F E. destruct (says_run src n S F) as [R Q].
      rewrite (evaluates_looks L HL parse ls le h g ctx ctx src t (world_looks _ _ _ _ _ _ W E) R). unfold evaluates. rewrite Q. split.
      - intros (h1 & v & Eq & Rp). injection Eq as <- Eq. eauto.
      - intros (v & Eq & Rp). rewrite Eq. eauto.
    Qed.
    Lemma chain_down : forall n l e, chain n l e -> fine n -> forall arms, arms_of parse l e arms -> forall g v t, hext h g ->
      fst (evaluate X n sc g) = Ok v -> repr (snd (evaluate X n sc g)) v t ->
      exists a, arm_chosen X parse h ctx arms (Some a) /\ ma_value a <> "" /\ evaluates X parse h ctx (ma_value a) t.
    Proof.
      induction 1 as [n l e _ IH|e N1 N2|c x f l e _ IH]; intros F arms A g v t E Ev Rp.
      - apply fine_paren in F. rewrite paren_ev in Ev, Rp. eapply IH; eauto.
      - inversion A as [? a C S|]; subst. exists a. split; [constructor; now left|]. split; [apply S|]. apply (later_tree _ e g t S F E). eauto.
      - apply fine_cond in F as (Fc & Fx & Ff). inversion A as [|? ? ? ? a arms' Sc Sx A']; subst. rewrite cond_ev in Ev, Rp by apply Fc.
        pose proof (later _ c g Sc Fc E) as O. pose proof (ev_hext c g Fc) as E1.
        destruct (evaluate X c sc g) as [[w|er] g1] eqn:Ec; cbn [fst snd] in *; [|discriminate Ev].
        assert (Eg : hext h g1) by (eapply hext_trans; eauto).
        destruct w as [|[|]| | | | |]; try discriminate Ev.
        + exists a. split; [constructor; right; unfold holds_in; now rewrite O|]. split; [apply Sx|]. apply (later_tree _ x g1 t Sx Fx Eg). eauto.
        + destruct (IH Ff arms' A' g1 v t Eg Ev Rp) as (a' & Ch & Nv & T). exists a'. split; [|auto]. apply AC_next; [apply Sc|exists (VBool false); exact O| |exact Ch]. unfold holds_in. now rewrite O.
    Qed.
    Lemma chain_up : forall n l e, chain n l e -> fine n -> forall arms, arms_of parse l e arms ->
      (forall a v, In a arms -> ma_cond a <> "" -> outcome X parse h ctx (ma_cond a) = Ok v -> exists b, v = VBool b) ->
      forall g t a, hext h g -> arm_chosen X parse h ctx arms (Some a) -> evaluates X parse h ctx (ma_value a) t ->
      exists v, fst (evaluate X n sc g) = Ok v /\ repr (snd (evaluate X n sc g)) v t.
    Proof.
      induction 1 as [n l e _ IH|e N1 N2|c x f l e _ IH]; intros F arms A HB g t a E Ch T.
      - apply fine_paren in F. rewrite paren_ev. eapply IH; eauto.
      - inversion A as [? a0 C S|]; subst. assert (a = a0) by (inversion Ch; subst; [reflexivity|congruence]). subst a0. apply (later_tree _ e g t S F E). exact T.
      - apply fine_cond in F as (Fc & Fx & Ff). inversion A as [|? ? ? ? a0 arms' Sc Sx A']; subst. rewrite cond_ev by apply Fc.
        pose proof (later _ c g Sc Fc E) as O. pose proof (ev_hext c g Fc) as E1.
        destruct (evaluate X c sc g) as [[w|er] g1] eqn:Ec; cbn [fst snd] in *.
        + assert (Eg : hext h g1) by (eapply hext_trans; eauto).
          assert (Wb : exists b, w = VBool b /\ outcome X parse h ctx (ma_cond a0) = Ok (VBool b)).
          { assert (K : (exists v', outcome X parse h ctx (ma_cond a0) = Ok v' /\ forall b, v' <> VBool b) -> False).
            { intros (v' & Ov & Nb). destruct (HB a0 v' (or_introl eq_refl) (proj1 Sc) Ov) as (b & ->). exact (Nb b eq_refl). }
            destruct w; try (exfalso; exact (K O)). eauto. }
          destruct Wb as (b & -> & Ob). destruct b.
          * inversion Ch as [|? ? Q|? ? ? Q1 Q2 Q3 Q4]; subst; [|unfold holds_in in Q3; rewrite Ob in Q3; discriminate Q3]. apply (later_tree _ x g1 t Sx Fx Eg). exact T.
          * inversion Ch as [|? ? [Q|Q]|? ? ? Q1 Q2 Q3 Q4]; subst; [exfalso; exact (proj1 Sc Q)|unfold holds_in in Q; rewrite Ob in Q; discriminate Q|].
            apply (IH Ff arms' A' (fun a v I => HB a v (or_intror I)) g1 t a Eg Q4 T).
        + inversion Ch as [|? ? [Q|Q]|? ? ? Q1 (v' & Q2) Q3 Q4]; subst; [exfalso; exact (proj1 Sc Q)|unfold holds_in in Q; rewrite O in Q; discriminate Q|congruence].
    Qed.
    Lemma arms_some : forall l e arms, arms_of parse l e arms -> forall o, arm_chosen X parse h ctx arms o -> exists a, o = Some a /\ ma_value a <> "".
    Proof.
      induction 1 as [e a C S|c v l e a arms Sc Sv A IH]; intros o Ch.
      - inversion Ch; subst; [exists a; split; [reflexivity|apply S]|congruence].
      - inversion Ch; subst; [exists a; split; [reflexivity|apply Sv]|auto].
    Qed.
    Lemma same_down : forall k src n l e arms t, says parse src n -> fine n -> chain n l e -> arms_of parse l e arms ->
      computes X parse h ctx (BExpression k src) t -> computes X parse h ctx (BMatch k arms) t.
    Proof.
      intros k src n l e arms t S F C A H. inversion H as [? ? ? T| | | | |]; subst. apply (later_tree src n h t S F (hext_refl h)) in T as (v & E & R).
      destruct (chain_down n l e C F arms A h v t (hext_refl h) E R) as (a & Ch & N & T). eapply CP_match; eauto.
    Qed.
    Lemma same_up : forall k src n l e arms t, says parse src n -> fine n -> chain n l e -> arms_of parse l e arms ->
      (forall a v, In a arms -> ma_cond a <> "" -> outcome X parse h ctx (ma_cond a) = Ok v -> exists b, v = VBool b) ->
      computes X parse h ctx (BMatch k arms) t -> computes X parse h ctx (BExpression k src) t.
    Proof.
      intros k src n l e arms t S F C A HB H. constructor. apply (later_tree src n h t S F (hext_refl h)).
      inversion H as [| | |? ? a ? Ch N T|? ? a Ch N|? ? Ch]; subst.
      - exact (chain_up n l e C F arms A HB h t a (hext_refl h) Ch T).
      - exfalso. destruct (arms_some _ _ _ A _ Ch) as (a' & E & N'). injection E as ->. exact (N' N).
      - exfalso. destruct (arms_some _ _ _ A _ Ch) as (a' & E & _). discriminate E.
    Qed.
  End World.
  (** Every part of the chain is free of assignments if the chain is. *)
  Lemma arms_plain : forall n l e, chain n l e -> no_assign n = true -> RepFacts.reads (fun _ => true) false n = true -> forall arms, arms_of parse l e arms ->
    (forall src, src = "" -> reads_only parse src) -> forall src, In src (map ma_cond arms ++ map ma_value arms) -> reads_only parse src.
  Proof.
    assert (U : forall m n, unwraps m n -> no_assign m = no_assign n /\ RepFacts.reads (fun _ => true) false m = RepFacts.reads (fun _ => true) false n) by (induction 1 as [|m n _ [A B]|m n _ [A B]]; cbn; auto).
    assert (Y : forall src n, says parse src n -> no_assign n = true -> RepFacts.reads (fun _ => true) false n = true -> reads_only parse src).
    { intros src n (_ & m & P & Uw) A B m' P'. rewrite P in P'. injection P' as <-. destruct (U _ _ Uw) as [-> ->]. auto. }
    induction 1 as [n l e _ IH|e N1 N2|c x f l e _ IH]; intros A B arms Ar Z src I.
    - cbn in A, B. eapply IH; eauto.
    - inversion Ar as [? a C S|]; subst. cbn in I. destruct I as [<-|[<-|[]]]; eauto.
    - inversion Ar as [|? ? ? ? a arms' Sc Sx A']; subst. cbn in A, B. rewrite !andb_true_iff in A, B. destruct A as [[A1 A2] A3], B as [[B1 B2] B3].
      cbn in I. destruct I as [<-|I]; [eauto|]. apply in_app_iff in I as [I|[<-|I]]; [|eauto|]; apply (IH A3 B3 arms' A' Z); apply in_app_iff; auto.
  Qed.
End Same.
