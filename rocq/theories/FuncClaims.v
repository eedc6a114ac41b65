(** Assembly of the statements in PropFuncs.v, and their examples. *)
From Coq Require Import String Ascii ZArith QArith Lia Bool List Arith Permutation Sorting.
From Verif Require Import Base Dec Value Heap Ast Ops Compiler Vm Eval CompilerFacts VmFacts ExprFacts Funcs
  HeapSpec HeapFacts PureFacts RunSpec FuncSpec IntervalFacts LoopFacts AggFacts Samples.
Import ListNotations.
Local Open Scope nat_scope.

Definition run_expr (n : node) : option (res value * heap) :=
  match compile demo n with Ok c => vm_run demo 500 c s_root s_heap | Err _ => None end.

Lemma eval_gives : forall X n root h v h1, compiles X n -> eval X root [] [] n root h = ORet v root h1 ->
  yields X n root h (Ok v) h1.
Proof. intros X n root h v h1 C E. exact (eval_yields _ _ _ _ _ C E). Qed.
Lemma number_yields : forall X d root h, yields X (NNumber d) root h (Ok (VNum d)) h.
Proof. intros. apply eval_gives; [eexists; reflexivity|reflexivity]. Qed.

Lemma half_open_wrong : forall X root h, exists a b,
  (forall x, (dec_val x == 3)%Q -> yields X (NBinary (NNumber x) (OpCmp CIn) (NInterval a b LSquare LSquare)) root h (Ok (VBool false)) h) /\
  (forall x, (dec_val x == 7)%Q -> yields X (NBinary (NNumber x) (OpCmp CIn) (NInterval a b LSquare LSquare)) root h (Ok (VBool true)) h) /\
  yields X a root h (Ok (VNum (dec_of_Z 1))) h /\ yields X b root h (Ok (VNum (dec_of_Z 5))) h.
Proof.
  intros. exists (nnum 1), (nnum 5).
  assert (A : forall x r, interval_includes (Interval LSquare LSquare (INum (dec_of_Z 1)) (INum (dec_of_Z 5))) (INum x) = Some r ->
    yields X (NBinary (NNumber x) (OpCmp CIn) (NInterval (nnum 1) (nnum 5) LSquare LSquare)) root h (Ok (VBool r)) h).
  { intros x r E. eapply (fun H1 H2 H3 H4 H5 H6 => proj1 (in_eval X (NNumber x) (nnum 1) (nnum 5) root h h h h x (dec_of_Z 1) (dec_of_Z 5)
      LSquare LSquare H1 H2 H3 H4 H5 H6 r E)); try reflexivity; apply number_yields. }
  assert (B : forall x q, (dec_val x == q)%Q -> forall z, dec_cmp (dec_of_Z z) x = (dec_val (dec_of_Z z) ?= q)%Q).
  { intros x q E z. rewrite dec_cmp_val. apply Qcompare_comp; [reflexivity|auto]. }
  split; [|split; [|split; apply number_yields]]; intros x Ex; apply A; unfold interval_includes, idata_cmp;
    cbn [iv_left iv_right iv_lb iv_rb]; rewrite !(B _ _ Ex); vm_compute; reflexivity.
Qed.

Lemma in_case :
  yields demo (NBinary (NIdent "age") (OpCmp CIn) (NInterval (nnum 18) (nnum 20) LParen RSquare)) s_root s_heap
    (Ok (VBool true)) s_heap /\
  yields demo (NIdent "age") s_root s_heap (Ok (num 20)) s_heap.
Proof. split; (apply eval_gives; [eexists; vm_compute; reflexivity|vm_compute; reflexivity]). Qed.

Lemma fractional_visits : exists na nb a root h h1 l r,
  yields demo na root h (Ok (VNum a)) h /\ (dec_val a == 1 # 2)%Q /\
  yields demo (closure_call ClMap (NInterval na nb LSquare RSquare) (NClosure NPointer None)) root h (Ok (VArr l)) h1 /\
  hget h1 l = Some (CArr (VNum (dec_of_Z 0) :: r)).
Proof.
  exists (NNumber (Dec 5 1)), (nnum 2), (Dec 5 1), s_root, [],
    [CArr [num 0; num 1; num 2]; CArr [num 0; num 1; num 2]], 1, [num 1; num 2].
  split; [apply number_yields|]. split; [reflexivity|]. split; [|reflexivity].
  apply eval_gives; [eexists; vm_compute; reflexivity|vm_compute; reflexivity].
Qed.

Lemma text_slice : forall X ns na nb root h h1 h2 h3 s a b da db,
  no_assign ns = true -> no_assign na = true -> no_assign nb = true ->
  yields X ns root h (Ok (VStr s)) h1 -> yields X nb root h1 (Ok (VNum db)) h2 ->
  yields X na root h2 (Ok (VNum da)) h3 -> u64_of da a -> u64_of db b ->
  (sliceable s a b -> exists r, is_slice s a b r /\
     yields X (NSlice ns (Some na) (Some nb)) root h (Ok (VStr r)) h3) /\
  (~ sliceable s a b -> exists e, yields X (NSlice ns (Some na) (Some nb)) root h (Err e) h3).
Proof.
  intros. split; [eapply slice_ok|eapply slice_err]; eauto.
Qed.
Lemma slice_case :
  run_expr (NSlice (NString "hello") (Some (nnum 1)) (Some (nnum 3))) = Some (Ok (VStr "ell"), s_heap) /\
  sliceable "hello" 1 3 /\ u64_of (dec_of_Z 1) 1 /\ u64_of (dec_of_Z 3) 3.
Proof.
  split; [vm_compute; reflexivity|]. split; [repeat split; cbn; lia|]. split; split; reflexivity.
Qed.

Lemma all_call : forall X na body root h h1 l xs gs, no_assign na = true ->
  yields X na root h (Ok (VArr l)) h1 -> hget h1 l = Some (CArr xs) -> length gs = length xs ->
  compiles X (closure_call ClAll na body) ->
  per_element X root body (VArr l) (length xs) h1 (gives_bool gs) (length xs) ->
  exists h2, yields X (closure_call ClAll na body) root h (Ok (VBool (forallb (fun b => b) gs))) h2 /\ hext h1 h2.
Proof. intros. eapply all_value; eauto. Qed.
Lemma some_call : forall X na body root h h1 l xs gs, no_assign na = true ->
  yields X na root h (Ok (VArr l)) h1 -> hget h1 l = Some (CArr xs) -> length gs = length xs ->
  compiles X (closure_call ClSome na body) ->
  per_element X root body (VArr l) (length xs) h1 (gives_bool gs) (length xs) ->
  exists h2, yields X (closure_call ClSome na body) root h (Ok (VBool (existsb (fun b => b) gs))) h2 /\ hext h1 h2.
Proof. intros. eapply some_value; eauto. Qed.
Lemma none_call : forall X na body root h h1 l xs gs, no_assign na = true ->
  yields X na root h (Ok (VArr l)) h1 -> hget h1 l = Some (CArr xs) -> length gs = length xs ->
  compiles X (closure_call ClNone na body) ->
  per_element X root body (VArr l) (length xs) h1 (gives_bool gs) (length xs) ->
  exists h2, yields X (closure_call ClNone na body) root h (Ok (VBool (negb (existsb (fun b => b) gs)))) h2 /\ hext h1 h2.
Proof. intros. eapply none_value; eauto. Qed.
Lemma count_call : forall X na body root h h1 l xs gs, no_assign na = true ->
  yields X na root h (Ok (VArr l)) h1 -> hget h1 l = Some (CArr xs) -> length gs = length xs ->
  compiles X (closure_call ClCount na body) ->
  per_element X root body (VArr l) (length xs) h1 (gives_bool gs) (length xs) ->
  exists h2, yields X (closure_call ClCount na body) root h
    (Ok (VNum (dec_of_nat (length (filter (fun b => b) gs))))) h2 /\ hext h1 h2.
Proof. intros. eapply count_value; eauto. Qed.
Lemma one_call : forall X na body root h h1 l xs gs, no_assign na = true ->
  yields X na root h (Ok (VArr l)) h1 -> hget h1 l = Some (CArr xs) -> length gs = length xs ->
  compiles X (closure_call ClOne na body) ->
  per_element X root body (VArr l) (length xs) h1 (gives_bool gs) (length xs) ->
  exists h2, yields X (closure_call ClOne na body) root h
    (Ok (VBool (length (filter (fun b => b) gs) =? 1))) h2 /\ hext h1 h2.
Proof. intros. eapply one_value; eauto. Qed.
Lemma filter_call : forall X na body root h h1 l xs gs, no_assign na = true ->
  yields X na root h (Ok (VArr l)) h1 -> hget h1 l = Some (CArr xs) -> length gs = length xs ->
  compiles X (closure_call ClFilter na body) ->
  per_element X root body (VArr l) (length xs) h1 (gives_bool gs) (length xs) ->
  exists h2 l2, yields X (closure_call ClFilter na body) root h (Ok (VArr l2)) h2 /\ hext h1 h2 /\
    hget h2 l2 = Some (CArr (kept xs gs)).
Proof. intros. eapply filter_value; eauto. Qed.
Lemma map_call : forall X na body root h h1 l xs ts, no_assign na = true ->
  yields X na root h (Ok (VArr l)) h1 -> hget h1 l = Some (CArr xs) -> length ts = length xs ->
  compiles X (closure_call ClMap na body) ->
  per_element X root body (VArr l) (length xs) h1 (gives_tree ts) (length xs) ->
  exists h2 l2, yields X (closure_call ClMap na body) root h (Ok (VArr l2)) h2 /\ hext h1 h2 /\
    repr h2 (VArr l2) (TArr ts).
Proof. intros. eapply map_value; eauto. Qed.
Lemma flat_map_call : forall X na body root h h1 l xs ts, no_assign na = true ->
  yields X na root h (Ok (VArr l)) h1 -> hget h1 l = Some (CArr xs) -> length ts = length xs ->
  compiles X (closure_call ClFlatMap na body) ->
  per_element X root body (VArr l) (length xs) h1 (gives_tree ts) (length xs) ->
  exists h2 l2, yields X (closure_call ClFlatMap na body) root h (Ok (VArr l2)) h2 /\ hext h1 h2 /\
    repr h2 (VArr l2) (TArr (spliced ts)).
Proof. intros. eapply flat_map_value; eauto. Qed.
Lemma early_stop : forall X na body root h h1 l xs gs k c stop, no_assign na = true ->
  yields X na root h (Ok (VArr l)) h1 -> hget h1 l = Some (CArr xs) ->
  In (c, stop) [(ClAll, false); (ClSome, true); (ClNone, true)] ->
  compiles X (closure_call c na body) ->
  per_element X root body (VArr l) (length xs) h1 (gives_bool gs) (S k) -> k < length xs ->
  nth_error gs k = Some stop -> (forall i, i < k -> nth_error gs i = Some (negb stop)) ->
  exists h2, yields X (closure_call c na body) root h
    (Ok (VBool (match c with ClSome => true | _ => false end))) h2 /\ hext h1 h2.
Proof.
  intros X na body root h h1 l xs gs k c stop Na Y G Hc C PE Hk Gk B.
  destruct Hc as [E|[E|[E|[]]]]; injection E as <- <-; eapply call_stops; eauto; cbn; auto.
Qed.
Lemma first_error : forall X na body root h h1 l xs gs e c, no_assign na = true ->
  yields X na root h (Ok (VArr l)) h1 -> hget h1 l = Some (CArr xs) ->
  In c [ClAll; ClSome; ClNone; ClOne; ClCount; ClFilter; ClMap; ClFlatMap] ->
  compiles X (closure_call c na body) ->
  (c = ClAll -> forall b, In b gs -> b = true) ->
  (c = ClSome \/ c = ClNone -> forall b, In b gs -> b = false) ->
  per_element X root body (VArr l) (length xs) h1 (gives_bool gs) (length gs) -> length gs < length xs ->
  (forall cnt h2, hext h1 h2 -> exists h3,
     eval X root [] [Loop (VArr l) (length xs) (length gs) cnt] body root h2 = OErr e h3) ->
  exists h2, yields X (closure_call c na body) root h (Err e) h2.
Proof.
  intros X na body root h h1 l xs gs e c Na Y G Hc C Ka Ks PE Hg He. eapply error_value; eauto.
  intros b Hb. destruct c; cbn; eauto; try (destruct b; eauto; fail).
  - rewrite (Ka eq_refl b Hb). eauto.
  - rewrite (Ks ltac:(tauto) b Hb). eauto.
  - rewrite (Ks ltac:(tauto) b Hb). eauto.
Qed.

Lemma filter_case :
  run_expr s_filter = Some (Ok (VArr 3), (s_heap ++ [CArr [num 2; num 3]])%list) /\
  per_element demo s_root (NClosure (NBinary NPointer (OpCmp CGt) (nnum 1)) None) (VArr 0) 3 s_heap
    (gives_bool [false; true; true]) 3 /\
  kept [num 1; num 2; num 3] [false; true; true] = [num 2; num 3].
Proof.
  split; [vm_compute; reflexivity|]. split; [|reflexivity].
  exact (gt_body demo s_root 0 [dec_of_Z 1; dec_of_Z 2; dec_of_Z 3] (dec_of_Z 1) s_heap eq_refl).
Qed.
Lemma map_case :
  per_element demo s_root (NClosure NPointer None) (VArr 0) 3 s_heap
    (gives_tree [TNum (dec_of_Z 1); TNum (dec_of_Z 2); TNum (dec_of_Z 3)]) 3.
Proof.
  apply (self_body demo s_root 0 [num 1; num 2; num 3]); [reflexivity|]. repeat constructor.
Qed.

Lemma median_call : forall L na root h h1 l ns, no_assign na = true ->
  yields (std_ext L) na root h (Ok (VArr l)) h1 -> hget h1 l = Some (CArr (map VNum ns)) -> ns <> [] ->
  exact_means (l_add L) (l_div L) ns ->
  exists m, yields (std_ext L) (agg FMedian na) root h (Ok (VNum m)) h1 /\
    is_median ns (dec_val m) /\ within ns (dec_val m).
Proof.
  intros L na root h h1 l ns Na Y G Hn Ex. destruct (median_yields L na root h h1 l ns Na Y G Hn Ex) as (m & A & B).
  exists m. split; auto. split; auto. now apply is_median_within.
Qed.
Lemma yields_num_eq : forall X n root h a b h1 h2, yields X n root h (Ok (VNum a)) h1 -> yields X n root h (Ok (VNum b)) h2 -> a = b.
Proof. intros. destruct (yields_det _ _ _ _ _ _ _ _ H H0) as [E _]. congruence. Qed.
Lemma empty_call : forall L na root h h1 l f, no_assign na = true ->
  yields (std_ext L) na root h (Ok (VArr l)) h1 -> hget h1 l = Some (CArr []) -> In f [FMin; FMax; FMode] ->
  yields (std_ext L) (agg f na) root h (Err (EOp "CallFunction")) h1.
Proof. intros. eapply (empty_yields L na root h h1 l []); eauto. Qed.
Lemma order_does_not_matter : forall L f na nb root h g h1 g1 l k ns ms a b,
  In f [FMin; FMax; FMode; FSum; FMedian] -> Permutation ns ms ->
  no_assign na = true -> yields (std_ext L) na root h (Ok (VArr l)) h1 -> hget h1 l = Some (CArr (map VNum ns)) ->
  no_assign nb = true -> yields (std_ext L) nb root g (Ok (VArr k)) g1 -> hget g1 k = Some (CArr (map VNum ms)) ->
  (f = FSum -> exact_sums (l_add L) dec_zero ns /\ exact_sums (l_add L) dec_zero ms) ->
  (f = FMedian -> exact_means (l_add L) (l_div L) ns) ->
  yields (std_ext L) (agg f na) root h (Ok (VNum a)) h1 ->
  yields (std_ext L) (agg f nb) root g (Ok (VNum b)) g1 -> (dec_val a == dec_val b)%Q.
Proof.
  intros L f na nb root h g h1 g1 l k ns ms a b Hf P Na Ya Ga Nb Yb Gb Xs Xm Ra Rb.
  assert (D : ns = [] \/ (ns <> [] /\ ms <> [])).
  { destruct ns as [|n ns]; [now left|]. right. split; [easy|]. intros ->. symmetry in P. apply Permutation_nil in P. discriminate. }
  destruct Hf as [<-|[<-|[<-|[<-|[<-|[]]]]]].
  4:{ destruct (Xs eq_refl) as [X1 X2].
      destruct (sum_yields L na root h h1 l ns Na Ya Ga X1) as (a' & Sa & Va).
      destruct (sum_yields L nb root g g1 k ms Nb Yb Gb X2) as (b' & Sb & Vb).
      rewrite (yields_num_eq _ _ _ _ _ _ _ _ Ra Sa), (yields_num_eq _ _ _ _ _ _ _ _ Rb Sb), Va, Vb.
      apply qsum_perm. now apply Permutation_map. }
  all: destruct D as [->|[D1 D2]];
    [exfalso; first
      [ pose proof (empty_call L na root h h1 l _ Na Ya Ga (or_introl eq_refl)) as F;
        destruct (yields_det _ _ _ _ _ _ _ _ Ra F); discriminate
      | pose proof (empty_call L na root h h1 l _ Na Ya Ga (or_intror (or_introl eq_refl))) as F;
        destruct (yields_det _ _ _ _ _ _ _ _ Ra F); discriminate
      | pose proof (empty_call L na root h h1 l _ Na Ya Ga (or_intror (or_intror (or_introl eq_refl)))) as F;
        destruct (yields_det _ _ _ _ _ _ _ _ Ra F); discriminate
      | pose proof (empty_median L na root h h1 l [] Na Ya Ga eq_refl) as F;
        destruct (yields_det _ _ _ _ _ _ _ _ Ra F); discriminate ]|].
  - destruct (min_yields L na root h h1 l ns Na Ya Ga D1) as (a' & Sa & Va).
    destruct (min_yields L nb root g g1 k ms Nb Yb Gb D2) as (b' & Sb & Vb).
    rewrite (yields_num_eq _ _ _ _ _ _ _ _ Ra Sa), (yields_num_eq _ _ _ _ _ _ _ _ Rb Sb). eapply least_perm; eauto.
  - destruct (max_yields L na root h h1 l ns Na Ya Ga D1) as (a' & Sa & Va).
    destruct (max_yields L nb root g g1 k ms Nb Yb Gb D2) as (b' & Sb & Vb).
    rewrite (yields_num_eq _ _ _ _ _ _ _ _ Ra Sa), (yields_num_eq _ _ _ _ _ _ _ _ Rb Sb). eapply greatest_perm; eauto.
  - destruct (mode_yields L na root h h1 l ns Na Ya Ga D1) as (a' & Sa & Va).
    destruct (mode_yields L nb root g g1 k ms Nb Yb Gb D2) as (b' & Sb & Vb).
    rewrite (yields_num_eq _ _ _ _ _ _ _ _ Ra Sa), (yields_num_eq _ _ _ _ _ _ _ _ Rb Sb). eapply is_mode_perm; eauto.
  - assert (X2 : exact_means (l_add L) (l_div L) ms).
    { intros x y Hx Hy. apply (Xm eq_refl); apply (Permutation_in _ (Permutation_sym P)); auto. }
    destruct (median_yields L na root h h1 l ns Na Ya Ga D1 (Xm eq_refl)) as (a' & Sa & Va).
    destruct (median_yields L nb root g g1 k ms Nb Yb Gb D2 X2) as (b' & Sb & Vb).
    rewrite (yields_num_eq _ _ _ _ _ _ _ _ Ra Sa), (yields_num_eq _ _ _ _ _ _ _ _ Rb Sb). eapply is_median_perm; eauto.
Qed.
Lemma median_panics : forall L, exists na root h h1 l w,
  yields (std_ext L) na root h (Ok (VArr l)) h1 /\ hget h1 l = Some (CArr []) /\
  yields (std_ext L) (agg FMedian na) root h (Err (EPanic w)) h1.
Proof.
  intros L. assert (Y : yields (std_ext L) (NArray []) s_root [] (Ok (VArr 0)) [CArr []]).
  { apply eval_gives; [eexists; reflexivity|reflexivity]. }
  exists (NArray []), s_root, [], [CArr []], 0. eexists. split; [exact Y|]. split; [reflexivity|].
  eapply (empty_median L (NArray []) s_root [] [CArr []] 0 []); eauto.
Qed.
Lemma agg_case :
  run_expr (agg FMedian (NArray [nnum 4; nnum 1; nnum 3; nnum 2])) =
    Some (Ok (VNum (Dec 2500000 6)), (s_heap ++ [CArr [num 4; num 1; num 3; num 2]])%list) /\
  run_expr (agg FMode (NArray [nnum 4; nnum 1; nnum 4; nnum 1])) =
    Some (Ok (num 4), (s_heap ++ [CArr [num 4; num 1; num 4; num 1]])%list) /\
  exact_sums (l_add demo_lib) dec_zero [dec_of_Z 4; Dec 15 1] /\
  exact_means (l_add demo_lib) (l_div demo_lib) [dec_of_Z 4; dec_of_Z 1].
Proof.
  split; [vm_compute; reflexivity|]. split; [vm_compute; reflexivity|]. split.
  - exists (dec_of_Z 4). split; [reflexivity|]. split; [reflexivity|].
    exists (Dec 55 1). split; [reflexivity|]. split; [reflexivity|exact I].
  - intros a b [<-|[<-|[]]] [<-|[<-|[]]].
    + exists (dec_of_Z 8), (dec_of_Z 4). repeat split; reflexivity.
    + exists (dec_of_Z 5), (Dec 2500000 6). repeat split; reflexivity.
    + exists (dec_of_Z 5), (Dec 2500000 6). repeat split; reflexivity.
    + exists (dec_of_Z 2), (dec_of_Z 1). repeat split; reflexivity.
Qed.
