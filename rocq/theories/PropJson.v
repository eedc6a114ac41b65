(** C50: values and JSON documents. *)
From Coq Require Import String Ascii ZArith QArith Lia Bool List Arith.
From Verif Require Import Base Dec Value Heap HeapSpec TreeFacts HeapFacts Json FnSpec Funcs Convert ConvertSpec ConvertFacts.
Import ListNotations.
Local Open Scope string_scope.
Local Open Scope list_scope.

(** * C50 *)
(** From JSON: when every number of the document is within 96 bits and 28 decimals, the three ways in (infallible, fallible, from text) give one value, the document; nothing that existed is changed. *)
Theorem C50_in : forall sci j h, wf_json j -> (forall n, has_num j n -> in_range n) ->
  exists h1 v t, of_json sci j h = (h1, v) /\ try_json sci j h = (h1, Ok v) /\ (no_token j -> read_json sci j h = (h1, Ok v)) /\
    hext h h1 /\ repr h1 v t /\ wf_tree t /\ means j t.
Proof.
  intros sci j h W R. destruct (of_json sci j h) as [h1 v] eqn:E. destruct (of_json_img sci j h h1 v E) as [X Rp]. exists h1, v, (img (numtree sci) j).
  assert (G : Forall (good sci) (nums j)).
  { rewrite Forall_forall. intros n I. apply (nums_has j W) in I. destruct (in_exact sci n (R n I)) as (d & _ & A & _). unfold good. now rewrite A. }
  split; [reflexivity|]. split; [destruct (try_answers sci j h) as [[_ A]|[A _]]; [rewrite A, E; reflexivity|contradiction]|].
  split; [intros T; destruct (read_answers sci j (no_token_less j W T) h) as [[_ A]|[A _]]; [rewrite A, E; reflexivity|contradiction]|].
  split; [exact X|]. split; [exact Rp|]. split.
  - apply img_static; [|exact W]. intros n. unfold numtree. destruct (number_in sci n); (split; [exact I|discriminate]).
  - apply agree_img; [|exact W|].
    + intros n. unfold numtree. destruct (number_in sci n); exact I.
    + intros n H. destruct (in_exact sci n (R n H)) as (d & q & A & B & C & _). exists d, q. unfold numtree. rewrite A. auto.
Qed.
Print Assumptions C50_in.
(** To JSON: both ways out give the value; the entries of an object are sorted by key in the one, in the order of the value in the other. *)
Theorem C50_out : forall dj dt h v t, repr h v t -> wf_tree t -> static t -> exists n0 j j1, forall n, (n0 <= n)%nat ->
  to_json dj n h v = Some j /\ write_json dt number_out n h v = Some j1 /\ means j t /\ means j1 t /\
  (forall p m, jget p j = Some (JObj m) -> forall a k1 x1 b k2 x2 c, m = a ++ (k1, x1) :: b ++ (k2, x2) :: c -> String.compare k1 k2 = Lt) /\
  (forall p m ts, jget p j1 = Some (JObj m) -> tget p t = Some (TObj ts) -> map fst m = map fst ts).
Proof.
  intros dj dt h v t R W S0. exists (S (height t)), (tj dj t), (wj dt number_out t). intros n Hn.
  split; [apply to_json_tj; [exact R|lia]|]. split; [apply write_json_wj; [exact R|lia]|]. split; [now apply tj_means|]. split; [now apply wj_means|].
  clear n Hn R. split.
  - assert (SO : forall (m : list (string * json)), sorted m -> forall a k1 x1 b k2 x2 c, m = a ++ (k1, x1) :: b ++ (k2, x2) :: c -> String.compare k1 k2 = Lt).
    { intros m Sm a. revert m Sm. induction a as [|[k x] a IHa]; intros m Sm k1 x1 b k2 x2 c ->; cbn [app sorted] in Sm; destruct Sm as [A B].
      - rewrite Forall_forall in A. apply (A (k2, x2)). apply in_or_app. right. now left.
      - exact (IHa _ B k1 x1 b k2 x2 c eq_refl). }
    induction t as [|b|d|s|a IH|m0 IH|d] using tree_ind'; intros p m E.
    1, 2, 3, 4: destruct p as [|[k|i] p]; cbn in E; discriminate.
    + inversion W as [| | | | |? Fa|]; subst. rewrite Forall_forall in *. destruct p as [|[k|i] p]; cbn in E; try discriminate. rewrite nth_error_map in E.
      destruct (nth_error a i) as [x|] eqn:N; cbn in E; [|discriminate]. apply nth_error_In in N. exact (IH x N (Fa x N) (static_arr a x S0 N) p m E).
    + rewrite Forall_forall in IH. destruct p as [|[k|i] p]; cbn [tj jget] in E; try discriminate.
      * injection E as <-. apply SO. apply bsort_all.
      * rewrite tj_get in E by exact W. destruct (aget k m0) as [x|] eqn:N; cbn in E; [|discriminate].
        exact (IH (k, x) (in_get _ _ _ N) (wf_in _ _ _ W N) (static_obj _ _ _ S0 N) p m E).
    + exfalso. exact (S0 [] d eq_refl).
  - induction t as [|b|d|s|a IH|m0 IH|d] using tree_ind'; intros p m ts E T.
    1, 2, 3, 4: destruct p as [|[k|i] p]; cbn in E; discriminate.
    + inversion W as [| | | | |? Fa|]; subst. rewrite Forall_forall in *. destruct p as [|[k|i] p]; cbn in E, T; try discriminate. rewrite nth_error_map in E.
      destruct (nth_error a i) as [x|] eqn:N; cbn in E; [|discriminate]. apply nth_error_In in N. exact (IH x N (Fa x N) (static_arr a x S0 N) p m ts E T).
    + rewrite Forall_forall in IH. destruct p as [|[k|i] p]; cbn [wj jget tget] in E, T; try discriminate.
      * injection E as <-. injection T as <-. rewrite map_map. reflexivity.
      * rewrite aget_map in E. destruct (aget k m0) as [x|] eqn:N; cbn in E; [|discriminate].
        exact (IH (k, x) (in_get _ _ _ N) (wf_in _ _ _ W N) (static_obj _ _ _ S0 N) p m ts E T).
    + exfalso. exact (S0 [] d eq_refl).
Qed.
Print Assumptions C50_out.
(** JSON, value, JSON: the same document, but for the way numbers are written. *)
Theorem C50_round : forall sci dj dt j h, wf_json j -> (forall n, has_num j n -> in_range n) -> exists n0 j1 j2, forall n, (n0 <= n)%nat ->
  let (h1, v) := of_json sci j h in to_json dj n h1 v = Some j1 /\ write_json dt number_out n h1 v = Some j2 /\ same_doc j j1 /\ same_doc j j2.
Proof.
  intros sci dj dt j h W R. destruct (C50_in sci j h W R) as (h1 & v & t & A & _ & _ & _ & Rp & Wt & M). rewrite A.
  assert (S0 : static t).
  { intros p d E. specialize (M p). rewrite E in M. destruct (jget p j) as [x|]; [|contradiction]. destruct x; cbn in M; try discriminate;
    repeat match goal with H : ex _ |- _ => destruct H end; repeat match goal with H : _ /\ _ |- _ => destruct H end; discriminate. }
  destruct (C50_out dj dt h1 v t Rp Wt S0) as (n0 & j1 & j2 & B). exists n0, j1, j2. intros n Hn. destruct (B n Hn) as (B1 & B2 & B3 & B4 & _).
  split; [exact B1|]. split; [exact B2|]. split; eapply means_same; eauto.
Qed.
Print Assumptions C50_round.
(** Value, JSON, value: an equal value. *)
Theorem C50_back : forall sci dj h v t h2, repr h v t -> wf_tree t -> static t -> numbers_fit t -> exists n0 j, forall n, (n0 <= n)%nat -> to_json dj n h v = Some j /\
  exists h3 v1 t1, of_json sci j h2 = (h3, v1) /\ repr h3 v1 t1 /\ teq t t1 = true.
Proof.
  intros sci dj h v t h2 R W S0 N0. exists (S (height t)), (tj dj t). intros n Hn. split; [apply to_json_tj; [exact R|lia]|].
  destruct (of_json sci (tj dj t) h2) as [h3 v1] eqn:E. destruct (of_json_img _ _ _ _ _ E) as [_ Rp]. exists h3, v1. eexists. split; [reflexivity|]. split; [exact Rp|]. now apply tj_back.
Qed.
Print Assumptions C50_back.
(** Two values are equal exactly when their documents are identical: the order of entries and the digits of numbers make no difference. *)
Theorem C50_equal : forall dj h v w t u, repr h v t -> repr h w u -> wf_tree t -> wf_tree u -> static t -> static u ->
  exists n0 j k, forall n, (n0 <= n)%nat -> to_json dj n h v = Some j /\ to_json dj n h w = Some k /\ (j = k <-> teq t u = true).
Proof.
  intros dj h v w t u Rv Rw Wt Wu St Su. exists (S (height t + height u)), (tj dj t), (tj dj u). intros n Hn.
  split; [apply to_json_tj; [exact Rv|lia]|]. split; [apply to_json_tj; [exact Rw|lia]|]. symmetry. now apply tj_equal.
Qed.
Print Assumptions C50_equal.
(** Numbers out of range: the fallible conversions fail exactly when there is one, and otherwise agree with the infallible one, which puts null in the place of each. *)
Theorem C50_range : forall sci j h, wf_json j ->
  let (h1, v) := of_json sci j h in
  (exists t, repr h1 v t /\ agree (fun n t => t = match number_in sci n with Some d => TNum d | None => TNull end) j t) /\
  ((exists h2 w, try_json sci j h = (h2, Ok w)) <-> forall n, has_num j n -> number_in sci n <> None) /\
  (forall h2 w, try_json sci j h = (h2, Ok w) -> h2 = h1 /\ w = v) /\
  (no_token j -> ((exists h2 w, read_json sci j h = (h2, Ok w)) <-> forall n, has_num j n -> number_in sci n <> None) /\
    forall h2 w, read_json sci j h = (h2, Ok w) -> h2 = h1 /\ w = v).
Proof.
  intros sci j h W. destruct (of_json sci j h) as [h1 v] eqn:E. destruct (of_json_img _ _ _ _ _ E) as [X Rp].
  assert (G : Forall (good sci) (nums j) <-> forall n, has_num j n -> number_in sci n <> None).
  { rewrite Forall_forall. split; intros H n I; apply H; now apply (nums_has j W). }
  assert (A : forall f, answers sci f j -> ((exists h2 w, f j h = (h2, Ok w)) <-> forall n, has_num j n -> number_in sci n <> None) /\ forall h2 w, f j h = (h2, Ok w) -> h2 = h1 /\ w = v).
  { intros f A. rewrite <- G. destruct (A h) as [[B C]|[B (h2 & e & C)]]; rewrite C, ?E.
    - split; [split; [intros _; exact B|eauto]|]. intros h2 w H. injection H as <- <-. auto.
    - split; [split; [intros (? & ? & H); discriminate|intros H; contradiction]|]. intros h3 w H. discriminate. }
  split; [exists (img (numtree sci) j); split; [exact Rp|]; apply agree_img; [|exact W|reflexivity]; intros n; unfold numtree; destruct (number_in sci n); exact I|].
  destruct (A (try_json sci) (try_answers sci j)) as [B C]. split; [exact B|]. split; [exact C|]. intros T. exact (A (read_json sci) (read_answers sci j (no_token_less j W T))).
Qed.
Print Assumptions C50_range.
(** A document read from text may repeat a key: the last entry counts. *)
Theorem C50_last : forall sci m ts, Forall2 (fun e t => reads sci (snd e) t) m ts -> (forall k x r, m = (k, x) :: r -> k <> number_token) ->
  exists o, reads sci (JObj m) (TObj o) /\ forall k, aget k o = aget k (rev (combine (map fst m) ts)).
Proof.
  intros sci m ts F T. eexists. split; [apply reads_obj; [exact F|destruct m as [|[k x] m]; [exact I|exact (T k x m eq_refl)]]|]. intros k. rewrite insert_all_last. destruct (aget k (rev _)); reflexivity.
Qed.
Print Assumptions C50_last.
(** ** Where the claim fails *)
(** An object whose first key is the one that [serde_json] uses for numbers is read as a number, although it is an object; the other conversions keep it. *)
Theorem C50_token_refuted : exists j, (forall sci h, read_json sci j h = (h, Ok (VNum (Dec 5 0)))) /\ forall sci, exists l h1, of_json sci j [] = (h1, VObj l).
Proof. exists (JObj [(number_token, JStr "5"); ("a", JNull)]). split; [intros sci h; reflexivity|]. intros sci. do 2 eexists. reflexivity. Qed.
Print Assumptions C50_token_refuted.
(** Without the feature [arbitrary_precision] fractions are lost when a value is written: 2.5 becomes 2. *)
Theorem C50_plain_refuted : exists d, forall fl dt h, write_json dt (plain_out fl) 1 h (VNum d) = Some (JNum (NInt 2)) /\ (dec_val d == 5 # 2)%Q.
Proof. exists (Dec 25 1). intros fl dt h. split; reflexivity. Qed.
Print Assumptions C50_plain_refuted.
(** Whole numbers from -2^63 up to 2^64 are kept. *)
Theorem C50_plain : forall fl d z, (dec_val d == inject_Z z)%Q -> (- 2 ^ 63 <= z < 2 ^ 64)%Z -> plain_out fl d = NInt z.
Proof.
  intros fl d z E B.
  assert (P : (0 < pow10 (scale d))%Z) by (unfold pow10; apply Z.pow_pos_nonneg; lia).
  assert (M : mant d = (z * pow10 (scale d))%Z).
  { unfold dec_val, Qeq in E. cbn [Qnum Qden inject_Z] in E. rewrite Z.mul_1_r in E. rewrite E. f_equal. apply Z2Pos.id. exact P. }
  assert (T : dec_trunc d = z) by (unfold dec_trunc; rewrite M; apply Z.quot_mul; lia).
  unfold plain_out, dec_to_usize, dec_to_i64. rewrite T. destruct (mant d <? 0)%Z eqn:N.
  - apply Z.ltb_lt in N. assert (z < 0)%Z by nia. replace ((- 2 ^ 63 <=? z)%Z && (z <? 2 ^ 63)%Z) with true; [reflexivity |]. symmetry. apply andb_true_intro. split; [apply Z.leb_le | apply Z.ltb_lt]; lia.
  - replace (z <? 2 ^ 64)%Z with true by (symmetry; apply Z.ltb_lt; lia). reflexivity.
Qed.
Print Assumptions C50_plain.
(** A value that contains itself has no document: the conversion does not stop. *)
Theorem C50_cycle_refuted : exists h v, wf_heap h /\ forall dj dt out n, to_json dj n h v = None /\ write_json dt out n h v = None.
Proof.
  exists [CObj [("self", VObj 0%nat)]], (VObj 0%nat). split.
  - intros [|l] c H; [|destruct l; discriminate]. cbn in H. injection H as <-. cbn. split; [constructor; [intros []|constructor]|]. constructor; [|constructor]. cbn. eauto.
  - intros dj dt out. induction n as [|n [A B]]; [split; reflexivity|]. split; cbn [to_json write_json]; cbn [hobj hget nth_error]; cbv beta iota.
    + now rewrite A.
    + now rewrite B.
Qed.
Print Assumptions C50_cycle_refuted.
Definition sample_doc : json := JObj [("b", JArr [JNum (NInt 1); JNum (NFloat "-2.50"); JNull]); ("a", JObj [("x", JStr "y"); ("t", JBool true)])].
Example C50_case : wf_json sample_doc /\ no_token sample_doc /\ (forall n, has_num sample_doc n -> in_range n) /\
  let (h, v) := of_json (fun _ => None) sample_doc [] in
  to_json (fun _ => JNull) 5 h v = Some (JObj [("a", JObj [("t", JBool true); ("x", JStr "y")]); ("b", JArr [JNum (NInt 1); JNum (NFloat "-2.5"); JNull])]).
Proof.
  assert (W : wf_json sample_doc). { cbn. repeat split; repeat constructor; cbn; intuition discriminate. }
  split; [exact W|]. split; [|split].
  - apply less_no_token. cbn. repeat split; discriminate.
  - intros n H. apply (nums_has _ W) in H. cbn in H. destruct H as [<-|[<-|[]]]; [exists 1%Z, 0%nat|exists (-250)%Z, 2%nat]; (split; [reflexivity|split; [reflexivity|lia]]).
  - vm_compute. reflexivity.
Qed.
Example C50_last_case : forall h, exists h1 v, read_json (fun _ => None) (JObj [("a", JNum (NInt 1)); ("b", JNull); ("a", JNum (NInt 2))]) h = (h1, Ok v) /\
  repr h1 v (TObj [("a", TNum (Dec 2 0)); ("b", TNull)]).
Proof. intros h. do 2 eexists. split; [reflexivity|]. eapply RObj; [apply hget_alloc_new|]. repeat constructor. Qed.
Example C50_range_case : has_num (JArr [JNum (NFloat "1e40")]) (NFloat "1e40") /\ of_json (fun _ => None) (JArr [JNum (NFloat "1e40")]) [] = ([CArr [VNull]], VArr 0%nat) /\
  snd (try_json (fun _ => None) (JArr [JNum (NFloat "1e40")]) []) = Err (EOp "NumberOutOfRange").
Proof. split; [exists [At 0%nat]; reflexivity|]. split; reflexivity. Qed.
