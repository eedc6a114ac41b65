(** Transform attributes: input field, loops, output path, pass-through. *)
From Coq Require Import String Ascii ZArith Lia Bool List Arith.
From Verif Require Import Base Dec Value Heap HeapSpec TreeFacts HeapFacts DotFacts ContentFacts PureFacts Ast Ops Compiler Vm Eval Funcs Isolate Session Graph Walker MergeFacts Nodes NodeSpec HeapClaims.
Import ListNotations.
Local Open Scope string_scope.
Local Open Scope list_scope.
Local Open Scope nat_scope.

(** *** Call by call *)
Lemma loop_over_calls : forall f pass xs h h1 r, loop_over f pass xs h = (h1, r) ->
  exists hs ys, length hs = S (length ys) /\ nth_error hs 0 = Some h /\
    (forall i y, nth_error ys i = Some y -> exists x g g1 o g2, nth_error xs i = Some x /\ nth_error hs i = Some g /\
      f x (S i <? length xs) g = (g1, Ok o) /\ nth_error hs (S i) = Some g2 /\
      (if pass then merge_clone g1 x o = (g2, Ok y) else g2 = g1 /\ y = o)) /\
    match r with
    | Ok out => out = ys /\ length ys = length xs /\ nth_error hs (length ys) = Some h1
    | Err e => exists x g, nth_error xs (length ys) = Some x /\ nth_error hs (length ys) = Some g /\
        (f x (S (length ys) <? length xs) g = (h1, Err e) \/
         (pass = true /\ exists g1 o, f x (S (length ys) <? length xs) g = (g1, Ok o) /\ merge_clone g1 x o = (h1, Err e)))
    end.
Proof.
  intros f pass. induction xs as [|x xs IH]; intros h h1 r E; cbn [loop_over] in E.
  { injection E as <- <-. exists [h], []. cbn. repeat split; auto. intros [|i] y H; discriminate. }
  assert (More : (match xs with [] => false | _ :: _ => true end) = (1 <? length (x :: xs))) by (destruct xs; reflexivity).
  rewrite More in E. destruct (f x (1 <? length (x :: xs)) h) as [g1 [o|e]] eqn:Ef.
  2: { injection E as <- <-. exists [h], []. cbn [length nth_error]. repeat split; auto; [intros [|i] y H; discriminate|]. exists x, h. auto. }
  destruct (if pass then merge_clone g1 x o else (g1, Ok o)) as [g2 [y|e]] eqn:Em.
  2: { injection E as <- <-. exists [h], []. cbn [length nth_error]. repeat split; auto; [intros [|i] y H; discriminate|]. exists x, h.
       destruct pass; [|discriminate]. split; auto. split; auto. right. split; auto. exists g1, o. auto. }
  destruct (loop_over f pass xs g2) as [g3 r3] eqn:El. destruct (IH _ _ _ El) as (hs & ys & A & B & C & D).
  assert (K : exists hs ys0, length hs = S (length ys0) /\ nth_error hs 0 = Some h /\ ys0 = y :: ys /\
    (forall i y, nth_error ys0 i = Some y -> exists x0 g g1 o g2, nth_error (x :: xs) i = Some x0 /\ nth_error hs i = Some g /\
      f x0 (S i <? length (x :: xs)) g = (g1, Ok o) /\ nth_error hs (S i) = Some g2 /\
      (if pass then merge_clone g1 x0 o = (g2, Ok y) else g2 = g1 /\ y = o)) /\
    forall j, nth_error hs (S j) = nth_error (tl hs) j).
  { exists (h :: hs), (y :: ys). cbn [length]. split; [lia|]. split; auto. split; auto. split; auto. intros [|i] y0 H; cbn [nth_error] in *.
    - injection H as <-. exists x, h, g1, o, g2. repeat split; auto. destruct pass; auto. injection Em as <- <-. auto.
    - destruct (C i y0 H) as (x0 & q1 & q2 & q3 & q4 & Q). exists x0, q1, q2, q3, q4. exact Q. }
  clear K. exists (h :: hs), (y :: ys). cbn [length]. split; [lia|]. split; auto. split.
  - intros [|i] y0 H; cbn [nth_error] in *.
    + injection H as <-. exists x, h, g1, o, g2. repeat split; auto. destruct pass; auto. injection Em as <- <-. auto.
    + destruct (C i y0 H) as (x0 & q1 & q2 & q3 & q4 & Q). exists x0, q1, q2, q3, q4. exact Q.
  - destruct r3 as [out|e]; injection E as <- <-; cbn [nth_error]; [|exact D].
    destruct D as (-> & D1 & D2). split; auto.
Qed.

(** *** Contents *)
Lemma hext_pointwise : forall h h1, length h <= length h1 -> (forall l, l < length h -> hget h1 l = hget h l) -> hext h h1.
Proof.
  unfold hext, hget. induction h as [|c h IH]; intros h1 L H; [exists h1; reflexivity|].
  destruct h1 as [|c1 h1]; [cbn in L; lia|]. destruct (IH h1) as (s & ->); [cbn in L; lia|intros l Ll; exact (H (S l) ltac:(cbn; lia))|].
  pose proof (H 0 ltac:(cbn; lia)) as Q. cbn in Q. injection Q as ->. exists s. reflexivity.
Qed.
Lemma insert_empty : forall r h l x tx h1 o, r <> [] -> hget h l = Some (CObj []) -> repr h x tx -> ~ reachl h x l ->
  dot_insert_parts h (VObj l) r x = (h1, o) -> repr h1 (VObj l) (twrite r tx (TObj [])).
Proof.
  induction r as [|k r IH]; intros h l x tx h1 o Hr G R N E; [congruence|].
  assert (Lt : l < length h) by (eapply hget_lt; eauto). destruct r as [|k2 r].
  - rewrite dot_insert_one, (proj2 (hobj_hget _ _ _) G) in E. injection E as <- <-. cbn.
    econstructor; [now apply hget_hset_eq|]. constructor; [|constructor]. split; auto. cbn. eapply repr_agree; eauto. now apply agree_hset.
  - rewrite dot_insert_cons, (proj2 (hobj_hget _ _ _) G) in E by congruence. cbn [aget aset] in E.
    set (h0 := hset (h ++ [CObj []]) l (CObj [(k, VObj (length h))])) in *.
    assert (A1 : agree h h0 (reachl h x)).
    { intros l' Rl. unfold h0. rewrite hget_hset_ne by (intros ->; contradiction). unfold hget. rewrite nth_error_app1; auto. eapply reachl_lt; eauto. }
    assert (Rx : repr h0 x tx) by (eapply repr_agree; eauto).
    assert (Nx : ~ reachl h0 x (length h)).
    { intros H. apply (reachl_agree_back _ _ _ _ _ R A1) in H. pose proof (reachl_lt _ _ _ _ R H). lia. }
    assert (G0 : hget h0 (length h) = Some (CObj [])) by (unfold h0; rewrite hget_hset_ne by lia; apply hget_alloc_new).
    assert (L0 : length h0 = S (length h)) by (unfold h0; rewrite hset_length, app_length; cbn; lia).
    pose proof (IH h0 (length h) x tx h1 o ltac:(discriminate) G0 Rx Nx E) as RR.
    destruct (insert_chain (k2 :: r) h0 (length h) x h1 o ltac:(discriminate) G0 E) as (_ & B & _).
    change (twrite (k :: k2 :: r) tx (TObj [])) with (TObj [(k, twrite (k2 :: r) tx (TObj []))]).
    eapply RObj with (m := [(k, VObj (length h))]); [|constructor; [split; [reflexivity|exact RR]|constructor]].
    rewrite B by lia. unfold h0. apply hget_hset_eq. rewrite app_length. cbn. lia.
Qed.
Lemma merge_clone_content : forall h doc patch td tp, repr h doc td -> repr h patch tp -> wf_tree td -> wf_tree tp -> share_ok h doc patch ->
  exists h1 v t, merge_clone h doc patch = (h1, Ok v) /\ hext h h1 /\ repr h1 v t /\ wf_tree t /\ teq t (tmerge_top td tp) = true.
Proof.
  intros h doc patch td tp R1 R2 W1 W2 Sh. unfold merge_clone.
  pose proof (height_le _ _ _ R1). pose proof (height_le _ _ _ R2).
  destruct (merge_cow_ok (S (S (S (2 * length h)))) h doc patch td tp true R1 R2 W1 W2 Sh) as (h1 & v & c & t & A & B & C & D & E & _); [lia|].
  rewrite A. exists h1, v, t. auto.
Qed.
Lemma wf_over : forall t o, wf_tree t -> wf_tree o -> wf_tree (tmerge_top t o).
Proof. intros. now apply wf_tmerge_top. Qed.

(** The right operand up to equality too. *)
Lemma tmerge_teq_r : forall p p' d, wf_tree d -> wf_tree p -> wf_tree p' -> teq p p' = true -> teq (tmerge d p) (tmerge d p') = true.
Proof.
  induction p using tree_ind'; intros p' d0 Wd Wp Wp' E; destruct p' as [| | | | |pm'|]; try discriminate E; try exact E.
  destruct d0 as [| | | | |dm|]; try exact E.
  rewrite !tmerge_obj. assert (W1 := wf_tmerge _ _ Wd Wp). assert (W2 := wf_tmerge _ _ Wd Wp'). rewrite tmerge_obj in W1, W2.
  apply teq_keys; [exact W1|exact W2|]. intros k. inversion Wd as [| | | | | |? Nd Fd]; inversion Wp' as [| | | | | |? Np' Fp']; inversion Wp as [| | | | | |? Np Fp]; subst.
  rewrite !tmerge_entries_get by assumption. pose proof (proj1 (teq_keys m pm' Wp Wp') E k) as K.
  destruct (aget k m) as [p|] eqn:G, (aget k pm') as [p'|] eqn:G'; try (exfalso; exact K).
  - assert (I := aget_Some_in _ _ _ G). rewrite Forall_forall in H. specialize (H (k, p) I).
    assert (Wq := wf_get _ _ _ Wp G). assert (Wq' := wf_get _ _ _ Wp' G').
    assert (Wo : wf_tree (or_tnull (aget k dm))) by (destruct (aget k dm) eqn:Gd; [exact (wf_get _ _ _ Wd Gd)|constructor]).
    specialize (H p' (or_tnull (aget k dm)) Wo Wq Wq' K). cbn [snd] in H.
    destruct p, p'; try discriminate K; exact H || exact Logic.I.
  - destruct (aget k dm) eqn:Gd; [|exact Logic.I]. apply teq_refl. exact (wf_get _ _ _ Wd Gd).
Qed.
Lemma tmerge_top_teq_r : forall p p' d, wf_tree d -> wf_tree p -> wf_tree p' -> teq p p' = true -> teq (tmerge_top d p) (tmerge_top d p') = true.
Proof.
  intros p p' d Wd Wp Wp' E. destruct p, p'; try discriminate E; cbn [tmerge_top]; try (apply teq_refl; exact Wd); try exact E.
  now apply tmerge_teq_r.
Qed.

Lemma loop_over_content : forall f F pass h0, acts f h0 F -> forall xs ts h, hext h0 h -> Forall2 (repr h) xs ts -> Forall wf_tree ts ->
  match traverse (over pass F) ts with
  | Ok us => exists h1 ys ts1, loop_over f pass xs h = (h1, Ok ys) /\ hext h h1 /\ Forall2 (repr h1) ys ts1 /\ Forall wf_tree ts1 /\ Forall wf_tree us /\ Forall2 (fun a b => teq a b = true) ts1 us
  | Err e => exists h1, loop_over f pass xs h = (h1, Err e) /\ hext h h1
  end.
Proof.
  intros f F pass h0 A. induction xs as [|x xs IH]; intros ts h X FR W; inversion FR as [|? t ? ts' R FR']; subst; cbn [traverse loop_over].
  { exists h, [], []. repeat split; auto using hext_refl. }
  inversion W as [|? ? Wt W']; subst. specialize (A x (match xs with [] => false | _ => true end) h t X R Wt). unfold over at 1.
  destruct (F t) as [o|e]; cbn [bind].
  2: { destruct A as (h1 & -> & E). eauto. }
  destruct A as (h1 & v & t1 & -> & E1 & R1 & W1 & Wo & T1 & Sh).
  assert (M : exists h2 y ty, (if pass then merge_clone h1 x v else (h1, Ok v)) = (h2, Ok y) /\ hext h1 h2 /\ repr h2 y ty /\ wf_tree ty /\ wf_tree (if pass then tmerge_top t o else o) /\
    teq ty (if pass then tmerge_top t o else o) = true).
  { destruct pass; [|exists h1, v, t1; auto 10 using hext_refl].
    destruct (merge_clone_content h1 x v t t1 (repr_hext _ _ _ _ E1 R) R1 Wt W1 Sh) as (h2 & y & ty & M1 & M2 & M3 & M4 & M5).
    exists h2, y, ty. split; auto. split; auto. split; auto. split; auto. split; [now apply wf_over|].
    eapply teq_trans; [exact M5|]. now apply tmerge_top_teq_r. }
  destruct M as (h2 & y & ty & -> & E2 & R2 & W2 & Wm & T2).
  assert (X2 : hext h0 h2) by (eauto using hext_trans).
  assert (FR2 : Forall2 (repr h2) xs ts').
  { clear - FR' E1 E2. induction FR'; constructor; auto. eapply repr_hext; [|eauto]. eauto using hext_trans. }
  specialize (IH ts' h2 X2 FR2 W'). destruct (traverse (over pass F) ts') as [us|e]; cbn [bind].
  - destruct IH as (h3 & ys & ts1 & -> & E3 & R3 & W3 & Wu & T3). exists h3, (y :: ys), (ty :: ts1). split; auto. split; [eauto using hext_trans|].
    split; [constructor; auto; eapply repr_hext; eauto|]. auto.
  - destruct IH as (h3 & -> & E3). exists h3. split; auto. eauto using hext_trans.
Qed.

Lemma wf_twrite : forall p x t, wf_tree x -> wf_tree t -> wf_tree (twrite p x t).
Proof.
  induction p as [|k r IH]; intros x t Wx Wt; [exact Wt|]. destruct t as [| | | | |m|]; try exact Wt.
  change (twrite (k :: r) x (TObj m)) with (match r with [] => TObj (aset k x m) | _ => TObj (aset k (twrite r x (match aget k m with Some y => y | None => TObj [] end)) m) end).
  destruct r as [|k2 r]; [now apply wf_aset|]. apply wf_aset; [exact Wt|]. apply IH; [exact Wx|].
  destruct (aget k m) eqn:G; [exact (wf_get _ _ _ Wt G)|]. constructor; constructor.
Qed.
Lemma teq_twrite : forall p x x' t t', wf_tree x -> wf_tree x' -> wf_tree t -> wf_tree t' -> teq x x' = true -> teq t t' = true -> teq (twrite p x t) (twrite p x' t') = true.
Proof.
  induction p as [|k r IH]; intros x x' t t' Wx Wx' Wt Wt' Ex Et; [exact Et|].
  destruct t as [| | | | |m|], t' as [| | | | |m'|]; try discriminate Et; try exact Et.
  assert (St : forall a a', wf_tree a -> wf_tree a' -> teq a a' = true -> teq (TObj (aset k a m)) (TObj (aset k a' m')) = true).
  { intros a a' Wa Wa' Ea. apply teq_keys; try (now apply wf_aset). intros k0. pose proof (proj1 (teq_keys m m' Wt Wt') Et k0) as K.
    destruct (string_dec k k0) as [<-|N]; [rewrite !aget_aset_eq; exact Ea|]. rewrite !aget_aset_ne by auto. exact K. }
  assert (We : wf_tree (TObj [])) by (constructor; constructor).
  destruct r as [|k2 r]; [now apply St|].
  assert (Kk := proj1 (teq_keys m m' Wt Wt') Et k).
  set (y := match aget k m with Some y => y | None => TObj [] end). set (y' := match aget k m' with Some y => y | None => TObj [] end).
  assert (Wy : wf_tree y) by (unfold y; destruct (aget k m) eqn:G; [exact (wf_get _ _ _ Wt G)|exact We]).
  assert (Wy' : wf_tree y') by (unfold y'; destruct (aget k m') eqn:G; [exact (wf_get _ _ _ Wt' G)|exact We]).
  change (teq (TObj (aset k (twrite (k2 :: r) x y) m)) (TObj (aset k (twrite (k2 :: r) x' y') m')) = true).
  apply St; try (now apply wf_twrite). apply IH; auto. unfold y, y'. destruct (aget k m), (aget k m'); try (exfalso; exact Kk); [exact Kk|now apply teq_refl].
Qed.

(** What a node with transform attributes outputs. *)
Section Run.
  Variable X : ext.
  Variable parse : ekind -> string -> res node.

  (** The input: the field if there is one. *)
  Lemma run_with_content : forall tr env nodes f F h te input ti h1,
    repr h env te -> wf_tree te ->
    match ta_field tr with None => input = env /\ h1 = h | Some src => s_std X parse src (node_session env nodes) h = (h1, Ok input) end ->
    hext h h1 -> repr h1 input ti -> wf_tree ti -> acts f h1 F ->
    let wanted := match ta_mode tr with
                  | MSingle => F ti
                  | MLoop => match ti with TArr ts => do us <- traverse (over (ta_pass tr) F) ts; Ok (TArr us) | _ => Err (EOp "Expected an array") end
                  end in
    match wanted with
    | Err e => exists h2, run_with X parse tr env nodes f h = (h2, Err e) /\ hext h h2
    | Ok u => exists h2 v t, hext h h2 /\ repr h2 v t /\ wf_tree t /\ teq t (placed (ta_path tr) u) = true /\
        if ta_pass tr
        then run_with X parse tr env nodes f h = merge_clone h2 env v /\
             (share_ok h2 env v -> exists h3 v3 t3, run_with X parse tr env nodes f h = (h3, Ok v3) /\ hext h h3 /\ repr h3 v3 t3 /\ teq t3 (tmerge_top te (placed (ta_path tr) u)) = true)
        else run_with X parse tr env nodes f h = (h2, Ok v)
    end.
  Proof.
    intros tr env nodes f F h te input ti h1 Re We Fd X1 Ri Wi Ac wanted.
    assert (E0 : (match ta_field tr with None => (h, Ok env) | Some src => s_std X parse src (node_session env nodes) h end) = (h1, Ok input)).
    { destruct (ta_field tr); [exact Fd|]. destruct Fd as [-> ->]. reflexivity. }
    unfold run_with. rewrite E0.
    (* the output before it is placed *)
    set (body := match ta_mode tr with
                 | MSingle => f input false h1
                 | MLoop => match input with
                            | VArr l => match loop_over f (ta_pass tr) (match harr h1 l with Some xs => xs | None => [] end) h1 with
                                        | (h2, Ok ys) => let (h3, a) := new_arr h2 ys in (h3, Ok a)
                                        | (h2, Err e) => (h2, Err e)
                                        end
                            | _ => (h1, Err (EOp "Expected an array"))
                            end
                 end).
    assert (Bd : match wanted with
                 | Err e => exists h2, body = (h2, Err e) /\ hext h1 h2
                 | Ok u => exists h2 v t, body = (h2, Ok v) /\ hext h1 h2 /\ repr h2 v t /\ wf_tree t /\ wf_tree u /\ teq t u = true
                 end).
    { unfold wanted, body. destruct (ta_mode tr).
      - specialize (Ac input false h1 ti (hext_refl _) Ri Wi). destruct (F ti) as [u|e]; [|exact Ac].
        destruct Ac as (h2 & v & t & A1 & A2 & A3 & A4 & A5 & A6 & _). exists h2, v, t. auto 10.
      - destruct Ri as [| | | |l a ts G FR|l m ts G FR|]; try (eexists; split; [reflexivity|apply hext_refl]).
        rewrite (proj2 (harr_hget _ _ _) G). inversion Wi as [| | | | |? Wl|]; subst.
        pose proof (loop_over_content f F (ta_pass tr) h1 Ac a ts h1 (hext_refl _) FR Wl) as Lc.
        destruct (traverse (over (ta_pass tr) F) ts) as [us|e]; cbn [bind].
        + destruct Lc as (h2 & ys & ts1 & -> & E2 & R2 & W2 & Wu & T2). unfold new_arr, halloc.
          exists (h2 ++ [CArr ys]), (VArr (length h2)), (TArr ts1). split; auto. split; [eapply hext_trans; [exact E2|exists [CArr ys]; reflexivity]|].
          split; [|split; [now constructor|split; [now constructor|now apply teq_arr]]].
          econstructor; [apply hget_alloc_new|]. assert (Xa : hext h2 (h2 ++ [CArr ys])) by (exists [CArr ys]; reflexivity). clear - R2 Xa. revert Xa. generalize (h2 ++ [CArr ys]). intros g Xg. induction R2; constructor; auto. eapply repr_hext; eauto.
        + destruct Lc as (h2 & -> & E2). eauto. }
    clearbody body. destruct wanted as [u|e].
    2: { destruct Bd as (h2 & -> & E2). exists h2. split; auto. eauto using hext_trans. }
    destruct Bd as (h2 & v & t & -> & E2 & R2 & W2 & Wu & T2).
    assert (Pl : exists h3 v3 t3, (match ta_path tr with None => (h2, v) | Some p => let (h3, o) := new_obj h2 [] in (fst (dot_insert h3 o p v), o) end) = (h3, v3) /\
      hext h2 h3 /\ repr h3 v3 t3 /\ wf_tree t3 /\ teq t3 (placed (ta_path tr) u) = true /\ wf_tree (placed (ta_path tr) u)).
    { destruct (ta_path tr) as [p|]; cbn [placed]; [|exists h2, v, t; auto 10 using hext_refl]. unfold new_obj, halloc, dot_insert.
      destruct (dot_insert_parts (h2 ++ [CObj []]) (VObj (length h2)) (split_dot p) v) as [h3 o] eqn:Ei. cbn [fst].
      assert (Ne := split_dot_ne p). assert (We0 : wf_tree (TObj [])) by (constructor; constructor).
      assert (X3 : hext h2 (h2 ++ [CObj []])) by (exists [CObj []]; reflexivity).
      destruct (insert_chain (split_dot p) _ _ _ _ _ Ne (hget_alloc_new _ _) Ei) as (C1 & C2 & _).
      exists h3, (VObj (length h2)), (twrite (split_dot p) t (TObj [])). split; auto. split; [|split; [|split; [|split]]].
      - rewrite app_length in C1. cbn in C1. apply hext_pointwise; [lia|]. intros l Ll. rewrite C2; [unfold hget; now rewrite nth_error_app1|rewrite app_length; cbn; lia|lia].
      - refine (insert_empty (split_dot p) (h2 ++ [CObj []]) (length h2) v t h3 o Ne (hget_alloc_new _ _) (repr_hext _ _ _ _ X3 R2) _ Ei).
        intros H. apply (reachl_back _ _ _ _ _ R2 X3) in H. pose proof (reachl_lt _ _ _ _ R2 H). lia.
      - now apply wf_twrite.
      - apply teq_twrite; auto; now apply teq_refl.
      - now apply wf_twrite. }
    destruct Pl as (h3 & v3 & t3 & -> & E3 & R3 & W3 & T3 & Wp).
    exists h3, v3, t3. split; [eauto using hext_trans|]. split; auto. split; auto. split; auto.
    destruct (ta_pass tr); [|reflexivity]. split; [reflexivity|]. intros Sh.
    destruct (merge_clone_content h3 env v3 te t3) as (h4 & v4 & t4 & A & B & C & D & E); auto; [eapply repr_hext; [|exact Re]; eauto using hext_trans|].
    exists h4, v4, t4. split; auto. split; [eauto 6 using hext_trans|]. split; auto. eapply teq_trans; [exact E|]. apply tmerge_top_teq_r; auto.
  Qed.
End Run.

Lemma run_with_calls : forall X parse tr env nodes f h h1 l xs h2 r,
  ta_mode tr = MLoop ->
  match ta_field tr with None => env = VArr l /\ h1 = h | Some src => s_std X parse src (node_session env nodes) h = (h1, Ok (VArr l)) end ->
  harr h1 l = Some xs -> run_with X parse tr env nodes f h = (h2, r) ->
  exists hs ys, length hs = S (length ys) /\ nth_error hs 0 = Some h1 /\
    (forall i y, nth_error ys i = Some y -> exists x g g1 o g2, nth_error xs i = Some x /\ nth_error hs i = Some g /\
      f x (S i <? length xs) g = (g1, Ok o) /\ nth_error hs (S i) = Some g2 /\
      (if ta_pass tr then merge_clone g1 x o = (g2, Ok y) else g2 = g1 /\ y = o)) /\
    (length ys = length xs \/
     exists x g e, nth_error xs (length ys) = Some x /\ nth_error hs (length ys) = Some g /\ r = Err e /\
       (f x (S (length ys) <? length xs) g = (h2, Err e) \/
        (ta_pass tr = true /\ exists g1 o, f x (S (length ys) <? length xs) g = (g1, Ok o) /\ merge_clone g1 x o = (h2, Err e)))) /\
    (length ys = length xs -> ta_path tr = None -> ta_pass tr = false -> exists l1, r = Ok (VArr l1) /\ harr h2 l1 = Some ys).
Proof.
  intros X parse tr env nodes f h h1 l xs h2 r M Fd A E.
  assert (E0 : (match ta_field tr with None => (h, Ok env) | Some src => s_std X parse src (node_session env nodes) h end) = (h1, Ok (VArr l))).
  { destruct (ta_field tr); [exact Fd|]. destruct Fd as [-> ->]. reflexivity. }
  unfold run_with in E. rewrite E0, M, A in E. destruct (loop_over f (ta_pass tr) xs h1) as [g q] eqn:Lo.
  destruct (loop_over_calls _ _ _ _ _ _ Lo) as (hs & ys & B1 & B2 & B3 & B4). exists hs, ys. split; auto. split; auto. split; auto.
  destruct q as [out|e].
  - destruct B4 as (-> & B4 & _). split; [now left|]. intros _ P1 P2. rewrite P1, P2 in E. unfold new_arr, halloc in E. injection E as <- <-.
    eexists. split; [reflexivity|]. apply harr_hget. apply hget_alloc_new.
  - injection E as <- <-. destruct B4 as (x & g0 & C1 & C2 & C3). split; [right; exists x, g0, e; auto|].
    intros Le. apply nth_error_None in C1 || (exfalso; assert (length ys < length xs) by (apply nth_error_Some; congruence); lia).
Qed.
