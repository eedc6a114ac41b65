(** Facts about loaders, imports and schema dictionaries. *)
From Coq Require Import String Ascii ZArith Lia Bool List Arith.
From Verif Require Import Base Dec Value Heap Ast Isolate Graph Walker Nodes Engine Table Discriminant Decision Json Docs DocSpec ImportFacts.
Import ListNotations.
Local Open Scope string_scope.
Local Open Scope list_scope.
Local Open Scope nat_scope.

(** *** The memory loader *)
Lemma adel_keys : forall V (m : amap V) k, incl (akeys (adel k m)) (akeys m).
Proof. intros V m k. induction m as [|[a v] m IH]; cbn; [easy|]. destruct (String.eqb a k); cbn; [now apply incl_tl|]. intros x [->|I]; [now left|right; now apply IH]. Qed.
Lemma adel_nodup : forall V (m : amap V) k, NoDup (akeys m) -> NoDup (akeys (adel k m)).
Proof.
  intros V m k. induction m as [|[a v] m IH]; cbn; intros N; [constructor|]. apply NoDup_cons_iff in N as [N1 N2]. destruct (String.eqb a k); [exact N2|]. cbn. constructor; [|auto].
  intros I. apply N1. now apply (adel_keys _ m k).
Qed.
Lemma aget_adel : forall V (m : amap V) k k2, NoDup (akeys m) -> aget k2 (adel k m) = if String.eqb k k2 then None else aget k2 m.
Proof.
  intros V m k k2. induction m as [|[a v] m IH]; cbn; intros N; [now destruct (String.eqb k k2)|]. apply NoDup_cons_iff in N as [N1 N2].
  destruct (String.eqb_spec a k) as [->|Nk].
  - destruct (String.eqb_spec k k2) as [->|Nk2]; [now apply aget_None_notin|reflexivity].
  - cbn. rewrite IH by exact N2. destruct (String.eqb_spec a k2) as [->|]; [|reflexivity]. destruct (String.eqb_spec k k2); congruence.
Qed.
Lemma mem_step_nodup : forall ops m, NoDup (akeys m) -> NoDup (akeys (fold_left mem_step ops m)).
Proof. induction ops as [|o ops IH]; intros m N; cbn; [exact N|]. apply IH. destruct o; cbn; [now apply aset_nodup|now apply adel_nodup]. Qed.
Lemma mem_get : forall ops k, aget k (fold_left mem_step ops []) = match last_op ops k with Some (MAdd _ d) => Some d | _ => None end.
Proof.
  intros ops k. unfold last_op. induction ops as [|o ops IH] using rev_ind; [reflexivity|]. rewrite fold_left_app, rev_app_distr. cbn [fold_left rev app find].
  assert (N : NoDup (akeys (fold_left mem_step ops []))) by (apply mem_step_nodup; constructor).
  destruct o as [a d|a]; cbn [op_key mem_step]; destruct (String.eqb_spec a k) as [->|Ne].
  - apply aget_aset_eq.
  - rewrite aget_aset_ne by exact Ne. exact IH.
  - rewrite aget_adel, String.eqb_refl; auto.
  - rewrite aget_adel by exact N. apply String.eqb_neq in Ne. now rewrite Ne.
Qed.
Lemma mem_loader_map : forall ops k, mem_load (fold_left mem_step ops []) k = match last_op ops k with Some (MAdd _ d) => Ok d | _ => not_found k end.
Proof. intros ops k. unfold mem_load. rewrite mem_get. destruct (last_op ops k) as [[]|]; reflexivity. Qed.
Lemma mem_loader_keys : forall ops, NoDup (mem_keys (fold_left mem_step ops [])) /\
  forall k, In k (mem_keys (fold_left mem_step ops [])) <-> exists d, mem_load (fold_left mem_step ops []) k = Ok d.
Proof.
  intros ops. split; [apply mem_step_nodup; constructor|]. intros k. unfold mem_keys, mem_load. split.
  - intros I. destruct (aget k _) as [d|] eqn:E; [eauto|]. now apply aget_None_notin in E.
  - intros (d & E). destruct (aget k _) as [d'|] eqn:E'; [|discriminate]. apply aget_Some_in in E'. unfold akeys. apply in_map_iff. exists (k, d'). auto.
Qed.

(** *** The cached loader *)
Section Cached.
  Variable parse : ekind -> string -> res node.
  Variable inner : loader.
  Variable fuel : nat.
  Notation compile_doc := (compile_doc parse).
  Notation compiled := (compiled parse).
  Notation prepared := (prepared parse inner fuel).
  Notation cached_load := (cached_load parse inner fuel).
  Notation cached_load_sync := (cached_load_sync parse inner).
  Notation cached_run := (cached_run parse inner fuel).

  Lemma compile_compiled : forall g, gc_compiled (compile_doc g) = true.
  Proof. intros g. unfold Docs.compile_doc. destruct (gc_compiled g) eqn:E; [exact E|reflexivity]. Qed.
  Lemma compile_twice : forall g, compile_doc (compile_doc g) = compile_doc g.
  Proof. intros g. unfold Docs.compile_doc at 1. now rewrite compile_compiled. Qed.
  Lemma compile_bare : forall g, bare (DGraph (compile_doc g)) = bare (DGraph g).
  Proof.
    intros g. unfold Docs.compile_doc. destruct (gc_compiled g); [reflexivity|]. cbn. do 2 f_equal. unfold compile_content. cbn. f_equal. rewrite map_map. apply map_ext. intros nd.
    unfold bare_node, with_index. cbn. destruct (gn_kind nd) as [| |p l|[t es|t k|u]]; reflexivity.
  Qed.
  Lemma resolve_bare : forall g asked g1, resolve_schemas fuel inner g = Some (asked, g1) -> bare (DGraph g1) = bare (DGraph g) /\ gc_compiled g1 = gc_compiled g.
  Proof.
    intros g asked g1 E. unfold resolve_schemas in E. destruct (gc_resolved g); [now injection E as <- <-|]. destruct (filter _ _); [now injection E as <- <-|].
    destruct (import_dicts _ _ _ _ _ _) as [[q [d|e]]|]; [| |discriminate]; injection E as <- <-; [match goal with |- context [match ?x with Ok _ => _ | Err _ => _ end] => destruct x end|]; auto.
  Qed.
  (** Preparing twice is preparing once. *)
  Lemma resolve_twice : forall g asked g1, resolve_schemas fuel inner g = Some (asked, g1) -> exists asked2, resolve_schemas fuel inner g1 = Some (asked2, g1).
  Proof.
    intros g asked g1 E. assert (E0 := E). unfold resolve_schemas in E. destruct (gc_resolved g) eqn:R; [injection E as <- <-; eauto|].
    destruct (filter _ _) eqn:F; [injection E as <- <-; exists []; reflexivity|].
    destruct (import_dicts _ _ _ _ _ _) as [[q [d|e]]|]; [| |discriminate]; injection E as <- <-; [|eauto]. match goal with |- context [match ?x with Ok _ => _ | Err _ => _ end] => destruct x eqn:Q end; [exists []; reflexivity|]. exists q. rewrite <- E0. unfold resolve_schemas. rewrite R. reflexivity.
  Qed.
  Lemma prepared_bare : forall d asked d1, prepared d = Some (asked, d1) -> bare d1 = bare d.
  Proof.
    intros [g|p] asked d1 E; cbn [Docs.prepared] in E; [|now injection E as <- <-]. destruct (gc_compiled g && _); [now injection E as <- <-|].
    destruct (resolve_schemas fuel inner (compile_doc g)) as [[q g1]|] eqn:R; [|discriminate]. injection E as <- <-. rewrite (proj1 (resolve_bare _ _ _ R)). apply compile_bare.
  Qed.
  Lemma prepared_unfold : forall g, prepared (DGraph g) = match resolve_schemas fuel inner (compile_doc g) with None => None | Some (asked, g1) => Some (asked, DGraph g1) end.
  Proof.
    intros g. cbn [Docs.prepared]. destruct (gc_compiled g && _) eqn:B; [|reflexivity]. apply andb_true_iff in B as [B1 B2]. unfold Docs.compile_doc. rewrite B1. unfold resolve_schemas. destruct (gc_resolved g); [reflexivity|discriminate].
  Qed.
  Lemma prepared_compiled : forall d, prepared (compiled d) = prepared d.
  Proof. intros [g|p]; [|reflexivity]. cbn [Docs.compiled]. rewrite !prepared_unfold, compile_twice. reflexivity. Qed.
  Lemma prepared_twice : forall d asked d1, prepared d = Some (asked, d1) -> exists asked2, prepared d1 = Some (asked2, d1).
  Proof.
    intros [g|p] asked d1 E; [|injection E as <- <-; exists []; reflexivity]. rewrite prepared_unfold in E. destruct (resolve_schemas fuel inner (compile_doc g)) as [[q g1]|] eqn:R; [|discriminate]. injection E as <- <-.
    rewrite prepared_unfold. destruct (resolve_twice _ _ _ R) as (q2 & R2). replace (compile_doc g1) with g1; [rewrite R2; eauto|].
    unfold Docs.compile_doc. destruct (resolve_bare _ _ _ R) as [_ C]. now rewrite C, compile_compiled.
  Qed.
  Lemma prepared_ready : forall d, ready d = true -> prepared d = Some ([], d).
  Proof. intros [g|p] R; cbn in *; [now rewrite R|reflexivity]. Qed.

  (** The cache holds what was loaded, compiled or prepared. *)
  Definition good (cache : amap doc) : Prop := forall k d, aget k cache = Some d -> exists d0, inner k = Ok d0 /\ (d = compiled d0 \/ exists asked, prepared d0 = Some (asked, d)).
  Lemma good_aset : forall cache k d d0, good cache -> inner k = Ok d0 -> (d = compiled d0 \/ exists asked, prepared d0 = Some (asked, d)) -> good (aset k d cache).
  Proof. intros cache k d d0 G I P k2 d2 E. destruct (String.eqb_spec k k2) as [<-|N]; [rewrite aget_aset_eq in E; injection E as <-; eauto|]. rewrite aget_aset_ne in E by exact N. now apply G. Qed.
  Lemma good_prepared : forall cache k d, good cache -> aget k cache = Some d -> exists d0, inner k = Ok d0 /\ option_map snd (prepared d) = option_map snd (prepared d0).
  Proof.
    intros cache k d G E. destruct (G k d E) as (d0 & I & [->|(q & P)]); exists d0; (split; [exact I|]); [now rewrite prepared_compiled|].
    destruct (prepared_twice _ _ _ P) as (q2 & P2). now rewrite P, P2.
  Qed.
  (** What a call answers, whatever came before. *)
  Definition answer_ok (c : call) (r : response) : Prop :=
    match inner (call_key c) with
    | Err e => r = Err e
    | Ok d0 => exists d, r = Ok d /\ bare d = bare d0 /\
        match c with CLoad _ => option_map snd (prepared d0) = Some d | CSync _ => d = compiled d0 \/ option_map snd (prepared d0) = Some d end
    end.
  Lemma compiled_bare : forall d, bare (compiled d) = bare d.
  Proof. intros [g|p]; [apply compile_bare|reflexivity]. Qed.
  Lemma call_ok : forall cache c cache1 asked r, good cache -> cached_call parse inner fuel cache c = Some (cache1, asked, r) ->
    good cache1 /\ answer_ok c r /\
    (forall k, k <> call_key c -> aget k cache1 = aget k cache) /\
    (forall d, r = Ok d -> aget (call_key c) cache1 = Some d) /\ (forall e, r = Err e -> cache1 = cache /\ asked = [call_key c]) /\
    (forall d, aget (call_key c) cache = Some d -> ready d = true -> asked = []) /\
    (aget (call_key c) cache = None -> exists more, asked = more ++ [call_key c]).
  Proof.
    intros cache c cache1 asked r G E. destruct c as [k|k]; cbn [call_key cached_call] in *.
    - unfold Docs.cached_load in E. destruct (aget k cache) as [d|] eqn:Ek.
      + destruct (good_prepared _ _ _ G Ek) as (d0 & I & Pe). unfold answer_ok. cbn [call_key]. rewrite I. destruct (prepared d) as [[q d1]|] eqn:P; [|discriminate]. injection E as <- <- <-. cbn in Pe.
        assert (Pd : exists q0, prepared d0 = Some (q0, d1)) by (destruct (prepared d0) as [[q0 d2]|]; [cbn in Pe; injection Pe as <-; eauto|discriminate]). destruct Pd as (q0 & Pd).
        split; [eapply good_aset; eauto|]. split; [exists d1; split; [reflexivity|]; split; [eapply prepared_bare; eauto|congruence]|].
        split; [intros k2 N; apply aget_aset_ne; congruence|]. split; [intros d2 [= <-]; apply aget_aset_eq|]. split; [discriminate|]. split; [|discriminate].
        intros d2 [= <-] R. rewrite (prepared_ready _ R) in P. injection P as <- _. reflexivity.
      + unfold answer_ok. cbn [call_key]. destruct (inner k) as [d0|e] eqn:I.
        * destruct (prepared d0) as [[q d1]|] eqn:P; [|discriminate]. injection E as <- <- <-.
          split; [eapply good_aset; eauto|]. split; [exists d1; split; [reflexivity|]; split; [eapply prepared_bare; eauto|reflexivity]|].
          split; [intros k2 N; apply aget_aset_ne; congruence|]. split; [intros d2 [= <-]; apply aget_aset_eq|]. split; [discriminate|]. split; [discriminate|eauto].
        * injection E as <- <- <-. split; [exact G|]. split; [reflexivity|]. split; [auto|]. split; [discriminate|]. split; [auto|]. split; [discriminate|]. exists []. reflexivity.
    - unfold Docs.cached_load_sync in E. destruct (aget k cache) as [d|] eqn:Ek.
      + injection E as <- <- <-. destruct (G k d Ek) as (d0 & I & Pd). unfold answer_ok. cbn [call_key]. rewrite I. split; [exact G|]. split.
        { exists d. split; [reflexivity|]. destruct Pd as [->|(q & P)]; [split; [apply compiled_bare|auto]|]. split; [eapply prepared_bare; eauto|right; now rewrite P]. }
        split; [auto|]. split; [congruence|]. split; [discriminate|]. split; [auto|discriminate].
      + unfold answer_ok. cbn [call_key]. destruct (inner k) as [d0|e] eqn:I; injection E as <- <- <-.
        * split; [eapply good_aset; eauto|]. split; [exists (compiled d0); split; [reflexivity|]; split; [apply compiled_bare|auto]|].
          split; [intros k2 N; apply aget_aset_ne; congruence|]. split; [intros d2 [= <-]; apply aget_aset_eq|]. split; [discriminate|]. split; [discriminate|]. exists []. reflexivity.
        * split; [exact G|]. split; [reflexivity|]. split; [auto|]. split; [discriminate|]. split; [auto|]. split; [discriminate|]. exists []. reflexivity.
  Qed.
  Lemma run_answers : forall cs cache cache1 l, good cache -> cached_run cache cs = Some (cache1, l) -> Forall2 (fun c al => answer_ok c (snd al)) cs l.
  Proof.
    induction cs as [|c cs IH]; intros cache cache1 l G E; cbn [Docs.cached_run] in E; [injection E as <- <-; constructor|].
    destruct (cached_call parse inner fuel cache c) as [[[cache2 asked] r]|] eqn:C; [|discriminate]. destruct (cached_run cache2 cs) as [[cache3 l2]|] eqn:R; [|discriminate]. injection E as <- <-.
    destruct (call_ok _ _ _ _ _ G C) as (G2 & A & _). constructor; [exact A|]. eapply IH; eauto.
  Qed.
  (** Asking: a key that has been answered is not asked for again by its own calls once nothing is left to prepare. *)
  Lemma run_quiet : forall cs cache cache1 l k d, good cache -> cached_run cache cs = Some (cache1, l) -> aget k cache = Some d -> ready d = true ->
    Forall2 (fun c al => call_key c = k -> al = ([], Ok d)) cs l.
  Proof.
    induction cs as [|c cs IH]; intros cache cache1 l k d G E Ek R; cbn [Docs.cached_run] in E; [injection E as <- <-; constructor|].
    destruct (cached_call parse inner fuel cache c) as [[[cache2 asked] r]|] eqn:C; [|discriminate]. destruct (cached_run cache2 cs) as [[cache3 l2]|] eqn:Rn; [|discriminate]. injection E as <- <-.
    destruct (call_ok _ _ _ _ _ G C) as (G2 & _ & Ot & Sv & _ & Q & _).
    assert (Hit : call_key c = k -> asked = [] /\ r = Ok d /\ cache2 = aset k d cache \/ call_key c = k /\ asked = [] /\ r = Ok d /\ cache2 = cache).
    { intros <-. destruct c as [k|k]; cbn [call_key cached_call] in *.
      - left. unfold Docs.cached_load in C. rewrite Ek, (prepared_ready _ R) in C. injection C as <- <- <-. auto.
      - right. unfold Docs.cached_load_sync in C. rewrite Ek in C. injection C as <- <- <-. auto. }
    assert (Ek2 : aget k cache2 = Some d).
    { destruct (String.eqb_spec (call_key c) k) as [Q0|Ne]; [|rewrite Ot by congruence; exact Ek]. destruct (Hit Q0) as [(_ & _ & ->)|(_ & _ & _ & ->)]; [apply aget_aset_eq|exact Ek]. }
    constructor; [|eapply IH; eauto]. intros Q0. destruct (Hit Q0) as [(-> & -> & _)|(_ & -> & -> & _)]; reflexivity.
  Qed.
  Lemma run_app : forall a b cache cache1 l, cached_run cache (a ++ b) = Some (cache1, l) ->
    exists cache2 la lb, cached_run cache a = Some (cache2, la) /\ cached_run cache2 b = Some (cache1, lb) /\ l = la ++ lb.
  Proof.
    induction a as [|c a IH]; intros b cache cache1 l E; cbn [app Docs.cached_run] in *; [exists cache, [], l; auto|].
    destruct (cached_call parse inner fuel cache c) as [[[cache2 asked] r]|]; [|discriminate]. destruct (cached_run cache2 (a ++ b)) as [[cache3 l2]|] eqn:R; [|discriminate]. injection E as <- <-.
    destruct (IH _ _ _ _ R) as (c4 & la & lb & -> & Eb & ->). exists c4, ((asked, r) :: la), lb. auto.
  Qed.
  Lemma good_run : forall cs cache cache1 l, good cache -> cached_run cache cs = Some (cache1, l) -> good cache1.
  Proof.
    induction cs as [|c cs IH]; intros cache cache1 l G E; cbn [Docs.cached_run] in E; [now injection E as <- <-|].
    destruct (cached_call parse inner fuel cache c) as [[[cache2 asked] r]|] eqn:C; [|discriminate]. destruct (cached_run cache2 cs) as [[cache3 l2]|] eqn:R; [|discriminate]. injection E as <- <-.
    destruct (call_ok _ _ _ _ _ G C) as (G2 & _). eapply IH; eauto.
  Qed.
  Lemma run_length : forall cs cache cache1 l, cached_run cache cs = Some (cache1, l) -> length l = length cs.
  Proof.
    induction cs as [|c cs IH]; intros cache cache1 l E; cbn [Docs.cached_run] in E; [now injection E as <- <-|].
    destruct (cached_call parse inner fuel cache c) as [[[cache2 asked] r]|] eqn:C; [|discriminate]. destruct (cached_run cache2 cs) as [[cache3 l2]|] eqn:R; [|discriminate]. injection E as <- <-. cbn. f_equal. eauto.
  Qed.
  Lemma good_nil : good [].
  Proof. intros k d E. discriminate. Qed.
  (** After a call that answered with something ready, later calls for that key ask for nothing and answer the same. *)
  Lemma later_quiet : forall before c after cache1 l d asked, cached_run [] (before ++ c :: after) = Some (cache1, l) -> nth_error l (length before) = Some (asked, Ok d) -> ready d = true ->
    forall i c2, nth_error after i = Some c2 -> call_key c2 = call_key c -> nth_error l (length before + S i) = Some ([], Ok d).
  Proof.
    intros before c after cache1 l d asked E N R i c2 Ei K. destruct (run_app _ _ _ _ _ E) as (cache2 & la & lb & Ea & Eb & ->). pose proof (run_length _ _ _ _ Ea) as La.
    cbn [Docs.cached_run] in Eb. destruct (cached_call parse inner fuel cache2 c) as [[[cache3 asked3] r3]|] eqn:C; [|discriminate]. destruct (cached_run cache3 after) as [[cache4 l4]|] eqn:R4; [|discriminate]. injection Eb as <- <-.
    rewrite nth_error_app2, La, Nat.sub_diag in N by lia. cbn in N. injection N as <- ->.
    pose proof (good_run _ _ _ _ good_nil Ea) as G2. destruct (call_ok _ _ _ _ _ G2 C) as (G3 & _ & _ & Sv & _).
    pose proof (run_quiet _ _ _ _ _ d G3 R4 (Sv d eq_refl) R) as Q. rewrite nth_error_app2 by lia. replace (length before + S i - length la) with (S i) by lia. cbn.
    clear -Q Ei K. revert i Ei. induction Q as [|a b la lb H Q IH]; intros [|i] Ei; try discriminate; cbn in *; [injection Ei as ->; f_equal; auto|auto].
  Qed.
  (** A call that fails has asked for its key, and the next call for it asks again. *)
  Lemma fails_asked : forall cs cache1 l i c e asked, cached_run [] cs = Some (cache1, l) -> nth_error cs i = Some c -> nth_error l i = Some (asked, Err e) -> asked = [call_key c].
  Proof.
    intros cs cache1 l i c e asked E Ei El. apply nth_error_split in Ei as (a & b & -> & Hl). destruct (run_app _ _ _ _ _ E) as (cache2 & la & lb & Ea & Eb & ->). pose proof (run_length _ _ _ _ Ea) as La.
    cbn [Docs.cached_run] in Eb. destruct (cached_call parse inner fuel cache2 c) as [[[cache3 asked3] r3]|] eqn:C; [|discriminate]. destruct (cached_run cache3 b) as [[cache4 l4]|] eqn:R4; [|discriminate]. injection Eb as <- <-.
    rewrite nth_error_app2 in El by lia. replace (i - length la) with 0 in El by lia. cbn in El. injection El as -> ->.
    pose proof (good_run _ _ _ _ good_nil Ea) as G2. destruct (call_ok _ _ _ _ _ G2 C) as (_ & _ & _ & _ & Fe & _). now apply (Fe e).
  Qed.
  (** Once a key has been answered, its calls ask for nothing but imports. *)
  Lemma resolve_asks : forall g asked g1, resolve_schemas fuel inner g = Some (asked, g1) -> forall q, In q asked -> reach inner (gc_imports g) q.
  Proof.
    intros g asked g1 E q I. unfold resolve_schemas in E. destruct (gc_resolved g); [injection E as <- <-; destruct I|]. destruct (filter _ _); [injection E as <- <-; destruct I|].
    destruct (import_dicts _ _ _ _ _ _) as [[a [d|e]]|] eqn:Im; [| |discriminate]; injection E as <- _; destruct (import_dicts_inv inner (gc_imports g) _ _ _ _ _ _ Im (inv_start _ _)) as (_ & R & _); auto.
  Qed.
  Lemma prepared_asks : forall d asked d1, prepared d = Some (asked, d1) -> forall q, In q asked -> exists g, d = DGraph g /\ reach inner (gc_imports g) q.
  Proof.
    intros [g|p] asked d1 E q I; [|injection E as <- <-; destruct I]. rewrite prepared_unfold in E. destruct (resolve_schemas fuel inner (compile_doc g)) as [[a g1]|] eqn:R; [|discriminate]. injection E as <- _.
    exists g. split; [reflexivity|]. pose proof (resolve_asks _ _ _ R q I) as H. replace (gc_imports g) with (gc_imports (compile_doc g)); [exact H|]. unfold Docs.compile_doc. now destruct (gc_compiled g).
  Qed.
  Definition imports_of (d : doc) : list string := match d with DGraph g => gc_imports g | DPolicy _ => [] end.
  Lemma bare_imports : forall d d2, bare d = bare d2 -> imports_of d = imports_of d2.
  Proof. intros [g|p] [g2|p2] E; cbn in *; try discriminate; [injection E; auto|reflexivity]. Qed.
  Lemma good_keep : forall cs cache cache1 l k d, good cache -> cached_run cache cs = Some (cache1, l) -> aget k cache = Some d -> exists d1, aget k cache1 = Some d1.
  Proof.
    induction cs as [|c cs IH]; intros cache cache1 l k d G E Ek; cbn [Docs.cached_run] in E; [injection E as <- <-; eauto|].
    destruct (cached_call parse inner fuel cache c) as [[[cache2 asked] r]|] eqn:C; [|discriminate]. destruct (cached_run cache2 cs) as [[cache3 l2]|] eqn:R; [|discriminate]. injection E as <- <-.
    destruct (call_ok _ _ _ _ _ G C) as (G2 & A & Ot & Sv & Er & _).
    assert (exists d2, aget k cache2 = Some d2) as (d2 & E2). { destruct (String.eqb_spec k (call_key c)) as [->|N]; [|rewrite Ot by exact N; eauto]. destruct r as [d2|e]; [exists d2; auto|]. destruct (Er e eq_refl) as [-> _]. eauto. }
    eapply IH; eauto.
  Qed.
  Lemma later_asks : forall before c after cache1 l d asked, cached_run [] (before ++ c :: after) = Some (cache1, l) -> nth_error l (length before) = Some (asked, Ok d) ->
    forall i c2 asked2 r2, nth_error after i = Some c2 -> call_key c2 = call_key c -> nth_error l (length before + S i) = Some (asked2, r2) ->
    (exists d2, r2 = Ok d2) /\ forall q, In q asked2 -> exists g, inner (call_key c) = Ok (DGraph g) /\ reach inner (gc_imports g) q.
  Proof.
    intros before c after cache1 l d asked E N i c2 asked2 r2 Ei K N2. destruct (run_app _ _ _ _ _ E) as (cache2 & la & lb & Ea & Eb & ->). pose proof (run_length _ _ _ _ Ea) as La.
    cbn [Docs.cached_run] in Eb. destruct (cached_call parse inner fuel cache2 c) as [[[cache3 asked3] r3]|] eqn:C; [|discriminate]. destruct (cached_run cache3 after) as [[cache4 l4]|] eqn:R4; [|discriminate]. injection Eb as <- <-.
    rewrite nth_error_app2, La, Nat.sub_diag in N by lia. cbn in N. injection N as <- ->.
    pose proof (good_run _ _ _ _ good_nil Ea) as G2. destruct (call_ok _ _ _ _ _ G2 C) as (G3 & _ & _ & Sv & _).
    rewrite nth_error_app2 in N2 by lia. replace (length before + S i - length la) with (S i) in N2 by lia. cbn in N2.
    apply nth_error_split in Ei as (a & b & -> & Hl). destruct (run_app _ _ _ _ _ R4) as (cache5 & lc & ld & Ec & Ed & ->). pose proof (run_length _ _ _ _ Ec) as Lc.
    cbn [Docs.cached_run] in Ed. destruct (cached_call parse inner fuel cache5 c2) as [[[cache6 asked6] r6]|] eqn:C2; [|discriminate]. destruct (cached_run cache6 b) as [[cache7 l7]|]; [|discriminate]. injection Ed as <- <-.
    rewrite nth_error_app2 in N2 by lia. replace (i - length lc) with 0 in N2 by lia. cbn in N2. injection N2 as -> ->.
    destruct (good_keep _ _ _ _ _ _ G3 Ec (Sv d eq_refl)) as (d5 & E5). pose proof (good_run _ _ _ _ G3 Ec) as G5.
    destruct (G5 _ _ E5) as (d0 & I0 & Pd). assert (B : bare d5 = bare d0) by (destruct Pd as [->|(q & P)]; [apply compiled_bare|eapply prepared_bare; eauto]).
    destruct c2 as [k2|k2]; cbn [call_key cached_call] in *; subst k2.
    - unfold Docs.cached_load in C2. rewrite E5 in C2. destruct (prepared d5) as [[q d6]|] eqn:P5; [|discriminate]. injection C2 as _ <- <-. rewrite app_nil_r. split; [eauto|]. intros x Ix. destruct (prepared_asks _ _ _ P5 x Ix) as (g & -> & R).
      apply bare_imports in B as Bi. cbn in Bi. destruct d0 as [g0|p0]; [|discriminate]. exists g0. split; [exact I0|]. cbn in Bi. now rewrite <- Bi.
    - unfold Docs.cached_load_sync in C2. rewrite E5 in C2. injection C2 as _ <- <-. split; [eauto|intros x []].
  Qed.
  (** Enough fuel exists whenever the imports form a finite set. *)
  Lemma prepared_some : forall ks d, import_closed inner ks -> incl (imports_of d) ks -> length (imports_of d) + left_over inner ks [] < fuel -> prepared d <> None.
  Proof.
    intros ks [g|p] C I L; [|discriminate]. rewrite prepared_unfold. unfold resolve_schemas. set (g1 := compile_doc g).
    assert (Im : gc_imports g1 = gc_imports g) by (unfold g1, Docs.compile_doc; now destruct (gc_compiled g)).
    destruct (gc_resolved g1); [discriminate|]. destruct (filter _ _); [discriminate|]. cbn in L, I.
    assert (St : import_dicts fuel inner (rev (gc_imports g1)) [] [] [] <> None).
    { apply (import_dicts_stops inner ks C); rewrite Im; [intros x Ix; apply I; now apply in_rev|rewrite rev_length; exact L]. }
    destruct (import_dicts _ _ _ _ _ _) as [[a [d|e]]|]; [discriminate|discriminate|congruence].
  Qed.
  Lemma run_some : forall ks cs cache, import_closed inner ks -> good cache ->
    (forall c d, In c cs -> inner (call_key c) = Ok d -> incl (imports_of d) ks /\ length (imports_of d) + left_over inner ks [] < fuel) -> cached_run cache cs <> None.
  Proof.
    intros ks. induction cs as [|c cs IH]; intros cache C G H; [discriminate|]. cbn [Docs.cached_run].
    assert (P : forall d, inner (call_key c) = Ok d -> prepared d <> None) by (intros d Ed; destruct (H c d (or_introl eq_refl) Ed); eapply prepared_some; eauto).
    destruct (cached_call parse inner fuel cache c) as [[[cache2 asked] r]|] eqn:Cc.
    - destruct (call_ok _ _ _ _ _ G Cc) as (G2 & _). assert (N : cached_run cache2 cs <> None) by (apply IH; auto; intros c2 d I; apply H; now right). destruct (cached_run cache2 cs) as [[cache3 l]|]; congruence.
    - exfalso. destruct c as [k|k]; cbn [cached_call call_key] in *; [|unfold Docs.cached_load_sync in Cc; destruct (aget k cache); [discriminate|]; destruct (inner k); discriminate].
      unfold Docs.cached_load in Cc. destruct (aget k cache) as [d|] eqn:Ek.
      + destruct (good_prepared _ _ _ G Ek) as (d0 & I0 & Pe). specialize (P d0 I0). destruct (prepared d) as [[q d1]|]; [discriminate|]. destruct (prepared d0); [discriminate|congruence].
      + destruct (inner k) as [d0|e] eqn:I0; [|discriminate]. specialize (P d0 eq_refl). destruct (prepared d0) as [[q d1]|]; [discriminate|congruence].
  Qed.
End Cached.
