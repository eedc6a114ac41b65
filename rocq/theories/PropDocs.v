(** Loaders (C39, C40), the compiled engine (C41), imports (C48) and schema dictionaries (C49). *)
From Coq Require Import String Ascii ZArith Lia Bool List Arith.
From Verif Require Import Base Dec Value Heap HeapSpec Ast Ops Compiler Vm Eval Funcs Isolate Session Graph Walker Nodes NodeSpec Engine EngineFacts
  Lexer Parser StateClaims Samples PropSyntax PropNodes Table Discriminant Decision PropDecision Json Docs DocSpec ImportFacts RewriteFacts DocsFacts EngineSet EngineSetFacts.
Import ListNotations.
Local Open Scope string_scope.
Local Open Scope list_scope.
Local Open Scope nat_scope.

(** ** Samples: two policies that import each other, and two graphs. *)
Definition paint : pdoc := PDoc ["sizes"] [("color", ["red"; "green"])] 0.
Definition sizes : pdoc := PDoc ["paint"] [("size", ["S"; "L"]); ("color", ["blue"])] 1.
Definition product : json := JObj [("type", JStr "object"); ("properties", JObj [("c", JObj [("$dictionary", JStr "color"); ("title", JStr "Color"); ("type", JStr "number")]); ("n", JObj [("type", JStr "number")])]);
  ("anyOf", JArr [JObj [("$dictionary", JStr "size")]; JNull])].
Definition g_paint : gdoc := GDoc (two_tables "t1" "t2") [("in", product)] ["paint"] false None.
Definition g_bad : gdoc := GDoc (two_tables "t1" "t2") [("in", JObj [("$dictionary", JStr "taste")])] ["paint"] false None.
Definition shop (k : string) : response :=
  if String.eqb k "paint" then Ok (DPolicy paint) else if String.eqb k "sizes" then Ok (DPolicy sizes)
  else if String.eqb k "g" then Ok (DGraph g_paint) else if String.eqb k "bad" then Ok (DGraph g_bad) else not_found k.
Definition keys0 : list string := ["paint"; "sizes"].
Example shop_closed : import_closed shop keys0.
Proof. intros k p [<-|[<-|[]]] [= <-]; intros x [<-|[]]; cbn; auto. Qed.

(** ** C40. After any calls of [add] and [remove], a key loads what the last [add] for it stored, unless a [remove] came later; otherwise it is not found. *)
Theorem C40_map : forall ops k, mem_load (fold_left mem_step ops []) k =
  match last_op ops k with Some (MAdd _ d) => Ok d | Some (MRemove _) | None => not_found k end.
Proof. intros ops k. rewrite mem_loader_map. destruct (last_op ops k) as [[]|]; reflexivity. Qed.
Print Assumptions C40_map.
(** Its keys are the keys that load, each listed once. *)
Theorem C40_keys : forall ops, NoDup (mem_keys (fold_left mem_step ops [])) /\
  forall k, In k (mem_keys (fold_left mem_step ops [])) <-> exists d, mem_load (fold_left mem_step ops []) k = Ok d.
Proof. exact mem_loader_keys. Qed.
Print Assumptions C40_keys.
Example C40_case : forall m, m = fold_left mem_step [MAdd "a" (DPolicy paint); MAdd "b" (DPolicy paint); MAdd "a" (DPolicy sizes); MRemove "b"; MRemove "c"] [] ->
  mem_load m "a" = Ok (DPolicy sizes) /\ mem_load m "b" = not_found "b" /\ mem_keys m = ["a"].
Proof. intros m ->. repeat split. Qed.

(** ** C39. The cached loader gives what the loader behind it gives, in every history of calls: the same error, or the same document up to what preparing adds
    to it (compiled expressions, table indexes, resolved schemas). *)
Theorem C39_transparent : forall parse inner fuel cs cache l, cached_run parse inner fuel [] cs = Some (cache, l) ->
  Forall2 (fun c al => match inner (call_key c), snd al with
                       | Ok d0, Ok d => bare d = bare d0
                       | Err e0, Err e => e = e0
                       | _, _ => False
                       end) cs l.
Proof.
  intros parse inner fuel cs cache l E. pose proof (run_answers parse inner fuel cs [] cache l (good_nil parse inner fuel) E) as F.
  clear E. induction F as [|c al cs l A F IH]; [constructor|]. constructor; [|exact IH].
  destruct al as [q r]. unfold answer_ok in A. cbn [snd] in *. destruct (inner (call_key c)); [destruct A as (d & -> & B & _); exact B|now rewrite A].
Qed.
Print Assumptions C39_transparent.
(** Asynchronous loads do not depend on the history at all. *)
Theorem C39_no_history : forall parse inner fuel cs cs' cache cache' l l' i j k a a', cached_run parse inner fuel [] cs = Some (cache, l) -> cached_run parse inner fuel [] cs' = Some (cache', l') ->
  nth_error cs i = Some (CLoad k) -> nth_error cs' j = Some (CLoad k) -> nth_error l i = Some a -> nth_error l' j = Some a' -> snd a = snd a'.
Proof.
  intros parse inner fuel cs cs' cache cache' l l' i j k a a' E E' Ci Cj Li Lj.
  assert (H : forall cs cache l i a, cached_run parse inner fuel [] cs = Some (cache, l) -> nth_error cs i = Some (CLoad k) -> nth_error l i = Some a -> answer_ok parse inner fuel (CLoad k) (snd a)).
  { clear. intros cs cache l i a E Ci Li. pose proof (run_answers parse inner fuel cs [] cache l (good_nil parse inner fuel) E) as F. clear E. revert i Ci Li.
    induction F as [|c al cs l A F IH]; intros [|i] Ci Li; cbn in *; try discriminate; [injection Ci as ->; injection Li as ->; exact A|eauto]. }
  pose proof (H _ _ _ _ _ E Ci Li) as A. pose proof (H _ _ _ _ _ E' Cj Lj) as A'. unfold answer_ok in A, A'. cbn [call_key] in *. destruct (inner k); [|congruence].
  destruct A as (x & -> & _ & P). destruct A' as (x' & -> & _ & P'). congruence.
Qed.
Print Assumptions C39_no_history.
(** A call that fails asked the loader behind for its key: failures are not cached. *)
Theorem C39_failures_uncached : forall parse inner fuel cs cache l i c e asked, cached_run parse inner fuel [] cs = Some (cache, l) ->
  nth_error cs i = Some c -> nth_error l i = Some (asked, Err e) -> asked = [call_key c].
Proof. exact fails_asked. Qed.
Print Assumptions C39_failures_uncached.
(** Once a call for a key was answered with a policy, or with a graph whose schemas are resolved, later calls for the key answer the same and ask for nothing. *)
Theorem C39_asks_once : forall parse inner fuel before c after cache l d asked, cached_run parse inner fuel [] (before ++ c :: after) = Some (cache, l) ->
  nth_error l (length before) = Some (asked, Ok d) -> ready d = true ->
  forall i c2, nth_error after i = Some c2 -> call_key c2 = call_key c -> nth_error l (length before + S i) = Some ([], Ok d).
Proof. exact later_quiet. Qed.
Print Assumptions C39_asks_once.
(** After any success, later calls for the key succeed and ask for nothing but imports of the graph. *)
Theorem C39_asks_imports : forall parse inner fuel before c after cache l d asked, cached_run parse inner fuel [] (before ++ c :: after) = Some (cache, l) ->
  nth_error l (length before) = Some (asked, Ok d) ->
  forall i c2 asked2 r2, nth_error after i = Some c2 -> call_key c2 = call_key c -> nth_error l (length before + S i) = Some (asked2, r2) ->
  (exists d2, r2 = Ok d2) /\ forall q, In q asked2 -> exists g, inner (call_key c) = Ok (DGraph g) /\ reach inner (gc_imports g) q.
Proof. exact later_asks. Qed.
Print Assumptions C39_asks_imports.
(** Every history runs, given that the imports involved form a finite set. *)
Theorem C39_runs : forall parse inner ks cs, import_closed inner ks -> (forall c d, In c cs -> inner (call_key c) = Ok d -> incl (imports_of d) ks) ->
  exists enough, forall fuel, enough <= fuel -> cached_run parse inner fuel [] cs <> None.
Proof.
  intros parse inner ks cs C H. exists (S (list_max (map (fun c => match inner (call_key c) with Ok d => length (imports_of d) | Err _ => 0 end) cs) + left_over inner ks [])).
  intros fuel L. apply (run_some parse inner fuel ks); auto; [apply good_nil|]. intros c d I E. split; [eauto|]. pose proof (proj1 (list_max_le (map (fun c => match inner (call_key c) with Ok d => length (imports_of d) | Err _ => 0 end) cs) _) (le_n _)) as F.
  rewrite Forall_forall in F. specialize (F (length (imports_of d))). assert (length (imports_of d) <= list_max (map (fun c => match inner (call_key c) with Ok d => length (imports_of d) | Err _ => 0 end) cs)); [|lia].
  apply F. apply in_map_iff. exists c. rewrite E. auto.
Qed.
Print Assumptions C39_runs.
(** The keys asked for, call by call. *)
Definition asks (cs : list call) : option (list (list string * bool)) :=
  option_map (fun r => map (fun a => (fst a, match snd a with Ok _ => true | Err _ => false end)) (snd r)) (cached_run p0 shop 20 [] cs).
Example C39_case : asks [CLoad "g"; CLoad "g"; CSync "g"; CLoad "none"; CLoad "none"; CSync "paint"; CLoad "paint"] =
  Some [(["sizes"; "paint"; "g"], true); ([], true); ([], true); (["none"], false); (["none"], false); (["paint"], true); ([], true)].
Proof. vm_compute. reflexivity. Qed.
(** A schema that cannot be resolved is tried again at every load: the imports are asked for each time. *)
Theorem C39_asks_once_refuted : exists cs, asks cs = Some [(["sizes"; "paint"; "bad"], true); (["sizes"; "paint"], true); (["sizes"; "paint"], true)].
Proof. exists [CLoad "bad"; CLoad "bad"; CLoad "bad"]. vm_compute. reflexivity. Qed.
Print Assumptions C39_asks_once_refuted.

(** ** C48. The policies collected for a policy are exactly those reachable from it through imports, each once; if some reachable key does not load as a policy, it is an error. *)
Theorem C48_exact : forall fuel load entry first r, transitive_policies fuel load entry first = Some r ->
  match r with
  | Ok l => NoDup (map fst l) /\ (forall k p, In (k, p) l <-> reach (with_entry load entry first) [entry] k /\ with_entry load entry first k = Ok (DPolicy p)) /\
      (forall k, reach (with_entry load entry first) [entry] k -> In k (map fst l))
  | Err _ => exists k, reach (with_entry load entry first) [entry] k /\ forall p, with_entry load entry first k <> Ok (DPolicy p)
  end.
Proof. intros fuel load entry first r E. exact (collect_inv load entry first fuel _ _ _ r E (cinv_start load entry first)). Qed.
Print Assumptions C48_exact.
(** It stops, also when policies import each other: as many rounds as there are keys, plus one. *)
Theorem C48_stops : forall load entry first ks, import_closed (with_entry load entry first) ks -> In entry ks -> forall fuel, S (length ks) < fuel -> transitive_policies fuel load entry first <> None.
Proof.
  intros load entry first ks C I fuel L. apply (collect_stops load entry first ks C).
  - intros x [<-|[]]. exact I.
  - constructor; [easy|constructor].
  - now left.
  - intros k d [[= <- <-]|[]]. split; [exact I|]. unfold with_entry. now rewrite String.eqb_refl.
  - cbn. lia.
Qed.
Print Assumptions C48_stops.
Example C48_case : import_closed (with_entry shop "paint" (DPolicy paint)) keys0 /\ transitive_policies 4 shop "paint" (DPolicy paint) = Some (Ok [("paint", paint); ("sizes", sizes)]) /\
  (exists e, transitive_policies 4 shop "x" (DPolicy (PDoc ["paint"; "g"] [] 0)) = Some (Err e)) /\ (exists e, transitive_policies 4 shop "x" (DPolicy (PDoc ["paint"; "none"] [] 0)) = Some (Err e)).
Proof.
  split; [intros k p [<-|[<-|[]]] [= <-]; intros x [<-|[]]; cbn; auto|]. split; [vm_compute; reflexivity|]. split; eexists; vm_compute; reflexivity.
Qed.

(** ** C49. The dictionaries a graph can use: the search loads the policies reachable through its imports, each once; where a name is defined twice the first document
    found wins. It fails exactly when a reachable key does not load. *)
Theorem C49_dictionaries : forall fuel load imports asked r, import_dicts fuel load (rev imports) [] [] [] = Some (asked, r) ->
  NoDup asked /\ (forall k, In k asked -> reach load imports k) /\
  match r with
  | Ok found => (forall k, reach load imports k -> In k asked /\ exists d, load k = Ok d) /\ forall name, aget name found = aget name (flat_map (dicts_at load) (rev asked))
  | Err _ => exists k e, reach load imports k /\ load k = Err e
  end.
Proof. intros fuel load imports asked r E. exact (import_dicts_inv load imports fuel _ _ _ asked r E (inv_start load imports)). Qed.
Print Assumptions C49_dictionaries.
Theorem C49_stops : forall load imports ks, import_closed load ks -> incl imports ks -> exists enough, forall fuel, enough <= fuel -> import_dicts fuel load (rev imports) [] [] [] <> None.
Proof.
  intros load imports ks C I. exists (S (length imports + left_over load ks [])). intros fuel L. apply (import_dicts_stops load ks C); [intros x Ix; apply I; now apply in_rev|rewrite rev_length; lia].
Qed.
Print Assumptions C49_stops.
(** An object with "$dictionary" that is not inside another such object becomes, in the same place, an object with the type string and the dictionary's values as its enum; its other keys
    stay as they are. *)
Theorem C49_replaced : forall d j j1, rewrite d j = Ok j1 -> forall p m, outer_ref j p m ->
  exists m1 vs, jget p j1 = Some (JObj m1) /\ names_dict d m vs /\
    aget "type" m1 = Some (JStr "string") /\ aget "enum" m1 = Some (JArr (map JStr vs)) /\ aget "$dictionary" m1 = None /\
    forall k, k <> "type" -> k <> "enum" -> k <> "$dictionary" -> aget k m1 = aget k m.
Proof. exact rewrite_refs. Qed.
Print Assumptions C49_replaced.
(** Everywhere else the schema is the same: the same scalars, arrays of the same length, objects with the same keys. *)
Theorem C49_untouched : forall d j j1, rewrite d j = Ok j1 -> forall p, (forall a b, p = a ++ b -> ~ is_ref j a) ->
  option_map top_of (jget p j1) = option_map top_of (jget p j).
Proof. exact rewrite_rest. Qed.
Print Assumptions C49_untouched.
(** It succeeds exactly when each of those references names a known dictionary. *)
Theorem C49_succeeds : forall d j, wf_json j -> (exists j1, rewrite d j = Ok j1) <-> forall p m, outer_ref j p m -> exists vs, names_dict d m vs.
Proof. exact rewrite_total. Qed.
Print Assumptions C49_succeeds.
(** Resolving is skipped exactly for the schemas without references. *)
Theorem C49_skipped : forall j, wf_json j -> references j = true <-> exists p m, outer_ref j p m.
Proof. exact references_iff. Qed.
Print Assumptions C49_skipped.
Lemma resolve_all_get : forall d l acc r, resolve_all d l acc = Ok r -> NoDup (map fst l) -> forall id, match find (fun s => String.eqb (fst s) id) l with
  | Some (_, s) => exists s1, rewrite d s = Ok s1 /\ aget id r = Some s1
  | None => aget id r = aget id acc
  end.
Proof.
  induction l as [|[a s] l IH]; intros acc r E N id; cbn [resolve_all] in E; [injection E as <-; reflexivity|]. destruct (rewrite d s) as [s1|] eqn:R; [|discriminate]. cbn [bind] in E. cbn in N. apply NoDup_cons_iff in N as [N1 N2].
  specialize (IH _ _ E N2). cbn [find fst]. destruct (String.eqb_spec a id) as [->|Ne].
  - exists s1. split; [exact R|]. specialize (IH id). destruct (find _ l) as [[b s2]|] eqn:F; [|now rewrite IH, aget_aset_eq]. apply find_some in F as [F1 F2]. cbn in F2. apply String.eqb_eq in F2. subst b.
    exfalso. apply N1. apply in_map_iff. exists (id, s2). auto.
  - specialize (IH id). destruct (find _ l) as [[b s2]|]; [exact IH|]. now rewrite IH, aget_aset_ne.
Qed.
(** The whole: when a graph's schemas have been resolved, every schema with a reference has been rewritten with the dictionaries its imports give, and no other is replaced. *)
Theorem C49_schemas : forall fuel load g asked g1 r, gc_resolved g = None -> NoDup (map fst (gc_schemas g)) -> resolve_schemas fuel load g = Some (asked, g1) -> gc_resolved g1 = Some r ->
  forall id s, In (id, s) (gc_schemas g) ->
    if references s then exists found s1, import_dicts fuel load (rev (gc_imports g)) [] [] [] = Some (asked, Ok found) /\ rewrite found s = Ok s1 /\ aget id r = Some s1
    else aget id r = None.
Proof.
  intros fuel load g asked g1 r Rn Nd E R1 id s I. unfold resolve_schemas in E. rewrite Rn in E. set (refs := filter (fun s => references (snd s)) (gc_schemas g)) in *.
  assert (Nr : NoDup (map fst refs)). { unfold refs. clear -Nd. induction (gc_schemas g) as [|x l IH]; [constructor|]. cbn in *. apply NoDup_cons_iff in Nd as [N1 N2]. destruct (references (snd x)); [|auto]. cbn. constructor; [|auto].
    intros I. apply N1. apply in_map_iff in I as (y & <- & I). apply filter_In in I as [I _]. now apply in_map. }
  assert (Uq : forall s2, In (id, s2) (gc_schemas g) -> s2 = s). { intros s2 I2. pose proof (aget_in_nodup id s (gc_schemas g) Nd I). pose proof (aget_in_nodup id s2 (gc_schemas g) Nd I2). congruence. }
  assert (Fd : forall x, find (fun s => String.eqb (fst s) id) refs = Some x -> references s = true /\ x = (id, s)).
  { intros [b s2] F. apply find_some in F as [F1 F2]. cbn in F2. apply String.eqb_eq in F2. subst b. unfold refs in F1. apply filter_In in F1 as [F1 F3]. rewrite (Uq _ F1) in *. auto. }
  assert (Fn : find (fun s => String.eqb (fst s) id) refs = None -> references s = false).
  { intros F. destruct (references s) eqn:Rs; [|reflexivity]. assert (Ir : In (id, s) refs) by (apply filter_In; auto). pose proof (find_none _ _ F _ Ir) as Z. cbn in Z. now rewrite String.eqb_refl in Z. }
  destruct refs as [|x0 refs0] eqn:Er.
  - injection E as <- <-. cbn in R1. injection R1 as <-. rewrite (Fn eq_refl). reflexivity.
  - destruct (import_dicts fuel load (rev (gc_imports g)) [] [] []) as [[a [d|e]]|]; [| |discriminate].
    + revert E. destruct (resolve_all d (x0 :: refs0) []) as [r0|] eqn:Ra; intros E; injection E as <- <-; [|rewrite Rn in R1; discriminate].
      cbn in R1. injection R1 as <-. pose proof (resolve_all_get d _ _ _ Ra Nr id) as G. destruct (find _ (x0 :: refs0)) as [x|] eqn:F.
      * destruct (Fd _ eq_refl) as [-> ->]. destruct G as (s1 & S1 & S2). eauto.
      * now rewrite (Fn eq_refl).
    + injection E as <- <-. rewrite Rn in R1. discriminate.
Qed.
Print Assumptions C49_schemas.
Example C49_case : wf_json product /\ outer_ref product [Key "properties"; Key "c"] [("$dictionary", JStr "color"); ("title", JStr "Color"); ("type", JStr "number")] /\
  option_map (fun r => (fst r, option_map (aget "in") (gc_resolved (snd r)))) (resolve_schemas 20 shop g_paint) =
  Some (["sizes"; "paint"], Some (Some (JObj [("type", JStr "object"); ("properties", JObj [("c", JObj [("title", JStr "Color"); ("type", JStr "string"); ("enum", JArr [JStr "red"; JStr "green"])]); ("n", JObj [("type", JStr "number")])]);
    ("anyOf", JArr [JObj [("type", JStr "string"); ("enum", JArr [JStr "S"; JStr "L"])]; JNull])]))).
Proof.
  split; [cbn; repeat split; repeat constructor; cbn; intuition discriminate|]. split; [|vm_compute; reflexivity].
  split; [reflexivity|]. split; [eexists; reflexivity|]. intros a b E Nb (m & x & J & D).
  destruct a as [|s1 [|s2 [|s3 a]]]; cbn [app] in E; [injection J as <-; discriminate|injection E as <- _; injection J as <-; discriminate|injection E as <- <- E; subst b; now elim Nb|injection E; discriminate].
Qed.
(** A reference among the other keys of a reference is not replaced: some schemas still have references after resolving. *)
Theorem C49_none_left_refuted : exists d j j1, wf_json j /\ rewrite d j = Ok j1 /\ references j1 = true.
Proof.
  exists [("a", ["x"])], (JObj [("$dictionary", JStr "a"); ("not", JObj [("$dictionary", JStr "a")])]). eexists. split; [cbn; repeat split; repeat constructor; cbn; intuition discriminate|]. split; vm_compute; reflexivity.
Qed.
Print Assumptions C49_none_left_refuted.
(** A property that is called "$dictionary" makes resolving fail. *)
Theorem C49_property_refuted : exists p, jget p (JObj [("properties", JObj [("$dictionary", JObj [("type", JStr "string")])])]) = Some (JObj [("type", JStr "string")]) /\
  forall d, exists e, rewrite d (JObj [("properties", JObj [("$dictionary", JObj [("type", JStr "string")])])]) = Err e.
Proof. exists [Key "properties"; Key "$dictionary"]. split; [reflexivity|]. intros d. eexists. reflexivity. Qed.
Print Assumptions C49_property_refuted.

(** ** C41. An engine after any history of changes to its store, compilations and changes of loader. *)
Definition fine_op (o : eop) : Prop := match o with OWithLoader m => NoDup (akeys m) | _ => True end.
Definition engine_after parse faulty (ops : list eop) : engine := fold_left (estep parse faulty) ops (Eng [] None).
(** After [compile], a valid graph is evaluated as it was then, whatever was stored since (the loader of that moment still gives its nested decisions). *)
Theorem C41_graph : forall X parse check faulty run_policy trace max_depth fuel before after k g gr ctx h, Forall fine_op before -> Forall keeps_set after ->
  mem_load (en_store (engine_after parse faulty before)) k = Ok (DGraph g) -> build_graph (gc_graph g) = inr gr -> validate gr = None ->
  let e := engine_after parse faulty (before ++ OCompile :: after) in
  engine_eval X parse check faulty run_policy trace max_depth fuel e k ctx h = eval_graph X parse check trace max_depth (mem_load (en_store e)) (gc_graph (compile_doc parse g)) ctx h.
Proof.
  intros X parse check faulty run_policy trace max_depth fuel before after k g gr ctx h F A L B V. cbn zeta. unfold engine_after in *. rewrite fold_left_app. cbn [fold_left].
  rewrite after_compile; [|apply store_nodup; [constructor|exact F]|exact A]. unfold stored. now rewrite L, B, V.
Qed.
Print Assumptions C41_graph.
(** A policy without error diagnostics is evaluated as it was then, with the other policies as they were then. *)
Theorem C41_policy : forall X parse check faulty run_policy trace max_depth fuel before after k p ctx h, Forall fine_op before -> Forall keeps_set after ->
  let s := en_store (engine_after parse faulty before) in
  mem_load s k = Ok (DPolicy p) -> faulty (policies (mem_load s) (mem_keys s)) k = false ->
  engine_eval X parse check faulty run_policy trace max_depth fuel (engine_after parse faulty (before ++ OCompile :: after)) k ctx h = Some (run_policy (policies (mem_load s) (mem_keys s)) k ctx h).
Proof.
  intros X parse check faulty run_policy trace max_depth fuel before after k p ctx h F A s L Fa. subst s. unfold engine_after in *. rewrite fold_left_app. cbn [fold_left].
  rewrite after_compile; [|apply store_nodup; [constructor|exact F]|exact A]. unfold stored. now rewrite L, Fa.
Qed.
Print Assumptions C41_policy.
(** Every other key goes to the loader as it is now: keys not stored at that moment, graphs that are not valid, policies with diagnostics. *)
Theorem C41_outside : forall X parse check faulty run_policy trace max_depth fuel before after k ctx h, Forall fine_op before -> Forall keeps_set after ->
  let s := en_store (engine_after parse faulty before) in
  match mem_load s k with
  | Err _ => True
  | Ok (DGraph g) => match build_graph (gc_graph g) with inl _ => True | inr gr => validate gr <> None end
  | Ok (DPolicy p) => faulty (policies (mem_load s) (mem_keys s)) k = true
  end ->
  let e := engine_after parse faulty (before ++ OCompile :: after) in
  engine_eval X parse check faulty run_policy trace max_depth fuel e k ctx h = eval_live X parse check faulty run_policy trace max_depth fuel (mem_load (en_store e)) k ctx h.
Proof.
  intros X parse check faulty run_policy trace max_depth fuel before after k ctx h F A s H. subst s. cbn zeta. unfold engine_after in *. rewrite fold_left_app. cbn [fold_left].
  rewrite after_compile; [|apply store_nodup; [constructor|exact F]|exact A]. unfold stored. destruct (mem_load _ k) as [[g|p]|e]; [|now rewrite H|reflexivity].
  destruct (build_graph _) as [x|gr]; [reflexivity|]. destruct (validate gr); [reflexivity|congruence].
Qed.
Print Assumptions C41_outside.
(** Without [compile], and after a change of loader, everything goes to the loader. *)
Theorem C41_reset : forall X parse check faulty run_policy trace max_depth fuel before m after k ctx h, Forall keeps_set after ->
  let e := engine_after parse faulty (before ++ OWithLoader m :: after) in
  engine_eval X parse check faulty run_policy trace max_depth fuel e k ctx h = eval_live X parse check faulty run_policy trace max_depth fuel (mem_load (en_store e)) k ctx h.
Proof.
  intros X parse check faulty run_policy trace max_depth fuel before m after k ctx h A. cbn zeta. unfold engine_after. rewrite fold_left_app. cbn [fold_left]. unfold engine_eval. now rewrite (steps_keep parse faulty after _ A).
Qed.
Print Assumptions C41_reset.
(** So later changes to the store do not matter to a compiled graph as long as they leave alone the decisions it evaluates, directly or through others, and its schemas. *)
Theorem C41_changes : forall X parse check faulty run_policy trace max_depth fuel before after k g gr ctx h (K : decision -> Prop), Forall fine_op before -> Forall keeps_set after ->
  let s := en_store (engine_after parse faulty before) in
  let s1 := en_store (engine_after parse faulty (before ++ OCompile :: after)) in
  mem_load s k = Ok (DGraph g) -> build_graph (gc_graph g) = inr gr -> validate gr = None -> K (gc_graph (compile_doc parse g)) ->
  (forall c nd v h, K c -> In nd (c_nodes c) -> check (mem_load s) nd v h = check (mem_load s1) nd v h) ->
  (forall c key, K c -> calls dt c key -> nested parse (mem_load s) key = nested parse (mem_load s1) key) ->
  (forall c key c2, K c -> calls dt c key -> nested parse (mem_load s) key = Some c2 -> K c2) ->
  engine_eval X parse check faulty run_policy trace max_depth fuel (engine_after parse faulty (before ++ OCompile :: after)) k ctx h =
  engine_eval X parse check faulty run_policy trace max_depth fuel (engine_after parse faulty (before ++ [OCompile])) k ctx h.
Proof.
  intros X parse check faulty run_policy trace max_depth fuel before after k g gr ctx h K F A s s1 L B V Kg Hc Hl Hk.
  rewrite (C41_graph X parse check faulty run_policy trace max_depth fuel before after k g gr ctx h F A L B V), (C41_graph X parse check faulty run_policy trace max_depth fuel before [] k g gr ctx h F (Forall_nil _) L B V).
  unfold eval_graph. symmetry. fold s1. replace (en_store (engine_after parse faulty (before ++ [OCompile]))) with s by (unfold s, engine_after; rewrite fold_left_app; reflexivity).
  apply (evaluate_same X parse dt (run_table X parse trace) _ _ _ _ K).
  - intros c nd Kc I v h0. exact (Hc c nd v h0 Kc I).
  - exact Hl.
  - exact Hk.
  - exact Kg.
Qed.
Print Assumptions C41_changes.

(** Samples: a graph that evaluates another one. *)
Definition g_leaf (src : string) : gdoc := GDoc (Content [GNode "in" "in" KdInput; GNode "e" "e" (KdTask (TExpression plain_transform [("r", src)]))] [CEdge "in" "e" None]) [] [] false None.
Definition g_call (key : string) : gdoc := GDoc (Content [GNode "in" "in" KdInput; GNode "d" "d" (KdTask (TDecision plain_transform key))] [CEdge "in" "d" None]) [] [] false None.
Definition add_g (k : string) (g : gdoc) : eop := OStore (MAdd k (DGraph g)).
Definition ask (ops : list eop) (k : string) : option (option tree) :=
  match engine_eval demo p0 (fun _ => no_schema) (fun _ _ => false) (fun _ _ v h => (h, Ok v)) false 10 10 (engine_after p0 (fun _ _ => false) ops) k n_env n_heap with
  | Some (h1, Ok v) => Some (reify 20 h1 v)
  | _ => None
  end.
Definition said (n : nat) : option (option tree) := Some (Some (TObj [("r", TNum (dec_of_nat n))])).
(** The compiled leaf stays; a new key, an uncompiled engine and a new loader see the store. *)
Example C41_case :
  ask [add_g "leaf" (g_leaf "x + 1")] "leaf" = said 3 /\
  ask [add_g "leaf" (g_leaf "x + 1"); OCompile; add_g "leaf" (g_leaf "x + 2")] "leaf" = said 3 /\
  ask [add_g "leaf" (g_leaf "x + 1"); OCompile; OStore (MRemove "leaf")] "leaf" = said 3 /\
  ask [add_g "leaf" (g_leaf "x + 1"); OCompile; add_g "new" (g_leaf "x + 2")] "new" = said 4 /\
  ask [add_g "leaf" (g_leaf "x + 1"); OCompile; add_g "leaf" (g_leaf "x + 2"); OCompile] "leaf" = said 4 /\
  ask [add_g "leaf" (g_leaf "x + 1"); OCompile; OWithLoader [("leaf", DGraph (g_leaf "x + 5"))]] "leaf" = said 7 /\
  ask [add_g "leaf" (g_leaf "x + 1"); OCompile] "none" = None.
Proof. vm_compute. repeat split. Qed.
(** The snapshot does not reach further: a compiled graph evaluates its nested decisions as the loader has them now, although they were compiled too. *)
Theorem C41_nested_refuted : exists before after k, Forall fine_op before /\ Forall keeps_set after /\
  ask (before ++ [OCompile]) k = said 3 /\ ask (before ++ OCompile :: after) k = said 4.
Proof.
  exists [add_g "leaf" (g_leaf "x + 1"); add_g "top" (g_call "leaf")], [add_g "leaf" (g_leaf "x + 2")], "top".
  split; [repeat constructor|]. split; [repeat constructor|]. vm_compute. split; reflexivity.
Qed.
Print Assumptions C41_nested_refuted.
