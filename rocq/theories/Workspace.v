(** * The incremental store behind a workspace
    Models engine/src/workspace/db.rs (documents, the snapshot, the caches that
    survive an edit) and engine/src/workspace/graph/{queries,function}.rs (the
    analysis of graphs with its recorded dependencies).
    The analyses themselves are the fields of [tools]; what is modelled is when
    they run, on what, and when an earlier result is used again.  A hash map is
    walked in path order here (in the code its order is arbitrary and what comes
    out of it is sorted). *)
From Coq Require Import String List Bool Arith NArith Lia.
Import ListNotations.
From Verif Require Import Base Convert.
Local Open Scope nat_scope.
Local Open Scope list_scope.

Definition path := string.

(** [v.sort()] on paths, and a map turned into its entries by path. *)
Definition sort_map {V} (m : amap V) : amap V := fold_left (fun o e => bset (fst e) (snd e) o) m [].
Definition sort_paths (l : list path) : list path := map fst (sort_map (map (fun p => (p, tt)) l)).
Definition pmem (p : path) (l : list path) : bool := existsb (String.eqb p) l.

Section Workspace.
  (** PD policy document, GC graph content, PP parsed policy, SC scope type, RU shallow
      analysis of a rule, UN unit, EN enriched state, SG signature, AN graph analysis,
      DG diagnostics, AR evaluation artifact, FT function type, DI dictionary. *)
  Context {PD GC PP SC RU UN EN SG AN DG AR FT DI : Type}.

  (** model::DecisionContent: a policy is itself behind an Arc. *)
  Inductive content := CPolicy (d : nat) | CGraph (g : GC).
  (** Every document the program ever allocates: an Arc is a number, and what it points to never changes. *)
  Record arcs := { a_content : nat -> content; a_policy : nat -> PD }.

  (** graph/analysis.rs SignatureResolution; graph/function.rs:23-33; analysis.rs:153-174 [check_imports]. *)
  Inductive resolution := Found (s : SG) | Recursive | Missing.
  Inductive fentry := FTyped (t : FT) | FUnresolved.
  Inductive foutcome := OTyped (t : FT) | OUnresolved | OUnknown.
  Inductive ikind := IPolicy | IGraph | IMissing.

  (** graph/analysis.rs:103-151 [GraphAnalyzer::analyze] as it looks from the store: it asks for the
      signature of a decision it calls (1528-1550) or for the type of a function (591), and goes on
      with the answer.  Everything else it computes from the graph itself. *)
  Inductive prog :=
  | Done (a : AN)
  | AskSig (key : path) (k : resolution -> prog)
  | AskFn (key : N) (k : foutcome -> prog).

  Record tools := {
    t_parse : path -> PD -> PP;                       (* Policy::parse *)
    t_imports : PP -> list path;                      (* policy.imports() *)
    t_dicts : PP -> list (string * DI);               (* policy.dictionaries *)
    t_scope : amap PP -> SC;                          (* compute_base_scope *)
    t_shallow : SC -> path -> PP -> list RU;          (* analyze_block on each rule, pass Shallow *)
    t_unit : amap PP -> list RU -> UN;                (* compute_unit *)
    t_enrich : UN -> amap PP -> list RU -> EN;        (* compute_enriched *)
    t_sig : UN -> EN -> amap PP -> SG;                (* inputs and outputs of a policy *)
    t_artifact : UN -> amap PP -> list RU -> AR;      (* eval_artifact *)
    t_pdiag : amap PP -> list path -> UN -> EN -> path -> DG; (* compute_policy_diagnostics *)
    t_gimports : GC -> list path;                     (* content.imports *)
    t_analyse : path -> GC -> list (path * (string * DI)) -> list ikind -> prog;
    t_gsig : AN -> SG;
    t_gdiag : AN -> DG;
    t_nodiag : DG;
    t_hash : FT -> N                                  (* function.rs:104-114 [function_state] *)
  }.
  Variable T : tools.
  Variable M : arcs.

  (** db.rs:40-44 [GraphDeps]: which document (or none) stood at a path, which state a function type was in. *)
  Record deps := { d_docs : list (path * option nat); d_fns : list (N * N) }.

  (** db.rs:46-52 [PolicyDerivedCache]; a parsed policy is an Arc (number, value). *)
  Record cache := {
    c_parsed : amap (nat * (nat * PP));
    c_shallow : amap (nat * list RU);
    c_units : list (list path * (list nat * nat));
    c_graphs : amap (deps * AN)
  }.
  (** db.rs:149-166 [Unit]: its own data and the cell filled on first use ([enriched_once]). *)
  Record uobj := { u_unit : UN; u_parsed : amap PP; u_rules : list RU; u_enriched : option EN }.
  (** db.rs:133-147 [Snapshot]. *)
  Record snap := {
    s_parsed : amap (nat * PP);
    s_graphs : amap nat;
    s_shallow : amap (list RU);
    s_components : list (list path);
    s_units : list (nat * nat);
    s_diags : amap DG;
    s_artifacts : amap AR
  }.
  (** db.rs:182-197 [Db]. *)
  Record db := {
    b_inputs : amap nat;
    b_snap : option snap;
    b_cache : cache;
    b_units : list uobj;
    b_next : nat;
    b_stack : list path;
    b_frames : list (list path * list (N * N));
    b_ftypes : list (N * fentry);
    b_resolver : option (N -> fentry)
  }.

  Definition with_snap (b : db) (s : option snap) : db :=
    {| b_inputs := b_inputs b; b_snap := s; b_cache := b_cache b; b_units := b_units b; b_next := b_next b;
       b_stack := b_stack b; b_frames := b_frames b; b_ftypes := b_ftypes b; b_resolver := b_resolver b |}.
  Definition with_cache (b : db) (c : cache) : db :=
    {| b_inputs := b_inputs b; b_snap := b_snap b; b_cache := c; b_units := b_units b; b_next := b_next b;
       b_stack := b_stack b; b_frames := b_frames b; b_ftypes := b_ftypes b; b_resolver := b_resolver b |}.
  Definition with_units (b : db) (u : list uobj) : db :=
    {| b_inputs := b_inputs b; b_snap := b_snap b; b_cache := b_cache b; b_units := u; b_next := b_next b;
       b_stack := b_stack b; b_frames := b_frames b; b_ftypes := b_ftypes b; b_resolver := b_resolver b |}.
  Definition with_frames (b : db) (st : list path) (fr : list (list path * list (N * N))) : db :=
    {| b_inputs := b_inputs b; b_snap := b_snap b; b_cache := b_cache b; b_units := b_units b; b_next := b_next b;
       b_stack := st; b_frames := fr; b_ftypes := b_ftypes b; b_resolver := b_resolver b |}.
  Definition with_ftypes (b : db) (f : list (N * fentry)) : db :=
    {| b_inputs := b_inputs b; b_snap := b_snap b; b_cache := b_cache b; b_units := b_units b; b_next := b_next b;
       b_stack := b_stack b; b_frames := b_frames b; b_ftypes := f; b_resolver := b_resolver b |}.

  (** db.rs:207-225 [Db::new]. *)
  Definition new_db : db :=
    {| b_inputs := []; b_snap := None; b_cache := {| c_parsed := []; c_shallow := []; c_units := []; c_graphs := [] |};
       b_units := []; b_next := 0; b_stack := []; b_frames := []; b_ftypes := []; b_resolver := None |}.

  (** db.rs:227-230 [set_document], 313-315 [invalidate_snapshot]. *)
  Definition set_document (b : db) (p : path) (d : nat) : db :=
    {| b_inputs := aset p d (b_inputs b); b_snap := None; b_cache := b_cache b; b_units := b_units b; b_next := b_next b;
       b_stack := b_stack b; b_frames := b_frames b; b_ftypes := b_ftypes b; b_resolver := b_resolver b |}.
  (** db.rs:236-242 [remove_document]. *)
  Definition remove_document (b : db) (p : path) : db :=
    if amem p (b_inputs b) then
      {| b_inputs := adel p (b_inputs b); b_snap := None; b_cache := b_cache b; b_units := b_units b; b_next := b_next b;
         b_stack := b_stack b; b_frames := b_frames b; b_ftypes := b_ftypes b; b_resolver := b_resolver b |}
    else b.
  (** db.rs:317-320 [set_function_resolver]. *)
  Definition set_resolver (b : db) (r : option (N -> fentry)) : db :=
    {| b_inputs := b_inputs b; b_snap := None; b_cache := b_cache b; b_units := b_units b; b_next := b_next b;
       b_stack := b_stack b; b_frames := b_frames b; b_ftypes := b_ftypes b; b_resolver := r |}.

  Fixpoint fget (k : N) (m : list (N * fentry)) : option fentry :=
    match m with [] => None | (k1, e) :: r => if N.eqb k1 k then Some e else fget k r end.
  (** function.rs:94-102 [set_function_type]; a key is the pair of hashes of source and input type. *)
  Definition set_function_type (b : db) (k : N) (e : fentry) : db :=
    with_snap (with_ftypes b ((k, e) :: b_ftypes b)) None.
  (** function.rs:104-114 [function_state]. *)
  Definition fstate (m : list (N * fentry)) (k : N) : N :=
    match fget k m with None => 0%N | Some FUnresolved => 1%N | Some (FTyped t) => (2 + t_hash T t)%N end.

  (** db.rs:54-67 [retain]. *)
  Definition keep {V} (live : amap nat) (m : amap V) : amap V := filter (fun e => amem (fst e) live) m.
  Definition retain (live : amap nat) (c : cache) : cache :=
    {| c_parsed := keep live (c_parsed c); c_shallow := keep live (c_shallow c);
       c_units := filter (fun e => forallb (fun m => amem m live) (fst e)) (c_units c);
       c_graphs := keep live (c_graphs c) |}.

  (** db.rs:92-108 [parsed_or_compute], 960-972 [parse_all]. *)
  Fixpoint parse_all (ps : amap nat) (c : amap (nat * (nat * PP))) (next : nat) : amap (nat * PP) * amap (nat * (nat * PP)) * nat :=
    match ps with
    | [] => ([], c, next)
    | (p, d) :: r =>
        let '(pa, c1, n1) :=
          match aget p c with
          | Some (d0, pa) => if d0 =? d then (pa, c, next) else let pa := (next, t_parse T p (a_policy M d)) in (pa, aset p (d, pa) c, S next)
          | None => let pa := (next, t_parse T p (a_policy M d)) in (pa, aset p (d, pa) c, S next)
          end in
        let '(out, c2, n2) := parse_all r c1 n1 in ((p, pa) :: out, c2, n2)
    end.

  (** db.rs:110-126 [shallow_or_compute]; policy/queries/dependency.rs:334-407 [compute_shallow]. *)
  Fixpoint shallow_all (sc : SC) (ps : amap (nat * PP)) (c : amap (nat * list RU)) : amap (list RU) * amap (nat * list RU) :=
    match ps with
    | [] => ([], c)
    | (p, (a, v)) :: r =>
        let '(rs, c1) :=
          match aget p c with
          | Some (a0, rs) => if a0 =? a then (rs, c) else let rs := t_shallow T sc p v in (rs, aset p (a, rs) c)
          | None => let rs := t_shallow T sc p v in (rs, aset p (a, rs) c)
          end in
        let '(out, c2) := shallow_all sc r c1 in ((p, rs) :: out, c2)
    end.

  Definition values (ps : amap (nat * PP)) : amap PP := map (fun e => (fst e, snd (snd e))) ps.

  (** policy/queries/scope.rs:475-498 [compute_import_graph] read in both directions ([neighbors_undirected]). *)
  Definition neighbours (ps : amap PP) (p : path) : list path :=
    match aget p ps with Some v => filter (fun q => amem q ps) (t_imports T v) | None => [] end
    ++ map fst (filter (fun e => pmem p (t_imports T (snd e))) ps).
  (** db.rs:799-834 [compute_components]: the walk from one policy. *)
  Fixpoint walk (ps : amap PP) (n : nat) (stack seen members : list path) : list path * list path :=
    match n with
    | 0 => (seen, members)
    | S n => match stack with
             | [] => (seen, members)
             | p :: r => if pmem p seen then walk ps n r seen members
                         else walk ps n (neighbours ps p ++ r) (p :: seen) (p :: members)
             end
    end.
  Definition degree (ps : amap PP) : nat := fold_right (fun e n => S (length (neighbours ps (fst e))) + n) 1 ps.
  Fixpoint components (ps : amap PP) (todo : list path) (seen : list path) : list (list path) :=
    match todo with
    | [] => []
    | p :: r => if pmem p seen then components ps r seen
                else let '(seen1, members) := walk ps (degree ps) [p] seen [] in sort_paths members :: components ps r seen1
    end.
  (** db.rs:827-832 [policy_to_component]. *)
  Fixpoint comp_index (p : path) (cs : list (list path)) (i : nat) : option nat :=
    match cs with [] => None | c :: r => if pmem p c then Some i else comp_index p r (S i) end.

  (** db.rs:745-797 [Snapshot::compute], 429-443 [snapshot]. *)
  Definition policies_of (docs : amap nat) : amap nat :=
    flat_map (fun e => match a_content M (snd e) with CPolicy d => [(fst e, d)] | CGraph _ => [] end) docs.
  Definition graphs_of (docs : amap nat) : amap nat :=
    flat_map (fun e => match a_content M (snd e) with CPolicy _ => [] | CGraph _ => [(fst e, snd e)] end) docs.
  Definition compute_snap (b : db) : snap * db :=
    let docs := sort_map (b_inputs b) in
    let c := retain (b_inputs b) (b_cache b) in
    let '(parsed, cp, next) := parse_all (policies_of docs) (c_parsed c) (b_next b) in
    let '(sh, cs) := shallow_all (t_scope T (values parsed)) parsed (c_shallow c) in
    let s := {| s_parsed := parsed; s_graphs := graphs_of docs; s_shallow := sh;
                s_components := components (values parsed) (map fst parsed) [];
                s_units := []; s_diags := []; s_artifacts := [] |} in
    (s, {| b_inputs := b_inputs b; b_snap := Some s;
           b_cache := {| c_parsed := cp; c_shallow := cs; c_units := c_units c; c_graphs := c_graphs c |};
           b_units := b_units b; b_next := next; b_stack := b_stack b; b_frames := b_frames b;
           b_ftypes := b_ftypes b; b_resolver := b_resolver b |}).
  Definition snapshot (b : db) : snap * db :=
    match b_snap b with Some s => (s, b) | None => compute_snap b end.

  Definition pick {V} (members : list path) (m : amap V) : amap V :=
    flat_map (fun p => match aget p m with Some v => [(p, v)] | None => [] end) members.
  Fixpoint uget (k : list path) (m : list (list path * (list nat * nat))) : option (list nat * nat) :=
    match m with [] => None | (k1, v) :: r => if list_eq_dec string_dec k1 k then Some v else uget k r end.
  Fixpoint nget (k : nat) (m : list (nat * nat)) : option nat :=
    match m with [] => None | (k1, v) :: r => if k1 =? k then Some v else nget k r end.
  Fixpoint same_arcs (a b : list nat) : bool :=
    match a, b with [], [] => true | x :: a, y :: b => (x =? y) && same_arcs a b | _, _ => false end.

  (** db.rs:836-929 [compute_unit]: only the members' policies and rules are used. *)
  Definition compute_unit (members : list path) (s : snap) : uobj :=
    let sub := pick members (values (s_parsed s)) in
    let rules := concat (map snd (pick members (s_shallow s))) in
    {| u_unit := t_unit T sub rules; u_parsed := sub; u_rules := rules; u_enriched := None |}.
  (** db.rs:69-90 [unit_or_compute]. *)
  Definition unit_or_compute (b : db) (s : snap) (members : list path) : nat * db :=
    let parsed := map (fun e => fst (snd e)) (pick members (s_parsed s)) in
    let make :=
      let id := length (b_units b) in
      let b1 := with_units b (b_units b ++ [compute_unit members s]) in
      (id, with_cache b1 {| c_parsed := c_parsed (b_cache b); c_shallow := c_shallow (b_cache b);
                            c_units := (members, (parsed, id)) :: c_units (b_cache b); c_graphs := c_graphs (b_cache b) |}) in
    match uget members (c_units (b_cache b)) with
    | Some (old, id) => if same_arcs old parsed then (id, b) else make
    | None => make
    end.
  Definition set_snap_unit (s : snap) (i id : nat) : snap :=
    {| s_parsed := s_parsed s; s_graphs := s_graphs s; s_shallow := s_shallow s; s_components := s_components s;
       s_units := (i, id) :: s_units s; s_diags := s_diags s; s_artifacts := s_artifacts s |}.
  (** db.rs:449-469 [unit]. *)
  Definition unit (b : db) (p : path) : nat * db :=
    let '(s, b1) := snapshot b in
    match comp_index p (s_components s) 0 with
    | None => unit_or_compute b1 s []
    | Some i =>
        match nget i (s_units s) with
        | Some id => (id, b1)
        | None => let '(id, b2) := unit_or_compute b1 s (nth i (s_components s) []) in
                  (id, with_snap b2 (Some (set_snap_unit s i id)))
        end
    end.
  Definition no_unit : uobj := {| u_unit := t_unit T [] []; u_parsed := []; u_rules := []; u_enriched := None |}.
  Definition unit_at (b : db) (id : nat) : uobj := nth id (b_units b) no_unit.
  Fixpoint put (l : list uobj) (i : nat) (x : uobj) : list uobj :=
    match l, i with [], _ => [] | _ :: r, 0 => x :: r | y :: r, S i => y :: put r i x end.
  (** db.rs:516-542 [enriched_of_unit]: the cell of the unit is filled from the snapshot of that moment. *)
  Definition enriched_of_unit (b : db) (id : nat) : EN * db :=
    let u := unit_at b id in
    match u_enriched u with
    | Some e => (e, b)
    | None =>
        let '(s, b1) := snapshot b in
        let members := map fst (u_parsed u) in
        let e := t_enrich T (u_unit u) (pick members (values (s_parsed s))) (concat (map snd (pick members (s_shallow s)))) in
        (e, with_units b1 (put (b_units b1) id {| u_unit := u_unit u; u_parsed := u_parsed u; u_rules := u_rules u; u_enriched := Some e |}))
    end.

  (** db.rs:344-354 [graph_dep_record], [graph_dep_record_many], 338-342 [graph_fn_record]. *)
  Definition record (b : db) (ps : list path) (fs : list (N * N)) : db :=
    match b_frames b with
    | [] => b
    | (d, f) :: r => with_frames b (b_stack b) ((ps ++ d, fs ++ f) :: r)
    end.
  (** db.rs:369-399 [cached_graph_analysis]. *)
  Definition stamp_ok (inputs : amap nat) (e : path * option nat) : bool :=
    match snd e with
    | Some d => match aget (fst e) inputs with Some d1 => d1 =? d | None => false end
    | None => negb (amem (fst e) inputs)
    end.
  Definition cached_graph_analysis (b : db) (p : path) : option (AN * db) :=
    match aget p (c_graphs (b_cache b)) with
    | None => None
    | Some (ds, a) =>
        if forallb (stamp_ok (b_inputs b)) (d_docs ds) && forallb (fun e => N.eqb (fstate (b_ftypes b) (fst e)) (snd e)) (d_fns ds)
        then Some (a, record b (map fst (d_docs ds)) (d_fns ds)) else None
    end.
  (** db.rs:401-427 [store_graph_analysis]. *)
  Definition store_graph_analysis (b : db) (p : path) (docs : list path) (fns : list (N * N)) (a : AN) : db :=
    let ds := {| d_docs := map (fun q => (q, aget q (b_inputs b))) docs; d_fns := fns |} in
    with_cache b {| c_parsed := c_parsed (b_cache b); c_shallow := c_shallow (b_cache b); c_units := c_units (b_cache b);
                    c_graphs := aset p (ds, a) (c_graphs (b_cache b)) |}.

  (** graph/queries.rs:51-79 [graph_dictionary_blocks]: the imports, and theirs, breadth first. *)
  Fixpoint dict_walk (ps : amap PP) (n : nat) (queue visited seen : list path) (out : list (path * (string * DI))) : list path * list (path * (string * DI)) :=
    match n with
    | 0 => (visited, out)
    | S n => match queue with
             | [] => (visited, out)
             | p :: r =>
                 if pmem p visited then dict_walk ps n r visited seen out
                 else match aget p ps with
                      | None => dict_walk ps n r (p :: visited) seen out
                      | Some v =>
                          let '(seen1, out1) :=
                            fold_left (fun so e => if pmem (fst e) (fst so) then so else (fst e :: fst so, snd so ++ [(p, e)])) (t_dicts T v) (seen, out) in
                          dict_walk ps n (r ++ t_imports T v) (p :: visited) seen1 out1
                      end
             end
    end.
  Definition dict_fuel (ps : amap PP) (queue : list path) : nat :=
    S (length queue + fold_right (fun e n => length (t_imports T (snd e)) + n) 0 ps).
  Definition kind_of (s : snap) (p : path) : ikind :=
    if amem p (s_parsed s) then IPolicy else if amem p (s_graphs s) then IGraph else IMissing.

  (** function.rs:32-82 [function_output_type], [function_outcome]. *)
  Definition function_type (b : db) (k : N) : foutcome * db :=
    let '(o, b1) :=
      match fget k (b_ftypes b) with
      | Some (FTyped t) => (OTyped t, b)
      | Some FUnresolved => (OUnresolved, b)
      | None => match b_resolver b with
                | Some r => (match r k with FTyped t => OTyped t | FUnresolved => OUnresolved end, with_ftypes b ((k, r k) :: b_ftypes b))
                | None => (OUnknown, b)
                end
      end in
    (o, record b1 [] [(k, fstate (b_ftypes b1) k)]).

  (** graph/queries.rs:92-123 [decision_signature]; [ga] is [graph_analysis]. *)
  Definition decision_signature (ga : db -> path -> option AN * db) (b0 : db) (key : path) : resolution * db :=
    let b := record b0 [key] [] in
    let '(s, b) := snapshot b in
    if amem key (s_graphs s) then
      if pmem key (b_stack b) then (Recursive, b)
      else match ga b key with (Some a, b) => (Found (t_gsig T a), b) | (None, b) => (Missing, b) end
    else if amem key (s_parsed s) then
      let b := match comp_index key (s_components s) 0 with Some i => record b (nth i (s_components s) []) [] | None => b end in
      let '(id, b) := unit b key in
      let '(e, b) := enriched_of_unit b id in
      (Found (t_sig T (u_unit (unit_at b id)) e (u_parsed (unit_at b id))), b)
    else (Missing, b).
  Fixpoint run_prog (sig : db -> path -> resolution * db) (b : db) (q : prog) : AN * db :=
    match q with
    | Done a => (a, b)
    | AskSig key k => let '(r, b1) := sig b key in run_prog sig b1 (k r)
    | AskFn key k => let '(o, b1) := function_type b key in run_prog sig b1 (k o)
    end.
  (** graph/queries.rs:19-37 [graph_analysis], db.rs:356-367 [graph_dep_frame_push], [graph_dep_frame_pop].  The stack holds each graph at most once, so the number of
      documents bounds the nesting; the fuel is that number. *)
  Fixpoint graph_analysis (n : nat) (b : db) (p : path) : option AN * db :=
    match n with
    | 0 => (None, b)
    | S n =>
        let '(s, b) := snapshot b in
        match aget p (s_graphs s) with
        | None => (None, b)
        | Some d =>
            match cached_graph_analysis b p with
            | Some (a, b) => (Some a, b)
            | None =>
                match a_content M d with
                | CPolicy _ => (None, b)
                | CGraph g =>
                    let b := with_frames b (p :: b_stack b) (([p], []) :: b_frames b) in
                    let '(visited, dicts) := dict_walk (values (s_parsed s)) (dict_fuel (values (s_parsed s)) (t_gimports T g)) (t_gimports T g) [] [] [] in
                    let b := record b visited [] in
                    let '(a, b) := run_prog (decision_signature (graph_analysis n)) b (t_analyse T p g dicts (map (kind_of s) (t_gimports T g))) in
                    let '(docs, fns) := match b_frames b with f :: _ => f | [] => ([], []) end in
                    let b := with_frames b (tl (b_stack b)) (tl (b_frames b)) in
                    let b := record b docs fns in
                    (Some a, store_graph_analysis b p docs fns a)
                end
            end
        end
    end.
  Definition analyse_graph (b : db) (p : path) : option AN * db := graph_analysis (S (length (b_inputs b))) b p.

  (** db.rs:708-726 [policy_diagnostics]. *)
  Definition set_snap_diag (b : db) (p : path) (v : DG) : db :=
    match b_snap b with
    | Some s => with_snap b (Some {| s_parsed := s_parsed s; s_graphs := s_graphs s; s_shallow := s_shallow s; s_components := s_components s;
                                     s_units := s_units s; s_diags := aset p v (s_diags s); s_artifacts := s_artifacts s |})
    | None => b
    end.
  Definition policy_diagnostics (b : db) (p : path) : DG * db :=
    let '(s, b) := snapshot b in
    match aget p (s_diags s) with
    | Some v => (v, b)
    | None =>
        let '(v, b) :=
          if amem p (s_graphs s) then
            match analyse_graph b p with (Some a, b) => (t_gdiag T a, b) | (None, b) => (t_nodiag T, b) end
          else
            let '(id, b) := unit b p in
            let '(e, b) := enriched_of_unit b id in
            (t_pdiag T (values (s_parsed s)) (map fst (s_graphs s)) (u_unit (unit_at b id)) e p, b) in
        (v, set_snap_diag b p v)
    end.
  (** db.rs:596-685 [eval_artifact]. *)
  Definition set_snap_artifact (b : db) (p : path) (v : AR) : db :=
    match b_snap b with
    | Some s => with_snap b (Some {| s_parsed := s_parsed s; s_graphs := s_graphs s; s_shallow := s_shallow s; s_components := s_components s;
                                     s_units := s_units s; s_diags := s_diags s; s_artifacts := aset p v (s_artifacts s) |})
    | None => b
    end.
  Definition eval_artifact (b : db) (p : path) : AR * db :=
    let '(s, b) := snapshot b in
    match aget p (s_artifacts s) with
    | Some v => (v, b)
    | None =>
        let '(id, b) := unit b p in
        let u := unit_at b id in
        let members := map fst (u_parsed u) in
        let v := t_artifact T (u_unit u) (pick members (values (s_parsed s))) (concat (map snd (pick members (s_shallow s)))) in
        (v, set_snap_artifact b p v)
    end.

  (** What a user of the workspace does (workspace/mod.rs:42-170): edit, or ask. *)
  Inductive question :=
  | QParsed (p : path)       (* the parsed policy *)
  | QRules (p : path)        (* what its rules read and write *)
  | QComponent (p : path)    (* component_members *)
  | QUnit (p : path)         (* entities, globals, dictionaries, inputs *)
  | QEnriched (p : path)     (* outputs, types *)
  | QArtifact (p : path)     (* what an evaluation runs on *)
  | QGraph (p : path)        (* graph_analysis *)
  | QDiag (p : path).        (* diagnostics *)
  Inductive answer :=
  | AParsed (v : option PP)
  | ARules (v : option (list RU))
  | AComponent (v : list path)
  | AUnit (v : UN) (ps : amap PP)
  | AEnriched (v : EN)
  | AArtifact (v : AR)
  | AGraph (v : option AN)
  | ADiag (v : DG).
  (** policy/queries/components.rs:9-15 [component_members]. *)
  Definition component_of (cs : list (list path)) (p : path) : list path :=
    match comp_index p cs 0 with Some i => nth i cs [] | None => [] end.
  Definition ask (b : db) (q : question) : answer * db :=
    match q with
    | QParsed p => let '(s, b) := snapshot b in (AParsed (option_map snd (aget p (s_parsed s))), b)
    | QRules p => let '(s, b) := snapshot b in (ARules (aget p (s_shallow s)), b)
    | QComponent p => let '(s, b) := snapshot b in (AComponent (component_of (s_components s) p), b)
    | QUnit p => let '(id, b) := unit b p in (AUnit (u_unit (unit_at b id)) (u_parsed (unit_at b id)), b)
    | QEnriched p => let '(id, b) := unit b p in let '(e, b) := enriched_of_unit b id in (AEnriched e, b)
    | QArtifact p => let '(v, b) := eval_artifact b p in (AArtifact v, b)
    | QGraph p => let '(v, b) := analyse_graph b p in (AGraph v, b)
    | QDiag p => let '(v, b) := policy_diagnostics b p in (ADiag v, b)
    end.
  Inductive event :=
  | ESet (p : path) (d : nat)
  | ERemove (p : path)
  | EFunction (k : N) (e : fentry)
  | EResolver (r : option (N -> fentry))
  | EAsk (q : question).
  Definition step (b : db) (e : event) : db :=
    match e with
    | ESet p d => set_document b p d
    | ERemove p => remove_document b p
    | EFunction k e => set_function_type b k e
    | EResolver r => set_resolver b r
    | EAsk q => snd (ask b q)
    end.
  Definition after (h : list event) : db := fold_left step h new_db.
End Workspace.
