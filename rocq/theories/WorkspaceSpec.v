(** * What a workspace should answer
    Said from the documents the user left in it, without caches, snapshots or
    recorded dependencies. *)
From Coq Require Import String List Bool NArith Relations.
Import ListNotations.
From Verif Require Import Base Workspace.
Local Open Scope nat_scope.
Local Open Scope list_scope.

Section Spec.
  Context {PD GC PP SC RU UN EN SG AN DG AR FT DI : Type}.
  Let tools := @tools PD GC PP SC RU UN EN SG AN DG AR FT DI.
  Let arcs := @arcs PD GC.
  Let event := @event FT.
  Let fentry := @fentry FT.
  Variable T : tools.
  Variable M : arcs.

  (** ** What a history of edits leaves behind *)
  Definition doc_left (h : list event) : path -> option nat :=
    fold_left (fun w e => match e with
                          | ESet p d => fun q => if String.eqb p q then Some d else w q
                          | ERemove p => fun q => if String.eqb p q then None else w q
                          | _ => w
                          end) h (fun _ => None).
  Definition type_left (h : list event) : N -> option fentry :=
    fold_left (fun w e => match e with EFunction k t => fun j => if N.eqb k j then Some t else w j | _ => w end) h (fun _ => None).

  (** What a document says, whichever copy of it is at hand. *)
  Inductive shown := SPolicy (d : PD) | SGraph (g : GC).
  Definition shows (d : nat) : shown :=
    match a_content M d with CPolicy i => SPolicy (a_policy M i) | CGraph g => SGraph g end.
  Definition world := path -> option shown.
  Definition world_of (h : list event) : world := fun p => option_map shows (doc_left h p).

  (** ** Policies *)
  Definition policy_in (w : world) (p : path) (v : PP) : Prop := exists d, w p = Some (SPolicy d) /\ v = t_parse T p d.
  (** [p] imports [q]. *)
  Definition imports (w : world) (p q : path) : Prop := exists v u, policy_in w p v /\ policy_in w q u /\ In q (t_imports T v).
  Definition connected (w : world) : path -> path -> Prop := clos_refl_sym_trans path (imports w).
  (** The policies connected to [p] by imports, each with its parsed form, in path order. *)
  Fixpoint by_path {V} (m : amap V) : Prop :=
    match m with [] => True | (k, _) :: r => Forall (fun e => String.compare k (fst e) = Lt) r /\ by_path r end.
  Definition group (w : world) (p : path) (g : amap PP) : Prop :=
    by_path g /\ forall q v, aget q g = Some v <-> policy_in w q v /\ connected w p q.
  (** All the policies, in path order. *)
  Definition policies (w : world) (g : amap PP) : Prop := by_path g /\ forall q v, aget q g = Some v <-> policy_in w q v.
  (** A policy's rules say what they read and write whatever the scope they are analysed in. *)
  Definition scope_free : Prop := forall sc sc1 p v, t_shallow T sc p v = t_shallow T sc1 p v.
  Definition rules_of (p : path) (v : PP) : list RU := t_shallow T (t_scope T []) p v.
  Definition group_rules (g : amap PP) : list RU := concat (map (fun e => rules_of (fst e) (snd e)) g).
  Definition unit_of (g : amap PP) : UN := t_unit T g (group_rules g).
  Definition enriched_of (g : amap PP) : EN := t_enrich T (unit_of g) g (group_rules g).

  (** ** Graphs *)
  (** The dictionaries a graph sees: breadth first through imports; the first of a name counts. *)
  Inductive sees_dicts (w : world) : list path -> list path -> list string -> list (path * (string * DI)) -> list path -> list (path * (string * DI)) -> Prop :=
  | sd_end visited seen out : sees_dicts w [] visited seen out visited out
  | sd_again p r visited seen out v1 o1 :
      In p visited -> sees_dicts w r visited seen out v1 o1 -> sees_dicts w (p :: r) visited seen out v1 o1
  | sd_none p r visited seen out v1 o1 :
      ~ In p visited -> (forall v, ~ policy_in w p v) -> sees_dicts w r (p :: visited) seen out v1 o1 -> sees_dicts w (p :: r) visited seen out v1 o1
  | sd_policy p v r visited seen out seen1 out1 v1 o1 :
      ~ In p visited -> policy_in w p v ->
      fold_left (fun so e => if pmem (fst e) (fst so) then so else (fst e :: fst so, snd so ++ [(p, e)])) (t_dicts T v) (seen, out) = (seen1, out1) ->
      sees_dicts w (r ++ t_imports T v) (p :: visited) seen1 out1 v1 o1 -> sees_dicts w (p :: r) visited seen out v1 o1.
  Definition import_kind (w : world) (p : path) : ikind :=
    match w p with Some (SPolicy _) => IPolicy | Some (SGraph _) => IGraph | None => IMissing end.

  Let prog := @prog SG AN FT.
  (** The analysis of a graph: each called graph shows the signature of its own analysis, each called policy
      the signature of its group, each function the type that was set for it. *)
  Inductive means (w : world) (f : N -> option fentry) : path -> AN -> Prop :=
  | means_graph p g a visited dicts :
      w p = Some (SGraph g) ->
      sees_dicts w (t_gimports T g) [] [] [] visited dicts ->
      answers w f (t_analyse T p g dicts (map (import_kind w) (t_gimports T g))) a ->
      means w f p a
  with answers (w : world) (f : N -> option fentry) : prog -> AN -> Prop :=
  | an_done a : answers w f (Done a) a
  | an_graph key k b a :
      means w f key b -> answers w f (k (Found (t_gsig T b))) a -> answers w f (AskSig key k) a
  | an_policy key k v g a :
      policy_in w key v -> group w key g ->
      answers w f (k (Found (t_sig T (unit_of g) (enriched_of g) g))) a -> answers w f (AskSig key k) a
  | an_missing key k a : w key = None -> answers w f (k Missing) a -> answers w f (AskSig key k) a
  | an_typed key k t a : f key = Some (FTyped t) -> answers w f (k (OTyped t)) a -> answers w f (AskFn key k) a
  | an_unresolved key k a : f key = Some FUnresolved -> answers w f (k OUnresolved) a -> answers w f (AskFn key k) a
  | an_unknown key k a : f key = None -> answers w f (k OUnknown) a -> answers w f (AskFn key k) a.

  (** Which decisions an analysis may ask for. *)
  Inductive asks : prog -> path -> Prop :=
  | ask_here key k : asks (AskSig key k) key
  | ask_after key k r x : asks (k r) x -> asks (AskSig key k) x
  | ask_fn key k o x : asks (k o) x -> asks (AskFn key k) x.
  Definition calls (w : world) (p q : path) : Prop :=
    exists g ds ks, w p = Some (SGraph g) /\ asks (t_analyse T p g ds ks) q.
  Definition no_cycle (w : world) : Prop := forall p, ~ clos_trans path (calls w) p p.
  (** While all of a group's documents stay as they are, no document from outside comes to belong to it. *)
  Definition same_group (w w1 : world) : Prop :=
    forall p v, policy_in w p v -> (forall q, connected w p q -> w1 q = w q) -> forall q, connected w1 p q -> connected w p q.

  (** The moments of a history at which something was asked. *)
  Definition asked (h h1 : list event) : Prop := exists q r, h = h1 ++ EAsk q :: r.
  Definition no_resolver (h : list event) : Prop := forall r, ~ In (EResolver r) h.
  Definition well_behaved (h : list event) : Prop :=
    no_resolver h /\
    (forall h1, asked h h1 -> no_cycle (world_of h1)) /\
    (forall h1 h2, asked h h1 -> asked h h2 -> same_group (world_of h1) (world_of h2)).
  Definition same_left (h1 h2 : list event) : Prop :=
    (forall p, world_of h1 p = world_of h2 p) /\ forall k, type_left h1 k = type_left h2 k.
  (** Questions that do not ask for the analysis of a graph. *)
  Definition about_policies (w : world) (q : question) : Prop :=
    match q with QGraph _ => False | QDiag p => forall g, w p <> Some (SGraph g) | _ => True end.

  (** ** What each question should be answered, given the documents and the function types there are *)
  Definition graphs (w : world) (g : amap GC) : Prop := by_path g /\ forall q c, aget q g = Some c <-> w q = Some (SGraph c).
  Inductive right_answer (w : world) (f : N -> option fentry) : question -> @answer PP RU UN EN AN DG AR -> Prop :=
  | ra_parsed p o : (forall v, o = Some v <-> policy_in w p v) -> right_answer w f (QParsed p) (AParsed o)
  | ra_rules p o : (forall rs, o = Some rs <-> exists v, policy_in w p v /\ rs = rules_of p v) -> right_answer w f (QRules p) (ARules o)
  | ra_component p g : group w p g -> right_answer w f (QComponent p) (AComponent (map fst g))
  | ra_unit p g : group w p g -> right_answer w f (QUnit p) (AUnit (unit_of g) g)
  | ra_enriched p g : group w p g -> right_answer w f (QEnriched p) (AEnriched (enriched_of g))
  | ra_artifact p g : group w p g -> right_answer w f (QArtifact p) (AArtifact (t_artifact T (unit_of g) g (group_rules g)))
  | ra_graph p a : means w f p a -> right_answer w f (QGraph p) (AGraph (Some a))
  | ra_no_graph p : (forall g, w p <> Some (SGraph g)) -> right_answer w f (QGraph p) (AGraph None)
  | ra_diag p g ps gs : (forall g, w p <> Some (SGraph g)) -> group w p g -> policies w ps -> graphs w gs ->
      right_answer w f (QDiag p) (ADiag (t_pdiag T ps (map fst gs) (unit_of g) (enriched_of g) p))
  | ra_graph_diag p a : means w f p a -> right_answer w f (QDiag p) (ADiag (t_gdiag T a)).
End Spec.
