(** What the conditional schema of a request says, in terms of what arms need. *)
From Coq Require Import String List Bool Relations Sorted.
From Verif Require Import Base Dec Value Heap Ast HeapSpec Isolate Session Deps DepsSpec Driver DriverSpec Blocks BlocksSpec PolicyRun Discriminant PGraph NeedSpec Conditional.
Import ListNotations.
Local Open Scope string_scope.
Local Open Scope list_scope.

(** One path is the other one, or inside it. *)
Definition tied (x y : string) : Prop := above x y \/ above y x.
(** An arm with a condition. *)
Definition conditional_arms (arms : list marm) : list marm := filter (fun a => negb (String.eqb (ma_cond a) "")) arms.

Section Spec.
  Variable parse : ekind -> string -> res node.
  Variable noticed : string -> list pread.
  Variable dm : list string.
  Variable sources : entity_sources.
  Variable p : policy.
  Variable members : list string.
  Variable testable : string -> bool.
  Notation rules := (rules_of parse noticed p).
  (** The text reads the path, not through a name of its own. *)
  Definition reads_directly (src q : string) : Prop :=
    src <> "" /\ exists x, In x (source_reads parse noticed src) /\ pr_alias x = false /\ pr_unresolved x = false /\ q = join_dots (pr_path x).
  (** The value of the arm depends on the path. *)
  Definition arm_needs (a : marm) (q : string) : Prop :=
    exists r, reads_directly (ma_value a) r /\ mentioned dm rules r /\ depends_on dm sources rules r q.
  (** The match blocks of the unit. *)
  Definition is_match (b : bref) (arms : list marm) : Prop := exists k, In (b, BMatch k arms) p /\ In (fst b) members /\ k <> "".
  (** All conditions of the block compare [d], an input that is an enumeration or a truth value, with constants. *)
  Definition discriminates (d : string) (arms : list marm) : Prop :=
    conditional_arms arms <> [] /\ (exists l, join_dots l = d /\ forall a, In a (conditional_arms arms) -> enum_bool_path (arm_test_of parse (ma_cond a)) = Some l) /\
    ~ computed_here dm rules members d /\ testable d = true.
  (** The only discriminating block of the policy. *)
  Definition only_discriminant (b : bref) (d : string) (arms : list marm) : Prop :=
    exists k l1 l2, p = l1 ++ (b, BMatch k arms) :: l2 /\ In (fst b) members /\ k <> "" /\ discriminates d arms /\
      forall b' k' arms' d', In (b', BMatch k' arms') (l1 ++ l2) -> In (fst b') members -> k' <> "" -> ~ discriminates d' arms'.
  (** A goal depends on the path; without goals, some property that is computed and not part of another one. *)
  Definition concerned (goals : list string) (q : string) : Prop :=
    exists g, mentioned dm rules g /\ depends_on dm sources rules g q /\
      match goals with
      | [] => computed_here dm rules members g /\ forall a, above a g -> a <> g -> ~ computed dm rules a
      | _ => In g goals
      end.
  (** What the schema with variants takes as always needed: what no arm depends on, what all arms depend on, and what the conditions read. *)
  Definition needed_by_all (goals : list string) (d : string) (arms : list marm) (q : string) : Prop :=
    (concerned goals q /\ forall a, In a arms -> ~ arm_needs a q) \/ (arms <> [] /\ forall a, In a arms -> arm_needs a q) \/
    q = d \/ exists a, In a arms /\ reads_directly (ma_cond a) q.
  (** The arms with conditions of all match blocks. *)
  Definition some_arm (a : marm) : Prop := exists b arms, is_match b arms /\ In a (conditional_arms arms).
  (** The same for the schema without variants. *)
  Definition needed_anyway (goals : list string) (q : string) : Prop :=
    (concerned goals q /\ forall a, some_arm a -> ~ arm_needs a q) \/ exists a, some_arm a /\ reads_directly (ma_cond a) q.
  (** The conditions under which [x] is needed, in order, without repetitions. *)
  Definition guards (x : string) (l : list string) : Prop :=
    Sorted (fun a b => String.compare a b = Lt) l /\ forall c, In c l <-> exists a q, some_arm a /\ arm_needs a q /\ tied x q /\ c = ma_cond a.
  Definition guard_text (x : string) (o : option string) : Prop :=
    exists l, guards x l /\ match o with None => l = [] | Some t => l <> [] /\ t = String.concat " or " l end.
  (** A group lists the inputs and outputs of the request that have to do with the paths of [P], each with its guard. *)
  Definition group_lists (ins outs : list string) (g : group) (P : string -> Prop) (guard : string -> option string -> Prop) : Prop :=
    (forall x, (exists c, In (x, c) (g_inputs g)) <-> In x ins /\ exists q, P q /\ tied x q) /\
    (forall x, (exists c, In (x, c) (g_outputs g)) <-> In x outs /\ exists q, P q /\ tied x q) /\
    (forall x c, In (x, c) (g_inputs g) \/ In (x, c) (g_outputs g) -> guard x c).
  Definition unguarded (_ : string) (c : option string) : Prop := c = None.

  (** *** What an evaluation reads. *)
  (** The texts that a block evaluates when it selected [pk]. *)
  Inductive evaluates_text : block -> pick -> string -> Prop :=
  | EExpression : forall k e pk, evaluates_text (BExpression k e) pk e
  | EAssertion : forall k l c pk, In c l -> evaluates_text (BAssertion k l) pk (ac_expr c)
  | ECondition : forall k arms a pk, In a arms -> ma_cond a <> "" -> evaluates_text (BMatch k arms) pk (ma_cond a)
  | EValue : forall k arms a, In a arms -> ma_value a <> "" -> evaluates_text (BMatch k arms) (PMatched (Some (ma_id a))) (ma_value a).
  (** An evaluation whose blocks selected what [log] says reads the input path [q]. *)
  Definition reads_input (log : list (bref * option pick)) (q : list string) : Prop :=
    exists b k pk e n x, In (b, Some pk) log /\ In (b, k) p /\ evaluates_text k pk e /\ parse KStandard e = Ok n /\ In x (flatten_reads (walk n)) /\
      pr_alias x = false /\ pr_path x = q /\ forall b' k', In (b', k') p -> hd_error q <> Some (block_key k').

  (** *** Arms that keep what they need to themselves. [G]: the arms in question; [C]: what is listed as common. *)
  Variable G : bref -> marm -> Prop.
  Inductive outside (b : bref) : block -> string -> Prop :=
  | OExpression : forall k e, outside b (BExpression k e) e
  | OAssertion : forall k l c, In c l -> outside b (BAssertion k l) (ac_expr c)
  | OCondition : forall k arms a, In a arms -> outside b (BMatch k arms) (ma_cond a)
  | OValue : forall k arms a, In a arms -> ~ G b a -> outside b (BMatch k arms) (ma_value a).
  (** The text reads the path, or something inside the path that is computed. *)
  Definition text_needs (e y : string) : Prop := e <> "" /\ exists r, In r (shallow_paths parse noticed e) /\ (y = r \/ above y r /\ computed dm rules y).
  Record kept_to_arms (C : string -> Prop) (goals : list string) : Prop := {
    (** No goal is needed for an arm. *)
    ka_goals : forall b a g, G b a -> In g goals -> ~ arm_needs a g;
    (** A block that reads what an arm needs, elsewhere than in these arms, is itself needed only for the arm. Common inputs may be read. *)
    ka_readers : forall b k e y c a, In (b, k) p -> outside b k e -> text_needs e y -> computed dm rules y \/ ~ C y -> G c a -> arm_needs a y -> arm_needs a (block_key k);
    (** An arm that reads a part of a computed property needs all of it. *)
    ka_whole : forall b a y r, G b a -> In r (shallow_paths parse noticed (ma_value a)) -> ma_value a <> "" -> above y r -> computed dm rules y -> arm_needs a y }.
  Definition arm_selected (log : list (bref * option pick)) (b : bref) (id : string) : Prop := In (b, Some (PMatched (Some id))) log.
  (** One of the conditions under which [x] is needed belongs to an arm that was selected. *)
  Definition guard_met (log : list (bref * option pick)) (x : string) : Prop :=
    exists b arms a l, is_match b arms /\ In a (conditional_arms arms) /\ arm_selected log b (ma_id a) /\ guards x l /\ In (ma_cond a) l.
  Definition listed (g : group) (q : string) : Prop := exists x c, In (x, c) (g_inputs g) /\ tied x q.
End Spec.
