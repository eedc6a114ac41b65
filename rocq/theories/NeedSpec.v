(** What it means that a property of a policy depends on another one, and what a request needs, without the graph. *)
From Coq Require Import String List Bool Relations.
From Verif Require Import Base Dec Value Heap Ast HeapSpec Isolate Session Deps DepsSpec Driver DriverSpec Blocks BlocksSpec PolicyRun PGraph.
Import ListNotations.
Local Open Scope string_scope.
Local Open Scope list_scope.

Section Spec.
  Variable dm : list string.
  Variable sources : entity_sources.
  Variable rules : list shallow.
  (** Some block reads the path, or writes it or something below it that is not declared as input. *)
  Definition mentioned (q : string) : Prop := exists s, In s rules /\ (In q (sh_reads s) \/ touches dm (sh_writes s) q).
  (** Some block computes what is at the path, or below it. *)
  Definition computed (q : string) : Prop := exists s, In s rules /\ touches dm (sh_writes s) q.
  (** [q] depends on [r]: [r] is a computed part of [q]; or a block that computes [q] reads [r], or reads something inside a computed [r], or
      reads an item of a collection whose entity has [r]. What holds [q] is not counted. *)
  Inductive depends (q : string) : string -> Prop :=
  | DPart : forall s r, In s rules -> In r (sh_writes s) -> ~ declared dm r -> ~ declared dm q -> above q r -> q <> r -> depends q r
  | DRead : forall s r, In s rules -> In q (sh_writes s) -> ~ declared dm q -> In r (sh_reads s) -> ~ above r q -> depends q r
  | DHolder : forall s r x, In s rules -> In q (sh_writes s) -> ~ declared dm q -> In x (sh_reads s) -> above r x -> r <> x -> computed r -> ~ above r q -> depends q r
  | DEntity : forall s r x, In s rules -> In q (sh_writes s) -> ~ declared dm q -> In x (sh_reads s) -> entity_rewrite sources x = Some r -> mentioned r -> r <> q -> depends q r.
  (** [g] depends on [x] in some number of steps. *)
  Definition depends_on : string -> string -> Prop := clos_refl_trans _ depends.
  (** The first block that computes [q] belongs to the unit, whose policies are [members]. *)
  Definition computed_here (members : list string) (q : string) : Prop :=
    exists b, first_toucher dm (map (fun s => (sh_block s, sh_writes s)) rules) q b /\ In (fst b) members.
  (** The inputs of the goals: what they depend on and no block of the unit computes. *)
  Definition is_needed (members : list string) (goals : list string) (q : string) : Prop :=
    exists g, In g goals /\ mentioned g /\ depends_on g q /\ ~ computed_here members q.
End Spec.

(** The input has a value at the path, or a list above it. *)
Inductive present (h : heap) : value -> list string -> Prop :=
| PHere : forall v, present h v []
| PList : forall l s r, present h (VArr l) (s :: r)
| PField : forall l m s x r, hobj h l = Some m -> aget s m = Some x -> present h x r -> present h (VObj l) (s :: r).
(** The same for an item of an entity, found where its collection is. *)
Definition supplied (sources : entity_sources) (h : heap) (v : value) (q : string) : Prop :=
  present h v (split_dot q) \/
  exists e rest src, q = (e ++ "." ++ rest)%string /\ split_dot e = [e] /\ aget e sources = Some src /\ present h v (split_dot (src ++ "." ++ rest)%string).

(** No block reads a property whose name has a dot. *)
Definition undotted (parse : ekind -> string -> res node) (p : policy) : Prop :=
  forall b k e n x s, In (b, k) p -> In e (block_sources k) -> parse KStandard e = Ok n -> In x (flatten_reads (walk n)) -> In s (pr_path x) -> split_dot s = [s].
(** Entities have names without dots, and declared properties. *)
Definition declared_entities (dm : list string) (sources : entity_sources) : Prop :=
  forall e src, In (e, src) sources -> split_dot e = [e] /\ declared dm e.

(** [q] is [p] with the collection it goes into replaced by its entity; of several collections, the one with the longest path. *)
Definition goes_into (sources : entity_sources) (p : string) (src e rest : string) : Prop :=
  In (e, src) sources /\ src <> e /\ p = (src ++ "." ++ rest)%string.
Definition one_entity (sources : entity_sources) (p q : string) : Prop := exists src e rest, goes_into sources p src e rest /\ q = (e ++ "." ++ rest)%string /\
  forall src' e' rest', goes_into sources p src' e' rest' -> String.length src' <= String.length src.
Fixpoint entities_replaced (sources : entity_sources) (n : nat) (p q : string) : Prop :=
  match n with 0 => p = q | S n => exists x, one_entity sources p x /\ entities_replaced sources n x q end.
