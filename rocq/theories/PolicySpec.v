(** What is claimed about a policy as a whole, apart from the way it is evaluated. *)
From Coq Require Import String Bool List Arith Relations.
From Verif Require Import Base Dec Value Heap Ast Ops HeapSpec Isolate Session PureFacts DepsSpec Driver DriverSpec Blocks BlocksSpec PolicyRun.
Import ListNotations.
Local Open Scope string_scope.
Local Open Scope nat_scope.
Local Open Scope list_scope.

Section Spec.
  Variable parse : ekind -> string -> res node.
  (** An expression that assigns nothing, nests closures less than 32 deep and does not mention [$root]. *)
  Definition closed_source (src : string) : Prop :=
    forall n, parse KStandard src = Ok n -> no_assign n = true /\ sane n = true /\ nesting n < 32 /\ ~ In "$root" (names n).
  (** Conditions and values of a match may be empty. *)
  Definition closed_block (b : block) : Prop :=
    (forall e, In e (block_sources b) -> closed_source e \/ e = "" /\ reads_only parse e) /\
    match b with
    | BExpression _ e => e <> ""
    | BAssertion _ l => forall c, In c l -> ac_expr c <> ""
    | BMatch _ arms => NoDup (map ma_id arms)
    end.
  (** A policy whose blocks have different names and compute different top-level properties, none of them declared as input. *)
  Record sound_policy (dm : list string) (p : policy) : Prop := {
    sp_refs : NoDup (map fst p);
    sp_keys : NoDup (map (fun e => block_key (snd e)) p);
    sp_flat : forall b k, In (b, k) p -> flat_key (block_key k);
    sp_undeclared : forall b k, In (b, k) p -> ~ declared dm (block_key k);
    sp_closed : forall b k, In (b, k) p -> closed_block k }.
  (** A block's equation holds in a store: its property is what it computes there. *)
  Definition satisfied (X : ext) (h : heap) (store : value) (k : block) : Prop :=
    exists t, computes X parse h store k t /\ shows h store (block_key k) t.
End Spec.

(** Which blocks are needed for the goals, when the blocks selected what [log] says. *)
Inductive needed (parse : ekind -> string -> res node) (rewrite : string -> option string) (recovered : string -> list string) (dm : list string) (p : policy)
    (goals : list string) (log : list (bref * option pick)) : bref -> Prop :=
| ND_goal : forall g b k, In g goals -> In (b, k) p -> feeds dm (p_blocks p) g b -> needed parse rewrite recovered dm p goals log b
| ND_read : forall c o q b k, needed parse rewrite recovered dm p goals log c -> In (c, o) log ->
    In q (p_always parse rewrite recovered p c) \/ (exists pk, o = Some pk /\ In q (p_reads parse rewrite recovered p c pk)) ->
    In (b, k) p -> feeds dm (p_blocks p) q b -> needed parse rewrite recovered dm p goals log b.
