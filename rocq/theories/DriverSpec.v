(** What is claimed about the evaluation of policies, apart from the model. Blocks are named by policy and id, paths are dotted names. *)
From Coq Require Import String List Relations.
From Verif Require Import Base.
Import ListNotations.
Local Open Scope string_scope.
Local Open Scope list_scope.

(** [p] is [q] or [q] starts with [p] and a dot. *)
Definition above (p q : string) : Prop := p = q \/ exists r, q = (p ++ "." ++ r)%string.
(** [p] is a declared input, a part of one, or holds one. *)
Definition declared (dm : list string) (p : string) : Prop := exists m, In m dm /\ (above m p \/ above p m).
(** Writing the paths [ws] changes what is read at [p] from above. *)
Definition touches (dm : list string) (ws : list string) (p : string) : Prop := ~ declared dm p /\ exists w, In w ws /\ ~ declared dm w /\ above p w.
(** [b] is the first of the blocks that touches [p]. *)
Definition first_toucher {B} (dm : list string) (blocks : list (B * list string)) (p : string) (b : B) : Prop :=
  exists l1 ws l2, blocks = l1 ++ (b, ws) :: l2 /\ touches dm ws p /\ forall e, In e l1 -> ~ touches dm (snd e) p.
(** [r] is the closest place at or above [q] that some block touches. *)
Definition closest {B} (dm : list string) (blocks : list (B * list string)) (q r : string) : Prop :=
  above r q /\ (exists e, In e blocks /\ touches dm (snd e) r)
  /\ forall r', above r' q -> (exists e, In e blocks /\ touches dm (snd e) r') -> above r' r.
(** Who must have run before [q] is read: the blocks that touch the closest place first, or some place below it first. *)
Definition feeds {B} (dm : list string) (blocks : list (B * list string)) (q : string) (b : B) : Prop :=
  exists r p, closest dm blocks q r /\ above r p /\ first_toucher dm blocks p b.

(** A block reads the paths [always b], and [reads b pick] when it selected [pick]. It wants the blocks that feed them. *)
Definition wants {B P} (dm : list string) (blocks : list (B * list string)) (known : B -> bool) (always : B -> list string) (reads : B -> P -> list string) (b x : B) : Prop :=
  known b = true /\ exists p, (In p (always b) \/ exists pick, In p (reads b pick)) /\ feeds dm blocks p x.
(** What the commits of the blocks in a log make of the store, one after the other. *)
Definition in_order {B P W E} (commit : B -> P -> W -> W * (unit + E)) (l : list (B * option P)) (w : W) : W :=
  fold_left (fun w e => match snd e with Some pick => fst (commit (fst e) pick w) | None => w end) l w.
