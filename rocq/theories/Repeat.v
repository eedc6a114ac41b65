(** The hint that the same derivation is written several times. Models core/engine/src/policy/linter/repeated_derivation.rs and the
    helpers of linter/mod.rs. Simplifications: a character is an ascii and white space a parameter; of a block only its kind, its name and its
    expressions are kept; a hint is the place, the snippet, the count and the number of policies, instead of the message made of them. *)
From Coq Require Import Ascii String Bool List Arith.
From Verif Require Import Base Value Ast Workspace PreferMatch.
Import ListNotations.
Local Open Scope string_scope.
Local Open Scope nat_scope.
Local Open Scope list_scope.

(** workspace/types: [Span], in characters. *)
Definition span := (nat * nat)%type.
(** blocks: an expression of a block; [lo_standard] is [ExpressionKind::Standard]. *)
Record location := Location { lo_id : string; lo_standard : bool; lo_source : string }.
Record rblock := RBlock { rb_id : string; rb_table : bool; rb_exprs : list location }.
(** repeated_derivation.rs:16 [SiteKey]: policy, block, expression. *)
Definition site := (string * (string * string))%type.
(** 18-28 [Occurrence], [Fragment]; the set of policies is a list without repetitions. *)
Record occurrence := Occ { oc_site : site; oc_span : span }.
Record fragment := Frag { fr_ops : nat; fr_display : list ascii * bool; fr_policies : list string; fr_occs : list occurrence }.
Record hint := Hint { hn_site : site; hn_span : span; hn_display : list ascii * bool; hn_count : nat; hn_policies : option nat }.

(** 36-50 [is_op]. *)
Definition is_op (n : node) : bool :=
  match n with
  | NBinary _ _ _ | NUnary _ _ | NCond _ _ _ | NCall _ _ | NMethod _ _ _ | NInterval _ _ _ _ | NSlice _ _ _ | NTemplate _ => true
  | NObject l => match l with [] => false | _ => true end
  | NArray l => match l with [] => false | _ => true end
  | _ => false
  end.
(** 52-60 [op_count]. *)
Definition op_count (n : node) : nat := length (filter is_op (visits n)).
(** 31-34, 62-68 [threshold]. *)
Definition threshold (ops : nat) : nat := if 3 <=? ops then 2 else 3.

Section Repeat.
  (** [char::is_whitespace]; the parser, and the span of the n-th node that [walk] visits (the metadata of the parser). *)
  Variable space : ascii -> bool.
  Variable ast : string -> option node.
  Variable span_of : string -> nat -> option span.

  (** linter/mod.rs:124-129 [chars_at]. *)
  Definition chars_at (source : string) (p : span) : list ascii := firstn (snd p - fst p) (skipn (fst p) (list_ascii_of_string source)).
  (** linter/mod.rs:97-101 [fingerprint]. *)
  Definition fingerprint (source : string) (p : span) : string := string_of_list_ascii (filter (fun c => negb (space c)) (chars_at source p)).
  (** linter/mod.rs:103-122 [display_snippet]; the flag says that it is cut and ends with an ellipsis. *)
  Fixpoint squeeze (out : list ascii) (pending : bool) (l : list ascii) : list ascii :=
    match l with
    | [] => out
    | c :: r =>
        if space c then squeeze out (match out with [] => false | _ => true end) r
        else squeeze ((if pending then out ++ [" "%char] else out) ++ [c]) false r
    end.
  Definition display_snippet (source : string) (p : span) : list ascii * bool :=
    let out := squeeze [] false (chars_at source p) in
    if 60 <? length out then (firstn 59 out, true) else (out, false).

  (** repeated_derivation.rs:87-101: the operations of an expression. *)
  Fixpoint found_in (source : string) (i : nat) (l : list node) : list (span * nat) :=
    match l with
    | [] => []
    | n :: r => (if is_op n then match span_of source i with Some p => [(p, op_count n)] | None => [] end else []) ++ found_in source (S i) r
    end.
  Definition found (source : string) : list (span * nat) := match ast source with Some n => found_in source 0 (visits n) | None => [] end.

  (** 103-119: what one operation adds to the map. *)
  Record event := Event { ev_key : string; ev_ops : nat; ev_display : list ascii * bool; ev_occ : occurrence }.
  Definition ev_policy (e : event) : string := fst (oc_site (ev_occ e)).
  Definition add_policy (p : string) (l : list string) : list string := if existsb (String.eqb p) l then l else l ++ [p].
  Definition enter (e : event) (f : fragment) : fragment :=
    Frag (fr_ops f) (fr_display f) (add_policy (ev_policy e) (fr_policies f)) (fr_occs f ++ [ev_occ e]).
  Fixpoint add (m : list (string * fragment)) (e : event) : list (string * fragment) :=
    match m with
    | [] => [(ev_key e, enter e (Frag (ev_ops e) (ev_display e) [] []))]
    | (k, f) :: r => if String.eqb k (ev_key e) then (k, enter e f) :: r else (k, f) :: add r e
    end.

  (** 73-119: the operations of the unit, in the order of the loops. *)
  Definition of_location (path block : string) (l : location) : list event :=
    if lo_standard l then
      flat_map (fun po => let k := fingerprint (lo_source l) (fst po) in
        if String.length k <? 6 then [] else [Event k (snd po) (display_snippet (lo_source l) (fst po)) (Occ (path, (block, lo_id l)) (fst po))]) (found (lo_source l))
    else [].
  Definition of_block (path : string) (b : rblock) : list event :=
    if rb_table b then [] else flat_map (of_location path (rb_id b)) (rb_exprs b).
  (** linter/mod.rs:39-47 [unit_policies]; the members are a hash set, in any order. *)
  Definition events (members : list string) (parsed : string -> option (list rblock)) : list event :=
    flat_map (fun path => match parsed path with Some bs => flat_map (of_block path) bs | None => [] end) (sort_paths members).
  (** 70-125 [collect]. *)
  Definition collect (members : list string) (parsed : string -> option (list rblock)) : list (string * fragment) := fold_left add (events members parsed) [].

  (** 136-141: the order; [sort_by] is stable. *)
  Definition frag_cmp (a b : string * fragment) : comparison :=
    match Nat.compare (fr_ops (snd b)) (fr_ops (snd a)) with
    | Eq => match Nat.compare (String.length (fst b)) (String.length (fst a)) with Eq => String.compare (fst a) (fst b) | c => c end
    | c => c
    end.
  Fixpoint place (x : string * fragment) (l : list (string * fragment)) : list (string * fragment) :=
    match l with [] => [x] | y :: r => match frag_cmp x y with Gt => y :: place x r | _ => x :: l end end.
  Definition sort_frags (l : list (string * fragment)) : list (string * fragment) := fold_right place [] l.

  (** 143-158: the occurrences that no hint before covers; the map of spans per site is the list of the occurrences. *)
  Definition site_eqb (a b : site) : bool := String.eqb (fst a) (fst b) && (String.eqb (fst (snd a)) (fst (snd b)) && String.eqb (snd (snd a)) (snd (snd b))).
  Definition covers (c o : occurrence) : bool :=
    site_eqb (oc_site c) (oc_site o) && ((fst (oc_span c) <=? fst (oc_span o)) && (snd (oc_span o) <=? snd (oc_span c))).
  Definition live (covered : list occurrence) (f : fragment) : list occurrence := filter (fun o => negb (existsb (fun c => covers c o) covered)) (fr_occs f).
  (** 160-193. *)
  Definition hint_of (f : fragment) (count : nat) (o : occurrence) : hint :=
    Hint (oc_site o) (oc_span o) (fr_display f) count (if 1 <? length (fr_policies f) then Some (length (fr_policies f)) else None).
  Fixpoint report (target : string) (covered : list occurrence) (l : list (string * fragment)) : list hint :=
    match l with
    | [] => []
    | (_, f) :: r =>
        let lv := live covered f in
        if length lv <? threshold (fr_ops f) then report target covered r
        else map (hint_of f (length lv)) (filter (fun o => String.eqb (fst (oc_site o)) target) lv) ++ report target (covered ++ lv) r
    end.
  (** 129-194 [check]; [hash] is the order in which the hash map is read. *)
  Definition check (hash : list (string * fragment) -> list (string * fragment)) (members : list string) (parsed : string -> option (list rblock)) (target : string) : list hint :=
    report target [] (sort_frags (filter (fun kf => threshold (fr_ops (snd kf)) <=? length (fr_occs (snd kf))) (hash (collect members parsed)))).
End Repeat.
