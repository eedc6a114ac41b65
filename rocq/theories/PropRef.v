(** Serialisation with references (C16). *)
From Coq Require Import String Ascii ZArith NArith Lia Bool List Arith Permutation.
From Verif Require Import Base Dec Value RefSer RefSpec TemplateSpec RefFacts RefDecode RefTrip.
Import ListNotations.
Local Open Scope string_scope.
Local Open Scope list_scope.

(** ** C16. Every finite value of plain data ([repr h v t]: its contents are the tree [t]), with any sharing, is serialised, whatever the order of the table of references.
    Reading the document back, after any reordering of the entries of its objects, into any heap, yields a value with the same contents, and changes nothing else. *)
Theorem C16_round_trip : forall dv order h v t n, (forall l, Permutation (order l) l) -> wf_heap h -> repr h v t -> plain_data t -> depth t <= n -> (N.of_nat (weight t) <= 2 ^ 64)%N ->
  exists doc, serialize dv order n h v = Some doc /\
  forall doc2 h0, same doc doc2 -> exists h1 v1 t1, deserialize doc2 h0 = (h1, Ok v1) /\ repr h1 v1 t1 /\ same t t1 /\ forall l c, hget h0 l = Some c -> hget h1 l = Some c.
Proof. exact round_trip. Qed.
Print Assumptions C16_round_trip.
(** One array used three times, a string used as a key and as a value, and strings that start with '@' or look like references. *)
Definition twice : heap :=
  [CArr [VStr "@0"; VStr "@@1"; VStr "customer"]; CObj [("customer", VArr 0); ("@0", VStr "customer"); ("list", VObj 2)]; CObj [("a", VArr 0); ("@", VNum (dec_of_Z 7)); ("customer", VNull)]].
Definition twice_arr : tree := TArr [TStr "@0"; TStr "@@1"; TStr "customer"].
Definition twice_tree : tree := TObj [("customer", twice_arr); ("@0", TStr "customer"); ("list", TObj [("a", twice_arr); ("@", TNum (dec_of_Z 7)); ("customer", TNull)])].
Example C16_case : wf_heap twice /\ repr twice (VObj 1) twice_tree /\ plain_data twice_tree /\
  serialize (fun _ => TNull) (@rev addr) 10 twice (VObj 1) =
    Some (TObj [("$refs", TArr [TStr "customer"; TArr [TStr "@@0"; TStr "@@@1"; TStr "@0"]]);
                ("$root", TObj [("@0", TStr "@1"); ("@@0", TStr "@0"); ("list", TObj [("a", TStr "@1"); ("@@", TNum (dec_of_Z 7)); ("@0", TNull)])])]) /\
  let (h1, r) := deserialize (TObj [("$root", TObj [("@@0", TStr "@0"); ("list", TObj [("a", TStr "@1"); ("@@", TNum (dec_of_Z 7)); ("@0", TNull)]); ("@0", TStr "@1")]);
                                    ("$refs", TArr [TStr "customer"; TArr [TStr "@@0"; TStr "@@@1"; TStr "@0"]])]) [] in
  match r with Ok v1 => reify 10 h1 v1 = Some (TObj [("@0", TStr "customer"); ("list", TObj [("a", twice_arr); ("@", TNum (dec_of_Z 7)); ("customer", TNull)]); ("customer", twice_arr)]) | Err _ => False end.
Proof.
  split; [|split; [|split; [|split; vm_compute; reflexivity]]].
  - intros l c E. destruct l as [|[|[|l]]]; try (injection E as <-); cbn.
    + repeat constructor.
    + split; [repeat constructor; cbn; intuition discriminate|]. repeat (apply Forall_cons; [cbn; try exact I; eexists; reflexivity|]). apply Forall_nil.
    + split; [repeat constructor; cbn; intuition discriminate|]. repeat (apply Forall_cons; [cbn; try exact I; eexists; reflexivity|]). apply Forall_nil.
    + destruct l; discriminate.
  - apply (reify_repr 10). vm_compute. reflexivity.
  - repeat constructor.
Qed.
(** *** Where the claim fails. A date is written as a text and comes back as a text. *)
Theorem C16_dates_refuted : forall dv order d s n h h0, (forall l, Permutation (order l) l) -> dv d = TStr s ->
  exists doc, serialize dv order (S n) h (VDyn d) = Some doc /\ forall h1 v1 t1, deserialize doc h0 = (h1, Ok v1) -> repr h1 v1 t1 -> ~ same (TDyn d) t1.
Proof.
  intros dv order d s n h h0 Po E. unfold serialize. cbn [counted]. assert (T : order (shared []) = []) by (apply Permutation_nil, Permutation_sym, Po). rewrite T. cbn [ser]. rewrite E. eexists. split; [reflexivity|].
  intros h1 v1 t1 Ed R S0. cbn in Ed. inversion S0; subst. inversion R; subst. unfold deser_str in Ed. destruct (parse_ref_id s) as [i|]; [destruct i; discriminate|discriminate].
Qed.
Print Assumptions C16_dates_refuted.
(** A value that contains itself (which an assignment can make) is never serialised: however much fuel is given, the walk that counts references does not end. *)
Definition ring : heap := [CArr [VArr 0]].
Theorem C16_cycle_refuted : forall dv order n, serialize dv order n ring (VArr 0) = None.
Proof.
  intros dv order n. unfold serialize. assert (C : counted n ring (VArr 0) = None) by (induction n as [|n IH]; [reflexivity|]; cbn [counted]; cbn [ring harr hget nth_error]; change (counted n [CArr [VArr 0]] (VArr 0)) with (counted n ring (VArr 0)); now rewrite IH).
  now rewrite C.
Qed.
Print Assumptions C16_cycle_refuted.
(** A hostile document whose table refers to itself is read as a value that contains itself. *)
Theorem C16_reads_ring : exists h1 l, deserialize (TObj [("$refs", TArr [TArr [TStr "@0"]]); ("$root", TStr "@0")]) [] = (h1, Ok (VArr l)) /\ hget h1 l = Some (CArr [VArr l]) /\ forall t, ~ repr h1 (VArr l) t.
Proof.
  exists ring, 0%nat. split; [vm_compute; reflexivity|]. split; [reflexivity|]. intros t. induction t using tree_ind'; intros R; inversion R; subst.
  match goal with E : hget ring 0 = Some (CArr ?vs), F : Forall2 _ ?vs _ |- _ => injection E as <-; inversion F as [|? ? ? ? Rx]; subst end.
  match goal with HF : Forall _ (_ :: _) |- _ => inversion HF; subst; auto end.
Qed.
Print Assumptions C16_reads_ring.
