(** C43: types of values. *)
From Coq Require Import String ZArith Bool List.
From Verif Require Import Base Dec Value Json ConvertSpec ConvertFacts VarType TypeSpec TypeFacts TypeMembers.
Import ListNotations.
Local Open Scope string_scope.
Local Open Scope list_scope.

(** Every type satisfies itself. *)
Theorem C43_reflexive : forall t, distinct t -> satisfies t t = true.
Proof. intros t D. apply sat_refl. now apply distinct_wft. Qed.
Print Assumptions C43_reflexive.

(** A constraint that two types satisfy is satisfied by their merge. *)
Theorem C43_least : forall a b c, distinct a -> distinct b -> satisfies a c = true -> satisfies b c = true -> satisfies (merge a b) c = true.
Proof. intros a b c A B. apply sat_least; now apply distinct_wft. Qed.
Print Assumptions C43_least.

(** Where no key and no null is on one side only, both types satisfy their merge. *)
Theorem C43_upper : forall a b, distinct a -> distinct b -> proper a -> proper b -> side_by_side a b -> satisfies a (merge a b) = true /\ satisfies b (merge a b) = true.
Proof. intros a b A B. apply sat_upper; now apply distinct_wft. Qed.
Print Assumptions C43_upper.
Example C43_upper_case :
  let a := KObject [("x", KArray (KConst "p")); ("y", KNullable KNumber)] in
  let b := KObject [("y", KString); ("x", KArray (KEnum None ["q"; "p"]))] in
  merge a b = KObject [("x", KArray (KEnum None ["q"; "p"])); ("y", KAny)] /\ distinct a /\ distinct b /\ proper a /\ proper b /\ side_by_side a b.
Proof.
  cbv zeta. split; [vm_compute; reflexivity|].
  assert (D : forall m k1 k2 A B, k1 <> k2 -> m = [(k1, A); (k2, B)] -> (forall p w, at_place p A <> Some (KObject w)) -> (forall p w, at_place p B <> Some (KObject w)) -> distinct (KObject m)).
  { intros m k1 k2 A B Hn -> HA HB p w H. destruct p as [|[|k] p]; cbn [at_place bare] in H; [| discriminate|].
    - injection H as <-. repeat constructor; cbn; intuition congruence.
    - cbn [aget] in H. destruct (String.eqb k1 k); [destruct (HA _ _ H)|]. destruct (String.eqb k2 k); [destruct (HB _ _ H)|discriminate]. }
  assert (L : forall T, match T with KArray _ | KObject _ | KNullable _ => False | _ => True end -> forall p w, at_place p T <> Some (KObject w)).
  { intros T HT p w. destruct p as [|[|k] p]; destruct T; cbn; try discriminate; contradiction. }
  assert (A : forall T, (forall p w, at_place p T <> Some (KObject w)) -> forall p w, at_place p (KArray T) <> Some (KObject w)).
  { intros T HT p w. destruct p as [|[|k] p]; cbn; try discriminate. apply HT. }
  assert (N : forall T, (forall p w, at_place p T <> Some (KObject w)) -> forall p w, at_place p (KNullable T) <> Some (KObject w)).
  { intros T HT p w. rewrite place_null. apply HT. }
  assert (P : forall k1 k2 A B, proper A -> proper B -> proper (KObject [(k1, A); (k2, B)])).
  { intros k1 k2 X Y PX PY. apply PObject. intros k t [E|[E|[]]]; injection E as <- <-; assumption. }
  split; [|split; [|split; [|split]]].
  - eapply D; [|reflexivity| |]; [discriminate|apply A, L; exact I|apply N, L; exact I].
  - eapply D; [|reflexivity| |]; [discriminate|apply L; exact I|apply A, L; exact I].
  - apply P; [apply PArray; constructor; exact I|apply PNullable; [constructor; exact I|exact I]].
  - apply P; [constructor; exact I|apply PArray; constructor; exact I].
  - intros p x y X Y. destruct p as [|[|k] p]; cbn [at_place bare] in X, Y; try discriminate.
    + injection X as <-. injection Y as <-. intros k. cbn. intuition auto.
    + cbn [aget] in X, Y. destruct (String.eqb "x" k) eqn:Ex.
      * apply String.eqb_eq in Ex. subst k. replace (String.eqb "y" "x") with false in Y by reflexivity. destruct p as [|[|k] p]; cbn [at_place bare] in X, Y; try discriminate.
        -- injection X as <-. injection Y as <-. exact I.
        -- destruct p as [|[|k] p]; cbn [at_place bare] in X, Y; try discriminate. injection X as <-. injection Y as <-. exact I.
      * destruct (String.eqb "y" k) eqn:Ey; [|discriminate]. destruct p as [|[|k1] p]; cbn [at_place bare] in X, Y; try discriminate. injection X as <-. injection Y as <-. exact I.
Qed.
(** Otherwise not: a key of one side is required of the other. *)
Theorem C43_upper_keys_refuted : exists a b, distinct a /\ distinct b /\ proper a /\ proper b /\ satisfies a (merge a b) = false /\ satisfies b (merge a b) = false.
Proof.
  exists (KObject [("x", KNumber)]), (KObject [("y", KNumber)]).
  assert (D : forall k, distinct (KObject [(k, KNumber)])).
  { intros k p m H. destruct p as [|[|k1] p]; cbn [at_place bare] in H; [|discriminate|].
    - injection H as <-. repeat constructor. intros [].
    - cbn [aget] in H. destruct (String.eqb k k1); [|discriminate]. destruct p as [|[|k2] p]; discriminate. }
  assert (P : forall k, proper (KObject [(k, KNumber)])) by (intros k; apply PObject; intros k1 t [E|[]]; injection E as <- <-; constructor; exact I).
  repeat split; auto.
Qed.
Print Assumptions C43_upper_keys_refuted.
(** And null does not satisfy a nullable type, the merge of null and another type in particular. *)
Theorem C43_upper_null_refuted : exists a b, merge a b = KNullable b /\ satisfies a (merge a b) = false.
Proof. exists KNull, KNumber. split; reflexivity. Qed.
Print Assumptions C43_upper_null_refuted.

(** Merging is the same in both orders, as far as values can tell: for every reading of objects. *)
Theorem C43_commutes : forall need closed a b v, distinct a -> distinct b -> member need closed (merge a b) v <-> member need closed (merge b a) v.
Proof. intros n c a b v A B. apply merge_swap; now apply distinct_wft. Qed.
Print Assumptions C43_commutes.
Example C43_commutes_case : merge (KConst "a") (KConst "b") <> merge (KConst "b") (KConst "a"). Proof. vm_compute. discriminate. Qed.

(** Merging a type with itself changes nothing, if no enumeration has a name. *)
Theorem C43_same : forall t, distinct t -> proper t -> ~ occurs t (fun x => exists s l, x = KEnum (Some s) l) -> merge t t = t.
Proof.
  intros t D P N. apply mg_same; [now apply distinct_wft|exact P|]. intros [p [x [X H]]]. apply N. exists p, x. split; [exact X|]. destruct x; try contradiction. destruct name; [eauto|contradiction].
Qed.
Print Assumptions C43_same.
Theorem C43_same_refuted : exists s l, merge (KEnum (Some s) l) (KEnum (Some s) l) <> KEnum (Some s) l.
Proof. exists "color", ["red"]. vm_compute. discriminate. Qed.
Print Assumptions C43_same_refuted.

(** The values of the first type are values of the merge, if it has no array of unknown elements. *)
Theorem C43_merge : forall a b v, distinct a -> distinct b -> ~ occurs a (eq (KArray KAny)) -> loosely a v -> loosely (merge a b) v.
Proof. intros a b v A B. apply merge_keeps; now apply distinct_wft. Qed.
Print Assumptions C43_merge.
(** The values of the second type as well. *)
Theorem C43_merge_right : forall a b v, distinct a -> distinct b -> ~ occurs b (eq (KArray KAny)) -> loosely b v -> loosely (merge a b) v.
Proof. intros a b v A B N H. apply C43_commutes; [assumption..|]. now apply C43_merge. Qed.
Print Assumptions C43_merge_right.
Example C43_merge_case : loosely (merge (KObject [("x", KNumber)]) (KObject [("y", KNull)])) (TObj [("x", TNum (Dec 1 0))]).
Proof.
  apply C43_merge.
  - intros p m H. destruct p as [|[|k1] p]; cbn [at_place bare] in H; [|discriminate|].
    + injection H as <-. repeat constructor. intros [].
    + cbn [aget] in H. destruct (String.eqb "x" k1); [|discriminate]. destruct p as [|[|k2] p]; discriminate.
  - intros p m H. destruct p as [|[|k1] p]; cbn [at_place bare] in H; [|discriminate|].
    + injection H as <-. repeat constructor. intros [].
    + cbn [aget] in H. destruct (String.eqb "y" k1); [|discriminate]. destruct p as [|[|k2] p]; discriminate.
  - intros [p [x [X <-]]]. destruct p as [|[|k1] p]; cbn [at_place bare] in X; try discriminate. cbn [aget] in X. destruct (String.eqb "x" k1); [|discriminate].
    destruct p as [|[|k2] p]; discriminate.
  - eexists. split; [reflexivity|]. split; [intros _ k H; exact H|]. split; [|exact I]. eexists. reflexivity.
Qed.
(** Otherwise not: an array of unknown elements gives way to any other array. *)
Theorem C43_merge_refuted : exists a b v, distinct a /\ distinct b /\ loosely a v /\ ~ loosely (merge a b) v.
Proof.
  exists (KArray KAny), (KArray KNumber), (TArr [TStr "x"]).
  assert (D : forall t, match t with KArray _ | KObject _ | KNullable _ => False | _ => True end -> distinct (KArray t)).
  { intros t Ht p m H. destruct p as [|[|k1] p]; cbn [at_place bare] in H; try discriminate. destruct p as [|[|k2] p]; destruct t; try discriminate; contradiction. }
  split; [apply D; exact I|]. split; [apply D; exact I|]. split.
  - eexists. split; [reflexivity|]. intros x _. exact I.
  - intros [l [E H]]. injection E as <-. destruct (H (TStr "x") (or_introl eq_refl)) as [d Hd]. discriminate.
Qed.
Print Assumptions C43_merge_refuted.

(** If a type without "any" satisfies another one that has no dates, and strings are not taken for literals, then its values (with no other keys) are values of the other. *)
Theorem C43_values : forall a c v, distinct a -> distinct c -> ~ occurs a (eq KAny) -> ~ occurs c (eq KDate) ->
  (~ occurs a (eq KString) \/ ~ occurs c (fun x => exists s n l, x = KConst s \/ x = KEnum n l)) ->
  satisfies a c = true -> exactly a v -> fits c v.
Proof.
  intros a c v A C Na Nd Nl. apply sat_sound; try (now apply distinct_wft); auto. destruct Nl as [H|H]; [now left|right]. intros [p [x [X L]]]. apply H. exists p, x. split; [exact X|].
  destruct x; try contradiction; [exists s, None, []; now left|exists "", name, l; now right].
Qed.
Print Assumptions C43_values.
Example C43_values_case : satisfies (KObject [("x", KConst "p"); ("z", KBool)]) (KObject [("x", KEnum None ["p"; "q"]); ("y", KNullable KNumber)]) = true /\
  exactly (KObject [("x", KConst "p"); ("z", KBool)]) (TObj [("x", TStr "p"); ("z", TBool true)]).
Proof.
  split; [reflexivity|]. eexists. split; [reflexivity|]. split; [intros _ k H; exact H|]. split; [reflexivity|]. split; [eexists; reflexivity|exact I].
Qed.
(** Each condition is needed: an unknown type satisfies every type, a string satisfies every literal, a number satisfies "date", and keys that the first type does not list are not looked at. *)
Theorem C43_values_refuted : forall P, In P
  [ (KAny, KNumber, TBool true); (KString, KConst "a", TStr "b"); (KString, KEnum None ["a"], TStr "b"); (KNumber, KDate, TNum (Dec 1 0)); (KString, KDate, TStr "b") ] ->
  satisfies (fst (fst P)) (snd (fst P)) = true /\ exactly (fst (fst P)) (snd P) /\ ~ fits (snd (fst P)) (snd P).
Proof.
  intros P [<- |[<- |[<- |[<- |[<- |[]]]]]]; cbn [fst snd]; (split; [reflexivity|split; [cbn; eauto|]]).
  - intros [d H]. discriminate.
  - cbn. discriminate.
  - intros [s [[= <-] [H|[]]]]. discriminate.
  - intros [d H]. discriminate.
  - intros [d H]. discriminate.
Qed.
Print Assumptions C43_values_refuted.
Theorem C43_values_keys_refuted : exists a c v, satisfies a c = true /\ fits a v /\ ~ fits c v.
Proof.
  exists (KObject []), (KObject [("x", KNullable KNumber)]), (TObj [("x", TBool true)]). split; [reflexivity|]. split.
  - eexists. split; [reflexivity|]. split; [discriminate|exact I].
  - intros [o [[= <-] [_ [[H|[d H]] _]]]]; discriminate.
Qed.
Print Assumptions C43_values_keys_refuted.

(** A document without null that has a type: the type inferred for it satisfies that type. *)
Theorem C43_document : forall j t c, wf_json j -> (forall p, jget p j <> Some JNull) -> distinct c -> means j t -> fits c t -> satisfies (infer j) c = true.
Proof. intros j t c W N C M F. eapply infer_sat; eauto. now apply distinct_wft. Qed.
Print Assumptions C43_document.
(** Not with null: a null field fits a nullable field, but its inferred type does not satisfy it. A missing field does. *)
Theorem C43_document_refuted : exists c, fits c (TObj [("x", TNull)]) /\ means (JObj [("x", JNull)]) (TObj [("x", TNull)]) /\ satisfies (infer (JObj [("x", JNull)])) c = false /\
  satisfies (infer (JObj [])) c = true.
Proof.
  exists (KObject [("x", KNullable KNumber)]). split; [|split; [|split; reflexivity]].
  - eexists. split; [reflexivity|]. split; [discriminate|]. split; [now left|exact I].
  - intros p. destruct p as [|[k|i] p]; cbn [jget tget].
    + eexists. split; [reflexivity|]. intros k. cbn. tauto.
    + cbn [aget]. destruct (String.eqb "x" k); [|exact I]. destruct p as [|[k1|i] p]; cbn; auto.
    + exact I.
Qed.
Print Assumptions C43_document_refuted.

(** A document that has a type without "any" (any key may be missing, none is added) is a value of the type inferred for it. *)
Theorem C43_infer : forall j t c, wf_json j -> distinct c -> proper c -> ~ occurs c (eq KAny) -> means j t -> loosely c t -> loosely (infer j) t.
Proof.
  intros j t c W D P N M F. apply strictly_loosely; [now apply wft_infer|]. apply (infer_under j W c t); auto. now apply distinct_wft.
Qed.
Print Assumptions C43_infer.
(** Otherwise not: the document [[1, "a"], [2]] is taken for an array of arrays of numbers. *)
Theorem C43_infer_refuted : exists j t, wf_json j /\ means j t /\ infer j = KArray (KArray KNumber) /\ ~ loosely (infer j) t.
Proof.
  exists (JArr [JArr [JNum (NInt 1); JStr "a"]; JArr [JNum (NInt 2)]]), (TArr [TArr [TNum (Dec 1 0); TStr "a"]; TArr [TNum (Dec 2 0)]]).
  split; [cbn; tauto|]. split; [|split; [reflexivity|]].
  - intros p. destruct p as [|[k|i] p]; cbn [jget tget]; [eexists; split; reflexivity|exact I|].
    destruct i as [|[|i]]; cbn [nth_error].
    + destruct p as [|[k|i] p]; cbn [jget tget]; [eexists; split; reflexivity|exact I|]. destruct i as [|[|i]]; cbn [nth_error].
      * destruct p as [|[k|i] p]; cbn [jget tget]; try exact I. exists (Dec 1 0). eexists. split; [reflexivity|]. split; [reflexivity|]. reflexivity.
      * destruct p as [|[k|i] p]; cbn [jget tget]; try exact I. reflexivity.
      * destruct i; exact I.
    + destruct p as [|[k|i] p]; cbn [jget tget]; [eexists; split; reflexivity|exact I|]. destruct i as [|i]; cbn [nth_error].
      * destruct p as [|[k|i] p]; cbn [jget tget]; try exact I. exists (Dec 2 0). eexists. split; [reflexivity|]. split; [reflexivity|]. reflexivity.
      * destruct i; exact I.
    + destruct i; exact I.
  - intros [l [E H]]. injection E as <-. destruct (H _ (or_introl eq_refl)) as [l1 [E1 H1]]. injection E1 as <-. destruct (H1 (TStr "a") (or_intror (or_introl eq_refl))) as [d Hd]. discriminate.
Qed.
Print Assumptions C43_infer_refuted.
Example C43_infer_case : infer (JArr [JObj [("a", JNum (NInt 1))]; JObj [("a", JNull); ("b", JArr [])]; JObj [("b", JArr [JStr "x"])]]) = KArray (KObject [("a", KNullable KNumber); ("b", KArray KString)]).
Proof. vm_compute. reflexivity. Qed.
Example C43_infer_case_type : loosely (KArray (KObject [("a", KNullable KNumber); ("b", KArray KString)]))
  (TArr [TObj [("a", TNum (Dec 1 0))]; TObj [("a", TNull); ("b", TArr [])]; TObj [("b", TArr [TStr "x"])]]).
Proof.
  eexists. split; [reflexivity|]. intros x [<- |[<- |[<- |[]]]]; eexists; (split; [reflexivity|]).
  - split; [intros _ k [<- |[]]; cbn; auto|]. cbn. repeat split; try discriminate. right. eauto.
  - split; [intros _ k [<- |[<- |[]]]; cbn; auto|]. cbn. split; [now left|]. split; [|exact I]. exists []. split; [reflexivity|intros x []].
  - split; [intros _ k [<- |[]]; cbn; auto|]. cbn. split; [discriminate|]. split; [|exact I]. exists [TStr "x"]. split; [reflexivity|]. intros x [<- |[]]. eauto.
Qed.

(** Widening literals to strings keeps all values; the widened type is satisfied. *)
Theorem C43_widen : forall T, distinct T -> satisfies T (widen T) = true /\ forall t, fits T t -> fits (widen T) t.
Proof. intros T D. split; [apply widen_sat; now apply distinct_wft|apply widen_fits]. Qed.
Print Assumptions C43_widen.
(** The type of a key fits the value at that key, null if missing, in every object of a type other than "any". *)
Theorem C43_key : forall T o k, distinct T -> bare T <> KAny -> fits T (TObj o) -> fits (type_get T k) match aget k o with Some x => x | None => TNull end.
Proof. intros T o k D B F. eapply get_fits; eauto. now apply distinct_wft. Qed.
Print Assumptions C43_key.
(** For "any" the type of every key is null. *)
Theorem C43_key_refuted : exists o k x, fits KAny (TObj o) /\ aget k o = Some x /\ ~ fits (type_get KAny k) x.
Proof. exists [("x", TBool true)], "x", (TBool true). split; [exact I|]. split; [reflexivity|]. cbn. discriminate. Qed.
Print Assumptions C43_key_refuted.
(** The type of elements fits every element. *)
Theorem C43_elements : forall T U l x, iterator T = Some U -> fits T (TArr l) -> In x l -> fits U x.
Proof. intros T U l x E F X. exact (iterator_fits T U l E F x X). Qed.
Print Assumptions C43_elements.
(** The elements of a type of ranges are the numbers. *)
Theorem C43_range : forall T U i x, iterator T = Some U -> fits T (TDyn (DInterval i)) -> (fits U x <-> exists d, x = TNum d).
Proof.
  induction T as [| | | | | | | | | | |] using vtype_ind; intros U i x E F; cbn in E; try discriminate.
  all: try (injection E as <-; cbn in F |- *; reflexivity).
  all: try (exfalso; destruct F as [l [F _]]; discriminate).
  destruct F as [F | F]; [discriminate |]. exact (IHT U i x E F).
Qed.
Print Assumptions C43_range.
Example C43_parts_case : type_get (KNullable (KObject [("x", KArray KNumber)])) "x" = KArray KNumber /\ iterator (KNullable (KArray KNumber)) = Some KNumber /\ widen (KNullable (KConst "a")) = KNullable KString.
Proof. repeat split. Qed.
