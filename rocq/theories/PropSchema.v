(** C81: the types of JSON schemas. *)
From Coq Require Import String Ascii ZArith Bool List Arith Lia.
From Verif Require Import Base Dec Value Json VarType TypeSpec TypeFacts ConvertSpec ConvertFacts Schema SchemaSpec SchemaFacts SchemaFacts2 SchemaFacts3 SchemaFacts4 SchemaFacts5.
Import ListNotations.
Local Open Scope string_scope.
Local Open Scope nat_scope.
Local Open Scope list_scope.

(** Every value that the schema allows is of the type of the schema. *)
Theorem C81_types : forall dicts (dict : string -> tree -> Prop) j t,
  (forall name t T, dict name t -> dicts name = Some T -> fits T t) ->
  wf_json j -> dateless j -> kinds_once j -> cases_apart (ty dicts) j ->
  valid dict j t -> fits (ty dicts j) t.
Proof. intros dicts dict j t Hd W D K C V. apply (ty_fits dicts dict Hd); [|exact V]. split; [exact W|]. split; [exact D|]. split; [exact K|exact C]. Qed.
Print Assumptions C81_types.

Definition order : json :=
  JObj [("type", JStr "object"); ("required", JArr [JStr "id"]);
        ("properties", JObj [("id", JObj [("anyOf", JArr [JObj [("type", JStr "string")]; JObj [("type", JStr "integer")]])]);
                             ("lines", JObj [("type", JStr "array"); ("items", JObj [("type", JStr "object"); ("properties", JObj [("state", JObj [("enum", JArr [JStr "new"; JStr "old"])])])])]);
                             ("currency", JObj [("$dictionary", JStr "currencies")])])].
Definition some_dicts (name : string) : option vtype := if String.eqb name "currencies" then Some (KEnum (Some "currencies") ["EUR"; "USD"]) else None.
Example order_type : ty some_dicts order =
  KObject [("id", KAny); ("lines", KNullable (KArray (KObject [("state", KNullable (KEnum None ["new"; "old"]))]))); ("currency", KNullable (KEnum (Some "currencies") ["EUR"; "USD"]))].
Proof. vm_compute. reflexivity. Qed.
Definition some_dict (name : string) (t : tree) : Prop := name = "currencies" /\ exists s, t = TStr s /\ In s ["EUR"; "USD"].
Definition an_order : tree := TObj [("id", TStr "a"); ("currency", TStr "USD")].
Ltac keys := cbn; intros; try discriminate; repeat match goal with H : Some _ = Some _ |- _ => injection H as <- end.
Example order_valid : valid some_dict order an_order.
Proof.
  unfold an_order. apply VObj; keys; try reflexivity.
  - match goal with H : TObj _ = TObj _ |- _ => injection H as <- end.
    destruct (String.eqb "id" k) eqn:E1; [|destruct (String.eqb "lines" k) eqn:E2; [|destruct (String.eqb "currency" k) eqn:E3]].
    + apply String.eqb_eq in E1. subst. cbn in *. keys. apply VObj; keys. exists (JObj [("type", JStr "string")]). split; [now left|]. apply VObj; keys. reflexivity.
    + apply String.eqb_eq in E2. subst. cbn in *. discriminate.
    + apply String.eqb_eq in E3. subst. cbn in *. keys. apply VObj; keys. exists "currencies". split; [reflexivity|]. split; [reflexivity|]. exists "USD". split; [reflexivity|]. right. now left.
    + cbn in *. rewrite E1, E2, E3 in *. discriminate.
  - match goal with H : TObj _ = TObj _ |- _ => injection H as <- end. match goal with H : In (JStr _) _ |- _ => destruct H as [H|[]]; injection H as <- end. now left.
Qed.
Example order_fits : fits (ty some_dicts order) an_order.
Proof. rewrite order_type. cbn. eexists. split; [reflexivity|]. split; [discriminate|]. split; [exact I|]. split; [intros _; now left|]. split; [|exact I]. right. exists "USD". split; [reflexivity|]. right. now left. Qed.

Ltac each I := repeat destruct I as [I|I]; try contradiction; subst; cbn in *; try discriminate.
Example order_good : wf_json order /\ dateless order /\ kinds_once order /\ cases_apart (ty some_dicts) order.
Proof.
  split; [|split; [|split]].
  - cbn. repeat split; repeat constructor; cbn; intuition discriminate.
  - intros m f I G. apply inside_objs in I. cbn in I. each I.
  - intros m l I G. apply inside_objs in I. cbn in I. each I.
  - intros m l i k a b key I K G N Ea Eb. apply inside_objs in I. cbn in I. destruct K as [-> | ->]; each I.
    injection G as <-. destruct i as [|[|[]]]; try discriminate; destruct k as [|[|[]]]; try discriminate; try lia; injection Ea as <-; injection Eb as <-.
    all: split; intros [[x X] _]; discriminate.
Qed.

(** For a strict schema the type says all that the schema asks. *)
Theorem C81_exact : forall dicts (dict : string -> tree -> Prop) b j,
  (forall name, exists T, dicts name = Some T) -> (forall name t, dict name t <-> exists T, dicts name = Some T /\ fits T t) -> (forall name, ~ dict name TNull) ->
  strict b j -> (forall t, valid dict j t <-> fits (ty dicts j) t) /\ (valid dict j TNull <-> b = true).
Proof. intros dicts dict b j Hs Hd Hn S. destruct (strict_exact dicts dict Hd Hs Hn b j S) as [E N]. split; [exact E|]. now rewrite E. Qed.
Print Assumptions C81_exact.
Definition person : json :=
  JObj [("type", JStr "object"); ("required", JArr [JStr "name"; JStr "tags"]);
        ("properties", JObj [("name", JObj [("type", JStr "string")]);
                             ("age", JObj [("type", JArr [JStr "number"; JStr "null"])]);
                             ("tags", JObj [("type", JStr "array"); ("items", JObj [("enum", JArr [JStr "a"; JStr "b"])])]);
                             ("country", JObj [("anyOf", JArr [JObj [("$dictionary", JStr "countries")]; JObj [("type", JStr "null")]])])])].
Example person_strict : strict false person.
Proof.
  eapply SObj; [repeat split|reflexivity|reflexivity| | | |].
  - repeat constructor; cbn; intuition discriminate.
  - cbn. intros l k E I. injection E as <-. cbn in I. destruct I as [I|[I|[]]]; injection I as <-; auto.
  - intros k s G O. apply aget_Some_in in G. cbn in G. destruct G as [G|[G|[G|[G|[]]]]]; injection G as <- <-.
    + exfalso. apply (O _ eq_refl). now left.
    + apply SLeaf with "number"; [repeat split|reflexivity|cbn; auto|reflexivity].
    + exfalso. apply (O _ eq_refl). right. now left.
    + apply SCase; [now left|]. apply SDict.
  - intros k s G O. apply aget_Some_in in G. cbn in G. destruct G as [G|[G|[G|[G|[]]]]]; injection G as <- <-.
    + apply SLeaf with "string"; [repeat split|reflexivity|cbn; auto|reflexivity].
    + exfalso. apply O. intros l E. injection E as <-. cbn. intuition discriminate.
    + eapply SArr; [repeat split|reflexivity|reflexivity|]. apply (SEnum ["a"; "b"]). discriminate.
    + exfalso. apply O. intros l E. injection E as <-. cbn. intuition discriminate.
Qed.

(** What is asked for in C81_types is needed: a date, and two cases that are objects. *)
Definition birthday : json := JObj [("type", JStr "string"); ("format", JStr "date")].
Theorem C81_date_refuted : exists j t, wf_json j /\ valid (fun _ _ => False) j t /\ ~ fits (ty (fun _ => None) j) t.
Proof.
  exists birthday, (TStr "2020-01-01"). split; [|split].
  - split; [|repeat split]. repeat constructor; cbn; intuition discriminate.
  - apply VObj; keys. reflexivity.
  - cbn. intros [d E]. discriminate.
Qed.
Print Assumptions C81_date_refuted.
Definition either : json :=
  JObj [("anyOf", JArr [JObj [("type", JStr "object"); ("required", JArr [JStr "a"]); ("properties", JObj [("a", JObj [("type", JStr "number")])])];
                        JObj [("type", JStr "object"); ("required", JArr [JStr "b"]); ("properties", JObj [("b", JObj [("type", JStr "number")])])]])].
Theorem C81_cases_refuted : exists j t, dateless j /\ kinds_once j /\ valid (fun _ _ => False) j t /\ ~ fits (ty (fun _ => None) j) t.
Proof.
  exists either, (TObj [("b", TNum (Dec 1 0))]). split; [|split; [|split]].
  - intros m f I G. apply inside_objs in I. cbn in I. each I.
  - intros m l I G. apply inside_objs in I. cbn in I. each I.
  - apply VObj; keys. eexists. split; [right; left; reflexivity|]. apply VObj; keys.
    + reflexivity.
    + match goal with H : TObj _ = TObj _ |- _ => injection H as <- end. destruct (String.eqb "b" k) eqn:E; [|cbn in *; rewrite E in *; discriminate]. apply String.eqb_eq in E. subst. cbn in *. keys. apply VObj; keys. now left.
    + match goal with H : TObj _ = TObj _ |- _ => injection H as <- end. match goal with H : In (JStr _) _ |- _ => destruct H as [H|[]]; injection H as <- end. now left.
  - vm_compute. intros (o & E & _ & H & _). injection E as <-. destruct (H eq_refl) as [d E]. discriminate.
Qed.
Print Assumptions C81_cases_refuted.

(** A reported place is a property that may be left out and whose schema refuses null, though the type of the property takes null. *)
Theorem C81_null : forall dicts (dict : string -> tree -> Prop) j q, (forall name, ~ dict name TNull) -> wf_json j -> In q (nullability_divergences j) ->
  exists q0 m p k s, under "" j q0 (JObj m) /\ q = dotted q0 k /\ aget "properties" m = Some (JObj p) /\ aget k p = Some s /\ optional m k /\ ~ valid dict s TNull /\
    (aget "$dictionary" m = None -> aget "anyOf" m = None -> aget "oneOf" m = None -> aget "enum" m = None -> aget "type" m = Some (JStr "object") ->
     exists fs T, ty dicts (JObj m) = KObject fs /\ aget k fs = Some T /\ fits T TNull).
Proof.
  intros dicts dict j q Hn W H. apply (div_spec j W) in H as (q0 & m & p & k & s & U & G & Ip & O & A & E).
  assert (Wm : wf_json (JObj m)).
  { clear - W U. remember (JObj m) as x eqn:E. clear E m. induction U as [|path m s q x G U IH|path m p k s q x G G1 U IH]; auto.
    - apply IH. apply wf_parts in W as [_ W]. apply aget_Some_in in G. eauto.
    - apply IH. apply wf_parts in W as [_ W]. apply aget_Some_in in G. apply W in G. apply wf_parts in G as [_ G]. apply aget_Some_in in G1. eauto. }
  apply wf_parts in Wm as [_ Wm]. pose proof (Wm _ _ (aget_Some_in _ _ _ G)) as Wp. apply wf_parts in Wp as [Np _].
  assert (Gs : aget k p = Some s) by (apply aget_in_nodup; assumption).
  exists q0, m, p, k, s. split; [exact U|]. split; [exact E|]. split; [exact G|]. split; [exact Gs|]. split; [exact O|]. split.
  - intros V. apply (null_admitted dict Hn) in V. congruence.
  - intros D A1 A2 En T. rewrite ty_obj. unfold get_str, enum_of, get_arr, case_key. rewrite D, A1, A2, En, T. unfold typed. cbn [String.eqb Ascii.eqb Bool.eqb].
    unfold props_of. rewrite G. eexists. exists (wrap_optional (ty dicts s)). split; [reflexivity|]. split; [|apply optional_fits; now right].
    apply aget_in_nodup.
    + unfold akeys. rewrite !map_map. exact Np.
    + apply in_map_iff. exists (k, ty dicts s). cbn [fst snd]. apply optional_iff in O. rewrite O. split; [reflexivity|]. apply in_map_iff. exists (k, s). auto.
Qed.
Print Assumptions C81_null.
(** A property that may be left out and only asks for a type, or for a value of a dictionary or of a list of strings, is reported. *)
Theorem C81_null_all : forall j q0 m p k n, wf_json j -> under "" j q0 (JObj m) -> aget "properties" m = Some (JObj p) -> aget k p = Some (JObj n) -> optional m k ->
  (exists d, aget "$dictionary" n = Some d) \/
  (aget "anyOf" n = None /\ aget "oneOf" n = None /\
   ((exists l, aget "enum" n = Some (JArr l) /\ ~ In JNull l) \/
    (aget "enum" n = None /\ exists kind, aget "type" n = Some (JStr kind) /\ kind <> "null") \/
    (aget "enum" n = None /\ exists kinds, aget "type" n = Some (JArr kinds) /\ ~ In (JStr "null") kinds))) ->
  In (dotted q0 k) (nullability_divergences j).
Proof.
  intros j q0 m p k n W U G Gk O H. apply (div_spec j W). exists q0, m, p, k, (JObj n). split; [exact U|]. split; [exact G|]. split; [now apply aget_Some_in|]. split; [exact O|]. split; [|reflexivity].
  cbn [admits_null]. destruct (aget "$dictionary" n) as [d|] eqn:D; [reflexivity|]. destruct H as [[d E]|(A1 & A2 & H)]; [discriminate|].
  unfold get_arr, case_key. rewrite A1, A2. destruct H as [(l & E & N)|[(E & kind & T & N)|(E & kinds & T & N)]]; rewrite E.
  - apply not_true_is_false. intros B. apply existsb_exists in B as (x & I & B). destruct x; try discriminate. exact (N I).
  - rewrite T. now apply String.eqb_neq.
  - rewrite T. apply not_true_is_false. intros B. apply existsb_exists in B as (x & I & B). apply String.eqb_eq in B. subst. apply N. now apply strs_in.
Qed.
Print Assumptions C81_null_all.
Example order_null : nullability_divergences order = ["lines"; "lines[].state"; "currency"].
Proof. vm_compute. reflexivity. Qed.
(** Not every property that refuses null is reported: with cases beside a type only the cases are looked at. *)
Definition half : json := JObj [("type", JStr "object"); ("properties", JObj [("a", JObj [("type", JStr "string"); ("anyOf", JArr [JObj []])])])].
Theorem C81_null_refuted : exists m p k s, wf_json (JObj m) /\ aget "properties" m = Some (JObj p) /\ aget k p = Some s /\ optional m k /\ (forall dict, ~ valid dict s TNull) /\ nullability_divergences (JObj m) = [].
Proof.
  do 3 eexists. exists (JObj [("type", JStr "string"); ("anyOf", JArr [JObj []])]). split; [|split; [|split; [|split; [|split]]]].
  - instantiate (1 := match half with JObj m => m | _ => [] end). cbn. split; [|repeat split]; repeat constructor; cbn; intuition discriminate.
  - reflexivity.
  - instantiate (1 := "a"). reflexivity.
  - intros l E. discriminate.
  - intros dict V. inversion V as [|m0 t0 Vd Va Vo Ve Vt Vl Vp Vr Vi]; subst. specialize (Vt _ eq_refl). discriminate.
  - reflexivity.
Qed.
Print Assumptions C81_null_refuted.

(** The reported enumerations are the lists of two or more strings, not at the root. *)
Theorem C81_enums : forall j, wf_json j -> forall q, In q (inline_enum_paths j) <->
  q <> "" /\ exists m l, under "" j q (JObj m) /\ aget "$dictionary" m = None /\ aget "enum" m = Some (JArr l) /\ 2 <= length l /\ forall x, In x l -> exists s, x = JStr s.
Proof. exact enum_spec. Qed.
Print Assumptions C81_enums.
Example order_enums : inline_enum_paths order = ["lines[].state"]. Proof. vm_compute. reflexivity. Qed.
(** The dictionaries that a schema asks for are the ones that are named in it. *)
Theorem C81_dictionaries : forall j, wf_json j -> forall n, In n (dictionary_names j) <-> exists m, inside j m /\ aget "$dictionary" m = Some (JStr n).
Proof. exact dict_spec. Qed.
Print Assumptions C81_dictionaries.
Example order_dictionaries : dictionary_names order = ["currencies"]. Proof. vm_compute. reflexivity. Qed.
(** The type depends on these dictionaries only. *)
Theorem C81_needs : forall d1 d2 j, (forall n, In n (dictionary_names j) -> d1 n = d2 n) -> ty d1 j = ty d2 j.
Proof. exact ty_needs. Qed.
Print Assumptions C81_needs.
Example order_without : ty (fun _ => None) order = KObject [("id", KAny); ("lines", KNullable (KArray (KObject [("state", KNullable (KEnum None ["new"; "old"]))]))); ("currency", KAny)].
Proof. vm_compute. reflexivity. Qed.
(** The type has no "nullable null" and no "nullable nullable", if the dictionaries have none. *)
Theorem C81_proper : forall dicts j, (forall name T, dicts name = Some T -> proper T) -> proper (ty dicts j).
Proof. intros dicts j H. exact (proj1 (ty_proper dicts H j)). Qed.
Print Assumptions C81_proper.
(** Each object type in it lists a key once, if the dictionaries do so. *)
Theorem C81_distinct : forall dicts j, (forall name T, dicts name = Some T -> distinct T) -> wf_json j -> distinct (ty dicts j).
Proof. intros dicts j H W. apply wft_distinct. apply (ty_wft dicts); [|exact W]. intros name T E. apply distinct_wft. eauto. Qed.
Print Assumptions C81_distinct.
Example person_type : ty some_dicts person = KObject [("name", KString); ("age", KNullable KNumber); ("tags", KArray (KEnum None ["a"; "b"])); ("country", KAny)].
Proof. vm_compute. reflexivity. Qed.
