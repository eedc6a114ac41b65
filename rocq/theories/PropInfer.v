(** C69: the type checker of the expression language is right about values. *)
From Coq Require Import String ZArith Bool List Arith.
From Verif Require Import Base Dec Value Heap Ast Ops Eval Funcs DateMethods Json VarType TypeSpec TypeFacts Infer InferSpec InferFits InferFacts ArgFacts.
Import ListNotations.
Local Open Scope string_scope.
Local Open Scope list_scope.

(** A value has the type that the checker gives to its expression. For every library, clock, type [T] of the input, expression without error and input of the type:
    the result has content, and the content is of the type. *)
Theorem C69_value : forall C L m n h b t h1 v, let T := KObject m in let X := std_ext (with_dates C L) in
  ContentFacts.plain_lib L -> distinct T -> repr h b t -> fits T t -> faultless (top T) n -> all_covered X (top T) n ->
  evaluate X n (scope_new b) h = (Ok v, h1) -> exists t1, repr h1 v t1 /\ fits (type_of (top T) n) t1.
Proof.
  intros C L m n h b t h1 v T X Pl Di R Fi Fl Cv E. destruct (base_object _ _ _ _ R Fi) as [l ->].
  destruct (result_tree C L n (VObj l) t h h1 v Pl (proj1 (covered_no_assign X n) _ Cv) R E) as [t1 R1]. exists t1. split; [exact R1|].
  assert (Cx : ctx l T h (top T) [] []) by (eapply start; eauto; reflexivity).
  destruct (proj1 (all_sound C L l T False True n) (top T) [] [] h Cx Fl Cv (fun f => False_ind _ f)) as [G _]. fold X in G. unfold evaluate in E.
  destruct (eval X (scope_new (VObj l)) [] [] n (scope_new (VObj l)) h) as [w e h2|e h2]; [|discriminate E]. injection E as -> ->. destruct G as [_ [_ G]]. apply (proj1 (hfits_repr _ _ _ _ R1) G).
Qed.
Print Assumptions C69_value.

(** Where no part is of unknown type, no operator, condition, callback or lookup meets a value of a wrong kind. *)
Theorem C69_no_confusion : forall C L m n h b t h1 e, let T := KObject m in let X := std_ext (with_dates C L) in
  distinct T -> repr h b t -> fits T t -> faultless (top T) n -> all_covered X (top T) n -> all_known (top T) n ->
  evaluate X n (scope_new b) h = (Err e, h1) -> excusable X True e.
Proof.
  intros C L m n h b t h1 e T X Di R Fi Fl Cv Kn E. destruct (base_object _ _ _ _ R Fi) as [l ->].
  assert (Cx : ctx l T h (top T) [] []) by (eapply start; eauto; reflexivity).
  destruct (proj1 (all_sound C L l T True True n) (top T) [] [] h Cx Fl Cv (fun _ => conj Kn (or_introl I))) as [G _]. fold X in G. unfold evaluate in E.
  destruct (eval X (scope_new (VObj l)) [] [] n (scope_new (VObj l)) h) as [w e2 h2|e2 h2]; [discriminate E|]. injection E as -> ->. exact (G I).
Qed.
Print Assumptions C69_no_confusion.

(** Where the functions called give a value for whatever they take, they are called with what they take: none of them fails. *)
Theorem C69_calls : forall C L m n h b t h1 e, let T := KObject m in let X := std_ext (with_dates C L) in
  distinct T -> repr h b t -> fits T t -> faultless (top T) n -> all_covered X (top T) n -> all_known (top T) n -> sure_calls (top T) n ->
  evaluate X n (scope_new b) h = (Err e, h1) -> excusable X False e.
Proof.
  intros C L m n h b t h1 e T X Di R Fi Fl Cv Kn Su E. destruct (base_object _ _ _ _ R Fi) as [l ->].
  assert (Cx : ctx l T h (top T) [] []) by (eapply start; eauto; reflexivity).
  destruct (proj1 (all_sound C L l T True False n) (top T) [] [] h Cx Fl Cv (fun _ => conj Kn (or_intror Su))) as [G _]. fold X in G. unfold evaluate in E.
  destruct (eval X (scope_new (VObj l)) [] [] n (scope_new (VObj l)) h) as [w e2 h2|e2 h2]; [discriminate E|]. injection E as -> ->. exact (G I).
Qed.
Print Assumptions C69_calls.

(** The arguments of an accepted call are of the number and the kinds that the function takes: for every function and all arguments of known types. *)
Theorem C69_arguments : forall f ts args, Forall2 fits ts args -> (forall t, In t ts -> told t) -> (forall tag, ~ In (LError, tag) (snd (check_call true (FInternal f) ts))) -> taken f args.
Proof. exact arguments_taken. Qed.
Print Assumptions C69_arguments.

(** A method of a date gives null or a value of its type, be the date valid or not. *)
Theorem C69_method : forall C k d ts args h v, method_def k = Some d -> (forall tag, ~ In (LError, tag) (snd (check_types d ts))) -> date_method C k args = Ok v ->
  exists t, repr h v t /\ (t = TNull \/ fits (fst (check_types d ts)) t).
Proof. exact method_fits. Qed.
Print Assumptions C69_method.

(** [in] and [not in] always have an answer, where they are accepted and the left side is a scalar or a date. *)
Theorem C69_in : forall h A B a b ta tb, repr h a ta -> repr h b tb -> fits A ta -> fits B tb -> A <> KAny -> B <> KAny -> scalar_type A \/ A = KDate ->
  (forall i, b = VDyn (DInterval i) -> rounded i) -> (forall tag, ~ In (LError, tag) (snd (check_binary true (OpCmp CIn) A B))) -> exists r, op_in h a b = Ok (VBool r).
Proof.
  intros h A B a b ta tb Ra Rb Fa Fb Na Nb Sc Ro Cl. apply (in_decided h A B a b); auto; [apply (proj2 (hfits_repr A h a ta Ra)); exact Fa|apply (proj2 (hfits_repr B h b tb Rb)); exact Fb].
Qed.
Print Assumptions C69_in.
Example C69_in_case : repr [] (VNum dec_one) (TNum dec_one) /\ fits KNumber (TNum dec_one) /\ scalar_type KNumber /\ (forall tag, ~ In (LError, tag) (snd (check_binary true (OpCmp CIn) KNumber KInterval))) /\
  rounded (Interval LSquare RParen (INum dec_zero) (INum dec_one)) /\ op_in [] (VNum dec_one) (VDyn (DInterval (Interval LSquare RParen (INum dec_zero) (INum dec_one)))) = Ok (VBool false) /\
  ~ (forall tag, ~ In (LError, tag) (snd (check_binary true (OpCmp CIn) KString KInterval))).
Proof.
  split; [constructor|]. split; [eexists; reflexivity|]. split; [exact I|]. split; [intros tag Q; vm_compute in Q; contradiction|]. split; [split; exact I|]. split; [vm_compute; reflexivity|].
  intros Q. apply (Q "operator"). vm_compute. now left.
Qed.

(** ** Cases and exceptions *)
Definition n_of (z : Z) : node := NNumber (dec_of_Z z).
Definition a_clock : clockwork := Clock (fun s => if String.eqb s "UTC" then Some utc else None) "UTC" 0 (fun _ => None) (fun _ => None) (fun _ _ => "").
Definition demo_x : ext := std_ext (with_dates a_clock demo_lib).
Ltac represents := repeat first [econstructor; [reflexivity|] | constructor; [split; [reflexivity|]|] | constructor].
Ltac is_faultless := intros tag Tag; vm_compute in Tag; repeat (destruct Tag as [Tag|Tag]; [discriminate Tag|]); contradiction.
Ltac is_distinct := intros p mm Pl; repeat (destruct p as [|[|?] p]; cbn in Pl; try discriminate Pl; try (injection Pl as <-; repeat constructor; cbn; intuition discriminate);
  repeat match type of Pl with context [if ?b then _ else _] => destruct b; cbn in Pl; try discriminate Pl end).
Ltac each_part := let p := fresh "p" in let H := fresh "H" in intros p H; cbn in H; repeat (destruct H as [<-|H]; [|]); try contradiction; cbn [fst snd].

(** [{total: sum(map(items, #.price * 2)), label: name ?? "none", dear: filter(items as i, i.price > limit)}] *)
Definition order_type : list (string * vtype) := [("items", KArray (KObject [("price", KNumber); ("name", KString)])); ("name", KNullable KString); ("limit", KNumber)].
Definition order : node := NObject
  [(NString "total", NCall (FInternal FSum) [NCall (FClosure ClMap) [NIdent "items"; NClosure (NBinary (NMember NPointer (NString "price")) (OpArith AMul) (n_of 2)) None]]);
   (NString "label", NBinary (NIdent "name") (OpLogic LNullish) (NString "none"));
   (NString "dear", NCall (FClosure ClFilter) [NIdent "items"; NClosure (NBinary (NMember (NIdent "i") (NString "price")) (OpCmp CGt) (NIdent "limit")) (Some "i")])].
Definition order_heap : heap :=
  [CObj [("price", VNum (dec_of_Z 5)); ("name", VStr "pen")]; CObj [("price", VNum (dec_of_Z 20)); ("name", VStr "ink")]; CArr [VObj 0; VObj 1]; CObj [("items", VArr 2); ("limit", VNum (dec_of_Z 10))]].
Definition order_tree : tree := TObj [("items", TArr [TObj [("price", TNum (dec_of_Z 5)); ("name", TStr "pen")]; TObj [("price", TNum (dec_of_Z 20)); ("name", TStr "ink")]]); ("limit", TNum (dec_of_Z 10))].
Example C69_case : distinct (KObject order_type) /\ repr order_heap (VObj 3) order_tree /\ fits (KObject order_type) order_tree /\ faultless (top (KObject order_type)) order /\
  all_covered demo_x (top (KObject order_type)) order /\ all_known (top (KObject order_type)) order /\
  type_of (top (KObject order_type)) order = KObject [("total", KNumber); ("label", KString); ("dear", KArray (KObject [("price", KNumber); ("name", KString)]))] /\
  exists v h1 t1, evaluate demo_x order (scope_new (VObj 3)) order_heap = (Ok v, h1) /\ repr h1 v t1 /\
    t1 = TObj [("dear", TArr [TObj [("price", TNum (dec_of_Z 20)); ("name", TStr "ink")]]); ("label", TStr "none"); ("total", TNum (dec_of_Z 50))].
Proof.
  split; [is_distinct|]. split; [represents|]. split.
  { eexists. split; [reflexivity|]. split; [discriminate|]. cbn. repeat split; eauto. eexists. split; [reflexivity|]. intros x [<-|[<-|[]]]; cbn; repeat split; eauto; (eexists; split; [reflexivity|]); (split; [discriminate|]); cbn; eauto. }
  split; [is_faultless|]. split.
  { repeat (apply cover_step; [cbn [covered]; try exact I|each_part]).
    - exists ["total"; "label"; "dear"]. split; [reflexivity|]. repeat constructor; cbn; intuition discriminate.
    - do 3 eexists. split; [reflexivity|exact I].
    - intros t Q. vm_compute in Q. injection Q as <-. intros p x y Px Py. destruct p as [|[]]; cbn in Px, Py; [|discriminate Px|discriminate Px]. injection Px as <-. exact I.
    - do 3 eexists. split; [reflexivity|]. vm_compute. discriminate. }
  split; [repeat (apply known_step; [vm_compute; discriminate|each_part])|]. split; [vm_compute; reflexivity|]. do 3 eexists. split; [vm_compute; reflexivity|]. split; [|reflexivity]. vm_compute. represents.
Qed.

(** [upper(name ?? "none")] is accepted and cannot fail; [upper(name)] is not accepted, because the name may be null. *)
Definition loud : node := NCall (FInternal FUpper) [NBinary (NIdent "name") (OpLogic LNullish) (NString "none")].
Example C69_calls_case : faultless (top (KObject order_type)) loud /\ all_covered demo_x (top (KObject order_type)) loud /\ all_known (top (KObject order_type)) loud /\ sure_calls (top (KObject order_type)) loud /\
  fst (evaluate demo_x loud (scope_new (VObj 3)) order_heap) = Ok (VStr "NONE") /\ ~ faultless (top (KObject order_type)) (NCall (FInternal FUpper) [NIdent "name"]).
Proof.
  split; [is_faultless|]. split.
  { repeat (apply cover_step; [cbn [covered telling]; try exact I|each_part]).
    intros t Q. vm_compute in Q. injection Q as <-. intros p x y Px Py. destruct p as [|[]]; cbn in Px, Py; [|discriminate Px|discriminate Px]. injection Px as <-. exact I. }
  split; [repeat (apply known_step; [vm_compute; discriminate|each_part])|]. split.
  { intros sc1 n1 W. inversion W as [|? ? sc2 n2 ? ? I1 W1]; subst; [split; [cbn; auto|discriminate]|]. destruct I1 as [I1|[]]. injection I1 as <- <-.
    inversion W1 as [|? ? sc2 n2 ? ? I2 W2]; subst; [exact I|]. destruct I2 as [I2|[I2|[]]]; injection I2 as <- <-; inversion W2 as [|? ? sc2 n2 ? ? I3 W3]; subst; try exact I; destruct I3. }
  split; [vm_compute; reflexivity|]. intros Q. apply (Q "argument"). vm_compute. now left.
Qed.
(** [sum] of numbers is accepted, of texts it is not; nor are two arguments. *)
Example C69_arguments_case : let ok ts := forall tag, ~ In (LError, tag) (snd (check_call true (FInternal FSum) ts)) in
  ok [KArray KNumber] /\ told (KArray KNumber) /\ fits (KArray KNumber) (TArr [TNum dec_one]) /\ taken FSum [TArr [TNum dec_one]] /\
  ~ ok [KArray KString] /\ ~ ok [KArray KNumber; KNumber] /\ ~ taken FSum [TArr [TStr "a"]].
Proof.
  cbv zeta. split; [intros tag Q; vm_compute in Q; contradiction|]. split; [split; [discriminate|intros e E; injection E as <-; discriminate]|].
  assert (L : list_of is_number (TArr [TNum dec_one])) by (eexists; split; [reflexivity|]; intros x [<-|[]]; eexists; reflexivity).
  split; [exact L|]. split; [eexists; split; [left; reflexivity|]; constructor; [exact L|constructor]|].
  split; [intros Q; apply (Q "argument"); vm_compute; now left|]. split; [intros Q; apply (Q "count"); vm_compute; now left|].
  intros [ps [[<-|[]] F]]. inversion F as [|? ? ? ? Fl _]; subst. destruct Fl as [l [E H]]. injection E as <-. destruct (H _ (or_introl eq_refl)) as [d Q]. discriminate Q.
Qed.
(** The name of the offset of a valid date is text, that of an invalid one is null. *)
Example C69_method_case : method_def "offsetName" = Some (Static ([KDate], KString)) /\
  fst (evaluate demo_x (NMethod "offsetName" (NCall (FInternal FDate) [n_of 0]) []) (scope_new (VObj 0)) [CObj []]) = Ok (VStr "UTC") /\
  fst (evaluate demo_x (NMethod "offsetName" (NCall (FInternal FDate) [NString "no date"]) []) (scope_new (VObj 0)) [CObj []]) = Ok VNull.
Proof. repeat split; vm_compute; reflexivity. Qed.

(** An expression without error whose value, on some input of the type, is not of the type given. *)
Definition slip (T : vtype) (n : node) : Prop :=
  faultless (top T) n /\ exists h b t v h1 t1, distinct T /\ repr h b t /\ fits T t /\ evaluate demo_x n (scope_new b) h = (Ok v, h1) /\ repr h1 v t1 /\ ~ fits (type_of (top T) n) t1.
Fixpoint content (fuel : nat) (h : heap) (v : value) : tree :=
  match fuel with
  | O => TNull
  | S f =>
      match v with
      | VNull => TNull | VBool b => TBool b | VNum d => TNum d | VStr s => TStr s | VDyn d => TDyn d
      | VArr l => TArr (map (content f h) match harr h l with Some a => a | None => [] end)
      | VObj l => TObj (map (fun kv => (fst kv, content f h (snd kv))) match hobj h l with Some m => m | None => [] end)
      end
  end.
Ltac fit := cbn; first [exact I | reflexivity | discriminate | left; reflexivity | eexists; reflexivity | eexists; split; [reflexivity|fit] | split; [fit|fit]
  | let x := fresh "x" in let H := fresh "H" in intros x H; cbn in H; repeat (destruct H as [<-|H]; [fit|]); contradiction | right; fit].
Ltac slips hp root :=
  match goal with |- slip ?T ?n =>
    let r := eval vm_compute in (evaluate demo_x n (scope_new root) hp) in
    match r with (Ok ?v, ?h1) =>
      let t := eval vm_compute in (content 9 hp root) in let t1 := eval vm_compute in (content 9 h1 v) in
      split; [is_faultless|]; exists hp, root, t, v, h1, t1; split; [is_distinct|split; [represents|split; [fit|
        split; [vm_compute; reflexivity|split; [represents|vm_compute; intros Q]]]]]
    end
  end.
Definition empty : vtype := KObject [].
Definition nothing : heap := [CObj []].
Definition x_is (v : value) : heap := [CObj [("x", v)]].
(** [1 / 0] is null, and of type number. *)
Theorem C69_division_refuted : slip empty (NBinary (n_of 1) (OpArith ADiv) (n_of 0)).
Proof. slips nothing (VObj 0). destruct Q as [? Q]. discriminate Q. Qed.
Print Assumptions C69_division_refuted.
(** [true and x] is of type boolean, and is whatever [x] is; [+x] is of type number. *)
Theorem C69_unknown_refuted : slip empty (NBinary (NBool true) (OpLogic LAnd) (NIdent "x")) /\ slip empty (NUnary (NIdent "x") (OpArith AAdd)).
Proof. split; [slips (x_is (VNum dec_one)) (VObj 0)|slips (x_is (VStr "a")) (VObj 0)]; destruct Q as [? Q]; discriminate Q. Qed.
Print Assumptions C69_unknown_refuted.
(** [filter] of an interval is an array, and of type interval. *)
Theorem C69_filter_refuted : slip empty (NCall (FClosure ClFilter) [NInterval (n_of 1) (n_of 3) LSquare RSquare; NClosure (NBinary NPointer (OpCmp CGt) (n_of 1)) None]).
Proof. slips nothing (VObj 0). destruct Q as [? Q]. discriminate Q. Qed.
Print Assumptions C69_filter_refuted.
(** [flatMap] and [flatten] leave intervals and nulls alone, and their types do not. *)
Theorem C69_flatten_refuted : slip empty (NCall (FClosure ClFlatMap) [NArray [n_of 1]; NClosure (NInterval (n_of 1) (n_of 2) LSquare RSquare) None]) /\
  slip empty (NCall (FInternal FFlatten) [NArray [NInterval (n_of 1) (n_of 2) LSquare RSquare]]) /\
  slip (KObject [("x", KArray (KNullable (KArray KNumber)))]) (NCall (FClosure ClFlatMap) [NIdent "x"; NClosure NPointer None]).
Proof.
  split; [|split]; [slips nothing (VObj 0)|slips nothing (VObj 0)|slips [CArr [VNull]; CObj [("x", VArr 0)]] (VObj 1)].
  all: destruct Q as [l [Q H]]; injection Q as <-; destruct (H _ (or_introl eq_refl)) as [? Z]; discriminate Z.
Qed.
Print Assumptions C69_flatten_refuted.
(** The types of elements and branches are merged: an object type has the keys of both, an array of unknown elements gives way to an array of known ones. *)
Theorem C69_merge_refuted : slip empty (NArray [NObject [(NString "a", n_of 1)]; NObject [(NString "b", n_of 2)]]) /\
  slip empty (NCond (NBool true) (NObject [(NString "a", n_of 1)]) (NObject [(NString "b", n_of 2)])) /\
  slip empty (NArray [NArray [NIdent "x"]; NArray [n_of 1]]).
Proof.
  split; [|split]; [slips nothing (VObj 0)|slips nothing (VObj 0)|slips (x_is (VStr "a")) (VObj 0)].
  - destruct Q as [l [Q H]]. injection Q as <-. destruct (H _ (or_introl eq_refl)) as [o [Z [_ G]]]. injection Z as <-. destruct G as [_ [G _]]. destruct (G eq_refl) as [? G1]. discriminate G1.
  - destruct Q as [o [Z [_ G]]]. injection Z as <-. destruct G as [_ [G _]]. destruct (G eq_refl) as [? G1]. discriminate G1.
  - destruct Q as [l [Q H]]. injection Q as <-. destruct (H _ (or_introl eq_refl)) as [o [Z G]]. injection Z as <-. destruct (G _ (or_introl eq_refl)) as [? G1]. discriminate G1.
Qed.
Print Assumptions C69_merge_refuted.
(** Of a repeated key the first value counts, and the last type; a computed key has no type. *)
Theorem C69_key_refuted : slip empty (NObject [(NString "a", n_of 1); (NString "a", NString "s")]) /\
  slip empty (NObject [(NIdent "x", NString "s"); (NString "a", n_of 1)]).
Proof.
  split; [slips nothing (VObj 0)|slips (x_is (VStr "a")) (VObj 0)].
  - destruct Q as [o [Z [_ [G _]]]]. injection Z as <-. discriminate G.
  - destruct Q as [o [Z [_ [G _]]]]. injection Z as <-. destruct G as [? G]. discriminate G.
Qed.
Print Assumptions C69_key_refuted.
(** The year of an invalid date is null, and of type number. *)
Theorem C69_date_refuted : slip empty (NMethod "year" (NCall (FInternal FDate) [NString "no date"]) []).
Proof. slips nothing (VObj 0). destruct Q as [? Q]. discriminate Q. Qed.
Print Assumptions C69_date_refuted.
(** [merge] of no objects is not of their type; [values] lists keys that are not in the type; [keys] of an array are numbers. *)
Theorem C69_function_refuted : slip (KObject [("x", KArray (KObject [("a", KNumber)]))]) (NCall (FInternal FMerge) [NIdent "x"]) /\
  slip (KObject [("x", KObject [("a", KNumber)])]) (NCall (FInternal FValues) [NIdent "x"]) /\ slip empty (NCall (FInternal FKeys) [NIdent "x"]).
Proof.
  split; [|split].
  - slips [CArr []; CObj [("x", VArr 0)]] (VObj 1). destruct Q as [o [Z [_ [G _]]]]. injection Z as <-. destruct (G eq_refl) as [? G1]. discriminate G1.
  - slips [CObj [("a", VNum dec_one); ("b", VStr "s")]; CObj [("x", VObj 0)]] (VObj 1).
    destruct Q as [l [Z H]]. injection Z as <-. destruct (H _ (or_intror (or_introl eq_refl))) as [? G]. discriminate G.
  - slips [CArr [VNull]; CObj [("x", VArr 0)]] (VObj 1). destruct Q as [l [Z H]]. injection Z as <-. destruct (H _ (or_introl eq_refl)) as [? G]. discriminate G.
Qed.
Print Assumptions C69_function_refuted.
(** Where nothing is known of the input, a name is of type null. *)
Theorem C69_root_refuted : slip KAny (NIdent "x").
Proof. slips (x_is (VNum dec_one)) (VObj 0). discriminate Q. Qed.
Print Assumptions C69_root_refuted.

(** An expression without error that fails. With parts of unknown type, anything can meet anything. With known types, [in] fails on objects, and [min] on text that is no date. *)
Definition fails (h : heap) (n : node) (e : err) : Prop := faultless (top empty) n /\ fst (evaluate demo_x n (scope_new (VObj 0)) h) = Err e.
Theorem C69_fail_refuted : fails (x_is (VNum dec_one)) (NCond (NIdent "x") (n_of 1) (n_of 2)) (EOp "JumpIfFalse") /\ ~ excusable demo_x True (EOp "JumpIfFalse") /\
  (fails nothing (NBinary (NObject []) (OpCmp CIn) (NArray [NObject []])) (EOp "In") /\ all_known (top empty) (NBinary (NObject []) (OpCmp CIn) (NArray [NObject []]))) /\
  fails nothing (NCall (FInternal FMin) [NArray [NString "a"]]) (EOp "CallFunction") /\ all_known (top empty) (NCall (FInternal FMin) [NArray [NString "a"]]).
Proof.
  split; [split; [is_faultless|vm_compute; reflexivity]|]. split.
  { intros [[w Q]|[s [Q [H|[[a [b H]]|[Z _]]]]]]; [discriminate Q| | |subst s; discriminate Q]; injection Q as <-; [|destruct H as [[Q _]|[[Q _]|[[Q _]|[Q _]]]]; discriminate Q]. repeat (destruct H as [H|H]; [discriminate H|]). contradiction. }
  split; [split; [split; [is_faultless|vm_compute; reflexivity]|]|split; [split; [is_faultless|vm_compute; reflexivity]|]]; repeat (apply known_step; [vm_compute; discriminate|each_part]).
Qed.
Print Assumptions C69_fail_refuted.
(** A second argument is not checked if the function can be called with one: [round(1, "a")] is without error and fails. *)
Theorem C69_optional_refuted : let n := NCall (FInternal FRound) [n_of 1; NString "a"] in
  fails nothing n (EOp "CallFunction") /\ all_known (top empty) n /\ all_covered demo_x (top empty) n.
Proof.
  split; [split; [is_faultless|vm_compute; reflexivity]|]. split; [repeat (apply known_step; [vm_compute; discriminate|each_part])|repeat (apply cover_step; [cbn [covered telling]; try exact I|each_part])].
Qed.
Print Assumptions C69_optional_refuted.
(** Texts are taken for dates: [["a".."b"]] is without error and fails. *)
Theorem C69_bounds_refuted : let n := NInterval (NString "a") (NString "b") LSquare RSquare in fails nothing n (EOp "Interval") /\ all_known (top empty) n /\ all_covered demo_x (top empty) n.
Proof.
  split; [split; [is_faultless|vm_compute; reflexivity]|]. split; [repeat (apply known_step; [vm_compute; discriminate|each_part])|repeat (apply cover_step; [cbn [covered telling]; try exact I|each_part])].
Qed.
Print Assumptions C69_bounds_refuted.
