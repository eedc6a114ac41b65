(** C61: the check of a policy's input against its data models. C62: references by id. *)
From Coq Require Import String ZArith Bool List Arith Lia.
From Verif Require Import Base Dec Value Heap DotFacts Validate ValidateSpec ValidateFacts HydrateSpec HydrateFacts.
Import ListNotations.
Local Open Scope string_scope.
Local Open Scope list_scope.
Local Open Scope nat_scope.

(** C61. The paths reported are exactly those of the places that are not what the models say they must be. *)
Theorem C61_errors : forall S h input path, input = VNull \/ (exists l, input = VObj l) ->
  ((exists e, In e (validate S h input) /\ e_path e = path) <-> exists w v d, due S h input path w v d /\ wrong S h input w v d).
Proof.
  intros S h input path Hi. split.
  - intros [e [He Hp]]. apply sound_top in He. destruct He as [[w [v [d [H1 [H2 _]]]]] | [_ [_ [H1 H2]]]].
    + exists w, v, d. rewrite <- Hp. auto.
    + exfalso. destruct Hi as [Hi | [l Hi]]; [exact (H1 Hi) | exact (H2 l Hi)].
  - intros [w [v [d [Hd Hw]]]]. destruct (reported S h input path w v d Hd) as [Hle Hinc]. destruct (wrong_err S h input w path v d Hw Hle) as [e [He [Hp _]]]. exists e. auto.
Qed.
Print Assumptions C61_errors.
(** C61. Each error names what was found at its path: the name of its type, or its text in quotes. *)
Theorem C61_got : forall S h input e, In e (validate S h input) ->
  (exists w v d, due S h input (e_path e) w v d /\ wrong S h input w v d /\ names_value (e_got e) w v d) \/
  (e_path e = "" /\ e_got e = type_name input /\ input <> VNull /\ forall l, input <> VObj l).
Proof. intros S h input e He. apply sound_top in He. exact He. Qed.
Print Assumptions C61_got.
(** C61. An input is accepted when it is null or an object with nothing wrong in it. *)
Theorem C61_valid : forall S h input, validate S h input = [] <->
  (input = VNull \/ exists l, input = VObj l) /\ forall path w v d, due S h input path w v d -> ~ wrong S h input w v d.
Proof.
  intros S h input. split.
  - intro H. assert (Hi : input = VNull \/ exists l, input = VObj l) by (destruct input; try discriminate; eauto). split; [exact Hi |].
    intros path w v d Hd Hw. destruct (proj2 (C61_errors S h input path Hi)) as [e [He _]]; [eauto 6 |]. rewrite H in He. exact He.
  - intros [Hi H]. destruct (validate S h input) as [| e r] eqn:E; [reflexivity |]. exfalso.
    destruct (proj1 (C61_errors S h input (e_path e) Hi)) as [w [v [d [Hd Hw]]]]; [exists e; rewrite E; split; [left |]; reflexivity |]. exact (H _ _ _ _ Hd Hw).
Qed.
Print Assumptions C61_valid.
(** C61. "An accepted input has every property that is not optional, and its dates are dates" does not hold: the empty object is always accepted, and any text will do for a date. *)
Theorem C61_complete_refuted : (forall S h l, hobj h l = Some [] -> validate S h (VObj l) = []) /\
  exists S h input, validate S h input = [] /\ exists v, due S h input "Order.placed" (WKind PDate) v 1 /\ v = VStr "not a date".
Proof.
  split.
  - intros S h l H. unfold validate. rewrite H. reflexivity.
  - exists (Schema [("Order", [Property "placed" PDate false false])] [] [] [Model "Order" false [Property "placed" PDate false false]]),
      [CObj [("placed", VStr "not a date")]; CObj [("Order", VObj 0)]], (VObj 1). split; [reflexivity |]. eexists. split; [| reflexivity].
    apply (DueField _ _ _ "Order" "Order" 0 [("placed", VStr "not a date")] [Property "placed" PDate false false] (Property "placed" PDate false false) (VStr "not a date") 0); try reflexivity; try (left; reflexivity); try discriminate; try lia.
    + apply (DueRoot _ _ _ 1 [("Order", VObj 0)]); try reflexivity; try (left; reflexivity); try discriminate.
      split; [eexists; split; [left; reflexivity |]; split; reflexivity |]. intros [mo [p [[<- | []] [[<- | []] [H | H]]]]]; discriminate.
    + exists [], []. split; [reflexivity |]. split; [reflexivity | intros q []].
Qed.
Print Assumptions C61_complete_refuted.

(** Orders with a customer by id, lines, a state out of a dictionary; customers are looked up in a list. *)
Definition cust : list property := [Property "id" PString false false; Property "vip" PBoolean false true].
Definition line : list property := [Property "qty" PNumber false false; Property "tags" (PEnum ["a"; "b"]) true true].
Definition order : list property := [Property "customer" (PReference "Customer") false false; Property "lines" (PRelation "Line") true false; Property "state" (PRelation "State") false false].
Definition glob : list property := [Property "today" PDate false false].
Definition shop_models : list model := [Model "Customer" false cust; Model "Line" false line; Model "Order" false order; Model "Global" true glob].
Definition shop : schema := Schema [("Customer", cust); ("Line", line); ("Order", order)] [("today", Property "today" PDate false false)] [("State", ["open"; "closed"])] shop_models.
Definition shop_heap (customer state : value) : heap :=
  [CObj [("id", VStr "c1"); ("vip", VBool true)]; CArr [VObj 0]; CArr [VStr "a"; VNum (Dec 1%Z 0); VNull]; CObj [("qty", VStr "three"); ("tags", VArr 2); ("note", VBool true)];
   CArr [VObj 3]; CObj [("customer", customer); ("lines", VArr 4); ("state", state)]; CObj [("Customer", VArr 1); ("Order", VObj 5); ("today", VNull); ("extra", VNum (Dec 1%Z 0))]].
Example C61_example :
  map (fun e => (e_path e, e_got e)) (validate shop (shop_heap (VStr "c2") (VStr "lost")) (VObj 6)) =
    [("Order.customer", "'c2' (not found)"); ("Order.lines[0].qty", "string"); ("Order.lines[0].tags[1]", "number"); ("Order.state", "'lost'")] /\
  validate shop [CObj [("id", VStr "c1"); ("vip", VBool true)]; CArr [VObj 0]; CObj [("customer", VStr "c1"); ("state", VStr "open")]; CObj [("Customer", VArr 1); ("Order", VObj 2); ("today", VStr "2024-01-01")]] (VObj 3) = [].
Proof. vm_compute. split; reflexivity. Qed.
(** An entity that contains itself is reported at the 32nd level. *)
Example C61_deep : exists p, map e_path (validate (Schema [("N", [Property "n" (PRelation "N") false true]); ("R", [Property "n" (PRelation "N") false true])] [] []
    [Model "N" false [Property "n" (PRelation "N") false true]; Model "R" false [Property "n" (PRelation "N") false true]]) [CObj [("n", VObj 0)]; CObj [("R", VObj 0)]] (VObj 1)) = [p] /\ String.length p = 65.
Proof. eexists. split; vm_compute; reflexivity. Qed.

(** C62. Evaluation starts by replacing ids by the items they stand for and changes nothing else: a value that is not an id of a declared list stays, in the store and in the caller's data. *)
Theorem C62_only : forall models h l m h0 h' store, plain_names models -> wf_heap h -> hget h l = Some (CObj m) ->
  depth_clone1 h (VObj l) = (h0, store) -> open_store models h (VObj l) = (h', store) ->
  forall s, slot_get h' s = slot_get h0 s \/
    exists id o path t many, slot_get h0 s = Some (VStr id) /\ slot_get h' s = Some o /\ ref_declared models path t many /\ stands_for h (VObj l) t id o.
Proof.
  intros models h l m h0 h' store Hp Hw Hm Hc Ho s. rewrite (clone_eq h l m Hm) in Hc. inversion Hc; subst h0 store. rewrite (open_eq models h l m Hm) in Ho. inversion Ho as [Hh]. clear Ho.
  destruct (hydrate_grown _ (spools_obj models h m) (VObj (length h)) (reference_fields models) (h ++ [CObj m]) s) as [E | [id [o [E1 [E2 Hi]]]]]; [left; exact E | right].
  apply (item_stands models h l m Hw Hm) in Hi. destruct Hi as [f [Hf Hs]]. exists id, o, (split_dot (f_path f)), (f_target f), (f_array f). split; [exact E1 |]. split; [exact E2 |]. split; [apply field_iff; assumption | exact Hs].
Qed.
Print Assumptions C62_only.
(** C62. No id that stands for an item is left at a declared field of the input or of an entity of the input. *)
Theorem C62_resolved : forall models h l m h' store path t many, plain_names models -> apart models -> wf_heap h -> hget h l = Some (CObj m) -> open_store models h (VObj l) = (h', store) ->
  ref_declared models path t many ->
  if many then forall la a id, dot_parts h' store path = Some (VArr la) -> harr h' la = Some a -> In (VStr id) a -> ~ exists o, stands_for h (VObj l) t id o
  else forall id, dot_parts h' store path = Some (VStr id) -> ~ exists o, stands_for h (VObj l) t id o.
Proof.
  intros models h l m h' store path t many Hp Hap Hw Hm Ho Hd. rewrite (open_eq models h l m Hm) in Ho. inversion Ho as [[Hh Hst]]. clear Ho.
  destruct (field_ex models path t many Hp Hd) as [f [Hf [Hpath [Ht Hmany]]]].
  assert (shape : forall f, In f (reference_fields models) -> (exists p, split_dot (f_path f) = [p]) \/ exists e p, split_dot (f_path f) = [e; p]).
  { intros g Hg. apply (field_iff models g Hp) in Hg. destruct Hg as [mo [p [_ [_ [_ [_ Hs]]]]]]. rewrite Hs. destruct (m_global mo); [left; eauto | right; eauto]. }
  assert (fapart : forall f g e p, In f (reference_fields models) -> In g (reference_fields models) -> split_dot (f_path f) = [e] -> split_dot (f_path g) <> [e; p]).
  { intros g1 g2 e p H1 H2 E1 E2. apply (field_iff models _ Hp) in H1, H2. rewrite E1 in H1. rewrite E2 in H2. exact (Hap _ _ _ _ _ _ H1 H2). }
  assert (Hno : forall id, aget id (pool (h ++ [CObj m]) (VObj (length h)) t) = None -> ~ exists o, stands_for h (VObj l) t id o).
  { intros id Hn [o Hso]. apply (store_stands h l m Hw Hm) in Hso. apply stands_iff in Hso. congruence. }
  assert (Hps := spools_field models h m f Hf).
  destruct many.
  - intros la a id Hdp Ha Hin. apply Hno. apply In_nth_error in Hin. destruct Hin as [i Hi]. rewrite <- Ht. rewrite <- Hpath in Hdp.
    apply (resolved_many (spools models h m) (spools_obj models h m) (length h) (items_away models h l m Hw Hm) (reference_fields models) shape fapart f _ la i id Hf Hmany Hps (reference_fields models) (incl_refl _) Hf (h ++ [CObj m]) (store_away h l m Hw Hm)).
    + exact Hdp.
    + cbn [slot_get]. rewrite Ha. exact Hi.
  - intros id Hdp. apply Hno. rewrite <- Ht. rewrite <- Hpath in Hdp.
    apply (resolved_one (spools models h m) (spools_obj models h m) (length h) (items_away models h l m Hw Hm) (reference_fields models) shape fapart f _ id Hf Hmany Hps (reference_fields models) (incl_refl _) Hf (h ++ [CObj m]) (store_away h l m Hw Hm)).
    exact Hdp.
Qed.
Print Assumptions C62_resolved.
(** C62. "Evaluation does not change its input" does not hold: an input with a reference in an entity passes its check, and the same input fails it after an evaluation has begun. *)
Theorem C62_again_refuted : forall S h l m e le me props p t id, plain_names (s_models S) -> apart (s_models S) -> wf_heap h -> hget h l = Some (CObj m) -> validate S h (VObj l) = [] ->
  root_entity S e -> aget e (s_entities S) = Some props -> has_prop props (p_name p) p -> p_kind p = PReference t -> p_array p = false -> ref_declared (s_models S) [e; p_name p] t false ->
  aget e m = Some (VObj le) -> hget h le = Some (CObj me) -> aget (p_name p) me = Some (VStr id) ->
  exists err, In err (validate S (fst (open_store (s_models S) h (VObj l))) (VObj l)) /\ e_path err = (e ++ "." ++ p_name p)%string.
Proof.
  intros S h l m e le me props p t id Hp Hap Hw Hm Hv Hr He Hhas Hk Harr Hd Hem Hle Hpm.
  assert (Hdue : due S h (VObj l) (e ++ "." ++ p_name p)%string (WKind (PReference t)) (VStr id) 1).
  { assert (Hx := DueField S h (VObj l) e e le me props p (VStr id) 0). unfold prop_want in Hx. rewrite Harr, Hk in Hx. apply Hx; auto; try lia; try discriminate.
    - apply (DueRoot S h (VObj l) l m); auto; [apply hobj_hget, Hm | apply aget_Some_in, Hem | discriminate].
    - apply hobj_hget, Hle.
    - apply aget_Some_in, Hpm. }
  assert (Hnw := proj2 (proj1 (C61_valid S h (VObj l)) Hv) _ _ _ _ Hdue). cbn [wrong] in Hnw.
  assert (Hst : exists o, stands_for h (VObj l) t id o).
  { destruct (aget id (pool h (VObj l) t)) as [o |] eqn:Eo; [exists o; apply stands_iff, Eo |]. exfalso. apply Hnw. intros [id' [Hi [_ Hpo]]]. inversion Hi; subst id'. apply pool_iff in Hpo. congruence. }
  destruct (open_store (s_models S) h (VObj l)) as [h' store] eqn:Eo. cbn [fst].
  assert (Estore : store = VObj (length h)) by (rewrite (open_eq (s_models S) h l m Hm) in Eo; congruence).
  assert (Hon := C62_only (s_models S) h l m (h ++ [CObj m]) h' store Hp Hw Hm ltac:(rewrite (clone_eq h l m Hm), Estore; reflexivity) Eo).
  assert (Hres := C62_resolved (s_models S) h l m h' store [e; p_name p] t false Hp Hap Hw Hm Eo Hd). cbn iota in Hres. subst store.
  assert (Hkeep : forall s v, slot_get h s = Some v -> (forall x, v <> VStr x) -> slot_get h' s = Some v).
  { intros s v Hs Hnv. assert (H0 : slot_get (h ++ [CObj m]) s = Some v).
    { rewrite (slot_h0 h m). destruct s as [a k | a i]; [| exact Hs]. destruct (Nat.eqb_spec a (length h)) as [-> | _]; [| exact Hs]. cbn [slot_get] in Hs. destruct (hobj h (length h)) eqn:E; [| discriminate].
      apply hobj_hget, hget_lt in E. lia. }
    destruct (Hon s) as [E | [id' [o [path [t' [many [E _]]]]]]]; [congruence | exfalso; apply (Hnv id'); congruence]. }
  assert (Hl : exists ml, hobj h' l = Some ml /\ aget e ml = Some (VObj le)).
  { assert (Hs := Hkeep (SKey l e) (VObj le)). cbn [slot_get] in Hs. rewrite (proj2 (hobj_hget _ _ _) Hm) in Hs. specialize (Hs Hem ltac:(discriminate)). destruct (hobj h' l) as [ml |]; [eauto | discriminate]. }
  assert (Hl0 : slot_get h' (SKey (length h) e) = Some (VObj le)).
  { destruct (Hon (SKey (length h) e)) as [E | [id' [o [path [t' [many [E _]]]]]]]; rewrite (slot_h0 h m), Nat.eqb_refl, Hem in E; [exact E | discriminate]. }
  assert (Hse : slot_get (h ++ [CObj m]) (SKey le (p_name p)) = Some (VStr id)).
  { rewrite (slot_h0 h m). destruct (Nat.eqb_spec le (length h)) as [-> | _]; [apply hget_lt in Hle; lia |]. cbn [slot_get]. rewrite (proj2 (hobj_hget _ _ _) Hle). exact Hpm. }
  assert (Hnew : exists lo, slot_get h' (SKey le (p_name p)) = Some (VObj lo)).
  { destruct (Hon (SKey le (p_name p))) as [E | [id' [o [path [t' [many [_ [E [_ Hs]]]]]]]]].
    - exfalso. rewrite Hse in E. apply (Hres id); [| exact Hst]. cbn [dot_parts slot_get] in *. destruct (hobj h' (length h)); [| discriminate]. rewrite Hl0. destruct (hobj h' le); [| discriminate]. rewrite E. reflexivity.
    - apply stands_obj in Hs. destruct Hs as [lo ->]. eauto. }
  destruct Hnew as [lo Hnew]. destruct Hl as [ml [Hml Heml]]. cbn [slot_get] in Hnew. destruct (hobj h' le) as [me' |] eqn:Eme; [| discriminate].
  apply (C61_errors S h' (VObj l)); [right; eauto |]. exists (WKind (PReference t)), (VObj lo), 1. split; [| cbn [wrong]; intros [x [Hx _]]; discriminate].
  assert (Hx := DueField S h' (VObj l) e e le me' props p (VObj lo) 0). unfold prop_want in Hx. rewrite Harr, Hk in Hx. apply Hx; auto; try lia; try discriminate.
  - apply (DueRoot S h' (VObj l) l ml); auto; [apply aget_Some_in, Heml | discriminate].
  - apply aget_Some_in, Hnew.
Qed.
Print Assumptions C62_again_refuted.
(** C62. "Every reference that is checked is resolved" does not hold: those of entities held by others are checked and stay ids. *)
Theorem C62_nested_refuted : exists S h l, validate S h (VObj l) = [] /\ (exists v, due S h (VObj l) "Order.line.product" (WKind (PReference "Product")) v 2 /\ v = VStr "p1") /\
  stands_for h (VObj l) "Product" "p1" (VObj 0) /\ let (h', store) := open_store (s_models S) h (VObj l) in dot h' store "Order.line.product" = Some (VStr "p1").
Proof.
  set (product := [Property "id" PString false false]). set (lin := [Property "product" (PReference "Product") false false]). set (ord := [Property "line" (PRelation "Line") false false]).
  exists (Schema [("Product", product); ("Line", lin); ("Order", ord)] [] [] [Model "Product" false product; Model "Line" false lin; Model "Order" false ord]).
  exists [CObj [("id", VStr "p1")]; CArr [VObj 0]; CObj [("product", VStr "p1")]; CObj [("line", VObj 2)]; CObj [("Product", VArr 1); ("Order", VObj 3)]], 4.
  split; [vm_compute; reflexivity |]. split; [| split].
  - eexists. split; [| reflexivity].
    apply (DueField _ _ _ "Order.line" "Line" 2 [("product", VStr "p1")] lin (Property "product" (PReference "Product") false false) (VStr "p1") 1); try reflexivity; try (left; reflexivity); try discriminate; try lia.
    + apply DueRelation; [| left; discriminate].
      apply (DueField _ _ _ "Order" "Order" 3 [("line", VObj 2)] ord (Property "line" (PRelation "Line") false false) (VObj 2) 0); try reflexivity; try (left; reflexivity); try discriminate; try lia.
      * apply (DueRoot _ _ _ 4 [("Product", VArr 1); ("Order", VObj 3)]); try reflexivity; try discriminate; [right; left; reflexivity |].
        split; [eexists; split; [right; right; left; reflexivity |]; split; reflexivity |].
        intros [mo [p [Hmo [Hpp Hk]]]]. destruct Hmo as [<- | [<- | [<- | []]]]; destruct Hpp as [<- | []]; destruct Hk; discriminate.
      * exists [], []. split; [reflexivity |]. split; [reflexivity | intros q []].
    + exists [], []. split; [reflexivity |]. split; [reflexivity | intros q []].
  - exists 1, [], []. split; [reflexivity |]. split; [reflexivity |]. split; [reflexivity | intros x []].
  - vm_compute. reflexivity.
Qed.
Print Assumptions C62_nested_refuted.
(** The hypotheses are met; the last of two customers with an id is taken. *)
Example C62_example : plain_names shop_models /\ apart shop_models /\
  let h := [CObj [("id", VStr "c1"); ("vip", VBool false)]; CObj [("id", VStr "c1"); ("vip", VBool true)]; CArr [VObj 0; VObj 1]; CObj [("customer", VStr "c1"); ("state", VStr "open")];
            CObj [("Customer", VArr 2); ("Order", VObj 3)]] in
  wf_heap h /\ validate shop h (VObj 4) = [] /\
  let (h', store) := open_store shop_models h (VObj 4) in
  dot h' store "Order.customer" = Some (VObj 1) /\ map e_path (validate shop h' (VObj 4)) = ["Order.customer"].
Proof.
  split; [| split; [| split; [| split]]].
  - intros m Hm. cbn [In shop_models] in Hm. repeat (destruct Hm as [<- | Hm]); [..| destruct Hm]; (split; [reflexivity |]; intros p Hp; cbn in Hp; repeat (destruct Hp as [<- | Hp]; [reflexivity |]); destruct Hp).
  - intros e p t1 t2 b1 b2 [m1 [p1 [H1 [H2 [H3 [_ H4]]]]]] _. cbn [In shop_models] in H1. destruct (m_global m1) eqn:E; [| discriminate].
    destruct H1 as [<- | [<- | [<- | [<- | []]]]]; try discriminate. cbn in H2. destruct H2 as [<- | []]. discriminate.
  - intros l c H. unfold hget in H. do 5 (destruct l as [| l]; [inversion H; subst c; cbn [wf_cell akeys map fst]; repeat match goal with
    | |- _ /\ _ => split | |- NoDup (_ :: _) => constructor; [cbn; intuition discriminate |] | |- NoDup [] => constructor
    | |- Forall _ (_ :: _) => constructor | |- Forall _ [] => constructor | |- wf_val _ (snd _) => cbn [snd] | |- wf_val _ (VStr _) => exact Logic.I | |- wf_val _ (VBool _) => exact Logic.I
    | |- wf_val _ _ => eexists; reflexivity end |]). destruct l; discriminate.
  - vm_compute. reflexivity.
  - vm_compute. split; reflexivity.
Qed.
