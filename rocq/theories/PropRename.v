(** C71: renaming a global property changes exactly the places where expressions mean it, and nothing that they compute. *)
From Coq Require Import String Ascii ZArith Bool List Arith Lia.
From Verif Require Import Base Dec Value Heap Ast Ops Compiler Eval Funcs Samples HeapSpec TreeFacts HeapFacts Lexer Parser Print PureFacts RunSpec RepFacts ContentFacts Deps DepsSpec DepsFacts
  DepsClaims PropSyntax RenameSpec Rename RenameFacts TextSpec.
From Verif Require ParseSane.
Import ListNotations.
Local Open Scope string_scope.
Local Open Scope nat_scope.
Local Open Scope list_scope.

(** The edit of an expression replaces the name wherever it stands for the property, and nothing else. [unary]: the cell of a decision table. *)
Theorem C71_exact : forall g old new (unary : bool) n, is_global g old = true -> old <> "$" ->
  no_assign n = true -> sane n = true -> told_apart old [] n = true ->
  rename_global g old new (if unary then ["$"] else []) n = replaced old new false n.
Proof. exact rename_exact. Qed.
Print Assumptions C71_exact.

(** The same for every text the parser accepts, unless it gives the name to an alias. *)
Theorem C71_text : forall g old new fl src n, is_global g old = true -> old <> "$" ->
  parse_source read_num fl src = Some (Ok n) -> root_unquoted src -> no_assign n = true -> ~ In old (given n) ->
  rename_global g old new (match fl with FUnary => ["$"] | FStandard => [] end) n = replaced old new false n.
Proof.
  intros g old new fl src n Hg D P R A G. pose proof (ParseSane.source_sane _ _ _ _ R P) as Sn.
  pose proof (ParseSane.built_apart old n (ParseSane.source_built _ _ _ _ R P) G []) as T.
  destruct fl; [apply (rename_exact g old new false n)|apply (rename_exact g old new true n)]; assumption.
Qed.
Print Assumptions C71_text.

(** In a context that has the value under the new name, the edited expression gives what the expression gave: the same value or the same
    error. The new name is not used in the expression. *)
Theorem C71_meaning : forall L g old new n b1 b2 h1 h2 t1 t2 r1 g1, plain_lib L ->
  is_global g old = true -> old <> "$" -> no_assign n = true -> sane n = true -> told_apart old [] n = true ->
  rootless n = true -> ~ In new (used n) -> ~ In new (given n) ->
  moved old new t1 t2 -> repr h1 b1 t1 -> repr h2 b2 t2 ->
  yields (std_ext L) n (scope_new b1) h1 r1 g1 ->
  exists r2 g2, yields (std_ext L) (rename_global g old new [] n) (scope_new b2) h2 r2 g2 /\ same_outcome (r1, g1) (r2, g2).
Proof.
  intros L g old new n b1 b2 h1 h2 t1 t2 r1 g1 HL Hg Hd A B T Ro U Gv M R1 R2 Y. rewrite (rename_exact g old new false n Hg Hd A B T).
  destruct (moved_get _ _ _ _ M) as [[C1 C2] G]. apply (replaced_same L old new n b1 b2 h1 h2 t1 t2 r1 g1 HL A Ro Gv C1 C2 R1 R2); auto.
  intros x Hx. apply G. intros ->. now apply U.
Qed.
Print Assumptions C71_meaning.

(** Renaming back restores the expression. *)
Theorem C71_back : forall g g' old new n, is_global g old = true -> is_global g' new = true -> old <> "$" -> new <> "$" -> new <> "$root" ->
  no_assign n = true -> sane n = true -> told_apart old [] n = true -> ~ In new (used n) -> ~ In new (given n) ->
  rename_global g' new old [] (rename_global g old new [] n) = n.
Proof.
  intros g g' old new n Hg Hg' D1 D2 D3 A B T U G. rewrite (rename_exact g old new false n Hg D1 A B T).
  rewrite (rename_exact g' new old false _ Hg' D2).
  - now apply back_same.
  - now apply replaced_no_assign.
  - now apply replaced_sane.
  - now apply (replaced_apart old new n []).
Qed.
Print Assumptions C71_back.

(** A name that is no global property of the policy, say an entity's, is left alone. *)
Theorem C71_others : forall g old new locals n, is_global g old = false -> rename_global g old new locals n = n.
Proof. intros g old new locals n H. exact (rename_id new old g H n _). Qed.
Print Assumptions C71_others.

(** A key that a block writes: the property is renamed, with or without the mark of a list, and other keys are left alone. *)
Theorem C71_key : forall old new, strip_list old = old ->
  rename_key old new old = new /\ rename_key old new (old ++ "[]") = (new ++ "[]")%string /\
  forall key, key <> old -> key <> (old ++ "[]")%string -> rename_key old new key = key.
Proof.
  intros old new E. unfold rename_key. rewrite E, strip_app, !String.eqb_refl. split; [clear; induction new as [|c s IH]; cbn; [reflexivity|now rewrite IH]|]. split.
  - destruct (String.eqb_spec old (old ++ "[]")) as [Q|_]; auto. exfalso. revert Q. clear. induction old as [|c s IH]; cbn; [discriminate|]. intros Q. injection Q. auto.
  - intros key N1 N2. destruct (String.eqb_spec (strip_list key) old) as [Q|_]; auto. exfalso. destruct (strip_cases key) as [C|C]; rewrite Q in C; auto.
Qed.
Print Assumptions C71_key.

(** The JSON of a block: at every place that does not go through a protected key or an embedded document, a text with sites becomes the edited
    text and any other text stays. *)
Theorem C71_texts : forall by_source protect rd wr same inside t p,
  (forall k, through k p -> protected_key protect k = false /\ envelope_key k = false) ->
  text_at (apply_to by_source protect rd wr same inside t) p =
  match text_at t p with
  | Some s => Some (match aget s by_source with Some r => r | None => s end)
  | None => None
  end.
Proof. intros by_source protect rd wr same inside t p H. rewrite apply_text by exact H. now destruct (text_at t p). Qed.
Print Assumptions C71_texts.
(** Nothing but texts is changed: keys, numbers and the order stay; *)
Theorem C71_shape : forall by_source protect rd wr same inside t, blanked (apply_to by_source protect rd wr same inside t) = blanked t.
Proof. exact apply_shape. Qed.
Print Assumptions C71_shape.
(** for the nodes of a graph, neither is what is under the protected keys; *)
Theorem C71_protected : forall by_source rd wr same inside t p k r,
  (forall j, through j p -> protected_key true j = false /\ envelope_key j = false) ->
  In k ["id"; "_id"; "type"; "name"; "kind"; "sourceId"; "targetId"; "sourceHandle"; "targetHandle"] ->
  text_at (apply_to by_source true rd wr same inside t) (p ++ Key k :: r) = text_at t (p ++ Key k :: r).
Proof.
  intros by_source rd wr same inside t p k r H Hk. apply apply_kept; auto. unfold protected_key. cbn [andb]. apply existsb_exists. exists k. split; auto. apply String.eqb_refl.
Qed.
Print Assumptions C71_protected.
(** an embedded document is edited in the same way, and rewritten only if that changes it. *)
Theorem C71_embedded : forall by_source protect rd wr same depth t p k s d,
  (forall j, through j p -> protected_key protect j = false /\ envelope_key j = false) -> In k ["dataJson"; "schemaJson"] ->
  text_at t (p ++ [Key k]) = Some s -> rd s = Some d ->
  let edited := apply_deep by_source protect rd wr same depth d in
  text_at (apply_deep by_source protect rd wr same (S depth) t) (p ++ [Key k]) = Some (if same edited d then s else wr edited).
Proof.
  intros by_source protect rd wr same depth t p k s d H Hk T D edited. cbn [apply_deep]. apply apply_embedded; auto.
  - destruct Hk as [<-|[<-|[]]]; unfold protected_key; destruct protect; reflexivity.
  - destruct Hk as [<-|[<-|[]]]; reflexivity.
Qed.
Print Assumptions C71_embedded.

(** what cannot be read as a document stays. *)
Theorem C71_unreadable : forall by_source protect rd wr same depth t p k s,
  (forall j, through j p -> protected_key protect j = false /\ envelope_key j = false) -> In k ["dataJson"; "schemaJson"] ->
  text_at t (p ++ [Key k]) = Some s -> rd s = None -> text_at (apply_deep by_source protect rd wr same (S depth) t) (p ++ [Key k]) = Some s.
Proof.
  intros by_source protect rd wr same depth t p k s H Hk T D. cbn [apply_deep]. apply apply_unreadable; auto.
  - destruct Hk as [<-|[<-|[]]]; unfold protected_key; destruct protect; reflexivity.
  - destruct Hk as [<-|[<-|[]]]; reflexivity.
Qed.
Print Assumptions C71_unreadable.

(** What a global property is: a name that is no entity's, declared as a property or, without a dot, computed as a collection of instances. *)
Theorem C71_global : forall g x, is_global g x = true <-> ~ In x (eg_models g) /\
  ((exists t, aget x (eg_globals g) = Some t) \/ ((forall i, String.get i x <> Some "."%char) /\ exists e, aget x (eg_computed g) = Some e)).
Proof. exact is_global_spec. Qed.
Print Assumptions C71_global.
Example C71_global_case : let g := EGraph ["item"] [("total", None); ("item", None)] [("carts", "item"); ("a.b", "item")] in
  is_global g "total" = true /\ is_global g "carts" = true /\ is_global g "item" = false /\ is_global g "a.b" = false /\ is_global g "rate" = false.
Proof. repeat split. Qed.

(** *** A policy with the properties [total], [rate] and [items] and the entity [item]; [total] becomes [sum]. *)
Definition shop : entity_graph := EGraph ["item"] [("total", None); ("rate", None); ("items", Some "item")] [].
Definition shop_after : entity_graph := EGraph ["item"] [("sum", None); ("rate", None); ("items", Some "item")] [].
Definition total_src : string := "total * rate + len(filter(items as total, total.price > 2)) + ({ total: total }).total + [total][0] + items[0].total".
Definition sum_src : string := "sum * rate + len(filter(items as total, total.price > 2)) + ({ total: sum }).total + [sum][0] + items[0].total".
Definition read (src : string) : node := match parse_source read_num FStandard src with Some (Ok n) => n | _ => NNull end.
Definition total_node : node := Eval vm_compute in read total_src.
Definition sum_node : node := Eval vm_compute in read sum_src.
Definition shop_heap (name : string) : heap :=
  [CObj [("price", num 3); ("total", num 7)]; CArr [VObj 0]; CObj [(name, num 10); ("rate", num 2); ("items", VArr 1)]].
Definition shop_tree (name : string) : tree :=
  TObj [(name, TNum (dec_of_Z 10)); ("rate", TNum (dec_of_Z 2)); ("items", TArr [TObj [("price", TNum (dec_of_Z 3)); ("total", TNum (dec_of_Z 7))]])].
Ltac shop_repr := repeat (first [eapply RObj; [reflexivity|] | eapply RArr; [reflexivity|] | constructor | split; [reflexivity|]]).
Lemma moved_fields : forall old new v m, old <> new -> aget old m = None -> aget new m = None -> moved old new (TObj ((old, v) :: m)) (TObj ((new, v) :: m)).
Proof.
  intros old new v m N A B. exists ((old, v) :: m), ((new, v) :: m). split; [reflexivity|]. split; [reflexivity|]. cbn [aget]. rewrite !String.eqb_refl. split; [reflexivity|].
  intros k K1 K2. destruct (String.eqb_spec new k) as [->|_]; [now elim K2|]. destruct (String.eqb_spec old k) as [->|_]; [now elim K1|]. reflexivity.
Qed.
Definition tier_src : string := "[total * 2..total * 3]".
Example C71_text_case : exists n m, parse_source read_num FUnary tier_src = Some (Ok n) /\ root_unquoted tier_src /\ is_global shop "total" = true /\
  no_assign n = true /\ ~ In "total" (given n) /\ rename_global shop "total" "sum" ["$"] n = m /\ n <> m /\
  parse_source read_num FUnary "[sum * 2..sum * 3]" = Some (Ok m).
Proof.
  eexists. eexists. split; [vm_compute; reflexivity|]. split.
  { intros ts H t Ht K V; vm_compute in H; injection H as <-; repeat (destruct Ht as [<-|Ht]; [discriminate K || discriminate V|]); contradiction. }
  do 2 (split; [vm_compute; reflexivity|]). split; [vm_compute; tauto|]. split; [vm_compute; reflexivity|]. split; [discriminate|vm_compute; reflexivity].
Qed.
Example C71_meaning_case : plain_lib demo_lib /\ is_global shop "total" = true /\ is_global shop_after "sum" = true /\
  parse_source read_num FStandard total_src = Some (Ok total_node) /\ parse_source read_num FStandard sum_src = Some (Ok sum_node) /\
  no_assign total_node = true /\ sane total_node = true /\ told_apart "total" [] total_node = true /\ rootless total_node = true /\
  ~ In "sum" (used total_node) /\ ~ In "sum" (given total_node) /\ In "total" (given total_node) /\
  moved "total" "sum" (shop_tree "total") (shop_tree "sum") /\
  repr (shop_heap "total") (VObj 2) (shop_tree "total") /\ repr (shop_heap "sum") (VObj 2) (shop_tree "sum") /\
  compiles demo total_node /\ fst (evaluate demo total_node (scope_new (VObj 2)) (shop_heap "total")) = Ok (num 48) /\
  rename_global shop "total" "sum" [] total_node = sum_node /\ rename_global shop_after "sum" "total" [] sum_node = total_node /\
  fst (evaluate demo sum_node (scope_new (VObj 2)) (shop_heap "sum")) = Ok (num 48).
Proof.
  split; [exact demo_plain|]. do 8 (split; [vm_compute; reflexivity|]). split; [vm_compute; intuition discriminate|]. split; [vm_compute; intuition discriminate|]. split; [vm_compute; auto 10|].
  split; [apply moved_fields; [discriminate|reflexivity|reflexivity]|]. split; [shop_repr|]. split; [shop_repr|]. split; [eexists; vm_compute; reflexivity|].
  repeat (split; [vm_compute; reflexivity|]). vm_compute; reflexivity.
Qed.
Example C71_others_case : is_global shop "item" = false /\ rename_global shop "item" "thing" [] (read "item.price + total") = read "item.price + total".
Proof. split; vm_compute; reflexivity. Qed.
Example C71_key_case : strip_list "total" = "total" /\ rename_key "total" "sum" "total[]" = "sum[]" /\ rename_key "total" "sum" "totals" = "totals".
Proof. repeat split; vm_compute; reflexivity. Qed.
(** A node of a graph: the text of an expression is edited, here and in an embedded document; the name of the node is not. *)
Definition doc (name expr inner : string) : tree := TObj [("name", TStr name); ("expressions", TArr [TObj [("key", TStr "k"); ("value", TStr expr)]]); ("dataJson", TStr inner)].
Definition rd (s : string) : option tree := if String.eqb s "{v: total}" then Some (TObj [("v", TStr "total")]) else None.
Definition wr (t : tree) : string := match t with TObj [("v", TStr "sum")] => "{v: sum}" | _ => "" end.
Definition tsame (a b : tree) : bool := match a, b with TObj [(_, TStr x)], TObj [(_, TStr y)] => String.eqb x y | _, _ => false end.
Example C71_texts_case : let edit := apply_deep [("total", "sum"); ("total * 2", "sum * 2")] true rd wr tsame 2 in
  edit (doc "total" "total * 2" "{v: total}") = doc "total" "sum * 2" "{v: sum}" /\ edit (doc "total" "total * 2" "{") = doc "total" "sum * 2" "{" /\
  text_at (doc "total" "total * 2" "{v: total}") [Key "expressions"; Pos 0; Key "value"] = Some "total * 2" /\
  (forall k, through k [Key "expressions"; Pos 0; Key "value"] -> protected_key true k = false /\ envelope_key k = false).
Proof.
  split; [vm_compute; reflexivity|]. split; [vm_compute; reflexivity|]. split; [reflexivity|]. intros k [E|[E|[E|[]]]]; try discriminate E; injection E as <-; split; reflexivity.
Qed.

(** *** What the hypotheses keep out. A renaming that changes what a text of the policy computes: *)
Definition numbers (m : @amap value) : @amap tree := map (fun e => (fst e, match snd e with VNum d => TNum d | _ => TNull end)) m.
Definition breaks (src old new : string) (m1 m2 : @amap value) (r1 r2 : res value) : Prop :=
  exists n g, let t1 := TObj (numbers m1) in let t2 := TObj (numbers m2) in parse_source read_num FStandard src = Some (Ok n) /\ is_global g old = true /\ old <> "$" /\ sane n = true /\
  repr [CObj m1] (VObj 0) t1 /\ repr [CObj m2] (VObj 0) t2 /\ moved old new t1 t2 /\
  let n' := rename_global g old new [] n in
  compiles demo n /\ compiles demo n' /\ fst (evaluate demo n (scope_new (VObj 0)) [CObj m1]) = r1 /\ fst (evaluate demo n' (scope_new (VObj 0)) [CObj m2]) = r2 /\ r1 <> r2.
Ltac break := eexists; exists (EGraph [] [("x", None)] []); cbv zeta;
  split; [vm_compute; reflexivity|]; split; [reflexivity|]; split; [discriminate|]; split; [vm_compute; reflexivity|];
  split; [shop_repr|split; [shop_repr|split]]; [try (apply moved_fields; [discriminate|reflexivity|reflexivity])|
  split; [eexists; vm_compute; reflexivity|]; split; [eexists; vm_compute; reflexivity|]; split; [vm_compute; reflexivity|]; split; [vm_compute; reflexivity|discriminate]].
(** the property is read through [$root]; *)
Theorem C71_root_refuted : breaks "$root.x" "x" "y" [("x", num 2)] [("y", num 2)] (Ok (num 2)) (Ok VNull).
Proof. break. Qed.
Print Assumptions C71_root_refuted.
(** a closure over something else than a path calls its elements like the property; *)
Theorem C71_alias_refuted : breaks "sum(map([1] as x, x))" "x" "y" [("x", num 2)] [("y", num 2)] (Ok (num 1)) (Ok (num 2)).
Proof. break. Qed.
Print Assumptions C71_alias_refuted.
(** a closure calls its elements by the new name, which is not checked; *)
Theorem C71_capture_refuted : breaks "sum(map([1] as y, x))" "x" "y" [("x", num 2)] [("y", num 2)] (Ok (num 2)) (Ok (num 1)).
Proof. break. Qed.
Print Assumptions C71_capture_refuted.
(** the new name is in use; *)
Theorem C71_taken_refuted : breaks "x == y" "x" "y" [("x", num 2); ("y", num 3)] [("y", num 2)] (Ok (VBool false)) (Ok (VBool true)).
Proof. break. exists [("x", TNum (dec_of_Z 2)); ("y", TNum (dec_of_Z 3))], [("y", TNum (dec_of_Z 2))]. split; [reflexivity|]. split; [reflexivity|]. split; [reflexivity|].
  intros k K1 K2. cbn [aget]. destruct (String.eqb_spec "y" k) as [<-|_]; [now elim K2|]. destruct (String.eqb_spec "x" k) as [<-|_]; [now elim K1|]. reflexivity.
Qed.
Print Assumptions C71_taken_refuted.
(** the name is assigned in a branch that is not taken. *)
Theorem C71_assigned_refuted : breaks "(true ? 3 : (x = 1; 2)) + x" "x" "y" [("x", num 2)] [("y", num 2)] (Ok (num 5)) (Err (EOp "Add")).
Proof. break. Qed.
Print Assumptions C71_assigned_refuted.
(** A data model with the properties [date] and [due], both dates: renaming [date] changes the type of both, since types are texts of the block as well. *)
Definition date_model (name type : string) : tree :=
  TObj [("name", TStr "Globals"); ("scope", TStr "global");
        ("properties", TArr [TObj [("id", TStr "1"); ("name", TStr name); ("type", TStr type)]; TObj [("id", TStr "2"); ("name", TStr "due"); ("type", TStr type)]])].
Theorem C71_types_refuted : forall rd wr same inside, apply_to [("date", "day")] false rd wr same inside (date_model "date" "date") = date_model "day" "day".
Proof. reflexivity. Qed.
Print Assumptions C71_types_refuted.
(** A block that writes a part of the property keeps its key, while expressions that read the part are renamed. *)
Theorem C71_part_refuted : rename_key "order" "purchase" "order.total" = "order.total" /\
  rename_global (EGraph [] [("order", None)] []) "order" "purchase" [] (read "order.total") = read "purchase.total".
Proof. split; vm_compute; reflexivity. Qed.
Print Assumptions C71_part_refuted.
