(** * What a search in a workspace should give
    Written without the functions of Search.v that look for words, score or sort: only its data types are used. *)
From Coq Require Import Ascii String List Bool Arith NArith.
Import ListNotations.
From Verif Require Import Base Json Workspace Search.
Local Open Scope nat_scope.
Local Open Scope list_scope.

(** The words of a query: what white space separates. *)
Inductive words (L : letters) : list ascii -> list (list ascii) -> Prop :=
| no_words : forall s, Forall (fun c => lt_space L c = true) s -> words L s []
| a_word : forall s w r ws, Forall (fun c => lt_space L c = true) s -> w <> [] -> Forall (fun c => lt_space L c = false) w ->
    (r = [] \/ exists c r0, r = c :: r0 /\ lt_space L c = true) -> words L r ws -> words L (s ++ w ++ r) (w :: ws).

(** A word stands in a text as it is, but for upper and lower case. *)
Definition lower_case (L : letters) (s : list ascii) : list ascii := map (lt_lower L) s.
Definition stands_in (L : letters) (text w : list ascii) : Prop := exists a b, lower_case L text = a ++ lower_case L w ++ b.
(** The letters of a word stand in a text in their order, within a run at most three times as long as the word. *)
Inductive subseq {A} : list A -> list A -> Prop :=
| sub_nil : forall m, subseq [] m
| sub_take : forall c w m, subseq w m -> subseq (c :: w) (c :: m)
| sub_skip : forall c w m, subseq w m -> subseq w (c :: m).
Definition run (s e : nat) (t : list ascii) : list ascii := firstn (e - s) (skipn s t).
Definition spelled_by (L : letters) (t w : list ascii) (s e : nat) : Prop :=
  s < e /\ e <= length t /\ e - s <= 3 * length w /\ subseq (lower_case L w) (lower_case L (run s e t)).
Definition spelled_in (L : letters) (t w : list ascii) : Prop := exists s e, spelled_by L t w s e.

(** *** The places of a document that are searched: the kind, the texts one hit stands for, and the site. *)
Definition field_text (c : column) : string := match cl_field c with Some f => f | None => "" end.
Definition shown (c : column) : string := if String.eqb (cl_name c) "" then field_text c else cl_name c.
Inductive in_grid (g : grid) (block node ctx : option string) : hit_kind -> list string -> site -> Prop :=
| at_column : forall c, In c (gr_in g ++ gr_out g) -> in_grid g block node ctx HTableColumn [cl_name c; field_text c] (Site block node None None (Some (cl_id c)) ctx)
| at_cell : forall i rule c text, nth_error (gr_rules g) i = Some rule -> In (c, text) rule -> (forall r, c <> String "_" r) ->
    in_grid g block node ctx HTableCell [text]
      (Site block node None (Some i) (Some c) (option_map shown (find (fun k => String.eqb (cl_id k) c) (gr_in g ++ gr_out g)))).

Definition of_block (id : string) : site := Site (Some id) None None None None None.
Definition of_part (id part : string) (ctx : option string) : site := Site (Some id) None (Some part) None None ctx.
Definition member (k : string) (j v : json) : Prop := exists a b, j = JObj (a ++ (k, v) :: b) /\ ~ In k (map fst a).
Definition block_id (j : json) (o : option string) : Prop := match o with Some s => member "id" j (JStr s) | None => ~ exists s, member "id" j (JStr s) end.

(** The text of a paragraph: its runs of text, the texts inside its links, the labels of its references. *)
Inductive run_says : json -> string -> Prop :=
| says_text : forall j t, member "type" j (JStr "text") -> member "text" j (JStr t) -> run_says j t
| says_link : forall j l ts, member "type" j (JStr "link") -> member "content" j (JArr l) ->
    Forall2 (fun i t => member "text" i (JStr t) \/ t = ""%string /\ ~ exists t0, member "text" i (JStr t0)) l ts -> run_says j (String.concat "" ts)
| says_file : forall j pr t, member "type" j (JStr "fileRef") -> member "props" j pr -> member "label" pr (JStr t) -> run_says j t.
Definition says (j : json) (t : string) : Prop :=
  exists l ts, member "content" j (JArr l) /\ Forall2 (fun r t => run_says r t \/ t = ""%string /\ ~ exists t0, run_says r t0) l ts /\ t = String.concat "" ts.
Inductive prose : string -> hit_kind -> Prop :=
| is_heading : prose "heading" HHeading
| is_paragraph : prose "paragraph" HParagraph
| is_bullet : prose "bulletListItem" HListItem
| is_number : prose "numberedListItem" HListItem.

Inductive in_block (L : letters) : block_doc -> hit_kind -> list string -> site -> Prop :=
| at_output : forall id o cs, in_block L (DAssertion id o cs) HAssertionOutput [o] (of_block id)
| at_condition : forall id o cs e t, In (e, t) cs -> in_block L (DAssertion id o cs) HAssertionCondition [t] (of_part id e None)
| at_key : forall id k v, in_block L (DExpression id k v) HExpressionKey [k] (of_block id)
| at_value : forall id k v, in_block L (DExpression id k v) HExpression [v] (of_block id)
| at_match : forall id k arms, in_block L (DMatch id k arms) HMatchKey [k] (of_block id)
| at_arm_condition : forall id k arms e c v, In (e, (c, v)) arms -> in_block L (DMatch id k arms) HMatchCondition [c] (of_part id e None)
| at_arm_value : forall id k arms e c v, In (e, (c, v)) arms -> in_block L (DMatch id k arms) HMatchValue [v] (of_part id e None)
| at_grid : forall id g k ts s, in_grid g (Some id) None None k ts s -> in_block L (DTable id g) k ts s
| at_model : forall id n ps, in_block L (DModel id n ps) HDataModel [n] (of_block id)
| at_property : forall id n ps e t, In (e, t) ps -> in_block L (DModel id n ps) HDataModelProperty [t] (of_part id e (Some n))
| at_dictionary : forall id n es, in_block L (DDictionary id n es) HDictionary [n] (of_block id)
| at_entry : forall id n es e l v, In (e, (l, v)) es -> in_block L (DDictionary id n es) HDictionaryEntry [l; v] (of_part id e (Some n))
| at_prose : forall j ty k t o, member "type" j (JStr ty) -> prose ty k -> says j t -> Exists (fun c => lt_space L c = false) (list_ascii_of_string t) ->
    block_id j o -> in_block L (DIgnored j) k [t] (Site o None None None None None)
| at_code : forall j pr da c o, member "type" j (JStr "codeBlock") -> member "props" j pr -> member "data" pr da -> member "code" da (JStr c) ->
    block_id j o -> in_block L (DIgnored j) HCodeBlock [c] (Site o None None None None None).

Definition of_node (id part name : string) : site := Site None (Some id) (Some part) None None (Some name).
Inductive in_node : string * (string * node_doc) -> hit_kind -> list string -> site -> Prop :=
| at_node : forall id n x, in_node (id, (n, x)) HGraphNode [n] (Site None (Some id) None None None None)
| at_node_key : forall id n es e k v, In (e, (k, v)) es -> in_node (id, (n, NExpression es)) HExpressionKey [k] (of_node id e n)
| at_node_value : forall id n es e k v, In (e, (k, v)) es -> in_node (id, (n, NExpression es)) HExpression [v] (of_node id e n)
| at_node_column : forall id n g ts s, in_grid g None (Some id) (Some n) HTableColumn ts s -> in_node (id, (n, NTable g)) HTableColumn ts s
| at_node_cell : forall id n g ts s, in_grid g None (Some id) None HTableCell ts s -> in_node (id, (n, NTable g)) HTableCell ts s
| at_switch : forall id n ss e t, In (e, t) ss -> in_node (id, (n, NSwitch ss)) HSwitchCondition [t] (of_node id e n)
| at_function : forall id n t, in_node (id, (n, NFunction t)) HFunction [t] (Site None (Some id) None None None (Some n)).

(** The name of a file: what stands after the last slash of the path. *)
Definition named (p f : string) : Prop :=
  ~ In "/"%char (list_ascii_of_string f) /\ (p = f \/ exists d, p = append d (String "/" f)).

Inductive searched (L : letters) (docs : amap doc) : path -> hit_kind -> list string -> site -> Prop :=
| at_document : forall p d f, aget p docs = Some d -> named p f -> searched L docs p HDocument [f] (Site None None None None None None)
| at_policy : forall p bs b k ts s, aget p docs = Some (PolicyDoc bs) -> In b bs -> in_block L b k ts s -> searched L docs p k ts s
| at_graph : forall p ns n k ts s, aget p docs = Some (GraphDoc ns) -> In n ns -> in_node n k ts s -> searched L docs p k ts s.

(** How many hits a search may give. *)
Definition at_most (limit : option nat) : nat := match limit with Some l => if 500 <=? l then 500 else l | None => 50 end.

(** The order of the hits: by score, the best first; then by path, block, node, row and start of the mark. *)
Definition opt_less {A} (lt : A -> A -> Prop) (a b : option A) : Prop :=
  match a, b with None, Some _ => True | Some x, Some y => lt x y | _, _ => False end.
Definition str_less (a b : string) : Prop := String.compare a b = Lt.
Definition not_after (a b : hit) : Prop :=
  (ht_score b < ht_score a)%N \/ ht_score a = ht_score b /\
  (str_less (ht_path a) (ht_path b) \/ ht_path a = ht_path b /\
  (opt_less str_less (st_block (ht_site a)) (st_block (ht_site b)) \/ st_block (ht_site a) = st_block (ht_site b) /\
  (opt_less str_less (st_node (ht_site a)) (st_node (ht_site b)) \/ st_node (ht_site a) = st_node (ht_site b) /\
  (opt_less lt (st_row (ht_site a)) (st_row (ht_site b)) \/ st_row (ht_site a) = st_row (ht_site b) /\
   fst (ht_span a) <= fst (ht_span b))))).
