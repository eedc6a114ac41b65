(** * Search in a workspace
    Models engine/src/workspace/search.rs (all functions) and the weights of engine/src/workspace/types/search.rs:55-81.
    A character is an [ascii]; what lower case, letter-or-digit and white space mean is a parameter ([letters]), so that the
    theorems hold for every choice. Scores are numbers without a bound: the code uses [u32], which can overflow only for a
    query of more than 30 000 words. *)
From Coq Require Import Ascii String List Bool Arith NArith.
Import ListNotations.
From Verif Require Import Base Json Workspace.
Local Open Scope nat_scope.
Local Open Scope list_scope.

(** [char::to_lowercase().next()], [char::is_alphanumeric], [char::is_whitespace]. *)
Record letters := Letters { lt_lower : ascii -> ascii; lt_alnum : ascii -> bool; lt_space : ascii -> bool }.
Definition chars (s : string) : list ascii := list_ascii_of_string s.
Definition eqs (a b : list ascii) : bool := if list_eq_dec ascii_dec a b then true else false.

(** types/search.rs:31-53. *)
Inductive hit_kind :=
| HDocument | HHeading | HParagraph | HListItem | HCodeBlock | HExpression | HExpressionKey | HTableColumn | HTableCell | HMatchKey
| HMatchCondition | HMatchValue | HAssertionOutput | HAssertionCondition | HDataModel | HDataModelProperty | HDictionary
| HDictionaryEntry | HGraphNode | HSwitchCondition | HFunction.
(** types/search.rs:56-80. *)
Definition weight (k : hit_kind) : N :=
  match k with
  | HDataModel => 140
  | HDataModelProperty | HDictionary => 135
  | HDocument | HTableColumn | HGraphNode => 130
  | HDictionaryEntry | HHeading => 120
  | HExpressionKey | HMatchKey | HAssertionOutput => 115
  | HParagraph | HListItem => 100
  | HExpression | HTableCell | HMatchCondition | HMatchValue | HAssertionCondition | HSwitchCondition => 90
  | HCodeBlock | HFunction => 60
  end%N.

(** search.rs:115-123 [HitSite]. *)
Record site := Site { st_block : option string; st_node : option string; st_expr : option string; st_row : option nat; st_column : option string; st_context : option string }.
Definition no_site : site := Site None None None None None None.
(** types/search.rs:7-28 [SearchHit]; the fields of the site stay together. *)
Record hit := Hit { ht_path : path; ht_kind : hit_kind; ht_site : site; ht_text : string; ht_span : nat * nat; ht_score : N }.

(** policy/raw.rs:15-42 [BlockDoc], the parts search reads. A column is id, name, field; a rule of a table is a hash map from columns to cells. *)
Record column := Column { cl_id : string; cl_name : string; cl_field : option string }.
Record grid := Grid { gr_in : list column; gr_out : list column; gr_rules : list (amap string) }.
Inductive block_doc :=
| DAssertion (id output : string) (conds : list (string * string))
| DExpression (id key value : string)
| DMatch (id key : string) (arms : list (string * (string * string)))
| DTable (id : string) (g : grid)
| DModel (id name : string) (props : list (string * string))
| DDictionary (id name : string) (entries : list (string * (string * string)))
| DIgnored (j : json).
(** types/src/decision/mod.rs: the content of a node search reads. *)
Inductive node_doc :=
| NExpression (es : list (string * (string * string)))
| NTable (g : grid)
| NSwitch (ss : list (string * string))
| NFunction (source : string)
| NOther.
Inductive doc := PolicyDoc (bs : list block_doc) | GraphDoc (ns : list (string * (string * node_doc))).

Section Search.
  Variable L : letters.
  Definition low (s : list ascii) : list ascii := map (lt_lower L) s.

  (** [str::split_whitespace]. *)
  Fixpoint split_space (cur : list ascii) (s : list ascii) : list (list ascii) :=
    match s with
    | [] => match cur with [] => [] | _ => [rev cur] end
    | c :: r => if lt_space L c then match cur with [] => split_space [] r | _ => rev cur :: split_space [] r end else split_space (c :: cur) r
    end.
  (** search.rs:20-27 [SearchMatcher::new]; the words of [split_whitespace] are never empty, so the filter drops none. *)
  Definition tokens (q : string) : list (list ascii) := filter (fun t => match t with [] => false | _ => true end) (map low (split_space [] (chars q))).

  (** search.rs:92-97 [find_substring]. *)
  Fixpoint starts (needle hay : list ascii) : bool :=
    match needle, hay with
    | [], _ => true
    | a :: n, b :: h => if ascii_dec a b then starts n h else false
    | _ :: _, [] => false
    end.
  Fixpoint find_from (i : nat) (hay needle : list ascii) : option nat :=
    if length hay <? length needle then None
    else if starts needle hay then Some i
    else match hay with [] => None | _ :: r => find_from (S i) r needle end.
  Definition find_sub (hay needle : list ascii) : option nat := match needle with [] => None | _ => find_from 0 hay needle end.

  (** search.rs:70-84: the letters of the token one after the other, each at the first place left; first and last place. *)
  Fixpoint scan (i : nat) (hay token : list ascii) (first : option nat) (last : nat) : option (nat * nat) :=
    match token with
    | [] => match first with Some f => Some (f, last) | None => None end
    | t :: ts => match hay with
                 | [] => None
                 | c :: r => if ascii_dec c t then scan (S i) r ts (Some match first with Some f => f | None => i end) i
                             else scan (S i) r token first last
                 end
    end.

  (** search.rs:53-90 [score_token]. *)
  Definition score_token (hay token : list ascii) : option (N * (nat * nat)) :=
    match find_sub hay token with
    | Some idx =>
        let span := (idx, idx + length token) in
        Some (if (idx =? 0) && (length token =? length hay) then 1000%N
              else if idx =? 0 then 800%N
              else if negb (lt_alnum L (nth (idx - 1) hay zero)) then (650 - N.of_nat (Nat.min idx 150))%N
              else (500 - N.of_nat (Nat.min idx 400))%N, span)
    | None =>
        match scan 0 hay token None 0 with
        | None => None
        | Some (first, last) =>
            let spread := last - first + 1 in
            if length token * 3 <? spread then None
            else Some ((100 + N.min (N.of_nat (length token) * 100 / N.of_nat spread) 100)%N, (first, last + 1))
        end
    end.

  (** search.rs:32-46: the sum over the tokens and the span that starts first. *)
  Fixpoint score_all (hay : list ascii) (ts : list (list ascii)) (total : N) (span : option (nat * nat)) : option (N * option (nat * nat)) :=
    match ts with
    | [] => Some (total, span)
    | t :: r => match score_token hay t with
                | None => None
                | Some (s, sp) => score_all hay r (total + s)%N (Some match span with Some c => if fst c <=? fst sp then c else sp | None => sp end)
                end
    end.
  Definition score (ts : list (list ascii)) (text : string) : option (N * (nat * nat)) :=
    match chars text with
    | [] => None
    | _ => let hay := low (chars text) in
           match score_all hay ts 0 None with
           | Some (total, Some span) => Some ((total - N.min (N.of_nat (length hay) / 8) 40)%N, span)
           | _ => None
           end
    end.

  (** search.rs:99-113 [snippet], with SNIPPET_CHARS = 200. *)
  Definition snippet (text : string) (span : nat * nat) : string * (nat * nat) :=
    let cs := chars text in
    if length cs <=? 200 then (text, span)
    else
      let mid := (fst span + snd span) / 2 in
      let start := Nat.min (mid - 100) (length cs - 200) in
      let stop := Nat.min (start + 200) (length cs) in
      (string_of_list_ascii (firstn (stop - start) (skipn start cs)), (fst span - start, Nat.min (snd span - start) (stop - start))).

  Section Collector.
    Variable ts : list (list ascii).
    Variable p : path.
    (** search.rs:132-150 [Collector::add]. *)
    Definition add (k : hit_kind) (text : string) (s : site) : list hit :=
      match score ts text with
      | None => []
      | Some (base, span) => let (t, sp) := snippet text span in [Hit p k s t sp (base * weight k / 100)%N]
      end.
    (** [Iterator::max_by_key]: the last of the greatest. *)
    Fixpoint best (cands : list string) (acc : option (N * string)) : option (N * string) :=
      match cands with
      | [] => acc
      | c :: r => best r (match score ts c with
                          | None => acc
                          | Some (x, _) => match acc with Some (y, d) => if (y <=? x)%N then Some (x, c) else acc | None => Some (x, c) end
                          end)
      end.
    (** search.rs:152-161 [add_best]. *)
    Definition add_best (k : hit_kind) (cands : list string) (s : site) : list hit :=
      match best cands None with Some (_, t) => add k t s | None => [] end.

    Definition block_site (id : string) : site := Site (Some id) None None None None None.
    Definition with_expr (e : string) (s : site) : site := Site (st_block s) (st_node s) (Some e) (st_row s) (st_column s) (st_context s).
    Definition with_column (c : string) (s : site) : site := Site (st_block s) (st_node s) (st_expr s) (st_row s) (Some c) (st_context s).
    Definition with_context (c : string) (s : site) : site := Site (st_block s) (st_node s) (st_expr s) (st_row s) (st_column s) (Some c).
    (** search.rs:390-396 [display_name]. *)
    Definition display_name (name field : string) : string := if String.eqb name "" then field else name.
    Definition field_of (c : column) : string := match cl_field c with Some f => f | None => "" end.
    Definition column_names (g : grid) : list (string * string) := map (fun c => (cl_id c, display_name (cl_name c) (field_of c))) (gr_in g ++ gr_out g).
    Fixpoint find_name (id : string) (l : list (string * string)) : option string :=
      match l with [] => None | (k, n) :: r => if String.eqb k id then Some n else find_name id r end.
    Definition hidden (column_id : string) : bool := match column_id with String "_"%char _ => true | _ => false end.
    (** search.rs:276-297 and 444-467: the cells of the rules from the row [i] on. *)
    Fixpoint cells (g : grid) (s : site) (i : nat) (rules : list (amap string)) : list hit :=
      match rules with
      | [] => []
      | rule :: r => flat_map (fun e => if hidden (fst e) then [] else add HTableCell (snd e) (Site (st_block s) (st_node s) None (Some i) (Some (fst e)) (find_name (fst e) (column_names g)))) rule
                     ++ cells g s (S i) r
      end.
    (** search.rs:250-298 and 420-468; [s] is the site of the columns, [s0] that of the cells. *)
    Definition search_grid (s s0 : site) (g : grid) : list hit :=
      flat_map (fun c => add_best HTableColumn [cl_name c; field_of c] (with_column (cl_id c) s)) (gr_in g)
      ++ flat_map (fun c => add_best HTableColumn [cl_name c; field_of c] (with_column (cl_id c) s)) (gr_out g)
      ++ cells g s0 0 (gr_rules g).

    (** [Value::get], [Value::as_str], [Value::as_array]. *)
    Fixpoint entry (k : string) (m : list (string * json)) : option json := match m with [] => None | (a, v) :: r => if String.eqb a k then Some v else entry k r end.
    Definition jget (k : string) (j : option json) : option json := match j with Some (JObj m) => entry k m | _ => None end.
    Definition jstr (j : option json) : option string := match j with Some (JStr s) => Some s | _ => None end.
    Definition jarr (j : option json) : option (list json) := match j with Some (JArr l) => Some l | _ => None end.
    Definition or_empty (o : option string) : string := match o with Some s => s | None => "" end.
    (** search.rs:358-388 [prose_text]: the text of one run. *)
    Definition has_type (j : json) (ty : string) : bool := match jstr (jget "type" (Some j)) with Some s => String.eqb s ty | None => false end.
    Definition run_text (j : json) : string :=
      if has_type j "text" then or_empty (jstr (jget "text" (Some j)))
      else if has_type j "link" then String.concat "" (map (fun i => or_empty (jstr (jget "text" (Some i)))) (match jarr (jget "content" (Some j)) with Some l => l | None => [] end))
      else if has_type j "fileRef" then or_empty (jstr (jget "label" (jget "props" (Some j))))
      else ""%string.
    Definition prose_text (j : json) : option string :=
      match jarr (jget "content" (Some j)) with
      | None => None
      | Some runs => let out := String.concat "" (map run_text runs) in if forallb (lt_space L) (chars out) then None else Some out
      end.
    (** search.rs:332-356 [search_ignored_block]. *)
    Definition prose_kind (j : json) : option hit_kind :=
      if has_type j "heading" then Some HHeading
      else if has_type j "paragraph" then Some HParagraph
      else if has_type j "bulletListItem" || has_type j "numberedListItem" then Some HListItem
      else None.
    Definition search_ignored (j : json) : list hit :=
      let s := Site (jstr (jget "id" (Some j))) None None None None None in
      if has_type j "codeBlock" then match jstr (jget "code" (jget "data" (jget "props" (Some j)))) with Some c => add HCodeBlock c s | None => [] end
      else match prose_kind j with
           | Some k => match prose_text j with Some t => add k t s | None => [] end
           | None => []
           end.

    (** search.rs:223-330 [search_policy_block]. *)
    Definition search_block (b : block_doc) : list hit :=
      match b with
      | DAssertion id out cs => add HAssertionOutput out (block_site id) ++ flat_map (fun c => add HAssertionCondition (snd c) (with_expr (fst c) (block_site id))) cs
      | DExpression id k v => add HExpressionKey k (block_site id) ++ add HExpression v (block_site id)
      | DMatch id k arms => add HMatchKey k (block_site id)
          ++ flat_map (fun a => add HMatchCondition (fst (snd a)) (with_expr (fst a) (block_site id)) ++ add HMatchValue (snd (snd a)) (with_expr (fst a) (block_site id))) arms
      | DTable id g => search_grid (block_site id) (block_site id) g
      | DModel id n ps => add HDataModel n (block_site id) ++ flat_map (fun e => add HDataModelProperty (snd e) (with_context n (with_expr (fst e) (block_site id)))) ps
      | DDictionary id n es => add HDictionary n (block_site id)
          ++ flat_map (fun e => add_best HDictionaryEntry [fst (snd e); snd (snd e)] (with_context n (with_expr (fst e) (block_site id)))) es
      | DIgnored j => search_ignored j
      end.

    (** search.rs:398-492 [search_graph_node]. *)
    Definition node_site (id : string) : site := Site None (Some id) None None None None.
    Definition search_node (nd : string * (string * node_doc)) : list hit :=
      let id := fst nd in let name := fst (snd nd) in let inside := with_context name (node_site id) in
      add HGraphNode name (node_site id)
      ++ match snd (snd nd) with
         | NExpression es => flat_map (fun e => add HExpressionKey (fst (snd e)) (with_expr (fst e) inside) ++ add HExpression (snd (snd e)) (with_expr (fst e) inside)) es
         | NTable g => search_grid inside (node_site id) g
         | NSwitch ss => flat_map (fun c => add HSwitchCondition (snd c) (with_expr (fst c) inside)) ss
         | NFunction src => add HFunction src inside
         | NOther => []
         end.
    (** [path.rsplit('/').next()]. *)
    Fixpoint after_slash (cur : list ascii) (s : list ascii) : list ascii :=
      match s with [] => rev cur | c :: r => if Ascii.eqb c "/" then after_slash [] r else after_slash (c :: cur) r end.
    Definition file_name : string := string_of_list_ascii (after_slash [] (chars p)).
    (** search.rs:179-199: one document. *)
    Definition search_doc (d : doc) : list hit :=
      add HDocument file_name no_site ++ match d with PolicyDoc bs => flat_map search_block bs | GraphDoc ns => flat_map search_node ns end.
  End Collector.

  (** search.rs:203-211: the order of the hits; [None] is before [Some]. *)
  Definition then_cmp (a b : comparison) : comparison := match a with Eq => b | _ => a end.
  Definition opt_cmp {A} (f : A -> A -> comparison) (a b : option A) : comparison :=
    match a, b with None, None => Eq | None, Some _ => Lt | Some _, None => Gt | Some x, Some y => f x y end.
  Definition hit_cmp (a b : hit) : comparison :=
    then_cmp (N.compare (ht_score b) (ht_score a))
   (then_cmp (String.compare (ht_path a) (ht_path b))
   (then_cmp (opt_cmp String.compare (st_block (ht_site a)) (st_block (ht_site b)))
   (then_cmp (opt_cmp String.compare (st_node (ht_site a)) (st_node (ht_site b)))
   (then_cmp (opt_cmp Nat.compare (st_row (ht_site a)) (st_row (ht_site b)))
             (Nat.compare (fst (ht_span a)) (fst (ht_span b))))))).
  (** [slice::sort_by] is stable. *)
  Fixpoint place (x : hit) (l : list hit) : list hit :=
    match l with [] => [x] | y :: r => match hit_cmp x y with Gt => y :: place x r | _ => x :: l end end.
  Definition sort_hits (l : list hit) : list hit := fold_right place [] l.

  (** search.rs:165-215 [Db::search], with DEFAULT_LIMIT = 50 and MAX_LIMIT = 500. *)
  Definition max_hits (limit : option nat) : nat := Nat.min match limit with Some l => l | None => 50 end 500.
  Definition all_hits (docs : amap doc) (ts : list (list ascii)) : list hit :=
    flat_map (fun q => match aget q docs with Some d => search_doc ts q d | None => [] end) (sort_paths (map fst docs)).
  Definition search (docs : amap doc) (query : string) (limit : option nat) : list hit :=
    match tokens query with
    | [] => []
    | ts => firstn (max_hits limit) (sort_hits (all_hits docs ts))
    end.
End Search.
