(** C18, C20: the grammar of expressions and of decision-table cells. [Print.v] says how a tree is written;
    [pn] reads the text of a number, [nt] writes one. *)
From Coq Require Import String Ascii ZArith QArith Lia Bool List Arith.
From Verif Require Import Base Dec Value Heap Ast Ops Compiler Vm Eval Funcs HeapSpec PureFacts RunSpec OpFacts FuncSpec
  Lexer Parser ParserFacts Print RoundTrip ParensFacts RelexFacts CellSpec UnaryFacts GrammarFacts Samples PropSyntax.
Import ListNotations.
Local Open Scope string_scope.
Local Open Scope list_scope.
Local Open Scope nat_scope.

(** * C18 *)

(** The binary operators from loosest to tightest. *)
Definition rank (o : operator) : option nat :=
  match o with
  | OpLogic LOr => Some 1
  | OpLogic LAnd => Some 2
  | OpCmp _ => Some 3
  | OpArith AAdd | OpArith ASub => Some 4
  | OpArith AMul | OpArith ADiv | OpArith AMod => Some 5
  | OpArith APow => Some 6
  | OpLogic LNullish => Some 7
  | _ => None
  end.
Definition groups_right (o : operator) : bool := match o with OpArith APow => true | _ => false end.
Lemma rank_binary : forall o r, rank o = Some r -> exists p, binary_op o = Some (p, negb (groups_right o)) /\
  forall o' r' p' l', rank o' = Some r' -> binary_op o' = Some (p', l') -> (p' <? p) = (r' <? r) /\ (p =? p') = (r =? r').
Proof.
  intros o r H. destruct o as [[]|[]|[]| | | | | | |]; inversion H; subst; (eexists; split; [reflexivity|]);
    intros o' r' p' l' H' B'; destruct o' as [[]|[]|[]| | | | | | |]; inversion H'; subst; inversion B'; subst; split; reflexivity.
Qed.
(** [a o1 b o2 c]: the operators group by rank, equal ranks to the left and [^] to the right. *)
Theorem C18_two_operators : forall pn nt a b c o1 o2 r1 r2, plain_name a = true -> plain_name b = true -> plain_name c = true ->
  rank o1 = Some r1 -> rank o2 = Some r2 ->
  parse_source pn FStandard (render (words nt (NIdent a) ++ wop o1 :: words nt (NIdent b) ++ wop o2 :: words nt (NIdent c))) =
  Some (Ok (if (r2 <? r1) || ((r1 =? r2) && negb (groups_right o1))
            then NBinary (NBinary (NIdent a) o1 (NIdent b)) o2 (NIdent c)
            else NBinary (NIdent a) o1 (NBinary (NIdent b) o2 (NIdent c)))).
Proof.
  intros pn nt a b c o1 o2 r1 r2 A B C R1 R2. destruct (rank_binary _ _ R1) as (p1 & B1 & K). destruct (rank_binary _ _ R2) as (p2 & B2 & _).
  destruct (K o2 r2 p2 _ R2 B2) as [K1 K2]. rewrite <- K1, <- K2. eapply two_operators; eassumption.
Qed.
Print Assumptions C18_two_operators.
Example C18_two_operators_case : parse_source read_num FStandard "a ^ b ^ c" = Some (Ok (NBinary (NIdent "a") (OpArith APow) (NBinary (NIdent "b") (OpArith APow) (NIdent "c")))) /\
  parse_source read_num FStandard "a - b - c" = Some (Ok (NBinary (NBinary (NIdent "a") (OpArith ASub) (NIdent "b")) (OpArith ASub) (NIdent "c"))) /\
  rank (OpArith APow) = Some 6 /\ plain_name "a" = true.
Proof. repeat split; vm_compute; reflexivity. Qed.

(** A sign binds tighter than every binary operator; [!] only applies past [*], [/], [%], [^], [??]. *)
Theorem C18_prefix : forall pn nt a b u o r, plain_name a = true -> plain_name b = true ->
  In u [OpArith AAdd; OpArith ASub; OpLogic LNot] -> rank o = Some r ->
  parse_source pn FStandard (render (wop u :: words nt (NIdent a) ++ wop o :: words nt (NIdent b))) =
  Some (Ok (match u with
            | OpLogic LNot => if 5 <=? r then NUnary (NBinary (NIdent a) o (NIdent b)) u else NBinary (NUnary (NIdent a) u) o (NIdent b)
            | _ => NBinary (NUnary (NIdent a) u) o (NIdent b)
            end)).
Proof.
  intros pn nt a b u o r A B U R. destruct (rank_binary _ _ R) as (p & BO & _).
  destruct U as [<-|[<-|[<-|[]]]]; (erewrite (prefix_operator pn nt a b); [|exact A|exact B|reflexivity|exact BO]);
    destruct o as [[]|[]|[]| | | | | | |]; inversion R; subst; inversion BO; subst; reflexivity.
Qed.
Print Assumptions C18_prefix.
Example C18_prefix_case : parse_source read_num FStandard "not a == b" = Some (Ok (NBinary (NUnary (NIdent "a") (OpLogic LNot)) (OpCmp CEq) (NIdent "b"))) /\
  rank (OpCmp CEq) = Some 3 /\ In (OpLogic LNot) [OpArith AAdd; OpArith ASub; OpLogic LNot].
Proof. split; [vm_compute; reflexivity|]. split; [reflexivity|cbn; tauto]. Qed.

(** Every tree of operators, conditionals, names and constants, of any depth: written with parentheses only
    where the precedences need them, its source text is read back as the same tree. *)
Theorem C18_operator_trees : forall pn nt n, operator_tree n = true ->
  exists m, parse_source pn FStandard (render (words nt (parens nt n 0 0))) = Some (Ok m) /\ strip m = strip n.
Proof. exact tree_back. Qed.
Print Assumptions C18_operator_trees.
Definition sample_tree : node :=
  NCond (NBinary (NUnary (NBinary (NIdent "a") (OpArith AAdd) (NIdent "b")) (OpArith ASub)) (OpArith AMul) (NBinary (NIdent "c") (OpLogic LOr) (NString "it's")))
    (NCond (NIdent "x") (NBool true) NNull) (NBinary (NBinary (NIdent "p") (OpArith APow) (NIdent "q")) (OpArith APow) (NIdent "r")).
Example C18_operator_trees_case : operator_tree sample_tree = true /\
  render (words (fun _ => "0") (parens (fun _ => "0") sample_tree 0 0)) =
    "- ( a + b ) * ( c or ""it's"" ) ? x ? true : null : ( p ^ q ) ^ r ".
Proof. split; vm_compute; reflexivity. Qed.

(** The whole language but assignments (member access, slices, calls, closures, methods, arrays, objects,
    intervals, templates): a tree written with enough parentheses is read back exactly. *)
Theorem C18_round_trip : forall pn nt n, canon nt pn (has_range (spell (words nt n))) FStandard n 0 CxGlobal 0 0 ->
  parse_tokens pn FStandard (spell (words nt n)) = Some (n, []) /\ has_error n = false.
Proof. exact parse_printed. Qed.
Print Assumptions C18_round_trip.
Theorem C18_source : forall pn nt n, canon nt pn (has_range (spell (words nt n))) FStandard n 0 CxGlobal 0 0 ->
  Forall word_ok (words nt n) -> parse_source pn FStandard (render (words nt n)) = Some (Ok n).
Proof. exact source_back. Qed.
Print Assumptions C18_source.
Ltac canonical := repeat first [ exact I | progress intros | match goal with
  | |- _ /\ _ => split
  | |- exists _, _ => eexists
  | |- ~ _ => discriminate
  | |- _ <> _ => discriminate
  | |- @eq nat _ _ => reflexivity
  | |- @eq _ _ _ => vm_compute; reflexivity
  | |- _ <= _ => unfold right_level; lia
  | |- _ < _ => unfold right_level; lia
  | |- canon _ _ _ _ _ _ _ _ _ => reflexivity
  | |- _ => discriminate end ].
Definition write_num (d : dec) : string := if dec_eqb d (dec_of_Z 1) then "1" else "25".
Definition sample_call : node :=
  NBinary (NCall (FClosure ClSome) [NMember (NIdent "xs") (NString "items"); NClosure (NBinary NPointer (OpCmp CGt) (nnum 1)) None])
    (OpLogic LAnd) (NBinary (NSlice (NIdent "s") (Some (nnum 1)) None) (OpCmp CIn) (NInterval (nnum 1) (nnum 25) LParen RSquare)).
Example C18_source_case : canon write_num read_num (has_range (spell (words write_num sample_call))) FStandard sample_call 0 CxGlobal 0 0 /\
  Forall word_ok (words write_num sample_call) /\
  render (words write_num sample_call) = "some ( xs . items , # > 1 ) and s [ 1 : ] in ( 1 .. 25 ] ".
Proof.
  split; [|split].
  - cbn [canon sample_call]. canonical.
  - repeat constructor; cbn; try reflexivity; (first [exists "1", ""; repeat split; [discriminate|left; reflexivity]|exists "25", ""; repeat split; [discriminate|left; reflexivity]]).
  - vm_compute. reflexivity.
Qed.

(** Inserting parentheses is enough for any tree that can be written. *)
Theorem C18_parentheses : forall pn nt n, let w := spell (words nt (parens nt n 0 0)) in writable nt pn (has_range w) n 0 ->
  exists m, parse_tokens pn FStandard w = Some (m, []) /\ has_error m = false /\ strip m = strip n.
Proof. exact writable_back. Qed.
Print Assumptions C18_parentheses.
Example C18_parentheses_case : let n := NMember (NBinary (NIdent "a") (OpLogic LNullish) (NIdent "b")) (NString "x") in
  writable write_num read_num false n 0 /\ render (words write_num (parens write_num n 0 0)) = "( a ?? b ) . x ".
Proof. split; [|vm_compute; reflexivity]. vm_compute. repeat split; discriminate. Qed.

(** * C20 *)

(** A list of literal tests, from the text of the cell to its answer: true exactly when one of the tests
    holds of the reference. *)
Theorem C20_list_of_tests : forall X pn nt root h r t l P Ps, local_str root "$" = Some r ->
  says pn nt r t P -> Forall2 (says pn nt r) l Ps ->
  exists n b h1, parse_source pn FUnary (render (cell_words nt t (map (pair JComma) l))) = Some (Ok n) /\
    yields X n root h (Ok (VBool b)) h1 /\ (b = true <-> P \/ Exists (fun Q => Q) Ps).
Proof. exact literal_cell. Qed.
Print Assumptions C20_list_of_tests.
Example C20_list_of_tests_case :
  let t := TCmp CGt (nnum 25) in let l := [TVal (NInterval (nnum 1) (nnum 25) LParen RParen); TVal (NArray [nnum 1; nnum 25])] in
  render (cell_words write_num t (map (pair JComma) l)) = "> 25 , ( 1 .. 25 ) , [ 1 , 25 ] " /\
  (exists P, says read_num write_num (num 7) t P) /\ exists Ps, Forall2 (says read_num write_num (num 7)) l Ps.
Proof.
  assert (R1 : readable read_num write_num (dec_of_Z 1))
    by (split; [reflexivity|exists "1", ""; repeat split; try discriminate; auto]).
  assert (R2 : readable read_num write_num (dec_of_Z 25))
    by (split; [reflexivity|exists "25", ""; repeat split; try discriminate; auto]).
  cbn zeta. split; [vm_compute; reflexivity|]. split; [eexists; eapply says_cmp; [reflexivity|cbn; tauto|exact R2]|].
  eexists. constructor; [eapply says_within; [reflexivity|exact R1|exact R2|left; reflexivity|left; reflexivity]|].
  constructor; [|constructor]. eapply says_one_of; [exact I|discriminate|].
  constructor; [apply lit_num; exact R1|]. constructor; [apply lit_num; exact R2|constructor].
Qed.

(** Any tests, joined by commas, [and], [or]: the cell is read as its tests joined from left to right. *)
Theorem C20_reads : forall pn nt t l, let w := spell (cell_words nt t l) in
  test_canon nt pn (has_range w) FUnary t -> Forall (fun jt => test_canon nt pn (has_range w) FUnary (snd jt)) l ->
  parse_tokens pn FUnary w = Some (cell_node t l, []).
Proof. exact cell_read. Qed.
Print Assumptions C20_reads.
Example C20_reads_case : let t := TCmp CGe (NBinary (NIdent "a") (OpArith AAdd) (nnum 1)) in let l := [(JAnd, TCmp CLt (NIdent "b")); (JOr, TVal (NBool true))] in
  test_canon write_num read_num false FUnary t /\ Forall (fun jt => test_canon write_num read_num false FUnary (snd jt)) l /\
  render (cell_words write_num t l) = ">= a + 1 and < b or true ".
Proof.
  cbn zeta. split; [|split; [|vm_compute; reflexivity]].
  - cbn [test_canon canon]. canonical.
  - repeat constructor; cbn [test_canon canon snd]; canonical.
Qed.
(** What each kind of test means. *)
Theorem C20_kinds :
  (forall c n, test_node (TCmp c n) = NBinary (NIdent "$") (OpCmp c) n) /\
  (forall n, In n [NNull; NRoot] \/ (exists b, n = NBool b) \/ (exists x, n = NNumber x) \/ (exists s, n = NString s) \/
     (exists s, n = NIdent s) \/ (exists a p, n = NMember a p) \/ (exists l, n = NObject l) \/ (exists l, n = NTemplate l) ->
     test_node (TVal n) = NBinary (NIdent "$") (OpCmp CEq) n) /\
  (forall n, (exists l, n = NArray l) \/ (exists a b lb rb, n = NInterval a b lb rb) \/ (exists x f t, n = NSlice x f t) ->
     test_node (TVal n) = NBinary (NIdent "$") (OpCmp CIn) n) /\
  (forall a b o, (exists c, o = OpCmp c) \/ (exists c, o = OpLogic c) ->
     test_node (TVal (NBinary a o b)) = NCall (FInternal FBool) [NBinary a o b]).
Proof.
  repeat split.
  - intros n H. cbn in H. firstorder (subst; reflexivity).
  - intros n H. firstorder (subst; reflexivity).
  - intros a b o H. firstorder (subst; reflexivity).
Qed.
Print Assumptions C20_kinds.
(** A cell whose tests answer [b], [bs] answers their combination from left to right, without precedence. *)
Theorem C20_joined : forall X root h l t b bs, answers X root h (test_node t) b ->
  Forall2 (fun jt b => answers X root h (test_node (snd jt)) b) l bs ->
  answers X root h (cell_node t l) (fold_left (fun acc jb => join_bool (fst jb) acc (snd jb)) (combine (map fst l) bs) b).
Proof. intros X root h l t b bs. exact (cell_answers X root h l t b bs). Qed.
Print Assumptions C20_joined.
Example C20_joined_case : exists root h, answers demo root h (test_node (TVal (nnum 3))) true /\
  Forall2 (fun jt b => answers demo root h (test_node (snd jt)) b) [(JAnd, TCmp CLt (nnum 2))] [false].
Proof.
  exists (set_local (scope_new VNull) "$" (num 3)), [].
  assert (A : forall n b, no_assign n = true -> (forall h, evaluate demo n (set_local (scope_new VNull) "$" (num 3)) h = (Ok (VBool b), h)) ->
    compiles demo n -> answers demo (set_local (scope_new VNull) "$" (num 3)) [] n b).
  { intros n b N E C. split; [exact N|]. intros more. exists []. rewrite app_nil_r. apply yields_iff. split; [exact C|apply E]. }
  split; [|constructor; [|constructor]]; (apply A; [reflexivity|intros; reflexivity|eexists; reflexivity]).
Qed.

(** Not the grouping of expressions: [1 or 2 and 3] as a cell is [(1 or 2) and 3]. *)
Theorem C20_precedence_refuted : exists src t l, parse_source read_num FUnary src = Some (Ok (cell_node t l)) /\
  map fst l = [JOr; JAnd] /\ join_bool JAnd (join_bool JOr true false) false <> orb true (andb false false).
Proof.
  exists "1 or 2 and 3", (TVal (nnum 1)), [(JOr, TVal (nnum 2)); (JAnd, TVal (nnum 3))].
  split; [vm_compute; reflexivity|]. split; [reflexivity|discriminate].
Qed.
Print Assumptions C20_precedence_refuted.
(** An expression that is accepted alone can be refused as a cell: parentheses around [and]. *)
Theorem C20_parenthesised_refuted : exists src n, parse_source read_num FStandard src = Some (Ok n) /\
  exists e, parse_source read_num FUnary src = Some (Err e).
Proof. exists "(a and b)". eexists. split; [vm_compute; reflexivity|]. eexists. vm_compute. reflexivity. Qed.
Print Assumptions C20_parenthesised_refuted.
(** Inside a cell the body of a closure groups differently from the same text as an expression. *)
Theorem C20_closure_body_refuted : exists src a b c n, parse_source read_num FStandard src =
    Some (Ok (NCall (FClosure ClSome) [n; NClosure (NBinary a (OpLogic LOr) (NBinary b (OpLogic LAnd) c)) None])) /\
  parse_source read_num FUnary src =
    Some (Ok (NCall (FInternal FBool) [NCall (FClosure ClSome) [n; NClosure (NBinary (NBinary a (OpLogic LOr) b) (OpLogic LAnd) c) None]])).
Proof. exists "some(xs, a or b and c)". do 4 eexists. split; vm_compute; reflexivity. Qed.
Print Assumptions C20_closure_body_refuted.
