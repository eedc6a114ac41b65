(** C17, C18, C20: the words of the language: names, functions, methods, keywords as properties and keys, and how a cell that
    calls a function is read. The tables below are written out again from the reference of the language. *)
From Coq Require Import String Ascii ZArith QArith Lia Bool List Arith.
From Verif Require Import Base Dec Value Heap Ast Ops Lexer Parser Print RoundTrip RelexFacts CellSpec Samples PropSyntax PropGrammar.
Import ListNotations.
Local Open Scope string_scope.
Local Open Scope list_scope.
Local Open Scope nat_scope.

Definition letters_of_names : string := "abcdefghijklmnopqrstuvwxyzABCDEFGHIJKLMNOPQRSTUVWXYZ$_#".
Definition digits_of_names : string := "0123456789".
Definition reserved : list string := ["and"; "or"; "in"; "not"; "true"; "false"; "null"; "$"; "$root"; "#"].
Lemma alpha_letters : forall c, In c (list_ascii_of_string letters_of_names) -> is_alpha c = true.
Proof. intros c H. cbn in H. repeat (destruct H as [<-|H]; [reflexivity|]). contradiction. Qed.
Lemma alnum_letters : forall c, In c (list_ascii_of_string (letters_of_names ++ digits_of_names)) -> is_alnum c = true.
Proof. intros c H. cbn in H. repeat (destruct H as [<-|H]; [reflexivity|]). contradiction. Qed.

(** Letters, digits, [$], [_] and [#] make a name, unless it starts with a digit or is reserved. *)
Theorem C17_names : forall pn c r, In c (list_ascii_of_string letters_of_names) ->
  Forall (fun x => In x (list_ascii_of_string (letters_of_names ++ digits_of_names))) (list_ascii_of_string r) ->
  ~ In (String c r) reserved -> parse_source pn FStandard (String c r ++ " ") = Some (Ok (NIdent (String c r))).
Proof.
  intros pn c r C R K. assert (P : plain_name (String c r) = true).
  { cbn [plain_name]. rewrite (alpha_letters c C). cbn [andb]. apply andb_true_intro. split.
    - induction r as [|x r IH]; [reflexivity|]. cbn in R. inversion R; subst. cbn [all_bytes]. rewrite alnum_letters by assumption. cbn [andb].
      clear - H2. induction r as [|y r IH]; [reflexivity|]. cbn in H2. inversion H2; subst. cbn [all_bytes]. rewrite alnum_letters by assumption. cbn. now apply IH.
    - apply negb_true_iff. destruct (existsb _ _) eqn:E; [|reflexivity]. exfalso. apply existsb_exists in E as (k & I & E). apply String.eqb_eq in E. subst k. exact (K I). }
  pose proof (C18_source pn (fun _ => "") (NIdent (String c r))) as H. cbn [words render] in H.
  assert (N0 : ident_of_str (String c r) = None).
  { destruct (ident_of_str (String c r)) as [i|] eqn:E; [|reflexivity]. exfalso. apply K. unfold ident_of_str in E. apply aget_Some_in in E. cbn in E. unfold reserved. cbn.
    repeat (destruct E as [E|E]; [apply (f_equal fst) in E; cbn [fst] in E; rewrite <- E; tauto|]). contradiction. }
  apply H; [cbn [canon]; repeat split; try (intros E; apply K; rewrite E; cbn; tauto)|].
  repeat constructor. unfold wname. rewrite N0. exact P.
Qed.
Print Assumptions C17_names.
Example C17_names_case : parse_source read_num FStandard "unit_price2 " = Some (Ok (NIdent "unit_price2")).
Proof. vm_compute. reflexivity. Qed.

(** The functions of the language; the first column is how a cell that calls one is tested: the value equals the result ([CEq]),
    is in it ([CIn]), or the result itself decides. *)
Definition functions : list (option comparison_op * (string * ifun)) :=
  [ (Some CEq, ("len", FLen)); (None, ("contains", FContains)); (Some CIn, ("flatten", FFlatten)); (Some CIn, ("merge", FMerge));
    (Some CIn, ("mergeDeep", FMergeDeep)); (Some CEq, ("upper", FUpper)); (Some CEq, ("lower", FLower)); (Some CEq, ("trim", FTrim));
    (None, ("startsWith", FStartsWith)); (None, ("endsWith", FEndsWith)); (None, ("matches", FMatches)); (Some CIn, ("extract", FExtract));
    (Some CEq, ("fuzzyMatch", FFuzzyMatch)); (Some CIn, ("split", FSplit)); (Some CEq, ("abs", FAbs)); (Some CEq, ("sum", FSum));
    (Some CEq, ("avg", FAvg)); (Some CEq, ("min", FMin)); (Some CEq, ("max", FMax)); (Some CEq, ("rand", FRand));
    (Some CEq, ("median", FMedian)); (Some CEq, ("mode", FMode)); (Some CEq, ("floor", FFloor)); (Some CEq, ("ceil", FCeil));
    (Some CEq, ("round", FRound)); (Some CEq, ("trunc", FTrunc)); (None, ("isNumeric", FIsNumeric)); (Some CEq, ("string", FString));
    (Some CEq, ("number", FNumber)); (Some CEq, ("bool", FBool)); (Some CEq, ("type", FType)); (Some CIn, ("keys", FKeys));
    (Some CIn, ("values", FValues)); (Some CEq, ("d", FDate)) ].
Definition older : list string :=
  [ "date"; "time"; "duration"; "year"; "dayOfWeek"; "dayOfMonth"; "dayOfYear"; "weekOfYear"; "monthOfYear"; "monthString"; "dateString";
    "weekdayString"; "startOf"; "endOf" ].
Definition closures : list (option comparison_op * (string * closure)) :=
  [ (None, ("all", ClAll)); (None, ("none", ClNone)); (None, ("some", ClSome)); (None, ("one", ClOne)); (Some CIn, ("filter", ClFilter));
    (Some CIn, ("map", ClMap)); (Some CIn, ("flatMap", ClFlatMap)); (Some CEq, ("count", ClCount)) ].
Definition methods : list (option comparison_op * string) :=
  map (pair (Some CEq)) ["add"; "sub"; "set"; "format"; "startOf"; "endOf"; "diff"; "tz"; "second"; "minute"; "hour"; "day"; "dayOfYear"; "week"; "weekday";
    "month"; "quarter"; "year"; "timestamp"; "offsetName"] ++
  map (pair None) ["isSame"; "isBefore"; "isAfter"; "isSameOrBefore"; "isSameOrAfter"; "isValid"; "isYesterday"; "isToday"; "isTomorrow"; "isLeapYear"].
Lemma all_in : forall {A} (P : A -> Prop) l, Forall P l -> forall x, In x l -> P x.
Proof. intros A P l F x. now apply Forall_forall. Qed.

(** Every name calls its function, whatever the function that reads numbers. *)
Theorem C18_functions : forall pn,
  (forall c s f, In (c, (s, f)) functions -> parse_source pn FStandard (s ++ "(x)") = Some (Ok (NCall (FInternal f) [NIdent "x"]))) /\
  (forall s, In s older -> parse_source pn FStandard (s ++ "(x)") = Some (Ok (NCall (FDeprecated s) [NIdent "x"]))) /\
  (forall c s k, In (c, (s, k)) closures -> parse_source pn FStandard (s ++ "(x, y)") = Some (Ok (NCall (FClosure k) [NIdent "x"; NClosure (NIdent "y") None]))) /\
  (forall c s, In (c, s) methods -> parse_source pn FStandard ("x." ++ s ++ "(y)") = Some (Ok (NMethod s (NIdent "x") [NIdent "y"]))).
Proof.
  intros pn. split; [|split; [|split]].
  - intros c s f I. refine (all_in (fun e => parse_source pn FStandard (fst (snd e) ++ "(x)") = Some (Ok (NCall (FInternal (snd (snd e))) [NIdent "x"]))) functions _ (c, (s, f)) I).
    repeat constructor; vm_compute; reflexivity.
  - apply all_in. repeat constructor; vm_compute; reflexivity.
  - intros c s k I. refine (all_in (fun e => parse_source pn FStandard (fst (snd e) ++ "(x, y)") = Some (Ok (NCall (FClosure (snd (snd e))) [NIdent "x"; NClosure (NIdent "y") None]))) closures _ (c, (s, k)) I).
    repeat constructor; vm_compute; reflexivity.
  - intros c s I. refine (all_in (fun e => parse_source pn FStandard ("x." ++ snd e ++ "(y)") = Some (Ok (NMethod (snd e) (NIdent "x") [NIdent "y"]))) methods _ (c, s) I).
    repeat constructor; vm_compute; reflexivity.
Qed.
Print Assumptions C18_functions.
(** No function is left out: every function of the language has a name in the table. *)
Theorem C18_functions_all : forall f k, (exists c s, In (c, (s, f)) functions) /\ (exists c s, In (c, (s, k)) closures).
Proof.
  intros f k. split.
  - destruct f; do 2 eexists; repeat (first [left; reflexivity|right]).
  - destruct k; do 2 eexists; repeat (first [left; reflexivity|right]).
Qed.
Print Assumptions C18_functions_all.

(** Words of the language are names of properties after a dot, and keys of objects. *)
Theorem C18_word_names : forall pn w,
  (In w ["and"; "or"; "in"; "not"; "null"; "$"; "$root"; "#"] -> parse_source pn FStandard ("a." ++ w) = Some (Ok (NMember (NIdent "a") (NString w)))) /\
  (In w ["true"; "false"; "null"; "$"; "$root"; "#"] -> parse_source pn FStandard ("{" ++ w ++ ": a}") = Some (Ok (NObject [(NString w, NIdent "a")]))).
Proof.
  intros pn w. split; intros I; cbn in I; repeat (destruct I as [<-|I]; [vm_compute; reflexivity|]); contradiction.
Qed.
Print Assumptions C18_word_names.
(** Not all of them: [a.true] and [{and: a}] are refused. *)
Theorem C18_word_names_refuted : exists e f, parse_source read_num FStandard "a.true" = Some (Err e) /\ parse_source read_num FStandard "{and: a}" = Some (Err f).
Proof. do 2 eexists. split; vm_compute; reflexivity. Qed.
Print Assumptions C18_word_names_refuted.

(** How a cell that calls a function is tested. *)
Definition tested (c : option comparison_op) (n : node) : node :=
  match c with Some c => NBinary (NIdent "$") (OpCmp c) n | None => NCall (FInternal FBool) [n] end.
Theorem C20_calls :
  (forall c s f args, In (c, (s, f)) functions -> test_node (TVal (NCall (FInternal f) args)) = tested c (NCall (FInternal f) args)) /\
  (forall s args, test_node (TVal (NCall (FDeprecated s) args)) = tested (Some CEq) (NCall (FDeprecated s) args)) /\
  (forall c s k args, In (c, (s, k)) closures -> test_node (TVal (NCall (FClosure k) args)) = tested c (NCall (FClosure k) args)) /\
  (forall c s x args, In (c, s) methods -> test_node (TVal (NMethod s x args)) = tested c (NMethod s x args)).
Proof.
  repeat split.
  - intros c s f args I. cbn in I. repeat (destruct I as [I|I]; [injection I as <- _ <-; reflexivity|]). contradiction.
  - intros c s k args I. cbn in I. repeat (destruct I as [I|I]; [injection I as <- _ <-; reflexivity|]). contradiction.
  - intros c s x args I. cbn in I. repeat (destruct I as [I|I]; [injection I as <- <-; reflexivity|]). contradiction.
Qed.
Print Assumptions C20_calls.
Example C20_calls_case : parse_source read_num FUnary "isNumeric($), floor(x)" =
  Some (Ok (NBinary (NCall (FInternal FBool) [NCall (FInternal FIsNumeric) [NIdent "$"]]) (OpLogic LOr) (NBinary (NIdent "$") (OpCmp CEq) (NCall (FInternal FFloor) [NIdent "x"])))).
Proof. vm_compute. reflexivity. Qed.

(** What a cell that is not a call asks of its value: equality with plain values, membership in lists and ranges, truth of conditions.
    A choice and a sum ask what both parts ask, and equality if the parts ask different things. *)
Inductive asks : node -> option comparison_op -> Prop :=
| asks_equal : forall n, (match n with NNull | NRoot | NBool _ | NNumber _ | NString _ | NTemplate _ | NObject _ | NIdent _ | NMember _ _ => True | _ => False end) -> asks n (Some CEq)
| asks_member : forall n, (match n with NArray _ | NSlice _ _ _ | NInterval _ _ _ _ => True | _ => False end) -> asks n (Some CIn)
| asks_truth : forall a o b, (match o with OpCmp _ | OpLogic _ => True | _ => False end) -> asks (NBinary a o b) None
| asks_call : forall c s f args, In (c, (s, f)) functions -> asks (NCall (FInternal f) args) c
| asks_loop : forall c s k args, In (c, (s, k)) closures -> asks (NCall (FClosure k) args) c
| asks_method : forall c s x args, In (c, s) methods -> asks (NMethod s x args) c
| asks_paren : forall a c, asks a c -> asks (NParen a) c
| asks_unary : forall a o c, asks a c -> asks (NUnary a o) c
| asks_both : forall n a b c, ((exists q, n = NCond q a b) \/ (exists o, n = NBinary a (OpArith o) b)) -> asks a c -> asks b c -> asks n c
| asks_mixed : forall n a b c d, ((exists q, n = NCond q a b) \/ (exists o, n = NBinary a (OpArith o) b)) -> asks a c -> asks b d -> c <> d -> asks n (Some CEq).
Lemma asks_kinds : forall n c, asks n c -> behaviour n = c /\ In c [None; Some CEq; Some CIn].
Proof.
  assert (K : forall n c, test_node (TVal n) = tested c n -> behaviour n = c).
  { intros n c H. cbn in H. unfold tested in H. destruct (behaviour n) as [x|], c as [y|]; try discriminate H; congruence. }
  induction 1 as [n H|n H|a o b H|c s f args I|c s k args I|c s x args I|a c _ [IH J]|a o c _ [IH J]|n a b c E _ [IH J] _ [IH2 _]|n a b c d E _ [IH J] _ [IH2 J2] D].
  - destruct n; try contradiction; split; cbn; auto.
  - destruct n; try contradiction; split; cbn; auto.
  - destruct o; try contradiction; split; cbn; auto.
  - split; [apply K; exact (proj1 C20_calls _ _ _ _ I)|]. cbn in I. repeat (destruct I as [I|I]; [injection I as <- _ _; cbn; auto|]). contradiction.
  - split; [apply K; exact (proj1 (proj2 (proj2 C20_calls)) _ _ _ _ I)|]. cbn in I. repeat (destruct I as [I|I]; [injection I as <- _ _; cbn; auto|]). contradiction.
  - split; [apply K; exact (proj2 (proj2 (proj2 C20_calls)) _ _ _ _ I)|]. cbn in I. repeat (destruct I as [I|I]; [injection I as <- _; cbn; auto|]). contradiction.
  - split; auto.
  - split; auto.
  - assert (B : behaviour n = both (behaviour a) (behaviour b)) by (destruct E as [[q ->]|[o ->]]; reflexivity). split; [|exact J]. rewrite B, IH, IH2.
    cbn in J. destruct J as [<-|[<-|[<-|[]]]]; reflexivity.
  - assert (B : behaviour n = both (behaviour a) (behaviour b)) by (destruct E as [[q ->]|[o ->]]; reflexivity). split; [|cbn; auto]. rewrite B, IH, IH2.
    cbn in J, J2. destruct J as [<-|[<-|[<-|[]]]], J2 as [<-|[<-|[<-|[]]]]; try reflexivity; now elim D.
Qed.
Theorem C20_asks : forall n c, asks n c -> test_node (TVal n) = tested c n.
Proof. intros n c A. apply asks_kinds in A as [B _]. cbn. now rewrite B. Qed.
Print Assumptions C20_asks.
(** A cell that is a choice between a list and a number is compared by equality; between two lists, by membership. *)
Example C20_asks_case : parse_source read_num FUnary "a > 1 ? [1] : 2, a > 1 ? [1] : [2]" =
  Some (Ok (NBinary (NBinary (NIdent "$") (OpCmp CEq) (NCond (NBinary (NIdent "a") (OpCmp CGt) (nnum 1)) (NArray [nnum 1]) (nnum 2)))
    (OpLogic LOr)
    (NBinary (NIdent "$") (OpCmp CIn) (NCond (NBinary (NIdent "a") (OpCmp CGt) (nnum 1)) (NArray [nnum 1]) (NArray [nnum 2])))))
  /\ asks (NCond (NIdent "a") (NArray []) (nnum 2)) (Some CEq).
Proof. split; [vm_compute; reflexivity|]. eapply asks_mixed; [left; eexists; reflexivity|apply asks_member; exact I|apply asks_equal; exact I|discriminate]. Qed.
