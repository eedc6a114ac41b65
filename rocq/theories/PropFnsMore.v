(** C53, continued: conversions, texts handed to libraries, dates, random numbers and numbers of arguments. *)
From Coq Require Import String Ascii ZArith QArith Qabs Lia Bool List Arith.
From Verif Require Import Base Dec Value Heap Ast Ops Compiler Vm Eval Funcs Samples HeapSpec HeapFacts PureFacts RunSpec OpFacts FnSpec FnMoreSpec FnFacts FnClaims FnMore.
Import ListNotations.
Local Open Scope string_scope.
Local Open Scope list_scope.
Local Open Scope nat_scope.

(** [number(x)]: a number is itself, true is 1, false is 0, other values that are not texts fail. *)
Theorem C53_number_others : forall L h, (forall x, call_gives L FNumber [VNum x] h (Ok (VNum x)) h) /\
  (forall b, exists y, call_gives L FNumber [VBool b] h (Ok (VNum y)) h /\ (dec_val y == if b then 1 else 0)%Q) /\
  (forall v, v = VNull \/ (exists l, v = VArr l) \/ (exists l, v = VObj l) \/ (exists d, v = VDyn d) -> call_gives L FNumber [v] h (Err (EOp "CallFunction")) h).
Proof. exact number_others_claim. Qed.
Print Assumptions C53_number_others.
(** [isNumeric(x)]: numbers, and texts that [number] converts. *)
Theorem C53_is_numeric : forall L v h, exists r, call_gives L FIsNumeric [v] h (Ok (VBool r)) h /\
  (r = true <-> (exists x, v = VNum x) \/ exists s d, v = VStr s /\ l_parse L (l_trim L s) = Some d).
Proof. exact is_numeric_claim. Qed.
Print Assumptions C53_is_numeric.
Example C53_is_numeric_case : yields demo (NCall (FInternal FIsNumeric) [NBool true]) s_root s_heap (Ok (VBool false)) s_heap /\
  yields demo (NCall (FInternal FNumber) [NBool true]) s_root s_heap (Ok (num 1)) s_heap.
Proof. split; (apply yields_iff; split; [eexists; reflexivity|vm_compute; reflexivity]). Qed.

(** [upper], [lower] and [trim] give what the text library gives. *)
Theorem C53_text_case : forall L s h, call_gives L FUpper [VStr s] h (Ok (VStr (l_upper L s))) h /\ call_gives L FLower [VStr s] h (Ok (VStr (l_lower L s))) h /\
  call_gives L FTrim [VStr s] h (Ok (VStr (l_trim L s))) h.
Proof. exact texts_claim. Qed.
Print Assumptions C53_text_case.
(** [matches(text, pattern)] and [extract(text, pattern)]: the answer of the regular expression library for that text and that pattern; the captures in order. *)
Theorem C53_matches : forall L s pattern h, (forall b, l_matches L s pattern = Some b -> call_gives L FMatches [VStr s; VStr pattern] h (Ok (VBool b)) h) /\
  (l_matches L s pattern = None -> call_gives L FMatches [VStr s; VStr pattern] h (Err (EOp "CallFunction")) h).
Proof. exact matches_claim. Qed.
Print Assumptions C53_matches.
Theorem C53_extract : forall L s pattern h, (forall l, l_captures L s pattern = Some l ->
    exists h3 a, call_gives L FExtract [VStr s; VStr pattern] h (Ok (VArr a)) h3 /\ hext h h3 /\ hget h3 a = Some (CArr (map VStr l))) /\
  (l_captures L s pattern = None -> call_gives L FExtract [VStr s; VStr pattern] h (Err (EOp "CallFunction")) h).
Proof. exact extract_claim. Qed.
Print Assumptions C53_extract.
(** [fuzzyMatch(text, other)] is their similarity; of an array of texts, the similarities of its texts, in order. *)
Theorem C53_fuzzy : forall L s t h, call_gives L FFuzzyMatch [VStr s; VStr t] h (Ok (VNum (l_similarity L s t))) h /\
  (forall l ss, hget h l = Some (CArr (map VStr ss)) ->
    exists h3 a, call_gives L FFuzzyMatch [VArr l; VStr t] h (Ok (VArr a)) h3 /\ hext h h3 /\ hget h3 a = Some (CArr (map (fun x => VNum (l_similarity L x t)) ss))).
Proof. exact fuzzy_claim. Qed.
Print Assumptions C53_fuzzy.
Example C53_fuzzy_case : let h := s_heap ++ [CArr (map VStr ["Ann"; "Bob"])] in hget h (length s_heap) = Some (CArr (map VStr ["Ann"; "Bob"])) /\
  arguments demo s_root [NString "Ann"; NString "Bob"] s_heap [VStr "Ann"; VStr "Bob"] s_heap.
Proof. split; [vm_compute; reflexivity|]. repeat (econstructor; [reflexivity|apply yields_iff; (split; [eexists; reflexivity|reflexivity])|]). constructor. Qed.

(** [split(text, "")]: the characters of the text between two empty texts. A character is one byte followed by continuation bytes. *)
Theorem C53_split_characters : forall L a h, exists h3 l cs, call_gives L FSplit [VStr a; VStr ""] h (Ok (VArr l)) h3 /\ hext h h3 /\
  hget h3 l = Some (CArr (map VStr ("" :: cs ++ [""]))) /\ concat_all cs = a /\
  (forall c, In c cs -> exists b r, c = String b r /\ Forall (fun x => is_cont_byte x = true) (list_ascii_of_string r)) /\
  (forall c, In c (tl cs) -> exists b r, c = String b r /\ is_cont_byte b = false).
Proof. exact split_chars_claim. Qed.
Print Assumptions C53_split_characters.
Example C53_split_characters_case : exists h3, yields demo (NCall (FInternal FSplit) [NString "abc"; NString ""]) s_root s_heap (Ok (VArr (length s_heap))) h3 /\
  hget h3 (length s_heap) = Some (CArr (map VStr [""; "a"; "b"; "c"; ""])).
Proof. eexists. split; [apply yields_iff; split; [eexists; reflexivity|vm_compute; reflexivity]|vm_compute; reflexivity]. Qed.

(** [min] and [max] of dates: a date of the array that is not later, or not earlier, than any of them. *)
Theorem C53_dates : forall L l ds h, hget h l = Some (CArr (map (fun d => VDyn (DDate d)) ds)) -> ds <> [] ->
  (exists m, call_gives L FMin [VArr l] h (Ok (VDyn (DDate m))) h /\ In m ds /\ forall y, In y ds -> not_later m y) /\
  (exists m, call_gives L FMax [VArr l] h (Ok (VDyn (DDate m))) h /\ In m ds /\ forall y, In y ds -> not_later y m).
Proof. exact dates_claim. Qed.
Print Assumptions C53_dates.

(** [rand(x)] asks for a random number up to the whole number nearest to [x]; it panics if there is none. *)
Theorem C53_rand : forall L x h, (inject_Z (- 2 ^ 62) < dec_val x)%Q -> (dec_val x < inject_Z (2 ^ 62))%Q -> exists z, (Qabs (inject_Z z - dec_val x) <= 1 # 2)%Q /\
  (forall r, l_rand L z = Some r -> call_gives L FRand [VNum x] h (Ok (VNum r)) h) /\
  (l_rand L z = None -> call_gives L FRand [VNum x] h (Err (EPanic "empty range")) h).
Proof. exact rand_claim. Qed.
Print Assumptions C53_rand.
(** The finding: a negative bound panics. *)
Theorem C53_rand_negative_refuted : exists L, yields (std_ext L) (NCall (FInternal FRand) [NNumber (Dec (-1) 0)]) s_root s_heap (Err (EPanic "empty range")) s_heap.
Proof. exists demo_lib. apply yields_iff. split; [eexists; reflexivity|vm_compute; reflexivity]. Qed.
Print Assumptions C53_rand_negative_refuted.

(** A call compiles exactly if the function takes that many arguments and the arguments compile. *)
Theorem C53_arity : forall L k ns, (forall c, k <> FClosure c) ->
  (compiles (std_ext L) (NCall k ns) <-> takes k (length ns) /\ Forall (compiles (std_ext L)) ns).
Proof. exact arity_claim. Qed.
Print Assumptions C53_arity.
Example C53_arity_case : compiles demo (NCall (FInternal FRound) [nnum 1; nnum 2]) /\ ~ compiles demo (NCall (FInternal FRound) [nnum 1; nnum 2; nnum 3]) /\
  ~ compiles demo (NCall (FDeprecated "startOf") [nnum 1]) /\ ~ compiles demo (NCall (FDeprecated "unheard") [nnum 1]).
Proof.
  split; [eexists; reflexivity|]. split; [|split]; intros H; apply (C53_arity demo_lib) in H; try discriminate; destruct H as [H _]; cbn in H;
  repeat match goal with H : _ \/ _ |- _ => destruct H | H : _ /\ _ |- _ => destruct H end; try discriminate; try lia; try contradiction.
Qed.

(** A template gives the texts of its parts one after the other, in the order in which they are written. *)
Theorem C51_template : forall L root parts h s h1, spells (std_ext L) root h parts s h1 ->
  exists h2, hext h1 h2 /\ yields (std_ext L) (NTemplate parts) root h (Ok (VStr s)) h2.
Proof. exact template_claim. Qed.
Print Assumptions C51_template.
Example C51_template_case : spells demo s_root s_heap [NString "n="; NBinary (nnum 1) (OpArith AAdd) (nnum 2); NString ", "; NBool true] "n=3, true" s_heap.
Proof.
  change "n=3, true" with ("n=" ++ ("3" ++ (", " ++ ("true" ++ ""))))%string.
  repeat (eapply SP_part; [reflexivity|apply yields_iff; split; [eexists; reflexivity|vm_compute; reflexivity]|first [apply (TO_num (dec_of_Z 3%Z))|constructor]|]). constructor.
Qed.
