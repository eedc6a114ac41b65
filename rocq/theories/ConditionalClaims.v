(** The conditional schema and evaluations. *)
From Coq Require Import String Ascii Bool List Arith Lia Relations.
From Verif Require Import Base Dec Value Heap Ast Ops Compiler Eval Funcs HeapSpec HeapFacts Isolate Session PureFacts RunSpec ContentFacts
  Deps DepsSpec DepsClaims Driver DriverSpec DriverFacts DriverRun Blocks BlocksSpec AssertFacts BlocksFacts PolicyRun PolicySpec SolveFacts SolveRun SolveTwo Discriminant PGraph NeedSpec NeedFacts
  NeedRun NeedClaims Conditional ConditionalSpec ConditionalFacts ConditionalRun.
Import ListNotations.
Local Open Scope string_scope.
Local Open Scope nat_scope.
Local Open Scope list_scope.

Lemma text_sources : forall parse k pk e, closed_block parse k -> evaluates_text k pk e -> In e (asked_sources k ++ chosen_sources k pk).
Proof.
  intros parse k pk e [_ Hc] H. destruct H as [x y pk|x l c pk Hi|x arms a pk Hi N|x arms a Hi N]; cbn [asked_sources chosen_sources].
  - now left.
  - rewrite app_nil_r. now apply in_map.
  - apply in_app_iff. left. apply filter_In. split; [now apply in_map|]. now rewrite (proj2 (String.eqb_neq _ _) N).
  - apply in_app_iff. right. assert (F : find (fun a0 => String.eqb (ma_id a0) (ma_id a)) arms = Some a).
    { revert Hc Hi. clear. induction arms as [|c r IH]; [intros _ []|]. cbn [map find]. intros Hn [<-|Hi]; [now rewrite String.eqb_refl|]. inversion Hn as [|z t Hz Ht]; subst.
      destruct (String.eqb_spec (ma_id c) (ma_id a)) as [E|]; [|now apply IH]. exfalso. apply Hz. rewrite E. now apply in_map. }
    rewrite F, (proj2 (String.eqb_neq _ _) N). now left.
Qed.
Lemma marm_dec : forall a b : marm, {a = b} + {a <> b}.
Proof. decide equality; apply String.string_dec. Qed.

Section Claims.
  Variable L : lib.
  Hypothesis HL : plain_lib L.
  Variable parse : ekind -> string -> res node.
  Variable noticed : string -> list pread.
  Variable dm : list string.
  Variable sources : entity_sources.
  Variable p : policy.
  Hypothesis HP : sound_policy parse dm p.
  Hypothesis HE : declared_entities dm sources.
  Hypothesis HU : undotted parse p.
  Variable members : list string.
  Variable declared_inputs : list string.
  Variable testable : string -> bool.
  Notation rewrite_ := (entity_rewrite sources).
  Notation recovered := (recovered_paths noticed sources).
  Notation rules := (rules_of parse noticed p).
  Notation blocks := (p_blocks p).
  Notation kn := (p_known p).
  Notation al := (p_always parse rewrite_ recovered p).
  Notation rd := (p_reads parse rewrite_ recovered p).
  Notation lg := (log pworld pick).
  Notation wd := (Driver.world pworld pick).
  Notation eval := (evaluate_policy (std_ext L) parse rewrite_ recovered dm p).
  Notation needs := (arm_needs parse noticed dm sources p).
  Hypothesis acyclic : forall b, ~ clos_trans _ (wants dm blocks kn al rd) b b.
  Variable goals : list string.
  Hypothesis HG : forall g, In g goals -> exists b k, In (b, k) p /\ g = block_key k.
  Notation asked := (roots dm sources rules members goals).
  Lemma asked_keys : forall g, In g asked -> exists b k, In (b, k) p /\ g = block_key k.
  Proof.
    intros g Hg. unfold roots in Hg. destruct goals as [|g0 gs]; [|now apply HG]. apply sinks_iff in Hg as ((b & (l1 & ws & l2 & El & T & _) & _) & _).
    apply (computed_key parse noticed dm p HP). assert (H : In (b, ws) (map (fun s => (sh_block s, sh_writes s)) rules)) by (rewrite El; apply in_app_iff; right; now left).
    apply in_map_iff in H as (s & Es & Hs). injection Es as <- <-. exists s. auto.
  Qed.
  Lemma asked_concerned : forall q, is_needed dm sources rules members asked q -> concerned parse noticed dm sources p members goals q.
  Proof.
    intros q (g & Hg & M & D & _). exists g. split; auto. split; auto. pose proof (asked_keys g Hg) as (b & k & Hk & Ek). unfold roots in Hg. destruct goals as [|g0 gs]; auto.
    apply sinks_iff in Hg as [Hc _]. split; auto. intros a A Na _. apply Na. subst g. exact (nodot_above _ _ (key_flat parse dm p HP _ _ Hk) A).
  Qed.
  Lemma input_kept : forall x q, is_needed dm sources rules members asked q -> In x declared_inputs -> tied x q -> In x (schema_inputs parse noticed dm sources p members declared_inputs goals).
  Proof.
    intros x q Hq Hx T. unfold schema_inputs. unfold roots in Hq. destruct goals as [|g0 gs]; auto. apply filter_In. split; auto. apply existsb_exists. exists q. split; [now apply inputs_iff|now apply related_iff].
  Qed.
  Hypothesis covered : forall q, is_needed dm sources rules members asked q -> exists x, In x declared_inputs /\ tied x q.
  Variables (ha hb : heap) (la lb : loc) (Ta Tb : tree) (xa xb : bool) (fa fb : nat) (sa sb : dstate pworld pick) (ua : unit) (rb : unit + err).
  Hypothesis Wa : wf_heap ha.
  Hypothesis Wb : wf_heap hb.
  Hypothesis Ra : repr ha (VObj la) Ta.
  Hypothesis Rb : repr hb (VObj lb) Tb.
  Hypothesis Na : forall t, ~ shows ha (VObj la) "$" t.
  Hypothesis Nb : forall t, ~ shows hb (VObj lb) "$" t.
  Hypothesis Ea : eval xa fa asked (VObj la) ha = Some (sa, inl ua).
  Hypothesis Eb : eval xb fb asked (VObj lb) hb = Some (sb, rb).
  Notation result := ((exists u, rb = inl u) /\ forall g t, In g asked -> (shows (pw_heap (wd sa)) (VObj la) g t <-> shows (pw_heap (wd sb)) (VObj lb) g t)).
  Variable G : bref -> marm -> Prop.
  Hypothesis G_dec : forall b a, G b a \/ ~ G b a.
  Variable C : string -> Prop.
  Hypothesis C_dec : forall q, C q \/ ~ C q.
  Hypothesis CG : forall q, concerned parse noticed dm sources p members goals q -> (exists c a, G c a /\ needs a q) \/ C q.
  Hypothesis KA : kept_to_arms parse noticed dm sources p G C asked.
  Lemma arms_settle : (forall q, is_needed dm sources rules members asked q -> C q \/ (~ C q /\ exists c a, G c a /\ arm_selected (lg sa) c (ma_id a) /\ needs a q) -> at_path Ta (split_dot q) = at_path Tb (split_dot q)) ->
    result.
  Proof.
    intros Same. apply (read_settle L HL parse noticed dm sources p HP acyclic asked asked_keys ha hb la lb Ta Tb xa xb fa fb sa sb ua rb); auto.
    intros q (b & k & pk & e & n & x & Hl & Hk & Ht & P & Hx & Al & Px & Hn). pose proof (sp_closed _ _ _ HP b k Hk) as Ck.
    pose proof (text_sources parse k pk e Ck Ht) as He. destruct (sources_closed parse k pk e Ck He) as [_ Ne].
    destruct q as [|x0 l0]; [exfalso; now apply (reported_nonempty _ _ Hx)|].
    assert (Hn' : forall b' k', In (b', k') p -> block_key k' <> x0). { intros b' k' Hk' E. apply (Hn b' k' Hk'). cbn. now rewrite E. }
    assert (Hp : path_of parse e (x0 :: l0)) by (exists n, x; auto).
    assert (Hb : In b (nm (lg sa))) by (change b with (fst (b, Some pk)); now apply in_map).
    pose proof (run_used L HL parse noticed dm sources p HP HE asked asked_keys acyclic ha la Ta xa fa sa (inl ua) Wa Ra Na Ea b Hb) as Hu.
    destruct (used_needs parse noticed dm sources p HP HU asked members b k pk e x0 l0 Hu Hk He Hp Hn') as [Hi Es].
    pose proof (Same (join_dots (x0 :: l0)) Hi) as S0. rewrite Es in S0. apply S0.
    destruct (C_dec (join_dots (x0 :: l0))) as [Hc|Hc]; [now left|]. right. split; auto.
    destruct (CG _ (asked_concerned _ Hi)) as [Hg|Hg]; [|contradiction].
    exact (taken_input L HL parse noticed dm sources p HP HE acyclic asked asked_keys ha la Ta xa fa sa ua Wa Ra Na Ea G G_dec C KA b k pk e x0 l0 Hl Hk Ht Ne Hp Hc Hg Hn').
  Qed.
End Claims.
