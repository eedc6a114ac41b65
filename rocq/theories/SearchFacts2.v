(** * Proof helper: the places that are searched, the order of the hits and the limit *)
From Coq Require Import Ascii String List Bool Arith NArith Lia Permutation Sorted.
Import ListNotations.
From Verif Require Import Base Json Workspace WorkspaceMaps Search SearchSpec SearchFacts.
Require Verif.ConvertFacts.
Local Open Scope nat_scope.
Local Open Scope list_scope.

(** ** The text of a hit *)
Definition shows (t : string) (s e : nat) (text : string) (sp : nat * nat) : Prop :=
  (length (chars t) <= 200 -> text = t /\ sp = (s, e)) /\
  (200 < length (chars t) -> exists k, k + 200 <= length (chars t) /\ chars text = run k (k + 200) (chars t) /\
     fst sp <= snd sp <= 200 /\ (e - s <= 200 -> k <= s /\ e <= k + 200 /\ sp = (s - k, e - k))).
Lemma snippet_shows : forall t s e text sp, s < e -> e <= length (chars t) -> snippet t (s, e) = (text, sp) -> shows t s e text sp.
Proof.
  intros t s e text sp A B H. unfold snippet in H. cbn [fst snd] in H. destruct (length (chars t) <=? 200) eqn:C.
  - apply Nat.leb_le in C. injection H as <- <-. split; [auto|lia].
  - apply Nat.leb_gt in C. split; [lia|]. intros _. set (n := length (chars t)) in *. set (mid := (s + e) / 2) in *.
    assert (M : 2 * mid <= s + e < 2 * mid + 2).
    { pose proof (Nat.div_mod (s + e) 2 (ltac:(discriminate))). pose proof (Nat.mod_upper_bound (s + e) 2 (ltac:(discriminate))). subst mid. lia. }
    clearbody mid. set (start := Nat.min (mid - 100) (n - 200)) in *. replace (Nat.min (start + 200) n) with (start + 200) in H by (subst start; lia).
    replace (start + 200 - start) with 200 in H by lia. injection H as <- <-. exists start. split; [subst start; lia|].
    split; [unfold run; replace (start + 200 - start) with 200 by lia; unfold chars; apply list_ascii_of_string_of_list_ascii|]. cbn [fst snd]. split.
    + subst start. lia.
    + intros D. subst start. split; [lia|]. split; [lia|]. f_equal; lia.
Qed.

Section Places.
  Variable L : letters.
  Variable ws : list (list ascii).
  Hypothesis full : Forall (fun w => w <> []) ws.
  Hypothesis some : ws <> [].
  Variable p : path.
  Notation ts := (map (lower_case L) ws).

  (** What a hit says of the text it stands for. *)
  Definition good_text (h : hit) (t : string) : Prop :=
    Forall (spelled_in L (chars t)) ws /\ exists w s e x, In w ws /\ spelled_by L (chars t) w s e /\ shows t s e (ht_text h) (ht_span h) /\
      score L ts t = Some (x, (s, e)) /\ ht_score h = (x * weight (ht_kind h) / 100)%N.
  Definition sound_for (l : list hit) (P : hit_kind -> list string -> site -> Prop) : Prop :=
    forall h, In h l -> ht_path h = p /\ exists cands t, P (ht_kind h) cands (ht_site h) /\ In t cands /\ good_text h t.
  Definition complete_for (l : list hit) (P : hit_kind -> list string -> site -> Prop) : Prop :=
    forall k cands s t, P k cands s -> In t cands -> Forall (stands_in L (chars t)) ws -> exists h, In h l /\ ht_path h = p /\ ht_kind h = k /\ ht_site h = s.
  Definition exact_for (l : list hit) (P : hit_kind -> list string -> site -> Prop) : Prop := sound_for l P /\ complete_for l P.

  Lemma add_in : forall k t s h, In h (add L ts p k t s) -> ht_path h = p /\ ht_kind h = k /\ ht_site h = s /\ good_text h t.
  Proof.
    intros k t s h I. unfold add in I. destruct (score L ts t) as [[x [a b]]|] eqn:E; [|contradiction]. destruct (snippet t (a, b)) as [u v] eqn:S0.
    destruct I as [<-|[]]. cbn [ht_path ht_kind ht_site]. repeat split; try reflexivity; pose proof (score_sound L ws t x (a, b) full E) as [A (w & I & B)]; [exact A|].
    exists w, a, b, x. split; [exact I|]. cbn [fst snd] in B. split; [exact B|]. destruct B as (B1 & B2 & _). cbn [ht_text ht_span ht_score ht_kind]. split; [exact (snippet_shows _ _ _ _ _ B1 B2 S0)|auto].
  Qed.
  Lemma add_some : forall k t s, score L ts t <> None -> exists h, In h (add L ts p k t s) /\ ht_path h = p /\ ht_kind h = k /\ ht_site h = s.
  Proof.
    intros k t s N0. unfold add. destruct (score L ts t) as [[x sp]|]; [|congruence]. destruct (snippet t sp) as [u v]. eexists. split; [now left|]. auto.
  Qed.
  Lemma best_in : forall cands acc x t, best L ts cands acc = Some (x, t) -> acc = Some (x, t) \/ In t cands.
  Proof.
    induction cands as [|c r IH]; intros acc x t; cbn [best]; [auto|]. intros H. apply IH in H as [H|H]; [|right; now right].
    destruct (score L ts c) as [[y sp]|]; [|auto]. destruct acc as [[z d]|]; [destruct (z <=? y)%N|]; auto; injection H as _ ->; right; now left.
  Qed.
  Lemma best_score : forall cands acc x t, best L ts cands acc = Some (x, t) -> (forall y d, acc = Some (y, d) -> score L ts d <> None) -> score L ts t <> None.
  Proof.
    induction cands as [|c r IH]; intros acc x t; cbn [best]; [intros E H; exact (H _ _ E)|]. intros E H. eapply IH; [exact E|]. intros y d E1.
    destruct (score L ts c) as [[z sp]|] eqn:S0; [|exact (H _ _ E1)]. destruct acc as [[z0 d0]|]; [destruct (z0 <=? z)%N; [|exact (H _ _ E1)]|]; injection E1 as <- <-; congruence.
  Qed.
  Lemma best_acc : forall cands y, best L ts cands (Some y) <> None.
  Proof.
    induction cands as [|c r IH]; intros y; cbn [best]; [discriminate|]. destruct (score L ts c) as [[z sp]|]; [|apply IH]. destruct y as [y d]. destruct (y <=? z)%N; apply IH.
  Qed.
  Lemma best_some : forall cands acc t, In t cands -> score L ts t <> None -> best L ts cands acc <> None.
  Proof.
    induction cands as [|c r IH]; intros acc t I N0; [contradiction|]. cbn [best]. destruct I as [->|I].
    - destruct (score L ts t) as [[z sp]|]; [|congruence]. destruct acc as [[y d]|]; [destruct (y <=? z)%N|]; apply best_acc.
    - eapply IH; eassumption.
  Qed.

  Lemma stands_score : forall t, Forall (stands_in L (chars t)) ws -> score L ts t <> None.
  Proof. intros t F. destruct (score_complete L ws t full some F) as [r R]. congruence. Qed.
  Lemma exact_add : forall k t s, exact_for (add L ts p k t s) (fun k0 c s0 => k0 = k /\ c = [t] /\ s0 = s).
  Proof.
    intros k t s. split.
    - intros h I. apply add_in in I as (A & B & C & D). split; [exact A|]. exists [t], t. split; [auto|]. split; [now left|exact D].
    - intros k0 c s0 t0 (-> & -> & ->) [<-|[]] F. apply add_some. now apply stands_score.
  Qed.
  Lemma exact_best : forall k cands s, exact_for (add_best L ts p k cands s) (fun k0 c s0 => k0 = k /\ c = cands /\ s0 = s).
  Proof.
    intros k cands s. unfold add_best. split.
    - intros h I. destruct (best L ts cands None) as [[x t]|] eqn:B; [|contradiction]. apply add_in in I as (A1 & A2 & A3 & A4). split; [exact A1|].
      exists cands, t. split; [auto|]. split; [|exact A4]. apply best_in in B as [B|B]; [discriminate|exact B].
    - intros k0 c s0 t0 (-> & -> & ->) I F. pose proof (best_some cands None t0 I (stands_score _ F)) as N0.
      destruct (best L ts cands None) as [[x t]|] eqn:B; [|congruence]. apply add_some. eapply best_score; [exact B|]. discriminate.
  Qed.
  Lemma exact_nil : exact_for [] (fun _ _ _ => False).
  Proof. split; [intros h []|intros k c s t []]. Qed.
  Lemma exact_app : forall l l0 P Q, exact_for l P -> exact_for l0 Q -> exact_for (l ++ l0) (fun k c s => P k c s \/ Q k c s).
  Proof.
    intros l l0 P Q [A B] [C D]. split.
    - intros h I. apply in_app_or in I as [I|I]; [apply A in I|apply C in I]; destruct I as (E & c & t & F & G); split; [exact E| |exact E|]; exists c, t; (split; [auto|exact G]).
    - intros k c s t [H|H] I F; [destruct (B _ _ _ _ H I F) as (h & J & K)|destruct (D _ _ _ _ H I F) as (h & J & K)]; exists h; (split; [apply in_or_app; auto|exact K]).
  Qed.
  Lemma exact_map : forall {A} (f : A -> list hit) (P : A -> hit_kind -> list string -> site -> Prop) l, (forall x, In x l -> exact_for (f x) (P x)) ->
    exact_for (flat_map f l) (fun k c s => exists x, In x l /\ P x k c s).
  Proof.
    intros A f P l H. split.
    - intros h I. apply in_flat_map in I as (x & I & J). apply (proj1 (H x I)) in J as (E & c & t & F & G). split; [exact E|]. exists c, t. split; [eauto|exact G].
    - intros k c s t (x & I & Px) J F. destruct (proj2 (H x I) _ _ _ _ Px J F) as (h & K & M). exists h. split; [apply in_flat_map; eauto|exact M].
  Qed.
  Lemma exact_iff : forall l P Q, exact_for l P -> (forall k c s, P k c s <-> Q k c s) -> exact_for l Q.
  Proof.
    intros l P Q [A B] E. split.
    - intros h I. apply A in I as (F & c & t & G & H). split; [exact F|]. exists c, t. split; [now apply E|exact H].
    - intros k c s t H. apply E in H. now apply B.
  Qed.

  (** *** Tables *)
  Lemma find_name_find : forall l c, find_name c (map (fun k => (cl_id k, display_name (cl_name k) (field_of k))) l) = option_map shown (find (fun k => String.eqb (cl_id k) c) l).
  Proof. induction l as [|k l IH]; intros c; [reflexivity|]. cbn [map find_name find]. destruct (String.eqb (cl_id k) c); [reflexivity|apply IH]. Qed.
  Lemma not_hidden : forall c, hidden c = false <-> forall r, c <> String "_" r.
  Proof.
    intros c. split.
    - intros H r ->. discriminate H.
    - intros H. unfold hidden. destruct c as [|x c]; [reflexivity|]. destruct x as [[] [] [] [] [] [] [] []]; try reflexivity. exfalso. now apply (H c).
  Qed.
  Lemma exact_cells : forall g s rules i, exact_for (cells L ts p g s i rules)
    (fun k c st => exists j rule id text, nth_error rules j = Some rule /\ In (id, text) rule /\ (forall r, id <> String "_" r) /\ k = HTableCell /\ c = [text] /\
       st = Site (st_block s) (st_node s) None (Some (i + j)) (Some id) (option_map shown (find (fun k => String.eqb (cl_id k) id) (gr_in g ++ gr_out g)))).
  Proof.
    intros g s. induction rules as [|rule rules IH]; intros i; cbn [cells].
    - eapply exact_iff; [apply exact_nil|]. intros k c st. split; [contradiction|]. intros (j & rule & id & text & H & _). destruct j; discriminate H.
    - eapply exact_iff; [apply exact_app; [apply (exact_map _ (fun e k c st => hidden (fst e) = false /\ k = HTableCell /\ c = [snd e] /\
        st = Site (st_block s) (st_node s) None (Some i) (Some (fst e)) (find_name (fst e) (column_names g))))|apply IH]|].
      + intros e _. destruct (hidden (fst e)).
        * eapply exact_iff; [apply exact_nil|]. intuition discriminate.
        * eapply exact_iff; [apply exact_add|]. intuition.
      + intros k c st. unfold column_names. split.
        * intros [([id text] & I & H & -> & -> & ->)|(j & rl & id & text & A & B & C & -> & -> & ->)].
          -- exists 0, rule, id, text. cbn [fst snd nth_error] in *. rewrite find_name_find, Nat.add_0_r. pose proof (proj1 (not_hidden id) H) as H1. repeat split; auto.
          -- exists (S j), rl, id, text. cbn [nth_error]. rewrite Nat.add_succ_r. repeat split; auto.
        * intros (j & rl & id & text & A & B & C & -> & -> & ->). destruct j as [|j].
          -- left. cbn in A. injection A as <-. exists (id, text). cbn [fst snd]. rewrite find_name_find, Nat.add_0_r. pose proof (proj2 (not_hidden id) C) as C1. repeat split; auto.
          -- right. exists j, rl, id, text. cbn in A. rewrite Nat.add_succ_r. repeat split; auto.
  Qed.
  Lemma exact_grid : forall g b n ctx ctx0, exact_for (search_grid L ts p (Site b n None None None ctx) (Site b n None None None ctx0) g) (in_grid g b n ctx).
  Proof.
    intros g b n ctx ctx0. unfold search_grid. eapply exact_iff.
    - apply exact_app; [apply (exact_map _ (fun c k cs st => k = HTableColumn /\ cs = [cl_name c; field_of c] /\ st = with_column (cl_id c) (Site b n None None None ctx)))|
        apply exact_app; [apply (exact_map _ (fun c k cs st => k = HTableColumn /\ cs = [cl_name c; field_of c] /\ st = with_column (cl_id c) (Site b n None None None ctx)))|apply exact_cells]].
      + intros c _. apply exact_best.
      + intros c _. apply exact_best.
    - intros k c s. split.
      + intros [(x & I & -> & -> & ->)|[(x & I & -> & -> & ->)|(j & rl & id & text & A & B & C & -> & -> & ->)]].
        * apply at_column. apply in_or_app. auto.
        * apply at_column. apply in_or_app. auto.
        * eapply at_cell; eassumption.
      + intros H. destruct H as [x I|i rule id text A B C].
        * apply in_app_or in I as [I|I]; [left|right; left]; exists x; auto.
        * right. right. exists i, rule, id, text. repeat split; auto.
  Qed.

  (** *** Blocks of text *)
  Lemma entry_member : forall k m v, entry k m = Some v <-> member k (JObj m) v.
  Proof.
    intros k m v. unfold member. induction m as [|[a x] m IH]; cbn [entry].
    - split; [discriminate|]. intros (l & r & E & _). injection E as E. destruct l; discriminate E.
    - destruct (String.eqb_spec a k) as [->|D].
      + split.
        * intros E. injection E as ->. exists [], m. split; [reflexivity|]. intros [].
        * intros (l & r & E & N0). injection E as E. destruct l as [|[b y] l]; cbn in E; injection E; intros; subst; [reflexivity|]. exfalso. apply N0. now left.
      + rewrite IH. split.
        * intros (l & r & E & N0). injection E as ->. exists ((a, x) :: l), r. split; [reflexivity|]. intros [C|C]; [now apply D|now apply N0].
        * intros (l & r & E & N0). injection E as E. destruct l as [|[b y] l]; cbn in E; injection E; intros; subst; [now elim D|]. exists l, r. split; [reflexivity|]. intros C. apply N0. now right.
  Qed.
  Lemma jget_member : forall k j v, jget k (Some j) = Some v <-> member k j v.
  Proof.
    intros k j v. destruct j as [| | | | |m]; cbn [jget]; try (split; [discriminate|intros (a1 & b1 & E & _); discriminate E]). apply entry_member.
  Qed.
  Lemma member_fun : forall k j v w, member k j v -> member k j w -> v = w.
  Proof. intros k j v w A B. apply jget_member in A, B. congruence. Qed.
  Lemma jstr_member : forall k j s, jstr (jget k (Some j)) = Some s <-> member k j (JStr s).
  Proof.
    intros k j s. rewrite <- jget_member. destruct (jget k (Some j)) as [[| | |x| |]|]; cbn [jstr]; split; intros H; try discriminate H; now inversion H.
  Qed.
  Lemma jarr_member : forall k j l, jarr (jget k (Some j)) = Some l <-> member k j (JArr l).
  Proof.
    intros k j l. rewrite <- jget_member. destruct (jget k (Some j)) as [[| | | |x|]|]; cbn [jarr]; split; intros H; try discriminate H; now inversion H.
  Qed.
  Lemma jstr_none : forall k j, jstr (jget k (Some j)) = None <-> ~ exists s, member k j (JStr s).
  Proof.
    intros k j. split.
    - intros H [s M]. apply jstr_member in M. congruence.
    - intros H. destruct (jstr (jget k (Some j))) as [s|] eqn:E; [|reflexivity]. exfalso. apply H. exists s. now apply jstr_member.
  Qed.
  Lemma jget2 : forall k1 k2 j v, jget k2 (jget k1 (Some j)) = Some v <-> exists x, member k1 j x /\ member k2 x v.
  Proof.
    intros k1 k2 j v. split.
    - destruct (jget k1 (Some j)) as [x|] eqn:E; [|discriminate]. intros H. exists x. split; [now apply jget_member|now apply jget_member].
    - intros (x & A & B). apply jget_member in A. rewrite A. now apply jget_member.
  Qed.
  Lemma jstr_some : forall o s, jstr o = Some s <-> o = Some (JStr s).
  Proof. intros o s. destruct o as [[| | |x| |]|]; cbn; split; intros H; try discriminate H; now inversion H. Qed.
  Lemma block_id_model : forall j o, block_id j o <-> jstr (jget "id" (Some j)) = o.
  Proof.
    intros j [s|]; cbn [block_id]; [symmetry; apply jstr_member|symmetry; apply jstr_none].
  Qed.

  Lemma says_fun : forall l ts0 ts1,
    Forall2 (fun i t => member "text" i (JStr t) \/ t = ""%string /\ ~ exists t0, member "text" i (JStr t0)) l ts0 ->
    Forall2 (fun i t => member "text" i (JStr t) \/ t = ""%string /\ ~ exists t0, member "text" i (JStr t0)) l ts1 -> ts0 = ts1.
  Proof.
    intros l ts0 ts1 A. revert ts1. induction A as [|i t l ts0 H A IH]; intros ts1 B; inversion B as [|? u ? ts2 H1 B1]; subst; [reflexivity|]. f_equal; [|now apply IH].
    destruct H as [H|[-> H]]; destruct H1 as [H1|[-> H1]]; [pose proof (member_fun _ _ _ _ H H1) as E; now injection E|exfalso; eauto|exfalso; eauto|reflexivity].
  Qed.
  Lemma run_says_fun : forall j t u, run_says j t -> run_says j u -> t = u.
  Proof.
    intros j t u A B. destruct A as [j t A1 A2|j l ts0 A1 A2 A3|j pr t A1 A2 A3]; inversion B as [j0 u0 B1 B2|j0 l0 ts1 B1 B2 B3|j0 pr0 u0 B1 B2 B3]; subst;
      try (pose proof (member_fun _ _ _ _ A1 B1) as E; discriminate E).
    - pose proof (member_fun _ _ _ _ A2 B2) as E. now injection E.
    - pose proof (member_fun _ _ _ _ A2 B2) as E. injection E as <-. f_equal. exact (says_fun _ _ _ A3 B3).
    - pose proof (member_fun _ _ _ _ A2 B2) as E. subst pr0. pose proof (member_fun _ _ _ _ A3 B3) as E. now injection E.
  Qed.
  Lemma inner_texts : forall l, Forall2 (fun i t => member "text" i (JStr t) \/ t = ""%string /\ ~ exists t0, member "text" i (JStr t0)) l (map (fun i => or_empty (jstr (jget "text" (Some i)))) l).
  Proof.
    induction l as [|i l IH]; constructor; [|exact IH]. destruct (jstr (jget "text" (Some i))) as [t|] eqn:E; cbn [or_empty].
    - left. now apply jstr_member.
    - right. split; [reflexivity|]. now apply jstr_none.
  Qed.
  Lemma says_type : forall j t, run_says j t -> member "type" j (JStr "text") \/ member "type" j (JStr "link") \/ member "type" j (JStr "fileRef").
  Proof. intros j t H. destruct H; auto. Qed.
  Lemma has_type_member : forall j ty, has_type j ty = true <-> member "type" j (JStr ty).
  Proof.
    intros j ty. unfold has_type. rewrite <- jstr_member. destruct (jstr _) as [s|]; [|split; discriminate]. rewrite String.eqb_eq. split; congruence.
  Qed.
  Lemma run_text_says : forall j, run_says j (run_text j) \/ run_text j = ""%string /\ ~ exists t, run_says j t.
  Proof.
    intros j. unfold run_text. destruct (has_type j "text") eqn:T1; [|destruct (has_type j "link") eqn:T2; [|destruct (has_type j "fileRef") eqn:T3]].
    - pose proof (proj1 (has_type_member _ _) T1) as M. destruct (jstr (jget "text" (Some j))) as [t|] eqn:E; cbn [or_empty].
      + left. apply says_text; [exact M|]. now apply jstr_member.
      + right. split; [reflexivity|]. intros [t H]. destruct H as [j t A1 A2|j l ts0 A1 A2 A3|j pr t A1 A2 A3];
          [apply jstr_member in A2; congruence|pose proof (member_fun _ _ _ _ M A1) as X; discriminate X|pose proof (member_fun _ _ _ _ M A1) as X; discriminate X].
    - pose proof (proj1 (has_type_member _ _) T2) as M. destruct (jarr (jget "content" (Some j))) as [l|] eqn:E.
      + left. eapply says_link; [exact M|apply jarr_member; exact E|apply inner_texts].
      + right. split; [reflexivity|]. intros [t H]. destruct H as [j t A1 A2|j l ts0 A1 A2 A3|j pr t A1 A2 A3];
          [pose proof (member_fun _ _ _ _ M A1) as X; discriminate X|apply jarr_member in A2; congruence|pose proof (member_fun _ _ _ _ M A1) as X; discriminate X].
    - pose proof (proj1 (has_type_member _ _) T3) as M. destruct (jstr (jget "label" (jget "props" (Some j)))) as [t|] eqn:E; cbn [or_empty].
      + apply jstr_some in E. apply jget2 in E as (x & A & B). left. eapply says_file; eassumption.
      + right. split; [reflexivity|]. intros [t H]. destruct H as [j t A1 A2|j l ts0 A1 A2 A3|j pr t A1 A2 A3];
          [pose proof (member_fun _ _ _ _ M A1) as X; discriminate X|pose proof (member_fun _ _ _ _ M A1) as X; discriminate X|].
        assert (X : jget "label" (jget "props" (Some j)) = Some (JStr t)) by (apply jget2; eauto). rewrite X in E. discriminate E.
    - right. split; [reflexivity|]. intros [t H]. apply says_type in H as [H|[H|H]]; apply has_type_member in H; congruence.
  Qed.
  Lemma runs_says : forall l, Forall2 (fun r t => run_says r t \/ t = ""%string /\ ~ exists t0, run_says r t0) l (map run_text l).
  Proof. induction l as [|r l IH]; constructor; [apply run_text_says|exact IH]. Qed.
  Lemma runs_fun : forall l ts0, Forall2 (fun r t => run_says r t \/ t = ""%string /\ ~ exists t0, run_says r t0) l ts0 -> ts0 = map run_text l.
  Proof.
    intros l ts0 H. induction H as [|r t l ts0 H _ IH]; [reflexivity|]. cbn [map]. f_equal; [|exact IH].
    destruct (run_text_says r) as [A|[A B]]; destruct H as [H|[-> H]].
    - eapply run_says_fun; eassumption.
    - exfalso. eauto.
    - exfalso. eauto.
    - now rewrite A.
  Qed.
  Lemma prose_says : forall j t, prose_text L j = Some t <-> says j t /\ Exists (fun c => lt_space L c = false) (list_ascii_of_string t).
  Proof.
    intros j t. unfold prose_text, says. split.
    - destruct (jarr (jget "content" (Some j))) as [l|] eqn:E; [|discriminate]. destruct (forallb _ _) eqn:B; [discriminate|]. intros H. injection H as <-. split.
      + exists l, (map run_text l). split; [now apply jarr_member|]. split; [apply runs_says|reflexivity].
      + apply Exists_exists. fold (chars (String.concat "" (map run_text l))). induction (chars _) as [|c r IH]; [discriminate B|]. cbn [forallb] in B.
        destruct (lt_space L c) eqn:C; [destruct (IH B) as (x & I & X); exists x; split; [now right|exact X]|]. exists c. split; [now left|exact C].
    - intros [(l & ts0 & A & B & ->) X]. apply jarr_member in A. rewrite A. apply runs_fun in B. subst ts0.
      destruct (forallb _ _) eqn:F; [|reflexivity]. exfalso. apply Exists_exists in X as (c & I & X). rewrite forallb_forall in F. specialize (F c I). congruence.
  Qed.
  Lemma type_fun : forall j a b, has_type j a = true -> has_type j b = true -> a = b.
  Proof. intros j a b A B. apply has_type_member in A, B. pose proof (member_fun _ _ _ _ A B) as E. now injection E. Qed.
  Lemma kind_prose : forall j k, prose_kind j = Some k <-> exists ty, member "type" j (JStr ty) /\ prose ty k.
  Proof.
    intros j k. unfold prose_kind. split.
    - destruct (has_type j "heading") eqn:T1; [|destruct (has_type j "paragraph") eqn:T2; [|destruct (has_type j "bulletListItem") eqn:T3; [|destruct (has_type j "numberedListItem") eqn:T4]]];
        cbn [orb]; intros H; try discriminate H; injection H as <-.
      + exists "heading"%string. split; [now apply has_type_member|constructor].
      + exists "paragraph"%string. split; [now apply has_type_member|constructor].
      + exists "bulletListItem"%string. split; [now apply has_type_member|constructor].
      + exists "numberedListItem"%string. split; [now apply has_type_member|constructor].
    - intros (ty & M & P). apply has_type_member in M.
      destruct P; rewrite M; repeat match goal with |- context [has_type j ?s] => let E := fresh in destruct (has_type j s) eqn:E; [pose proof (type_fun _ _ _ M E) as X; discriminate X|] end; rewrite ?orb_true_r; reflexivity.
  Qed.
  Lemma exact_ignored : forall j, exact_for (search_ignored L ts p j) (in_block L (DIgnored j)).
  Proof.
    intros j. unfold search_ignored. destruct (has_type j "codeBlock") eqn:C.
    - assert (T : member "type" j (JStr "codeBlock")) by now apply has_type_member.
      assert (G : forall v, jget "code" (jget "data" (jget "props" (Some j))) = Some v <-> exists pr da, member "props" j pr /\ member "data" pr da /\ member "code" da v).
      { intros v. split.
        - intros H. destruct (jget "data" (jget "props" (Some j))) as [da|] eqn:D; [|discriminate]. apply jget2 in D as (pr & A & B). apply jget_member in H. eauto.
        - intros (pr & da & A & B & D). assert (E : jget "data" (jget "props" (Some j)) = Some da) by (apply jget2; eauto). rewrite E. now apply jget_member. }
      destruct (jstr (jget "code" _)) as [c|] eqn:E.
      + apply jstr_some in E. eapply exact_iff; [apply exact_add|]. intros k cs s. split.
        * intros (-> & -> & ->). apply G in E as (pr & da & A & B & D). eapply at_code; try eassumption. now apply block_id_model.
        * intros H. inversion H as [| | | | | | | | | | | |j0 ty k0 t o M P S0 X B|j0 pr da c0 o M A B D O]; subst.
          -- pose proof (member_fun _ _ _ _ T M) as Y. injection Y as <-. inversion P.
          -- assert (Z : jget "code" (jget "data" (jget "props" (Some j))) = Some (JStr c0)) by (apply G; eauto). rewrite E in Z. injection Z as <-. apply block_id_model in O. now subst o.
      + eapply exact_iff; [apply exact_nil|]. intros k cs s. split; [contradiction|]. intros H. inversion H as [| | | | | | | | | | | |j0 ty k0 t o M P S0 X B|j0 pr da c0 o M A B D O]; subst.
        * pose proof (member_fun _ _ _ _ T M) as Y. injection Y as <-. inversion P.
        * assert (Z : jget "code" (jget "data" (jget "props" (Some j))) = Some (JStr c0)) by (apply G; eauto). rewrite Z in E. discriminate E.
    - assert (NC : ~ member "type" j (JStr "codeBlock")) by (intros M; apply has_type_member in M; congruence).
      destruct (prose_kind j) as [k|] eqn:K.
      + destruct (prose_text L j) as [t|] eqn:P.
        * eapply exact_iff; [apply exact_add|]. intros k0 cs s. split.
          -- intros (-> & -> & ->). apply kind_prose in K as (ty & M & Pr). apply prose_says in P as [P X]. eapply at_prose; try eassumption. now apply block_id_model.
          -- intros H. inversion H as [| | | | | | | | | | | |j0 ty k1 t0 o M Pr S0 X B|j0 pr da c0 o M A B D O]; subst; [|contradiction].
             assert (K1 : prose_kind j = Some k0) by (apply kind_prose; eauto). assert (P1 : prose_text L j = Some t0) by (apply prose_says; auto). apply block_id_model in B. repeat split; congruence.
        * eapply exact_iff; [apply exact_nil|]. intros k0 cs s. split; [contradiction|]. intros H. inversion H as [| | | | | | | | | | | |j0 ty k1 t0 o M Pr S0 X B|j0 pr da c0 o M A B D O]; subst; [|contradiction].
          assert (P1 : prose_text L j = Some t0) by (apply prose_says; auto). congruence.
      + eapply exact_iff; [apply exact_nil|]. intros k0 cs s. split; [contradiction|]. intros H. inversion H as [| | | | | | | | | | | |j0 ty k1 t0 o M Pr S0 X B|j0 pr da c0 o M A B D O]; subst; [|contradiction].
        assert (K1 : prose_kind j = Some k0) by (apply kind_prose; eauto). congruence.
  Qed.

  (** *** Blocks, nodes and documents *)
  Ltac parts := repeat first [apply exact_app | apply exact_add | apply exact_best | (apply (exact_map _ (fun _ _ _ _ => _)); intros)].
  Lemma exact_block : forall b, exact_for (search_block L ts p b) (in_block L b).
  Proof.
    intros b. destruct b as [id out cs|id k v|id k arms|id g|id n ps|id n es|j]; cbn [search_block].
    - eapply exact_iff; [apply exact_app; [apply exact_add|apply (exact_map _ (fun c k cs st => k = HAssertionCondition /\ cs = [snd c] /\ st = with_expr (fst c) (block_site id))); intros; apply exact_add]|].
      intros k c s. split.
      + intros [(-> & -> & ->)|([e t] & I & -> & -> & ->)]; [constructor|]. now apply at_condition.
      + intros H. inversion H; subst; [auto|]. right. exists (e, t). auto.
    - eapply exact_iff; [apply exact_app; apply exact_add|]. intros k0 c s. split.
      + intros [(-> & -> & ->)|(-> & -> & ->)]; constructor.
      + intros H. inversion H; subst; auto.
    - eapply exact_iff; [apply exact_app; [apply exact_add|apply (exact_map _ (fun a k cs st => (k = HMatchCondition /\ cs = [fst (snd a)] /\ st = with_expr (fst a) (block_site id)) \/
        (k = HMatchValue /\ cs = [snd (snd a)] /\ st = with_expr (fst a) (block_site id)))); intros; apply exact_app; apply exact_add]|].
      intros k0 c s. split.
      + intros [(-> & -> & ->)|([e [c0 v]] & I & [(-> & -> & ->)|(-> & -> & ->)])]; [constructor|eapply at_arm_condition; exact I|eapply at_arm_value; exact I].
      + intros H. inversion H; subst; [auto| |]; right; eexists; (split; [eassumption|]); cbn; auto.
    - eapply exact_iff; [apply exact_grid|]. intros k c s. split; [now apply at_grid|]. intros H. now inversion H.
    - eapply exact_iff; [apply exact_app; [apply exact_add|apply (exact_map _ (fun c k cs st => k = HDataModelProperty /\ cs = [snd c] /\ st = with_context n (with_expr (fst c) (block_site id)))); intros; apply exact_add]|].
      intros k c s. split.
      + intros [(-> & -> & ->)|([e t] & I & -> & -> & ->)]; [constructor|]. now apply at_property.
      + intros H. inversion H; subst; [auto|]. right. exists (e, t). auto.
    - eapply exact_iff; [apply exact_app; [apply exact_add|apply (exact_map _ (fun c k cs st => k = HDictionaryEntry /\ cs = [fst (snd c); snd (snd c)] /\ st = with_context n (with_expr (fst c) (block_site id)))); intros; apply exact_best]|].
      intros k c s. split.
      + intros [(-> & -> & ->)|([e [l v]] & I & -> & -> & ->)]; [constructor|]. now apply at_entry.
      + intros H. inversion H; subst; [auto|]. right. exists (e, (l, v)). auto.
    - apply exact_ignored.
  Qed.
  Lemma exact_node : forall nd, exact_for (search_node L ts p nd) (in_node nd).
  Proof.
    intros [id [n x]]. unfold search_node. cbn [fst snd]. destruct x as [es|g|ss|src|].
    - eapply exact_iff; [apply exact_app; [apply exact_add|apply (exact_map _ (fun a k cs st => (k = HExpressionKey /\ cs = [fst (snd a)] /\ st = with_expr (fst a) (with_context n (node_site id))) \/
        (k = HExpression /\ cs = [snd (snd a)] /\ st = with_expr (fst a) (with_context n (node_site id))))); intros; apply exact_app; apply exact_add]|].
      intros k0 c s. split.
      + intros [(-> & -> & ->)|([e [c0 v]] & I & [(-> & -> & ->)|(-> & -> & ->)])]; [constructor|eapply at_node_key; exact I|eapply at_node_value; exact I].
      + intros H. inversion H; subst; [auto| |]; right; eexists; (split; [eassumption|]); cbn; auto.
    - eapply exact_iff; [apply exact_app; [apply exact_add|apply (exact_grid g None (Some id) (Some n) None)]|]. intros k c s. split.
      + intros [(-> & -> & ->)|H]; [constructor|]. destruct H as [c H|i rule c text A B C]; [apply at_node_column; now constructor|apply at_node_cell; eapply at_cell; eassumption].
      + intros H. inversion H as [| | |? ? ? ? ? G|? ? ? ? ? G| |]; subst; [auto|right; exact G|right]. inversion G; subst. eapply at_cell; eassumption.
    - eapply exact_iff; [apply exact_app; [apply exact_add|apply (exact_map _ (fun c k cs st => k = HSwitchCondition /\ cs = [snd c] /\ st = with_expr (fst c) (with_context n (node_site id)))); intros; apply exact_add]|].
      intros k c s. split.
      + intros [(-> & -> & ->)|([e t] & I & -> & -> & ->)]; [constructor|]. now apply at_switch.
      + intros H. inversion H; subst; [auto|]. right. exists (e, t). auto.
    - eapply exact_iff; [apply exact_app; apply exact_add|]. intros k0 c s. split.
      + intros [(-> & -> & ->)|(-> & -> & ->)]; constructor.
      + intros H. inversion H; subst; auto.
    - eapply exact_iff; [apply exact_app; [apply exact_add|apply exact_nil]|]. intros k0 c s. split.
      + intros [(-> & -> & ->)|[]]; constructor.
      + intros H. inversion H; subst; auto.
  Qed.
  Lemma string_chars : forall s, string_of_list_ascii (chars s) = s. Proof. apply string_of_list_ascii_of_string. Qed.
  Lemma after_named : forall s cur, ~ In "/"%char cur -> let f := after_slash cur s in
    ~ In "/"%char f /\ (f = rev cur ++ s \/ exists d, rev cur ++ s = d ++ "/"%char :: f).
  Proof.
    induction s as [|c s IH]; intros cur N0; cbn [after_slash].
    - cbn. rewrite app_nil_r. split; [rewrite <- in_rev; exact N0|now left].
    - destruct (Ascii.eqb_spec c "/") as [->|D].
      + destruct (IH [] (fun x => x)) as [A [B|[d B]]]; cbn [rev app] in B.
        * split; [exact A|]. right. exists (rev cur). now rewrite B.
        * split; [exact A|]. right. exists (rev cur ++ "/"%char :: d). rewrite <- app_assoc. cbn [app]. now rewrite <- B.
      + destruct (IH (c :: cur)) as [A B]; [intros [E|E]; congruence|]. cbn [rev] in B. rewrite <- app_assoc in B. split; assumption.
  Qed.
  Lemma named_unique : forall a b d e (f g : list ascii), ~ In "/"%char f -> ~ In "/"%char g ->
    (f = a \/ a = d ++ "/"%char :: f) -> (g = b \/ b = e ++ "/"%char :: g) -> a = b -> f = g.
  Proof.
    intros a b d e f g F G [H|H] [H0|H0] E; subst a b; try congruence.
    - exfalso. apply F. rewrite E. apply in_or_app. right. now left.
    - exfalso. apply G. rewrite <- E. apply in_or_app. right. now left.
    - revert e E. induction d as [|c d IH]; intros [|x e] E; cbn in E; injection E; intros; subst.
      + reflexivity.
      + exfalso. apply F. apply in_or_app. right. now left.
      + exfalso. apply G. apply in_or_app. right. now left.
      + now apply (IH e).
  Qed.
  Lemma chars_app : forall a b, chars (append a b) = chars a ++ chars b.
  Proof. induction a as [|c a IH]; intros b; [reflexivity|]. unfold chars in *. cbn. now rewrite IH. Qed.
  Lemma chars_inj : forall a b, chars a = chars b -> a = b.
  Proof. intros a b E. rewrite <- (string_chars a), <- (string_chars b). now rewrite E. Qed.
  Lemma chars_string : forall l, chars (string_of_list_ascii l) = l. Proof. apply list_ascii_of_string_of_list_ascii. Qed.
  Lemma file_named : forall f, named p f <-> f = file_name p.
  Proof.
    destruct (after_named (chars p) [] (fun x => x)) as [A B]. cbn [rev app] in B. intros f. unfold named, file_name. fold (chars f). split.
    - intros [N0 H]. apply chars_inj. rewrite chars_string. destruct B as [B|[d B]]; destruct H as [H|[e H]].
      + subst p. congruence.
      + eapply (named_unique _ _ (chars e) [] (chars f) _ N0 A); [right; reflexivity|left; exact B|]. rewrite H, chars_app. reflexivity.
      + subst f. eapply (named_unique _ _ [] d (chars p) _ N0 A); [left; reflexivity|right; exact B|reflexivity].
      + eapply (named_unique _ _ (chars e) d (chars f) _ N0 A); [right; reflexivity|right; exact B|]. rewrite H, chars_app. reflexivity.
    - intros ->. rewrite chars_string. split; [exact A|]. destruct B as [B|[d B]].
      + left. apply chars_inj. now rewrite chars_string.
      + right. exists (string_of_list_ascii d). apply chars_inj. rewrite chars_app, chars_string. cbn. fold (chars (string_of_list_ascii (after_slash [] (chars p)))). now rewrite chars_string.
  Qed.
  Lemma exact_doc : forall docs d, aget p docs = Some d -> exact_for (search_doc L ts p d) (searched L docs p).
  Proof.
    intros docs d G. unfold search_doc. destruct d as [bs|ns].
    - eapply exact_iff; [apply exact_app; [apply exact_add|apply exact_map; intros x _; apply exact_block]|]. intros k c s. split.
      + intros [(-> & -> & ->)|(b & I & H)]; [eapply at_document; [exact G|now apply file_named]|eapply at_policy; eassumption].
      + intros H. inversion H as [? d f G1 Nm|? bs1 b ? ? ? G1 I B|? ns1 n ? ? ? G1 I B]; subst.
        * left. apply file_named in Nm. now subst f.
        * right. rewrite G in G1. injection G1 as <-. eauto.
        * rewrite G in G1. discriminate G1.
    - eapply exact_iff; [apply exact_app; [apply exact_add|apply exact_map; intros x _; apply exact_node]|]. intros k c s. split.
      + intros [(-> & -> & ->)|(b & I & H)]; [eapply at_document; [exact G|now apply file_named]|eapply at_graph; eassumption].
      + intros H. inversion H as [? d f G1 Nm|? bs1 b ? ? ? G1 I B|? ns1 n ? ? ? G1 I B]; subst.
        * left. apply file_named in Nm. now subst f.
        * rewrite G in G1. discriminate G1.
        * right. rewrite G in G1. injection G1 as <-. eauto.
  Qed.
End Places.
