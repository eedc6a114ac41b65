(** * Proof helper: facts about the search of Search.v *)
From Coq Require Import Ascii String List Bool Arith NArith Lia Permutation Sorted.
Import ListNotations.
From Verif Require Import Base Json Workspace WorkspaceMaps Search SearchSpec.
Local Open Scope nat_scope.
Local Open Scope list_scope.

(** ** Words *)
Section Words.
  Variable L : letters.
  Lemma split_app : forall w cur r, Forall (fun c => lt_space L c = false) w -> split_space L cur (w ++ r) = split_space L (rev w ++ cur) r.
  Proof.
    induction w as [|c w IH]; intros cur r F; [reflexivity|]. inversion F; subst. cbn [app split_space]. rewrite H1, IH by assumption.
    cbn [rev]. now rewrite <- app_assoc.
  Qed.
  Lemma split_skip : forall s r, Forall (fun c => lt_space L c = true) s -> split_space L [] (s ++ r) = split_space L [] r.
  Proof. induction s as [|c s IH]; intros r F; [reflexivity|]. inversion F; subst. cbn [app split_space]. rewrite H1. auto. Qed.
  Lemma words_split : forall s ws, words L s ws -> split_space L [] s = ws.
  Proof.
    intros s ws H. induction H as [s F|s w r ws F N0 W E _ IH].
    - rewrite <- (app_nil_r s), split_skip by assumption. reflexivity.
    - rewrite split_skip, split_app by assumption. rewrite app_nil_r.
      assert (NR : exists a x, rev w = a :: x).
      { destruct (rev w) eqn:R; [|eauto]. exfalso. apply N0. now rewrite <- (rev_involutive w), R. }
      destruct NR as (a & x & NR). destruct E as [->|(c & r0 & -> & C)].
      + cbn [split_space]. cbn in IH. subst ws. rewrite NR, <- NR, rev_involutive. reflexivity.
      + cbn [split_space] in *. rewrite C in *. rewrite NR, <- NR, rev_involutive. now rewrite IH.
  Qed.
  Lemma split_words : forall s cur, Forall (fun c => lt_space L c = false) cur ->
    exists ws, split_space L cur s = ws /\ words L (rev cur ++ s) ws.
  Proof.
    induction s as [|c s IH]; intros cur F.
    - rewrite app_nil_r. cbn [split_space]. destruct cur as [|a cur].
      + exists []. split; [reflexivity|]. constructor. constructor.
      + exists [rev (a :: cur)]. split; [reflexivity|]. rewrite <- (app_nil_r (rev (a :: cur))) at 1.
        apply (a_word L [] (rev (a :: cur)) [] []); try constructor.
        * intros E. apply (f_equal (@length _)) in E. rewrite rev_length in E. discriminate E.
        * now apply Forall_rev.
        * reflexivity.
        * constructor.
    - cbn [split_space]. destruct (lt_space L c) eqn:C.
      + destruct (IH [] (Forall_nil _)) as (ws & E & W). cbn in W. destruct cur as [|a cur].
        * exists ws. split; [exact E|]. cbn. inversion W; subst.
          -- constructor. constructor; assumption.
          -- rewrite app_comm_cons. econstructor; eauto.
        * exists (rev (a :: cur) :: ws). rewrite E. split; [reflexivity|].
          apply (a_word L [] (rev (a :: cur)) (c :: s) ws).
          -- constructor.
          -- intros E1. apply (f_equal (@length _)) in E1. rewrite rev_length in E1. discriminate E1.
          -- now apply Forall_rev.
          -- right. eauto.
          -- inversion W; subst.
             ++ constructor. constructor; assumption.
             ++ rewrite app_comm_cons. econstructor; eauto.
      + destruct (IH (c :: cur)) as (ws & E & W); [constructor; assumption|]. exists ws. split; [exact E|]. cbn [rev] in W. now rewrite <- app_assoc in W.
  Qed.
  Lemma words_exist : forall s, exists ws, words L s ws.
  Proof. intros s. destruct (split_words s [] (Forall_nil _)) as (ws & _ & W). eauto. Qed.
  Lemma words_full : forall s ws, words L s ws -> Forall (fun w => w <> []) ws.
  Proof. intros s ws H. induction H; constructor; assumption. Qed.
  Lemma tokens_words : forall q ws, words L (chars q) ws -> tokens L q = map (lower_case L) ws.
  Proof.
    intros q ws W. unfold tokens. rewrite (words_split _ _ W). pose proof (words_full _ _ W) as F. clear W.
    induction F as [|w ws N0 F IH]; [reflexivity|]. cbn [map filter]. unfold low at 1, lower_case at 1. destruct w as [|a w]; [now elim N0|]. cbn [map]. cbn [map] in IH. now rewrite IH.
  Qed.
End Words.

(** ** Looking for one word *)
Lemma starts_app : forall n h, starts n h = true <-> exists b, h = n ++ b.
Proof.
  induction n as [|a n IH]; intros h; cbn [starts].
  - split; [intros _; now exists h|reflexivity].
  - destruct h as [|c h]; [split; [discriminate|intros [b E]; discriminate E]|].
    destruct (ascii_dec a c) as [->|D].
    + rewrite IH. split; intros [b E]; exists b; [now subst|now inversion E].
    + split; [discriminate|]. intros [b E]. inversion E. now elim D.
Qed.
Lemma find_some : forall h n i k, find_from i h n = Some k -> exists a b, h = a ++ n ++ b /\ k = i + length a.
Proof.
  induction h as [|c h IH]; intros n i k; cbn [find_from]; destruct (_ <? _); try discriminate; destruct (starts n _) eqn:S0.
  - intros E. injection E as <-. apply starts_app in S0. destruct S0 as [b S0]. exists [], b. cbn. split; [exact S0|lia].
  - discriminate.
  - intros E. injection E as <-. apply starts_app in S0. destruct S0 as [b S0]. exists [], b. cbn. split; [exact S0|lia].
  - intros E. destruct (IH _ _ _ E) as (a & b & -> & ->). exists (c :: a), b. cbn. split; [reflexivity|lia].
Qed.
Lemma find_none : forall h n i, find_from i h n = None -> forall a b, h <> a ++ n ++ b.
Proof.
  induction h as [|c h IH]; intros n i; cbn [find_from]; destruct (_ <? _) eqn:Lt0.
  - intros _ a b E. apply Nat.ltb_lt in Lt0. rewrite E in Lt0. rewrite !app_length in Lt0. lia.
  - destruct (starts n []) eqn:S0; [discriminate|]. intros _ a b E. symmetry in E. apply app_eq_nil in E as [_ E]. apply app_eq_nil in E as [-> _]. discriminate S0.
  - intros _ a b E. apply Nat.ltb_lt in Lt0. rewrite E in Lt0. rewrite !app_length in Lt0. lia.
  - destruct (starts n (c :: h)) eqn:S0; [discriminate|]. intros H a b E. destruct a as [|x a].
    + cbn in E. enough (starts n (c :: h) = true) by congruence. apply starts_app. eauto.
    + cbn in E. injection E as _ E. exact (IH _ _ H _ _ E).
Qed.
(** The first place. *)
Lemma find_first : forall h n i k a b, find_from i h n = Some k -> h = a ++ n ++ b -> k <= i + length a.
Proof.
  induction h as [|c h IH]; intros n i k a b; cbn [find_from]; destruct (_ <? _); try discriminate; destruct (starts n _) eqn:S0.
  - intros E _. injection E as <-. lia.
  - discriminate.
  - intros E _. injection E as <-. lia.
  - intros E A. destruct a as [|x a].
    + cbn in A. enough (starts n (c :: h) = true) by congruence. apply starts_app. eauto.
    + cbn in A. injection A as _ A. specialize (IH _ _ _ _ _ E A). cbn. lia.
Qed.

Lemma sub_refl : forall {A} (l : list A), subseq l l. Proof. induction l; constructor; assumption. Qed.
Lemma sub_len : forall {A} (w m : list A), subseq w m -> length w <= length m.
Proof. intros A w m H. induction H; cbn; lia. Qed.
Lemma run_cons : forall s e c (t : list ascii), run (S s) (S e) (c :: t) = run s e t. Proof. reflexivity. Qed.

Lemma scan_last : forall h w i f l a b, scan i h w (Some f) l = Some (a, b) -> a = f /\ (w = [] /\ b = l \/ w <> [] /\ i <= b < i + length h /\ subseq w (firstn (b - i + 1) h)).
Proof.
  induction h as [|c h IH]; intros w i f l a b; destruct w as [|t w]; cbn [scan].
  - intros E. injection E as <- <-. auto.
  - discriminate.
  - intros E. injection E as <- <-. auto.
  - destruct (ascii_dec c t) as [->|D]; intros E; apply IH in E as [-> E]; split; [reflexivity| |reflexivity|]; right; (split; [discriminate|]).
    + destruct E as [[-> ->]|(N0 & B & S0)].
      * cbn [length]. split; [lia|]. replace (i - i + 1) with 1 by lia. cbn. constructor. constructor.
      * cbn [length]. split; [lia|]. replace (b - i + 1) with (S (b - S i + 1)) by lia. cbn [firstn]. now constructor.
    + destruct E as [[E _]|(N0 & B & S0)]; [discriminate E|]. cbn [length]. split; [lia|].
      replace (b - i + 1) with (S (b - S i + 1)) by lia. cbn [firstn]. now constructor.
Qed.
Lemma scan_first : forall h w i a b, w <> [] -> scan i h w None 0 = Some (a, b) -> i <= a <= b /\ b < i + length h /\ subseq w (run (a - i) (b - i + 1) h).
Proof.
  induction h as [|c h IH]; intros w i a b N0; destruct w as [|t w]; try (now elim N0); cbn [scan]; try discriminate.
  destruct (ascii_dec c t) as [->|D]; intros E.
  - apply scan_last in E as [-> [[-> ->]|(N1 & B & S0)]]; cbn [length].
    + split; [lia|]. split; [lia|]. replace (i - i) with 0 by lia. cbn. repeat constructor.
    + split; [lia|]. split; [lia|]. replace (i - i) with 0 by lia. unfold run. cbn [skipn].
      replace (b - i + 1 - 0) with (S (b - S i + 1)) by lia. cbn [firstn]. now constructor.
  - apply IH in E as (A & B & S0); [|discriminate]. cbn [length]. split; [lia|]. split; [lia|].
    replace (a - i) with (S (a - S i)) by lia. replace (b - i + 1) with (S (b - S i + 1)) by lia. now rewrite run_cons.
Qed.

Section Score.
  Variable L : letters.
  Lemma run_low : forall s e t, lower_case L (run s e t) = run s e (lower_case L t).
  Proof. intros s e t. unfold run, lower_case. now rewrite skipn_map, firstn_map. Qed.
  Lemma token_span : forall t w x sp, w <> [] -> score_token L (lower_case L t) (lower_case L w) = Some (x, sp) -> spelled_by L t w (fst sp) (snd sp).
  Proof.
    intros t w x sp N0 H. unfold score_token in H.
    assert (N1 : lower_case L w <> []) by (destruct w; [now elim N0|discriminate]).
    assert (LT : length (lower_case L t) = length t) by apply map_length. assert (LW : length (lower_case L w) = length w) by apply map_length.
    assert (LP : 0 < length w) by (destruct w; [now elim N0|cbn; lia]).
    unfold spelled_by. rewrite run_low. rewrite <- LT. remember (lower_case L t) as T. remember (lower_case L w) as W. rewrite <- LW in *. clear LT LW HeqT HeqW N0 t w.
    destruct (find_sub T W) as [k|] eqn:F.
    - injection H as _ <-. unfold find_sub in F. destruct W as [|c W]; [discriminate|]. apply find_some in F as (a & b & -> & ->). cbn [fst snd]. rewrite !app_length, Nat.add_0_l.
      split; [lia|]. split; [lia|]. split; [lia|]. unfold run. replace (length a + length (c :: W) - length a) with (length (c :: W)) by lia.
      rewrite skipn_app, skipn_all, Nat.sub_diag. cbn [app skipn]. rewrite app_comm_cons, firstn_app, firstn_all, Nat.sub_diag. cbn [firstn]. rewrite app_nil_r. apply sub_refl.
    - destruct (scan 0 T W None 0) as [[a b]|] eqn:S0; [|discriminate]. apply scan_first in S0 as (A & B & S0); [|exact N1].
      destruct (_ <? _) eqn:Sp; [discriminate|]. apply Nat.ltb_ge in Sp. injection H as _ <-. cbn [fst snd]. rewrite !Nat.sub_0_r in S0.
      split; [lia|]. split; [lia|]. split; [lia|]. exact S0.
  Qed.
  Lemma token_found : forall t w, w <> [] -> stands_in L t w -> exists r, score_token L (lower_case L t) (lower_case L w) = Some r.
  Proof.
    intros t w N0 (a & b & E). unfold score_token. destruct (find_sub _ _) as [k|] eqn:F; [eexists; reflexivity|]. exfalso.
    unfold find_sub in F. destruct (lower_case L w) as [|c r] eqn:W; [destruct w; [now elim N0|discriminate W]|]. exact (find_none _ _ _ F _ _ E).
  Qed.

  Lemma all_none : forall hay ts x sp, score_all L hay ts x sp <> None <-> Forall (fun t => score_token L hay t <> None) ts.
  Proof.
    intros hay. induction ts as [|t ts IH]; intros x sp; cbn [score_all]; [split; [constructor|discriminate]|].
    destruct (score_token L hay t) as [[y s]|] eqn:E.
    - rewrite IH. split; [intros F; constructor; [congruence|exact F]|intros F; now inversion F].
    - split; [intros F; now elim F|intros F; inversion F; congruence].
  Qed.
  Lemma all_span : forall hay ts x sp y s, score_all L hay ts x sp = Some (y, Some s) ->
    sp = Some s \/ exists t z, In t ts /\ score_token L hay t = Some (z, s).
  Proof.
    intros hay. induction ts as [|t ts IH]; intros x sp y s; cbn [score_all]; [intros E; injection E as _ ->; now left|].
    destruct (score_token L hay t) as [[z u]|] eqn:E; [|discriminate]. intros H. apply IH in H as [H|(t0 & z0 & I & H)].
    - injection H as H. destruct sp as [c|]; [|right; exists t, z; subst; split; [now left|exact E]].
      destruct (fst c <=? fst u); [left; now rewrite H|right; exists t, z; subst; split; [now left|exact E]].
    - right. exists t0, z0. split; [now right|exact H].
  Qed.
  Lemma all_some : forall hay ts x sp y s, score_all L hay ts x sp = Some (y, s) -> (sp <> None \/ ts <> []) -> s <> None.
  Proof.
    intros hay. induction ts as [|t ts IH]; intros x sp y s; cbn [score_all]; [intros E [H|H]; [injection E as _ <-; exact H|now elim H]|].
    destruct (score_token L hay t) as [[z u]|]; [|discriminate]. intros H _. eapply IH; [exact H|]. left. discriminate.
  Qed.

  Lemma all_min : forall hay ts x sp y s, score_all L hay ts x sp = Some (y, Some s) ->
    (forall c, sp = Some c -> fst s <= fst c) /\ forall t z u, In t ts -> score_token L hay t = Some (z, u) -> fst s <= fst u.
  Proof.
    intros hay. induction ts as [|t ts IH]; intros x sp y s; cbn [score_all].
    - intros E. injection E as _ ->. split; [intros c H; injection H as ->; lia|intros t z u []].
    - destruct (score_token L hay t) as [[z u]|] eqn:E; [|discriminate]. intros H. apply IH in H as [A B]. specialize (A _ eq_refl).
      assert (C : fst s <= fst u /\ forall c, sp = Some c -> fst s <= fst c).
      { destruct sp as [c|]; [|split; [exact A|discriminate]]. destruct (fst c <=? fst u) eqn:K; [apply Nat.leb_le in K|apply Nat.leb_gt in K].
        - split; [lia|]. intros c0 H. injection H as <-. exact A.
        - split; [exact A|]. intros c0 H. injection H as <-. lia. }
      destruct C as [C D]. split; [exact D|]. intros t0 z0 u0 [<-|I] H; [rewrite E in H; injection H as _ <-; exact C|exact (B _ _ _ I H)].
  Qed.
  Lemma token_at : forall t w a b z u, w <> [] -> lower_case L t = a ++ lower_case L w ++ b -> score_token L (lower_case L t) (lower_case L w) = Some (z, u) -> fst u <= length a.
  Proof.
    intros t w a b z u N0 E H. unfold score_token in H. unfold find_sub in H. destruct (lower_case L w) as [|c r] eqn:W; [destruct w; [now elim N0|discriminate W]|].
    destruct (find_from 0 _ _) as [k|] eqn:F; [|exfalso; exact (find_none _ _ _ F _ _ E)]. assert (U : u = (k, k + length (c :: r))) by congruence. rewrite U. cbn [fst]. exact (find_first _ _ _ _ _ _ F E).
  Qed.
  (** The mark is the first. *)
  Lemma score_first : forall ws t x sp, Forall (fun w => w <> []) ws -> score L (map (lower_case L) ws) t = Some (x, sp) ->
    forall w a b, In w ws -> lower_case L (chars t) = a ++ lower_case L w ++ b -> fst sp <= length a.
  Proof.
    intros ws t x sp F H w a b I E. unfold score in H. destruct (chars t) as [|c r] eqn:C; [discriminate|]. rewrite <- C in *. clear C c r.
    change (low L) with (lower_case L) in H. destruct (score_all L _ _ 0 None) as [[y [s|]]|] eqn:A; try discriminate. injection H as _ <-.
    pose proof (proj1 (Forall_forall _ _) F w I) as N0. destruct (token_found (chars t) w N0) as [[z u] T]; [exists a, b; exact E|].
    pose proof (proj2 (all_min _ _ _ _ _ _ A) _ z u (in_map _ _ _ I) T). pose proof (token_at _ _ _ _ _ _ N0 E T). lia.
  Qed.

  (** Every word is spelled in the text, and the mark spells one of them. *)
  Lemma score_sound : forall ws t x sp, Forall (fun w => w <> []) ws -> score L (map (lower_case L) ws) t = Some (x, sp) ->
    Forall (spelled_in L (chars t)) ws /\ exists w, In w ws /\ spelled_by L (chars t) w (fst sp) (snd sp).
  Proof.
    intros ws t x sp F H. unfold score in H. destruct (chars t) as [|c r] eqn:C; [discriminate|]. rewrite <- C in *. clear C c r.
    destruct (score_all L _ _ 0 None) as [[y [s|]]|] eqn:E; try discriminate. injection H as _ <-. split.
    - assert (N0 : score_all L (low L (chars t)) (map (lower_case L) ws) 0 None <> None) by congruence. apply all_none in N0.
      rewrite Forall_map in N0. apply Forall_forall. intros w I. pose proof (proj1 (Forall_forall _ _) N0 w I) as N1. cbn in N1. change (low L) with (lower_case L) in N1.
      destruct (score_token L _ _) as [[z u]|] eqn:E1; [|congruence]. exists (fst u), (snd u). eapply token_span; [exact (proj1 (Forall_forall _ _) F w I)|exact E1].
    - apply all_span in E as [E|(t0 & z & I & E)]; [discriminate|]. apply in_map_iff in I as (w & <- & I). exists w. split; [exact I|].
      eapply token_span; [exact (proj1 (Forall_forall _ _) F w I)|exact E].
  Qed.
  Lemma score_complete : forall ws t, Forall (fun w => w <> []) ws -> ws <> [] -> Forall (stands_in L (chars t)) ws -> exists r, score L (map (lower_case L) ws) t = Some r.
  Proof.
    intros ws t F N0 S0. unfold score. destruct (chars t) as [|c r] eqn:C.
    - exfalso. destruct ws as [|w ws]; [now elim N0|]. inversion S0 as [|? ? (a & b & E) ?]; subst. inversion F; subst.
      symmetry in E. apply app_eq_nil in E as [_ E]. apply app_eq_nil in E as [E _]. destruct w; [contradiction|discriminate E].
    - rewrite <- C in *. clear C c r. destruct (score_all L _ _ 0 None) as [[y [s|]]|] eqn:E; [eexists; reflexivity| |].
      + exfalso. eapply all_some; [exact E| |reflexivity]. right. destruct ws; [now elim N0|discriminate].
      + exfalso. assert (A : score_all L (low L (chars t)) (map (lower_case L) ws) 0 None <> None); [|congruence].
        apply all_none. rewrite Forall_map. apply Forall_forall. intros w I. change (low L) with (lower_case L).
        destruct (token_found (chars t) w) as [r R]; [exact (proj1 (Forall_forall _ _) F w I)|exact (proj1 (Forall_forall _ _) S0 w I)|congruence].
  Qed.
End Score.
