(** The duration parser reads exactly the texts of the specification. *)
From Coq Require Import String Ascii ZArith Lia Bool List Arith.
From Verif Require Import Base Table Duration DurationSpec.
Import ListNotations.
Local Open Scope list_scope.
Local Open Scope Z_scope.

Lemma parse_named : forall s, unit_parse s = unit_named s.
Proof.
  intros s. unfold unit_parse, unit_named, unit_names. cbn [aget find existsb names_of].
  repeat match goal with |- context [String.eqb s ?k] => rewrite (String.eqb_sym s k); destruct (String.eqb k s) eqn:?; [match goal with E : String.eqb _ s = true |- _ => apply String.eqb_eq in E; subst s end; reflexivity|] end.
  reflexivity.
Qed.
Lemma digit_facts : forall c, match digit_of c with Some k => k = digit c /\ 0 <= k <= 9 /\ is_space c = false /\ is_letter c = false | None => True end.
Proof. intros [[] [] [] [] [] [] [] []]; try exact I; vm_compute; repeat split; discriminate. Qed.
Lemma letter_facts : forall c, is_letter c = true -> digit_of c = None /\ is_space c = false.
Proof. intros [[] [] [] [] [] [] [] []] H; try discriminate H; split; reflexivity. Qed.
Lemma space_facts : forall c, is_space c = true -> digit_of c = None.
Proof. intros [[] [] [] [] [] [] [] []] H; try discriminate H; reflexivity. Qed.
Definition no_letter (l : list ascii) : Prop := match l with [] => True | c :: _ => is_letter c = false end.
Definition dsum (n : Z) (ds : list (ascii * list ascii)) : Z := fold_left (fun n p => 10 * n + digit (fst p)) ds n.
Definition dchars (ds : list (ascii * list ascii)) : list ascii := concat (map (fun p => fst p :: snd p) ds).
Definition digits_ok (ds : list (ascii * list ascii)) : Prop := forall c sp, In (c, sp) ds -> digit_of c <> None /\ spaces sp.
Lemma digit_pos : forall ds n, digits_ok ds -> 0 <= n -> n <= dsum n ds.
Proof.
  induction ds as [|[c sp] ds IH]; intros n K H; [cbn; lia|]. unfold dsum. cbn [fold_left fst]. fold (dsum (10 * n + digit c) ds).
  destruct (K c sp (or_introl eq_refl)) as [D _]. pose proof (digit_facts c) as F. destruct (digit_of c); [|congruence]. destruct F as (-> & F & _).
  assert (10 * n + digit c <= dsum (10 * n + digit c) ds) by (apply IH; [intros x s I0; apply (K x s); now right|lia]). lia.
Qed.
(** *** Reading a written term *)
Lemma scan_num_spaces : forall sp n d l, spaces sp -> dscan (DNum n) d (sp ++ l) = dscan (DNum n) d l.
Proof. induction sp as [|c sp IH]; intros n d l H; [reflexivity|]. unfold spaces in H. cbn [forallb] in H. apply andb_prop in H as [A B]. cbn [app dscan]. rewrite (space_facts _ A), A. now apply IH. Qed.
Lemma scan_first_spaces : forall sp b d l, spaces sp -> dscan (DFirst b) d (sp ++ l) = dscan (DFirst b) d l.
Proof. induction sp as [|c sp IH]; intros n d l H; [reflexivity|]. unfold spaces in H. cbn [forallb] in H. apply andb_prop in H as [A B]. cbn [app dscan]. rewrite (space_facts _ A), A. now apply IH. Qed.
Lemma scan_digits : forall ds n d l, digits_ok ds -> 0 <= n -> dsum n ds < 2 ^ 64 -> dscan (DNum n) d (dchars ds ++ l) = dscan (DNum (dsum n ds)) d l.
Proof.
  induction ds as [|[c sp] ds IH]; intros n d l K N B; [reflexivity|]. unfold dchars. cbn [map concat fst snd]. fold (dchars ds). cbn [app]. rewrite <- app_assoc. cbn [dscan].
  destruct (K c sp (or_introl eq_refl)) as [D Sp]. pose proof (digit_facts c) as F. destruct (digit_of c) as [k|]; [|congruence]. destruct F as (-> & F & _).
  assert (K2 : digits_ok ds) by (intros x s I0; apply (K x s); now right). change (dsum n ((c, sp) :: ds)) with (dsum (10 * n + digit c) ds) in *. replace (n * 10 + digit c) with (10 * n + digit c) by lia.
  pose proof (digit_pos ds (10 * n + digit c) K2 ltac:(lia)). destruct (Z.ltb_spec (10 * n + digit c) (2 ^ 64)); [|lia]. rewrite scan_num_spaces by exact Sp. apply IH; [exact K2|lia|exact B].
Qed.
Lemma scan_digits_over : forall ds n d l, digits_ok ds -> 0 <= n < 2 ^ 64 -> 2 ^ 64 <= dsum n ds -> dscan (DNum n) d (dchars ds ++ l) = Err (EOp "NumberOverflow").
Proof.
  induction ds as [|[c sp] ds IH]; intros n d l K N B; [cbn in B; lia|]. unfold dchars. cbn [map concat fst snd]. fold (dchars ds). cbn [app]. rewrite <- app_assoc. cbn [dscan].
  destruct (K c sp (or_introl eq_refl)) as [D Sp]. pose proof (digit_facts c) as F. destruct (digit_of c) as [k|]; [|congruence]. destruct F as (-> & F & _).
  assert (K2 : digits_ok ds) by (intros x s I0; apply (K x s); now right). change (dsum n ((c, sp) :: ds)) with (dsum (10 * n + digit c) ds) in *. replace (n * 10 + digit c) with (10 * n + digit c) by lia.
  destruct (Z.ltb_spec (10 * n + digit c) (2 ^ 64)); [|reflexivity]. rewrite scan_num_spaces by exact Sp. apply IH; [exact K2|lia|exact B].
Qed.
Lemma scan_name : forall q n d name l, forallb is_letter q = true -> no_letter l ->
  dscan (DUnit n name) d (q ++ l) = match l with [] => add_term d n (name ++ q) | _ => dscan (DUnit n (name ++ q)) d l end.
Proof.
  induction q as [|c q IH]; intros n d name l H N; [rewrite app_nil_r; destruct l; reflexivity|]. cbn [forallb] in H. apply andb_prop in H as [A B]. destruct (letter_facts c A) as [Dc Sc].
  cbn [app dscan]. rewrite Dc, Sc, A, (IH n d (name ++ [c]) l B N), <- app_assoc. reflexivity.
Qed.
Definition begins (l : list ascii) : Prop := match l with [] => True | c :: _ => digit_of c <> None \/ is_space c = true end.
Lemma scan_term : forall b d t l, term_ok t -> begins l -> number_of t < 2 ^ 64 ->
  dscan (DFirst b) d (term_text t ++ l) = do d1 <- add_term d (number_of t) (tm_name t); dscan (DFirst true) d1 l.
Proof.
  intros b d t l (Sp & Nd & K & Nn & Lt) Be B. unfold term_text. rewrite <- !app_assoc, scan_first_spaces by exact Sp. unfold number_of in *. destruct (tm_digits t) as [|[c sp] ds]; [now elim Nd|]. fold (dsum 0 ((c, sp) :: ds)) in *.
  change (dsum 0 ((c, sp) :: ds)) with (dsum (10 * 0 + digit c) ds) in *. fold (dchars ((c, sp) :: ds)). unfold dchars. cbn [map concat fst snd]. fold (dchars ds). cbn [app dscan].
  destruct (K c sp (or_introl eq_refl)) as [D S0]. pose proof (digit_facts c) as F. destruct (digit_of c) as [k|]; [|congruence]. destruct F as (-> & F & _).
  rewrite <- !app_assoc, scan_num_spaces by exact S0. rewrite scan_digits; [|intros x s I0; apply (K x s); now right|lia|exact B].
  replace (10 * 0 + digit c) with (digit c) by lia. set (n := dsum (digit c) ds). destruct (tm_name t) as [|x q] eqn:En; [now elim Nn|]. cbn [forallb] in Lt. apply andb_prop in Lt as [Lx Lq]. destruct (letter_facts x Lx) as [Dx Sx].
  cbn [app dscan]. rewrite Dx, Sx, Lx.
  assert (Nl : no_letter l).
  { destruct l as [|y l]; [exact I|]. cbn [begins no_letter] in Be |- *. destruct Be as [Q|Q]; [|destruct (is_letter y) eqn:E; [apply letter_facts in E as [_ E]; congruence|reflexivity]].
    pose proof (digit_facts y) as G. destruct (digit_of y) eqn:Ey; [apply G|now elim Q]. }
  rewrite (scan_name q n d [x] l Lq Nl). cbn [app]. destruct l as [|y l]; [destruct (add_term d n (x :: q)); reflexivity|]. cbn [dscan]. cbn [begins] in Be.
  destruct (digit_of y) eqn:Dy; [reflexivity|]. destruct Be as [Q|Q]; [congruence|]. now rewrite Q.
Qed.
Fixpoint run_terms (d : duration) (ts : list term) : res duration :=
  match ts with [] => Ok d | t :: ts => do d1 <- add_term d (number_of t) (tm_name t); run_terms d1 ts end.
Lemma begins_text : forall ts trail, (forall t, In t ts -> term_ok t) -> spaces trail -> begins (dur_text ts trail).
Proof.
  intros [|t ts] trail K Sp; unfold dur_text; cbn [map concat].
  - destruct trail as [|c l]; [exact I|]. cbn [app begins]. right. unfold spaces in Sp. cbn [forallb] in Sp. now apply andb_prop in Sp as [A _].
  - destruct (K t (or_introl eq_refl)) as (S0 & Nd & Kd & _). unfold term_text. destruct (tm_lead t) as [|c l]; [|cbn [app begins]; right; unfold spaces in S0; cbn [forallb] in S0; now apply andb_prop in S0 as [A _]].
    destruct (tm_digits t) as [|[c sp] ds]; [now elim Nd|]. cbn [map concat fst snd app begins]. left. now destruct (Kd c sp (or_introl eq_refl)).
Qed.
Lemma scan_terms : forall ts trail b d, (forall t, In t ts -> term_ok t) -> (forall t, In t ts -> number_of t < 2 ^ 64) -> spaces trail ->
  dscan (DFirst b) d (dur_text ts trail) = match ts with [] => if b then Ok d else Err (EOp "Empty") | _ => run_terms d ts end.
Proof.
  assert (E : forall trail b d, spaces trail -> dscan (DFirst b) d trail = if b then Ok d else Err (EOp "Empty")) by (intros trail b d Sp; rewrite <- (app_nil_r trail), scan_first_spaces by exact Sp; destruct b; reflexivity).
  induction ts as [|t ts IH]; intros trail b d K B Sp; [apply E; exact Sp|].
  unfold dur_text. cbn [map concat]. rewrite <- app_assoc. fold (dur_text ts trail). rewrite scan_term; [|now apply K; left|apply begins_text; [intros x I0; apply K; now right|exact Sp]|now apply B; left].
  cbn [run_terms]. destruct (add_term d (number_of t) (tm_name t)) as [d1|e]; [|reflexivity]. cbn [bind]. rewrite IH; [destruct ts; reflexivity|intros x I0; apply K; now right|intros x I0; apply B; now right|exact Sp].
Qed.
(** *** Every text that is read is written so *)
Definition text_for (d : duration) (l : list ascii) (d2 : duration) : Prop :=
  exists ts trail, l = dur_text ts trail /\ (forall t, In t ts -> term_ok t) /\ spaces trail /\ run_terms d ts = Ok d2.
Lemma no_name : forall d n d2, add_term d n [] <> Ok d2.
Proof. intros d n d2. unfold add_term. cbn. discriminate. Qed.
Lemma app_name : forall d n name t2 d2, add_term d n name = Ok d2 -> forall ts, run_terms d2 ts = Ok t2 -> exists t1, add_term d n name = Ok t1 /\ run_terms t1 ts = Ok t2.
Proof. eauto. Qed.
Lemma scan_shape : forall l d d2,
  (forall b, dscan (DFirst b) d l = Ok d2 -> exists ts trail, l = dur_text ts trail /\ (forall t, In t ts -> term_ok t) /\ spaces trail /\ run_terms d ts = Ok d2 /\ (b = false -> ts <> [])) /\
  (forall n, dscan (DNum n) d l = Ok d2 -> exists sp ds name ts trail d1, l = sp ++ dchars ds ++ name ++ dur_text ts trail /\ spaces sp /\ digits_ok ds /\ name <> [] /\ forallb is_letter name = true /\
     (forall t, In t ts -> term_ok t) /\ spaces trail /\ add_term d (dsum n ds) name = Ok d1 /\ run_terms d1 ts = Ok d2) /\
  (forall n nm, dscan (DUnit n nm) d l = Ok d2 -> exists name ts trail d1, l = name ++ dur_text ts trail /\ forallb is_letter name = true /\
     (forall t, In t ts -> term_ok t) /\ spaces trail /\ add_term d n (nm ++ name) = Ok d1 /\ run_terms d1 ts = Ok d2).
Proof.
  induction l as [|c l IH]; intros d d2.
  - split; [|split].
    + intros [] E; [|discriminate]. injection E as ->. exists [], []. split; [reflexivity|]. split; [intros t []|]. split; [reflexivity|]. split; [reflexivity|discriminate].
    + intros n E. elim (no_name d n d2 E).
    + intros n nm E. exists [], [], [], d2. rewrite (app_nil_r nm). split; [reflexivity|]. split; [reflexivity|]. split; [intros t []|]. split; [reflexivity|]. split; [exact E|reflexivity].
  - split; [|split].
    + intros b E. cbn [dscan] in E. destruct (digit_of c) as [k|] eqn:Dc.
      * destruct (IH d d2) as (_ & B & _). destruct (B k E) as (sp & ds & name & ts & trail & d1 & -> & Sp & K & Nn & Lt & Kt & St & A & R).
        exists (Term [] ((c, sp) :: ds) name :: ts), trail. split; [|split; [|split; [exact St|split; [|discriminate]]]].
        -- unfold dur_text, term_text. cbn [map concat tm_lead tm_digits tm_name app fst snd]. fold (dchars ds). now rewrite <- !app_assoc.
        -- intros t [<-|I0]; [|auto]. split; [reflexivity|]. split; [discriminate|]. split; [|split; assumption]. intros x s [[= <- <-]|I0]; [split; [congruence|exact Sp]|now apply K].
        -- cbn [run_terms]. unfold number_of. cbn [tm_digits tm_name fold_left fst]. fold (dsum (10 * 0 + digit c) ds). pose proof (digit_facts c) as F. rewrite Dc in F. destruct F as (Ek & _). replace (10 * 0 + digit c) with k by lia. now rewrite A.
      * destruct (is_space c) eqn:Sc; [|discriminate]. destruct (IH d d2) as (A & _). destruct (A b E) as (ts & trail & -> & Kt & St & R & Nb). destruct ts as [|t ts].
        -- exists [], (c :: trail). split; [reflexivity|]. split; [exact Kt|]. split; [unfold spaces in *; cbn [forallb]; now rewrite Sc|]. split; [exact R|exact Nb].
        -- exists (Term (c :: tm_lead t) (tm_digits t) (tm_name t) :: ts), trail. split; [reflexivity|]. split; [|split; [exact St|split; [exact R|discriminate]]].
           intros x [<-|I0]; [|apply Kt; now right]. destruct (Kt t (or_introl eq_refl)) as (S0 & Rest). split; [unfold spaces in *; cbn [tm_lead forallb]; now rewrite Sc|exact Rest].
    + intros n E. cbn [dscan] in E. destruct (digit_of c) as [k|] eqn:Dc.
      * destruct (n * 10 + k <? 2 ^ 64); [|discriminate]. destruct (IH d d2) as (_ & B & _). destruct (B _ E) as (sp & ds & name & ts & trail & d1 & -> & Sp & K & Nn & Lt & Kt & St & A & R).
        exists [], ((c, sp) :: ds), name, ts, trail, d1. split; [unfold dchars; cbn [map concat app fst snd]; now rewrite <- !app_assoc|]. split; [reflexivity|].
        split; [intros x s [[= <- <-]|I0]; [split; [congruence|exact Sp]|now apply K]|]. split; [exact Nn|]. split; [exact Lt|]. split; [exact Kt|]. split; [exact St|]. split; [|exact R].
        unfold dsum. cbn [fold_left fst]. pose proof (digit_facts c) as F. rewrite Dc in F. destruct F as (Ek & _). subst k. replace (10 * n + digit c) with (n * 10 + digit c) by lia. exact A.
      * destruct (is_space c) eqn:Sc.
        -- destruct (IH d d2) as (_ & B & _). destruct (B _ E) as (sp & ds & name & ts & trail & d1 & -> & Sp & Rest). exists (c :: sp), ds, name, ts, trail, d1. split; [reflexivity|]. split; [unfold spaces in *; cbn [forallb]; now rewrite Sc|exact Rest].
        -- destruct (is_letter c) eqn:Lc; [|discriminate]. destruct (IH d d2) as (_ & _ & C). destruct (C _ _ E) as (name & ts & trail & d1 & -> & Lt & Kt & St & A & R).
           exists [], [], (c :: name), ts, trail, d1. split; [reflexivity|]. split; [reflexivity|]. split; [intros x s []|]. split; [discriminate|]. split; [cbn [forallb]; now rewrite Lc|]. auto.
    + intros n nm E. cbn [dscan] in E. destruct (digit_of c) as [k|] eqn:Dc.
      * destruct (add_term d n nm) as [d1|] eqn:A; [|discriminate]. cbn [bind] in E. exists [].
        assert (E2 : dscan (DFirst true) d1 (c :: l) = Ok d2) by (cbn [dscan]; now rewrite Dc).
        destruct (IH d1 d2) as (_ & B & _). destruct (B k E) as (sp & ds & name & ts & trail & d3 & -> & Sp & K & Nn & Lt & Kt & St & A2 & R).
        exists (Term [] ((c, sp) :: ds) name :: ts), trail, d1. split; [unfold dur_text, term_text; cbn [map concat tm_lead tm_digits tm_name app fst snd]; fold (dchars ds); now rewrite <- !app_assoc|]. split; [reflexivity|].
        split; [intros t [<-|I0]; [|auto]; split; [reflexivity|]; split; [discriminate|]; split; [|split; assumption]; intros x s [[= <- <-]|I0]; [split; [congruence|exact Sp]|now apply K]|]. split; [exact St|]. rewrite (app_nil_r nm). split; [exact A|].
        cbn [run_terms]. unfold number_of. cbn [tm_digits tm_name fold_left fst]. fold (dsum (10 * 0 + digit c) ds). pose proof (digit_facts c) as F. rewrite Dc in F. destruct F as (Ek & _). replace (10 * 0 + digit c) with k by lia. now rewrite A2.
      * destruct (is_space c) eqn:Sc.
        -- destruct (add_term d n nm) as [d1|] eqn:A; [|discriminate]. cbn [bind] in E. destruct (IH d1 d2) as (A1 & _). destruct (A1 true E) as (ts & trail & -> & Kt & St & R & _). exists []. destruct ts as [|t ts].
           ++ exists [], (c :: trail), d1. rewrite (app_nil_r nm). split; [reflexivity|]. split; [reflexivity|]. split; [exact Kt|]. split; [unfold spaces in *; cbn [forallb]; now rewrite Sc|]. auto.
           ++ exists (Term (c :: tm_lead t) (tm_digits t) (tm_name t) :: ts), trail, d1. rewrite (app_nil_r nm). split; [reflexivity|]. split; [reflexivity|]. split; [|auto].
              intros x [<-|I0]; [|apply Kt; now right]. destruct (Kt t (or_introl eq_refl)) as (S0 & Rest). split; [unfold spaces in *; cbn [tm_lead forallb]; now rewrite Sc|exact Rest].
        -- destruct (is_letter c) eqn:Lc; [|discriminate]. destruct (IH d d2) as (_ & _ & C). destruct (C _ _ E) as (name & ts & trail & d1 & -> & Lt & Kt & St & A & R).
           exists (c :: name), ts, trail, d1. rewrite <- app_assoc in A. split; [reflexivity|]. split; [cbn [forallb]; now rewrite Lc|]. auto.
Qed.
(** *** Adding terms *)
Lemma number_pos : forall t, term_ok t -> 0 <= number_of t.
Proof. intros t (_ & _ & K & _). apply (digit_pos (tm_digits t) 0 K). lia. Qed.
Definition term_fits (u : dunit) (t : term) : Prop := match unit_kind u with KFixed => number_of t < 2 ^ 63 | KMonths => du_months (term_size t) < 2 ^ 31 | KYears => number_of t < 2 ^ 31 end.
Definition put (d s : duration) (u : dunit) : duration :=
  match unit_kind u with KFixed => Dur (du_seconds d + du_seconds s) (du_months d) (du_years d) | KMonths => Dur (du_seconds d) (du_months s) (du_years d) | KYears => Dur (du_seconds d) (du_months d) (du_years s) end.
Lemma i32_ok : forall n k, 0 <= n -> to_i32 n = Ok k <-> k = n /\ n < 2 ^ 31.
Proof. intros n k N. unfold to_i32. destruct (Z.leb_spec (- 2 ^ 31) n); [|lia]. destruct (Z.ltb_spec n (2 ^ 31)); cbn [andb]; split; intros H1; [injection H1 as <-; auto|now destruct H1 as [-> _]|discriminate|lia]. Qed.
Lemma i64_ok : forall n k, 0 <= n -> to_i64 n = Ok k <-> k = n /\ n < 2 ^ 63.
Proof. intros n k N. unfold to_i64. destruct (Z.leb_spec (- 2 ^ 63) n); [|lia]. destruct (Z.ltb_spec n (2 ^ 63)); cbn [andb]; split; intros H1; [injection H1 as <-; auto|now destruct H1 as [-> _]|discriminate|lia]. Qed.
Lemma add_term_ok : forall d t d2, term_ok t -> 0 <= du_seconds d -> add_term d (number_of t) (tm_name t) = Ok d2 <->
  exists u, unit_of t = Some u /\ term_fits u t /\ (unit_kind u = KFixed -> du_seconds d + du_seconds (term_size t) < 2 ^ 63) /\ d2 = put d (term_size t) u.
Proof.
  intros d t d2 K P. pose proof (number_pos t K) as N. unfold add_term, term_fits, term_size. rewrite parse_named. fold (unit_of t). destruct (unit_of t) as [u|]; [|split; [discriminate|intros (u & E & _); discriminate]]. cbn [of_option bind].
  assert (Fix : forall k, 1 <= k -> (do n1 <- to_i64 (number_of t); do p <- to_i64 (k * n1); do s <- to_i64 (du_seconds d + p); Ok (Dur s (du_months d) (du_years d))) = Ok d2 <->
    number_of t < 2 ^ 63 /\ du_seconds d + number_of t * k < 2 ^ 63 /\ d2 = Dur (du_seconds d + number_of t * k) (du_months d) (du_years d)).
  { intros k Hk. split.
    - intros E. destruct (to_i64 (number_of t)) as [n1|] eqn:E1; [|discriminate]. cbn [bind] in E. apply i64_ok in E1 as [-> B1]; [|exact N].
      destruct (to_i64 (k * number_of t)) as [p|] eqn:E2; [|discriminate]. cbn [bind] in E. apply i64_ok in E2 as [-> B2]; [|nia].
      destruct (to_i64 (du_seconds d + k * number_of t)) as [s|] eqn:E3; [|discriminate]. cbn [bind] in E. apply i64_ok in E3 as [-> B3]; [|nia]. injection E as <-. repeat split; [exact B1|nia|f_equal; nia].
    - intros (B1 & B2 & ->). assert (E1 : to_i64 (number_of t) = Ok (number_of t)) by (apply i64_ok; auto). assert (E2 : to_i64 (k * number_of t) = Ok (k * number_of t)) by (apply i64_ok; [nia|split; [reflexivity|nia]]).
      assert (E3 : to_i64 (du_seconds d + k * number_of t) = Ok (du_seconds d + k * number_of t)) by (apply i64_ok; [nia|split; [reflexivity|nia]]). rewrite E1. cbn [bind]. rewrite E2. cbn [bind]. rewrite E3. cbn [bind]. f_equal. f_equal. nia. }
  destruct u; cbn [as_secs unit_kind unit_size du_seconds du_months du_years bind put].
  1,2,3,4,5: try change (86400 * 7) with 604800; rewrite Fix by lia; split; [intros (B1 & B2 & ->); eexists; split; [reflexivity|]; repeat split; auto|intros (u & [= <-] & B1 & B2 & ->); cbn [unit_kind] in *; auto].
  - split.
    + intros E. destruct (to_i32 (number_of t)) as [m|] eqn:E1; [|discriminate]. apply i32_ok in E1 as [-> B1]; [|exact N]. cbn [bind] in E. injection E as <-. exists UMonth. cbn. repeat split; try discriminate; try lia; f_equal; lia.
    + intros (u & [= <-] & B1 & _ & ->). cbn [unit_kind unit_size du_months du_seconds du_years] in *. assert (E1 : to_i32 (number_of t) = Ok (number_of t)) by (apply i32_ok; [exact N|split; [reflexivity|lia]]). rewrite E1. cbn. f_equal. f_equal. lia.
  - unfold times3. split.
    + intros E. destruct (to_i32 (number_of t)) as [m|] eqn:E1; [|discriminate]. apply i32_ok in E1 as [-> B1]; [|exact N]. cbn [bind] in E. destruct (Z.ltb_spec (number_of t * 3) (2 ^ 31)); [|discriminate]. cbn [bind] in E. injection E as <-. exists UQuarter. cbn [unit_kind]. repeat split; try discriminate; assumption.
    + intros (u & [= <-] & B1 & _ & ->). cbn [unit_kind unit_size du_months du_seconds du_years] in *. assert (E1 : to_i32 (number_of t) = Ok (number_of t)) by (apply i32_ok; [exact N|split; [reflexivity|lia]]). rewrite E1. cbn [bind]. destruct (Z.ltb_spec (number_of t * 3) (2 ^ 31)); [reflexivity|lia].
  - split.
    + intros E. destruct (to_i32 (number_of t)) as [m|] eqn:E1; [|discriminate]. apply i32_ok in E1 as [-> B1]; [|exact N]. cbn [bind] in E. injection E as <-. exists UYear. cbn. repeat split; try discriminate; try lia; f_equal; lia.
    + intros (u & [= <-] & B1 & _ & ->). cbn [unit_kind unit_size du_months du_seconds du_years] in *. assert (E1 : to_i32 (number_of t) = Ok (number_of t)) by (apply i32_ok; [exact N|split; [reflexivity|lia]]). rewrite E1. cbn. f_equal. f_equal. lia.
Qed.
Definition kind_eqb (a b : kind) : bool := match a, b with KFixed, KFixed | KMonths, KMonths | KYears, KYears => true | _, _ => false end.
Definition is_kind (k : kind) (t : term) : bool := match unit_of t with Some u => kind_eqb (unit_kind u) k | None => false end.
Lemma is_kind_ok : forall k t, is_kind k t = true <-> of_kind k t.
Proof.
  intros k t. unfold is_kind, of_kind. destruct (unit_of t) as [u|]; [|split; [discriminate|intros (u & E & _); discriminate]]. split.
  - intros H. exists u. split; [reflexivity|]. destruct (unit_kind u), k; easy.
  - intros (v & [= ->] & <-). destruct (unit_kind v); reflexivity.
Qed.
Fixpoint latest (k : kind) (f : duration -> Z) (z : Z) (ts : list term) : Z :=
  match ts with [] => z | t :: ts => latest k f (if is_kind k t then f (term_size t) else z) ts end.
Lemma size_pos : forall t, term_ok t -> 0 <= du_seconds (term_size t) /\ (unit_of t <> None -> is_kind KFixed t = false -> du_seconds (term_size t) = 0).
Proof.
  intros t K. pose proof (number_pos t K). unfold term_size, is_kind. destruct (unit_of t) as [u|]; [|split; [cbn; lia|congruence]]. destruct u; cbn [unit_size du_seconds unit_kind kind_eqb]; split; try lia; try discriminate.
Qed.
Lemma total_pos : forall ts, (forall t, In t ts -> term_ok t) -> 0 <= total du_seconds ts.
Proof. induction ts as [|t ts IH]; intros K; [cbn; lia|]. unfold total. cbn [fold_right]. fold (total du_seconds ts). pose proof (proj1 (size_pos t (K t (or_introl eq_refl)))). specialize (IH (fun x I0 => K x (or_intror I0))). lia. Qed.
Lemma run_ok : forall ts d d2, (forall t, In t ts -> term_ok t) -> 0 <= du_seconds d < 2 ^ 63 -> run_terms d ts = Ok d2 <->
  (forall t, In t ts -> exists u, unit_of t = Some u /\ term_fits u t) /\ du_seconds d + total du_seconds ts < 2 ^ 63 /\
  d2 = Dur (du_seconds d + total du_seconds ts) (latest KMonths du_months (du_months d) ts) (latest KYears du_years (du_years d) ts).
Proof.
  induction ts as [|t ts IH]; intros d d2 K P.
  - cbn. split; [intros [= <-]; split; [intros t []|]; split; [lia|]; destruct d; f_equal; cbn; lia|intros (_ & _ & ->); f_equal; destruct d; f_equal; cbn; lia].
  - assert (Kt : term_ok t) by (apply K; now left). assert (Ks : forall x, In x ts -> term_ok x) by (intros x I0; apply K; now right). cbn [run_terms latest]. unfold total. cbn [fold_right]. fold (total du_seconds ts).
    destruct (size_pos t Kt) as [S1 S2]. pose proof (total_pos ts Ks) as T. split.
    + intros E. destruct (add_term d (number_of t) (tm_name t)) as [d1|] eqn:A; [|discriminate]. cbn [bind] in E. apply add_term_ok in A as (u & Eu & F & B & ->); [|exact Kt|lia].
      assert (P1 : 0 <= du_seconds (put d (term_size t) u) < 2 ^ 63 /\ du_seconds (put d (term_size t) u) = du_seconds d + du_seconds (term_size t) /\
        du_months (put d (term_size t) u) = (if is_kind KMonths t then du_months (term_size t) else du_months d) /\ du_years (put d (term_size t) u) = (if is_kind KYears t then du_years (term_size t) else du_years d)).
      { unfold put, is_kind in *. rewrite Eu in *. destruct (unit_kind u); cbn [kind_eqb du_seconds du_months du_years] in *; repeat split; try lia; try (specialize (B eq_refl); lia); rewrite S2 by congruence; lia. }
      destruct P1 as (P1 & Q1 & Q2 & Q3). apply IH in E as (F2 & B2 & ->); [|exact Ks|exact P1]. split; [intros x [<-|I0]; eauto|]. rewrite Q1, Q2, Q3 in *. split; [lia|f_equal; lia].
    + intros (F & B & ->). destruct (F t (or_introl eq_refl)) as (u & Eu & Ft). assert (A : add_term d (number_of t) (tm_name t) = Ok (put d (term_size t) u)) by (apply add_term_ok; [exact Kt|lia|exists u; repeat split; [exact Eu|exact Ft|intros _; lia]]).
      rewrite A. cbn [bind].
      assert (P1 : 0 <= du_seconds (put d (term_size t) u) < 2 ^ 63 /\ du_seconds (put d (term_size t) u) = du_seconds d + du_seconds (term_size t) /\
        du_months (put d (term_size t) u) = (if is_kind KMonths t then du_months (term_size t) else du_months d) /\ du_years (put d (term_size t) u) = (if is_kind KYears t then du_years (term_size t) else du_years d)).
      { unfold put, is_kind in *. rewrite Eu in *. destruct (unit_kind u); cbn [kind_eqb du_seconds du_months du_years] in *; repeat split; try lia; rewrite S2 by congruence; lia. }
      destruct P1 as (P1 & Q1 & Q2 & Q3). apply IH; [exact Ks|exact P1|]. split; [intros x I0; apply F; now right|]. rewrite Q1, Q2, Q3. split; [lia|f_equal; lia].
Qed.
Lemma fits_number : forall ts t, (forall t, In t ts -> term_ok t) -> (forall t, In t ts -> exists u, unit_of t = Some u /\ term_fits u t) -> In t ts -> number_of t < 2 ^ 64.
Proof.
  intros ts t K F I0. destruct (F t I0) as (u & Eu & Ft). unfold term_fits, term_size in Ft. rewrite Eu in Ft. destruct u; cbn [unit_kind unit_size du_months] in Ft; lia.
Qed.
(** A text is read exactly when it is a list of terms that fit. *)
Lemma dparse_ok : forall s d, dparse s = Ok d <-> exists ts trail, list_ascii_of_string s = dur_text ts trail /\ ts <> [] /\ (forall t, In t ts -> term_ok t) /\ spaces trail /\ fits ts /\
  d = Dur (total du_seconds ts) (latest KMonths du_months 0 ts) (latest KYears du_years 0 ts).
Proof.
  intros s d. unfold dparse. split.
  - intros E. destruct (scan_shape (list_ascii_of_string s) dur_zero d) as (A & _). destruct (A false E) as (ts & trail & Et & K & Sp & R & Nb). exists ts, trail. apply run_ok in R as (F & B & ->); [|exact K|cbn; lia].
    split; [exact Et|]. split; [now apply Nb|]. split; [exact K|]. split; [exact Sp|]. split; [split; [exact F|exact B]|reflexivity].
  - intros (ts & trail & -> & Nt & K & Sp & [F B] & ->). rewrite scan_terms; [|exact K|intros t; now apply fits_number|exact Sp]. destruct ts as [|t ts]; [now elim Nt|]. apply run_ok; [exact K|cbn; lia|]. split; [exact F|]. split; [exact B|reflexivity].
Qed.
Lemma latest_last : forall k f ts z t, last_of k ts t -> latest k f z ts = f (term_size t).
Proof.
  intros k f ts z t (a & b & -> & Kt & N). revert z. induction a as [|x a IH]; intros z; [|cbn [app latest]; apply IH]. cbn [app latest]. apply is_kind_ok in Kt. rewrite Kt. generalize (f (term_size t)).
  induction b as [|y b IHb]; intros z0; [reflexivity|]. cbn [latest]. destruct (is_kind k y) eqn:Q; [apply is_kind_ok in Q; elim (N y (or_introl eq_refl) Q)|]. apply IHb. intros u I0. apply N. now right.
Qed.
Lemma latest_none : forall k f ts z, (forall t, In t ts -> ~ of_kind k t) -> latest k f z ts = z.
Proof. induction ts as [|t ts IH]; intros z N; [reflexivity|]. cbn [latest]. destruct (is_kind k t) eqn:Q; [apply is_kind_ok in Q; elim (N t (or_introl eq_refl) Q)|]. apply IH. intros u I0. apply N. now right. Qed.
Lemma other_kind : forall k t, k <> KFixed -> (k = KMonths -> ~ of_kind KMonths t -> du_months (term_size t) = 0) /\ (k = KYears -> ~ of_kind KYears t -> du_years (term_size t) = 0).
Proof.
  intros k t _. unfold of_kind, term_size. destruct (unit_of t) as [u|]; [|split; reflexivity]. split; intros _ N; destruct u; cbn [unit_size du_months du_years]; try lia; exfalso; apply N; eexists; split; reflexivity.
Qed.
Lemma total_zero : forall f ts, (forall t, In t ts -> f (term_size t) = 0) -> total f ts = 0.
Proof. induction ts as [|t ts IH]; intros Z; [reflexivity|]. unfold total. cbn [fold_right]. fold (total f ts). rewrite (Z t (or_introl eq_refl)), IH; [reflexivity|]. intros x I0. apply Z. now right. Qed.
Lemma latest_once : forall k f ts, (forall t, ~ of_kind k t -> f (term_size t) = 0) -> once k ts -> latest k f 0 ts = total f ts.
Proof.
  intros k f ts Z O. assert (D : (exists a t b, ts = a ++ t :: b /\ of_kind k t) \/ forall t, In t ts -> ~ of_kind k t).
  { clear O. induction ts as [|t ts [(a & u & b & -> & Ku)|IH]]; [right; intros t []|left; exists (t :: a), u, b; auto|]. destruct (is_kind k t) eqn:Q.
    - left. exists [], t, ts. split; [reflexivity|now apply is_kind_ok].
    - right. intros u [<-|I0]; [rewrite <- is_kind_ok; congruence|auto]. }
  destruct D as [(a & t & b & -> & Kt)|N].
  - rewrite (latest_last k f _ 0 t).
    + unfold total. rewrite fold_right_app. cbn [fold_right]. fold (total f b). rewrite (total_zero f b) by (intros u I0; apply Z; apply (O a t b u eq_refl Kt); apply in_or_app; now right).
      assert (Za : forall u, In u a -> f (term_size u) = 0) by (intros u I0; apply Z; apply (O a t b u eq_refl Kt); apply in_or_app; now left). clear O. induction a as [|x a IHa]; cbn [fold_right]; [lia|]. rewrite (Za x (or_introl eq_refl)), <- IHa; [lia|]. intros u I0. apply Za. now right.
    + exists a, b. split; [reflexivity|]. split; [exact Kt|]. intros u I0. apply (O a t b u eq_refl Kt). apply in_or_app. now right.
  - rewrite latest_none, total_zero; [reflexivity| |exact N]. intros t I0. apply Z. now apply N.
Qed.
