(** Proofs of C63 from the relational argument, and the cases in which the report is not complete. *)
From Coq Require Import String Ascii ZArith Lia Bool List Arith.
From Verif Require Import Base Dec Value Heap Ast Ops Compiler Vm Eval Funcs Samples Lexer Parser Print HeapSpec TreeFacts HeapFacts PureFacts
  RunSpec RepFacts ContentFacts Deps DepsSpec DepsFacts.
Import ListNotations.
Local Open Scope string_scope.
Local Open Scope nat_scope.
Local Open Scope list_scope.

Lemma reads_reported : forall L n (unary : bool), plain_lib L ->
  no_assign n = true -> sane n = true -> nesting n < 32 ->
  settled_by L n (fun t1 t2 => input_at t1 ["$"] = input_at t2 ["$"] /\
                               agree_on_reads (walk_with (if unary then ["$"] else []) n) t1 t2).
Proof.
  intros L n unary HL Hn Hs Hd b1 b2 h1 h2 t1 t2 r1 g1 R1 R2 C1 C2 [D AG] Y. apply yields_iff in Y as [C E].
  destruct (evaluate (std_ext L) n (scope_new b2) h2) as [r2 g2] eqn:E2. exists r2, g2. split; [apply yields_iff; auto|].
  rewrite <- E, <- E2. clear E E2 C.
  destruct (all_sound (std_ext L) (std_content L HL) (std_pure L) b1 b2 t1 t2 C1 C2 (fun p => input_at t1 p = input_at t2 p) (fun p H => H) D n) as [S _].
  destruct (S Hn Hs []) as [Cv _].
  assert (F : fits [] (DScope (if unary then ["$"] else []) [] [] [] None) []).
  { constructor; auto; try (intros; discriminate). cbn. intros x. destruct unary; cbn; [|discriminate]. rewrite orb_false_r. apply String.eqb_eq. }
  specialize (Cv _ [] 0 F Hd). unfold evaluate.
  assert (EV : ev (std_ext L) b1 b2 t1 t2 [] n).
  { apply Cv. intros p (x & Hx & Ha & <-). apply (AG x); auto. }
  specialize (EV [] [] h1 h2 (conj R1 R2) (Forall2_nil _)).
  destruct (eval (std_ext L) (scope_new b1) [] [] n (scope_new b1) h1), (eval (std_ext L) (scope_new b2) [] [] n (scope_new b2) h2); cbn in *; tauto.
Qed.

(** *** What is not reported *)
Lemma unsettled : forall L n (common : tree -> tree -> Prop) b1 b2 h1 h2 t1 t2 v1 v2 g1 g2,
  repr h1 b1 t1 -> repr h2 b2 t2 -> is_context t1 = true -> is_context t2 = true -> common t1 t2 -> compiles (std_ext L) n ->
  evaluate (std_ext L) n (scope_new b1) h1 = (Ok v1, g1) -> evaluate (std_ext L) n (scope_new b2) h2 = (Ok v2, g2) ->
  ~ alike g1 g2 v1 v2 -> ~ settled_by L n common.
Proof.
  intros L n common b1 b2 h1 h2 t1 t2 v1 v2 g1 g2 R1 R2 C1 C2 D C E1 E2 A S.
  destruct (S b1 b2 h1 h2 t1 t2 (Ok v1) g1 R1 R2 C1 C2 D) as (r2 & g2' & Y & O); [apply yields_iff; auto|].
  apply yields_iff in Y as [_ E]. rewrite E in E2. injection E2 as -> ->. exact (A O).
Qed.
Lemma not_alike_num : forall h1 h2 a b, a <> b -> ~ alike h1 h2 (VNum a) (VNum b).
Proof. intros h1 h2 a b N (t & H1 & H2). inversion H1; subst. inversion H2; subst. auto. Qed.
Lemma not_alike_bool : forall h1 h2 a b, a <> b -> ~ alike h1 h2 (VBool a) (VBool b).
Proof. intros h1 h2 a b N (t & H1 & H2). inversion H1; subst. inversion H2; subst. auto. Qed.

(** [$.x] *)
Definition dollar_expr : node := NMember (NIdent "$") (NString "x").
Definition dollar_heap (z : Z) : heap := [CObj [("x", num z)]; CObj [("$", VObj 0)]].
Definition dollar_ctx (z : Z) : tree := TObj [("$", TObj [("x", TNum (dec_of_Z z))])].
Lemma dollar_repr : forall z, repr (dollar_heap z) (VObj 1) (dollar_ctx z).
Proof. intros z. repeat (first [eapply RObj; [reflexivity|] | constructor | split; [reflexivity|]]). Qed.
Lemma dollar_unsettled : ~ settled_by demo_lib dollar_expr (agree_on_reads (walk dollar_expr)).
Proof.
  eapply (unsettled _ _ _ (VObj 1) (VObj 1) (dollar_heap 1) (dollar_heap 2)); try apply dollar_repr; try (vm_compute; reflexivity).
  - intros x Hx. vm_compute in Hx. contradiction.
  - eexists. vm_compute. reflexivity.
  - apply not_alike_num. discriminate.
Qed.

(** [(c ? (a = 1; 2) : 3) + a] *)
Definition branch_expr : node :=
  NBinary (NParen (NCond (NIdent "c") (NParen (NAssign [(NString "a", nnum 1)] (Some (nnum 2)))) (nnum 3))) (OpArith AAdd) (NIdent "a").
Definition branch_heap (z : Z) : heap := [CObj [("c", VBool false); ("a", num z)]].
Definition branch_ctx (z : Z) : tree := TObj [("c", TBool false); ("a", TNum (dec_of_Z z))].
Lemma branch_repr : forall z, repr (branch_heap z) (VObj 0) (branch_ctx z).
Proof. intros z. repeat (first [eapply RObj; [reflexivity|] | constructor | split; [reflexivity|]]). Qed.
Lemma branch_unsettled : ~ settled_by demo_lib branch_expr (fun t1 t2 => input_at t1 ["$"] = input_at t2 ["$"] /\ agree_on_reads (walk branch_expr) t1 t2).
Proof.
  eapply (unsettled _ _ _ (VObj 0) (VObj 0) (branch_heap 1) (branch_heap 2)); try apply branch_repr; try (vm_compute; reflexivity).
  - split; [vm_compute; reflexivity|]. intros x Hx _. vm_compute in Hx. destruct Hx as [<-|[]]. vm_compute. reflexivity.
  - eexists. vm_compute. reflexivity.
  - apply not_alike_num. vm_compute. discriminate.
Qed.

(** [some(a, some(a, ... x))], 32 times *)
Fixpoint deep_expr (k : nat) : node :=
  match k with 0 => NIdent "x" | S k => NCall (FClosure ClSome) [NIdent "a"; NClosure (deep_expr k) None] end.
Definition deep_heap (b : bool) : heap := [CArr [num 1]; CObj [("a", VArr 0); ("x", VBool b)]].
Definition deep_ctx (b : bool) : tree := TObj [("a", TArr [TNum (dec_of_Z 1)]); ("x", TBool b)].
Lemma deep_repr : forall b, repr (deep_heap b) (VObj 1) (deep_ctx b).
Proof. intros b. repeat (first [eapply RObj; [reflexivity|] | eapply RArr; [reflexivity|] | constructor | split; [reflexivity|]]). Qed.
Lemma deep_unsettled : ~ settled_by demo_lib (deep_expr 32) (fun t1 t2 => input_at t1 ["$"] = input_at t2 ["$"] /\ agree_on_reads (walk (deep_expr 32)) t1 t2).
Proof.
  eapply (unsettled _ _ _ (VObj 1) (VObj 1) (deep_heap true) (deep_heap false)); try apply deep_repr; try (vm_compute; reflexivity).
  - split; [vm_compute; reflexivity|]. intros x Hx _. assert (pr_path x = ["a"]) as ->; [|vm_compute; reflexivity].
    vm_compute in Hx. repeat (destruct Hx as [<-|Hx]; [reflexivity|]). contradiction.
  - eexists. vm_compute. reflexivity.
  - apply not_alike_bool. discriminate.
Qed.

(** *** What is reported is what is written *)

(** Dotted names. *)
Definition no_scope : dscope := DScope [] [] [] [] None.
Lemma spine_dots : forall l x, x <> "$" -> spine no_scope (dots x l) = Some ([], no_scope, CGroup (x :: l) (x :: l) None true false).
Proof.
  intros l x N. unfold dots. rewrite <- (rev_involutive l). induction (rev l) as [|k r IH]; cbn [rev].
  - cbn. unfold chain_root. destruct (String.eqb_spec x "$"); [contradiction|]. reflexivity.
  - rewrite fold_left_app. cbn [fold_left]. rewrite spine_string, IH. reflexivity.
Qed.
Lemma resolve_dots : forall l x, x <> "$" -> resolve (dots x l) no_scope = ([RDirect (x :: l) false], no_scope).
Proof.
  intros l x N. pose proof (spine_dots l x N) as SP. destruct (dots x l) eqn:E; try discriminate.
  - injection SP as SP. unfold chain_root in SP. destruct (String.eqb_spec s "$"); [discriminate|]. cbn in SP. injection SP as <- <-. reflexivity.
  - exfalso. revert E. unfold dots. clear. rewrite <- (rev_involutive l). destruct (rev l); cbn [rev]; [discriminate|]. rewrite fold_left_app. discriminate.
  - rewrite resolve_member, SP. reflexivity.
Qed.
Definition direct (p : list string) : rdep := RDirect p false.
Lemma plain_resolve : (forall n ps, plain_reads n ps -> resolve n no_scope = (map direct ps, no_scope)) /\
  (forall l ps, plain_list l ps -> each resolve l no_scope = (map direct ps, no_scope)).
Proof.
  #[local] Transparent resolve.
  apply plain_both; try reflexivity.
  - exact (fun x l N => resolve_dots l x N).
  - intros a o b p q _ A _ B. cbn [resolve]. unfold dthen. rewrite A. cbn [fst snd]. rewrite B, map_app. reflexivity.
  - intros a b l r p q _ A _ B. cbn [resolve]. unfold dthen. rewrite A. cbn [fst snd]. rewrite B, map_app. reflexivity.
  - intros a b c p q r _ A _ B _ C. cbn [resolve]. unfold dthen. rewrite A. cbn [fst snd]. rewrite B. cbn [fst snd]. rewrite C, !map_app, app_assoc. reflexivity.
  - intros a o p _ A. exact A.
  - intros a p _ A. exact A.
  - intros l p _ A. exact A.
  - intros l p _ A. exact A.
  - intros f l p _ A. exact A.
  - intros a l p q _ A _ B. cbn [each]. unfold dthen. rewrite A. cbn [fst snd]. rewrite B, map_app. reflexivity.
Qed.
Lemma plain_head : (forall n ps, plain_reads n ps -> Forall (fun p => p <> []) ps) /\ (forall l ps, plain_list l ps -> Forall (fun p => p <> []) ps).
Proof. apply plain_both; intros; auto; try (apply Forall_app; split; auto); try (constructor; auto; discriminate). apply Forall_app; auto. Qed.
Lemma flat_direct : forall ps, Forall (fun p => p <> []) ps -> flatten_reads (map direct ps) = map (fun p => PRead p false false) ps.
Proof.
  intros ps H. unfold flatten_reads. cbn [Nat.leb max_nesting]. induction H as [|p ps N H IH]; [reflexivity|].
  cbn [map flat_map]. rewrite IH. destruct p; [contradiction|reflexivity].
Qed.
Lemma plain_exact : forall n ps, plain_reads n ps -> flatten_reads (walk n) = map (fun p => PRead p false false) ps.
Proof.
  intros n ps H. unfold walk, walk_with. fold no_scope. rewrite (proj1 plain_resolve _ _ H). cbn [fst]. apply flat_direct. exact (proj1 plain_head _ _ H).
Qed.
(** [f(x.l as a, a.k)] *)
Lemma read_dots : forall l x, read_path (dots x l) = Some (x :: l).
Proof.
  intros l x. unfold dots. rewrite <- (rev_involutive l). induction (rev l) as [|k r IH]; [reflexivity|]. cbn [rev]. rewrite fold_left_app. cbn [fold_left read_path]. rewrite IH. reflexivity.
Qed.
Lemma alias_exact : forall f x l a k, x <> "$" -> a <> "$" ->
  flatten_reads (walk (NCall (FClosure f) [dots x l; NClosure (dots a k) (Some a)])) = [PRead (x :: l) false false; PRead (x :: l ++ k) true false].
Proof.
  intros f x l a k N N2. unfold walk, walk_with. cbn [resolve]. rewrite read_dots. cbv zeta. cbn [is_local ds_locals ds_bindings smem existsb orb].
  set (s := inner_scope _ _ _).
  assert (Es : s = DScope ["$"] [] [(a, x :: l)] [] (Some (x :: l))) by reflexivity. clearbody s. subst s.
  assert (R : resolve (dots a k) (DScope ["$"] [] [(a, x :: l)] [] (Some (x :: l))) = ([RDirect (a :: k) false], DScope ["$"] [] [(a, x :: l)] [] (Some (x :: l)))).
  { assert (SP : spine (DScope ["$"] [] [(a, x :: l)] [] (Some (x :: l))) (dots a k) = Some ([], DScope ["$"] [] [(a, x :: l)] [] (Some (x :: l)), CGroup (a :: k) (a :: k) None true true)).
    { unfold dots. rewrite <- (rev_involutive k). induction (rev k) as [|y r IH]; cbn [rev].
      - cbn [fold_left spine]. unfold chain_root. destruct (String.eqb_spec a "$"); [contradiction|]. cbn. rewrite String.eqb_refl. reflexivity.
      - rewrite fold_left_app. cbn [fold_left]. rewrite spine_string, IH. reflexivity. }
    destruct (rev k) as [|y r] eqn:Ek.
    - apply (f_equal (@rev string)) in Ek. rewrite rev_involutive in Ek. subst k. cbn. rewrite String.eqb_refl. reflexivity.
    - assert (exists m, dots a k = NMember m (NString y)) as [m Em].
      { unfold dots. rewrite <- (rev_involutive k), Ek. cbn [rev]. rewrite fold_left_app. eexists. reflexivity. }
      rewrite Em in SP |- *. rewrite resolve_member, SP. reflexivity. }
  rewrite R. cbn. rewrite String.eqb_refl. reflexivity.
Qed.

(** No name is made up. *)
Section Written.
  Variable P : string -> Prop.
  Fixpoint dep_ok (x : rdep) : Prop :=
    match x with
    | RDirect p _ | RUnres p => Forall P p
    | RIter p _ l => Forall P p /\ (fix all (l : list rdep) : Prop := match l with [] => True | y :: r => dep_ok y /\ all r end) l
    end.
  Lemma dep_iter : forall p a l, Forall P p -> Forall dep_ok l -> dep_ok (RIter p a l).
  Proof. intros p a l Hp Hl. split; [exact Hp|]. induction Hl; auto. Qed.
  Definition deps_ok (r : list rdep * dscope) : Prop := Forall dep_ok (fst r).
  Definition chain_ok (c : chain) : Prop :=
    match c with
    | CQuiet => True
    | CUnres p => Forall P p
    | CGroup g cum via _ _ => Forall P g /\ Forall P cum /\ match via with Some p => Forall P p | None => True end
    end.
  Lemma ok_app1 : forall k p, P k -> Forall P p -> Forall P (p ++ [k]).
  Proof. intros k p H1 H2. apply Forall_app. split; auto. Qed.
  Lemma before_ok : forall c s, chain_ok c -> Forall dep_ok (chain_before c s).
  Proof.
    intros [|p|g cum via first al] s H; cbn; auto. destruct H as (H1 & H2 & H3). unfold emit_group. destruct g; auto.
    destruct (negb _ && _); auto. destruct via; constructor; auto. cbn. apply Forall_app. auto.
  Qed.
  Lemma end_ok : forall c s, chain_ok c -> Forall dep_ok (chain_end c s).
  Proof. intros c s H. destruct c; try (apply before_ok; exact H). constructor; auto. Qed.
  Lemma after_ok : forall c, chain_ok c -> chain_ok (chain_after c).
  Proof. intros [|p|g cum via first al] H; auto. destruct H as (H1 & H2 & H3). repeat split; auto. Qed.
  Lemma field_ok : forall k c, P k -> chain_ok c -> chain_ok (chain_field k c).
  Proof. intros k [|p|g cum via first al] Hk H; cbn; auto using ok_app1. destruct H as (H1 & H2 & H3). auto using ok_app1. Qed.
  Lemma root_ok' : forall x s, P x -> chain_ok (chain_root x s).
  Proof.
    intros x s H. unfold chain_root. destruct (String.eqb x "$"); cbn; auto. destruct (smem x (ds_unres s)); cbn; auto.
    destruct (negb _ && _); cbn; auto.
  Qed.
  Lemma dthen_ok : forall a k, deps_ok a -> (forall s, deps_ok (k s)) -> deps_ok (dthen a k).
  Proof. intros [r s] k H K. unfold dthen. cbn. specialize (K s). destruct (k s). unfold deps_ok in *. cbn in *. apply Forall_app. auto. Qed.
  Lemma each_ok : forall {A} (f : A -> dscope -> list rdep * dscope) l, Forall (fun x => forall s, deps_ok (f x s)) l -> forall s, deps_ok (each f l s).
  Proof. intros A f l H. induction H; intros s; cbn [each]; [constructor|]. apply dthen_ok; auto. Qed.
  Lemma maybe_ok : forall f o s, (forall x, o = Some x -> forall s, deps_ok (f x s)) -> deps_ok (maybe f o s).
  Proof. intros f [x|] s H; cbn; [now apply H|constructor]. Qed.
  Lemma read_ok : forall n p, Forall P (names n) -> read_path n = Some p -> Forall P p.
  Proof.
    induction n using node_ind'; intros p Hn E; cbn in E; try discriminate.
    - injection E as <-. exact Hn.
    - injection E as <-. auto.
    - destruct n2; try discriminate. destruct (read_path n1); [|discriminate]. injection E as <-. cbn in Hn. apply Forall_app in Hn as [H1 H2].
      apply ok_app1; auto. inversion H2; auto.
  Qed.
  Lemma source_ok : forall n p, Forall P (names n) -> source_path n = Some p -> Forall P p.
  Proof.
    induction n using node_ind'; intros p Hn E; cbn [source_path] in E; try discriminate.
    - injection E as <-. exact Hn.
    - eauto.
    - injection E as <-. auto.
    - eapply read_ok; [|exact E]. exact Hn.
    - cbn in Hn; apply Forall_app in Hn as [H1 H2]. apply IHn1; auto. destruct op; try discriminate.
      match type of E with match ?o with _ => _ end = _ => destruct o; try discriminate E end. exact E.
    - destruct k as [f|f|c]; try discriminate. destruct c; try discriminate. destruct l as [|a r]; [discriminate|]. inversion H; subst.
      cbn in Hn. apply Forall_app in Hn as [H1' _]. auto.
  Qed.
  Definition wok (n : node) : Prop := Forall P (names n) ->
    (forall s, deps_ok (resolve n s)) /\ (forall s r s1 c, spine s n = Some (r, s1, c) -> Forall dep_ok r /\ chain_ok c) /\
    match n with NClosure b _ => forall s, deps_ok (resolve b s) | _ => True end.
  Lemma list_wok : forall l, Forall wok l -> Forall P (flat_map names l) -> Forall (fun x => forall s, deps_ok (resolve x s)) l.
  Proof. intros l H. induction H as [|x l Hx H IH]; intros Hl; constructor; cbn in Hl; apply Forall_app in Hl as [H1 H2]; auto. now apply Hx. Qed.
  Lemma pairs_wok : forall l, Forall (fun kv => wok (fst kv) /\ wok (snd kv)) l -> Forall P (flat_map (fun kv => names (fst kv) ++ names (snd kv)) l) ->
    Forall (fun kv => (forall s, deps_ok (resolve (fst kv) s)) /\ (forall s, deps_ok (resolve (snd kv) s))) l.
  Proof.
    intros l H. induction H as [|x l [Hx Hy] H IH]; intros Hl; constructor; cbn in Hl; apply Forall_app in Hl as [H1 H2]; auto.
    apply Forall_app in H1 as [H1 H1']. split; [now apply Hx|now apply Hy].
  Qed.
  Lemma opt_wok : forall o s, opt_all wok o -> Forall P (match o with Some x => names x | None => [] end) -> deps_ok (maybe resolve o s).
  Proof. intros [x|] s H Hn; cbn; [now apply H|constructor]. Qed.
  Lemma all_written : forall n, wok n.
  Proof.
    induction n using node_ind'; intros Hn; cbn [names] in Hn; rewrite ?Forall_app in Hn;
      try (split; [|split; [intros ? ? ? ? E; (discriminate E || (injection E as <- <- <-; split; [constructor|]))|]]); try exact Logic.I;
      try (intros sc; constructor; fail).
    - intros s. apply each_ok. now apply list_wok.
    - intros s. apply each_ok. now apply list_wok.
    - intros s. cbn [resolve]. apply each_ok. pose proof (pairs_wok _ H Hn) as K. eapply Forall_impl; [|exact K]. intros kv [K1 K2] s1. apply dthen_ok; auto.
    - destruct Hn as [H1 H2]. intros s. cbn [resolve]. apply dthen_ok; [|intros; apply opt_wok; auto]. apply each_ok. pose proof (pairs_wok _ H H1) as K.
      eapply Forall_impl; [|exact K]. intros kv [K1 K2] s1. specialize (K2 s1). destruct (resolve (snd kv) s1). exact K2.
    - intros sc. cbn [resolve]. destruct (smem s (ds_unres sc)); [repeat constructor; inversion Hn; auto|]. destruct (aget s (ds_aliases sc)); [repeat constructor; inversion Hn; auto|].
      destruct (is_local sc [s]); repeat constructor; inversion Hn; auto.
    - apply root_ok'. inversion Hn; auto.
    - intros s. apply IHn. auto.
    - apply IHn. auto.
    - intros s. apply IHn. auto.
    - intros s. cbn [resolve]. repeat constructor. inversion Hn; auto.
    - apply root_ok'. inversion Hn; auto.
    - (* member *)
      destruct Hn as [N1 N2]. destruct (IHn1 N1) as (A1 & B1 & _), (IHn2 N2) as (A2 & B2 & _).
      assert (SP : forall s r s1 c, spine s (NMember n1 n2) = Some (r, s1, c) -> Forall dep_ok r /\ chain_ok c).
      { intros s r s1 c E. destruct (is_str n2) eqn:I.
        - destruct n2; try discriminate. rewrite spine_string in E. destruct (spine s n1) as [[[r9 s9] c9]|] eqn:E0; [|discriminate].
          injection E as <- <- <-. destruct (B1 _ _ _ _ E0). split; auto. apply field_ok; auto. inversion N2; auto.
        - rewrite (spine_dyn _ _ _ I) in E. destruct (spine s n1) as [[[r9 s9] c9]|] eqn:E0; [|discriminate]. destruct (B1 _ _ _ _ E0).
          pose proof (A2 s9) as A. destruct (resolve n2 s9) as [r2 s2]. injection E as <- <- <-. split; [|now apply after_ok].
          rewrite !Forall_app. split; [|split]; auto. now apply before_ok. }
      split; [|split]; auto. intros s. rewrite resolve_member. destruct (spine s (NMember n1 n2)) as [[[r9 s9] c9]|] eqn:E.
      + destruct (SP _ _ _ _ E). unfold deps_ok. cbn. apply Forall_app. split; auto. now apply end_ok.
      + apply dthen_ok; auto.
    - destruct Hn as (N1 & N2 & N3). intros s. cbn [resolve]. repeat apply dthen_ok; [now apply IHn|intros; now apply opt_wok|intros; now apply opt_wok].
    - destruct Hn as [N1 N2]. intros s. cbn [resolve]. apply dthen_ok; [now apply IHn1|now apply IHn2].
    - destruct Hn as (N1 & N2 & N3). intros s. cbn [resolve]. repeat apply dthen_ok; [now apply IHn1|now apply IHn2|now apply IHn3].
    - intros s. now apply IHn.
    - destruct Hn as [N1 N2]. intros s. cbn [resolve]. apply dthen_ok; [now apply IHn1|now apply IHn2].
    - (* call *)
      pose proof (list_wok _ H Hn) as Pl. intros s. destruct k as [f|f|c]; try (exact (each_ok _ _ Pl s)).
      destruct l as [|a0 [|a1 r]]; try (exact (each_ok _ _ Pl s)). inversion H as [|? ? H0 H']; subst. inversion H' as [|? ? H1 _]; subst.
      cbn [flat_map] in Hn. rewrite !Forall_app in Hn. destruct Hn as (N0 & N1 & _). destruct (H0 N0) as (A0 & _). destruct (H1 N1) as (A1 & _ & C1).
      cbn [resolve]. cbv zeta. destruct a1; try exact (A1 s).
      set (src := match read_path a0 with Some p => Some p | None => source_path a0 end).
      assert (Hsrc : forall p, src = Some p -> Forall P p).
      { intros p E. unfold src in E. destruct (read_path a0) eqn:Er; [injection E as <-; exact (read_ok a0 _ N0 Er)|exact (source_ok a0 _ N0 E)]. }
      assert (Hr : forall p, read_path a0 = Some p -> Forall P p) by (intros p E; exact (read_ok a0 _ N0 E)).
      pose proof (C1 (inner_scope s src alias)) as Hi. unfold deps_ok in Hi. revert Hi. generalize (fst (resolve a1 (inner_scope s src alias))). intros inner Hi. clearbody src.
      assert (K : forall p s, Forall P p -> deps_ok ([RIter p alias inner], s)) by (intros p s9 Hp; constructor; [apply dep_iter; auto|constructor]).
      assert (D : deps_ok (dthen (resolve a0 s) (fun s1 =>
                match src with
                | Some (x :: r) => if is_local s1 (x :: r) then (inner, s1) else ([RIter (x :: r) alias inner], s1)
                | _ => (inner, s1)
                end))).
      { apply dthen_ok; auto. intros s1. destruct src as [[|x9 l9]|]; [exact Hi| |exact Hi]. destruct (is_local s1 (x9 :: l9)); [exact Hi|]. exact (K _ _ (Hsrc _ eq_refl)). }
      destruct (read_path a0) as [p|]; auto. destruct (is_local s p); auto.
    - destruct Hn as [N1 N2]. intros s. cbn [resolve]. apply dthen_ok; [now apply IHn|]. apply each_ok. now apply list_wok.
    - intros s. cbn [resolve]. now apply opt_wok.
  Qed.
  (** The same for the flat list. *)
  Section RdepInd.
    Variable Q : rdep -> Prop.
    Hypothesis QD : forall p v, Q (RDirect p v).
    Hypothesis QU : forall p, Q (RUnres p).
    Hypothesis QI : forall p a l, Forall Q l -> Q (RIter p a l).
    Fixpoint rdep_ind' (x : rdep) : Q x :=
      match x with
      | RDirect p v => QD p v
      | RUnres p => QU p
      | RIter p a l => QI p a l ((fix go l : Forall Q l := match l with [] => Forall_nil _ | y :: r => Forall_cons y (rdep_ind' y) (go r) end) l)
      end.
  End RdepInd.
  Definition alias_ok (A : @amap (list string)) : Prop := forall x p, aget x A = Some p -> Forall P p.
  Lemma resolve_path_ok : forall A p, alias_ok A -> Forall P p -> Forall P (resolve_path A p).
  Proof. intros A [|x r] HA Hp; cbn; auto. inversion Hp; subst. destruct (aget x A) eqn:E; auto. apply Forall_app. split; auto. eapply HA; eauto. Qed.
  Lemma pushed_ok : forall p a u, Forall P p -> Forall (fun x => Forall P (pr_path x)) (pushed p a u).
  Proof. intros [|x p] a u H; cbn; auto. Qed.
  Lemma flat_ok : forall x, dep_ok x -> forall d A, alias_ok A -> Forall (fun x => Forall P (pr_path x)) (flat_dep d A x).
  Proof.
    induction x as [p v|p|p a l IH] using rdep_ind'; intros H d A HA; cbn [flat_dep]; try (apply pushed_ok; apply resolve_path_ok; auto; fail).
    destruct H as [Hp Hl]. cbv zeta. apply Forall_app. pose proof (resolve_path_ok A p HA Hp) as Hp'. split; [now apply pushed_ok|].
    destruct (max_nesting <=? S d); [constructor|]. set (A1 := match a with Some a => aset a (resolve_path A p) A | None => A end).
    assert (HA1 : alias_ok A1).
    { unfold A1. destruct a as [a|]; auto. intros x q E. destruct (String.eqb_spec a x) as [->|N]; [rewrite aget_aset_eq in E; injection E as <-; auto|].
      rewrite aget_aset_ne in E by auto. eapply HA; eauto. }
    clearbody A1. induction IH as [|y l Hy IH IHl]; cbn [flat_map]; [constructor|]. destruct Hl as [Hl1 Hl2]. apply Forall_app. split; auto.
  Qed.
End Written.
Lemma reported_written : forall n locals x k, In x (flatten_reads (walk_with locals n)) -> In k (pr_path x) -> In k (names n).
Proof.
  intros n locals x k Hx Hk. set (P := fun k => In k (names n)).
  destruct (all_written P n) as [A _]; [apply Forall_forall; intros y Hy; exact Hy|].
  specialize (A (DScope locals [] [] [] None)). unfold deps_ok in A. unfold flatten_reads in Hx. cbn [Nat.leb max_nesting] in Hx. unfold walk_with in Hx.
  apply in_flat_map in Hx as (y & Hy & Hx). rewrite Forall_forall in A. specialize (A _ Hy).
  pose proof (flat_ok P y A 0 []) as F. assert (F' : alias_ok P []) by (intros ? ? E; discriminate E). specialize (F F'). rewrite Forall_forall in F.
  specialize (F _ Hx). rewrite Forall_forall in F. exact (F _ Hk).
Qed.

(** *** What exactly is reported *)
Lemma resolve_dotted : forall x l s, x <> "$" ->
  resolve (dots x l) s =
  ((if smem x (ds_unres s) then [RUnres (x :: l)]
    else match aget x (ds_aliases s) with
         | Some _ => [RDirect (x :: l) false]
         | None => if is_local s (x :: l) then [] else [RDirect (x :: l) false]
         end), s).
Proof.
  intros x l s N.
  assert (Q : is_local s [x] = true -> is_local s (x :: l) = true).
  { cbn. destruct (smem x (ds_locals s)); cbn; auto. intros H. apply existsb_exists in H as (b & B1 & B2). apply existsb_exists. exists b.
    split; [exact B1|]. destruct b as [|y b]; [reflexivity|]. cbn in B2 |- *. destruct (String.eqb x y); cbn in *; [|discriminate].
    destruct b; [destruct l; reflexivity|discriminate]. }
  assert (SP : spine s (dots x l) = Some ([], s, if smem x (ds_unres s) then CUnres (x :: l) else
     if negb (match aget x (ds_aliases s) with Some _ => true | None => false end) && is_local s [x] then CQuiet
     else CGroup (x :: l) (x :: l) None true (match aget x (ds_aliases s) with Some _ => true | None => false end))).
  { clear Q. unfold dots. rewrite <- (rev_involutive l). induction (rev l) as [|y r IH]; cbn [rev].
    - cbn [fold_left spine]. unfold chain_root. destruct (String.eqb_spec x "$"); [contradiction|].
      destruct (smem x (ds_unres s)); reflexivity.
    - rewrite fold_left_app. cbn [fold_left]. rewrite spine_string, IH.
      destruct (smem x (ds_unres s)); [reflexivity|]. destruct (negb _ && _); reflexivity. }
  destruct (rev l) as [|y r] eqn:Ek.
  - apply (f_equal (@rev string)) in Ek. rewrite rev_involutive in Ek. subst l. unfold dots. cbn [rev fold_left resolve].
    destruct (smem x (ds_unres s)); [reflexivity|]. destruct (aget x (ds_aliases s)); [reflexivity|]. destruct (is_local s [x]); reflexivity.
  - assert (exists m, dots x l = NMember m (NString y)) as [m Em].
    { unfold dots. rewrite <- (rev_involutive l), Ek. cbn [rev]. rewrite fold_left_app. eexists. reflexivity. }
    rewrite Em in SP |- *. rewrite resolve_member, SP.
    destruct (smem x (ds_unres s)); [reflexivity|]. destruct (aget x (ds_aliases s)); cbn [negb andb].
    + cbn. reflexivity.
    + destruct (is_local s [x]) eqn:E1; [rewrite (Q eq_refl); reflexivity|].
      cbn [chain_end chain_before emit_group andb negb]. destruct (is_local s (x :: l)); reflexivity.
Qed.
Lemma starts_iff : forall b p, starts p b = true <-> exists r, p = b ++ r.
Proof.
  induction b as [|y b IH]; intros p.
  { destruct p; cbn; split; eauto. }
  destruct p as [|x p]; cbn.
  { split; [discriminate|]. intros [r H]; discriminate H. }
  rewrite andb_true_iff, IH, String.eqb_eq. split; [intros [-> [r ->]]; eauto|intros [r H]; injection H as -> ->; eauto].
Qed.
Lemma assigned_exact : forall s d x l, x <> "$" ->
  flatten_reads (walk (NAssign [(NString s, NNumber d)] (Some (dots x l)))) =
  (if starts (x :: l) (split_dot s) then [] else [PRead (x :: l) false false]).
Proof.
  intros s d x l N. unfold walk, walk_with.
  assert (NE : split_dot s <> []) by apply split_on_nonempty.
  change (resolve (NAssign [(NString s, NNumber d)] (Some (dots x l))) (DScope [] [] [] [] None))
    with (dthen (dthen ([], bind_key (NString s) (DScope [] [] [] [] None)) (fun s => ([], s))) (resolve (dots x l))).
  unfold dthen. cbn [fst snd app]. rewrite resolve_dotted by auto. unfold bind_key. cbn [binding_path].
  destruct (split_dot s) as [|y [|z r]]; [congruence| |]; cbn [ds_unres smem existsb ds_aliases aget is_local ds_locals ds_bindings fst snd app orb].
  - cbn [starts]. destruct (String.eqb x y) eqn:E; destruct l; cbn; rewrite ?E; reflexivity.
  - rewrite orb_false_r. destruct (starts (x :: l) (y :: z :: r)); reflexivity.
Qed.
Lemma nested_alias_exact : forall f g x l a k b m, x <> "$" -> a <> "$" -> b <> "$" -> a <> b ->
  flatten_reads (walk (NCall (FClosure f) [dots x l; NClosure (NCall (FClosure g) [dots a k; NClosure (dots b m) (Some b)]) (Some a)])) =
  [PRead (x :: l) false false; PRead (x :: l ++ k) true false; PRead (x :: l ++ k ++ m) true false].
Proof.
  intros f g x l a k b m N1 N2 N3 N4. unfold walk, walk_with. cbn [resolve]. rewrite !read_dots. cbv zeta. cbn [is_local ds_locals ds_bindings smem existsb orb].
  set (s := inner_scope (DScope [] [] [] [] None) _ _).
  assert (Es : s = DScope ["$"] [] [(a, x :: l)] [] (Some (x :: l))) by reflexivity. clearbody s. subst s.
  set (s := inner_scope _ _ _).
  assert (A2 : String.eqb a "$" = false) by (destruct (String.eqb_spec a "$"); congruence).
  assert (A4 : String.eqb a b = false) by (destruct (String.eqb_spec a b); congruence).
  assert (A1 : String.eqb x "$" = false) by (destruct (String.eqb_spec x "$"); congruence).
  assert (Es : s = DScope ["$"; "$"] [] [(a, x :: l); (b, x :: l ++ k)] [] (Some (x :: l ++ k))).
  { unfold s, inner_scope, expand_alias, is_local. cbn [aget ds_aliases]. rewrite String.eqb_refl.
    cbn [ds_locals smem existsb ds_bindings orb app]. rewrite A2, A1. cbn. rewrite A4. reflexivity. }
  clearbody s. subst s. rewrite resolve_dotted by auto. cbn [ds_unres smem existsb ds_aliases aget fst snd ds_locals ds_bindings orb]. rewrite A4, A2, String.eqb_refl. cbn [orb].
  cbn. rewrite !String.eqb_refl, ?A4. cbn. rewrite ?String.eqb_refl, ?A4. cbn. rewrite ?String.eqb_refl, ?A4. cbn.
  rewrite <- ?app_assoc. reflexivity.
Qed.
Lemma unresolved_exact : forall f ds a k, a <> "$" ->
  flatten_reads (walk (NCall (FClosure f) [NArray (map NNumber ds); NClosure (dots a k) (Some a)])) = [PRead (a :: k) true true].
Proof.
  intros f ds a k N. unfold walk, walk_with. cbn [resolve read_path source_path]. cbv zeta.
  set (s := inner_scope _ _ _).
  assert (Es : s = DScope ["$"] [] [] [a] None) by reflexivity. clearbody s. subst s.
  rewrite resolve_dotted by auto. cbn [ds_unres smem existsb fst]. rewrite String.eqb_refl. cbn [orb].
  assert (R : forall s, each resolve (map NNumber ds) s = ([], s)).
  { induction ds as [|d r IH]; intros s; cbn; [reflexivity|]. unfold dthen. cbn [resolve fst snd]. rewrite IH. reflexivity. }
  rewrite R. reflexivity.
Qed.
