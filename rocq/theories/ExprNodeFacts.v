(** Expression nodes: the objects they build. *)
From Coq Require Import String Ascii ZArith Lia Bool List Arith.
From Verif Require Import Base Dec Value Heap HeapSpec HeapFacts DotFacts PureFacts Ast Ops Compiler Vm Eval Funcs Isolate Session Nodes NodeSpec HeapClaims.
Import ListNotations.
Local Open Scope string_scope.
Local Open Scope list_scope.
Local Open Scope nat_scope.

Notation path := (list string).
Definition path_dec : forall a b : path, {a = b} + {a <> b} := list_eq_dec string_dec.
Definition pin (p : path) (P : list path) : {In p P} + {~ In p P} := in_dec path_dec p P.
Fixpoint kget (q : path) (ks : list (path * value)) : option value :=
  match ks with
  | [] => None
  | (p, v) :: r => if path_dec p q then Some v else kget q r
  end.
Lemma kget_in : forall q ks v, kget q ks = Some v -> In (q, v) ks.
Proof. induction ks as [|[p v] r IH]; cbn; intros w H; [discriminate|]. destruct (path_dec p q); [injection H as <-; subst; auto|auto]. Qed.
Lemma kget_some : forall q ks v, In (q, v) ks -> exists w, kget q ks = Some w.
Proof. induction ks as [|[p v] r IH]; cbn; intros w H; [tauto|]. destruct (path_dec p q); [eauto|]. destruct H as [H|H]; [injection H as -> ->; congruence|eauto]. Qed.

(** [P]: the objects built on the way, by path; [f]: where they are; [ks]: the values stored, newest first. *)
Record skel (f : path -> loc) (P : list path) (ks : list (path * value)) (h : heap) : Prop := Skel {
  sk_root : In [] P;
  sk_closed : forall p k, In (p ++ [k]) P -> In p P;
  sk_inj : forall p q, In p P -> In q P -> f p = f q -> p = q;
  sk_cell : forall p, In p P -> exists m, hobj h (f p) = Some m /\
    forall k, aget k m = if pin (p ++ [k]) P then Some (VObj (f (p ++ [k]))) else kget (p ++ [k]) ks;
  sk_key : forall q v, In (q, v) ks -> ~ In q P /\ exists p k, q = p ++ [k] /\ In p P
}.
Lemma hobj_lt : forall h l m, hobj h l = Some m -> l < length h.
Proof. intros h l m H. apply hobj_hget in H. unfold hget in H. apply nth_error_Some. congruence. Qed.
Lemma skel_lt : forall f P ks h p, skel f P ks h -> In p P -> f p < length h.
Proof. intros f P ks h p S I. destruct (sk_cell _ _ _ _ S p I) as (m & A & _). eapply hobj_lt; eauto. Qed.
Lemma skel_frame : forall f P ks h h1, skel f P ks h -> (forall p, In p P -> hget h1 (f p) = hget h (f p)) -> skel f P ks h1.
Proof.
  intros f P ks h h1 [A B C D E] F. constructor; auto. intros p I. destruct (D p I) as (m & G & K). exists m. split; [|exact K].
  apply hobj_hget. apply hobj_hget in G. now rewrite F.
Qed.
Lemma skel_hext : forall f P ks h h1, skel f P ks h -> hext h h1 -> skel f P ks h1.
Proof.
  intros f P ks h h1 S X. eapply skel_frame; eauto. intros p I. destruct X as (s & ->). unfold hget. rewrite nth_error_app1; auto. eapply skel_lt; eauto.
Qed.
Lemma skel_new : forall h, skel (fun _ => length h) [[]] [] (h ++ [CObj []]).
Proof.
  intros h. constructor; cbn.
  - auto.
  - intros p k [H|[]]. destruct p; discriminate.
  - intros p q [<-|[]] [<-|[]]; auto.
  - intros p [<-|[]]. exists []. split; [|intros k; cbn; destruct (pin [k] [[]]) as [[H|[]]|]; auto; discriminate].
    apply hobj_hget. unfold hget. rewrite nth_error_app2 by lia. now rewrite Nat.sub_diag.
  - tauto.
Qed.
Lemma hget_hset_eq : forall h l c, l < length h -> hget (hset h l c) l = Some c.
Proof. intros h l c L. unfold hget, hset. revert l L. induction h as [|x h IH]; intros [|l] L; cbn in *; try lia; auto. apply IH. lia. Qed.
Lemma hget_hset_ne : forall h l l' c, l <> l' -> hget (hset h l c) l' = hget h l'.
Proof. intros h l l' c N. destruct (agree_hset h l c (fun x => x = l') N l' eq_refl). reflexivity. Qed.
Lemma hset_length : forall h l c, length (hset h l c) = length h.
Proof. intros h. unfold hset. induction h as [|x h IH]; intros [|l] c; cbn; auto. Qed.

Definition upd (f : path -> loc) (p : path) (l : loc) : path -> loc := fun q => if path_dec q p then l else f q.
Lemma upd_eq : forall f p l, upd f p l p = l.
Proof. intros. unfold upd. destruct (path_dec p p); congruence. Qed.
Lemma upd_ne : forall f p l q, q <> p -> upd f p l q = f q.
Proof. intros. unfold upd. destruct (path_dec q p); congruence. Qed.

Lemma insert_skel : forall r p f P ks h q v h1 o, q = p ++ r -> r <> [] -> In p P -> skel f P ks h -> ~ In q P ->
  (forall key x, In (key, x) ks -> key = q \/ diverge key q) ->
  dot_insert_parts h (VObj (f p)) r v = (h1, o) ->
  exists f1 P1, skel f1 P1 ((q, v) :: ks) h1 /\ (forall a, In a P -> In a P1 /\ f1 a = f a) /\
    (forall a, In a P1 -> In a P \/ (is_prefix a q /\ length h <= f1 a)) /\
    (forall l, l < length h -> (forall a, In a P -> l <> f a) -> hget h1 l = hget h l) /\ length h <= length h1.
Proof.
  induction r as [|k r IH]; intros p f P ks h q v h1 o Q N Ip S Nq Dv E; [congruence|]. clear N.
  destruct (sk_cell _ _ _ _ S p Ip) as (m & G & K). pose proof (hobj_lt _ _ _ G) as Lp. destruct r as [|k2 r].
  - rewrite dot_insert_one, G in E. injection E as <- <-. exists f, P. split.
    + constructor; try apply S.
      * intros p0 I0. destruct (sk_cell _ _ _ _ S p0 I0) as (m0 & G0 & K0).
        destruct (path_dec p0 p) as [->|Hp].
        -- exists (aset k v m). split; [apply hobj_hget; now apply hget_hset_eq|]. intros k0. cbn [kget].
           destruct (string_dec k k0) as [<-|Hk].
           ++ rewrite aget_aset_eq. subst q. destruct (pin (p ++ [k]) P); [contradiction|]. destruct (path_dec (p ++ [k]) (p ++ [k])); congruence.
           ++ rewrite aget_aset_ne by auto. rewrite (K k0). destruct (pin (p ++ [k0]) P); auto.
              destruct (path_dec q (p ++ [k0])) as [Eq|]; auto. subst q. apply app_inv_head in Eq. congruence.
        -- exists m0. split.
           ++ apply hobj_hget. rewrite hget_hset_ne; [now apply hobj_hget|]. intros Eq. apply (sk_inj _ _ _ _ S) in Eq; auto.
           ++ intros k0. rewrite (K0 k0). destruct (pin (p0 ++ [k0]) P); auto. cbn [kget].
              destruct (path_dec q (p0 ++ [k0])) as [Eq|]; auto. subst q. apply app_inj_tail in Eq. destruct Eq; congruence.
      * intros q0 v0 [H|H]; [|apply (sk_key _ _ _ _ S _ _ H)]. injection H as <- <-. split; auto. exists p, k. auto.
    + split; [auto|]. split; [auto|]. split; [|rewrite hset_length; lia]. intros l L F. apply hget_hset_ne. intros Eq. apply (F p Ip). auto.
  - rewrite dot_insert_cons, G in E by discriminate. rewrite (K k) in E. destruct (pin (p ++ [k]) P) as [Ik|Ik].
    + refine (IH (p ++ [k]) f P ks h q v h1 o _ _ Ik S Nq Dv E); [subst q; now rewrite <- app_assoc|discriminate].
    + assert (Hk : kget (p ++ [k]) ks = None).
      { destruct (kget (p ++ [k]) ks) eqn:Ek; auto. exfalso. apply kget_in in Ek. destruct (Dv _ _ Ek) as [Eq|[D1 D2]].
        - subst q. apply app_inv_head in Eq. discriminate.
        - apply D1. exists (k2 :: r). subst q. now rewrite <- app_assoc. }
      rewrite Hk in E. set (h0 := hset (h ++ [CObj []]) (f p) (CObj (aset k (VObj (length h)) m))) in *.
      set (f0 := upd f (p ++ [k]) (length h)). set (P0 := (p ++ [k]) :: P).
      assert (Np : forall a, In a P -> a <> p ++ [k]) by (intros a Ia ->; contradiction).
      assert (Lh0 : length h0 = 1 + length h) by (unfold h0; rewrite hset_length, app_length; cbn; lia).
      assert (Old : forall l, l < length h -> l <> f p -> hget h0 l = hget h l).
      { intros l L Nl. unfold h0. rewrite hget_hset_ne by auto. unfold hget. apply nth_error_app1. exact L. }
      assert (S0 : skel f0 P0 ks h0).
      { constructor.
        - right. apply S.
        - intros a b [H|H].
          + apply app_inj_tail in H. destruct H as [<- _]. right. exact Ip.
          + right. eapply sk_closed; eauto.
        - intros a b Ia Ib. unfold f0. destruct Ia as [<-|Ia], Ib as [<-|Ib]; auto.
          + rewrite upd_eq, upd_ne by auto. intros Eq. pose proof (skel_lt _ _ _ _ _ S Ib). lia.
          + rewrite upd_eq, upd_ne by auto. intros Eq. pose proof (skel_lt _ _ _ _ _ S Ia). lia.
          + rewrite !upd_ne by auto. apply (sk_inj _ _ _ _ S); auto.
        - intros a [<-|Ia].
          + exists []. split.
            * apply hobj_hget. unfold f0. rewrite upd_eq. unfold h0. rewrite hget_hset_ne by lia.
              unfold hget. rewrite nth_error_app2 by lia. now rewrite Nat.sub_diag.
            * intros k0. cbn [aget]. destruct (pin ((p ++ [k]) ++ [k0]) P0) as [[H|H]|H].
              -- rewrite <- app_assoc in H. apply app_inv_head in H. discriminate.
              -- exfalso. apply Ik. eapply sk_closed; eauto.
              -- symmetry. destruct (kget ((p ++ [k]) ++ [k0]) ks) eqn:Ek; auto. exfalso. apply kget_in in Ek.
                 destruct (sk_key _ _ _ _ S _ _ Ek) as (_ & a & b & Eq & Ia). apply app_inj_tail in Eq. destruct Eq as [<- _]. contradiction.
          + destruct (sk_cell _ _ _ _ S a Ia) as (m0 & G0 & K0). unfold f0. rewrite upd_ne by auto. destruct (path_dec a p) as [->|Ha].
            * exists (aset k (VObj (length h)) m). split.
              -- apply hobj_hget. unfold h0. apply hget_hset_eq. rewrite app_length. cbn. lia.
              -- intros k0. destruct (string_dec k k0) as [<-|Hk0].
                 ++ rewrite aget_aset_eq. destruct (pin (p ++ [k]) P0) as [_|H]; [now rewrite upd_eq|]. exfalso. apply H. left. reflexivity.
                 ++ rewrite aget_aset_ne by auto. rewrite (K k0). destruct (pin (p ++ [k0]) P) as [H|H], (pin (p ++ [k0]) P0) as [H0|H0]; auto.
                    ** rewrite upd_ne; auto.
                    ** exfalso. apply H0. right. exact H.
                    ** destruct H0 as [H0|H0]; [apply app_inv_head in H0; congruence|contradiction].
            * exists m0. split.
              -- apply hobj_hget. rewrite Old; [now apply hobj_hget|eapply hobj_lt; eauto|]. intros Eq. apply (sk_inj _ _ _ _ S) in Eq; auto.
              -- intros k0. rewrite (K0 k0). destruct (pin (a ++ [k0]) P) as [H|H], (pin (a ++ [k0]) P0) as [H0|H0]; auto.
                 ** rewrite upd_ne; auto.
                 ** exfalso. apply H0. right. exact H.
                 ** destruct H0 as [H0|H0]; [apply app_inj_tail in H0; destruct H0; congruence|contradiction].
        - intros q0 v0 I0. destruct (sk_key _ _ _ _ S _ _ I0) as (A & a & b & B & C). split.
          + intros [H|H]; [|contradiction]. subst q0. destruct (kget_some _ _ _ I0) as [w Hw]. congruence.
          + exists a, b. split; auto. right. exact C. }
      assert (E0 : dot_insert_parts h0 (VObj (f0 (p ++ [k]))) (k2 :: r) v = (h1, o)) by (unfold f0; rewrite upd_eq; exact E).
      destruct (IH (p ++ [k]) f0 P0 ks h0 q v h1 o) as (f1 & P1 & A & B & C & D & F); auto.
      * subst q. now rewrite <- app_assoc.
      * discriminate.
      * left. reflexivity.
      * intros [H|H]; [|contradiction]. subst q. apply app_inv_head in H. discriminate.
      * exists f1, P1. split; [exact A|]. split; [|split; [|split]].
        -- intros a Ia. destruct (B a) as [B1 B2]; [right; exact Ia|]. split; [exact B1|]. rewrite B2. unfold f0. apply upd_ne. auto.
        -- intros a Ia. destruct (C a Ia) as [[<-|H]|[H1 H2]].
           ++ right. split; [exists (k2 :: r); subst q; now rewrite <- app_assoc|].
              destruct (B (p ++ [k])) as [_ B2]; [left; reflexivity|]. rewrite B2. unfold f0. rewrite upd_eq. lia.
           ++ left. exact H.
           ++ right. split; [exact H1|]. lia.
        -- intros l L H. rewrite D.
           ++ apply Old; auto. 
           ++ lia.
           ++ intros a [<-|Ia]; unfold f0; [rewrite upd_eq; lia|rewrite upd_ne by auto; apply H; exact Ia].
        -- lia.
Qed.

(** *** Reading what was built *)
Lemma closed_prefix : forall f P ks h, skel f P ks h -> forall b a, In (a ++ b) P -> In a P.
Proof.
  intros f P ks h S b. induction b as [|k b IH] using rev_ind; intros a I; [now rewrite app_nil_r in I|].
  apply IH. rewrite app_assoc in I. eapply sk_closed; eauto.
Qed.
Lemma read_object : forall f P ks h, skel f P ks h -> forall r p, In (p ++ r) P -> dot_parts h (VObj (f p)) r = Some (VObj (f (p ++ r))).
Proof.
  intros f P ks h S. induction r as [|k r IH]; intros p I; cbn [dot_parts]; [now rewrite app_nil_r|].
  assert (Ik : In (p ++ [k]) P) by (eapply closed_prefix with (b := r); eauto; now rewrite <- app_assoc).
  destruct (sk_cell _ _ _ _ S p) as (m & G & K); [eapply closed_prefix; eauto|]. rewrite G, K. destruct (pin (p ++ [k]) P); [|contradiction].
  rewrite IH; rewrite <- app_assoc; auto.
Qed.
Lemma key_prefix : forall f P ks h, skel f P ks h -> forall a b v, In (a ++ b, v) ks -> b <> [] -> In a P.
Proof.
  intros f P ks h S a b v I N. destruct (sk_key _ _ _ _ S _ _ I) as (_ & p & k & E & Ip).
  destruct (exists_last N) as (b0 & z & ->). rewrite app_assoc in E. apply app_inj_tail in E. destruct E as [<- _].
  eapply closed_prefix; eauto.
Qed.
Lemma read_key : forall f P ks h, skel f P ks h -> forall r p x rest, r <> [] -> kget (p ++ r) ks = Some x ->
  dot_parts h (VObj (f p)) (r ++ rest) = dot_parts h x rest.
Proof.
  intros f P ks h S. induction r as [|k r IH]; intros p x rest N G; [congruence|].
  pose proof (kget_in _ _ _ G) as I. destruct (sk_cell _ _ _ _ S p) as (m & Hm & K); [eapply key_prefix; eauto|].
  cbn [app dot_parts]. rewrite Hm, K. destruct r as [|k2 r].
  - destruct (pin (p ++ [k]) P) as [H|H]; [|now rewrite G]. exfalso. apply (sk_key _ _ _ _ S _ _ I). exact H.
  - destruct (pin (p ++ [k]) P) as [H|H].
    + apply IH; [discriminate|]. now rewrite <- app_assoc.
    + exfalso. apply H. eapply key_prefix with (b := k2 :: r); eauto; [|discriminate]. rewrite <- app_assoc. exact I.
Qed.
Lemma read_inv : forall f P ks h, skel f P ks h -> forall r p w, In p P -> dot_parts h (VObj (f p)) r = Some w ->
  In (p ++ r) P \/ exists key x, In (key, x) ks /\ is_prefix key (p ++ r).
Proof.
  intros f P ks h S. induction r as [|k r IH]; intros p w Ip D; [left; now rewrite app_nil_r|].
  cbn [dot_parts] in D. destruct (sk_cell _ _ _ _ S p Ip) as (m & Hm & K). rewrite Hm, K in D.
  destruct (pin (p ++ [k]) P) as [H|H].
  - destruct (IH (p ++ [k]) w H D) as [A|A]; rewrite <- app_assoc in A; auto.
  - right. destruct (kget (p ++ [k]) ks) as [x|] eqn:G; [|discriminate]. apply kget_in in G. exists (p ++ [k]), x. split; auto. exists r. now rewrite <- app_assoc.
Qed.

Lemma split_on_inj : forall c a b, split_on c a = split_on c b -> a = b.
Proof.
  intros c. induction a as [|x a IH]; intros [|y b] E; cbn in E; auto.
  - destruct (Ascii.eqb y c); [|destruct (split_on c b); discriminate]. injection E as E. symmetry in E. now apply split_on_nonempty in E.
  - destruct (Ascii.eqb x c); [|destruct (split_on c a); discriminate]. injection E as E. now apply split_on_nonempty in E.
  - destruct (Ascii.eqb_spec x c) as [->|Nx], (Ascii.eqb_spec y c) as [->|Ny].
    + injection E as E. f_equal. auto.
    + destruct (split_on c b); discriminate.
    + destruct (split_on c a); discriminate.
    + pose proof (split_on_nonempty c a) as Ha. pose proof (split_on_nonempty c b) as Hb.
      destruct (split_on c a) as [|ha ta] eqn:Ea; [congruence|]. destruct (split_on c b) as [|hb tb] eqn:Eb; [congruence|].
      injection E as -> -> ->. f_equal. apply IH. congruence.
Qed.
Lemma split_dot_inj : forall a b, split_dot a = split_dot b -> a = b.
Proof. intros a b. apply split_on_inj. Qed.

Definition paths_of (kvs : list (string * value)) : list (path * value) := map (fun kv => (split_dot (fst kv), snd kv)) (rev kvs).
Lemma paths_of_in : forall q v kvs, In (q, v) (paths_of kvs) <-> exists key, q = split_dot key /\ In (key, v) kvs.
Proof.
  intros q v kvs. unfold paths_of. rewrite in_map_iff. split.
  - intros ([k x] & E & I). injection E as <- <-. apply in_rev in I. eauto.
  - intros (key & -> & I). exists (key, v). split; auto. now apply -> in_rev.
Qed.
Lemma kget_paths : forall key kvs, kget (split_dot key) (paths_of kvs) = aget key (rev kvs).
Proof.
  intros key kvs. unfold paths_of. induction (rev kvs) as [|[k v] r IH]; cbn [map kget aget fst snd]; auto.
  destruct (path_dec (split_dot k) (split_dot key)) as [E|N], (String.eqb_spec k key) as [->|N2]; auto.
  - apply split_dot_inj in E. congruence.
  - congruence.
Qed.
Lemma paths_of_snoc : forall kvs k v, paths_of (kvs ++ [(k, v)]) = (split_dot k, v) :: paths_of kvs.
Proof. intros. unfold paths_of. rewrite rev_app_distr. reflexivity. Qed.

(** The skeleton has no objects beyond those the keys need. *)
Definition tight (P : list path) (ks : list (path * value)) : Prop := forall a, In a P -> a = [] \/ exists q x, In (q, x) ks /\ is_prefix a q.
Lemma skel_assembled : forall f P kvs h, skel f P (paths_of kvs) h -> tight P (paths_of kvs) -> assembled h (VObj (f [])) kvs.
Proof.
  intros f P kvs h S T. split; [eauto|]. split; [|split].
  - intros key x G rest. apply (read_key _ _ _ _ S (split_dot key) []); [apply split_dot_ne|]. cbn. now rewrite kget_paths.
  - intros key x q r I E N. exists (f q). rewrite (read_object _ _ _ _ S q []); [reflexivity|]. cbn.
    eapply key_prefix with (b := r) (v := x); eauto. apply paths_of_in. exists key. now rewrite E.
  - intros q w D. destruct (read_inv _ _ _ _ S q [] w (sk_root _ _ _ _ S) D) as [I|(key & x & I & Pf)]; cbn in *.
    + destruct (T q I) as [->|(q0 & x & Iq & Pf)]; auto. right. apply paths_of_in in Iq as (key & -> & Ik). eauto 6.
    + right. apply paths_of_in in I as (k0 & -> & Ik). eauto 6.
Qed.

(** *** One entry after another *)
Section Entries.
  Variable L : lib.
  Variable parse : ekind -> string -> res node.
  Let X := std_ext L.
  Variable env : value.
  Variable nodes : option value.
  Variable h0 : heap.

  Definition img (f : path -> loc) (P : list path) (l : loc) : Prop := exists p, In p P /\ l = f p.
  Definition built (h : heap) (l : loc) (kvs : list (string * value)) (f : path -> loc) (P : list path) : Prop :=
    skel f P (paths_of kvs) h /\ tight P (paths_of kvs) /\ f [] = l /\ forall p, In p P -> length h0 <= f p.
  Definition going (s : session) (out : loc) (kvs : list (string * value)) (h : heap) : Prop :=
    sc_base (ss_scope s) = env /\ local_str (ss_scope s) "$nodes" = nodes /\
    (forall k, k <> "$" -> k <> "$nodes" -> local_str (ss_scope s) k = None) /\
    (forall l, l < length h0 -> hget h l = hget h0 l) /\ length h0 <= length h /\
    exists fo Po, built h out kvs fo Po /\
      match kvs with
      | [] => local_str (ss_scope s) "$" = None
      | _ => exists d fd Pd, local_str (ss_scope s) "$" = Some (VObj d) /\ built h d kvs fd Pd /\ (forall l, img fo Po l -> img fd Pd l -> False)
      end.
  Lemma built_hext : forall h h1 l kvs f P, built h l kvs f P -> hext h h1 -> built h1 l kvs f P.
  Proof. intros h h1 l kvs f P (A & B) E. split; [eapply skel_hext; eauto|exact B]. Qed.
  Lemma going_hext : forall s out kvs h h1, going s out kvs h -> hext h h1 -> going s out kvs h1.
  Proof.
    intros s out kvs h h1 (A & B & C & D & E & fo & Po & F & G) H. split; auto. split; auto. split; auto. split; [|split].
    - intros l Ll. rewrite <- D by auto. destruct H as (t & ->). unfold hget. rewrite nth_error_app1; auto. lia.
    - destruct H as (t & ->). rewrite app_length. lia.
    - exists fo, Po. split; [eapply built_hext; eauto|]. destruct kvs; auto. destruct G as (d & fd & Pd & G1 & G2 & G3). exists d, fd, Pd. split; auto. split; auto. eapply built_hext; eauto.
  Qed.
  Lemma going_sees : forall s out kvs h, going s out kvs h -> sees env nodes h (ss_scope s) kvs.
  Proof.
    intros s out kvs h (A & B & C & D & E & fo & Po & F & G). split; auto. split; auto. split; auto.
    destruct kvs; auto. destruct G as (d & fd & Pd & G1 & (G2 & G3 & <- & _) & _). exists (VObj (fd [])). split; auto. eapply skel_assembled; eauto.
  Qed.
  (** Writing one more entry into an object. *)
  Lemma built_insert : forall h l kvs f P key v, built h l kvs f P ->
    (forall k x, In (k, x) kvs -> k = key \/ diverge (split_dot k) (split_dot key)) ->
    exists f1 P1, built (fst (dot_insert h (VObj l) key v)) l (kvs ++ [(key, v)]) f1 P1 /\
      (forall x, img f1 P1 x -> img f P x \/ length h <= x) /\
      (forall x, x < length h -> ~ img f P x -> hget (fst (dot_insert h (VObj l) key v)) x = hget h x) /\
      length h <= length (fst (dot_insert h (VObj l) key v)) /\ length h0 <= length h.
  Proof.
    intros h l kvs f P key v (S & T & <- & Lo) D. pose proof (skel_lt _ _ _ _ [] S (sk_root _ _ _ _ S)) as Lr.
    pose proof (Lo [] (sk_root _ _ _ _ S)) as Lb.
    unfold dot_insert. destruct (dot_insert_parts h (VObj (f [])) (split_dot key) v) as [h1 o] eqn:E.
    destruct (insert_skel (split_dot key) [] f P (paths_of kvs) h (split_dot key) v h1 o) as (f1 & P1 & A & B & C & F & G); auto using split_dot_ne, (sk_root _ _ _ _ S).
    - intros I. destruct (T _ I) as [N|(q & x & Iq & Pf)]; [now apply split_dot_ne in N|].
      apply paths_of_in in Iq as (k & -> & Ik). destruct (D _ _ Ik) as [->|[_ N]]; [|contradiction].
      assert (Ix : In (split_dot key, x) (paths_of kvs)) by (apply paths_of_in; eauto). apply (sk_key _ _ _ _ S _ _ Ix). exact I.
    - intros q x I. apply paths_of_in in I as (k & -> & Ik). destruct (D _ _ Ik) as [->|]; auto.
    - exists f1, P1. cbn [fst]. rewrite <- paths_of_snoc in A. split; [|split; [|split; [|split]]].
      + split; [exact A|]. split; [|split].
        * intros a Ia. rewrite paths_of_snoc. destruct (C a Ia) as [H|[H _]].
          -- destruct (T a H) as [->|(q & x & Iq & Pf)]; auto. right. exists q, x. split; [right; exact Iq|exact Pf].
          -- right. exists (split_dot key), v. split; [left; reflexivity|exact H].
        * apply B. apply S.
        * intros p Ip. destruct (C p Ip) as [H|[_ H]]; [|lia]. destruct (B p H) as [_ ->]. auto.
      + intros x (p & Ip & ->). destruct (C p Ip) as [H|[_ H]]; auto. left. exists p. destruct (B p H) as [_ ->]. auto.
      + intros x Lx N. apply F; auto. intros a Ia ->. apply N. exists a. auto.
      + exact G.
      + lia.
  Qed.
  Lemma built_frame : forall h h1 l kvs f P, built h l kvs f P -> (forall x, img f P x -> hget h1 x = hget h x) -> built h1 l kvs f P.
  Proof. intros h h1 l kvs f P (S & R) F. split; [|exact R]. eapply skel_frame; eauto. intros p Ip. apply F. exists p. auto. Qed.
  Lemma built_lt : forall h l kvs f P x, built h l kvs f P -> img f P x -> length h0 <= x < length h.
  Proof. intros h l kvs f P x (S & _ & _ & Lo) (p & Ip & ->). split; [now apply Lo|]. eapply skel_lt; eauto. Qed.

  Lemma going_step : forall s out kvs h key v, going s out kvs h ->
    (forall k x, In (k, x) kvs -> k = key \/ diverge (split_dot k) (split_dot key)) ->
    going (fst (s_dollar key v s h)) out (kvs ++ [(key, v)]) (fst (dot_insert (snd (s_dollar key v s h)) (VObj out) key v)).
  Proof.
    intros s out kvs h key v (A & B & C & D & E & fo & Po & F & G) Dv.
    (* the state after the write to $ *)
    assert (St : exists d fd Pd, let s1 := fst (s_dollar key v s h) in let h1 := snd (s_dollar key v s h) in
      sc_base (ss_scope s1) = env /\ local_str (ss_scope s1) "$nodes" = nodes /\
      (forall k, k <> "$" -> k <> "$nodes" -> local_str (ss_scope s1) k = None) /\
      local_str (ss_scope s1) "$" = Some (VObj d) /\ length h <= length h1 /\
      built h1 d (kvs ++ [(key, v)]) fd Pd /\ (forall x, img fd Pd x -> ~ img fo Po x) /\
      (forall x, x < length h0 \/ img fo Po x -> hget h1 x = hget h x)).
    { unfold s_dollar. change dollar with "$". destruct kvs as [|kv kvs].
      - rewrite G. cbn zeta. unfold new_obj, halloc. cbn [fst snd].
        assert (Bn : built (h ++ [CObj []]) (length h) [] (fun _ => length h) [[]]).
        { split; [apply skel_new|]. split; [|split; [reflexivity|intros; lia]]. intros a [<-|[]]. auto. }
        destruct (built_insert _ _ _ _ _ key v Bn) as (fd & Pd & H1 & H2 & H3 & H4 & _); [intros k x []|].
        exists (length h), fd, Pd. cbn [ss_scope s_local]. unfold set_local, local_str. cbn [sc_base sc_locals].
        split; auto. split; [rewrite aget_aset_ne by discriminate; exact B|]. split; [intros k K1 K2; rewrite aget_aset_ne by auto; now apply C|].
        split; [apply aget_aset_eq|]. rewrite app_length in H4. cbn in H4. split; [lia|]. split; [exact H1|]. split.
        + intros x Ix Io. pose proof (built_lt _ _ _ _ _ _ F Io) as Hb. destruct (H2 x Ix) as [(p & [<-|[]] & ->)|H]; [lia|]. rewrite app_length in H. cbn in H. lia.
        + intros x Hx. assert (Lx : x < length h) by (destruct Hx as [Hx|Hx]; [lia|apply (built_lt _ _ _ _ _ _ F Hx)]).
          rewrite H3; [unfold hget; now rewrite nth_error_app1|rewrite app_length; cbn; lia|]. intros (p & _ & ->). lia.
      - destruct G as (d & fd & Pd & G1 & G2 & G3). rewrite G1. cbn [fst snd].
        destruct (built_insert _ _ _ _ _ key v G2 Dv) as (fd1 & Pd1 & H1 & H2 & H3 & H4 & _).
        exists d, fd1, Pd1. split; auto. split; auto. split; auto. split; auto. split; auto. split; auto. split.
        + intros x Ix Io. pose proof (built_lt _ _ _ _ _ _ F Io) as Hb. destruct (H2 x Ix) as [H|H]; [eauto|lia].
        + intros x Hx. apply H3.
          * destruct Hx as [Hx|Hx]; [lia|apply (built_lt _ _ _ _ _ _ F Hx)].
          * intros Ix. pose proof (built_lt _ _ _ _ _ _ G2 Ix). destruct Hx as [Hx|Hx]; [lia|eauto]. }
    destruct St as (d & fd & Pd & S1 & S2 & S3 & S4 & S5 & S6 & S7 & S8).
    set (s1 := fst (s_dollar key v s h)) in *. set (h1 := snd (s_dollar key v s h)) in *.
    assert (F1 : built h1 out kvs fo Po) by (eapply built_frame; [exact F|intros x Hx; apply S8; auto]).
    destruct (built_insert _ _ _ _ _ key v F1 Dv) as (fo1 & Po1 & H1 & H2 & H3 & H4 & _).
    split; [exact S1|]. split; [exact S2|]. split; [exact S3|]. split; [|split].
    - intros l Ll. rewrite H3; [rewrite S8 by auto; auto|lia|]. intros Hx. pose proof (built_lt _ _ _ _ _ _ F1 Hx). lia.
    - lia.
    - exists fo1, Po1. split; [exact H1|].
      assert (R : exists d fd Pd, local_str (ss_scope s1) "$" = Some (VObj d) /\ built (fst (dot_insert h1 (VObj out) key v)) d (kvs ++ [(key, v)]) fd Pd /\
        (forall l, img fo1 Po1 l -> img fd Pd l -> False)).
      { exists d, fd, Pd. split; [exact S4|]. split.
        - eapply built_frame; [exact S6|]. intros x Hx. apply H3; [apply (built_lt _ _ _ _ _ _ S6 Hx)|now apply S7].
        - intros l I1 I2. destruct (H2 l I1) as [H|H]; [eapply S7; eauto|]. pose proof (built_lt _ _ _ _ _ _ S6 I2). lia. }
      destruct kvs; exact R.
  Qed.

  Lemma srun_hext : forall src sc h, (forall n, parse KStandard src = Ok n -> no_assign n = true) -> hext h (fst (srun X parse KStandard src sc h)).
  Proof.
    intros src sc h N. unfold srun. destruct (parse KStandard src) as [n|]; [|apply hext_refl]. destruct (compile X n); [|apply hext_refl].
    pose proof (evaluate_pure X n sc h (std_pure L) (no_assign_flat _ (N n eq_refl))) as E. destruct (evaluate X n sc h). exact E.
  Qed.
  Definition entry_ok (src : string) (v : value) (done : list (string * value)) : Prop :=
    exists g g1 sc, sees env nodes g sc done /\ (forall l c, hget h0 l = Some c -> hget g l = Some c) /\
      srun X parse KStandard src sc g = (g1, Ok v).
  Lemma going_old : forall s out kvs h, going s out kvs h -> forall l c, hget h0 l = Some c -> hget h l = Some c.
  Proof.
    intros s out kvs h (_ & _ & _ & D & _) l c H. rewrite D; auto. apply nth_error_Some. unfold hget in H. congruence.
  Qed.
  Lemma run_entries_ok : forall es s out done h h1 r,
    (forall key src, In (key, src) (nonblank es) -> forall n, parse KStandard src = Ok n -> no_assign n = true) ->
    (forall a b, In a (map fst done ++ map fst (nonblank es)) -> In b (map fst done ++ map fst (nonblank es)) -> a = b \/ diverge (split_dot a) (split_dot b)) ->
    going s out done h -> run_entries X parse es s (VObj out) h = (h1, r) ->
    exists new, (forall k key v, nth_error new k = Some (key, v) -> exists src, nth_error (nonblank es) k = Some (key, src) /\ entry_ok src v (done ++ firstn k new)) /\
      match r with
      | Ok _ => length new = length (nonblank es) /\ exists s1, going s1 out (done ++ new) h1
      | Err e => exists key src g sc, nth_error (nonblank es) (length new) = Some (key, src) /\ sees env nodes g sc (done ++ new) /\
          (forall l c, hget h0 l = Some c -> hget g l = Some c) /\ srun X parse KStandard src sc g = (h1, Err e)
      end.
  Proof.
    induction es as [|[key src] es IH]; intros s out done h h1 r Na Ind Go E; cbn [run_entries] in E.
    { injection E as <- <-. exists []. split; [intros [|k] ? ? H; discriminate|]. split; auto. exists s. now rewrite app_nil_r. }
    cbn [nonblank filter fst snd] in *. fold (nonblank es) in *.
    rewrite <- negb_orb in *. destruct (String.eqb key "" || String.eqb src "") eqn:Bl; cbn [negb] in *.
    { apply (IH s out done h h1 r); auto. }
    unfold s_std in E. destruct (srun X parse KStandard src (ss_scope s) h) as [h2 [v|e]] eqn:Ev.
    - assert (Hx : hext h h2).
      { pose proof (srun_hext src (ss_scope s) h) as Hx. rewrite Ev in Hx. apply Hx. apply (Na key). left. reflexivity. }
      pose proof (going_hext _ _ _ _ _ Go Hx) as Go2.
      assert (Dv : forall k x, In (k, x) done -> k = key \/ diverge (split_dot k) (split_dot key)).
      { intros k x I. apply Ind; apply in_or_app; [left; now apply (in_map fst) in I|right; left; reflexivity]. }
      pose proof (going_step _ _ _ _ key v Go2 Dv) as Go3. destruct (s_dollar key v s h2) as [s1 h3] eqn:Ed. cbn [fst snd] in Go3.
      destruct (IH s1 out (done ++ [(key, v)]) (fst (dot_insert h3 (VObj out) key v)) h1 r) as (new & N1 & N2); auto.
      { intros k0 s0 I0. apply (Na k0). right. exact I0. }
      { intros a b Ia Ib. apply Ind; [clear Ib; rename Ia into Ib; rename a into b0|]; rewrite map_app, <- app_assoc in Ib; exact Ib. }
      exists ((key, v) :: new). split.
      + intros [|k] key0 v0 H; cbn [nth_error firstn] in *.
        * injection H as <- <-. exists src. split; auto. rewrite app_nil_r. exists h, h2, (ss_scope s). split; [eapply going_sees; eauto|]. split; [eapply going_old; eauto|exact Ev].
        * destruct (N1 k key0 v0 H) as (src0 & Q1 & Q2). exists src0. split; auto. rewrite <- app_assoc in Q2. exact Q2.
      + destruct r as [u|e]; cbn [length].
        * destruct N2 as [N2 (s9 & N3)]. split; [lia|]. exists s9. rewrite <- app_assoc in N3. exact N3.
        * destruct N2 as (k0 & s0 & g & sc & Q1 & Q2 & Q3). exists k0, s0, g, sc. split; [exact Q1|]. rewrite <- app_assoc in Q2. auto.
    - injection E as <- <-. exists []. split; [intros [|k] ? ? H; discriminate|]. exists key, src, h, (ss_scope s). split; auto. rewrite app_nil_r.
      split; [eapply going_sees; eauto|]. split; [eapply going_old; eauto|exact Ev].
  Qed.
End Entries.

(** ** C38 *)
Lemma expression_spec : forall L parse es env nodes h h1 r,
  (forall key src, In (key, src) (nonblank es) -> forall n, parse KStandard src = Ok n -> no_assign n = true) ->
  independent (map fst (nonblank es)) ->
  expression_node (std_ext L) parse es env nodes h = (h1, r) ->
  exists done, (forall k key v, nth_error done k = Some (key, v) -> exists src, nth_error (nonblank es) k = Some (key, src) /\
      exists g g1 sc, sees env nodes g sc (firstn k done) /\ (forall l c, hget h l = Some c -> hget g l = Some c) /\
        srun (std_ext L) parse KStandard src sc g = (g1, Ok v)) /\
    match r with
    | Ok out => length done = length (nonblank es) /\ assembled h1 out done /\ (forall l c, hget h l = Some c -> hget h1 l = Some c)
    | Err e => exists key src g sc, nth_error (nonblank es) (length done) = Some (key, src) /\ sees env nodes g sc done /\
        (forall l c, hget h l = Some c -> hget g l = Some c) /\ srun (std_ext L) parse KStandard src sc g = (h1, Err e)
    end.
Proof.
  intros L parse es env nodes h h1 r Na Ind E. unfold expression_node, new_obj, halloc in E.
  destruct (run_entries (std_ext L) parse es (node_session env nodes) (VObj (length h)) (h ++ [CObj []])) as [h2 u] eqn:R.
  assert (Go : going env nodes h (node_session env nodes) (length h) [] (h ++ [CObj []])).
  { unfold node_session, going. split; [destruct nodes; reflexivity|]. split; [destruct nodes; reflexivity|]. split.
    - intros k K1 K2. destruct nodes; [|reflexivity]. unfold local_str, s_local, s_open, set_local, scope_new. cbn [ss_scope sc_locals]. rewrite aget_aset_ne by auto. reflexivity.
    - split; [intros l Ll; unfold hget; now rewrite nth_error_app1|]. split; [rewrite app_length; lia|].
      exists (fun _ => length h), [[]]. split; [|destruct nodes; reflexivity].
      split; [apply skel_new|]. split; [intros a [<-|[]]; auto|]. split; [reflexivity|]. intros. lia. }
  destruct (run_entries_ok L parse env nodes h es _ _ [] _ _ _ Na Ind Go R) as (done & A & B). exists done. split; [exact A|].
  destruct u as [u|e]; injection E as <- <-; [|exact B]. destruct B as (B1 & s1 & B2). split; [exact B1|]. split.
  - destruct B2 as (_ & _ & _ & _ & _ & fo & Po & (S & T & F & _) & _). rewrite <- F. eapply skel_assembled; eauto.
  - eapply going_old; eauto.
Qed.
