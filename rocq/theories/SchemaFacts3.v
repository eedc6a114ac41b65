(** The places of a schema; used by PropSchema.v. *)
From Coq Require Import String Ascii ZArith Bool List Arith Lia.
From Verif Require Import Base Value Json VarType TypeSpec TypeFacts ConvertSpec ConvertFacts Schema SchemaSpec SchemaFacts SchemaFacts2.
Import ListNotations.
Local Open Scope string_scope.
Local Open Scope nat_scope.
Local Open Scope list_scope.

Lemma item_path_eq : forall path, item_path path = (path ++ "[]")%string.
Proof. intros path. unfold item_path. destruct (String.eqb path "") eqn:E; [apply String.eqb_eq in E; subst; reflexivity|reflexivity]. Qed.
(** A collector that walks the items and the properties finds what [here] finds at each place. *)
Section Walk.
  Variable col : json -> string -> list string.
  Variable here : list (string * json) -> string -> list string.
  Hypothesis col_leaf : forall j path, (forall m, j <> JObj m) -> col j path = [].
  Hypothesis col_obj : forall m path q, In q (col (JObj m) path) <->
    In q (here m path) \/
    (exists s, aget "items" m = Some s /\ In q (col s (path ++ "[]"))) \/
    (exists p k s, aget "properties" m = Some (JObj p) /\ In (k, s) p /\ In q (col s (dotted path k))).
  Definition R (j : json) : Prop := wf_json j -> forall path q, In q (col j path) <-> exists q0 m, under path j q0 (JObj m) /\ In q (here m q0).
  Lemma sub_R : forall j, R j /\ match j with JObj m => forall k s, In (k, s) m -> R s | _ => True end.
  Proof.
    assert (L : forall j, (forall m, j <> JObj m) -> R j).
    { intros j N _ path q. rewrite col_leaf by exact N. split; [intros []|]. intros (q0 & m & U & _). inversion U; subst; try (eapply N; reflexivity). }
    induction j as [| | | |l IH|m IH] using json_ind'; try (split; [apply L; discriminate|exact I]).
    rewrite Forall_forall in IH. split; [|intros k s Ic; apply (IH (k, s) Ic)].
    intros W path q. apply wf_parts in W as [Nm W]. rewrite col_obj. split.
    - intros [H|[(s & G & H)|(p & k & s & G & Ip & H)]].
      + exists path, m. split; [constructor|exact H].
      + pose proof (aget_Some_in _ _ _ G) as Ig. destruct (IH _ Ig) as [Rs _]. apply (Rs (W _ _ Ig)) in H as (q0 & m1 & U & H). exists q0, m1. split; [|exact H]. eapply UItems; eauto.
      + pose proof (aget_Some_in _ _ _ G) as Ig. destruct (IH _ Ig) as [_ Rs]. cbn in Rs. pose proof (W _ _ Ig) as Wp. apply wf_parts in Wp as [Np Wp].
        apply (Rs k s Ip (Wp _ _ Ip)) in H as (q0 & m1 & U & H). exists q0, m1. split; [|exact H]. eapply UProp; eauto. apply aget_in_nodup; assumption.
    - intros (q0 & m1 & U & H). inversion U as [? ?|? ? s ? ? G U1|? ? p k s ? ? G G1 U1]; subst.
      + now left.
      + right. left. exists s. split; [exact G|]. pose proof (aget_Some_in _ _ _ G) as Ig. destruct (IH _ Ig) as [Rs _]. apply (Rs (W _ _ Ig)). eauto.
      + right. right. pose proof (aget_Some_in _ _ _ G) as Ig. destruct (IH _ Ig) as [_ Rs]. cbn in Rs. pose proof (W _ _ Ig) as Wp. apply wf_parts in Wp as [Np Wp].
        pose proof (aget_Some_in _ _ _ G1) as Ip. exists p, k, s. split; [exact G|]. split; [exact Ip|]. apply (Rs k s Ip (Wp _ _ Ip)). eauto.
  Qed.
End Walk.
Definition div_here (m : list (string * json)) (path : string) : list string :=
  match aget "properties" m with
  | Some (JObj p) => flat_map (fun e => if negb (contains (required m) (fst e)) && negb (admits_null (snd e)) then [child_path path (fst e)] else []) p
  | _ => []
  end.
Lemma div_walk : forall j, wf_json j -> forall path q, In q (divergences j path) <-> exists q0 m, under path j q0 (JObj m) /\ In q (div_here m q0).
Proof.
  apply (sub_R divergences div_here).
  - intros [] path N; try reflexivity. destruct (N _ eq_refl).
  - intros m path q. cbn [divergences]. rewrite in_app_iff, !at_key_get, item_path_eq. unfold div_here.
    assert (E : In q (match aget "items" m with Some v => divergences v (path ++ "[]") | None => [] end) <-> exists s, aget "items" m = Some s /\ In q (divergences s (path ++ "[]"))).
    { destruct (aget "items" m); split; [eauto|intros (s & G & H); injection G as <-; exact H|intros []|intros (s & G & _); discriminate]. }
    rewrite E. clear E.
    destruct (aget "properties" m) as [[| | | | |p]|].
    all: try (split; [intros [H|[]]; auto|intros [[]|[H|(? & ? & ? & G & _)]]; [auto|discriminate]]).
    rewrite !in_flat_map. split.
    + intros [H|([k s] & Ip & H)]; [auto|]. apply in_app_iff in H as [H|H]; [left; exists (k, s); auto|]. right. right. exists p, k, s. auto.
    + intros [([k s] & Ip & H)|[H|(p1 & k & s & G & Ip & H)]]; [|auto|].
      * right. exists (k, s). split; [exact Ip|]. apply in_app_iff. now left.
      * injection G as <-. right. exists (k, s). split; [exact Ip|]. apply in_app_iff. now right.
Qed.
Lemma div_spec : forall j, wf_json j -> forall q, In q (nullability_divergences j) <->
  exists q0 m p k s, under "" j q0 (JObj m) /\ aget "properties" m = Some (JObj p) /\ In (k, s) p /\ optional m k /\ admits_null s = false /\ q = dotted q0 k.
Proof.
  intros j W q. unfold nullability_divergences. rewrite (div_walk j W). unfold div_here. split.
  - intros (q0 & m & U & H). destruct (aget "properties" m) as [[| | | | |p]|] eqn:G; try contradiction. apply in_flat_map in H as ([k s] & Ip & H). cbn [fst snd] in H.
    destruct (contains (required m) k) eqn:C; [contradiction|]. destruct (admits_null s) eqn:A; [contradiction|]. destruct H as [<-|[]].
    exists q0, m, p, k, s. split; [exact U|]. split; [exact G|]. split; [exact Ip|]. split; [now apply optional_iff|]. split; [exact A|reflexivity].
  - intros (q0 & m & p & k & s & U & G & Ip & O & A & ->). exists q0, m. split; [exact U|]. rewrite G. apply in_flat_map. exists (k, s). split; [exact Ip|]. cbn [fst snd].
    apply optional_iff in O. rewrite O, A. now left.
Qed.
Definition enum_here (m : list (string * json)) (path : string) : list string :=
  match aget "$dictionary" m with
  | None => if String.eqb path "" then [] else
      match get_arr "enum" m with
      | Some l => if (length (strs l) =? length l) && (2 <=? length l) then [path] else []
      | None => []
      end
  | Some _ => []
  end.
Lemma enum_walk : forall j, wf_json j -> forall path q, In q (inline_enums j path) <-> exists q0 m, under path j q0 (JObj m) /\ In q (enum_here m q0).
Proof.
  apply (sub_R inline_enums enum_here).
  - intros [] path N; try reflexivity. destruct (N _ eq_refl).
  - intros m path q. cbn [inline_enums]. fold (enum_here m path). rewrite !in_app_iff, !at_key_get, item_path_eq.
    assert (E : In q (match aget "items" m with Some v => inline_enums v (path ++ "[]") | None => [] end) <-> exists s, aget "items" m = Some s /\ In q (inline_enums s (path ++ "[]"))).
    { destruct (aget "items" m); split; [eauto|intros (s & G & H); injection G as <-; exact H|intros []|intros (s & G & _); discriminate]. }
    rewrite E. clear E. apply or_iff_compat_l, or_iff_compat_l.
    destruct (aget "properties" m) as [[| | | | |p]|].
    all: try (split; [intros []|intros (? & ? & ? & G & _); discriminate]).
    rewrite in_flat_map. split.
    + intros ([k s] & Ip & H). exists p, k, s. auto.
    + intros (p1 & k & s & G & Ip & H). injection G as <-. exists (k, s). auto.
Qed.
Lemma enum_spec : forall j, wf_json j -> forall q, In q (inline_enum_paths j) <->
  q <> "" /\ exists m l, under "" j q (JObj m) /\ aget "$dictionary" m = None /\ aget "enum" m = Some (JArr l) /\ 2 <= length l /\ forall x, In x l -> exists s, x = JStr s.
Proof.
  intros j W q. unfold inline_enum_paths. rewrite (enum_walk j W). unfold enum_here. split.
  - intros (q0 & m & U & H). destruct (aget "$dictionary" m) eqn:D; [contradiction|]. destruct (String.eqb q0 "") eqn:E; [contradiction|]. apply String.eqb_neq in E.
    destruct (get_arr "enum" m) as [l|] eqn:G; [|contradiction]. apply get_arr_some in G. destruct ((length (strs l) =? length l) && (2 <=? length l)) eqn:B; [|contradiction]. destruct H as [<-|[]].
    apply andb_prop in B as [B1 B2]. apply Nat.eqb_eq in B1. apply Nat.leb_le in B2. split; [exact E|]. exists m, l. split; [exact U|]. split; [exact D|]. split; [exact G|]. split; [exact B2|]. now apply strs_len.
  - intros (N & m & l & U & D & G & B & A). exists q, m. split; [exact U|]. rewrite D. apply String.eqb_neq in N. rewrite N. apply get_arr_some in G. rewrite G.
    rewrite (strs_all l A), Nat.eqb_refl. apply Nat.leb_le in B. rewrite B. now left.
Qed.
Lemma dict_spec : forall j, wf_json j -> forall n, In n (dictionary_names j) <-> exists m, inside j m /\ aget "$dictionary" m = Some (JStr n).
Proof.
  induction j as [| |n0| |l IH|m IH] using json_ind'; intros W n; cbn [dictionary_names].
  1, 2, 3, 4: split; [intros []|intros (m & ([|[k|i] p] & E) & _); discriminate].
  - pose proof (wf_parts _ W) as Wl. cbn in Wl. rewrite Forall_forall in IH. rewrite in_flat_map. split.
    + intros (x & I & H). apply (IH x I (Wl x I)) in H as (m & H & G). apply In_nth_error in I as [i E]. exists m. split; [|exact G]. apply (inside_sub [At i] (JArr l) x m); [cbn; now rewrite E|exact H].
    + intros (m & ([|[k|i] p] & E) & G); try discriminate. cbn in E. destruct (nth_error l i) as [x|] eqn:N; [|discriminate]. apply nth_error_In in N. exists x. split; [exact N|]. apply (IH x N (Wl x N)). exists m. split; [now exists p|exact G].
  - apply wf_parts in W as [Nm W]. rewrite Forall_forall in IH. rewrite in_app_iff, in_flat_map. split.
    + intros [H|([k x] & I & H)].
      * exists m. split; [exists []; reflexivity|]. destruct (get_str "$dictionary" m) as [s|] eqn:G; [|destruct H]. destruct H as [->|[]]. now apply get_str_some.
      * cbn [snd] in H. apply (IH _ I (W _ _ I)) in H as (m1 & H & G). exists m1. split; [|exact G]. apply (inside_sub [Key k] (JObj m) x m1); [|exact H]. cbn. now rewrite (aget_in_nodup _ _ _ Nm I).
    + intros (m1 & ([|[k|i] p] & E) & G); try discriminate.
      * cbn in E. injection E as <-. left. apply get_str_some in G. rewrite G. now left.
      * cbn in E. destruct (aget k m) as [x|] eqn:N; [|discriminate]. apply aget_Some_in in N. right. exists (k, x). split; [exact N|]. apply (IH _ N (W _ _ N)). exists m1. split; [now exists p|exact G].
Qed.

(** ** The dictionaries that a type needs *)
Definition N (d1 d2 : string -> option vtype) (j : json) : Prop := (forall n, In n (dictionary_names j) -> d1 n = d2 n) -> ty d1 j = ty d2 j.
Lemma sub_N : forall d1 d2 j, N d1 d2 j /\ match j with JArr l => forall c, In c l -> N d1 d2 c | JObj m => forall k s, In (k, s) m -> N d1 d2 s | _ => True end.
Proof.
  intros d1 d2. induction j as [| | | |l IH|m IH] using json_ind'; try (split; [intros _; reflexivity|exact I]).
  - split; [intros _; reflexivity|]. rewrite Forall_forall in IH. intros c Ic. apply (IH c Ic).
  - rewrite Forall_forall in IH. split; [|intros k s Ic; apply (IH (k, s) Ic)]. intros H. rewrite !ty_obj.
    assert (Hm : forall k s n, aget k m = Some s -> In n (dictionary_names s) -> d1 n = d2 n).
    { intros k s n G I. apply H. cbn [dictionary_names]. apply in_app_iff. right. apply in_flat_map. exists (k, s). split; [now apply aget_Some_in|exact I]. }
    destruct (get_str "$dictionary" m) as [name|] eqn:Ed.
    { rewrite (H name); [reflexivity|]. cbn [dictionary_names]. rewrite Ed. now left. }
    destruct (get_arr (case_key m) m) as [l|] eqn:Ec.
    { apply get_arr_some in Ec. f_equal. apply map_ext_in. intros c Ic. pose proof (IH _ (aget_Some_in _ _ _ Ec)) as [_ Hc]. cbn in Hc. apply (Hc c Ic). intros n In1. apply (Hm _ _ n Ec). cbn [dictionary_names]. apply in_flat_map. eauto. }
    destruct (enum_of m); [reflexivity|].
    assert (Ei : items_of d1 m = items_of d2 m).
    { unfold items_of. destruct (aget "items" m) as [s|] eqn:G; [|reflexivity]. apply (IH _ (aget_Some_in _ _ _ G)). intros n. apply (Hm _ _ n G). }
    assert (Ep : props_of d1 m = props_of d2 m).
    { unfold props_of. destruct (aget "properties" m) as [[| | | | |p]|] eqn:G; try reflexivity. f_equal. apply map_ext_in. intros [k s] Ip. f_equal. cbn [fst snd]. pose proof (IH _ (aget_Some_in _ _ _ G)) as [_ Hc]. cbn in Hc.
      apply (Hc k s Ip). intros n In1. apply (Hm _ _ n G). cbn [dictionary_names]. apply in_app_iff. right. apply in_flat_map. exists (k, s). auto. }
    rewrite Ei, Ep. reflexivity.
Qed.
Lemma ty_needs : forall d1 d2 j, (forall n, In n (dictionary_names j) -> d1 n = d2 n) -> ty d1 j = ty d2 j.
Proof. intros d1 d2 j. apply sub_N. Qed.
