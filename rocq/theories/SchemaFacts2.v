(** The type of a schema holds every value that the schema allows; used by PropSchema.v. *)
From Coq Require Import String Ascii ZArith Bool List Arith Lia.
From Verif Require Import Base Value Json VarType TypeSpec TypeFacts TypeMembers ConvertSpec ConvertFacts Schema SchemaSpec SchemaFacts.
Import ListNotations.
Local Open Scope string_scope.
Local Open Scope nat_scope.
Local Open Scope list_scope.

Lemma get_arr_some : forall k m l, get_arr k m = Some l <-> aget k m = Some (JArr l).
Proof. unfold get_arr. intros k m l. destruct (aget k m) as [[]|]; split; intros H; try discriminate; injection H as ->; reflexivity. Qed.
Lemma get_str_some : forall k m s, get_str k m = Some s <-> aget k m = Some (JStr s).
Proof. unfold get_str. intros k m s. destruct (aget k m) as [[]|]; split; intros H; try discriminate; injection H as ->; reflexivity. Qed.
Lemma get_arr_none : forall k m, get_arr k m = None -> forall l, aget k m <> Some (JArr l).
Proof. unfold get_arr. intros k m H l E. rewrite E in H. discriminate. Qed.
Lemma case_key_or : forall m, case_key m = "anyOf" \/ case_key m = "oneOf".
Proof. intros m. unfold case_key. destruct (aget "anyOf" m); auto. Qed.
Lemma required_in : forall m k, In k (required m) <-> exists l, aget "required" m = Some (JArr l) /\ In (JStr k) l.
Proof.
  intros m k. unfold required. destruct (get_arr "required" m) as [l|] eqn:E.
  - apply get_arr_some in E. rewrite strs_in. split; [eauto|]. intros (l1 & E1 & I). rewrite E in E1. injection E1 as <-. exact I.
  - split; [intros []|]. intros (l & E1 & _). exfalso. eapply get_arr_none; eauto.
Qed.
Lemma optional_iff : forall m k, optional m k <-> contains (required m) k = false.
Proof.
  intros m k. unfold optional. rewrite <- not_true_iff_false, contains_in, required_in. split.
  - intros H (l & E & I). exact (H l E I).
  - intros H l E I. apply H. eauto.
Qed.
Lemma kind_all : forall kind t, of_kind kind t ->
  (kind = "object" -> exists o, t = TObj o) /\ (kind = "array" -> exists l, t = TArr l) /\ (kind = "string" -> exists s, t = TStr s) /\
  (kind = "number" \/ kind = "integer" -> exists d, t = TNum d) /\ (kind = "boolean" -> exists b, t = TBool b) /\ (kind = "null" -> t = TNull).
Proof.
  intros kind t H. destruct t; cbn in H; try contradiction; try (destruct H as [H|H]); subst.
  all: split; [|split; [|split; [|split; [|split]]]]; intros E; try destruct E as [E|E]; try discriminate; eauto.
Qed.
Section D.
  Variable dicts : string -> option vtype.
  Variable dict : string -> tree -> Prop.
  Hypothesis Hd : forall name t T, dict name t -> dicts name = Some T -> fits T t.
  Definition items_of (m : list (string * json)) : vtype := match aget "items" m with Some s => ty dicts s | None => KAny end.
  Definition props_of (m : list (string * json)) : option (list (string * vtype)) :=
    match aget "properties" m with Some (JObj p) => Some (map (fun e => (fst e, ty dicts (snd e))) p) | _ => None end.
  Lemma ty_obj : forall m, ty dicts (JObj m) =
    match get_str "$dictionary" m with
    | Some name => match dicts name with Some t => t | None => KAny end
    | None =>
        match get_arr (case_key m) m with
        | Some l => reduce (map (ty dicts) l)
        | None =>
            match enum_of m with
            | Some l => KEnum None l
            | None =>
                match aget "type" m with
                | Some (JStr kind) => typed m (items_of m) (props_of m) kind
                | Some (JArr kinds) => reduce (map (typed m (items_of m) (props_of m)) (strs kinds))
                | _ => KAny
                end
            end
        end
    end.
  Proof.
    intros m. cbn [ty]. rewrite !at_key_get. destruct (get_str "$dictionary" m); [reflexivity|].
    destruct (get_arr (case_key m) m) eqn:E; [apply get_arr_some in E; rewrite E; reflexivity|].
    unfold items_of, props_of. destruct (enum_of m); [reflexivity|].
    destruct (aget "properties" m) as [[]|]; reflexivity.
  Qed.
  Lemma typed_fits : forall m t kind, good dicts (JObj m) -> valid dict (JObj m) t -> of_kind kind t ->
    (forall s x, aget "items" m = Some s -> valid dict s x -> fits (ty dicts s) x) ->
    (forall p k s x, aget "properties" m = Some (JObj p) -> aget k p = Some s -> valid dict s x -> fits (ty dicts s) x) ->
    fits (typed m (items_of m) (props_of m) kind) t.
  Proof.
    intros m t kind (W & Dl & _) V K Hi Hp. destruct (kind_all _ _ K) as (K1 & K2 & K3 & K4 & K5 & K6). inversion V as [|? ? _ _ _ _ _ _ Vp Vr Vi]; subst. unfold typed.
    destruct (String.eqb kind "object") eqn:E1; [apply String.eqb_eq in E1|].
    { destruct (K1 E1) as [o ->]. unfold props_of. destruct (aget "properties" m) as [[| | | | |p]|] eqn:G; try exact I.
      assert (Np : NoDup (map fst p)). { assert (Wp : wf_json (JObj p)) by (apply (wf_get [Key "properties"] (JObj m)); [exact W|cbn; now rewrite G]). apply wf_parts in Wp. apply Wp. }
      assert (E : map (fun e : string * vtype => (fst e, if contains (required m) (fst e) then snd e else wrap_optional (snd e))) (map (fun e => (fst e, ty dicts (snd e))) p)
                  = map (fun e => (fst e, if contains (required m) (fst e) then ty dicts (snd e) else wrap_optional (ty dicts (snd e)))) p) by (rewrite map_map; reflexivity).
      rewrite E. apply member_obj.
      - rewrite map_map. cbn. exact Np.
      - exists o. split; [reflexivity|]. split; [discriminate|]. intros k T GT. apply aget_Some_in in GT. apply in_map_iff in GT as ([k1 s] & GT & I). injection GT as -> <-. cbn [fst snd].
        assert (Gs : aget k p = Some s) by (apply aget_in_nodup; assumption). destruct (aget k o) as [x|] eqn:Go.
        + assert (F : fits (ty dicts s) x) by (eapply Hp; eauto). destruct (contains (required m) k); [exact F|]. apply optional_fits. now left.
        + intros _. destruct (contains (required m) k) eqn:C; [|apply optional_fits; now right]. exfalso. apply contains_in, required_in in C as (l & El & Il).
          apply aget_None_notin in Go. apply Go. eapply Vr; eauto. }
    destruct (String.eqb kind "array") eqn:E2; [apply String.eqb_eq in E2|].
    { destruct (K2 E2) as [l ->]. exists l. split; [reflexivity|]. intros x Ix. unfold items_of. destruct (aget "items" m) as [s|] eqn:G; [|exact I]. eapply Hi; [reflexivity|]. eapply Vi; eauto. }
    destruct (String.eqb kind "string") eqn:E3; [apply String.eqb_eq in E3|].
    { destruct (K3 E3) as [s ->]. destruct (get_str "format" m) as [f|] eqn:G; [|exists s; reflexivity]. apply get_str_some in G.
      destruct (Dl m f (ex_intro _ [] eq_refl) G) as [D1 D2]. apply String.eqb_neq in D1, D2. rewrite D1, D2. exists s; reflexivity. }
    destruct (String.eqb kind "number" || String.eqb kind "integer") eqn:E4.
    { apply orb_true_iff in E4. rewrite !String.eqb_eq in E4. exact (K4 E4). }
    destruct (String.eqb kind "boolean") eqn:E5; [apply String.eqb_eq in E5; exact (K5 E5)|].
    destruct (String.eqb kind "null") eqn:E6; [apply String.eqb_eq in E6; exact (K6 E6)|]. exact I.
  Qed.
  (** All the schemas in a document. *)
  Definition P (j : json) : Prop := good dicts j -> forall t, valid dict j t -> fits (ty dicts j) t.
  Lemma sub_P : forall j, (P j /\ match j with JArr l => forall c, In c l -> P c | JObj m => forall k s, In (k, s) m -> P s | _ => True end).
  Proof.
    induction j as [| | | |l IH|m IH] using json_ind'; try (split; [intros _ t _; exact I|exact I]).
    - split; [intros _ t _; exact I|]. rewrite Forall_forall in IH. intros c Ic. apply (IH c Ic).
    - rewrite Forall_forall in IH. split; [|intros k s Ic; apply (IH (k, s) Ic)].
      intros Gd t V. rewrite ty_obj. pose proof V as V0. inversion V as [|? ? Vd Va Vo Ve Vt Vl _ _ _]; subst.
      destruct (get_str "$dictionary" m) as [name|] eqn:Ed.
      { apply get_str_some in Ed. destruct (Vd _ Ed) as (n1 & E1 & Dn). injection E1 as <-. destruct (dicts name) eqn:Dt; [eapply Hd; eauto|exact I]. }
      destruct (get_arr (case_key m) m) as [l|] eqn:Ec.
      { apply get_arr_some in Ec. apply reduce_fits.
        - apply pairwise_nth. intros i k a b N Ea Eb. rewrite nth_error_map in Ea, Eb. destruct (nth_error l i) as [x|] eqn:Ex; [|discriminate]. destruct (nth_error l k) as [y|] eqn:Ey; [|discriminate].
          injection Ea as <-. injection Eb as <-. destruct Gd as (_ & _ & _ & Ca). destruct (Ca m l i k x y (case_key m) (ex_intro _ [] eq_refl) (case_key_or m) Ec N Ex Ey). now apply apart_of.
        - assert (H : exists c, In c l /\ valid dict c t) by (destruct (case_key_or m) as [E|E]; rewrite E in Ec; eauto). destruct H as (c & Ic & Vc). exists (ty dicts c). split; [now apply in_map|].
          pose proof (IH _ (aget_Some_in _ _ _ Ec)) as [_ Hc]. cbn in Hc. apply (Hc c Ic); [|exact Vc]. apply In_nth_error in Ic as [i Ei]. apply (good_sub dicts [Key (case_key m); At i] (JObj m)); [exact Gd|].
          cbn. rewrite Ec, Ei. reflexivity. }
      destruct (enum_of m) as [l|] eqn:Ee.
      { unfold enum_of in Ee. destruct (get_arr "enum" m) as [vs|] eqn:Ev; [|discriminate]. destruct ((length (strs vs) =? length vs) && _) eqn:B; [|discriminate]. injection Ee as <-.
        apply get_arr_some in Ev. apply andb_prop in B as [B _]. apply Nat.eqb_eq in B. destruct (Ve _ Ev) as (c & Ic & Mc). destruct (strs_len _ B c Ic) as [s ->]. apply means_str in Mc. subst.
        exists s. split; [reflexivity|]. now apply strs_in. }
      assert (Hi : forall s x, aget "items" m = Some s -> valid dict s x -> fits (ty dicts s) x).
      { intros s x G Vx. apply (IH _ (aget_Some_in _ _ _ G)); [|exact Vx]. apply (good_sub dicts [Key "items"] (JObj m)); [exact Gd|]. cbn. now rewrite G. }
      assert (Hp : forall p k s x, aget "properties" m = Some (JObj p) -> aget k p = Some s -> valid dict s x -> fits (ty dicts s) x).
      { intros p k s x G G1 Vx. pose proof (IH _ (aget_Some_in _ _ _ G)) as [_ Hc]. cbn in Hc. apply (Hc k s (aget_Some_in _ _ _ G1)); [|exact Vx].
        apply (good_sub dicts [Key "properties"; Key k] (JObj m)); [exact Gd|]. cbn. now rewrite G, G1. }
      destruct (aget "type" m) as [[| | |kind|kinds|]|] eqn:Et; try exact I.
      + apply typed_fits; auto.
      + destruct (Vl _ eq_refl) as (kind & Ik & Kk). apply reduce_fits.
        * apply typed_apart, strs_once. destruct Gd as (_ & _ & Ko & _). apply (Ko m kinds); [exists []; reflexivity|exact Et].
        * exists (typed m (items_of m) (props_of m) kind). split; [apply in_map; now apply strs_in|]. apply typed_fits; auto.
  Qed.
  Lemma ty_fits : forall j t, good dicts j -> valid dict j t -> fits (ty dicts j) t.
  Proof. intros j t G V. now apply sub_P. Qed.

  (** ** Null *)
  Hypothesis Hn : forall name, ~ dict name TNull.
  Definition Q (j : json) : Prop := valid dict j TNull -> admits_null j = true.
  Lemma sub_Q : forall j, Q j /\ match j with JArr l => forall c, In c l -> Q c | _ => True end.
  Proof.
    induction j as [| | | |l IH|m IH] using json_ind'; try (split; [intros _; reflexivity|exact I]).
    - split; [intros _; reflexivity|]. rewrite Forall_forall in IH. intros c Ic. apply (IH c Ic).
    - rewrite Forall_forall in IH. split; [|exact I]. intros V. cbn [admits_null]. inversion V as [|? ? Vd Va Vo Ve Vt Vl _ _ _]; subst.
      destruct (aget "$dictionary" m) as [d|] eqn:Ed. { destruct (Vd _ eq_refl) as (n & _ & D). exfalso. exact (Hn n D). }
      destruct (get_arr (case_key m) m) as [l|] eqn:Ec.
      { apply get_arr_some in Ec. rewrite at_key_get, Ec. assert (H : exists c, In c l /\ valid dict c TNull) by (destruct (case_key_or m) as [E|E]; rewrite E in Ec; eauto).
        destruct H as (c & Ic & Vc). apply existsb_exists. exists c. split; [exact Ic|]. pose proof (IH _ (aget_Some_in _ _ _ Ec)) as [_ Hc]. cbn in Hc. now apply (Hc c Ic). }
      destruct (get_arr "enum" m) as [vs|] eqn:Ev.
      { apply get_arr_some in Ev. destruct (Ve _ Ev) as (c & Ic & Mc). apply means_null in Mc. subst. apply existsb_exists. exists JNull. auto. }
      destruct (aget "type" m) as [[| | |kind|kinds|]|] eqn:Et; auto.
      + specialize (Vt _ eq_refl). cbn in Vt. subst. reflexivity.
      + destruct (Vl _ eq_refl) as (kind & Ik & Kk). cbn in Kk. subst. apply existsb_exists. exists "null". split; [now apply strs_in|reflexivity].
  Qed.
  Lemma null_admitted : forall j, valid dict j TNull -> admits_null j = true.
  Proof. intros j. apply sub_Q. Qed.
End D.
