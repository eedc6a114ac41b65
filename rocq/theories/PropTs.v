(** C82: the types of TypeScript types. *)
From Coq Require Import String ZArith Bool List Arith Lia.
From Verif Require Import Base Dec Value Json VarType TypeSpec TypeFacts Schema SchemaSpec SchemaFacts5 TsType TsSpec TsFacts TsFacts2.
Import ListNotations.
Local Open Scope string_scope.
Local Open Scope nat_scope.
Local Open Scope list_scope.

(** Every value of the TypeScript type is a value of the type derived from it. *)
Theorem C82_types : forall t x, sensible t -> has t x -> fits (convert t) x.
Proof. intros t x S V. exact (convert_fits t S x V). Qed.
Print Assumptions C82_types.
(** For the common types the derived type has no other values. *)
Theorem C82_exact : forall t, tight t -> forall x, has t x <-> fits (convert t) x.
Proof. exact tight_exact. Qed.
Print Assumptions C82_exact.
(** The same for the intersection of two object types with different keys. *)
Theorem C82_intersections : forall m n x, tight (TsObj m) -> tight (TsObj n) -> (forall k, In (Some k) (map fst m) -> ~ In (Some k) (map fst n)) ->
  (has (TsInter [TsObj m; TsObj n]) x <-> fits (convert (TsInter [TsObj m; TsObj n])) x).
Proof. exact inter_exact. Qed.
Print Assumptions C82_intersections.
(** The object types in it list a key once. *)
Theorem C82_distinct : forall t, distinct (convert t).
Proof. intros t. apply wft_distinct, convert_wft. Qed.
Print Assumptions C82_distinct.

(** { total: number; note?: string; tier: 'gold' | 'basic'; tags: Array<string> } & { id: string } *)
Definition result : tstype :=
  TsObj [(Some "total", (false, TsKey TkNumber)); (Some "note", (true, TsKey TkString)); (Some "tier", (false, TsUnion [TsLit (LStr "gold"); TsLit (LStr "basic")]));
         (Some "tags", (false, TsRef "Array" [TsKey TkString]))].
Definition both : tstype := TsInter [result; TsObj [(Some "id", (false, TsKey TkString))]].
Example both_type : convert both =
  KObject [("total", KNumber); ("note", KNullable KString); ("tier", KEnum None ["gold"; "basic"]); ("tags", KArray KString); ("id", KString)].
Proof. vm_compute. reflexivity. Qed.
Example result_tight : tight result.
Proof.
  apply TObject.
  - repeat constructor; cbn; intuition discriminate.
  - intros n opt t H E. subst. cbn in H. intuition discriminate.
  - intros n opt t H. cbn in H. destruct H as [H|[H|[H|[H|[]]]]]; injection H as <- <- <-.
    + apply TKey. cbn. auto.
    + apply TKey. cbn. auto.
    + apply (TStrs "gold" ["basic"]).
    + apply TGeneric; [cbn; auto|]. apply TKey. cbn. auto.
Qed.
Ltac parts := repeat match goal with
  | H : part _ (TsKey _) |- _ => inversion H; subst; clear H
  | H : part _ (TsLit _) |- _ => inversion H; subst; clear H
  | H : part _ (TsObj _) |- _ => inversion H; subst; clear H
  | H : part _ (TsInter _) |- _ => inversion H; subst; clear H
  | H : part _ (TsUnion _) |- _ => inversion H; subst; clear H
  | H : part _ (TsRef _ _) |- _ => inversion H; subst; clear H
  | H : _ \/ _ |- _ => destruct H
  | H : exists _, _ |- _ => destruct H
  | H : TsInter _ = TsInter _ |- _ => injection H as <-
  | H : TsUnion _ = TsUnion _ |- _ => injection H as <-
  | H : TsRef _ _ = TsRef _ _ |- _ => injection H as <- <-
  | H : (_, _) = (_, _) |- _ => injection H as <- <- <-
  | H : In _ _ |- _ => cbn in H
  | H : False |- _ => contradiction
  | H : _ = ?t |- _ => is_var t; subst
  end; try discriminate.
Example both_sensible : sensible both.
Proof.
  unfold both, result. split; [|split].
  - intros u H. parts.
  - intros u H. parts.
  - intros l u i k a b H E N Ea Eb. parts.
    destruct i as [|[|[]]]; try discriminate; destruct k as [|[|[]]]; try discriminate; try lia; injection Ea as <-; injection Eb as <-; split; intros [[z Z] _]; discriminate.
Qed.
Definition a_result : tree := TObj [("total", TNum (Dec 5 0)); ("tier", TStr "gold"); ("tags", TArr [TStr "x"]); ("id", TStr "i")].
Example both_has : has both a_result.
Proof.
  apply HInter. intros t [<-|[<-|[]]]; apply HObj; intros n opt u H; cbn in H.
  - destruct H as [H|[H|[H|[H|[]]]]]; injection H as <- <- <-; (split; [intros; discriminate|]); intros y Y; cbn in Y; try discriminate Y; injection Y as <-; left.
    + apply HNumber. now left.
    + eapply HUnion; [left; reflexivity|]. apply HLStr.
    + apply HRefArr; [now left|]. intros z [<-|[]]. apply HString.
  - destruct H as [H|[]]. injection H as <- <- <-. split; [intros; discriminate|]. intros y Y. cbn in Y. injection Y as <-. left. apply HString.
Qed.

(** What [sensible] asks is needed: "keyof" gives the type of the object itself, "..." an array of arrays, and a union of two object types asks for the keys of both. *)
Theorem C82_keyof_refuted : exists t x, has t x /\ ~ fits (convert t) x.
Proof.
  exists (TsOp true (TsObj [(Some "a", (false, TsKey TkNumber))])), (TStr "a"). split; [eapply HKeyof; left; reflexivity|]. cbn. intros (o & E & _). discriminate.
Qed.
Print Assumptions C82_keyof_refuted.
Theorem C82_rest_refuted : exists u x, has (TsTuple [TsRest (TsArr u)]) x /\ ~ fits (convert (TsTuple [TsRest (TsArr u)])) x.
Proof.
  exists (TsKey TkNumber), (TArr [TNum (Dec 1 0)]). split.
  - apply HTuple. intros x [<-|[]]. exists (TsRest (TsArr (TsKey TkNumber))). split; [now left|]. right. exists (TsArr (TsKey TkNumber)), [TNum (Dec 1 0)]. split; [reflexivity|]. split; [|now left].
    apply HArr. intros x [<-|[]]. apply HNumber. now left.
  - cbn. intros (l & E & H). injection E as <-. destruct (H _ (or_introl eq_refl)) as (l1 & E & _). discriminate.
Qed.
Print Assumptions C82_rest_refuted.
Theorem C82_union_refuted : exists a b x, (has a x \/ has b x) /\ has (TsUnion [a; b]) x /\ ~ fits (convert (TsUnion [a; b])) x.
Proof.
  exists (TsObj [(Some "a", (false, TsKey TkNumber))]), (TsObj [(Some "b", (false, TsKey TkNumber))]), (TObj [("b", TNum (Dec 1 0))]).
  assert (H : has (TsObj [(Some "b", (false, TsKey TkNumber))]) (TObj [("b", TNum (Dec 1 0))])).
  { apply HObj. intros n opt t [E|[]]. injection E as <- <- <-. split; [intros; discriminate|]. intros x E. cbn in E. injection E as <-. left. apply HNumber. now left. }
  split; [now right|]. split; [eapply HUnion; [right; left; reflexivity|exact H]|]. vm_compute. intros (o & E & _ & K & _). injection E as <-. destruct (K eq_refl) as [d D]. discriminate.
Qed.
Print Assumptions C82_union_refuted.
