(** * C76: the loader of a directory lists its decisions, and loads what it lists *)
From Coq Require Import String Ascii List Arith Bool Lia Permutation.
Import ListNotations.
From Verif Require Import Base Files FilesSpec FilesFacts.
Local Open Scope string_scope.
Local Open Scope nat_scope.
Local Open Scope list_scope.

Lemma root_place : forall C (fs : entry C) cwd root l, os_entry fs cwd root = Some (Dir l) ->
  exists loc, os_path fs cwd root = Some loc /\ entry_at fs loc = Some (Dir l).
Proof. intros C fs cwd root l E. unfold os_entry in E. destruct (os_path fs cwd root) as [loc|]; [|discriminate]. eauto. Qed.

(** The keys are those of the .json files below the root, each once, wherever they are. *)
Theorem C76_listing : forall C (fs : entry C) cwd root l, file_system fs -> os_entry fs cwd root = Some (Dir l) ->
  NoDup (fkeys fs cwd root) /\
  forall k, In k (fkeys fs cwd root) <-> exists ms n c, json_name n /\ under (Dir l) (ms ++ [n]) (File c) /\ k = slashed (ms ++ [n]).
Proof.
  intros C fs cwd root l F E. destruct (root_place _ _ _ _ _ E) as (loc & P & A).
  assert (N : root <> "") by (intros ->; discriminate P).
  assert (U : under fs loc (Dir l)) by now apply entry_under. pose proof (fs_sub _ _ _ F U) as Fl.
  assert (W : Permutation (fkeys fs cwd root) (map slashed (listed (Dir l)))).
  { pose proof (walk_spec fs cwd root loc F N P (S (entries fs)) [([], Dir l)] []) as H. cbn [map fst path_of fold_left] in H. unfold fkeys.
    eapply perm_trans; [apply H|].
    - constructor; [|constructor]. split; [|split]; cbn [fst snd]; [now rewrite app_nil_r|constructor|eauto].
    - apply entries_under in U. cbn [weight fold_right snd]. lia.
    - cbn [app flat_map]. unfold found. cbn [fst snd]. rewrite app_nil_r. rewrite (map_ext (app []) (fun x => x)) by reflexivity. rewrite map_id. reflexivity. }
  split.
  - eapply Permutation_NoDup; [symmetry; exact W|]. pose proof (listed_nodup _ Fl) as ND.
    assert (G : forall x, In x (listed (Dir l)) -> x <> [] /\ Forall file_name x).
    { intros x I. apply listed_in in I as (ms & n & c & -> & _ & Ux). split; [destruct ms; discriminate|]. eapply under_names; [exact Fl|exact Ux]. }
    clear W. revert ND G. generalize (listed (Dir l)). intros L. induction L as [|x L IH]; intros ND G; [constructor|]. inversion ND; subst. cbn. constructor.
    + intros I. apply in_map_iff in I as (y & Ey & Iy). destruct (G x) as (X1 & X2); [now left|]. destruct (G y) as (Y1 & Y2); [now right|].
      apply slashed_inj in Ey; try assumption. subst. contradiction.
    + apply IH; [assumption|]. intros y Y. apply G. now right.
  - intros k. split.
    + intros I. eapply Permutation_in in I; [|exact W]. apply in_map_iff in I as (ns & <- & I). apply listed_in in I as (ms & n & c & -> & J & Un). eauto 8.
    + intros (ms & n & c & J & Un & ->). eapply Permutation_in; [symmetry; exact W|]. apply in_map, listed_in. eauto 8.
Qed.
Print Assumptions C76_listing.

(** A key that names an entry below the root by names gives that entry: the decision in it, an error if there is none in it, "not found" if there is no entry. *)
Theorem C76_named : forall C (fs : entry C) cwd root l ns, file_system fs -> os_entry fs cwd root = Some (Dir l) -> ns <> [] -> Forall file_name ns ->
  (exists e, under (Dir l) ns e /\ answers (Some e) (fload fs cwd root (slashed ns))) \/
  (~ exists e, under (Dir l) ns e) /\ answers (@None (entry C)) (fload fs cwd root (slashed ns)).
Proof.
  intros C fs cwd root l ns F E N Fn. destruct (root_place _ _ _ _ _ E) as (loc & P & A).
  assert (Nr : root <> "") by (intros ->; discriminate P). assert (U : under fs loc (Dir l)) by now apply entry_under. pose proof (fs_sub _ _ _ F U) as Fl.
  assert (S : starts_slash (slashed ns) = false).
  { destruct ns as [|n ns]; [congruence|]. inversion Fn as [|? ? Hn _]; subst. destruct (name_no_slash n Hn) as (S & _ & Ne). destruct n as [|a n]; [congruence|]. destruct ns; exact S. }
  assert (R : os_entry fs cwd (join_path root (slashed ns)) = entry_at (Dir l) ns).
  { unfold os_entry. rewrite os_join by assumption. rewrite P, split_slashed, resolve_names by assumption. destruct ns as [|n ns]; [congruence|].
    rewrite entry_app, A. destruct (entry_at (Dir l) (n :: ns)) eqn:B; [|reflexivity]. now rewrite entry_app, A, B. }
  unfold fload. rewrite R. destruct (entry_at (Dir l) ns) as [e|] eqn:B.
  - left. exists e. split; [now apply entry_under|]. destruct e as [[c|]|l1]; reflexivity.
  - right. split; [|reflexivity]. intros (e & Ue). apply under_entry in Ue; [|exact Fl]. rewrite B in Ue. discriminate.
Qed.
Print Assumptions C76_named.

(** So every key that is listed is found. *)
Theorem C76_listed_found : forall C (fs : entry C) cwd root l k, file_system fs -> os_entry fs cwd root = Some (Dir l) -> In k (fkeys fs cwd root) ->
  exists ns c, k = slashed ns /\ under (Dir l) ns (File c) /\ answers (Some (File c)) (fload fs cwd root k).
Proof.
  intros C fs cwd root l k F E I. apply (proj2 (C76_listing C fs cwd root l F E)) in I as (ms & n & c & _ & U & ->). exists (ms ++ [n]), c. split; [reflexivity|]. split; [exact U|].
  destruct (root_place _ _ _ _ _ E) as (loc & P & A). pose proof (fs_sub _ _ _ F (entry_under _ _ _ A)) as Fl.
  destruct (C76_named C fs cwd root l (ms ++ [n]) F E) as [(e & Ue & H)|(H & _)]; [destruct ms; discriminate|eapply under_names; eassumption| |exfalso; apply H; eauto].
  apply under_entry in Ue; [|exact Fl]. apply under_entry in U; [|exact Fl]. rewrite U in Ue. injection Ue as <-. exact H.
Qed.
Print Assumptions C76_listed_found.

Lemma join_on_app : forall c l1 x l2, exists a b, (a = "" \/ exists y, (a = y ++ String c "")%string) /\ (b = "" \/ exists y, b = String c y) /\ (join_on c (l1 ++ x :: l2) = a ++ x ++ b)%string.
Proof.
  intros c l1 x l2. assert (T : exists b, (b = "" \/ exists y, b = String c y) /\ join_on c (x :: l2) = (x ++ b)%string).
  { destruct l2 as [|y l2]; [exists ""; rewrite app_nil_s; auto|]. exists (String c (join_on c (y :: l2))). split; [eauto|reflexivity]. }
  destruct T as (b & Hb & T). induction l1 as [|n l1 (a & b1 & Ha & Hb1 & E)].
  - exists "", b. auto.
  - cbn [app]. assert (E1 : join_on c (n :: l1 ++ x :: l2) = (n ++ String c (join_on c (l1 ++ x :: l2)))%string) by (destruct l1; reflexivity). rewrite E1, E.
    exists (n ++ String c a)%string, b1. split; [right|split; [exact Hb1|]].
    + destruct Ha as [->|(y & ->)]; [eauto|]. exists (n ++ String c y)%string. clear. induction n; cbn; [reflexivity|now rewrite IHn].
    + clear. induction n; cbn; [reflexivity|now rewrite IHn].
Qed.
Lemma tame_parts : forall key, tame key -> starts_slash key = false /\ ~ In ".." (split_slash key).
Proof.
  intros key (A & B). split.
  - destruct key as [|a key]; [reflexivity|]. cbn. destruct (Ascii.eqb_spec a slash) as [->|]; [|reflexivity]. exfalso. now apply (A key).
  - intros I. apply in_split in I as (l1 & l2 & E). apply B. destruct (join_on_app slash l1 ".." l2) as (a & b & Ha & Hb & J). exists a, b. split; [exact Ha|]. split; [exact Hb|].
    rewrite <- J, <- E. symmetry. apply join_split.
Qed.
Lemma parts_tame : forall key, starts_slash key = false -> ~ In ".." (split_slash key) -> tame key.
Proof.
  intros key S D. split; [intros r ->; discriminate S|]. intros (a & b & Ha & Hb & ->). apply D.
  assert (X : forall b, (b = "" \/ exists y, b = ("/" ++ y)%string) -> In ".." (split_slash (".." ++ b))).
  { intros c [->|(y & ->)]; [now left|]. change (".." ++ "/" ++ y)%string with (".." ++ String slash y)%string. rewrite split_app_slash. apply in_or_app. left. now left. }
  destruct Ha as [->|(x & ->)]; [now apply X|]. assert (E : ((x ++ "/") ++ ".." ++ b)%string = (x ++ String slash (".." ++ b))%string) by (clear; induction x as [|? x IHx]; cbn; [reflexivity|f_equal; exact IHx]).
  change (In ".." (split_slash ((x ++ "/") ++ ".." ++ b))). rewrite E, split_app_slash. apply in_or_app. right. now apply X.
Qed.
(** A key that is not absolute and has no part [..] loads only what is below the root. *)
Theorem C76_inside : forall C (fs : entry C) cwd root l key c, os_entry fs cwd root = Some (Dir l) -> tame key ->
  fload fs cwd root key = Found c -> exists ns, under (Dir l) ns (File (Some c)).
Proof.
  intros C fs cwd root l key c E T H. destruct (root_place _ _ _ _ _ E) as (loc & P & A). destruct (tame_parts key T) as (S & D).
  assert (Nr : root <> "") by (intros ->; discriminate P). unfold fload, os_entry in H. rewrite os_join in H by assumption. rewrite P in H.
  destruct (resolve fs loc (split_slash key)) as [loc1|] eqn:R; [|discriminate]. apply resolve_down in R as (ns & -> & _); [|exact D]. rewrite entry_app, A in H. exists ns. apply entry_under.
  destruct (entry_at (Dir l) ns) as [[[c1|]|]|]; try discriminate H. injection H as ->. reflexivity.
Qed.
Print Assumptions C76_inside.

(** A directory of decisions beside other files. *)
Definition fs_demo : entry nat :=
  Dir [("srv", Dir [("rules", Dir [("price.json", File (Some 1)); ("eu", Dir [("tax.json", File (Some 2)); ("notes.txt", File None); (".json", File (Some 3))]); ("broken.json", File None)]);
                    ("secret.json", File (Some 42))]);
       ("etc", Dir [("other.json", File (Some 43))])].
Ltac name_tac := split; [discriminate|split; [discriminate|split; [discriminate|cbn; intuition discriminate]]].
Lemma fs_demo_ok : file_system fs_demo.
Proof.
  intros ns l U. unfold fs_demo in U.
  repeat match goal with
         | I : In _ (_ :: _) |- _ => destruct I as [I|I]; [injection I as <- <-|]
         | I : In _ [] |- _ => destruct I
         | U : under _ _ _ |- _ => inversion U; clear U; subst
         end;
  (split; [repeat constructor; cbn; intuition discriminate|cbn; intros n I; repeat (destruct I as [<-|I]; [name_tac|]); destruct I]).
Qed.
Example C76_case : os_entry fs_demo ["srv"] "./rules" = Some (Dir [("price.json", File (Some 1)); ("eu", Dir [("tax.json", File (Some 2)); ("notes.txt", File None); (".json", File (Some 3))]); ("broken.json", File None)]) /\
  fkeys fs_demo ["srv"] "./rules" = ["price.json"; "broken.json"; "eu/tax.json"] /\
  fload fs_demo ["srv"] "./rules" "eu/tax.json" = Found 2 /\ fload fs_demo ["srv"] "./rules" "broken.json" = Internal /\ fload fs_demo ["srv"] "./rules" "eu" = Internal /\
  fload fs_demo ["srv"] "./rules" "us/tax.json" = NotFound /\ fload fs_demo ["srv"] "./rules" "eu/.//tax.json" = Found 2 /\ tame "eu/.//tax.json".
Proof.
  repeat (split; [vm_compute; reflexivity|]). apply parts_tame; [reflexivity|cbn; intuition discriminate].
Qed.

(** Other keys leave the root: a key is not a name but a path, so one that comes from outside can read any decision on the machine. *)
Theorem C76_outside_refuted : exists (fs : entry nat) cwd root l, file_system fs /\ os_entry fs cwd root = Some (Dir l) /\
  (exists key c, fload fs cwd root key = Found c /\ (forall r, key <> "/" ++ r)%string /\ ~ exists ns, under (Dir l) ns (File (Some c))) /\
  exists key c, fload fs cwd root key = Found c /\ ~ In ".." (split_slash key) /\ ~ exists ns, under (Dir l) ns (File (Some c)).
Proof.
  exists fs_demo, [], "/srv/rules". eexists. split; [exact fs_demo_ok|]. split; [vm_compute; reflexivity|].
  assert (X : forall c, 40 < c -> ~ exists ns, under (Dir [("price.json", File (Some 1)); ("eu", Dir [("tax.json", File (Some 2)); ("notes.txt", File None); (".json", File (Some 3))]); ("broken.json", @File nat None)]) ns (File (Some c))).
  { intros c Hc (ns & U). repeat match goal with
         | I : In _ (_ :: _) |- _ => destruct I as [I|I]; [injection I as <- <-|]
         | I : In _ [] |- _ => destruct I
         | U : under _ _ _ |- _ => inversion U; clear U; subst
         end; lia. }
  split.
  - exists "../secret.json", 42. split; [vm_compute; reflexivity|]. split; [intros r Z; discriminate Z|]. apply X. lia.
  - exists "/etc/other.json", 43. split; [vm_compute; reflexivity|]. split; [cbn; intuition discriminate|]. apply X. lia.
Qed.
Print Assumptions C76_outside_refuted.
(** With an empty root, keys are looked up where the program runs, but none is listed. *)
Theorem C76_empty_root_refuted : exists (fs : entry nat) cwd key c, file_system fs /\ tame key /\ fload fs cwd "" key = Found c /\ json_name key /\ fkeys fs cwd "" = [].
Proof.
  exists fs_demo, ["srv"], "secret.json", 42. split; [exact fs_demo_ok|]. split.
  - apply parts_tame; [reflexivity|cbn; intuition discriminate].
  - split; [vm_compute; reflexivity|]. split; [exists "secret"; split; [discriminate|reflexivity]|vm_compute; reflexivity].
Qed.
Print Assumptions C76_empty_root_refuted.
