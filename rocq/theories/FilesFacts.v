(** * Facts about the loader that reads a directory *)
From Coq Require Import String Ascii List Arith Bool Lia Permutation.
Import ListNotations.
From Verif Require Import Base Files FilesSpec.
Local Open Scope string_scope.
Local Open Scope nat_scope.
Local Open Scope list_scope.

(** ** Text *)
Lemma split_on_app : forall c s t, split_on c (s ++ String c t) = split_on c s ++ split_on c t.
Proof.
  intros c. induction s as [|a s IH]; intros t; cbn [append split_on]; [now rewrite Ascii.eqb_refl|].
  destruct (Ascii.eqb a c); [now rewrite IH|].
  rewrite IH. pose proof (split_on_nonempty c s) as N. destruct (split_on c s) as [|h r]; [congruence|]. reflexivity.
Qed.
Lemma split_app_slash : forall s t, split_slash (s ++ String slash t) = split_slash s ++ split_slash t.
Proof. intros. apply split_on_app. Qed.
Lemma contains_in : forall c s, contains_char c s = false <-> ~ In c (list_ascii_of_string s).
Proof.
  induction s as [|a s IH]; cbn; [tauto|]. rewrite orb_false_iff, IH. split.
  - intros [A B] [X|X]; [subst; now rewrite Ascii.eqb_refl in A|tauto].
  - intros N. split; [|tauto]. destruct (Ascii.eqb_spec a c) as [->|]; [|reflexivity]. exfalso. apply N. now left.
Qed.
Lemma split_name : forall n, file_name n -> split_slash n = [n].
Proof. intros n (_ & _ & _ & H). apply split_on_no_char. now apply contains_in. Qed.
Lemma slashed_join : forall ns, slashed ns = join_on slash ns.
Proof. induction ns as [|n ns IH]; [reflexivity|]. destruct ns; [reflexivity|]. cbn [slashed join_on] in *. now rewrite <- IH. Qed.
Lemma split_slashed : forall ns, ns <> [] -> Forall file_name ns -> split_slash (slashed ns) = ns.
Proof.
  intros ns N F. rewrite slashed_join. apply split_join_single; [exact N|]. eapply Forall_impl; [|exact F].
  intros a (_ & _ & _ & H). now apply contains_in.
Qed.
Lemma slashed_inj : forall a b, a <> [] -> b <> [] -> Forall file_name a -> Forall file_name b -> slashed a = slashed b -> a = b.
Proof. intros a b Na Nb Fa Fb E. rewrite <- (split_slashed a), <- (split_slashed b) by assumption. now rewrite E. Qed.
Lemma ends_cut : forall s, ends_slash s = true -> exists r, s = (r ++ "/")%string.
Proof.
  induction s as [|a s IH]; cbn; [discriminate|]. destruct s as [|b s].
  - intros E. apply Ascii.eqb_eq in E as ->. now exists "".
  - intros E. destruct (IH E) as (r & ->). now exists (String a r).
Qed.
Lemma name_no_slash : forall n, file_name n -> starts_slash n = false /\ ends_slash n = false /\ n <> "".
Proof.
  intros n (N & _ & _ & H). split; [|split; [|exact N]].
  - destruct n as [|a n]; [reflexivity|]. cbn. destruct (Ascii.eqb_spec a slash) as [->|]; [|reflexivity]. exfalso. apply H. now left.
  - destruct (ends_slash n) eqn:E; [|reflexivity]. apply ends_cut in E as (r & ->). exfalso. apply H.
    clear. induction r; cbn; [now left|now right].
Qed.
Lemma app_nil_s : forall s, (s ++ "")%string = s.
Proof. induction s; cbn; congruence. Qed.
Lemma app_empty_l : forall a b, (a ++ b)%string = "" -> a = "" /\ b = "".
Proof. intros [|x a] b E; [auto|discriminate]. Qed.

(** ** Walking down *)
Section Walk.
  Context {C : Type}.
  Implicit Types (fs e f : entry C).
  Lemma entry_app : forall a e b, entry_at e (a ++ b) = match entry_at e a with Some f => entry_at f b | None => None end.
  Proof. induction a as [|n a IH]; intros e b; [reflexivity|]. cbn. destruct e as [c|l]; [reflexivity|]. destruct (aget n l); [apply IH|reflexivity]. Qed.
  Lemma under_app : forall a e f b g, under e a f -> under f b g -> under e (a ++ b) g.
  Proof. induction 1; intros; cbn; [assumption|]. econstructor; eauto. Qed.
  Lemma aget_in : forall {V} (l : list (string * V)) n v, aget n l = Some v -> In (n, v) l.
  Proof. intros. now apply aget_Some_in. Qed.
  Lemma in_aget : forall {V} (l : list (string * V)) n v, NoDup (map fst l) -> In (n, v) l -> aget n l = Some v.
  Proof. intros. now apply aget_in_nodup. Qed.
  Lemma entry_under : forall ns e f, entry_at e ns = Some f -> under e ns f.
  Proof.
    induction ns as [|n ns IH]; cbn; intros e f E; [injection E as ->; constructor|].
    destruct e as [c|l]; [discriminate|]. destruct (aget n l) eqn:A; [|discriminate]. econstructor; [apply aget_in; eassumption|auto].
  Qed.
  Lemma fs_sub : forall fs ns f, file_system fs -> under fs ns f -> file_system f.
  Proof. intros fs ns f F U ms l V. apply (F (ns ++ ms)). eapply under_app; eauto. Qed.
  Lemma under_entry : forall ns e f, file_system e -> under e ns f -> entry_at e ns = Some f.
  Proof.
    induction ns as [|n ns IH]; intros e f F U; inversion U as [|l n0 e0 ns0 f0 I U1]; subst; [reflexivity|]. cbn.
    destruct (F [] l (U_here _)) as (ND & _). rewrite (in_aget l n e0 ND I). apply IH; [|assumption].
    eapply fs_sub; [exact F|]. econstructor; [exact I|constructor].
  Qed.
  Lemma under_names : forall ns e f, file_system e -> under e ns f -> Forall file_name ns.
  Proof.
    induction ns as [|n ns IH]; intros e f F U; [constructor|]. inversion U as [|l n0 e0 ns0 f0 I U1]; subst. constructor.
    - destruct (F [] l (U_here _)) as (_ & H). apply H, in_map_iff. exists (n, e0). auto.
    - eapply IH; [|eassumption]. eapply fs_sub; [exact F|]. econstructor; [eassumption|constructor].
  Qed.

  (** ** Resolution *)
  Lemma resolve_app : forall fs a loc b, resolve fs loc (a ++ b) = match resolve fs loc a with Some l => resolve fs l b | None => None end.
  Proof.
    induction a as [|n a IH]; intros loc b; [reflexivity|]. cbn. destruct (entry_at fs loc) as [[c|l]|]; try reflexivity.
    destruct (String.eqb n "" || String.eqb n "."); [apply IH|]. destruct (String.eqb n ".."); [apply IH|]. destruct (aget n l); [apply IH|reflexivity].
  Qed.
  Lemma resolve_names : forall fs ns loc, Forall file_name ns ->
    resolve fs loc ns = match ns with [] => Some loc | _ => match entry_at fs (loc ++ ns) with Some _ => Some (loc ++ ns) | None => None end end.
  Proof.
    induction ns as [|n ns IH]; intros loc F; [reflexivity|]. inversion F as [|? ? H F1]; subst. destruct H as (N1 & N2 & N3 & _). cbn [resolve].
    rewrite entry_app. cbn [entry_at]. destruct (entry_at fs loc) as [[c|l]|] eqn:E; try reflexivity.
    rewrite (proj2 (String.eqb_neq n "") N1), (proj2 (String.eqb_neq n ".") N2), (proj2 (String.eqb_neq n "..") N3). cbn [orb].
    destruct (aget n l) as [x|] eqn:A; [|reflexivity]. rewrite IH by assumption. destruct ns as [|m ns]; [reflexivity|].
    rewrite entry_app, entry_app. rewrite E. cbn [entry_at]. rewrite A. rewrite <- app_assoc. reflexivity.
  Qed.
  Definition start (cwd : list string) (p : string) : list string * list string :=
    match split_slash p with "" :: r => ([], r) | parts => (cwd, parts) end.
  Lemma os_start : forall fs cwd p, p <> "" -> os_path fs cwd p = resolve fs (fst (start cwd p)) (snd (start cwd p)).
  Proof.
    intros fs cwd p N. unfold os_path, start. rewrite (proj2 (String.eqb_neq _ _) N).
    destruct (split_slash p) as [|h t]; [reflexivity|]. destruct h; reflexivity.
  Qed.
  Lemma start_app : forall cwd s t, start cwd (s ++ String slash t) = (fst (start cwd s), snd (start cwd s) ++ split_slash t).
  Proof.
    intros cwd s t. unfold start. rewrite split_app_slash. pose proof (split_on_nonempty slash s) as N. fold (split_slash s) in N.
    destruct (split_slash s) as [|h r]; [congruence|]. cbn. destruct h; reflexivity.
  Qed.
  Lemma resolve_dir : forall fs loc, resolve fs loc [""] = match entry_at fs loc with Some (Dir _) => Some loc | _ => None end.
  Proof. intros. cbn. destruct (entry_at fs loc) as [[]|]; reflexivity. Qed.
  Lemma resolve_needs : forall fs loc parts, parts <> [] -> (forall l, entry_at fs loc <> Some (Dir l)) -> resolve fs loc parts = None.
  Proof. intros fs loc [|n r] N H; [congruence|]. cbn. destruct (entry_at fs loc) as [[c|l]|]; try reflexivity. exfalso. now apply (H l). Qed.
  (** A path joined to a root goes on from where the root leads. *)
  Lemma os_join : forall fs cwd root key, root <> "" -> starts_slash key = false ->
    os_path fs cwd (join_path root key) = match os_path fs cwd root with Some loc => resolve fs loc (split_slash key) | None => None end.
  Proof.
    intros fs cwd root key N S. unfold join_path. rewrite S, (proj2 (String.eqb_neq _ _) N). cbn [orb].
    assert (Sk : split_slash key <> []) by apply split_on_nonempty.
    destruct (ends_slash root) eqn:E.
    - apply ends_cut in E as (r & ->). assert (X : ((r ++ "/") ++ key)%string = (r ++ String slash key)%string).
      { clear. induction r; cbn; [reflexivity|now rewrite IHr]. }
      rewrite X. rewrite !os_start by (intros Z; apply app_empty_l in Z as (_ & Z); discriminate). rewrite start_app.
      change (r ++ "/")%string with (r ++ String slash "")%string. rewrite start_app. cbn [fst snd]. rewrite !resolve_app.
      destruct (resolve fs (fst (start cwd r)) (snd (start cwd r))) as [loc|]; [|reflexivity]. change (split_slash "") with [""]. rewrite resolve_dir.
      destruct (entry_at fs loc) as [[c|l]|] eqn:A; try reflexivity; (apply resolve_needs; [exact Sk|intros l0 Z; rewrite A in Z; discriminate]).
    - rewrite !os_start; [|exact N|intros Z; apply app_empty_l in Z as (Z & _); contradiction]. rewrite start_app. cbn [fst snd]. apply resolve_app.
  Qed.

  (** Without two dots, resolution goes down by some of the parts. *)
  Lemma resolve_down : forall fs parts loc loc1, ~ In ".." parts -> resolve fs loc parts = Some loc1 -> exists ns, loc1 = loc ++ ns /\ incl ns parts.
  Proof.
    induction parts as [|n r IH]; intros loc loc1 N E; cbn in E.
    - injection E as <-. exists []. rewrite app_nil_r. split; [reflexivity|intros x []].
    - destruct (entry_at fs loc) as [[c|l]|]; try discriminate E. destruct (String.eqb n "" || String.eqb n ".").
      + apply IH in E as (ns & -> & I); [|intros Z; apply N; now right]. exists ns. split; [reflexivity|]. intros x X. right. auto.
      + destruct (String.eqb_spec n "..") as [->|]; [exfalso; apply N; now left|]. destruct (aget n l); [|discriminate].
        apply IH in E as (ns & -> & I); [|intros Z; apply N; now right]. exists (n :: ns). rewrite <- app_assoc. split; [reflexivity|].
        intros x [<-|X]; [now left|right; auto].
  Qed.
  Lemma resolve_exists : forall fs parts loc loc1, entry_at fs loc <> None -> resolve fs loc parts = Some loc1 -> entry_at fs loc1 <> None.
  Proof.
    induction parts as [|n r IH]; intros loc loc1 N E; cbn in E; [injection E as <-; exact N|].
    destruct (entry_at fs loc) as [[c|l]|] eqn:A; try discriminate E. destruct (String.eqb n "" || String.eqb n "."); [eapply IH; [|exact E]; rewrite A; discriminate|].
    destruct (String.eqb n "..").
    - eapply IH; [|exact E]. destruct loc as [|x loc] using rev_ind; [cbn; discriminate|]. clear IHloc. rewrite removelast_last. rewrite entry_app in A.
      destruct (entry_at fs loc); discriminate.
    - destruct (aget n l) eqn:B; [|discriminate]. eapply IH; [|exact E]. rewrite entry_app, A. cbn. rewrite B. discriminate.
  Qed.

  (** ** Components *)
  Definition regular (n : string) : bool := negb (special n).
  Lemma name_regular : forall n, file_name n -> regular n = true.
  Proof. intros n (A & B & _). unfold regular, special. now rewrite (proj2 (String.eqb_neq _ _) A), (proj2 (String.eqb_neq _ _) B). Qed.
  Lemma components_split : forall p, p <> "" -> components p =
    match split_slash p with
    | "" :: r => (true, filter regular r)
    | "." :: r => (false, "." :: filter regular r)
    | parts => (false, filter regular parts)
    end.
  Proof. intros p N. unfold components. now rewrite (proj2 (String.eqb_neq _ _) N). Qed.
  Lemma comps_app : forall s t, s <> "" -> components (s ++ String slash t) = (fst (components s), snd (components s) ++ filter regular (split_slash t)).
  Proof.
    intros s t N. rewrite !components_split; [|exact N|intros Z; apply app_empty_l in Z as (Z & _); contradiction]. rewrite split_app_slash.
    pose proof (split_on_nonempty slash s) as M. fold (split_slash s) in M. destruct (split_slash s) as [|h r]; [congruence|].
    cbn [app]. destruct h as [|a h]; [cbn [fst snd]; now rewrite filter_app|].
    destruct (Ascii.eqb_spec a "."%char) as [->|Na].
    - destruct h; cbn [fst snd]; rewrite ?app_comm_cons, filter_app; reflexivity.
    - destruct a as [[] [] [] [] [] [] [] []]; try (now exfalso; apply Na); cbn [fst snd]; rewrite app_comm_cons, filter_app; reflexivity.
  Qed.
  Lemma comps_join : forall p n, p <> "" -> file_name n -> components (join_path p n) = (fst (components p), snd (components p) ++ [n]).
  Proof.
    intros p n N F. destruct (name_no_slash n F) as (A & _ & _). unfold join_path. rewrite A, (proj2 (String.eqb_neq _ _) N). cbn [orb].
    assert (R : filter regular (split_slash n) = [n]). { rewrite (split_name n F). cbn. now rewrite (name_regular n F). }
    destruct (ends_slash p) eqn:E; [|rewrite comps_app by exact N; now rewrite R].
    apply ends_cut in E as (r & ->). assert (X : ((r ++ "/") ++ n)%string = (r ++ String slash n)%string). { clear. induction r; cbn; [reflexivity|now rewrite IHr]. }
    rewrite X. destruct r as [|a r].
    - cbn [append]. rewrite components_split by discriminate. change (split_slash (String slash n)) with ("" :: split_slash n). cbv iota beta. rewrite R. reflexivity.
    - rewrite comps_app by discriminate. change (String a r ++ "/")%string with (String a r ++ String slash "")%string. rewrite comps_app by discriminate.
      cbn [fst snd]. rewrite R. change (filter regular (split_slash "")) with (@nil string). now rewrite app_nil_r.
  Qed.
  Definition path_of (root : string) (ns : list string) : string := fold_left join_path ns root.
  Lemma join_ne : forall p n, p <> "" -> join_path p n <> "".
  Proof.
    intros p n N E. unfold join_path in E. destruct (starts_slash n) eqn:S; [subst; discriminate|]. destruct (String.eqb p "" || ends_slash p); apply app_empty_l in E as (E & _); contradiction.
  Qed.
  Lemma path_of_ne : forall ns root, root <> "" -> path_of root ns <> "".
  Proof. induction ns as [|n ns IH]; intros root N; [exact N|]. apply IH, join_ne, N. Qed.
  Lemma path_of_snoc : forall root ns n, path_of root (ns ++ [n]) = join_path (path_of root ns) n.
  Proof. intros. unfold path_of. now rewrite fold_left_app. Qed.
  Lemma path_of_comps : forall ns root, root <> "" -> Forall file_name ns -> components (path_of root ns) = (fst (components root), snd (components root) ++ ns).
  Proof.
    induction ns as [|n ns IH] using rev_ind; intros root N F.
    - cbn. rewrite app_nil_r. now destruct (components root).
    - apply Forall_app in F as (F1 & F2). inversion F2; subst. rewrite path_of_snoc, comps_join by (auto using path_of_ne). rewrite IH by assumption. cbn [fst snd]. now rewrite app_assoc.
  Qed.
  Lemma strip_self : forall a b, strip_list a (a ++ b) = Some b.
  Proof. induction a as [|x a IH]; intros b; cbn; [reflexivity|]. now rewrite String.eqb_refl. Qed.
  Lemma key_of_path : forall root ns, root <> "" -> Forall file_name ns -> key_of root (path_of root ns) = Some (slashed ns).
  Proof. intros root ns N F. unfold key_of, strip_prefix. rewrite path_of_comps by assumption. cbn [fst snd]. rewrite Bool.eqb_reflx, strip_self. cbn. now rewrite slashed_join. Qed.
  Lemma os_path_of : forall fs cwd root loc ns e, root <> "" -> os_path fs cwd root = Some loc -> Forall file_name ns -> entry_at fs (loc ++ ns) = Some e ->
    os_path fs cwd (path_of root ns) = Some (loc ++ ns).
  Proof.
    intros fs cwd root loc ns e N E. revert e. induction ns as [|n ns IH] using rev_ind; intros e F A; [now rewrite app_nil_r|].
    apply Forall_app in F as (F1 & F2). inversion F2 as [|? ? Fn _]; subst. rewrite path_of_snoc.
    rewrite os_join; [|now apply path_of_ne|apply (name_no_slash n Fn)]. rewrite app_assoc in A. pose proof A as A1. rewrite entry_app in A1.
    destruct (entry_at fs (loc ++ ns)) as [x|] eqn:B; [|discriminate]. rewrite (IH x F1 eq_refl). rewrite (split_name n Fn), resolve_names by (constructor; auto).
    rewrite A. now rewrite app_assoc.
  Qed.
End Walk.

(** ** Extensions *)
Lemma cut_dot_spec : forall s b a, cut_dot s = Some (b, a) -> s = (b ++ "." ++ a)%string /\ cut_dot a = None.
Proof.
  induction s as [|c s IH]; cbn; intros b a E; [discriminate|]. destruct (cut_dot s) as [[b0 a0]|] eqn:D.
  - injection E as <- <-. destruct (IH b0 a0 eq_refl) as (-> & X). auto.
  - destruct (Ascii.eqb_spec c dot_char) as [->|]; [|discriminate]. injection E as <- <-. auto.
Qed.
Lemma cut_dot_app : forall b a, cut_dot a = None -> cut_dot (b ++ "." ++ a) = Some (b, a).
Proof.
  induction b as [|c b IH]; intros a N; cbn.
  - now rewrite N.
  - cbn in IH. now rewrite (IH a N).
Qed.
Lemma extension_json : forall n, extension n = Some "json" <-> json_name n.
Proof.
  intros n. unfold extension, json_name. split.
  - destruct (cut_dot n) as [[b a]|] eqn:E; [|discriminate]. destruct b as [|c b]; [discriminate|]. intros X. injection X as ->.
    apply cut_dot_spec in E as (-> & _). exists (String c b). split; [discriminate|reflexivity].
  - intros (b & N & ->). change (b ++ ".json")%string with (b ++ "." ++ "json")%string. rewrite cut_dot_app by reflexivity. destruct b; [contradiction|reflexivity].
Qed.

(** ** The listing *)
Section Listing.
  Context {C : Type}.
  Implicit Types (fs e f : entry C).
  Fixpoint entry_ind' (P : entry C -> Prop) (HF : forall c, P (File c)) (HD : forall l, Forall (fun kv => P (snd kv)) l -> P (Dir l)) (e : entry C) : P e :=
    match e with
    | File c => HF c
    | Dir l => HD l ((fix go (l : list (string * entry C)) : Forall (fun kv => P (snd kv)) l :=
                        match l with [] => Forall_nil _ | kv :: r => Forall_cons kv (entry_ind' P HF HD (snd kv)) (go r) end) l)
    end.
  Definition jsonb (n : string) : bool := match extension n with Some "json" => true | _ => false end.
  Lemma jsonb_spec : forall n, jsonb n = true <-> json_name n.
  Proof.
    intros n. rewrite <- extension_json. unfold jsonb. destruct (extension n) as [x|]; [|split; discriminate]. split.
    - intros E. f_equal. destruct (String.eqb_spec x "json") as [->|N]; [reflexivity|]. exfalso.
      repeat (match goal with H : context [match ?y with _ => _ end] |- _ => destruct y; try discriminate H end). now apply N.
    - intros E. injection E as ->. reflexivity.
  Qed.
  Lemma json_match : forall {A} n (a b : A), match extension n with Some "json" => a | _ => b end = if jsonb n then a else b.
  Proof.
    intros A n a b. unfold jsonb. destruct (extension n) as [x|]; [|reflexivity].
    repeat (match goal with |- context [match ?y with _ => _ end] => is_var y; destruct y; try reflexivity end).
  Qed.
  Fixpoint listed (e : entry C) : list (list string) :=
    match e with
    | File _ => []
    | Dir l => flat_map (fun kv => match snd kv with
                                   | Dir _ => map (cons (fst kv)) (listed (snd kv))
                                   | File _ => if jsonb (fst kv) then [[fst kv]] else []
                                   end) l
    end.
  Lemma listed_in : forall e ns, In ns (listed e) <-> exists ms n c, ns = ms ++ [n] /\ json_name n /\ under e ns (File c).
  Proof.
    induction e as [c|l IH] using entry_ind'; intros ns.
    - split; [intros []|]. intros (ms & n & c0 & -> & _ & U). destruct ms; inversion U.
    - cbn [listed]. rewrite in_flat_map. split.
      + intros ([n e] & I & H). cbn [fst snd] in H. destruct e as [c|l1].
        * destruct (jsonb n) eqn:J; [|destruct H]. destruct H as [<-|[]]. exists [], n, c. split; [reflexivity|]. split; [now apply jsonb_spec|].
          econstructor; [exact I|constructor].
        * apply in_map_iff in H as (r & <- & H). rewrite Forall_forall in IH. apply (IH _ I) in H as (ms & m & c & -> & J & U).
          exists (n :: ms), m, c. split; [reflexivity|]. split; [exact J|]. econstructor; [exact I|exact U].
      + intros (ms & m & c & -> & J & U). destruct ms as [|x ms]; cbn [app] in *; inversion U as [|l0 n e ns1 f I U1]; subst.
        * inversion U1; subst. exists (m, File c). split; [exact I|]. cbn [fst snd]. rewrite (proj2 (jsonb_spec m) J). now left.
        * exists (x, e). split; [exact I|]. cbn [fst snd]. destruct e as [c1|l1]; [destruct ms; inversion U1|]. apply in_map_iff. eexists. split; [reflexivity|].
          rewrite Forall_forall in IH. apply (IH _ I). exists ms, m, c. auto.
  Qed.
  Lemma listed_nodup : forall e, file_system e -> NoDup (listed e).
  Proof.
    induction e as [c|l IH] using entry_ind'; intros F; [constructor|]. destruct (F [] l (U_here _)) as (ND & _).
    assert (FS : forall kv, In kv l -> file_system (snd kv)). { intros [n e] I. eapply fs_sub; [exact F|]. econstructor; [exact I|constructor]. }
    clear F. cbn [listed]. induction l as [|[n e] l IHl]; [constructor|]. inversion IH as [|? ? He IH1]; subst. inversion ND as [|? ? Nn ND1]; subst. cbn [flat_map fst snd] in *.
    assert (X : forall a b : list (list string), NoDup a -> NoDup b -> (forall x, In x a -> ~ In x b) -> NoDup (a ++ b)).
    { induction a as [|x a IHa]; intros b Na Nb D; [exact Nb|]. inversion Na; subst. cbn. constructor.
      - rewrite in_app_iff. intros [Z|Z]; [contradiction|]. apply (D x); [now left|exact Z].
      - apply IHa; auto. intros y Y. apply D. now right. }
    apply X.
    - destruct e as [c|l1]; [destruct (jsonb n); repeat constructor; intros []|]. apply FinFun.Injective_map_NoDup; [intros x y E; now injection E|].
      apply He. apply (FS (n, Dir l1)). now left.
    - apply IHl; auto. intros kv I. apply FS. now right.
    - intros x A B. assert (H1 : exists r, x = n :: r).
      { destruct e as [c|l1]; [destruct (jsonb n); [|destruct A]; destruct A as [<-|[]]; now exists []|]. apply in_map_iff in A as (r & <- & _). now exists r. }
      destruct H1 as (r & ->). apply in_flat_map in B as ([m e1] & I & B). cbn [fst snd] in B.
      assert (m = n). { destruct e1 as [c|l1]; [destruct (jsonb m); [|destruct B]; destruct B as [B|[]]; now injection B|]. apply in_map_iff in B as (r1 & B & _). now injection B. }
      subst. apply Nn, in_map_iff. exists (n, e1). auto.
  Qed.

  Variable (fs : entry C) (cwd : list string) (root : string) (loc : list string).
  Hypothesis FSY : file_system fs.
  Hypothesis RN : root <> "".
  Hypothesis RL : os_path fs cwd root = Some loc.
  Definition place (d : list string * entry C) : Prop := entry_at fs (loc ++ fst d) = Some (snd d) /\ Forall file_name (fst d) /\ exists l, snd d = Dir l.
  Definition subdirs (ds : list string) (l : list (string * entry C)) : list (list string * entry C) :=
    flat_map (fun kv => match snd kv with Dir _ => [(ds ++ [fst kv], snd kv)] | File _ => [] end) l.
  Definition subkeys (ds : list string) (l : list (string * entry C)) : list (list string) :=
    flat_map (fun kv => match snd kv with Dir _ => [] | File _ => if jsonb (fst kv) then [ds ++ [fst kv]] else [] end) l.
  Lemma place_entry : forall ds, entry_at fs (loc ++ ds) <> None -> Forall file_name ds -> os_entry fs cwd (path_of root ds) = entry_at fs (loc ++ ds).
  Proof. intros ds E F. unfold os_entry. destruct (entry_at fs (loc ++ ds)) eqn:A; [|congruence]. now rewrite (os_path_of fs cwd root loc ds e RN RL F A). Qed.
  Lemma scan_spec : forall ds l, place (ds, Dir l) -> forall l1, incl l1 l -> forall st keys,
    scan fs cwd root (path_of root ds) (map fst l1) st keys = (map (fun d => path_of root (fst d)) (rev (subdirs ds l1)) ++ st, keys ++ map slashed (subkeys ds l1)).
  Proof.
    intros ds l (A & B & _) l1. cbn [fst snd] in A, B. induction l1 as [|[n e] l1 IH]; intros I st keys; [cbn; now rewrite app_nil_r|].
    assert (In_ : In (n, e) l) by (apply I; now left). assert (I1 : incl l1 l) by (intros x X; apply I; now right).
    assert (U : under fs (loc ++ ds) (Dir l)) by now apply entry_under. destruct (FSY _ _ U) as (ND & NM).
    assert (Fn : file_name n). { apply NM, in_map_iff. exists (n, e). auto. }
    assert (E1 : entry_at fs (loc ++ ds ++ [n]) = Some e). { rewrite app_assoc, entry_app, A. cbn. now rewrite (in_aget l n e ND In_). }
    assert (F1 : Forall file_name (ds ++ [n])) by (apply Forall_app; auto).
    cbn [map fst scan]. rewrite <- path_of_snoc. unfold is_dir. rewrite place_entry; [|rewrite E1; discriminate|exact F1]. rewrite E1. rewrite json_match.
    rewrite key_of_path by assumption. unfold subdirs, subkeys. cbn [flat_map fst snd]. fold (subdirs ds l1) (subkeys ds l1). destruct e as [c|l2].
    - destruct (jsonb n); rewrite IH by exact I1; cbn [app map]; rewrite <- ?app_assoc; reflexivity.
    - rewrite IH by exact I1. cbn [app rev map]. rewrite map_app, <- app_assoc. reflexivity.
  Qed.
  Definition found (d : list string * entry C) : list (list string) := map (app (fst d)) (listed (snd d)).
  Lemma found_split : forall ds l, Permutation (found (ds, Dir l)) (subkeys ds l ++ flat_map found (rev (subdirs ds l))).
  Proof.
    intros ds l. unfold found at 1. cbn [fst snd listed]. eapply perm_trans.
    2:{ apply Permutation_app_head. apply Permutation_flat_map, Permutation_rev. }
    induction l as [|[n e] l IH]; [constructor|]. cbn [flat_map fst snd]. rewrite map_app. unfold subkeys, subdirs. cbn [flat_map fst snd]. fold (subkeys ds l) (subdirs ds l). destruct e as [c|l1].
    - rewrite <- app_assoc. apply Permutation_app; [|exact IH]. destruct (jsonb n); reflexivity.
    - cbn [app flat_map]. eapply perm_trans; [apply Permutation_app_head, IH|]. rewrite map_map.
      assert (E : map (fun x => ds ++ n :: x) (listed (Dir l1)) = found (ds ++ [n], Dir l1)). { unfold found. cbn [fst snd]. apply map_ext. intros. now rewrite <- app_assoc. }
      rewrite E. rewrite !app_assoc. apply Permutation_app_tail. apply Permutation_app_comm.
  Qed.
  Definition weight (dss : list (list string * entry C)) : nat := fold_right (fun d n => entries (snd d) + n) 0 dss.
  Lemma weight_app : forall a b, weight (a ++ b) = weight a + weight b.
  Proof. induction a as [|x a IH]; intros b; cbn; [reflexivity|]. fold (weight (a ++ b)) (weight a). rewrite IH. lia. Qed.
  Lemma weight_rev : forall a, weight (rev a) = weight a.
  Proof. induction a as [|x a IH]; cbn [rev]; [reflexivity|]. rewrite weight_app, IH. cbn. fold (weight a). lia. Qed.
  Lemma weight_sub : forall ds l, weight (subdirs ds l) < entries (Dir l).
  Proof.
    intros ds l. cbn [entries]. apply Nat.lt_succ_r. induction l as [|[n e] l IH]; [cbn; lia|]. unfold subdirs. cbn [flat_map fold_right fst snd]. fold (subdirs ds l). rewrite weight_app.
    destruct e; cbn [weight fold_right snd]; lia.
  Qed.
  Lemma walk_spec : forall n dss keys, Forall place dss -> weight dss < n ->
    Permutation (keys_walk fs cwd root n (map (fun d => path_of root (fst d)) dss) keys) (keys ++ map slashed (flat_map found dss)).
  Proof.
    induction n as [|n IH]; intros dss keys F W; [lia|]. destruct dss as [|[ds e] dss]; [cbn; rewrite app_nil_r; reflexivity|].
    inversion F as [|? ? P F1]; subst. pose proof P as (A & B & (l & E)). cbn [fst snd] in A, B, E. subst e. cbn [map fst keys_walk].
    rewrite place_entry; [|rewrite A; discriminate|exact B]. rewrite A. rewrite (scan_spec ds l P l (incl_refl _)). rewrite <- map_app.
    eapply perm_trans; [apply IH|].
    - apply Forall_app. split; [|exact F1]. apply Forall_rev. apply Forall_forall. intros d I. unfold subdirs in I. apply in_flat_map in I as ([m e] & I & J). cbn [fst snd] in J.
      destruct e as [c|l2]; [destruct J|]. destruct J as [<-|[]]. assert (U : under fs (loc ++ ds) (Dir l)) by now apply entry_under. destruct (FSY _ _ U) as (ND & NM).
      split; [|split]; cbn [fst snd].
      + rewrite app_assoc, entry_app, A. cbn. now rewrite (in_aget l m _ ND I).
      + apply Forall_app. split; [exact B|]. constructor; [|constructor]. apply NM, in_map_iff. exists (m, Dir l2). auto.
      + eauto.
    - rewrite weight_app, weight_rev. pose proof (weight_sub ds l). unfold weight in W. cbn [fold_right snd] in W. fold (weight dss) in W. lia.
    - rewrite <- app_assoc. apply Permutation_app_head. rewrite <- map_app. apply Permutation_map. rewrite flat_map_app, app_assoc. cbn [flat_map]. apply Permutation_app_tail. symmetry. apply found_split.
  Qed.
End Listing.
Lemma entries_under : forall {C} ns (e f : entry C), under e ns f -> entries f <= entries e.
Proof.
  induction 1 as [|l n e ns f I U IH]; [lia|]. cbn [entries]. assert (entries e <= fold_right (fun kv n => entries (snd kv) + n) 0 l); [|lia].
  clear - I. induction l as [|kv l IHl]; [destruct I|]. cbn. destruct I as [->|I]; cbn; [lia|]. apply IHl in I. lia.
Qed.
