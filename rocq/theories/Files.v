(** * The loader that reads decisions from a directory (loader/filesystem.rs)

    The file system is a tree of named entries without links; a file holds what
    [serde_json::from_reader] makes of it ([None]: it is not a decision).  Paths are text;
    the operating system resolves them part by part.  Names are those that are text. *)
From Coq Require Import String Ascii List Arith Bool.
Import ListNotations.
From Verif Require Import Base.
Local Open Scope string_scope.
Local Open Scope nat_scope.
Local Open Scope list_scope.

Section Files.
  Context {C : Type}.
  Inductive entry := File (c : option C) | Dir (l : list (string * entry)).

  (** What the operating system finds under names that are not special. *)
  Fixpoint entry_at (e : entry) (ns : list string) : option entry :=
    match ns with
    | [] => Some e
    | n :: r => match e with
                | Dir l => match aget n l with Some e1 => entry_at e1 r | None => None end
                | File _ => None
                end
    end.
  Definition slash : ascii := "/"%char.
  Definition split_slash (s : string) : list string := split_on slash s.
  (** Path resolution of the operating system: from the directory at [loc], part by part. *)
  Fixpoint resolve (fs : entry) (loc parts : list string) : option (list string) :=
    match parts with
    | [] => Some loc
    | n :: r =>
        match entry_at fs loc with
        | Some (Dir l) =>
            if String.eqb n "" || String.eqb n "." then resolve fs loc r
            else if String.eqb n ".." then resolve fs (removelast loc) r
            else match aget n l with Some _ => resolve fs (loc ++ [n]) r | None => None end
        | _ => None
        end
    end.
  Definition os_path (fs : entry) (cwd : list string) (p : string) : option (list string) :=
    if String.eqb p "" then None
    else match split_slash p with
         | "" :: r => resolve fs [] r
         | parts => resolve fs cwd parts
         end.
  Definition os_entry (fs : entry) (cwd : list string) (p : string) : option entry :=
    match os_path fs cwd p with Some loc => entry_at fs loc | None => None end.

  Definition starts_slash (s : string) : bool := match s with String c _ => Ascii.eqb c slash | EmptyString => false end.
  Fixpoint ends_slash (s : string) : bool :=
    match s with EmptyString => false | String c EmptyString => Ascii.eqb c slash | String _ r => ends_slash r end.
  (** std [Path::join] on Unix. *)
  Definition join_path (p q : string) : string :=
    if starts_slash q then q
    else if String.eqb p "" || ends_slash p then (p ++ q)%string
    else (p ++ String slash q)%string.

  (** std [Path::components]: whether the path is absolute, and its parts; only a leading dot is kept. *)
  Definition special (n : string) : bool := String.eqb n "" || String.eqb n ".".
  Definition components (p : string) : bool * list string :=
    if String.eqb p "" then (false, [])
    else match split_slash p with
         | "" :: r => (true, filter (fun n => negb (special n)) r)
         | "." :: r => (false, "." :: filter (fun n => negb (special n)) r)
         | parts => (false, filter (fun n => negb (special n)) parts)
         end.
  Fixpoint strip_list (a p : list string) : option (list string) :=
    match a, p with
    | [], _ => Some p
    | x :: a, y :: p => if String.eqb x y then strip_list a p else None
    | _ :: _, [] => None
    end.
  (** std [Path::strip_prefix], then the parts of what is left. *)
  Definition strip_prefix (p root : string) : option (list string) :=
    if Bool.eqb (fst (components p)) (fst (components root)) then strip_list (snd (components root)) (snd (components p)) else None.

  (** std [Path::extension] of a name. *)
  Fixpoint cut_dot (s : string) : option (string * string) :=
    match s with
    | EmptyString => None
    | String c r => match cut_dot r with
                    | Some (b, a) => Some (String c b, a)
                    | None => if Ascii.eqb c dot_char then Some (EmptyString, r) else None
                    end
    end.
  Definition extension (n : string) : option string :=
    match cut_dot n with Some (EmptyString, _) => None | Some (_, a) => Some a | None => None end.

  (** loader/mod.rs:47-57 [LoaderError]. *)
  Inductive loaded := Found (c : C) | NotFound | Internal.
  (** filesystem.rs:34-36 [key_to_path], 38-58 [read_content], 61-70 [load], [load_sync].  A directory can be opened, but reading it fails. *)
  Definition fload (fs : entry) (cwd : list string) (root key : string) : loaded :=
    match os_entry fs cwd (join_path root key) with
    | None => NotFound
    | Some (Dir _) => Internal
    | Some (File None) => Internal
    | Some (File (Some c)) => Found c
    end.

  (** 72-98 [keys]: the entries of one directory; directories go on the stack. *)
  Definition is_dir (fs : entry) (cwd : list string) (p : string) : bool :=
    match os_entry fs cwd p with Some (Dir _) => true | _ => false end.
  Definition key_of (root p : string) : option string := option_map (join_on slash) (strip_prefix p root).
  Fixpoint scan (fs : entry) (cwd : list string) (root dir : string) (l : list string) (stack keys : list string) : list string * list string :=
    match l with
    | [] => (stack, keys)
    | n :: r =>
        let p := join_path dir n in
        if is_dir fs cwd p then scan fs cwd root dir r (p :: stack) keys
        else match extension n with
             | Some "json" => scan fs cwd root dir r stack (match key_of root p with Some k => keys ++ [k] | None => keys end)
             | _ => scan fs cwd root dir r stack keys
             end
    end.
  Fixpoint keys_walk (fs : entry) (cwd : list string) (root : string) (n : nat) (stack keys : list string) : list string :=
    match n with
    | 0 => keys
    | S n =>
        match stack with
        | [] => keys
        | dir :: st =>
            match os_entry fs cwd dir with
            | Some (Dir l) => let (st1, k1) := scan fs cwd root dir (map fst l) st keys in keys_walk fs cwd root n st1 k1
            | _ => keys_walk fs cwd root n st keys
            end
        end
    end.
  (** The number of entries bounds the number of directories visited. *)
  Fixpoint entries (e : entry) : nat :=
    match e with File _ => 1 | Dir l => S (fold_right (fun kv n => entries (snd kv) + n) 0 l) end.
  Definition fkeys (fs : entry) (cwd : list string) (root : string) : list string := keys_walk fs cwd root (S (entries fs)) [root] [].
End Files.
Arguments entry : clear implicits.
Arguments loaded : clear implicits.
