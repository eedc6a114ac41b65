(** The patching compiler is compositional: it appends a code block that does not depend on what was
    emitted before. Proof helper for the simulation (VmFacts.v). *)
From Coq Require Import String Ascii ZArith Lia Bool List Arith.
From Verif Require Import Base Dec Value Heap Ast Ops Compiler.
Import ListNotations.
Local Open Scope nat_scope.

Definition rconcat {A} (f : A -> res (list opcode)) :=
  fix go (l : list A) : res (list opcode) :=
    match l with
    | [] => Ok []
    | x :: r => do a <- f x; do b <- go r; Ok (a ++ b)
    end.

Definition loop_code (b : list opcode) : list opcode :=
  OJump JIfEnd (length b + 2) :: b ++ [OIncIt; OJump JBackward (length b + 3)].
Definition cond_code (b : list opcode) : list opcode :=
  OJump JIfFalse (length b + 2) :: OPop :: b ++ [OJump JForward 1; OPop].

(** What follows the compiled first argument, given the compiled body. *)
Definition closure_code (c : closure) (b : list opcode) : list opcode :=
  OBegin ::
  match c with
  | ClAll => loop_code (b ++ [OJump JIfFalse 4; OPop]) ++ [PushBool true; OEnd]
  | ClNone => loop_code (b ++ [ONot; OJump JIfFalse 4; OPop]) ++ [PushBool true; OEnd]
  | ClSome => loop_code (b ++ [OJump JIfTrue 4; OPop]) ++ [PushBool false; OEnd]
  | ClOne => loop_code (b ++ cond_code [OIncCount]) ++ [OGetCount; PushNumber dec_one; OEqual; OEnd]
  | ClFilter => loop_code (b ++ cond_code [OIncCount; OPointer 0]) ++ [OGetCount; OEnd; OArray]
  | ClMap => loop_code b ++ [OGetLen; OEnd; OArray]
  | ClFlatMap => loop_code b ++ [OGetLen; OEnd; OArray; OFlatten]
  | ClCount => loop_code (b ++ cond_code [OIncCount]) ++ [OGetCount; OEnd]
  end.

Section WithExt.
  Variable X : ext.

  Fixpoint cgen (al : list (option string)) (n : node) {struct n} : res (list opcode) :=
    match n with
    | NNull => Ok [PushNull]
    | NBool v => Ok [PushBool v]
    | NNumber v => Ok [PushNumber v]
    | NString v => Ok [PushString v]
    | NPointer => Ok [OPointer 0]
    | NRoot => Ok [OFetchRootEnv]
    | NArray v =>
        do c <- rconcat (cgen al) v;
        Ok (c ++ [PushNumber (dec_of_nat (length v)); OArray])
    | NObject v =>
        do c <- rconcat (fun kx =>
                  do a <- cgen al (fst kx); do b <- cgen al (snd kx);
                  Ok (a ++ call_string :: b)) v;
        Ok (c ++ [PushNumber (dec_of_nat (length v)); OObject])
    | NAssign items output =>
        do c <- rconcat (fun kx =>
                  do a <- cgen al (fst kx); do b <- cgen al (snd kx);
                  Ok (a ++ b ++ [OAssignStep])) items;
        do o <- match output with Some o => cgen al o | None => Ok [] end;
        Ok (OAssignBegin :: c ++ o ++
            [OAssignEnd (match output with Some _ => true | None => false end)])
    | NIdent v =>
        Ok [match lookup_alias al v with Some d => OPointer d | None => OFetchEnv v end]
    | NClosure body alias => cgen (alias :: al) body
    | NParen v => cgen al v
    | NMember a p =>
        match compile_member_fast al n with
        | Some path => Ok [OFetchFast path]
        | None => do x <- cgen al a; do y <- cgen al p; Ok (x ++ y ++ [OFetch])
        end
    | NTemplate parts =>
        do c <- rconcat (fun x => do a <- cgen al x; Ok (a ++ [call_string])) parts;
        Ok (c ++ [PushNumber (dec_of_nat (length parts)); OArray; PushString ""; OJoin])
    | NSlice x from to =>
        do a <- cgen al x;
        do t <- match to with
                | Some t => cgen al t
                | None => Ok [OLen; PushNumber dec_one; OSubtract]
                end;
        do f <- match from with Some f => cgen al f | None => Ok [PushNumber dec_zero] end;
        Ok (a ++ t ++ f ++ [OSlice])
    | NInterval l r lb rb =>
        do a <- cgen al l; do b <- cgen al r; Ok (a ++ b ++ [OInterval lb rb])
    | NCond c t f =>
        do cc <- cgen al c; do ct <- cgen al t; do cf <- cgen al f;
        Ok (cc ++ OJump JIfFalse (length ct + 2) :: OPop :: ct ++
            OJump JForward (length cf + 1) :: OPop :: cf)
    | NUnary x op =>
        do a <- cgen al x;
        match op with
        | OpArith AAdd => Ok a
        | OpArith ASub => Ok (a ++ [ONegate])
        | OpLogic LNot => Ok (a ++ [ONot])
        | _ => Err (EOp "UnknownUnaryOperator")
        end
    | NBinary l op r =>
        match simple_binop op, short_binop op with
        | Some ops, _ => do a <- cgen al l; do b <- cgen al r; Ok (a ++ b ++ ops)
        | None, Some j =>
            do a <- cgen al l; do b <- cgen al r;
            Ok (a ++ OJump j (length b + 1) :: OPop :: b)
        | None, None => Err unknown_bin
        end
    | NCall k args =>
        match k with
        | FClosure c =>
            match args with
            | a0 :: a1 :: _ =>
                do x <- cgen al a0; do b <- cgen al a1; Ok (x ++ closure_code c b)
            | a0 :: _ => do _ <- cgen al a0; Err (EOp "ArgumentNotFound")
            | [] => Err (EOp "ArgumentNotFound")
            end
        | _ =>
            match x_arity X k with
            | None => Err (EOp "UnknownFunction")
            | Some b =>
                if arity_ok b (length args) then
                  do c <- rconcat (cgen al) args; Ok (c ++ [OCallFunction k (length args)])
                else Err (EOp "InvalidFunctionCall")
            end
        end
    | NMethod k this args =>
        match x_marity X k with
        | None => Err (EOp "UnknownFunction")
        | Some b =>
            do t <- cgen al this;
            if arity_ok b (length args) then
              do c <- rconcat (cgen al) args; Ok (t ++ c ++ [OCallMethod k (length args)])
            else Err (EOp "InvalidMethodCall")
        end
    | NError _ => Err (EOp "UnexpectedErrorNode")
    end.

  Lemma lupd_app : forall {A} (a : list A) x y b, lupd (length a) x (a ++ y :: b) = a ++ x :: b.
  Proof. induction a; cbn; intros; congruence. Qed.

  Lemma replace_app : forall at_ a x y b, at_ = S (length a) ->
    replace at_ x (a ++ y :: b) = a ++ x :: b.
  Proof.
    intros. unfold replace. subst. replace (S (length a) - 1) with (length a) by lia.
    apply lupd_app.
  Qed.

  Ltac eqs := repeat first [reflexivity | lia | progress f_equal].

  Definition appends (r : res (list opcode)) (bc : list opcode) : res (list opcode * nat) :=
    do ops <- r; Ok (bc ++ ops, length bc + length ops).

  Definition appends1 (r : res (list opcode)) (bc : list opcode) : res (list opcode) :=
    do ops <- r; Ok (bc ++ ops).

  Lemma each_rconcat : forall {A} (f : A -> list opcode -> res (list opcode)) g l,
    Forall (fun x => forall bc, f x bc = appends1 (g x) bc) l ->
    forall bc, each f l bc = appends1 (rconcat g l) bc.
  Proof.
    induction 1; intros; cbn.
    - unfold appends1. cbn. now rewrite app_nil_r.
    - rewrite H. unfold appends1 at 1. destruct (g x); cbn; auto.
      rewrite IHForall. unfold appends1. destruct (rconcat g l); cbn; auto.
      now rewrite app_assoc.
  Qed.

  Ltac fin := unfold appends; cbn [bind];
    rewrite ?app_length, <- ?app_assoc; cbn [length app]; f_equal; f_equal; lia.

  Lemma emit_loop_eq : forall body b bc,
    (forall bc, body bc = Ok (bc ++ b)) ->
    emit_loop body bc = Ok (bc ++ loop_code b).
  Proof.
    intros. unfold emit_loop, emit, calc_backward_jump. rewrite H. cbn [bind].
    rewrite <- !app_assoc. cbn [app].
    rewrite !app_length. cbn [length]. rewrite app_length. cbn [length].
    rewrite replace_app by lia.
    unfold loop_code. eqs.
  Qed.

  Lemma emit_loop_break_eq : forall body b0 b1 bc,
    (forall bc, body bc = Ok (bc ++ b0 ++ b1, length bc + S (length b0))) ->
    emit_loop_break body bc = Ok (bc ++ loop_code (b0 ++ b1), length bc + 2 + length b0).
  Proof.
    intros. unfold emit_loop_break, emit, calc_backward_jump. rewrite H. cbn [bind].
    rewrite <- !app_assoc. cbn [app].
    rewrite replace_app by lia.
    unfold loop_code.
    rewrite !app_length. cbn [length]. rewrite !app_length. cbn [length].
    rewrite <- app_assoc. eqs.
  Qed.

  Lemma emit_cond_eq : forall body b bc,
    (forall bc, body bc = bc ++ b) ->
    emit_cond body bc = bc ++ cond_code b.
  Proof.
    intros. unfold emit_cond, emit. rewrite !H.
    rewrite <- !app_assoc. cbn [app].
    rewrite (replace_app (S (length bc)) bc) by reflexivity. rewrite <- !app_assoc. cbn [app].
    rewrite !app_length. cbn [length]. rewrite !app_length. cbn [length].
    rewrite <- ?app_assoc. cbn [app].
    match goal with |- replace ?n ?x (bc ++ ?a :: ?b' :: b ++ ?c :: ?d) = _ =>
      replace (bc ++ a :: b' :: b ++ c :: d) with ((bc ++ a :: b' :: b) ++ c :: d)
        by (rewrite <- app_assoc; reflexivity)
    end.
    rewrite replace_app by (rewrite app_length; cbn [length]; lia).
    rewrite <- app_assoc. unfold cond_code. cbn [app].
    eqs.
  Qed.

  Lemma break_replace : forall bc b0 b1 e lb op j,
    lb = length bc + 2 + length b0 -> 
    replace lb op (bc ++ loop_code (b0 ++ j :: b1) ++ e) =
      bc ++ (OJump JIfEnd (length (b0 ++ j :: b1) + 2) :: (b0 ++ op :: b1) ++
        [OIncIt; OJump JBackward (length (b0 ++ j :: b1) + 3)]) ++ e.
  Proof.
    intros. unfold loop_code. cbn [app]. rewrite <- !app_assoc. cbn [app].
    replace (bc ++ OJump JIfEnd (length (b0 ++ j :: b1) + 2) :: b0 ++ j :: b1 ++
       OIncIt :: OJump JBackward (length (b0 ++ j :: b1) + 3) :: e)
      with ((bc ++ OJump JIfEnd (length (b0 ++ j :: b1) + 2) :: b0) ++ j :: b1 ++
       OIncIt :: OJump JBackward (length (b0 ++ j :: b1) + 3) :: e)
      by (rewrite <- app_assoc; reflexivity).
    rewrite replace_app.
    - rewrite <- app_assoc. reflexivity.
    - rewrite app_length. cbn [length]. lia.
  Qed.

  Definition CP n := forall al bc, compile_node X al n bc = appends (cgen al n) bc.

  Lemma fold_emit : forall ops bc, fold_left (fun bc o => fst (emit o bc)) ops bc = bc ++ ops.
  Proof.
    induction ops; cbn; intros; [now rewrite app_nil_r|]. rewrite IHops. now rewrite <- app_assoc.
  Qed.

  Lemma bind_appends : forall {B} r bc (k : list opcode * nat -> res B),
    bind (appends r bc) k = bind r (fun ops => k (bc ++ ops, length bc + length ops)).
  Proof. intros. unfold appends. destruct r; reflexivity. Qed.

  Lemma bind_appends1 : forall {B} r bc (k : list opcode -> res B),
    bind (appends1 r bc) k = bind r (fun ops => k (bc ++ ops)).
  Proof. intros. unfold appends1. destruct r; reflexivity. Qed.

  Lemma each_nodes : forall al l, Forall CP l -> forall bc,
    each (fun x bc => do p <- compile_node X al x bc; Ok (fst p)) l bc =
    appends1 (rconcat (cgen al) l) bc.
  Proof.
    intros. apply each_rconcat. eapply Forall_impl; [|exact H].
    intros. cbn beta. rewrite H0. rewrite bind_appends. reflexivity.
  Qed.

  Ltac leaf := unfold appends, emit; cbn [bind];
    rewrite ?app_length, <- ?app_assoc; cbn [length app];
    rewrite ?app_length, <- ?app_assoc; cbn [length app]; 
    eqs.

  Ltac split_res :=
    match goal with |- context [bind (cgen ?a ?n) _] => destruct (cgen a n); cbn [bind fst]; auto end.

  Theorem compile_node_cgen : forall n, CP n.
  Proof.
    induction n using node_ind'; unfold CP; intros al bc.
    - cbn. leaf.
    - cbn. leaf.
    - cbn. leaf.
    - cbn. leaf.
    - (* template *)
      cbn [compile_node cgen].
      erewrite each_rconcat with (g := fun x => do a <- cgen al x; Ok (a ++ [call_string])).
      2:{ eapply Forall_impl; [|exact H]. intros x Hx bc'. cbn beta. rewrite Hx, bind_appends.
          unfold appends1. destruct (cgen al x); cbn; auto. now rewrite <- app_assoc. }
      rewrite bind_appends1. destruct (rconcat _ l); cbn [bind]; auto. leaf.
    - cbn. leaf.
    - (* array *)
      cbn [compile_node cgen]. rewrite each_nodes by exact H. rewrite bind_appends1.
      destruct (rconcat _ l); cbn [bind]; auto. leaf.
    - (* object *)
      cbn [compile_node cgen].
      erewrite each_rconcat with (g := fun kx => do a <- cgen al (fst kx); do b <- cgen al (snd kx);
                  Ok (a ++ call_string :: b)).
      2:{ eapply Forall_impl; [|exact H]. intros x [Hx Hy] bc'. cbn beta. rewrite Hx, bind_appends.
          unfold appends1. destruct (cgen al (fst x)); cbn [bind fst]; auto.
          unfold emit. rewrite Hy, bind_appends. destruct (cgen al (snd x)); cbn [bind fst]; auto.
          now rewrite <- !app_assoc. }
      rewrite bind_appends1. destruct (rconcat _ l); cbn [bind]; auto. leaf.
    - (* assignments *)
      cbn [compile_node cgen]. unfold emit at 1.
      erewrite each_rconcat with (g := fun kx => do a <- cgen al (fst kx); do b <- cgen al (snd kx);
                  Ok (a ++ b ++ [OAssignStep])).
      2:{ eapply Forall_impl; [|exact H]. intros x [Hx Hy] bc'. cbn beta. rewrite Hx, bind_appends.
          unfold appends1. destruct (cgen al (fst x)); cbn [bind fst]; auto.
          rewrite Hy, bind_appends. destruct (cgen al (snd x)); cbn [bind fst]; auto.
          unfold emit; cbn [fst]. now rewrite <- !app_assoc. }
      rewrite bind_appends1. destruct (rconcat _ l); cbn [bind]; auto.
      destruct o as [o|]; cbn [bind].
      + cbn in H0. rewrite H0, bind_appends. destruct (cgen al o); cbn [bind fst]; auto. leaf.
      + leaf.
    - cbn. leaf.
    - (* closure *) cbn [compile_node cgen]. apply IHn.
    - cbn [compile_node cgen]. apply IHn.
    - cbn. leaf.
    - (* member *)
      change (compile_node X al (NMember n1 n2) bc) with
        (match compile_member_fast al (NMember n1 n2) with
        | Some path => Ok (emit (OFetchFast path) bc)
        | None =>
            do q <- compile_node X al n1 bc;
            do q <- compile_node X al n2 (fst q);
            Ok (emit OFetch (fst q))
        end).
      change (cgen al (NMember n1 n2)) with (match compile_member_fast al (NMember n1 n2) with
        | Some path => Ok [OFetchFast path]
        | None => do x <- cgen al n1; do y <- cgen al n2; Ok (x ++ y ++ [OFetch])
        end).
      destruct (compile_member_fast al (NMember n1 n2)).
      + leaf.
      + rewrite IHn1, bind_appends. destruct (cgen al n1); cbn [bind fst]; auto.
        rewrite IHn2, bind_appends. destruct (cgen al n2); cbn [bind fst]; auto. leaf.
    - (* slice *)
      cbn [compile_node cgen]. rewrite IHn, bind_appends.
      destruct (cgen al n); cbn [bind fst]; auto.
      destruct t as [t|]; cbn in H0.
      + rewrite H0, bind_appends. destruct (cgen al t); cbn [bind fst]; auto.
        destruct f as [f|]; cbn in H.
        * rewrite H, bind_appends. destruct (cgen al f); cbn [bind fst]; auto. leaf.
        * unfold emit at 1. cbn [bind]. leaf.
      + unfold emit at 1 2 3. cbn [bind fst]. destruct f as [f|]; cbn in H.
        * rewrite H, bind_appends. destruct (cgen al f); cbn [bind fst]; auto. leaf.
        * unfold emit at 1. cbn [bind]. leaf.
    - (* interval *)
      cbn [compile_node cgen]. rewrite IHn1, bind_appends. destruct (cgen al n1); cbn [bind fst]; auto.
      rewrite IHn2, bind_appends. destruct (cgen al n2); cbn [bind fst]; auto. leaf.
    - (* cond *)
      cbn [compile_node cgen]. rewrite IHn1, bind_appends. destruct (cgen al n1) as [cc|]; cbn [bind fst]; auto.
      unfold emit at 1 2. rewrite IHn2, bind_appends. destruct (cgen al n2) as [ct|]; cbn [bind fst]; auto.
      unfold emit at 1 2. rewrite <- !app_assoc. cbn [app].
      replace (bc ++ cc ++ OJump JIfFalse 0 :: OPop :: ct ++ [OJump JForward 0]) with
        ((bc ++ cc) ++ OJump JIfFalse 0 :: OPop :: ct ++ [OJump JForward 0])
        by now rewrite <- app_assoc.
      rewrite replace_app by reflexivity.
      rewrite IHn3, bind_appends. destruct (cgen al n3) as [cf|]; cbn [bind fst]; auto.
      match goal with |- context [replace ?n ?x (((bc ++ cc) ++ ?a :: OPop :: ct ++ [?j]) ++ [OPop]) ++ cf] => idtac | _ => idtac end.
      set (M := S (length (bc ++ cc))).
      set (E := S (length (bc ++ cc ++ OJump JIfFalse 0 :: OPop :: ct))).
      rewrite <- !app_assoc. cbn [app].
      unfold appends. cbn [bind].
      match goal with |- Ok (replace ?n ?x ?L, ?b) = _ =>
        replace L with ((bc ++ cc ++ OJump JIfFalse (E - M) :: OPop :: ct) ++ OJump JForward 0 :: OPop :: cf)
      end.
      2:{ rewrite <- !app_assoc. cbn [app]. rewrite <- ?app_assoc. reflexivity. }
      rewrite replace_app.
      2:{ unfold E. now rewrite !app_length. }
      subst E M. rewrite <- !app_assoc. cbn [app]. rewrite <- ?app_assoc.
      rewrite ?app_length. cbn [length]. rewrite ?app_length. cbn [length].
      rewrite ?app_length. cbn [length].
      eqs.
    - (* unary *)
      cbn [compile_node cgen]. rewrite IHn, bind_appends. destruct (cgen al n); cbn [bind fst]; auto.
      destruct op as [[]|[]| | | | | | | | ]; try reflexivity; leaf.
    - (* binary *)
      cbn [compile_node cgen]. destruct (simple_binop op) as [ops|].
      + rewrite IHn1, bind_appends. destruct (cgen al n1); cbn [bind fst]; auto.
        rewrite IHn2, bind_appends. destruct (cgen al n2); cbn [bind fst]; auto.
        rewrite fold_emit. leaf.
      + destruct (short_binop op) as [j|]; [|reflexivity].
        rewrite IHn1, bind_appends. destruct (cgen al n1) as [a|]; cbn [bind fst]; auto.
        unfold emit at 1 2. rewrite IHn2, bind_appends. destruct (cgen al n2) as [b|]; cbn [bind fst]; auto.
        rewrite <- !app_assoc. cbn [app].
        match goal with |- Ok (replace ?n ?x (bc ++ a ++ ?R), _) = _ =>
          replace (bc ++ a ++ R) with ((bc ++ a) ++ R) by now rewrite <- app_assoc end.
        rewrite replace_app by reflexivity. unfold appends. cbn [bind].
        rewrite <- ?app_assoc. rewrite ?app_length. cbn [length]. rewrite ?app_length. cbn [length].
        eqs.
    - (* call *)
      cbn [compile_node cgen]. destruct k as [f|f|c].
      + destruct (x_arity X (FInternal f)); [|reflexivity].
        destruct (arity_ok _ _); [|reflexivity].
        rewrite each_nodes by exact H. rewrite bind_appends1.
        destruct (rconcat _ l); cbn [bind]; auto. leaf.
      + destruct (x_arity X (FDeprecated f)); [|reflexivity].
        destruct (arity_ok _ _); [|reflexivity].
        rewrite each_nodes by exact H. rewrite bind_appends1.
        destruct (rconcat _ l); cbn [bind]; auto. leaf.
      + destruct l as [|a0 [|a1 l]].
        * reflexivity.
        * inversion H; subst. rewrite H2, bind_appends. destruct (cgen al a0); reflexivity.
        * inversion H as [|? ? Ha0 Hr]; subst. inversion Hr as [|? ? Ha1 Hr']; subst. clear H Hr Hr'.
          rewrite Ha0, bind_appends. destruct (cgen al a0) as [x|]; cbn [bind fst]; auto.
          unfold emit at 1.
          destruct (cgen al a1) as [b|e1] eqn:Eb.
          2:{ destruct c; cbn [bind]; unfold emit_loop, emit_loop_break; unfold emit at 1;
              rewrite Ha1, Eb; reflexivity. }
          assert (HB : forall bc, compile_node X al a1 bc = Ok (bc ++ b, length bc + length b)).
          { intros. rewrite Ha1, Eb. reflexivity. }
          unfold appends; cbn [bind].
          destruct c.
          -- rewrite emit_loop_break_eq with (b0 := b) (b1 := [OJump JIfFalse 0; OPop]).
             2:{ intros. rewrite HB. unfold emit. cbn [bind fst]. rewrite <- !app_assoc. cbn [app].
                 rewrite app_length. do 2 f_equal. lia. }
             cbn [bind]. unfold emit at 1. rewrite <- (app_assoc _ (loop_code _)).
             rewrite break_replace by reflexivity. unfold emit, closure_code, loop_code. cbn [app].
             rewrite <- !app_assoc. cbn [app]. rewrite ?app_length. cbn [length].
             rewrite ?app_length. cbn [length]. rewrite <- ?app_assoc. cbn [app].
             eqs.
          -- rewrite emit_loop_break_eq with (b0 := b ++ [ONot]) (b1 := [OJump JIfFalse 0; OPop]).
             2:{ intros. rewrite HB. unfold emit. cbn [bind fst]. rewrite <- !app_assoc. cbn [app].
                 rewrite !app_length. cbn [length]. do 2 f_equal. lia. }
             cbn [bind]. unfold emit at 1. rewrite <- (app_assoc _ (loop_code _)).
             rewrite break_replace by reflexivity. unfold emit, closure_code, loop_code. cbn [app].
             rewrite <- !app_assoc. cbn [app]. rewrite ?app_length. cbn [length].
             rewrite ?app_length. cbn [length]. rewrite <- ?app_assoc. cbn [app].
             eqs.
          -- rewrite emit_loop_break_eq with (b0 := b) (b1 := [OJump JIfTrue 0; OPop]).
             2:{ intros. rewrite HB. unfold emit. cbn [bind fst]. rewrite <- !app_assoc. cbn [app].
                 rewrite app_length. do 2 f_equal. lia. }
             cbn [bind]. unfold emit at 1. rewrite <- (app_assoc _ (loop_code _)).
             rewrite break_replace by reflexivity. unfold emit, closure_code, loop_code. cbn [app].
             rewrite <- !app_assoc. cbn [app]. rewrite ?app_length. cbn [length].
             rewrite ?app_length. cbn [length]. rewrite <- ?app_assoc. cbn [app].
             eqs.
          -- rewrite emit_loop_eq with (b := b ++ cond_code [OIncCount]).
             2:{ intros. rewrite HB. cbn [bind fst].
                 rewrite emit_cond_eq with (b := [OIncCount]) by reflexivity.
                 now rewrite <- app_assoc. }
             cbn [bind]. unfold closure_code. leaf.
          -- rewrite emit_loop_eq with (b := b ++ cond_code [OIncCount; OPointer 0]).
             2:{ intros. rewrite HB. cbn [bind fst].
                 rewrite emit_cond_eq with (b := [OIncCount; OPointer 0])
                   by (intros; unfold emit; cbn [fst]; now rewrite <- app_assoc).
                 now rewrite <- app_assoc. }
             cbn [bind]. unfold closure_code. leaf.
          -- rewrite emit_loop_eq with (b := b).
             2:{ intros. rewrite HB. reflexivity. }
             cbn [bind]. unfold closure_code. leaf.
          -- rewrite emit_loop_eq with (b := b).
             2:{ intros. rewrite HB. reflexivity. }
             cbn [bind]. unfold closure_code. leaf.
          -- rewrite emit_loop_eq with (b := b ++ cond_code [OIncCount]).
             2:{ intros. rewrite HB. cbn [bind fst].
                 rewrite emit_cond_eq with (b := [OIncCount]) by reflexivity.
                 now rewrite <- app_assoc. }
             cbn [bind]. unfold closure_code. leaf.
    - (* method *)
      cbn [compile_node cgen]. destruct (x_marity X k); [|reflexivity].
      rewrite IHn, bind_appends. destruct (cgen al n); cbn [bind fst]; auto.
      destruct (arity_ok _ _); [|reflexivity].
      rewrite each_nodes by exact H. rewrite bind_appends1.
      destruct (rconcat _ l); cbn [bind]; auto. leaf.
    - reflexivity.
  Qed.

  Lemma compile_cgen : forall n, compile X n = cgen [] n.
  Proof.
    intros. unfold compile. rewrite compile_node_cgen, bind_appends.
    destruct (cgen [] n); reflexivity.
  Qed.
End WithExt.
