(** The hint that a chain of conditional expressions should be a match block. Models core/engine/src/policy/linter/prefer_match.rs and the
    helpers of linter/mod.rs. Simplification: a finding is the block, the number of conditions and the path, instead of the message and the span. *)
From Coq Require Import String Bool List Arith.
From Verif Require Import Base Value Ast Isolate Blocks Driver.
Import ListNotations.
Local Open Scope string_scope.
Local Open Scope nat_scope.
Local Open Scope list_scope.

(** linter/mod.rs:70-75 [unwrap_parens]. *)
Fixpoint bare (n : node) : node := match n with NParen m => bare m | _ => n end.
(** linter/mod.rs:77-89 [dotted_path]; the parentheses around the object are looked through by the recursion, those around the node itself are not. *)
Fixpoint dotted_in (n : node) : option string :=
  match n with
  | NParen m => dotted_in m
  | NIdent s => Some s
  | NMember m p =>
      match dotted_in m with
      | Some b => match bare p with NString s => Some (b ++ "." ++ s)%string | _ => None end
      | None => None
      end
  | _ => None
  end.
Definition dotted_path (n : node) : option string := match n with NParen _ => None | _ => dotted_in n end.
(** expression/src/parser/ast.rs:75-163 [walk]: the nodes it visits. *)
Fixpoint visits (n : node) : list node :=
  n :: match n with
       | NTemplate l | NArray l | NCall _ l => flat_map visits l
       | NObject l => flat_map (fun kv => visits (fst kv) ++ visits (snd kv)) l
       | NAssign l o => flat_map (fun kv => visits (fst kv) ++ visits (snd kv)) l ++ match o with Some x => visits x | None => [] end
       | NClosure b _ => visits b
       | NParen x | NUnary x _ => visits x
       | NMember a b | NInterval a b _ _ | NBinary a _ b => visits a ++ visits b
       | NSlice a f t => visits a ++ match f with Some x => visits x | None => [] end ++ match t with Some x => visits x | None => [] end
       | NCond c t f => visits c ++ visits t ++ visits f
       | NMethod _ x l => visits x ++ flat_map visits l
       | NError o => match o with Some x => visits x | None => [] end
       | NNull | NBool _ | NNumber _ | NString _ | NPointer | NIdent _ | NRoot => []
       end.
(** 67-83 [maximal_paths]; a hash set is a list without repetitions. *)
Definition all_paths (n : node) : list string := flat_map (fun m => match dotted_path m with Some p => [p] | None => [] end) (visits n).
Definition maximal_paths (n : node) : list string :=
  let all := nodup string_dec (all_paths n) in
  filter (fun p => negb (existsb (fun q => (String.length p <? String.length q) && prefix (p ++ ".") q) all)) all.
(** 25-49: the conditions of the chain. *)
Fixpoint chain_conditions (n : node) : list node :=
  match n with NParen m => chain_conditions m | NCond c _ f => c :: chain_conditions f | _ => [] end.
Definition smember (s : string) (l : list string) : bool := existsb (String.eqb s) l.
(** 25-65 [inspect]. *)
Definition inspect (n : node) : option (nat * option string) :=
  match map maximal_paths (chain_conditions n) with
  | first :: rest =>
      if S (length rest) <? 2 then None
      else
        let common := fold_left (fun acc paths => filter (fun p => smember p paths) acc) rest first in
        Some (S (length rest), match common with [p] => Some p | _ => None end)
  | [] => None
  end.
(** 86-120 [check]. *)
Section Check.
  Variable parse : ekind -> string -> res node.
  Definition prefer_hints (p : list (bref * block)) : list (bref * (nat * option string)) :=
    flat_map (fun bk => match snd bk with
                        | BExpression _ e =>
                            if String.eqb e "" then []
                            else match parse KStandard e with
                                 | Ok n => match inspect n with Some i => [(fst bk, i)] | None => [] end
                                 | Err _ => []
                                 end
                        | _ => []
                        end) p.
End Check.
