(** The list of prompts of a template in which every variant offers one
    choice: all combinations, leftmost slowest, each alternative of a variant
    listed once. *)
From Coq Require Import String NArith ZArith QArith Qcanon Bool Arith List.
From Verif.Model Require Import Str Command.
From Verif.Spec Require Import Text Lang Enum.
Import ListNotations.
Local Open Scope nat_scope.

(** First occurrences only. *)
Fixpoint firsts (l : list text) : list text :=
  match l with
  | [] => []
  | t :: l' => t :: filter (fun u => if list_eq_dec N.eq_dec u t then false else true) (firsts l')
  end.

Fixpoint choices (cmd : command) : list text :=
  match cmd with
  | Lit s _ => [s]
  | Seq tokens sep _ => map (interleave sep) (product (map choices tokens))
  | Var opts _ _ _ _ => firsts (flat_map (fun o => choices (fst o)) opts)
  | _ => []
  end.

(** Text and variants without bounds and without random or cyclical marks. *)
Inductive OneChoice : command -> Prop :=
| One_text : forall s, OneChoice (Lit s None)
| One_seq : forall tokens, Forall OneChoice tokens -> OneChoice (Seq tokens [] None)
| One_variant : forall opts sep m, m = None \/ m = Some Combinatorial -> opts <> [] ->
    Forall (fun o => OneChoice (fst o)) opts -> OneChoice (Var opts 1 1 sep m).

(** At most [limit] of them. *)
Definition at_most (limit : option nat) (l : list text) : list text :=
  match limit with None => l | Some k => firstn k l end.
