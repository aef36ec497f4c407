(** Templates in which every variant offers one choice, with fair chances. *)
From Coq Require Import NArith ZArith QArith Qcanon Bool Arith List.
From Verif.Model Require Import Command.
From Verif.Spec Require Import Text Lang Draws.
Import ListNotations.
Local Open Scope nat_scope.

(** Text and variants without bounds and marks, no option of which has too
    small a share of the weights to be drawn. *)
Inductive Choosy : command -> Prop :=
| Choosy_text : forall s, Choosy (Lit s None)
| Choosy_seq : forall tokens, Forall Choosy tokens -> Choosy (Seq tokens [] None)
| Choosy_variant : forall opts sep, opts <> [] -> Forall (fun o => Choosy (fst o)) opts ->
    Forall (fun o => Wide (snd o) (map snd opts)) opts -> Choosy (Var opts 1 1 sep None).
