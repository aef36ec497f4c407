(** Templates that are written differently and, sampled at random, give every
    prompt with the same chance: rules for rewriting a template. *)
From Coq Require Import NArith ZArith QArith Qcanon Bool Arith List.
From Verif.Model Require Import Command.
From Verif.Spec Require Import Text Lang Chance.
Import ListNotations.
Local Open Scope nat_scope.

Inductive Even : command -> command -> Prop :=
(** [A {B|C} D] and [{A B D|A C D}]; the parts around may be choices too. *)
| Even_spread : forall pre opts post sep sep' m m', Unmarked m -> Unmarked m' -> opts <> [] ->
    Even (Seq (pre ++ Var opts 1 1 sep m' :: post) [] m)
         (Var (map (fun o => (Seq (pre ++ fst o :: post) [] None, snd o)) opts) 1 1 sep' m)
(** A sequence inside a sequence and its parts alone. *)
| Even_grouped : forall pre ins post m m', Unmarked m' ->
    Even (Seq (pre ++ Seq ins [] m' :: post) [] m) (Seq (pre ++ ins ++ post) [] m)
(** Text beside text; no text; a sequence of one part; a choice of one option. *)
| Even_texts : forall pre a b post m,
    Even (Seq (pre ++ Lit a None :: Lit b None :: post) [] m) (Seq (pre ++ Lit (a ++ b) None :: post) [] m)
| Even_blank : forall pre post m, Even (Seq (pre ++ Lit [] None :: post) [] m) (Seq (pre ++ post) [] m)
| Even_alone : forall x sep m, Unmarked m -> Even (Seq [x] sep m) x
| Even_only : forall x q lo hi sep m, Unmarked m -> Even (Var [(x, q)] lo hi sep m) x
(** The separator of a choice of one option is never used. *)
| Even_separator : forall opts sep sep' m, Even (Var opts 1 1 sep m) (Var opts 1 1 sep' m)
(** Any number of times, and inside larger templates. *)
| Even_refl : forall x, Even x x
| Even_sym : forall x y, Even x y -> Even y x
| Even_trans : forall x y z, Even x y -> Even y z -> Even x z
| Even_part : forall x y pre post sep m, Even x y -> Even (Seq (pre ++ x :: post) sep m) (Seq (pre ++ y :: post) sep m)
| Even_option : forall x y q pre post sep m, Even x y ->
    Even (Var (pre ++ (x, q) :: post) 1 1 sep m) (Var (pre ++ (y, q) :: post) 1 1 sep m).
