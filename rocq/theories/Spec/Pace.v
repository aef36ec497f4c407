(** Templates that are written differently and, sampled at random, ask for the
    same random numbers in the same order and make the same prompt of them:
    rules for rewriting a template. *)
From Coq Require Import NArith ZArith QArith Qcanon Bool Arith List.
From Verif.Model Require Import Command.
From Verif.Spec Require Import Text Lang Akin.
Import ListNotations.
Local Open Scope nat_scope.

Definition words (ts : list text) : list command := map (fun s => Lit s None) ts.

Inductive Pace : command -> command -> Prop :=
(** A sequence inside a sequence and its parts alone. *)
| Pace_grouped : forall pre ins post m, ins <> [] -> Forall (fun part => ~ is_assign part) ins ->
    Pace (Seq (pre ++ Seq ins [] None :: post) [] m) (Seq (pre ++ ins ++ post) [] m)
(** Text beside text; no text; a sequence of one part; a choice of one option. *)
| Pace_texts : forall pre a b post m,
    Pace (Seq (pre ++ Lit a None :: Lit b None :: post) [] m) (Seq (pre ++ Lit (a ++ b) None :: post) [] m)
| Pace_blank : forall pre post m, pre ++ post <> [] -> Pace (Seq (pre ++ Lit [] None :: post) [] m) (Seq (pre ++ post) [] m)
| Pace_alone : forall x sep, Solid x -> Nonempty x -> mark_of x = None -> Pace (Seq [x] sep None) x
| Pace_only : forall x q lo hi sep, Solid x -> Nonempty x -> mark_of x = None -> Pace (Var [(x, q)] lo hi sep None) x
(** The separator of a choice of one option is never used. *)
| Pace_separator : forall opts sep sep' m, 2 <= length opts -> Pace (Var opts 1 1 sep m) (Var opts 1 1 sep' m)
(** [a {B|C} D] and [{a B D|a C D}]: only text may stand before the choice. *)
| Pace_spread : forall a opts post sep sep' m, 2 <= length opts -> Forall (fun part => ~ is_assign part) post ->
    Forall (fun o => ~ is_assign (fst o)) opts ->
    Pace (Seq (words a ++ Var opts 1 1 sep None :: post) [] m)
         (Var (map (fun o => (Seq (words a ++ fst o :: post) [] None, snd o)) opts) 1 1 sep' m)
(** Any number of times, and inside larger templates. *)
| Pace_refl : forall x, Pace x x
| Pace_sym : forall x y, Pace x y -> Pace y x
| Pace_trans : forall x y z, Pace x y -> Pace y z -> Pace x z
| Pace_part : forall x y pre post sep m, Pace x y -> ~ is_assign x -> ~ is_assign y ->
    Pace (Seq (pre ++ x :: post) sep m) (Seq (pre ++ y :: post) sep m)
| Pace_option : forall x y q pre post sep m, Pace x y -> pre ++ post <> [] ->
    Pace (Var (pre ++ (x, q) :: post) 1 1 sep m) (Var (pre ++ (y, q) :: post) 1 1 sep m)
(** The same where several options may be chosen, none of them twice: equal
    options count as one, so it must not become, or have been, equal to another. *)
| Pace_options : forall x y q pre post lo hi sep m, Pace x y -> pre ++ post <> [] ->
    ~ In x (map fst (pre ++ post)) -> ~ In y (map fst (pre ++ post)) ->
    Pace (Var (pre ++ (x, q) :: post) lo hi sep m) (Var (pre ++ (y, q) :: post) lo hi sep m)
(** The value of a variable, evaluated at each use or at once. *)
| Pace_value : forall n x y o pre post sep m, Pace x y ->
    Pace (Seq (pre ++ Assign n x false o :: post) sep m) (Seq (pre ++ Assign n y false o :: post) sep m)
| Pace_value_now : forall n x y o pre post sep m, Pace x y -> wordless x -> wordless y ->
    Pace (Seq (pre ++ Assign n x true o :: post) sep m) (Seq (pre ++ Assign n y true o :: post) sep m)
| Pace_default : forall n x y, Pace x y -> Pace (Access n (Some x)) (Access n (Some y))
(** A variable that a wildcard is given. *)
| Pace_given : forall w m n x y pre post, Pace x y ->
    Pace (Wild w m (pre ++ (n, x) :: post)) (Wild w m (pre ++ (n, y) :: post))
| Pace_wrapper : forall x y i m, Pace x y -> Pace (Wrap x i m) (Wrap y i m)
| Pace_wrapped : forall w x y m, Pace x y -> Pace (Wrap w x m) (Wrap w y m).
