(** Templates that are written differently and list the same prompts when
    sampled combinatorially: rules for rewriting a template. *)
From Coq Require Import NArith ZArith QArith Qcanon Bool Arith List.
From Verif.Model Require Import Command.
From Verif.Spec Require Import Text Lang Enum.
Import ListNotations.
Local Open Scope nat_scope.

(** No mark, or marked as combinatorial. *)
Definition quiet (m : option method) : Prop := m = None \/ m = Some Combinatorial.

Inductive Alike : command -> command -> Prop :=
(** [{A|{B|C}|D}] and [{A|B|C|D}]. *)
| Alike_nested : forall pre opts opts' q post sep sep' m m', quiet m -> quiet m' ->
    opts <> [] -> ~ lone_wildcard opts -> map fst opts' = map fst opts ->
    Alike (Var (pre ++ (Var opts 1 1 sep' m', q) :: post) 1 1 sep m)
          (Var (pre ++ opts' ++ post) 1 1 sep m)
(** [{A|B|A|C}] and [{A|B|C}]. *)
| Alike_repeated : forall pre v q mid q' post sep m, quiet m -> finite_mark v ->
    ~ lone_wildcard (pre ++ (v, q) :: mid ++ post) ->
    Alike (Var (pre ++ (v, q) :: mid ++ (v, q') :: post) 1 1 sep m)
          (Var (pre ++ (v, q) :: mid ++ post) 1 1 sep m)
(** Other weights, whatever the number of options to choose. *)
| Alike_weights : forall opts opts' lo hi sep m, map fst opts = map fst opts' ->
    Alike (Var opts lo hi sep m) (Var opts' lo hi sep m)
(** A sequence inside a sequence and its parts alone. *)
| Alike_grouped : forall pre ins post sep m, ins <> [] ->
    Forall (fun part => mark_of part = None /\ ~ is_assign part) ins ->
    Alike (Seq (pre ++ Seq ins sep None :: post) sep m) (Seq (pre ++ ins ++ post) sep m)
(** Text beside text; a sequence of one part. *)
| Alike_texts : forall pre a b post m,
    Alike (Seq (pre ++ Lit a None :: Lit b None :: post) [] m) (Seq (pre ++ Lit (a ++ b) None :: post) [] m)
| Alike_alone : forall x sep, Simple x -> Nonempty x -> mark_of x = None -> Alike (Seq [x] sep None) x
(** [a {B|C} d] and [{a B d|a C d}]. *)
| Alike_spread : forall a opts d sep m m', quiet m -> quiet m' -> opts <> [] ->
    Forall (fun o => Simple (fst o)) opts ->
    Alike (Seq [Lit a None; Var opts 1 1 sep m'; Lit d None] [] m)
          (Var (map (fun o => (Seq [Lit a None; fst o; Lit d None] [] None, snd o)) opts) 1 1 sep m)
(** Any number of times, and inside larger templates. *)
| Alike_refl : forall x, Alike x x
| Alike_sym : forall x y, Alike x y -> Alike y x
| Alike_trans : forall x y z, Alike x y -> Alike y z -> Alike x z
| Alike_part : forall x y pre post sep m, Alike x y -> finite_mark x -> ~ is_assign x ->
    Alike (Seq (pre ++ x :: post) sep m) (Seq (pre ++ y :: post) sep m)
| Alike_option : forall x y q pre post sep m, Alike x y -> finite_mark x -> quiet m ->
    ~ lone_wildcard (pre ++ (x, q) :: post) -> ~ lone_wildcard (pre ++ (y, q) :: post) ->
    Alike (Var (pre ++ (x, q) :: post) 1 1 sep m) (Var (pre ++ (y, q) :: post) 1 1 sep m)
| Alike_wrapper : forall x y i m, Alike x y -> Alike (Wrap x i m) (Wrap y i m)
| Alike_wrapped : forall w x y m, Alike x y -> Alike (Wrap w x m) (Wrap w y m).
