(** Templates that are written differently and stand for the same prompts,
    whichever way they are sampled: rules for rewriting a template. *)
From Coq Require Import NArith ZArith QArith Qcanon Bool Arith List.
From Verif.Model Require Import Command.
From Verif.Spec Require Import Text Lang Alike.
Import ListNotations.
Local Open Scope nat_scope.

(** All options have a chance. *)
Definition weighty (opts : list (command * Qc)) : Prop := Forall (fun o => (0 < snd o)%Qc) opts.
(** A part that always has a value: text, a sequence, two or more options. *)
Definition Solid (x : command) : Prop :=
  match x with
  | Lit _ _ | Seq _ _ _ => True
  | Var opts _ _ _ _ => 2 <= length opts
  | _ => False
  end.
Definition wordless (x : command) : Prop := forall s m, x <> Lit s m.

Inductive Akin : command -> command -> Prop :=
(** [{A|{B|C}|D}] and [{A|B|C|D}]. *)
| Akin_nested : forall pre opts opts' q post sep sep' m m', quiet m' ->
    opts <> [] -> ~ lone_wildcard opts -> map fst opts' = map fst opts ->
    weighty (pre ++ (Var opts 1 1 sep' m', q) :: post) -> weighty opts -> weighty opts' ->
    Akin (Var (pre ++ (Var opts 1 1 sep' m', q) :: post) 1 1 sep m)
         (Var (pre ++ opts' ++ post) 1 1 sep m)
(** [{A|B|A|C}] and [{A|B|C}]. *)
| Akin_repeated : forall pre v q mid q' post sep m,
    ~ lone_wildcard (pre ++ (v, q) :: mid ++ post) -> Solid v \/ pre ++ mid ++ post <> [] ->
    weighty (pre ++ (v, q) :: mid ++ (v, q') :: post) ->
    Akin (Var (pre ++ (v, q) :: mid ++ (v, q') :: post) 1 1 sep m)
         (Var (pre ++ (v, q) :: mid ++ post) 1 1 sep m)
(** Other weights, whatever the number of options to choose. *)
| Akin_weights : forall opts opts' lo hi sep m, map fst opts = map fst opts' ->
    weighty opts -> weighty opts' -> Akin (Var opts lo hi sep m) (Var opts' lo hi sep m)
(** The options in another order. *)
| Akin_order : forall opts opts' lo hi sep m, Permutation.Permutation opts opts' ->
    Akin (Var opts lo hi sep m) (Var opts' lo hi sep m)
(** A sequence inside a sequence and its parts alone. *)
| Akin_grouped : forall pre ins post m, ins <> [] -> Forall (fun part => ~ is_assign part) ins ->
    Akin (Seq (pre ++ Seq ins [] None :: post) [] m) (Seq (pre ++ ins ++ post) [] m)
(** Text beside text; no text; a sequence of one part. *)
| Akin_texts : forall pre a b post m,
    Akin (Seq (pre ++ Lit a None :: Lit b None :: post) [] m) (Seq (pre ++ Lit (a ++ b) None :: post) [] m)
| Akin_blank : forall pre post m, pre ++ post <> [] -> Akin (Seq (pre ++ Lit [] None :: post) [] m) (Seq (pre ++ post) [] m)
| Akin_alone : forall x sep, Solid x -> Nonempty x -> Akin (Seq [x] sep None) x
(** [a {B|C} d] and [{a B d|a C d}]. *)
| Akin_spread : forall a opts d sep m m', quiet m' -> opts <> [] ->
    Forall (fun o => Solid (fst o)) opts -> weighty opts ->
    Akin (Seq [Lit a None; Var opts 1 1 sep m'; Lit d None] [] m)
         (Var (map (fun o => (Seq [Lit a None; fst o; Lit d None] [] None, snd o)) opts) 1 1 sep m)
(** Any number of times, and inside larger templates. *)
| Akin_refl : forall x, Akin x x
| Akin_sym : forall x y, Akin x y -> Akin y x
| Akin_trans : forall x y z, Akin x y -> Akin y z -> Akin x z
| Akin_part : forall x y pre post sep m, Akin x y -> ~ is_assign x -> ~ is_assign y ->
    Akin (Seq (pre ++ x :: post) sep m) (Seq (pre ++ y :: post) sep m)
| Akin_option : forall x y q pre post lo hi sep m, Akin x y -> weighty (pre ++ (x, q) :: post) ->
    ~ lone_wildcard (pre ++ (x, q) :: post) -> ~ lone_wildcard (pre ++ (y, q) :: post) ->
    Akin (Var (pre ++ (x, q) :: post) lo hi sep m) (Var (pre ++ (y, q) :: post) lo hi sep m)
(** The value of a variable, evaluated at each use or at once. *)
| Akin_value : forall n x y o pre post sep m, Akin x y ->
    Akin (Seq (pre ++ Assign n x false o :: post) sep m) (Seq (pre ++ Assign n y false o :: post) sep m)
| Akin_value_now : forall n x y o pre post sep m, Akin x y -> wordless x -> wordless y ->
    Akin (Seq (pre ++ Assign n x true o :: post) sep m) (Seq (pre ++ Assign n y true o :: post) sep m)
| Akin_default : forall n x y, Akin x y -> Akin (Access n (Some x)) (Access n (Some y))
(** A variable that a wildcard is given. *)
| Akin_given : forall w m n x y pre post, Akin x y ->
    Akin (Wild w m (pre ++ (n, x) :: post)) (Wild w m (pre ++ (n, y) :: post))
| Akin_wrapper : forall x y i m, Akin x y -> Akin (Wrap x i m) (Wrap y i m)
| Akin_wrapped : forall w x y m, Akin x y -> Akin (Wrap w x m) (Wrap w y m).
