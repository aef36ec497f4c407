(** Templates that differ in white space. *)
From Coq Require Import NArith ZArith QArith Qcanon Bool Arith List.
From Verif.Model Require Import Command.
From Verif.Spec Require Import Text.
Import ListNotations.
Local Open Scope nat_scope.

(** [Respaced s t]: [t] has other white space where [s] has white space. *)
Inductive Respaced : text -> text -> Prop :=
| Respaced_end : Respaced [] []
| Respaced_char : forall c s t, Respaced s t -> Respaced (c :: s) (c :: t)
| Respaced_run : forall a b s t, Forall Space a -> Forall Space b -> a <> [] -> b <> [] ->
    Respaced s t -> Respaced (a ++ s) (b ++ t).

(** The same, where the start ([l]) and the end ([r]) may also gain or lose
    white space. *)
Definition AlikeText (l r : bool) (s t : text) : Prop :=
  exists a s0 a' b t0 b', s = a ++ s0 ++ a' /\ t = b ++ t0 ++ b' /\
    Forall Space a /\ Forall Space b /\ Forall Space a' /\ Forall Space b' /\
    (l = false -> a = [] /\ b = []) /\ (r = false -> a' = [] /\ b' = []) /\ Respaced s0 t0.

(** Parts that give no text. *)
Definition Quiet (c : command) : Prop := exists x v i o, c = Assign x v i o.

(** [Spread l parts parts']: the parts are the same but for the white space of
    texts between them, at the start if [l], and at the end. *)
Inductive Spread : bool -> list command -> list command -> Prop :=
| Spread_end : forall l, Spread l [] []
| Spread_quiet : forall l t ts us, Quiet t -> Spread l ts us -> Spread l (t :: ts) (t :: us)
| Spread_text : forall l r s t ts us, AlikeText l r s t -> (r = true -> Forall Quiet ts) ->
    Spread false ts us -> Spread l (Lit s None :: ts) (Lit t None :: us)
| Spread_same : forall l t ts us, Spread false ts us -> Spread l (t :: ts) (t :: us).
