(** Templates in which nothing is left to choose. *)
From Coq Require Import NArith ZArith QArith Qcanon Bool Arith List.
From Verif.Model Require Import Command Context.
From Verif.Spec Require Import Text Lang.
Import ListNotations.
Local Open Scope nat_scope.

Section Fixed.
Variable E : env.
(** Texts, sequences, single options, variables, wraps, and wildcards that have
    no values. *)
Inductive Fixed : command -> Prop :=
| Fi_lit : forall s m, Fixed (Lit s m)
| Fi_seq : forall ts sep m, Forall Fixed ts -> Fixed (Seq ts sep m)
| Fi_one : forall v q lo hi sep m, Fixed v -> (forall w m' vars, v <> Wild w m' vars) -> Fixed (Var [(v, q)] lo hi sep m)
| Fi_assign : forall x v imm ovr, Fixed v -> Fixed (Assign x v imm ovr)
| Fi_access : forall x d, (forall v, d = Some v -> Fixed v) -> Fixed (Access x d)
| Fi_wrap : forall w i m, Fixed w -> Fixed i -> Fixed (Wrap w i m)
| Fi_missing : forall s m vars,
    (forall c, env_parse E s = Ok c -> exists t mt, c = Lit t mt /\ forall b u, Tidy b t u -> env_lookup E u = []) ->
    Fixed (Wild (WStr s) m vars).
Definition FixedScope (sc : scope) : Prop :=
  (forall x v, sc_var sc x = Some v -> Fixed v) /\ (forall v, sc_unknown sc = Some v -> Fixed v).
End Fixed.
