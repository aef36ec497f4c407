(** Passing a value to a wildcard, as in [__name(x=value)__]. *)
From Coq Require Import NArith ZArith QArith Qcanon Bool Arith List.
From Verif.Model Require Import Command Values Context.
From Verif.Spec Require Import Text Lang Mention.
Import ListNotations.
Local Open Scope nat_scope.

Section Param.
Variable E : env.
(** The names of wildcards that the other parts may use. *)
Variable W : text -> Prop.
(** The variable and its value; the wildcard without and with it. *)
Variables (x : text) (value : command).
Variables (bare given : command).

(** [Passed parts parts']: the assignments [${x=value}] are dropped, [given]
    is written for [bare], and the other parts, which do not mention the
    variable, stay. *)
Inductive Passed : list command -> list command -> Prop :=
| Passed_end : Passed [] []
| Passed_assign : forall ts us, Passed ts us -> Passed (Assign x value false true :: ts) us
| Passed_use : forall ts us, Passed ts us -> Passed (bare :: ts) (given :: us)
| Passed_other : forall t ts us, Within E (fun y => y <> x) W t -> t <> bare -> t <> given ->
    Passed ts us -> Passed (t :: ts) (t :: us).
End Param.
