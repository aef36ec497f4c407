(** Writing the value of a variable in the place of its uses. *)
From Coq Require Import NArith ZArith QArith Qcanon Bool Arith List.
From Verif.Model Require Import Command Values Context.
From Verif.Spec Require Import Text Lang Mention.
Import ListNotations.
Local Open Scope nat_scope.

Section Inline.
Variable E : env.
(** The names of wildcards that may be used. *)
Variable W : text -> Prop.
(** The variable and its value. *)
Variables (x : text) (value : command).

(** [Inlined parts parts']: the assignments [${x=value}] are dropped, the value
    is written for every use of the variable, and the other parts, which do not
    mention it, stay. *)
Inductive Inlined : list command -> list command -> Prop :=
| Inlined_end : Inlined [] []
| Inlined_assign : forall ts us, Inlined ts us -> Inlined (Assign x value false true :: ts) us
| Inlined_use : forall d ts us, Inlined ts us -> Inlined (Access x d :: ts) (value :: us)
| Inlined_other : forall t ts us, Within E (fun y => y <> x) W t -> Inlined ts us ->
    Inlined (t :: ts) (t :: us).
End Inline.
