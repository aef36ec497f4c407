(** Declarative specification of weighted wildcard items. *)
From Coq Require Import NArith ZArith QArith Qcanon Bool Arith List.
From Verif.Spec Require Import Text.
Import ListNotations.
Local Open Scope nat_scope.

Definition QcN (n : nat) : Qc := Q2Qc (inject_Z (Z.of_nat n)).

(** [n] is the integer part of the weight [w], zero when [w] is negative. *)
Definition IntegerPart (w : Qc) (n : nat) : Prop :=
  (0 < n -> (QcN n <= w)%Qc) /\ (w < QcN (S n))%Qc.

(** [out] lists every item as often as the integer part of its weight says,
    items in the given order. *)
Inductive Listed : list (text * Qc) -> list text -> Prop :=
| Listed_nil : Listed [] []
| Listed_cons : forall t w n rest out,
    IntegerPart w n -> Listed rest out ->
    Listed ((t, w) :: rest) (repeat t n ++ out).
