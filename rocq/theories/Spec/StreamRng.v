(** A concrete random generator for examples: it replays a list of raw draws
    (zeros afterwards); seeding with [z] restarts at the single draw [z]. *)
From Coq Require Import NArith ZArith List.
From Verif.Model Require Import Float Rng.
From Verif.Proofs Require Import FloatFacts.
Import ListNotations.

Definition stream_rng : rng_impl := {|
  rng_state := list N;
  prim_below := fun _ s => match s with [] => (0%N, []) | x :: s' => (x, s') end;
  prim_random := fun s => match s with [] => (0%N, []) | x :: s' => (x, s') end;
  prim_seed := fun z => [Z.to_N z];
  fl := ieee_round;
  fl_ok := ieee_rounding
|}.

(** Raw material for [random() = 1/2] and just below 1. *)
Definition half53 : N := 4503599627370496.
Definition top53 : N := 9007199254740991.

(** Runs both sides of equations in the kernel's virtual machine, without
    writing out what types mention. *)
Ltac run_both := repeat match goal with |- _ /\ _ => split end;
  match goal with |- @eq ?T ?a ?b => vm_cast_no_check (@eq_refl T b) end.
