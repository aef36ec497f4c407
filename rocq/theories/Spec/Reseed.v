(** What a call of the random prompt generator answers, number by number. *)
From Coq Require Import NArith ZArith Bool Arith List.
From Verif.Model Require Import Command Rng Context Generators.
From Verif.Spec Require Import Text Lang Rolls.
Import ListNotations.
Local Open Scope nat_scope.

(** [Dealt num seeds l]: for [num] prompts the argument [seeds] asks for the
    seeds [l], one for each prompt; without [l] nothing is seeded. *)
Inductive Dealt (num : nat) : seeds_arg -> option (list Z) -> Prop :=
| De_none : Dealt num SNone None
| De_zero : Dealt num (SInt 0) None
| De_empty : Dealt num (SList []) None
| De_int : forall z l, z <> 0%Z -> length l = num -> (forall y, In y l -> y = z) -> Dealt num (SInt z) (Some l)
| De_one : forall z l, length l = num -> (forall y, In y l -> y = z) -> Dealt num (SList [z]) (Some l)
| De_each : forall l, 2 <= num -> length l = num -> Dealt num (SList l) (Some l).

Section Reseed.
Variable G : rng_impl.
Variable E : env.
Notation R := (rng_state G).

(** One prompt for each seed, every one drawn right after seeding. *)
Inductive RolledSeeds (c : ctx) (p : wpath) : R -> list Z -> list text -> R -> Prop :=
| RS_nil : forall r, RolledSeeds c p r [] [] r
| RS_cons : forall r z u r1 zs us r2, Rolled G E c p (prim_seed G z) u r1 -> RolledSeeds c p r1 zs us r2 ->
    RolledSeeds c p r (z :: zs) (u :: us) r2.

(** The answer [us] to a request, from source [r], which is left at [r']. *)
Inductive Answer (c : ctx) (p : wpath) (num : nat) (seeds : seeds_arg) (r : R) (us : list text) (r' : R) : Prop :=
| An_plain : Dealt num seeds None -> length us = num -> RolledMany G E c p r us r' -> Answer c p num seeds r us r'
| An_seeded : forall l, Dealt num seeds (Some l) -> RolledSeeds c p r l us r' -> Answer c p num seeds r us r'.
End Reseed.
