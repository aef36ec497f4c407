(** Drawing an order: the series of answers of a random source.  From Model/
    only [randbelow], a number below a bound, is used. *)
From Coq Require Import NArith Arith List.
From Verif.Model Require Import Rng.
Import ListNotations.
Local Open Scope nat_scope.

(** The bounds of the draws that put [n] values in order: n, n-1, ..., 2. *)
Definition order_bounds (n : nat) : list nat := rev (seq 2 (n - 1)).

(** Answers within these bounds.  There are n! such series. *)
Definition Draws (n : nat) (ds : list nat) : Prop := Forall2 lt ds (order_bounds n).

(** In state [r] the source answers [ds] when asked for numbers below [ns],
    and is then in state [r']. *)
Inductive Answers (G : rng_impl) : rng_state G -> list nat -> list nat -> rng_state G -> Prop :=
| Answers_none : forall r, Answers G r [] [] r
| Answers_more : forall r n ns d ds r1 r', randbelow G n r = (d, r1) ->
    Answers G r1 ns ds r' -> Answers G r (n :: ns) (d :: ds) r'.
