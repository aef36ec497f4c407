(** Tabs: the columns of a text have tab stops at every multiple of eight. *)
From Coq Require Import NArith List.
From Verif.Spec Require Import Text.
Import ListNotations.
Local Open Scope nat_scope.

(** [Expanded col t u]: [u] is [t], which begins in column [col], with every
    tab replaced by the blanks, at least one, that lead to the next tab stop.
    Both kinds of line end begin a new line. *)
Inductive Expanded : nat -> text -> text -> Prop :=
| Expanded_end : forall col, Expanded col [] []
| Expanded_tab : forall col k t u, 1 <= k <= 8 -> (exists stop, col + k = 8 * stop) ->
    Expanded (col + k) t u -> Expanded col (9%N :: t) (repeat 32%N k ++ u)
| Expanded_line : forall col c t u, c = 10%N \/ c = 13%N ->
    Expanded 0 t u -> Expanded col (c :: t) (c :: u)
| Expanded_char : forall col c t u, c <> 9%N -> c <> 10%N -> c <> 13%N ->
    Expanded (S col) t u -> Expanded col (c :: t) (c :: u).
