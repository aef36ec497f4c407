(** Shares of the random numbers. *)
From Coq Require Import NArith ZArith QArith Qcanon Qabs List.
From Verif.Model Require Import Rng.
From Verif.Spec Require Import Comb.
Import ListNotations.
Local Open Scope nat_scope.

(** The numbers 0 .. 2^53, cut into one stretch per weight.  Each cut is at
    most [err] numbers away from where the share of the weights before it,
    summed with [sum], ends. *)
Record Cuts (err : Q) (sum : list Qc -> Qc) (ws : list Qc) (cuts : list N) : Prop := {
  cuts_length : length cuts = S (length ws);
  cuts_start : nth 0 cuts 0%N = 0%N;
  cuts_end : nth (length ws) cuts 0%N = (2 ^ 53)%N;
  cuts_ordered : forall k, k < length ws -> (nth k cuts 0 <= nth (S k) cuts 0)%N;
  cuts_close : forall k, k <= length ws ->
    (Qabs (inject_Z (Z.of_N (nth k cuts 0%N))
           - 2 ^ 53 * (sum (firstn k ws) / sum ws)) <= err)%Q
}.

(** The exact sum of weights. *)
Definition exact_sum (ws : list Qc) : Qc := fold_right Qcplus 0%Qc ws.

(** The raw numbers behind [n] single choices: each choice asks for the number
    of options first, then for the option. *)
Fixpoint choice_numbers (G : rng_impl) (n : nat) (r : rng_state G) : list N :=
  match n with
  | O => []
  | S n' =>
      let (x, r') := prim_random G (snd (prim_below G 1 r)) in
      (x mod 2 ^ 53)%N :: choice_numbers G n' r'
  end.
