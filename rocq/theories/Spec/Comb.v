(** Declarative specifications for bounds, selections and weighted draws. *)
From Coq Require Import ZArith QArith Qcanon Bool Arith List Permutation.
Import ListNotations.
Local Open Scope nat_scope.

(** A bound moved into [0 .. n]. *)
Definition clamp (n : nat) (z : Z) : Z := Z.min (Z.max 0 z) (Z.of_nat n).

Section Selections.
Context {A : Type}.

(** [t] is an ordered selection of [k] pairwise different members of [l]. *)
Definition Selection (k : nat) (l t : list A) : Prop :=
  length t = k /\ NoDup t /\ incl t l.

(** [t] comes before [u] when, at the first place they differ, [t] has the
    option listed earlier. *)
Definition Before (l t u : list A) : Prop :=
  exists common a b i j ta tb,
    t = common ++ a :: ta /\ u = common ++ b :: tb /\
    nth_error l i = Some a /\ nth_error l j = Some b /\ i < j.

(** n (n-1) ... (n-k+1) *)
Fixpoint falling (n k : nat) : nat :=
  match k with
  | O => 1
  | S k' => n * falling (n - 1) k'
  end.
End Selections.

(** Sum of weights from left to right in float arithmetic that rounds with
    [fl]. *)
Definition float_sum (fl : Qc -> Qc) (ws : list Qc) : Qc :=
  fold_left (fun s w => fl (s + fl w)%Qc) ws 0%Qc.
