(** C65: float arithmetic in weighted choice. *)
From Coq Require Import String NArith ZArith QArith Qcanon Qabs Bool Arith List Permutation Lia.
From Verif.Model Require Import Str Float Rng.
From Verif.Spec Require Import Comb StreamRng.
From Verif.Proofs Require Import FloatFacts RngFacts DrawFacts.
Import ListNotations.
Local Open Scope nat_scope.

(** The rounding of the examples is one of those the theorems speak of. *)
Theorem C65_ieee_rounds_to_nearest : Rounding ieee_round.
Proof. exact ieee_rounding. Qed.
Theorem C65_floats_are_kept : forall round, Rounding round -> forall q, round q = q <-> Double q.
Proof. exact round_fixed. Qed.
Theorem C65_rounding_keeps_order : forall round, Rounding round -> forall a b,
  (a <= b)%Qc -> (round a <= round b)%Qc.
Proof. exact round_mono. Qed.
(** Rounding is off by at most one part in 2^53. *)
Theorem C65_relative_error : forall round, Rounding round -> forall q : Qc,
  (Qabs (q - round q) <= Qabs q * (1 # 9007199254740992))%Q.
Proof. exact round_relative. Qed.

(** The option drawn is the one whose stretch between the running float sums
    contains the scaled random number. *)
Theorem C65_draw_is_the_stretch_hit : forall G ws (r : rng_state G),
  Forall (fun w => 0 <= w)%Qc ws -> (0 < float_sum (fl G) ws)%Qc ->
  let x := fl G (fst (random01 G r) * float_sum (fl G) ws)%Qc in
  exists i, choices G (accumulate G ws) 1 r = ROk [i] (snd (random01 G r)) /\
    i < length ws /\ (float_sum (fl G) (firstn i ws) <= x)%Qc /\ (x < float_sum (fl G) (firstn (S i) ws))%Qc.
Proof. exact draw_stretch. Qed.
(** Hence an option whose weight does not move the float sum is never drawn. *)
Theorem C65_absorbed_weight_is_never_drawn : forall G ws k (r : rng_state G) is r' i,
  Forall (fun w => 0 <= w)%Qc ws ->
  float_sum (fl G) (firstn (S i) ws) = float_sum (fl G) (firstn i ws) ->
  choices G (accumulate G ws) k r = ROk is r' -> ~ In i is.
Proof. exact absorbed_never. Qed.

Definition big : Qc := Q2Qc (9007199254740992 # 1).
Theorem C65_every_positive_weight_drawn_refuted : exists ws i,
  (0 < nth i ws 0)%Qc /\ Forall (fun w => 0 <= w)%Qc ws /\
  forall G k (r : rng_state G) is r', choices G (accumulate G ws) k r = ROk is r' -> ~ In i is.
Proof.
  exists [big; Q2Qc (1 # 2)], 1. split; [reflexivity|].
  assert (H : Forall (fun w => 0 <= w)%Qc [big; Q2Qc (1 # 2)]) by (repeat constructor; discriminate).
  split; [exact H|]. intros G k r is r'. apply absorbed_never; [exact H|].
  apply absorbed_half.
Qed.

(** Float sums depend on the order of the weights. *)
Definition tenths (n : positive) : Qc := ieee_round (Q2Qc (Zpos n # 10)).
Theorem C65_order_free_sum_refuted : exists ws ws', Permutation ws ws' /\
  float_sum ieee_round ws <> float_sum ieee_round ws'.
Proof.
  exists [tenths 1; tenths 2; tenths 3], [tenths 3; tenths 2; tenths 1]. split.
  - apply (Permutation_rev [tenths 1; tenths 2; tenths 3]).
  - intros H. apply (f_equal this) in H. vm_compute in H. discriminate.
Qed.

Example C65_example :
  this (ieee_round (Q2Qc (1 # 10))) = (3602879701896397 # 36028797018963968)%Q /\
  this (ieee_round (Q2Qc (- (1 # 3)))) = (-6004799503160661 # 18014398509481984)%Q /\
  this (ieee_round (Q2Qc (9007199254740993 # 1))) = (9007199254740992 # 1)%Q /\
  this (ieee_round (Q2Qc (9007199254740995 # 1))) = (9007199254740996 # 1)%Q.
Proof. vm_compute. repeat split. Qed.
Example C65_draw_example :
  choices stream_rng (accumulate stream_rng [tenths 1; 0%Qc; tenths 2; tenths 3]) 1 [half53]
  = @ROk stream_rng _ [3] [] /\
  choices stream_rng (accumulate stream_rng [tenths 1; 0%Qc; tenths 2; tenths 3]) 1 [0%N]
  = @ROk stream_rng _ [0] [].
Proof. run_both. Qed.

Print Assumptions C65_ieee_rounds_to_nearest.
Print Assumptions C65_floats_are_kept.
Print Assumptions C65_rounding_keeps_order.
Print Assumptions C65_relative_error.
Print Assumptions C65_draw_is_the_stretch_hit.
Print Assumptions C65_absorbed_weight_is_never_drawn.
Print Assumptions C65_every_positive_weight_drawn_refuted.
Print Assumptions C65_order_free_sum_refuted.
