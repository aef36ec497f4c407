(** Python's floats, as far as dynamicprompts computes with them: sums of
    weights and multiples of [random()] inside [random.choices].

    A float is a number with 53 significant binary digits.  The exponent is
    not bounded here: overflow, gradual underflow, infinities and NaN are left
    out. *)
From Coq Require Import ZArith QArith Qcanon Qabs Bool.
Local Open Scope Q_scope.

(** Numbers that a float can hold. *)
Definition Double (q : Qc) : Prop :=
  exists m e : Z, (Z.abs m <= 2 ^ 53)%Z /\ q == inject_Z m * 2 ^ e.

(** A correctly rounded operation returns a float nearest to the exact result.
    Nothing is said about ties. *)
Definition Rounding (round : Qc -> Qc) : Prop :=
  forall q, Double (round q) /\ forall d, Double d -> Qabs (q - round q) <= Qabs (q - d).

(** The rounding of IEEE 754 hardware, ties to the even last digit: the
    nearest integer to [n / d] ... *)
Definition nearest_even (n d : Z) : Z :=
  let m := (n / d)%Z in
  match (2 * (n - m * d) ?= d)%Z with
  | Lt => m
  | Gt => (m + 1)%Z
  | Eq => if Z.even m then m else (m + 1)%Z
  end.
(** ... and [q > 0] scaled to an integer part of 53 digits. *)
Definition scale (n d e : Z) : Z * Z :=
  if Z.leb 0 e then (n, (d * 2 ^ e)%Z) else ((n * 2 ^ (- e))%Z, d).
Definition round_pos (n d : Z) : Q :=
  let k := (Z.log2 n - Z.log2 d - 53)%Z in
  let (n1, d1) := scale n d k in
  let e := if Z.leb (2 ^ 53 * d1) n1 then (k + 1)%Z else k in
  let (n2, d2) := scale n d e in
  inject_Z (nearest_even n2 d2) * 2 ^ e.
Definition ieee_round (q : Qc) : Qc :=
  let n := Qnum q in
  let d := Zpos (Qden q) in
  if Z.eqb n 0 then 0%Qc
  else if Z.ltb 0 n then Q2Qc (round_pos n d)
  else Q2Qc (- round_pos (- n) d).
