(** Counting in step modulo two numbers. *)
From Coq Require Import NArith ZArith Znumtheory Bool Arith List Lia.
Import ListNotations.
Local Open Scope nat_scope.

Lemma step_together : forall n m i j, 0 < n -> 0 < m -> i < n -> j < m ->
  i mod Nat.gcd n m = j mod Nat.gcd n m ->
  exists k, k < Nat.lcm n m /\ k mod n = i /\ k mod m = j.
Proof.
  intros n m i j Hn Hm Hi Hj H. set (g := Nat.gcd n m) in *.
  assert (Hg : g <> 0) by (intros E; apply Nat.gcd_eq_0_l in E; lia).
  assert (Hl : Nat.lcm n m <> 0) by (intros E; apply Nat.lcm_eq_0 in E; lia).
  assert (HB : exists u v : Z, (u * Z.of_nat n + v * Z.of_nat m = Z.of_nat g)%Z).
  { destruct (Nat.gcd_bezout_pos n m Hn) as (u & v & E). exists (Z.of_nat u), (- Z.of_nat v)%Z. unfold g. nia. }
  destruct HB as (u & v & E).
  pose proof (Nat.div_mod i g Hg) as Ei. pose proof (Nat.div_mod j g Hg) as Ej. rewrite <- H in Ej.
  set (d := (Z.of_nat (i / g) - Z.of_nat (j / g))%Z).
  assert (Ed : (Z.of_nat i - Z.of_nat j = Z.of_nat g * d)%Z) by (unfold d; nia).
  destruct (Nat.divide_lcm_l n m) as (a & Ea). destruct (Nat.divide_lcm_r n m) as (b & Eb).
  set (k0 := (Z.of_nat i - u * Z.of_nat n * d)%Z).
  set (L := Z.of_nat (Nat.lcm n m)). assert (HL : (0 < L)%Z) by (unfold L; lia).
  pose proof (Z.mod_pos_bound k0 L HL) as Hb. pose proof (Z.div_mod k0 L ltac:(lia)) as Ek.
  exists (Z.to_nat (k0 mod L)). split; [unfold L in Hb at 2 |- *; lia|].
  assert (Hmod : forall p r q, 0 < p -> r < p -> (k0 mod L = Z.of_nat r + Z.of_nat p * q)%Z -> Z.to_nat (k0 mod L) mod p = r).
  { intros p r q Hp Hr Eq. apply Nat2Z.inj. rewrite Nat2Z.inj_mod, Z2Nat.id by lia. rewrite Eq.
    rewrite Z.mul_comm, Z_mod_plus_full. apply Z.mod_small. lia. }
  split.
  - apply (Hmod n i (- u * d - Z.of_nat a * (k0 / L))%Z); auto.
    assert (L = Z.of_nat a * Z.of_nat n)%Z by (unfold L; lia). unfold k0 in Ek at 1. nia.
  - apply (Hmod m j (v * d - Z.of_nat b * (k0 / L))%Z); auto.
    assert (L = Z.of_nat b * Z.of_nat m)%Z by (unfold L; lia).
    assert (k0 = Z.of_nat j + Z.of_nat m * (v * d))%Z by (unfold k0; nia). nia.
Qed.
Lemma step_apart : forall n m k, 0 < n -> 0 < m ->
  (k mod n) mod Nat.gcd n m = (k mod m) mod Nat.gcd n m.
Proof.
  intros n m k Hn Hm. set (g := Nat.gcd n m).
  assert (Hg : g <> 0) by (intros E; apply Nat.gcd_eq_0_l in E; lia).
  assert (H : forall p, 0 < p -> Nat.divide g p -> (k mod p) mod g = k mod g).
  { intros p Hp (q & ->). rewrite (Nat.mul_comm q g). rewrite Nat.mod_mul_r by nia.
    rewrite (Nat.mul_comm g), Nat.mod_add by exact Hg. apply Nat.mod_mod, Hg. }
  rewrite !H; auto; [apply Nat.gcd_divide_r|apply Nat.gcd_divide_l].
Qed.
Lemma step_period : forall n l k, 0 < n -> Nat.divide n l -> (k + l) mod n = k mod n.
Proof. intros n l k Hn (q & ->). apply Nat.mod_add. lia. Qed.
