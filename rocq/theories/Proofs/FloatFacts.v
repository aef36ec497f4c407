(** Float arithmetic (Model/Float.v). *)
From Coq Require Import ZArith QArith Qcanon Qabs Qround Qpower Bool Lia Lqa.
From Verif.Model Require Import Float.
Local Open Scope Q_scope.

(** * Powers of two *)
Lemma pow2_pos : forall e, 0 < 2 ^ e.
Proof. intros e. apply Qpower_0_lt. reflexivity. Qed.

Lemma pow2_plus : forall a b, 2 ^ (a + b) == 2 ^ a * 2 ^ b.
Proof. intros a b. apply Qpower_plus. discriminate. Qed.

Lemma pow2_Z : forall e, (0 <= e)%Z -> 2 ^ e == inject_Z (2 ^ e).
Proof. intros e H. now rewrite Zpower_Qpower. Qed.

Lemma pow2_S : forall e, 2 ^ (e + 1) == 2 * 2 ^ e.
Proof. intros e. rewrite pow2_plus. change (2 ^ 1) with 2. ring. Qed.

Lemma inj_le : forall a b, (a <= b)%Z -> inject_Z a <= inject_Z b.
Proof. intros a b H. now rewrite <- Zle_Qle. Qed.
Lemma inj_lt : forall a b, (a < b)%Z -> inject_Z a < inject_Z b.
Proof. intros a b H. now rewrite <- Zlt_Qlt. Qed.
Lemma le_inj : forall a b, inject_Z a <= inject_Z b -> (a <= b)%Z.
Proof. intros a b H. now rewrite Zle_Qle. Qed.
Lemma lt_inj : forall a b, inject_Z a < inject_Z b -> (a < b)%Z.
Proof. intros a b H. now rewrite Zlt_Qlt. Qed.
Lemma inj_plus : forall a b, inject_Z (a + b) == inject_Z a + inject_Z b.
Proof. intros. rewrite inject_Z_plus. reflexivity. Qed.
Lemma inj_minus : forall a b, inject_Z (a - b) == inject_Z a - inject_Z b.
Proof. intros. unfold Z.sub, Qminus. rewrite inject_Z_plus, inject_Z_opp. reflexivity. Qed.
Lemma inj_mult : forall a b, inject_Z (a * b) == inject_Z a * inject_Z b.
Proof. intros. rewrite inject_Z_mult. reflexivity. Qed.

(** * Doubles *)
Definition isD (q : Q) : Prop := exists m e : Z, (Z.abs m <= 2 ^ 53)%Z /\ q == inject_Z m * 2 ^ e.

Lemma isD_Double : forall q : Qc, Double q <-> isD q.
Proof. intros q. reflexivity. Qed.

Lemma isD_ext : forall a b, a == b -> isD a -> isD b.
Proof. intros a b H (m & e & Hm & He). exists m, e. split; [assumption|]. now rewrite <- H. Qed.

Lemma isD_opp : forall q, isD q -> isD (- q).
Proof.
  intros q (m & e & Hm & He). exists (- m)%Z, e. split; [lia|]. rewrite He, inject_Z_opp. ring.
Qed.

Lemma isD_0 : isD 0.
Proof. exists 0%Z, 0%Z. split; [lia|reflexivity]. Qed.

Lemma isD_int : forall z, (Z.abs z <= 2 ^ 53)%Z -> isD (inject_Z z).
Proof. intros z H. exists z, 0%Z. split; [assumption|]. change (2 ^ 0) with 1. ring. Qed.

(** A positive float has more than 2^52 and at most 2^53 units. *)
Lemma isD_norm : forall q, isD q -> 0 < q ->
  exists m e, (2 ^ 52 < m <= 2 ^ 53)%Z /\ q == inject_Z m * 2 ^ e.
Proof.
  intros q (m & e & Hm & He) Hq.
  assert (Hpos : (0 < m)%Z).
  { apply lt_inj. apply (Qmult_lt_r _ _ (2 ^ e)); [apply pow2_pos|]. rewrite Qmult_0_l, <- He. exact Hq. }
  assert (Hb : (m <= 2 ^ 53)%Z) by lia. clear Hm Hq.
  (* shift left until above 2^52 *)
  assert (H : forall n m e, (0 < m <= 2 ^ 53)%Z -> (2 ^ 52 < m * 2 ^ Z.of_nat n)%Z ->
    q == inject_Z m * 2 ^ e -> exists m e, (2 ^ 52 < m <= 2 ^ 53)%Z /\ q == inject_Z m * 2 ^ e).
  { clear. induction n as [|n IH]; intros m e Hm Hn He.
    - exists m, e. split; [|assumption]. rewrite Z.pow_0_r, Z.mul_1_r in Hn. lia.
    - destruct (Z_lt_le_dec (2 ^ 52) m) as [Hlt|Hge].
      + exists m, e. split; [lia|assumption].
      + apply (IH (2 * m)%Z (e - 1)%Z).
        * change (2 ^ 53)%Z with (2 * 2 ^ 52)%Z. lia.
        * rewrite Nat2Z.inj_succ, Z.pow_succ_r in Hn by lia. lia.
        * rewrite He. replace e with (e - 1 + 1)%Z at 1 by lia. rewrite pow2_S, inj_mult. change (inject_Z 2) with 2. ring. }
  apply (H 53%nat m e); [lia| |assumption]. change (Z.of_nat 53) with 53%Z. lia.
Qed.

(** Multiples of a float's unit below it are floats. *)
Lemma isD_below : forall m e k, (Z.abs k <= m <= 2 ^ 53)%Z -> isD (inject_Z k * 2 ^ e).
Proof. intros m e k H. exists k, e. split; [lia|reflexivity]. Qed.

(** * Properties of every correct rounding *)
Section Round.
Variable round : Qc -> Qc.
Hypothesis Hround : Rounding round.

Lemma round_double : forall q, Double (round q).
Proof. intros q. apply Hround. Qed.

Lemma round_near : forall (q : Qc) (d : Q), isD d -> Qabs (q - round q) <= Qabs (q - d).
Proof.
  intros q d Hd. destruct (Hround q) as [_ H].
  assert (Heq : this (Q2Qc d) == d) by (cbn; apply Qred_correct).
  specialize (H (Q2Qc d)). rewrite Heq in H. apply H. red. apply isD_ext with d; [now symmetry|assumption].
Qed.

Lemma Qabs_le0 : forall a : Q, Qabs a <= 0 -> a == 0.
Proof. intros a H. apply Qabs_Qle_condition in H. lra. Qed.

Lemma round_id : forall d, Double d -> round d = d.
Proof.
  intros d Hd. pose proof (round_near d d Hd) as H.
  apply Qc_is_canon. assert (H0 : Qabs (d - round d) <= 0).
  { eapply Qle_trans; [exact H|]. setoid_replace (d - d) with 0 by ring. apply Qle_refl. }
  apply Qabs_le0 in H0. lra.
Qed.

Lemma near_right : forall a A B : Q, B < A -> Qabs (a - A) <= Qabs (a - B) -> A + B <= 2 * a.
Proof.
  intros a A B HAB H. destruct (Qlt_le_dec (2 * a) (A + B)) as [Hlt|]; [exfalso|assumption].
  assert (HA : Qabs (a - A) == A - a). { rewrite Qabs_neg by lra. ring. }
  rewrite HA in H. destruct (Qlt_le_dec a B) as [H1|H1].
  - rewrite Qabs_neg in H by lra. lra.
  - rewrite Qabs_pos in H by lra. lra.
Qed.

Lemma near_left : forall a A B : Q, A < B -> Qabs (a - A) <= Qabs (a - B) -> 2 * a <= A + B.
Proof.
  intros a A B HAB H. destruct (Qlt_le_dec (A + B) (2 * a)) as [Hlt|]; [exfalso|assumption].
  assert (HA : Qabs (a - A) == a - A). { rewrite Qabs_pos by lra. ring. }
  rewrite HA in H. destruct (Qlt_le_dec a B) as [H1|H1].
  - rewrite Qabs_neg in H by lra. lra.
  - rewrite Qabs_pos in H by lra. lra.
Qed.

Lemma round_mono : forall a b, (a <= b)%Qc -> (round a <= round b)%Qc.
Proof.
  intros a b Hab. apply Qcnot_lt_le. intros Hlt. unfold Qcle, Qclt in *.
  assert (H1 : this (round a) + this (round b) <= 2 * this a)
    by (apply near_right; [exact Hlt|apply round_near, round_double]).
  assert (H2 : 2 * this b <= this (round b) + this (round a))
    by (apply near_left; [exact Hlt|apply round_near, round_double]).
  assert (Heq : a = b) by (apply Qc_is_canon; lra).
  rewrite Heq in Hlt. lra.
Qed.

(** Against a float [d] the rounded number stays on the same side. *)
Lemma round_le : forall (q : Qc) (d : Q), isD d -> q <= d -> round q <= d.
Proof.
  intros q d Hd H. assert (Heq : this (Q2Qc d) == d) by (cbn; apply Qred_correct).
  assert (Hr : round (Q2Qc d) = Q2Qc d).
  { apply round_id. red. apply isD_ext with d; [now symmetry|assumption]. }
  pose proof (round_mono q (Q2Qc d)) as Hm. unfold Qcle in Hm. rewrite Hr, Heq in Hm. apply Hm, H.
Qed.
Lemma round_ge : forall (q : Qc) (d : Q), isD d -> d <= q -> d <= round q.
Proof.
  intros q d Hd H. assert (Heq : this (Q2Qc d) == d) by (cbn; apply Qred_correct).
  assert (Hr : round (Q2Qc d) = Q2Qc d).
  { apply round_id. red. apply isD_ext with d; [now symmetry|assumption]. }
  pose proof (round_mono (Q2Qc d) q) as Hm. unfold Qcle in Hm. rewrite Hr, Heq in Hm. apply Hm, H.
Qed.

Lemma round_0 : round 0%Qc = 0%Qc.
Proof. apply round_id. exact isD_0. Qed.

Lemma round_nonneg : forall q : Qc, 0 <= q -> 0 <= round q.
Proof. intros q H. apply round_ge; [exact isD_0|exact H]. Qed.

(** A random number below one times a positive float stays below that float,
    the random number having 53 binary digits. *)
Lemma round_below : forall (q t : Qc), isD t -> 0 < t -> q <= t - t * (1 # 9007199254740992) -> round q < t.
Proof.
  intros q t Ht Hpos Hq. destruct (isD_norm t Ht Hpos) as (m & e & Hm & He).
  set (u := 2 ^ e) in *. assert (Hu : 0 < u) by apply pow2_pos.
  set (p := inject_Z (m - 1) * u).
  assert (Hp : isD p). { apply (isD_below m e). lia. }
  assert (Hpt : p == t - u). { unfold p. rewrite He, inj_minus. ring. }
  assert (Hgap : u * (1 # 2) < t * (1 # 9007199254740992)).
  { rewrite He. assert (inject_Z (2 ^ 52) < inject_Z m) by (apply inj_lt; lia).
    change (inject_Z (2 ^ 52)) with 4503599627370496 in *.
    setoid_replace (inject_Z m * u * (1 # 9007199254740992)) with (inject_Z m * (1 # 9007199254740992) * u) by ring.
    rewrite (Qmult_comm u). apply Qmult_lt_r; [assumption|]. lra. }
  destruct (Qlt_le_dec q p) as [Hlt|Hge].
  - apply Qle_lt_trans with p; [|lra]. apply round_le; [assumption|lra].
  - destruct (Qlt_le_dec (round q) t) as [|Hbad]; [assumption|exfalso].
    pose proof (round_near q p Hp) as Hn. rewrite Qabs_neg in Hn by lra. rewrite Qabs_pos in Hn by lra. lra.
Qed.

(** Rounding moves no number by more than itself. *)
Lemma round_le_double : forall q : Qc, 0 <= q -> round q <= 2 * q.
Proof.
  intros q H. pose proof (round_near q 0 isD_0) as Hn. rewrite (Qabs_pos (q - 0)) in Hn by lra.
  apply Qabs_Qle_condition in Hn. lra.
Qed.

(** Adding [w] to a float moves it by at most [2 * w]. *)
Lemma round_add_le : forall (q : Qc) (c w : Q), isD c -> 0 <= w -> q == c + w -> round q <= c + 2 * w.
Proof.
  intros q c w Hc Hw Hq. pose proof (round_near q c Hc) as Hn. rewrite (Qabs_pos (q - c)) in Hn by lra.
  apply Qabs_Qle_condition in Hn. lra.
Qed.

(** Above a positive float there is another one, not far away. *)
Lemma next_double : forall t : Q, isD t -> 0 < t -> exists d, isD d /\ t < d /\ d <= t + t * (1 # 2251799813685248).
Proof.
  intros t Ht Hpos. destruct (isD_norm t Ht Hpos) as (m & e & Hm & He).
  set (u := 2 ^ e) in *. assert (Hu : 0 < u) by apply pow2_pos.
  assert (Hut : u <= t * (1 # 4503599627370496)).
  { rewrite He. assert (inject_Z (2 ^ 52) < inject_Z m) by (apply inj_lt; lia).
    change (inject_Z (2 ^ 52)) with 4503599627370496 in *.
    setoid_replace (inject_Z m * u * (1 # 4503599627370496)) with (inject_Z m * (1 # 4503599627370496) * u) by ring.
    rewrite <- (Qmult_1_l u) at 1. apply Qmult_le_compat_r; lra. }
  destruct (Z.eq_dec m (2 ^ 53)) as [Heq|Hne].
  - exists (t + 2 * u). split; [|lra]. exists (2 ^ 52 + 1)%Z, (e + 1)%Z. split; [lia|].
    rewrite He, Heq, pow2_S. fold u. change (2 ^ 53)%Z with (2 ^ 52 * 2)%Z. rewrite inj_plus, inj_mult.
    change (inject_Z 1) with 1. change (inject_Z 2) with 2. ring.
  - exists (t + u). split; [|lra]. exists (m + 1)%Z, e. split; [lia|]. rewrite He, inj_plus. change (inject_Z 1) with 1. fold u. ring.
Qed.

(** Adding a weight that is not too small to a partial sum moves it by a good
    part of the weight, the result being at most [t]. *)
Lemma round_add_ge : forall (q : Qc) (c w t : Q), isD t -> 0 < t -> isD c -> 0 <= c <= t ->
  q == c + w -> t <= w * 2251799813685248 -> round q <= t -> c + t * (1 # 4503599627370496) <= round q.
Proof.
  intros q c w t Ht Hpos Hc Hct Hq Hw Hmax.
  destruct (Qlt_le_dec t (c + w)) as [Hover|Hin].
  { assert (Heq : this (round q) == t) by (apply Qle_antisym; [assumption|apply round_ge; [assumption|lra]]).
    destruct (next_double t Ht Hpos) as (d & Hd & Htd & Hdt).
    assert (Hn : 2 * q <= round q + d).
    { apply near_left; [rewrite Heq; exact Htd|]. apply round_near, Hd. }
    rewrite Heq in *. lra. }
  destruct (isD_norm t Ht Hpos) as (m & e & Hm & He).
  set (u := 2 ^ e) in *. assert (Hu : 0 < u) by apply pow2_pos.
  assert (Hut : u <= t * (1 # 4503599627370496)).
  { rewrite He. assert (inject_Z (2 ^ 52) < inject_Z m) by (apply inj_lt; lia).
    change (inject_Z (2 ^ 52)) with 4503599627370496 in *.
    setoid_replace (inject_Z m * u * (1 # 4503599627370496)) with (inject_Z m * (1 # 4503599627370496) * u) by ring.
    rewrite <- (Qmult_1_l u) at 1. apply Qmult_le_compat_r; lra. }
  set (k := Qfloor ((c + w) / u)).
  assert (Hk1 : inject_Z k <= (c + w) / u) by apply Qfloor_le.
  assert (Hk2 : (c + w) / u < inject_Z (k + 1)) by apply Qlt_floor.
  rewrite inj_plus in Hk2. change (inject_Z 1) with 1 in Hk2.
  assert (Hcw : (c + w) / u * u == c + w) by (field; lra).
  assert (H1 : inject_Z k * u <= c + w).
  { rewrite <- Hcw. apply Qmult_le_compat_r; lra. }
  assert (H2 : c + w < (inject_Z k + 1) * u).
  { rewrite <- Hcw. apply Qmult_lt_r; assumption. }
  assert (Hk : (0 <= k <= m)%Z).
  { split.
    - apply le_inj. change (inject_Z 0) with 0. destruct (Qlt_le_dec (inject_Z k) 0) as [Hneg|]; [|assumption].
      exfalso. assert (inject_Z k < inject_Z 0) by exact Hneg. assert ((k < 0)%Z) by now apply lt_inj.
      assert (inject_Z (k + 1) <= inject_Z 0) by (apply inj_le; lia).
      rewrite inj_plus in H3. change (inject_Z 1) with 1 in H3. change (inject_Z 0) with 0 in H3.
      assert ((inject_Z k + 1) * u <= 0 * u) by (apply Qmult_le_compat_r; lra). lra.
    - apply le_inj. apply (Qmult_le_r _ _ u Hu). rewrite <- He. lra. }
  assert (Hd : isD (inject_Z k * u)) by (apply (isD_below m e); lia).
  apply Qle_trans with (inject_Z k * u); [|apply round_ge; [assumption|lra]].
  assert ((inject_Z k + 1) * u == inject_Z k * u + u) by ring. lra.
Qed.
End Round.

(** * The rounding of IEEE 754 is correct *)
Lemma scale_spec : forall n d e, (0 < d)%Z -> let (n', d') := scale n d e in
  (0 < d')%Z /\ inject_Z n * inject_Z d' == inject_Z n' * inject_Z d * 2 ^ e.
Proof.
  intros n d e Hd. unfold scale. destruct (Z.leb_spec 0 e) as [He|He].
  - split; [apply Z.mul_pos_pos; [assumption|now apply Z.pow_pos_nonneg]|].
    rewrite inj_mult, <- pow2_Z by assumption. ring.
  - split; [assumption|]. rewrite inj_mult, <- pow2_Z by lia.
    assert (H : 2 ^ (- e) * 2 ^ e == 1). { rewrite <- pow2_plus. now rewrite Z.add_opp_diag_l. }
    setoid_replace (inject_Z n * 2 ^ (- e) * inject_Z d * 2 ^ e) with (inject_Z n * inject_Z d * (2 ^ (- e) * 2 ^ e)) by ring.
    rewrite H. ring.
Qed.

Lemma nearest_even_spec : forall n d, (0 < d)%Z -> (Z.abs (2 * (n - nearest_even n d * d)) <= d)%Z.
Proof.
  intros n d Hd. unfold nearest_even. pose proof (Z.div_mod n d) as H. pose proof (Z.mod_pos_bound n d Hd) as Hb.
  set (m := (n / d)%Z) in *. assert (Hr : (n - m * d = n mod d)%Z) by lia.
  destruct (Z.compare_spec (2 * (n - m * d)) d) as [He|Hl|Hg]; [destruct (Z.even m)| |]; lia.
Qed.

Lemma log2_bounds : forall n, (0 < n)%Z ->
  2 ^ Z.log2 n <= inject_Z n /\ inject_Z n < 2 * 2 ^ Z.log2 n.
Proof.
  intros n Hn. pose proof (Z.log2_spec n Hn) as [H1 H2]. pose proof (Z.log2_nonneg n) as H0. split.
  - rewrite pow2_Z by assumption. now apply inj_le.
  - rewrite <- pow2_S. rewrite pow2_Z by lia. now apply inj_lt.
Qed.

Lemma ratio_bounds : forall n d, (0 < n)%Z -> (0 < d)%Z ->
  let k := (Z.log2 n - Z.log2 d - 53)%Z in
  4503599627370496 * 2 ^ k * inject_Z d < inject_Z n /\
  inject_Z n < 18014398509481984 * 2 ^ k * inject_Z d.
Proof.
  intros n d Hn Hd k. destruct (log2_bounds n Hn) as [N1 N2]. destruct (log2_bounds d Hd) as [D1 D2].
  set (a := 2 ^ Z.log2 n) in *. set (b := 2 ^ Z.log2 d) in *.
  assert (Ha : 0 < a) by apply pow2_pos. assert (Hb : 0 < b) by apply pow2_pos.
  assert (Hk : 2 ^ k * b * 9007199254740992 == a).
  { change 9007199254740992 with (2 ^ 53). unfold a, b, k. rewrite <- !pow2_plus. now replace (Z.log2 n - Z.log2 d - 53 + Z.log2 d + 53)%Z with (Z.log2 n) by lia. }
  set (u := 2 ^ k) in *. assert (Hu : 0 < u) by apply pow2_pos.
  assert (H1 : u * inject_Z d < u * (2 * b)) by (rewrite !(Qmult_comm u); apply Qmult_lt_r; assumption).
  assert (H2 : u * b <= u * inject_Z d) by (rewrite !(Qmult_comm u); apply Qmult_le_compat_r; lra).
  split.
  - setoid_replace (4503599627370496 * u * inject_Z d) with (4503599627370496 * (u * inject_Z d)) by ring.
    setoid_replace (u * (2 * b)) with (2 * (u * b)) in H1 by ring. lra.
  - setoid_replace (18014398509481984 * u * inject_Z d) with (18014398509481984 * (u * inject_Z d)) by ring. lra.
Qed.

(** Nearest among the multiples of [u] means nearest among the floats, when
    the number has 53 digits before its units. *)
Lemma nearest_multiple : forall (x : Q) (M e : Z),
  inject_Z (2 ^ 52) * 2 ^ e <= x -> x <= inject_Z (2 ^ 53) * 2 ^ e ->
  Qabs (x - inject_Z M * 2 ^ e) <= (1 # 2) * 2 ^ e ->
  (2 ^ 52 <= M <= 2 ^ 53)%Z /\
  forall d, isD d -> Qabs (x - inject_Z M * 2 ^ e) <= Qabs (x - d).
Proof.
  intros x M e Hlo Hhi Hn. set (u := 2 ^ e) in *. assert (Hu : 0 < u) by apply pow2_pos.
  apply Qabs_Qle_condition in Hn.
  assert (Hint : forall z, Qabs (x - inject_Z M * u) <= Qabs (x - inject_Z z * u)).
  { intros z. destruct (Z.lt_trichotomy z M) as [H|[->|H]]; [|apply Qle_refl|].
    - assert (Hz : inject_Z (z + 1) <= inject_Z M) by (apply inj_le; lia). rewrite inj_plus in Hz.
      change (inject_Z 1) with 1 in Hz.
      assert (inject_Z z * u + u <= inject_Z M * u).
      { setoid_replace (inject_Z z * u + u) with ((inject_Z z + 1) * u) by ring. apply Qmult_le_compat_r; lra. }
      rewrite (Qabs_pos (x - inject_Z z * u)) by lra. apply Qabs_Qle_condition. lra.
    - assert (Hz : inject_Z (M + 1) <= inject_Z z) by (apply inj_le; lia). rewrite inj_plus in Hz.
      change (inject_Z 1) with 1 in Hz.
      assert (inject_Z M * u + u <= inject_Z z * u).
      { setoid_replace (inject_Z M * u + u) with ((inject_Z M + 1) * u) by ring. apply Qmult_le_compat_r; lra. }
      rewrite (Qabs_neg (x - inject_Z z * u)) by lra. apply Qabs_Qle_condition. lra. }
  split.
  - split.
    + destruct (Z_lt_le_dec M (2 ^ 52)) as [Hlt|]; [exfalso|assumption].
      assert (Hz : inject_Z (M + 1) <= inject_Z (2 ^ 52)) by (apply inj_le; lia). rewrite inj_plus in Hz.
      change (inject_Z 1) with 1 in Hz.
      assert (inject_Z M * u + u <= inject_Z (2 ^ 52) * u).
      { setoid_replace (inject_Z M * u + u) with ((inject_Z M + 1) * u) by ring. apply Qmult_le_compat_r; lra. }
      lra.
    + destruct (Z_lt_le_dec (2 ^ 53) M) as [Hlt|]; [exfalso|assumption].
      assert (Hz : inject_Z (2 ^ 53 + 1) <= inject_Z M) by (apply inj_le; lia). rewrite inj_plus in Hz.
      change (inject_Z 1) with 1 in Hz.
      assert (inject_Z (2 ^ 53) * u + u <= inject_Z M * u).
      { setoid_replace (inject_Z (2 ^ 53) * u + u) with ((inject_Z (2 ^ 53) + 1) * u) by ring. apply Qmult_le_compat_r; lra. }
      lra.
  - intros d (m & f & Hm & Hd). destruct (Z_lt_le_dec f e) as [Hfe|Hfe].
    + (* small units: the float is not above 2^52 units *)
      assert (Hle : d <= inject_Z (2 ^ 52) * u).
      { rewrite Hd. apply Qle_trans with (inject_Z (2 ^ 53) * 2 ^ f).
        - apply Qmult_le_compat_r; [apply inj_le; lia|]. apply Qlt_le_weak, pow2_pos.
        - change (2 ^ 53)%Z with (2 ^ 52 * 2)%Z. rewrite inj_mult.
          assert (2 * 2 ^ f <= u). { rewrite <- pow2_S. apply Qpower_le_compat_l; [lia|discriminate]. }
          setoid_replace (inject_Z (2 ^ 52) * inject_Z 2 * 2 ^ f) with (2 * 2 ^ f * inject_Z (2 ^ 52)) by (change (inject_Z 2) with 2; ring).
          rewrite (Qmult_comm _ u). apply Qmult_le_compat_r; [assumption|discriminate]. }
      eapply Qle_trans; [apply (Hint (2 ^ 52)%Z)|].
      rewrite !Qabs_pos by lra. lra.
    + (* multiple of the unit *)
      assert (Heq : d == inject_Z (m * 2 ^ (f - e)) * u).
      { rewrite Hd, inj_mult, <- pow2_Z by lia. unfold u. rewrite <- Qmult_assoc, <- pow2_plus.
        now replace (f - e + e)%Z with f by lia. }
      rewrite Heq. apply Hint.
Qed.

Lemma round_pos_spec : forall n d, (0 < n)%Z -> (0 < d)%Z ->
  isD (round_pos n d) /\ (forall x f, x == inject_Z n / inject_Z d -> isD f ->
    Qabs (x - round_pos n d) <= Qabs (x - f)) /\
  (forall x, x == inject_Z n / inject_Z d -> Qabs (x - round_pos n d) <= x * (1 # 9007199254740992)).
Proof.
  intros n d Hn Hd. unfold round_pos. destruct (ratio_bounds n d Hn Hd) as [B1 B2].
  set (k := (Z.log2 n - Z.log2 d - 53)%Z) in *.
  pose proof (scale_spec n d k Hd) as S1. destruct (scale n d k) as [n1 d1]. destruct S1 as [Hd1 S1].
  set (e := if (2 ^ 53 * d1 <=? n1)%Z then (k + 1)%Z else k).
  assert (HD : 0 < inject_Z d) by (change 0 with (inject_Z 0); now apply inj_lt).
  assert (HD1 : 0 < inject_Z d1) by (change 0 with (inject_Z 0); now apply inj_lt).
  set (x := inject_Z n / inject_Z d).
  assert (Hx : x * inject_Z d == inject_Z n) by (unfold x; field; lra).
  assert (Hu : 0 < 2 ^ k) by apply pow2_pos.
  (* x over 2^k *)
  assert (L1 : 4503599627370496 * 2 ^ k < x).
  { apply (Qmult_lt_r _ _ (inject_Z d) HD). lra. }
  assert (L2 : x < 18014398509481984 * 2 ^ k).
  { apply (Qmult_lt_r _ _ (inject_Z d) HD). lra. }
  assert (Hx1 : x * inject_Z d1 == inject_Z n1 * 2 ^ k).
  { apply (Qmult_inj_r _ _ (inject_Z d)); [lra|].
    setoid_replace (x * inject_Z d1 * inject_Z d) with (x * inject_Z d * inject_Z d1) by ring. rewrite Hx, S1. ring. }
  assert (Hrange : inject_Z (2 ^ 52) * 2 ^ e <= x /\ x <= inject_Z (2 ^ 53) * 2 ^ e).
  { unfold e. destruct (Z.leb_spec (2 ^ 53 * d1) n1) as [Hc|Hc].
    - rewrite pow2_S. apply inj_le in Hc. rewrite inj_mult in Hc.
      change (inject_Z (2 ^ 52)) with 4503599627370496. change (inject_Z (2 ^ 53)) with 9007199254740992 in *.
      split; [|lra]. apply (Qmult_le_r _ _ (inject_Z d1) HD1). rewrite Hx1.
      assert (9007199254740992 * inject_Z d1 * 2 ^ k <= inject_Z n1 * 2 ^ k) by (apply Qmult_le_compat_r; lra).
      setoid_replace (4503599627370496 * (2 * 2 ^ k) * inject_Z d1) with (9007199254740992 * inject_Z d1 * 2 ^ k) by ring.
      assumption.
    - apply inj_lt in Hc. rewrite inj_mult in Hc.
      change (inject_Z (2 ^ 52)) with 4503599627370496. change (inject_Z (2 ^ 53)) with 9007199254740992 in *.
      split; [lra|]. apply Qlt_le_weak, (Qmult_lt_r _ _ (inject_Z d1) HD1). rewrite Hx1.
      assert (inject_Z n1 * 2 ^ k < 9007199254740992 * inject_Z d1 * 2 ^ k) by (apply Qmult_lt_r; assumption).
      setoid_replace (9007199254740992 * 2 ^ k * inject_Z d1) with (9007199254740992 * inject_Z d1 * 2 ^ k) by ring.
      assumption. }
  clearbody e. clear B1 B2 L1 L2 Hx1 S1 Hd1 HD1 n1 d1 Hu. clear k.
  pose proof (scale_spec n d e Hd) as S2. destruct (scale n d e) as [n2 d2]. destruct S2 as [Hd2 S2].
  assert (HD2 : 0 < inject_Z d2) by (change 0 with (inject_Z 0); now apply inj_lt).
  assert (Hx2 : x * inject_Z d2 == inject_Z n2 * 2 ^ e).
  { apply (Qmult_inj_r _ _ (inject_Z d)); [lra|].
    setoid_replace (x * inject_Z d2 * inject_Z d) with (x * inject_Z d * inject_Z d2) by ring. rewrite Hx, S2. ring. }
  set (M := nearest_even n2 d2). pose proof (nearest_even_spec n2 d2 Hd2) as HM. fold M in HM.
  assert (Hu : 0 < 2 ^ e) by apply pow2_pos. set (u := 2 ^ e) in *.
  assert (Hnear : Qabs (x - inject_Z M * u) <= (1 # 2) * u).
  { assert (Hz : (- d2 <= 2 * (n2 - M * d2) <= d2)%Z) by lia.
    destruct Hz as [Z1 Z2]. apply inj_le in Z1. apply inj_le in Z2.
    rewrite inject_Z_opp, inj_mult, inj_minus, inj_mult in *. change (inject_Z 2) with 2 in *.
    assert (Hdiff : (x - inject_Z M * u) * inject_Z d2 == (inject_Z n2 - inject_Z M * inject_Z d2) * u).
    { setoid_replace ((x - inject_Z M * u) * inject_Z d2) with (x * inject_Z d2 - inject_Z M * u * inject_Z d2) by ring.
      rewrite Hx2. ring. }
    apply Qabs_Qle_condition. split.
    - apply (Qmult_le_r _ _ (inject_Z d2) HD2). rewrite Hdiff.
      setoid_replace (- ((1 # 2) * u) * inject_Z d2) with (- ((1 # 2) * inject_Z d2) * u) by ring.
      apply Qmult_le_compat_r; lra.
    - apply (Qmult_le_r _ _ (inject_Z d2) HD2). rewrite Hdiff.
      setoid_replace ((1 # 2) * u * inject_Z d2) with ((1 # 2) * inject_Z d2 * u) by ring.
      apply Qmult_le_compat_r; lra. }
  destruct Hrange as [R1 R2]. destruct (nearest_multiple x M e R1 R2 Hnear) as [HMb Hall].
  split; [|split].
  - exists M, e. split; [lia|reflexivity].
  - intros y f Hy Hf. rewrite Hy. apply Hall, Hf.
  - intros y Hy. rewrite Hy. fold x. eapply Qle_trans; [exact Hnear|].
    change (inject_Z (2 ^ 52)) with 4503599627370496 in R1. lra.
Qed.

Theorem ieee_rounding : Rounding ieee_round.
Proof.
  intros q. destruct q as [q Hq]. unfold ieee_round. cbn [this].
  assert (Hqd : q == inject_Z (Qnum q) / inject_Z (Zpos (Qden q))).
  { destruct q as [a b]. cbn [Qnum Qden]. now rewrite (Qmake_Qdiv a b). }
  destruct (Z.eqb_spec (Qnum q) 0) as [H0|H0].
  - split; [exact isD_0|]. intros d _. assert (Hz : q == 0). { unfold Qeq. cbn. now rewrite H0. }
    cbn [this]. change (this 0%Qc) with 0. rewrite (Qabs_wd (q - 0) 0) by (rewrite Hz; reflexivity).
    change (Qabs 0) with 0. apply Qabs_nonneg.
  - destruct (Z.ltb_spec 0 (Qnum q)) as [Hp|Hp].
    + destruct (round_pos_spec (Qnum q) (Zpos (Qden q)) Hp eq_refl) as [H1 H2]. split.
      * red. eapply isD_ext; [|exact H1]. cbn. symmetry. apply Qred_correct.
      * intros d Hd. cbn [this Q2Qc]. rewrite Qred_correct. now apply H2.
    + assert (Hn : (0 < - Qnum q)%Z) by lia.
      destruct (round_pos_spec (- Qnum q) (Zpos (Qden q)) Hn eq_refl) as [H1 H2]. split.
      * red. eapply isD_ext; [|apply isD_opp; exact H1]. cbn [this Q2Qc]. symmetry. apply Qred_correct.
      * intros d Hd. cbn [this Q2Qc]. rewrite Qred_correct.
        assert (Ha : forall a b : Q, Qabs (a - - b) == Qabs (- a - b)).
        { intros a b. rewrite <- Qabs_opp. apply Qabs_wd. ring. }
        rewrite Ha. rewrite <- (Qabs_opp (q - d)). setoid_replace (- (q - d)) with (- q - - d) by ring.
        apply H2; [|now apply isD_opp]. rewrite Hqd at 1. rewrite inject_Z_opp. unfold Qdiv. ring.
Qed.
