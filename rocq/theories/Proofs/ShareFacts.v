(** How many of the random numbers draw an option. *)
From Coq Require Import NArith ZArith QArith Qcanon Qabs Bool Arith List Lia Lqa.
From Verif.Model Require Import Str Float Rng.
From Verif.Spec Require Import Comb Share.
From Verif.Proofs Require Import FloatFacts RngFacts DrawFacts.
Import ListNotations.
Local Open Scope nat_scope.

Lemma initial_segment : forall (P : N -> bool), (forall x y, (x <= y)%N -> P y = true -> P x = true) ->
  forall n, exists t, (t <= n)%N /\ forall x, (x < n)%N -> (P x = true <-> (x < t)%N).
Proof.
  intros P Hm. induction n as [|n (t & Ht & IH)] using N.peano_ind.
  - exists 0%N. split; [lia|]. intros x Hx. lia.
  - destruct (P n) eqn:Hn.
    + exists (N.succ n). split; [lia|]. intros x Hx. split; [intros _; lia|]. intros _. apply Hm with n; [lia|assumption].
    + exists t. split; [lia|]. intros x Hx. destruct (N.eq_dec x n) as [->|Hne]; [|apply IH; lia].
      split; [congruence|]. intros Hlt. lia.
Qed.

Definition unit53 (x : N) : Qc := Q2Qc (Z.of_N x # two53).

Section Share.
Variable G : rng_impl.
Notation fl := (fl G).
Notation float_sum := (Comb.float_sum fl).

Lemma unit53_eq : forall x (t : Qc), (this (unit53 x * t)%Qc == inject_Z (Z.of_N x) * t / 9007199254740992)%Q.
Proof.
  intros x t. unfold unit53, Qcmult. cbn [this Q2Qc]. rewrite !Qred_correct.
  setoid_replace (Z.of_N x # two53)%Q with (inject_Z (Z.of_N x) / 9007199254740992)%Q.
  - field.
  - unfold Qeq, two53. cbn. lia.
Qed.

Lemma threshold : forall c t : Qc, Double c -> (0 <= c)%Qc -> (c <= t)%Qc -> (0 < t)%Qc ->
  exists k, (k <= 2 ^ 53)%N /\ (forall x, (x < 2 ^ 53)%N -> ((fl (unit53 x * t) < c)%Qc <-> (x < k)%N)) /\
    (Qabs (inject_Z (Z.of_N k) * t - 9007199254740992 * c) <= t)%Q.
Proof.
  intros c t Hd Hc Hct Ht.
  destruct (initial_segment (fun x => Qc_ltb (fl (unit53 x * t)%Qc) c)) with (n := (2 ^ 53)%N) as (k & Hk & H).
  { intros x y Hxy Hy. apply Qc_ltb_spec in Hy. apply Qc_ltb_spec.
    eapply Qcle_lt_trans; [|exact Hy]. apply round_mono; [apply fl_ok|].
    apply Qcmult_le_compat_r; [|now apply Qclt_le_weak]. unfold Qcle, unit53. cbn [this Q2Qc].
    rewrite !Qred_correct. unfold Qle. cbn. apply Z.mul_le_mono_nonneg_r; lia. }
  exists k. split; [exact Hk|].
  assert (H' : forall x, (x < 2 ^ 53)%N -> ((fl (unit53 x * t) < c)%Qc <-> (x < k)%N)).
  { intros x Hx. rewrite <- H by exact Hx. symmetry. apply Qc_ltb_spec. }
  split; [exact H'|].
  unfold Qcle, Qclt in Hc, Hct, Ht. change (this 0%Qc) with 0%Q in *.
  apply Qabs_Qle_condition. split.
  - (* not too small *)
    destruct (N.eq_dec k (2 ^ 53)) as [->|Hne].
    { change (inject_Z (Z.of_N (2 ^ 53))) with 9007199254740992%Q. lra. }
    assert (Hkl : (k < 2 ^ 53)%N) by lia.
    destruct (Qlt_le_dec 0 c) as [Hpos|Hz].
    + destruct (Qlt_le_dec (c - c * (1 # 9007199254740992)) (this (unit53 k * t)%Qc)) as [Hlt|Hle].
      * rewrite unit53_eq in Hlt.
        assert (Hm : (9007199254740992 * (c - c * (1 # 9007199254740992)) < inject_Z (Z.of_N k) * t)%Q).
        { setoid_replace (inject_Z (Z.of_N k) * t)%Q
            with (9007199254740992 * (inject_Z (Z.of_N k) * t / 9007199254740992))%Q by field. lra. }
        lra.
      * exfalso. pose proof (round_below fl (fl_ok G) _ _ Hd Hpos Hle) as Hx.
        apply (H' k Hkl) in Hx. lia.
    + assert (0 <= inject_Z (Z.of_N k) * t)%Q.
      { apply Qmult_le_0_compat; [|lra]. change 0%Q with (inject_Z 0). apply inj_le. lia. }
      lra.
  - destruct (N.eq_dec k 0) as [->|Hne].
    { change (inject_Z (Z.of_N 0)) with 0%Q. lra. }
    assert (Hp : (fl (unit53 (N.pred k) * t) < c)%Qc) by (apply H'; lia).
    destruct (Qlt_le_dec (this (unit53 (N.pred k) * t)%Qc) c) as [Hlt|Hle].
    + rewrite unit53_eq in Hlt.
      assert (Hm : (inject_Z (Z.of_N (N.pred k)) * t < 9007199254740992 * c)%Q).
      { setoid_replace (inject_Z (Z.of_N (N.pred k)) * t)%Q
          with (9007199254740992 * (inject_Z (Z.of_N (N.pred k)) * t / 9007199254740992))%Q by field. lra. }
      assert (Hs : (inject_Z (Z.of_N k) == inject_Z (Z.of_N (N.pred k)) + 1)%Q).
      { change 1%Q with (inject_Z 1). rewrite <- inj_plus. replace (Z.of_N (N.pred k) + 1)%Z with (Z.of_N k) by lia. reflexivity. }
      rewrite Hs. lra.
    + exfalso. pose proof (round_ge fl (fl_ok G) _ _ Hd Hle) as Hx. unfold Qclt in Hp. lra.
Qed.

Lemma float_sum_double : forall ws, Double (float_sum ws).
Proof.
  intros ws. induction ws as [|w ws IH] using rev_ind; [exact isD_0|]. rewrite float_sum_snoc.
  apply round_double, fl_ok.
Qed.

Lemma float_sum_step : forall ws k, Forall (fun w => 0 <= w)%Qc ws -> k < length ws ->
  (float_sum (firstn k ws) <= float_sum (firstn (S k) ws))%Qc.
Proof.
  intros ws k Hn Hk. rewrite (firstn_snoc 0%Qc ws k Hk), float_sum_snoc.
  rewrite <- (round_id fl (fl_ok G) (float_sum (firstn k ws))) at 1 by apply float_sum_double.
  apply round_mono; [apply fl_ok|]. rewrite <- (Qcplus_0_r (float_sum _)) at 1.
  apply Qcplus_le_compat; [apply Qcle_refl|]. apply fl_nonneg.
  rewrite Forall_forall in Hn. apply Hn, nth_In, Hk.
Qed.

Lemma float_sum_mono : forall ws j k, Forall (fun w => 0 <= w)%Qc ws -> j <= k -> k <= length ws ->
  (float_sum (firstn j ws) <= float_sum (firstn k ws))%Qc.
Proof.
  intros ws j k Hn Hjk. induction Hjk as [|k Hjk IH]; intros Hk; [apply Qcle_refl|].
  eapply Qcle_trans; [apply IH; lia|]. apply float_sum_step; [assumption|lia].
Qed.

Lemma random01_unit : forall r : rng_state G,
  fst (random01 G r) = unit53 (N.modulo (fst (prim_random G r)) (2 ^ 53)).
Proof. intros r. unfold random01. destruct (prim_random G r). reflexivity. Qed.
Lemma random01_state : forall r : rng_state G, snd (random01 G r) = snd (prim_random G r).
Proof. intros r. unfold random01. destruct (prim_random G r). reflexivity. Qed.

(** The index that the number [x] draws. *)
Lemma cut_points : forall ws, Forall (fun w => 0 <= w)%Qc ws -> (0 < float_sum ws)%Qc ->
  exists cuts, Cuts 1 float_sum ws cuts /\
    forall r : rng_state G, exists i, draw_index G (accumulate G ws) r = (i, snd (prim_random G r)) /\
      i < length ws /\ (nth i cuts 0 <= N.modulo (fst (prim_random G r)) (2 ^ 53) < nth (S i) cuts 0)%N.
Proof.
  intros ws Hn Hpos. set (t := float_sum ws) in *.
  assert (Hall : firstn (length ws) ws = ws) by apply firstn_all.
  assert (Hle : forall k, k <= length ws -> (float_sum (firstn k ws) <= t)%Qc).
  { intros k Hk. unfold t. rewrite <- Hall at 2. now apply float_sum_mono. }
  assert (Hth : forall k, exists c, k <= length ws -> (c <= 2 ^ 53)%N /\
    (forall x, (x < 2 ^ 53)%N -> ((fl (unit53 x * t) < float_sum (firstn k ws))%Qc <-> (x < c)%N)) /\
    (Qabs (inject_Z (Z.of_N c) * t - 9007199254740992 * float_sum (firstn k ws)) <= t)%Q).
  { intros k. destruct (le_lt_dec k (length ws)) as [Hk|Hk]; [|exists 0%N; lia].
    destruct (threshold (float_sum (firstn k ws)) t) as (c & Hc); [apply float_sum_double| |now apply Hle|assumption|eauto].
    apply float_sum_nonneg. rewrite Forall_forall in *. intros w Hw. apply Hn. rewrite <- (firstn_skipn k ws). apply in_or_app. now left. }
  assert (Hlist : forall n, exists cuts, length cuts = n /\ forall k, k < n -> k <= length ws ->
    (nth k cuts 0 <= 2 ^ 53)%N /\
    (forall x, (x < 2 ^ 53)%N -> ((fl (unit53 x * t) < float_sum (firstn k ws))%Qc <-> (x < nth k cuts 0)%N)) /\
    (Qabs (inject_Z (Z.of_N (nth k cuts 0%N)) * t - 9007199254740992 * float_sum (firstn k ws)) <= t)%Q).
  { induction n as [|n (cuts & Hl & IH)]; [exists []; split; [reflexivity|lia]|].
    destruct (Hth n) as (c & Hc). exists (cuts ++ [c]). split; [rewrite app_length; cbn; lia|].
    intros k Hk Hkl. destruct (Nat.eq_dec k n) as [->|Hne].
    - rewrite app_nth2 by lia. rewrite Hl, Nat.sub_diag. cbn [nth]. auto.
    - rewrite app_nth1 by lia. apply IH; lia. }
  destruct (Hlist (S (length ws))) as (cuts & Hlen & Hcuts).
  assert (Hc : forall k, k <= length ws -> (nth k cuts 0 <= 2 ^ 53)%N /\
    (forall x, (x < 2 ^ 53)%N -> ((fl (unit53 x * t) < float_sum (firstn k ws))%Qc <-> (x < nth k cuts 0)%N)) /\
    (Qabs (inject_Z (Z.of_N (nth k cuts 0%N)) * t - 9007199254740992 * float_sum (firstn k ws)) <= t)%Q).
  { intros k Hk. apply Hcuts; lia. }
  clear Hth Hlist Hcuts. exists cuts.
  assert (Hu : forall x, (0 <= unit53 x * t)%Qc).
  { intros x. unfold Qcle. rewrite unit53_eq. unfold Qclt in Hpos. change (this 0%Qc) with 0%Q in *.
    apply Qle_shift_div_l; [reflexivity|]. rewrite Qmult_0_l. apply Qmult_le_0_compat; [|lra].
    change 0%Q with (inject_Z 0). apply inj_le. lia. }
  split; [split|].
  - exact Hlen.
  - destruct (Hc 0) as (_ & H & _); [lia|]. cbn [firstn] in H. destruct (N.eq_dec (nth 0 cuts 0%N) 0) as [->|Hne]; [reflexivity|].
    exfalso. assert (Hx : (fl (unit53 0 * t) < float_sum [])%Qc) by (apply H; lia).
    apply (Qcle_not_lt _ _ (fl_nonneg G _ (Hu 0%N))). exact Hx.
  - destruct (Hc (length ws)) as (Hb & H & _); [lia|]. rewrite Hall in H.
    destruct (N.eq_dec (nth (length ws) cuts 0%N) (2 ^ 53)) as [|Hne]; [assumption|exfalso].
    set (k := nth (length ws) cuts 0%N) in *. assert (Hk : (k < 2 ^ 53)%N) by lia.
    assert (Hx : (fl (unit53 k * t) < t)%Qc).
    { apply (round_below fl (fl_ok G)); [apply float_sum_double|exact Hpos|].
      rewrite unit53_eq. unfold Qclt in Hpos. change (this 0%Qc) with 0%Q in *.
      apply Qle_shift_div_r; [reflexivity|].
      assert (Hi : (inject_Z (Z.of_N k) <= 9007199254740991)%Q).
      { change 9007199254740991%Q with (inject_Z 9007199254740991). apply inj_le. change (2 ^ 53)%N with 9007199254740992%N in Hk. lia. }
      apply Qle_trans with (9007199254740991 * t)%Q; [apply Qmult_le_compat_r; lra|lra]. }
    apply H in Hx; [|exact Hk]. unfold k in Hx. lia.
  - intros k Hk. destruct (Hc k) as (Hb1 & H1 & _); [lia|]. destruct (Hc (S k)) as (Hb2 & H2 & _); [lia|].
    destruct (N.le_gt_cases (nth k cuts 0%N) (nth (S k) cuts 0%N)) as [|Hgt]; [assumption|exfalso].
    set (x := nth (S k) cuts 0%N) in *. assert (Hx : (x < 2 ^ 53)%N) by lia.
    assert (Hy : (fl (unit53 x * t) < float_sum (firstn k ws))%Qc) by (apply H1; assumption).
    assert (Hz : (fl (unit53 x * t) < float_sum (firstn (S k) ws))%Qc).
    { eapply Qclt_le_trans; [exact Hy|]. now apply float_sum_step. }
    apply H2 in Hz; [|exact Hx]. lia.
  - intros k Hk. destruct (Hc k Hk) as (_ & _ & H). unfold Qclt in Hpos. change (this 0%Qc) with 0%Q in *.
    change (2 ^ 53)%Q with 9007199254740992%Q. fold t.
    setoid_replace (inject_Z (Z.of_N (nth k cuts 0%N)) - 9007199254740992 * (float_sum (firstn k ws) / t))%Q
      with ((inject_Z (Z.of_N (nth k cuts 0%N)) * t - 9007199254740992 * float_sum (firstn k ws)) / t)%Q by (field; lra).
    unfold Qdiv. rewrite Qabs_Qmult. rewrite (Qabs_pos (/ t)) by (apply Qinv_le_0_compat; lra).
    apply Qle_shift_div_r; [assumption|]. now rewrite Qmult_1_l.
  - intros r. destruct (draw_index_stretch G ws r Hn Hpos) as (i & Hi & Hil & Hlo & Hhi).
    exists i. rewrite <- random01_state. split; [exact Hi|]. split; [exact Hil|].
    rewrite random01_unit in Hlo, Hhi. fold t in Hlo, Hhi.
    assert (Hx : (fst (prim_random G r) mod 2 ^ 53 < 2 ^ 53)%N) by (apply N.mod_lt; discriminate).
    set (x := (fst (prim_random G r) mod 2 ^ 53)%N) in *. split.
    + destruct (N.le_gt_cases (nth i cuts 0%N) x) as [|Hgt]; [assumption|exfalso].
      destruct (Hc i) as (_ & H & _); [lia|]. apply H in Hgt; [|exact Hx]. now apply Qcle_not_lt in Hlo.
    + destruct (Hc (S i)) as (_ & H & _); [lia|]. now apply H.
Qed.

(** * Exact sums *)
Lemma exact_snoc : forall ws w, exact_sum (ws ++ [w]) = (exact_sum ws + w)%Qc.
Proof.
  intros ws w. unfold exact_sum. induction ws as [|v ws IH]; cbn [app fold_right]; [ring|]. rewrite IH. ring.
Qed.
Lemma exact_nonneg : forall ws, Forall (fun w => 0 <= w)%Qc ws -> (0 <= exact_sum ws)%Qc.
Proof.
  intros ws H. induction H as [|w ws Hw _ IH]; [apply Qcle_refl|]. cbn [exact_sum fold_right].
  rewrite <- (Qcplus_0_l 0). now apply Qcplus_le_compat.
Qed.

(** When all sums are floats, nothing is rounded. *)
Lemma exact_float_sum : forall ws, Forall Double ws -> (forall k, k <= length ws -> Double (exact_sum (firstn k ws))) ->
  forall k, k <= length ws -> float_sum (firstn k ws) = exact_sum (firstn k ws).
Proof.
  intros ws Hd Hs. induction k as [|k IH]; intros Hk; [reflexivity|].
  rewrite (firstn_snoc 0%Qc ws k Hk), float_sum_snoc, exact_snoc, IH by lia.
  rewrite (round_id fl (fl_ok G) (nth k ws 0%Qc)) by (rewrite Forall_forall in Hd; apply Hd, nth_In, Hk).
  apply (round_id fl (fl_ok G)). rewrite <- exact_snoc, <- firstn_snoc by exact Hk. now apply Hs.
Qed.

(** * The rounding of sums *)
Definition eps : Q := 1 # 9007199254740992.
Lemma fl_near : forall q : Qc, (0 <= q)%Qc -> (q - q * eps <= fl q)%Q /\ (fl q <= q + q * eps)%Q.
Proof.
  intros q H. pose proof (round_relative fl (fl_ok G) q) as Hr. unfold Qcle in H. change (this 0%Qc) with 0%Q in H.
  rewrite (Qabs_pos q) in Hr by exact H. apply Qabs_Qle_condition in Hr. unfold eps. lra.
Qed.

Lemma qc_plus : forall a b : Qc, (this (a + b)%Qc == a + b)%Q.
Proof. intros a b. unfold Qcplus. cbn [this Q2Qc]. apply Qred_correct. Qed.

Lemma float_sum_near : forall ws, Forall (fun w => 0 <= w)%Qc ws -> (Z.of_nat (length ws) <= 2 ^ 50)%Z ->
  (exact_sum ws - exact_sum ws * (3 * inject_Z (Z.of_nat (length ws)) * eps) <= float_sum ws)%Q /\
  (float_sum ws <= exact_sum ws + exact_sum ws * (3 * inject_Z (Z.of_nat (length ws)) * eps))%Q.
Proof.
  intros ws Hn. induction ws as [|w ws IH] using rev_ind; intros Hl.
  { cbn. split; unfold Qle; cbn; lia. }
  apply Forall_app in Hn as [Hn Hw]. inversion Hw as [|? ? Hw0 _]; subst. clear Hw.
  rewrite app_length in *. cbn [length] in *.
  destruct IH as [I1 I2]; [assumption|lia|].
  rewrite float_sum_snoc, exact_snoc.
  pose proof (float_sum_nonneg G ws Hn) as Hs0. pose proof (exact_nonneg ws Hn) as Hx0.
  destruct (fl_near w Hw0) as [W1 W2].
  pose proof (fl_nonneg G w Hw0) as Hf0.
  assert (Hsum : (0 <= float_sum ws + fl w)%Qc) by (rewrite <- (Qcplus_0_l 0); now apply Qcplus_le_compat).
  destruct (fl_near _ Hsum) as [T1 T2]. rewrite qc_plus in T1, T2. rewrite qc_plus.
  unfold Qcle in Hw0, Hs0, Hx0, Hf0. change (this 0%Qc) with 0%Q in *.
  set (n := inject_Z (Z.of_nat (length ws))) in *.
  assert (Hn1 : (inject_Z (Z.of_nat (length ws + 1)) == n + 1)%Q).
  { unfold n. change 1%Q with (inject_Z 1). rewrite <- inj_plus. replace (Z.of_nat (length ws + 1)) with (Z.of_nat (length ws) + 1)%Z by lia. reflexivity. }
  rewrite Hn1.
  assert (Hn0 : (0 <= n <= 1125899906842624)%Q).
  { split; [change 0%Q with (inject_Z 0)|change 1125899906842624%Q with (inject_Z 1125899906842624)]; apply inj_le; lia. }
  set (S := this (float_sum ws)) in *. set (F := this (fl w)) in *. set (X := this (exact_sum ws)) in *.
  set (R := this (fl (float_sum ws + fl w)%Qc)) in *. set (W := this w) in *.
  clearbody n S F X R W. clear - I1 I2 W1 W2 T1 T2 Hw0 Hx0 Hs0 Hf0 Hn0.
  assert (He : (0 < eps)%Q) by reflexivity.
  assert (Hne : (3 * n * eps <= 1 # 2)%Q).
  { apply Qle_trans with (3 * 1125899906842624 * eps)%Q; [|unfold eps; discriminate].
    apply Qmult_le_compat_r; lra. }
  assert (Ha0 : (0 <= 3 * n * eps)%Q) by (apply Qmult_le_0_compat; lra).
  set (a := (3 * n * eps)%Q) in *.
  assert (Hgoal : (3 * (n + 1) * eps == a + 3 * eps)%Q) by (unfold a; ring).
  rewrite Hgoal. clearbody a.
  assert (HXa : (0 <= X * a)%Q) by (now apply Qmult_le_0_compat).
  assert (HWa : (0 <= W * a)%Q) by (now apply Qmult_le_0_compat).
  assert (HXe : (0 <= X * eps)%Q) by (apply Qmult_le_0_compat; lra).
  assert (HWe : (0 <= W * eps)%Q) by (apply Qmult_le_0_compat; lra).
  assert (HXae : (X * a * eps <= X * eps)%Q).
  { setoid_replace (X * a * eps)%Q with (a * (X * eps))%Q by ring.
    setoid_replace (X * eps)%Q with (1 * (X * eps))%Q at 2 by ring. apply Qmult_le_compat_r; lra. }
  assert (HWee : (W * eps * eps <= W * eps)%Q).
  { setoid_replace (W * eps)%Q with (W * eps * 1)%Q at 2 by ring.
    rewrite (Qmult_comm (W * eps) eps), (Qmult_comm (W * eps) 1). apply Qmult_le_compat_r; [unfold eps; lra|assumption]. }
  assert (HSe : (S * eps <= X * eps + X * a * eps)%Q).
  { setoid_replace (X * eps + X * a * eps)%Q with ((X + X * a) * eps)%Q by ring. apply Qmult_le_compat_r; lra. }
  assert (HFe : (F * eps <= W * eps + W * eps * eps)%Q).
  { setoid_replace (W * eps + W * eps * eps)%Q with ((W + W * eps) * eps)%Q by ring. apply Qmult_le_compat_r; lra. }
  split.
  - setoid_replace (X + W - (X + W) * (a + 3 * eps))%Q
      with (X - X * a - X * eps - X * eps - X * eps + W - W * a - W * eps - W * eps - W * eps)%Q by ring.
    assert (HT : (S + F - (S * eps + F * eps) <= R)%Q).
    { setoid_replace (S + F - (S * eps + F * eps))%Q with (S + F - (S + F) * eps)%Q by ring. exact T1. }
    lra.
  - setoid_replace (X + W + (X + W) * (a + 3 * eps))%Q
      with (X + X * a + X * eps + X * eps + X * eps + W + W * a + W * eps + W * eps + W * eps)%Q by ring.
    assert (HT : (R <= S + F + (S * eps + F * eps))%Q).
    { setoid_replace (S + F + (S * eps + F * eps))%Q with (S + F + (S + F) * eps)%Q by ring. exact T2. }
    lra.
Qed.

Lemma true_cuts : forall ws cuts, Forall (fun w => 0 <= w)%Qc ws -> (0 < float_sum ws)%Qc ->
  (Z.of_nat (length ws) <= 2 ^ 48)%Z -> Cuts 1 float_sum ws cuts ->
  Cuts (9 * inject_Z (Z.of_nat (length ws)) + 1) exact_sum ws cuts.
Proof.
  intros ws cuts Hn Hpos Hl [H1 H2 H3 H4 H5]. split; try assumption. intros k Hk. specialize (H5 k Hk).
  assert (Hnk : Forall (fun w => 0 <= w)%Qc (firstn k ws)).
  { rewrite Forall_forall in *. intros w Hw. apply Hn. rewrite <- (firstn_skipn k ws). apply in_or_app. now left. }
  destruct (float_sum_near ws Hn) as [A1 A2]; [lia|].
  assert (Hkl : length (firstn k ws) = k) by (rewrite firstn_length; lia).
  destruct (float_sum_near (firstn k ws) Hnk) as [B1 B2]; [rewrite Hkl; lia|].
  rewrite Hkl in B1, B2.
  pose proof (exact_nonneg ws Hn) as Hx. pose proof (exact_nonneg _ Hnk) as Hxk.
  assert (Hkx : (exact_sum (firstn k ws) <= exact_sum ws)%Q).
  { pose proof (exact_nonneg (skipn k ws)) as Hs.
    assert (Hr : exact_sum ws = (exact_sum (firstn k ws) + exact_sum (skipn k ws))%Qc).
    { rewrite <- (firstn_skipn k ws) at 1. generalize (firstn k ws) as l. intros l. unfold exact_sum.
      induction l as [|v l IH]; cbn [app fold_right]; [ring|]. rewrite IH. ring. }
    rewrite Hr, qc_plus. assert (0 <= exact_sum (skipn k ws))%Qc.
    { apply Hs. rewrite Forall_forall in *. intros w Hw. apply Hn. rewrite <- (firstn_skipn k ws). apply in_or_app. now right. }
    unfold Qcle in H. change (this 0%Qc) with 0%Q in H. lra. }
  unfold Qcle, Qclt in *. change (this 0%Qc) with 0%Q in *.
  assert (Hkn : (inject_Z (Z.of_nat k) <= inject_Z (Z.of_nat (length ws)))%Q) by (apply inj_le; lia).
  assert (Hk0 : (0 <= inject_Z (Z.of_nat k))%Q) by (change 0%Q with (inject_Z 0); apply inj_le; lia).
  assert (Hnn : (inject_Z (Z.of_nat (length ws)) <= 281474976710656)%Q).
  { change 281474976710656%Q with (inject_Z 281474976710656). apply inj_le. lia. }
  set (n := inject_Z (Z.of_nat (length ws))) in *. set (q := inject_Z (Z.of_nat k)) in *.
  set (cut := inject_Z (Z.of_N (nth k cuts 0%N))) in *.
  set (T := this (float_sum ws)) in *. set (S := this (float_sum (firstn k ws))) in *.
  set (X := this (exact_sum ws)) in *. set (Y := this (exact_sum (firstn k ws))) in *.
  clearbody n q cut T S X Y. clear - H5 A1 A2 B1 B2 Hx Hxk Hkx Hkn Hk0 Hnn Hpos.
  change (2 ^ 53)%Q with 9007199254740992%Q in *.
  assert (He : (0 < eps)%Q) by reflexivity.
  set (a := (3 * n * eps)%Q) in *.
  assert (Ha : (0 <= a <= 3 # 32)%Q).
  { split; [apply Qmult_le_0_compat; lra|]. unfold a.
    apply Qle_trans with (3 * 281474976710656 * eps)%Q; [apply Qmult_le_compat_r; lra|unfold eps; discriminate]. }
  assert (Hb : (3 * q * eps <= a)%Q) by (unfold a; apply Qmult_le_compat_r; lra).
  assert (Hn9 : (9007199254740992 * (3 * a) == 9 * n)%Q) by (unfold a, eps; field).
  clearbody a.
  assert (HYb : (Y * (3 * q * eps) <= Y * a)%Q).
  { rewrite (Qmult_comm Y), (Qmult_comm Y a). now apply Qmult_le_compat_r. }
  assert (HYaX : (Y * a <= X * a)%Q) by (apply Qmult_le_compat_r; lra).
  assert (HXpos : (0 < X)%Q).
  { destruct (Qlt_le_dec 0 X) as [|Hz]; [assumption|exfalso].
    assert (X == 0)%Q by lra. rewrite H in A2. lra. }
  assert (HXa : (X * a <= X * (3 # 32))%Q).
  { rewrite (Qmult_comm X a), (Qmult_comm X (3 # 32)). apply Qmult_le_compat_r; lra. }
  assert (HTX : (X * (2 # 3) <= T)%Q) by lra.
  (* the difference of the ratios *)
  assert (Hdiff : (Qabs (S / T - Y / X) <= 3 * a)%Q).
  { setoid_replace (S / T - Y / X)%Q with ((S * X - Y * T) / (T * X))%Q by (field; split; lra).
    assert (HTXpos : (0 < T * X)%Q) by (apply Qmult_lt_0_compat; assumption).
    unfold Qdiv. rewrite Qabs_Qmult. rewrite (Qabs_pos (/ (T * X))) by (apply Qinv_le_0_compat; lra).
    apply Qle_shift_div_r; [assumption|].
    assert (HR : (2 * a * (X * X) <= 3 * a * (T * X))%Q).
    { assert (H0 : (X * (2 # 3) * (3 * a * X) <= T * (3 * a * X))%Q).
      { apply Qmult_le_compat_r; [assumption|]. apply Qmult_le_0_compat; [|lra]. lra. }
      setoid_replace (2 * a * (X * X))%Q with (X * (2 # 3) * (3 * a * X))%Q by ring.
      setoid_replace (3 * a * (T * X))%Q with (T * (3 * a * X))%Q by ring. exact H0. }
    assert (HYXX : (Y * X * a <= X * X * a)%Q).
    { apply Qmult_le_compat_r; [|lra]. apply Qmult_le_compat_r; lra. }
    assert (HSX1 : (S * X <= (Y + Y * a) * X)%Q) by (apply Qmult_le_compat_r; lra).
    assert (HSX2 : ((Y - Y * a) * X <= S * X)%Q) by (apply Qmult_le_compat_r; lra).
    assert (HYT1 : (Y * T <= Y * (X + X * a))%Q).
    { rewrite (Qmult_comm Y T), (Qmult_comm Y (X + X * a)). apply Qmult_le_compat_r; lra. }
    assert (HYT2 : (Y * (X - X * a) <= Y * T)%Q).
    { rewrite (Qmult_comm Y T), (Qmult_comm Y (X - X * a)). apply Qmult_le_compat_r; lra. }
    assert (E1 : ((Y + Y * a) * X == Y * X + Y * X * a)%Q) by ring.
    assert (E2 : ((Y - Y * a) * X == Y * X - Y * X * a)%Q) by ring.
    assert (E3 : (Y * (X + X * a) == Y * X + Y * X * a)%Q) by ring.
    assert (E4 : (Y * (X - X * a) == Y * X - Y * X * a)%Q) by ring.
    assert (E5 : (2 * a * (X * X) == 2 * (X * X * a))%Q) by ring.
    apply Qabs_Qle_condition. split; lra. }
  setoid_replace (cut - 9007199254740992 * (Y / X))%Q
    with ((cut - 9007199254740992 * (S / T)) + 9007199254740992 * (S / T - Y / X))%Q by ring.
  eapply Qle_trans; [apply Qabs_triangle|]. rewrite Qabs_Qmult. rewrite (Qabs_pos 9007199254740992) by discriminate.
  assert (Hd : (9007199254740992 * Qabs (S / T - Y / X) <= 9007199254740992 * (3 * a))%Q).
  { rewrite (Qmult_comm _ (Qabs _)), (Qmult_comm _ (3 * a)). apply Qmult_le_compat_r; [assumption|discriminate]. }
  rewrite Hn9 in Hd. lra.
Qed.

Lemma choices_cuts : forall ws, Forall (fun w => 0 <= w)%Qc ws -> (0 < float_sum ws)%Qc ->
  exists cuts, Cuts 1 float_sum ws cuts /\
    forall r : rng_state G, exists i, choices G (accumulate G ws) 1 r = ROk [i] (snd (prim_random G r)) /\
      i < length ws /\ (nth i cuts 0 <= N.modulo (fst (prim_random G r)) (2 ^ 53) < nth (S i) cuts 0)%N.
Proof.
  intros ws Hn Hpos. destruct (cut_points ws Hn Hpos) as (cuts & H & Hd). exists cuts. split; [exact H|].
  intros r. destruct (Hd r) as (i & Hi & Hl & Hc). exists i. repeat split; try assumption; try apply Hc.
  destruct (draw_stretch G ws r Hn Hpos) as (j & Hj & _). rewrite Hj.
  unfold choices in Hj. destruct (accumulate G ws) as [|q qs] eqn:Ha; [discriminate|]. rewrite <- Ha in *.
  destruct (Qc_leb _ _); [discriminate|]. cbn [draw_indices] in Hj. rewrite Hi in Hj. injection Hj as <- <-. reflexivity.
Qed.

Lemma exact_cuts : forall ws cuts, Forall Double ws ->
  (forall k, k <= length ws -> Double (exact_sum (firstn k ws))) ->
  Cuts 1 float_sum ws cuts -> Cuts 1 exact_sum ws cuts.
Proof.
  intros ws cuts Hd Hs [H1 H2 H3 H4 H5]. split; try assumption. intros k Hk.
  rewrite <- (exact_float_sum ws Hd Hs k Hk). pose proof (exact_float_sum ws Hd Hs (length ws) (le_n _)) as Ht.
  rewrite firstn_all in Ht. rewrite <- Ht. now apply H5.
Qed.
End Share.

Lemma stretch_length : forall err ws cuts i w, Cuts err exact_sum ws cuts -> nth_error ws i = Some w ->
  (Qabs (inject_Z (Z.of_N (nth (S i) cuts 0%N) - Z.of_N (nth i cuts 0%N)) - 2 ^ 53 * (w / exact_sum ws)) <= 2 * err)%Q.
Proof.
  intros err ws cuts i w H Hw.
  assert (Hi : i < length ws) by (apply nth_error_Some; congruence).
  pose proof (cuts_close _ _ _ _ H (S i) ltac:(lia)) as H1.
  pose proof (cuts_close _ _ _ _ H i ltac:(lia)) as H0.
  rewrite (firstn_snoc 0%Qc ws i Hi) in H1. rewrite (nth_error_nth ws i 0%Qc Hw) in H1. rewrite exact_snoc in H1.
  rewrite qc_plus in H1.
  set (a := inject_Z (Z.of_N (nth (S i) cuts 0%N))) in *. set (b := inject_Z (Z.of_N (nth i cuts 0%N))) in *.
  set (P := exact_sum (firstn i ws)) in *. set (T := exact_sum ws) in *.
  unfold Z.sub. rewrite inject_Z_plus, inject_Z_opp. fold a b.
  setoid_replace (a + - b - 2 ^ 53 * (w / T))%Q
    with ((a - 2 ^ 53 * ((P + w) / T)) + - (b - 2 ^ 53 * (P / T)))%Q by (unfold Qdiv; ring).
  eapply Qle_trans; [apply Qabs_triangle|]. rewrite Qabs_opp. lra.
Qed.
