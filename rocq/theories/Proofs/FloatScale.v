(** Rounding to floats and powers of two. *)
From Coq Require Import ZArith QArith Qcanon Qabs Qpower Bool Lia Lqa.
From Verif.Model Require Import Float.
From Verif.Proofs Require Import FloatFacts.
Local Open Scope Q_scope.

(** [M] units of [2 ^ e] are nearest to [x], which has 53 digits before its
    units. *)
Definition At (x : Q) (M e : Z) : Prop :=
  4503599627370496 * 2 ^ e <= x /\ x < 9007199254740992 * 2 ^ e /\
  (Qabs (x - inject_Z M * 2 ^ e) < (1 # 2) * 2 ^ e \/
   Qabs (x - inject_Z M * 2 ^ e) == (1 # 2) * 2 ^ e /\ Z.even M = true).

Lemma at_ext : forall x y M e, x == y -> At x M e -> At y M e.
Proof. intros x y M e H. unfold At. now rewrite H. Qed.

Lemma at_unit : forall x M e M' e', At x M e -> At x M' e' -> ~ (e < e')%Z.
Proof.
  intros x M e M' e' (_ & H & _) (H' & _) Hlt.
  assert (HP : 2 * 2 ^ e <= 2 ^ e'). { rewrite <- pow2_S. apply Qpower_le_compat_l; [lia|discriminate]. }
  lra.
Qed.
Lemma at_unique : forall x M e M' e', At x M e -> At x M' e' -> M = M' /\ e = e'.
Proof.
  intros x M e M' e' H H'. assert (He : e = e').
  { pose proof (at_unit _ _ _ _ _ H H'). pose proof (at_unit _ _ _ _ _ H' H). lia. }
  split; [|exact He]. subst e'. destruct H as (_ & _ & H), H' as (_ & _ & H').
  pose proof (pow2_pos e) as Hu. set (u := 2 ^ e) in *.
  assert (HB : forall K, Qabs (x - inject_Z K * u) < (1 # 2) * u \/ Qabs (x - inject_Z K * u) == (1 # 2) * u /\ Z.even K = true ->
     Qabs (x - inject_Z K * u) <= (1 # 2) * u) by (intros K [K1|[K1 _]]; lra).
  pose proof (HB _ H) as B. pose proof (HB _ H') as B'. apply Qabs_Qle_condition in B, B'.
  assert (Hone : forall K K', (K < K')%Z -> - ((1 # 2) * u) <= x - inject_Z K * u <= (1 # 2) * u ->
      - ((1 # 2) * u) <= x - inject_Z K' * u <= (1 # 2) * u -> K' = (K + 1)%Z /\
      x - inject_Z K * u == (1 # 2) * u /\ x - inject_Z K' * u == - ((1 # 2) * u)).
  { intros K K' Hlt B1 B2. assert (HK : K' = (K + 1)%Z).
    { destruct (Z_lt_le_dec (K + 1) K') as [H2|]; [exfalso|lia].
      assert (Hi : inject_Z (K + 2) <= inject_Z K') by (apply inj_le; lia). rewrite inj_plus in Hi. change (inject_Z 2) with 2 in Hi.
      assert (inject_Z K * u + 2 * u <= inject_Z K' * u).
      { setoid_replace (inject_Z K * u + 2 * u) with ((inject_Z K + 2) * u) by ring. apply Qmult_le_compat_r; lra. }
      lra. }
    split; [exact HK|]. subst K'. rewrite inj_plus in *. change (inject_Z 1) with 1 in *.
    assert (inject_Z K * u + u == (inject_Z K + 1) * u) by ring. split; lra. }
  assert (Heven : forall K K', (K < K')%Z ->
     (Qabs (x - inject_Z K * u) < (1 # 2) * u \/ Qabs (x - inject_Z K * u) == (1 # 2) * u /\ Z.even K = true) ->
     (Qabs (x - inject_Z K' * u) < (1 # 2) * u \/ Qabs (x - inject_Z K' * u) == (1 # 2) * u /\ Z.even K' = true) -> False).
  { intros K K' Hlt P P'. pose proof (HB _ P) as Q. pose proof (HB _ P') as Q'. apply Qabs_Qle_condition in Q, Q'.
    destruct (Hone K K' Hlt Q Q') as (-> & E1 & E2). rewrite E1 in P. rewrite E2, Qabs_opp in P'.
    rewrite !(Qabs_pos ((1 # 2) * u)) in * by lra. destruct P as [P|[_ P]]; [lra|]. destruct P' as [P'|[_ P']]; [lra|].
    rewrite Z.even_add in P'. rewrite P in P'. discriminate. }
  destruct (Z.lt_trichotomy M M') as [Hlt|[Heq|Hlt]]; [exfalso; eapply Heven; eassumption|exact Heq|exfalso; eapply Heven; eassumption].
Qed.
Lemma at_scale : forall x M e f, At x M e -> At (2 ^ f * x) M (e + f).
Proof.
  intros x M e f (H1 & H2 & H3). pose proof (pow2_pos f) as Hf. pose proof (pow2_pos e) as He. unfold At. rewrite pow2_plus.
  set (u := 2 ^ e) in *. set (v := 2 ^ f) in *.
  assert (HD : Qabs (v * x - inject_Z M * (u * v)) == Qabs (x - inject_Z M * u) * v).
  { setoid_replace (v * x - inject_Z M * (u * v)) with ((x - inject_Z M * u) * v) by ring. rewrite Qabs_Qmult.
    now rewrite (Qabs_pos v) by lra. }
  split; [|split].
  - setoid_replace (4503599627370496 * (u * v)) with (4503599627370496 * u * v) by ring. rewrite (Qmult_comm v x).
    apply Qmult_le_compat_r; lra.
  - setoid_replace (9007199254740992 * (u * v)) with (9007199254740992 * u * v) by ring. rewrite (Qmult_comm v x).
    apply Qmult_lt_r; lra.
  - rewrite HD. setoid_replace ((1 # 2) * (u * v)) with ((1 # 2) * u * v) by ring. destruct H3 as [H3|[H3 Hev]].
    + left. apply Qmult_lt_r; assumption.
    + right. split; [|exact Hev]. now rewrite H3.
Qed.

Lemma nearest_even_near : forall n d, (0 < d)%Z ->
  (Z.abs (2 * (n - nearest_even n d * d)) < d)%Z \/
  (Z.abs (2 * (n - nearest_even n d * d)) = d)%Z /\ Z.even (nearest_even n d) = true.
Proof.
  intros n d Hd. unfold nearest_even. pose proof (Z.div_mod n d) as H. pose proof (Z.mod_pos_bound n d Hd) as Hb.
  set (m := (n / d)%Z) in *. assert (Hr : (n - m * d = n mod d)%Z) by lia.
  destruct (Z.compare_spec (2 * (n - m * d)) d) as [He|Hl|Hg].
  - destruct (Z.even m) eqn:Ev; [right; split; [lia|exact Ev]|]. right. split; [lia|].
    rewrite Z.even_add, Ev. reflexivity.
  - left. lia.
  - left. lia.
Qed.

Lemma round_pos_at : forall n d, (0 < n)%Z -> (0 < d)%Z ->
  exists M e, round_pos n d = inject_Z M * 2 ^ e /\ At (inject_Z n / inject_Z d) M e.
Proof.
  intros n d Hn Hd. unfold round_pos. destruct (ratio_bounds n d Hn Hd) as [B1 B2].
  set (k := (Z.log2 n - Z.log2 d - 53)%Z) in *.
  pose proof (scale_spec n d k Hd) as S1. destruct (scale n d k) as [n1 d1]. destruct S1 as [Hd1 S1].
  set (e := if (2 ^ 53 * d1 <=? n1)%Z then (k + 1)%Z else k).
  assert (HD : 0 < inject_Z d) by (change 0 with (inject_Z 0); now apply inj_lt).
  assert (HD1 : 0 < inject_Z d1) by (change 0 with (inject_Z 0); now apply inj_lt).
  set (x := inject_Z n / inject_Z d).
  assert (Hx : x * inject_Z d == inject_Z n) by (unfold x; field; lra).
  assert (Hu : 0 < 2 ^ k) by apply pow2_pos.
  assert (L1 : 4503599627370496 * 2 ^ k < x) by (apply (Qmult_lt_r _ _ (inject_Z d) HD); lra).
  assert (L2 : x < 18014398509481984 * 2 ^ k) by (apply (Qmult_lt_r _ _ (inject_Z d) HD); lra).
  assert (Hx1 : x * inject_Z d1 == inject_Z n1 * 2 ^ k).
  { apply (Qmult_inj_r _ _ (inject_Z d)); [lra|].
    setoid_replace (x * inject_Z d1 * inject_Z d) with (x * inject_Z d * inject_Z d1) by ring. rewrite Hx, S1. ring. }
  assert (Hrange : 4503599627370496 * 2 ^ e <= x /\ x < 9007199254740992 * 2 ^ e).
  { unfold e. destruct (Z.leb_spec (2 ^ 53 * d1) n1) as [Hc|Hc].
    - rewrite pow2_S. apply inj_le in Hc. rewrite inj_mult in Hc.
      change (inject_Z (2 ^ 53)) with 9007199254740992 in *.
      split; [|lra]. apply (Qmult_le_r _ _ (inject_Z d1) HD1). rewrite Hx1.
      assert (9007199254740992 * inject_Z d1 * 2 ^ k <= inject_Z n1 * 2 ^ k) by (apply Qmult_le_compat_r; lra).
      setoid_replace (4503599627370496 * (2 * 2 ^ k) * inject_Z d1) with (9007199254740992 * inject_Z d1 * 2 ^ k) by ring.
      assumption.
    - apply inj_lt in Hc. rewrite inj_mult in Hc.
      change (inject_Z (2 ^ 53)) with 9007199254740992 in *.
      split; [lra|]. apply (Qmult_lt_r _ _ (inject_Z d1) HD1). rewrite Hx1.
      assert (inject_Z n1 * 2 ^ k < 9007199254740992 * inject_Z d1 * 2 ^ k) by (apply Qmult_lt_r; assumption).
      setoid_replace (9007199254740992 * 2 ^ k * inject_Z d1) with (9007199254740992 * inject_Z d1 * 2 ^ k) by ring.
      assumption. }
  clearbody e. clear B1 B2 L1 L2 Hx1 S1 Hd1 HD1 n1 d1 Hu. clear k.
  pose proof (scale_spec n d e Hd) as S2. destruct (scale n d e) as [n2 d2]. destruct S2 as [Hd2 S2].
  assert (HD2 : 0 < inject_Z d2) by (change 0 with (inject_Z 0); now apply inj_lt).
  assert (Hx2 : x * inject_Z d2 == inject_Z n2 * 2 ^ e).
  { apply (Qmult_inj_r _ _ (inject_Z d)); [lra|].
    setoid_replace (x * inject_Z d2 * inject_Z d) with (x * inject_Z d * inject_Z d2) by ring. rewrite Hx, S2. ring. }
  exists (nearest_even n2 d2), e. split; [reflexivity|]. destruct Hrange as [R1 R2]. split; [exact R1|]. split; [exact R2|].
  pose proof (nearest_even_near n2 d2 Hd2) as HM. set (M := nearest_even n2 d2) in *.
  assert (Hu : 0 < 2 ^ e) by apply pow2_pos. set (u := 2 ^ e) in *.
  assert (Hdiff : Qabs (x - inject_Z M * u) * (2 * inject_Z d2) == inject_Z (Z.abs (2 * (n2 - M * d2))) * u).
  { assert (HA : inject_Z (Z.abs (2 * (n2 - M * d2))) == Qabs (inject_Z (2 * (n2 - M * d2)))).
    { reflexivity. }
    rewrite HA. rewrite <- (Qabs_pos u) at 2 by lra. rewrite <- (Qabs_pos (2 * inject_Z d2)) at 1 by lra.
    rewrite <- !Qabs_Qmult. apply Qabs_wd. rewrite inj_mult, inj_minus, inj_mult. change (inject_Z 2) with 2.
    setoid_replace ((x - inject_Z M * u) * (2 * inject_Z d2)) with (2 * (x * inject_Z d2) - 2 * (inject_Z M * inject_Z d2) * u) by ring.
    rewrite Hx2. ring. }
  destruct HM as [HM|[HM Hev]].
  - left. apply inj_lt in HM. apply (Qmult_lt_r _ _ (2 * inject_Z d2)); [lra|]. rewrite Hdiff.
    setoid_replace ((1 # 2) * u * (2 * inject_Z d2)) with (inject_Z d2 * u) by ring. apply Qmult_lt_r; assumption.
  - right. split; [|exact Hev]. apply (Qmult_inj_r _ _ (2 * inject_Z d2)); [lra|]. rewrite Hdiff, HM. ring.
Qed.

Lemma round_pos_scale : forall n d n' d' f, (0 < n)%Z -> (0 < d)%Z -> (0 < n')%Z -> (0 < d')%Z ->
  inject_Z n' / inject_Z d' == 2 ^ f * (inject_Z n / inject_Z d) ->
  round_pos n' d' == 2 ^ f * round_pos n d.
Proof.
  intros n d n' d' f Hn Hd Hn' Hd' Hx. destruct (round_pos_at n d Hn Hd) as (M & e & -> & HA).
  destruct (round_pos_at n' d' Hn' Hd') as (M' & e' & -> & HA').
  apply (at_ext _ _ _ _ Hx) in HA'. destruct (at_unique _ _ _ _ _ HA' (at_scale _ _ _ f HA)) as [-> ->].
  rewrite pow2_plus. ring.
Qed.

Lemma Qc_ratio : forall q : Qc, this q == inject_Z (Qnum q) / inject_Z (Zpos (Qden q)).
Proof. intros [[a b] H]. cbn [this Qnum Qden]. rewrite <- Qmake_Qdiv. reflexivity. Qed.
Lemma Qnum_sign : forall q : Qc, ((0 < Qnum q)%Z <-> 0 < q) /\ ((Qnum q < 0)%Z <-> q < 0) /\ ((Qnum q = 0)%Z <-> q == 0).
Proof.
  intros [[a b] H]. cbn [this Qnum]. unfold Qlt, Qeq. cbn [Qnum Qden]. rewrite !Z.mul_0_l, !Z.mul_1_r.
  split; [tauto|]. split; tauto.
Qed.

Theorem ieee_scale : forall (e : Z) (q : Qc), ieee_round (Q2Qc (2 ^ e) * q)%Qc = (Q2Qc (2 ^ e) * ieee_round q)%Qc.
Proof.
  intros e q. set (q' := (Q2Qc (2 ^ e) * q)%Qc).
  assert (Hq' : this q' == 2 ^ e * this q).
  { unfold q', Qcmult. cbn [this Q2Qc]. now rewrite !Qred_correct. }
  clearbody q'. pose proof (pow2_pos e) as Hu. pose proof (Qnum_sign q) as (P1 & P2 & P3). pose proof (Qnum_sign q') as (P1' & P2' & P3').
  pose proof (Qc_ratio q) as R. pose proof (Qc_ratio q') as R'.
  assert (HS : (0 < q -> 0 < q') /\ (q < 0 -> q' < 0)).
  { rewrite Hq'. split; intros K.
    - rewrite <- (Qmult_0_l q). rewrite !(Qmult_comm _ q), Qmult_0_r, <- (Qmult_0_l (2 ^ e)). apply Qmult_lt_r; assumption.
    - rewrite <- (Qmult_0_l (2 ^ e)). rewrite (Qmult_comm _ q). apply Qmult_lt_r; assumption. }
  destruct (Z.lt_trichotomy 0 (Qnum q)) as [Hs|[Hs|Hs]].
  - assert (Hs' : (0 < Qnum q')%Z) by (apply P1'; apply HS; apply P1; exact Hs).
    apply Qc_is_canon. unfold ieee_round, Qcmult. destruct (Z.eqb_spec (Qnum q') 0); [lia|]. destruct (Z.eqb_spec (Qnum q) 0); [lia|].
    destruct (Z.ltb_spec 0 (Qnum q')); [|lia]. destruct (Z.ltb_spec 0 (Qnum q)); [|lia].
    cbn [this Q2Qc]. rewrite !Qred_correct. apply round_pos_scale; try lia. rewrite <- R, <- R'. exact Hq'.
  - symmetry in Hs. assert (Hs' : (Qnum q' = 0)%Z) by (apply P3'; rewrite Hq'; apply P3 in Hs; rewrite Hs; ring).
    unfold ieee_round. rewrite Hs, Hs'. cbn. ring.
  - assert (Hs' : (Qnum q' < 0)%Z) by (apply P2'; apply HS; apply P2; exact Hs).
    apply Qc_is_canon. unfold ieee_round, Qcmult. destruct (Z.eqb_spec (Qnum q') 0); [lia|]. destruct (Z.eqb_spec (Qnum q) 0); [lia|].
    destruct (Z.ltb_spec 0 (Qnum q')); [lia|]. destruct (Z.ltb_spec 0 (Qnum q)); [lia|].
    cbn [this Q2Qc]. rewrite !Qred_correct.
    rewrite (round_pos_scale (- Qnum q) (Zpos (Qden q)) (- Qnum q') (Zpos (Qden q')) e); [ring|lia|lia|lia|lia|].
    rewrite !inject_Z_opp. setoid_replace (- inject_Z (Qnum q') / inject_Z (Z.pos (Qden q'))) with (- (inject_Z (Qnum q') / inject_Z (Z.pos (Qden q')))) by (unfold Qdiv; ring).
    setoid_replace (- inject_Z (Qnum q) / inject_Z (Z.pos (Qden q))) with (- (inject_Z (Qnum q) / inject_Z (Z.pos (Qden q)))) by (unfold Qdiv; ring).
    rewrite <- R, <- R', Hq'. ring.
Qed.
