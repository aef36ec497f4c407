(** Weighted choice in terms of running float sums. *)
From Coq Require Import NArith ZArith QArith Qcanon Qabs Bool Arith List Lia Lqa.
From Verif.Model Require Import Str Float Rng.
From Verif.Spec Require Import Comb.
From Verif.Proofs Require Import FloatFacts RngFacts.
Import ListNotations.
Local Open Scope nat_scope.

Lemma round_fixed : forall round, Rounding round -> forall q, round q = q <-> Double q.
Proof.
  intros round H q. split.
  - intros <-. now apply round_double.
  - now apply round_id.
Qed.

Lemma frac : forall q : Q, (q == inject_Z (Qnum q) / inject_Z (Zpos (Qden q)))%Q.
Proof. intros [n d]. cbn [Qnum Qden]. unfold Qdiv, Qinv, Qmult, Qeq. cbn. lia. Qed.

Lemma close_pos : forall q : Q, (0 < q)%Q -> exists f, isD f /\ (Qabs (q - f) <= q * (1 # 9007199254740992))%Q.
Proof.
  intros q Hq. assert (Hn : (0 < Qnum q)%Z) by (unfold Qlt in Hq; cbn in Hq; lia).
  destruct (round_pos_spec (Qnum q) (Zpos (Qden q)) Hn eq_refl) as (Df & _ & Hf).
  exists (round_pos (Qnum q) (Zpos (Qden q))). split; [assumption|]. apply Hf, frac.
Qed.

Lemma round_relative : forall round, Rounding round -> forall q : Qc,
  (Qabs (q - round q) <= Qabs q * (1 # 9007199254740992))%Q.
Proof.
  intros round H q.
  assert (He : exists f, isD f /\ (Qabs (q - f) <= Qabs q * (1 # 9007199254740992))%Q).
  { destruct (Q_dec q 0) as [[Hq|Hq]|Hq].
    - destruct (close_pos (- q)) as (f & Df & Hf); [lra|]. exists (- f)%Q. split; [now apply isD_opp|].
      rewrite (Qabs_neg q) by lra. rewrite <- Qabs_opp.
      setoid_replace (- (q - - f))%Q with (- q - f)%Q by ring. exact Hf.
    - destruct (close_pos q Hq) as (f & Df & Hf). exists f. split; [assumption|].
      rewrite (Qabs_pos q) by lra. exact Hf.
    - exists 0%Q. split; [exact isD_0|]. rewrite Hq. discriminate. }
  destruct He as (f & Df & Hf). eapply Qle_trans; [apply (round_near round H q f Df)|exact Hf].
Qed.

Section Draw.
Variable G : rng_impl.
Notation fl := (fl G).
Notation float_sum := (Comb.float_sum fl).

Lemma float_sum_snoc : forall ws w, float_sum (ws ++ [w]) = fl (float_sum ws + fl w)%Qc.
Proof. intros ws w. unfold Comb.float_sum. now rewrite fold_left_app. Qed.

Lemma firstn_snoc : forall {A} (d : A) l i, i < length l -> firstn (S i) l = firstn i l ++ [nth i l d].
Proof.
  induction l as [|x l IH]; intros i Hi; [cbn in Hi; lia|]. destruct i as [|i]; [reflexivity|].
  cbn [firstn nth app]. f_equal. apply IH. cbn in Hi. lia.
Qed.

Lemma cum_float_sum : forall ws i, i < length ws -> nth i (accumulate G ws) 0%Qc = float_sum (firstn (S i) ws).
Proof.
  intros ws. induction i as [|i IH]; intros Hi.
  - rewrite cum_0 by (intros ->; cbn in Hi; lia). rewrite (firstn_snoc 0%Qc) by assumption. cbn [firstn app].
    unfold Comb.float_sum. cbn [fold_left]. rewrite Qcplus_0_l. symmetry. apply (round_id _ (fl_ok G)).
    apply (round_double _ (fl_ok G)).
  - rewrite cum_S, IH by lia. rewrite (firstn_snoc 0%Qc ws (S i)) by assumption. now rewrite float_sum_snoc.
Qed.

Lemma float_sum_nonneg : forall ws, Forall (fun w => 0 <= w)%Qc ws -> (0 <= float_sum ws)%Qc.
Proof.
  intros ws H. induction ws as [|w ws IH] using rev_ind; [apply Qcle_refl|].
  rewrite float_sum_snoc. apply Forall_app in H as [H1 H2]. inversion H2; subst.
  apply fl_nonneg. rewrite <- (Qcplus_0_l 0). apply Qcplus_le_compat; [auto|now apply fl_nonneg].
Qed.

Lemma draw_index_stretch : forall ws (r : rng_state G),
  Forall (fun w => 0 <= w)%Qc ws -> (0 < float_sum ws)%Qc ->
  let x := fl (fst (random01 G r) * float_sum ws)%Qc in
  exists i, draw_index G (accumulate G ws) r = (i, snd (random01 G r)) /\
    i < length ws /\ (float_sum (firstn i ws) <= x)%Qc /\ (x < float_sum (firstn (S i) ws))%Qc.
Proof.
  intros ws r Hnn Hpos x.
  assert (Hlen : 0 < length ws) by (destruct ws; [now apply Qclt_not_eq in Hpos|cbn; lia]).
  assert (Hx0 : (0 <= x)%Qc) by now apply fl_draw_nonneg.
  assert (Hxt : (x < float_sum ws)%Qc).
  { apply fl_draw_below; [|assumption]. rewrite <- accumulate_sum.
    destruct (exists_last (l := accumulate G ws)) as (l & z & Hl).
    { intros H0. apply (f_equal (@length Qc)) in H0. rewrite accumulate_length in H0. cbn in H0. lia. }
    rewrite Hl, last_last. replace z with (nth (length l) (accumulate G ws) 0%Qc); [apply cum_double|].
    rewrite Hl, app_nth2, Nat.sub_diag by lia. reflexivity. }
  unfold draw_index. rewrite accumulate_sum. fold float_sum.
  pose proof (bisect_spec (pred (length ws)) (accumulate G ws) x 0 (pred (length ws))) as Hb.
  rewrite accumulate_length. subst x. destruct (random01 G r) as [u r1]. cbn [fst snd] in *.
  set (x := fl (u * float_sum ws)%Qc) in *. destruct Hb as (H1 & H2 & H3); [lia|lia|].
  eexists. split; [reflexivity|]. set (i := bisect_right _ _ _ _ _) in *. clearbody i x.
  split; [lia|]. split.
  - destruct H3 as [->|H3]; [exact Hx0|]. destruct i as [|i]; [exact Hx0|].
    cbn [pred] in H3. rewrite cum_float_sum in H3 by lia. exact H3.
  - destruct H2 as [Hi|H2].
    + replace (S i) with (length ws) by lia. now rewrite firstn_all.
    + rewrite cum_float_sum in H2 by lia. exact H2.
Qed.

Lemma draw_stretch : forall ws (r : rng_state G),
  Forall (fun w => 0 <= w)%Qc ws -> (0 < float_sum ws)%Qc ->
  let x := fl (fst (random01 G r) * float_sum ws)%Qc in
  exists i, choices G (accumulate G ws) 1 r = ROk [i] (snd (random01 G r)) /\
    i < length ws /\ (float_sum (firstn i ws) <= x)%Qc /\ (x < float_sum (firstn (S i) ws))%Qc.
Proof.
  intros ws r Hnn Hpos x. destruct (draw_index_stretch ws r Hnn Hpos) as (i & Hi & H).
  exists i. split; [|exact H]. unfold choices. destruct (accumulate G ws) as [|c cs] eqn:Hc.
  { destruct ws; [now apply Qclt_not_eq in Hpos|discriminate]. }
  rewrite <- Hc in *. rewrite accumulate_sum.
  destruct (Qc_leb _ _) eqn:Hle; [apply Qc_leb_spec in Hle; now apply Qcle_not_lt in Hle|].
  cbn [draw_indices]. now rewrite Hi.
Qed.

Lemma absorbed_never : forall ws k (r : rng_state G) is r' i,
  Forall (fun w => 0 <= w)%Qc ws ->
  float_sum (firstn (S i) ws) = float_sum (firstn i ws) ->
  choices G (accumulate G ws) k r = ROk is r' -> ~ In i is.
Proof.
  intros ws k r is r' i Hnn Heq H.
  assert (Hpos : (0 < float_sum ws)%Qc) by (rewrite <- accumulate_sum; now apply choices_ok in H).
  unfold choices in H. destruct (accumulate G ws) as [|c cs] eqn:Hc; [discriminate|]. rewrite <- Hc in *. clear c cs Hc.
  destruct (Qc_leb _ _); [discriminate|]. revert r is r' H. induction k as [|k IH]; intros r is r' H; cbn [draw_indices] in H.
  - injection H as <- _. intros [].
  - destruct (draw_index_stretch ws r Hnn Hpos) as (j & Hj & _ & Hlo & Hhi). rewrite Hj in H.
    destruct (draw_indices G (accumulate G ws) k _) as [is1 r1] eqn:Hd. injection H as <- <-.
    intros [->|Hin]; [|now apply (IH (snd (random01 G r)) is1 r1); [rewrite Hd|]].
    rewrite Heq in Hhi. now apply Qcle_not_lt in Hlo.
Qed.

(** Half is too little to move 2^53. *)
Lemma absorbed_half : float_sum (firstn 2 [Q2Qc (9007199254740992 # 1); Q2Qc (1 # 2)])
  = float_sum (firstn 1 [Q2Qc (9007199254740992 # 1); Q2Qc (1 # 2)]).
Proof.
  set (b := Q2Qc (9007199254740992 # 1)). set (h := Q2Qc (1 # 2)).
  assert (Db : Double b) by (exists (2 ^ 53)%Z, 0%Z; split; [lia|reflexivity]).
  assert (Dh : Double h) by (exists 1%Z, (-1)%Z; split; [lia|reflexivity]).
  unfold Comb.float_sum. cbn [firstn fold_left]. rewrite Qcplus_0_l.
  rewrite !(round_id _ (fl_ok G) b Db), (round_id _ (fl_ok G) h Dh).
  set (q := (b + h)%Qc).
  assert (Hq : (q == (9007199254740992 # 1) + (1 # 2))%Q) by reflexivity.
  pose proof (round_near _ (fl_ok G) q b Db) as Hn. change (this b) with (9007199254740992 # 1)%Q in Hn.
  rewrite Hq in Hn. rewrite (Qabs_pos (_ - (9007199254740992 # 1))) in Hn by discriminate.
  apply Qabs_Qle_condition in Hn.
  pose proof (round_ge _ (fl_ok G) q (9007199254740992 # 1) Db ltac:(rewrite Hq; discriminate)) as Hge.
  apply Qc_is_canon. change (this b) with (9007199254740992 # 1)%Q.
  apply Qle_antisym; [|exact Hge].
  destruct (round_double _ (fl_ok G) q) as (m & e & Hm & He). rewrite He in *.
  destruct (Z_lt_le_dec 0 e) as [Hpe|Hne].
  - (* a multiple of 2 *)
    assert (Hmul : exists z, (inject_Z m * 2 ^ e == inject_Z z)%Q /\ Z.even z = true).
    { exists (m * 2 ^ e)%Z. split; [rewrite inj_mult, pow2_Z by lia; reflexivity|].
      rewrite Z.even_mul, Z.even_pow by lia. apply orb_true_r. }
    destruct Hmul as (z & Hz & Hev). rewrite Hz in *.
    assert (Hlt : (inject_Z z < inject_Z (9007199254740992 + 2))%Q) by (rewrite inj_plus; change (inject_Z 2) with 2%Q; change (inject_Z 9007199254740992) with (9007199254740992 # 1)%Q; lra).
    apply lt_inj in Hlt. apply (inj_le z 9007199254740992).
    assert (z <> 9007199254740993)%Z by (intros ->; discriminate). lia.
  - assert (Hp : (2 ^ e <= 1)%Q).
    { assert (H1 : (2 ^ e * 2 ^ (- e) == 1)%Q) by (rewrite <- pow2_plus, Z.add_opp_diag_r; reflexivity).
      rewrite (pow2_Z (- e)) in H1 by lia.
      assert (1 <= inject_Z (2 ^ (- e)))%Q by (apply (inj_le 1); pose proof (Z.pow_pos_nonneg 2 (- e)); lia).
      pose proof (pow2_pos e). nra. }
    assert (Hmz : (inject_Z m <= (9007199254740992 # 1))%Q) by (apply (inj_le m 9007199254740992); lia).
    pose proof (pow2_pos e). nra.
Qed.
End Draw.
