(** Weighted draws (Model/Rng.v) against Spec/Comb.v. *)
From Coq Require Import ZArith QArith Qcanon Qpower Bool Arith List Lia Lqa Permutation.
From Verif.Model Require Import Str Float Rng.
From Verif.Spec Require Import Text Comb.
From Verif.Proofs Require Import CommandFacts FloatFacts.
Import ListNotations.
Local Open Scope nat_scope.

Lemma Qc_ltb_spec : forall a b, Qc_ltb a b = true <-> (a < b)%Qc.
Proof.
  intros a b. unfold Qc_ltb, Qclt. rewrite negb_true_iff.
  destruct (Qle_bool b a) eqn:E.
  - apply Qle_bool_iff in E. split; [discriminate|]. intros H. exfalso.
    apply (Qlt_not_le a b); assumption.
  - split; [|reflexivity]. intros _. apply Qnot_le_lt. intros H.
    apply Qle_bool_iff in H. congruence.
Qed.

Lemma Qc_ltb_false : forall a b, Qc_ltb a b = false <-> (b <= a)%Qc.
Proof.
  intros a b. unfold Qc_ltb, Qcle. rewrite negb_false_iff. apply Qle_bool_iff.
Qed.

Lemma Qc_leb_spec : forall a b, Qc_leb a b = true <-> (a <= b)%Qc.
Proof. intros. unfold Qc_leb, Qcle. apply Qle_bool_iff. Qed.

Section WithRng.
Variable G : rng_impl.
Notation rng := (rng_state G).

Lemma random01_range : forall r : rng,
  (0 <= fst (random01 G r))%Qc /\ (fst (random01 G r) < 1)%Qc.
Proof.
  intros r. unfold random01. destruct (prim_random G r) as [x r']. cbn [fst].
  set (k := (x mod N.pos two53)%N).
  assert (Hk : (k < N.pos two53)%N) by (apply N.mod_lt; discriminate).
  assert (Hz : (0 <= Z.of_N k < Z.pos two53)%Z) by lia.
  unfold Qcle, Qclt. cbn [this Q2Qc]. split.
  - rewrite !Qred_correct. unfold Qle. cbn [Qnum Qden]. lia.
  - rewrite !Qred_correct. unfold Qlt. cbn [Qnum Qden]. lia.
Qed.

Lemma randbelow_lt : forall n (r : rng), 0 < n -> fst (randbelow G n r) < n.
Proof.
  intros n r Hn. unfold randbelow. destruct (prim_below G (N.of_nat n) r) as [x r'].
  cbn [fst]. assert ((x mod N.of_nat n < N.of_nat n)%N) by (apply N.mod_lt; lia). lia.
Qed.

(** [bisect_right] stops where the neighbouring entries enclose [x], sorted
    or not. *)
Lemma bisect_spec : forall fuel a x lo hi, hi - lo <= fuel -> lo <= hi ->
  let i := bisect_right fuel a x lo hi in
  lo <= i <= hi /\
  (i = hi \/ (x < nth i a 0%Qc)%Qc) /\
  (i = lo \/ (nth (pred i) a 0%Qc <= x)%Qc).
Proof.
  induction fuel as [|fuel IH]; intros a x lo hi Hf Hlh; cbn zeta; cbn [bisect_right].
  - assert (lo = hi) by lia. subst. repeat split; auto.
  - destruct (Nat.ltb_spec lo hi) as [Hlt|Hge]; [|assert (lo = hi) by lia; subst; repeat split; auto].
    pose proof (Nat.div2_odd (lo + hi)) as Hd.
    assert (Hm : lo <= Nat.div2 (lo + hi) < hi).
    { destruct (Nat.odd (lo + hi)); cbn in Hd; lia. }
    set (mid := Nat.div2 (lo + hi)) in *. clearbody mid.
    destruct (Qc_ltb x (nth mid a 0%Qc)) eqn:E.
    + destruct (IH a x lo mid) as (H1 & H2 & H3); [lia|lia|].
      repeat split; try lia; [|assumption].
      right. destruct H2 as [->|H2]; [now apply Qc_ltb_spec|assumption].
    + destruct (IH a x (S mid) hi) as (H1 & H2 & H3); [lia|lia|].
      repeat split; try lia; [assumption|].
      right. destruct H3 as [->|H3]; [cbn; now apply Qc_ltb_false|assumption].
Qed.

(** * Cumulative weights *)
Fixpoint sumQ (ws : list Qc) : Qc :=
  match ws with [] => 0%Qc | w :: ws' => (w + sumQ ws')%Qc end.

Lemma last_nth : forall {A} (l : list A) d, last l d = nth (pred (length l)) l d.
Proof.
  induction l as [|x l IH]; intros d; [reflexivity|]. cbn [last length pred].
  destruct l as [|y l]; [reflexivity|]. rewrite IH. reflexivity.
Qed.

Lemma firstn_snoc_nth : forall (ws : list Qc) i, i < length ws ->
  sumQ (firstn (S i) ws) = (sumQ (firstn i ws) + nth i ws 0)%Qc.
Proof.
  induction ws as [|w ws IH]; cbn [length]; intros i Hi; [lia|].
  destruct i as [|i]; cbn [firstn sumQ nth]; [now rewrite Qcplus_comm|].
  specialize (IH i ltac:(lia)). cbn [firstn] in IH. rewrite IH.
  now rewrite !Qcplus_assoc.
Qed.

Notation fl := (fl G).
Notation accumulate := (accumulate G).
Notation accumulate_from := (accumulate_from G).
Notation cum ws i := (nth i (accumulate ws) 0%Qc).

Lemma accumulate_from_length : forall ws acc, length (accumulate_from acc ws) = length ws.
Proof. induction ws; cbn; intros; auto. Qed.

Lemma accumulate_length : forall ws, length (accumulate ws) = length ws.
Proof. destruct ws; cbn; [reflexivity|]. now rewrite accumulate_from_length. Qed.

Lemma accumulate_last : forall ws, last (accumulate ws) 0%Qc = cum ws (pred (length ws)).
Proof. intros ws. now rewrite last_nth, accumulate_length. Qed.

Lemma accumulate_from_step : forall ws acc i, S i < length ws ->
  nth (S i) (accumulate_from acc ws) 0%Qc
  = fl (nth i (accumulate_from acc ws) 0 + fl (nth (S i) ws 0))%Qc.
Proof.
  induction ws as [|w ws IH]; cbn [length]; intros acc i Hi; [lia|].
  destruct ws as [|v ws]; [cbn in Hi; lia|]. destruct i as [|i]; [reflexivity|].
  cbn [accumulate_from Rng.accumulate_from] in *.
  specialize (IH (fl (acc + fl w)%Qc) i ltac:(cbn in *; lia)). exact IH.
Qed.

Lemma cum_0 : forall ws, ws <> [] -> cum ws 0 = fl (nth 0 ws 0%Qc).
Proof. intros [|w ws] H; [congruence|reflexivity]. Qed.

Lemma cum_S : forall ws i, S i < length ws -> cum ws (S i) = fl (cum ws i + fl (nth (S i) ws 0))%Qc.
Proof.
  intros [|w ws] i Hi; [cbn in Hi; lia|]. cbn [length] in Hi.
  destruct ws as [|v ws]; [cbn in Hi; lia|]. destruct i as [|i]; [reflexivity|].
  exact (accumulate_from_step (v :: ws) (fl w) i ltac:(lia)).
Qed.

Lemma cum_double : forall ws i, Double (cum ws i).
Proof.
  intros ws i. destruct (le_lt_dec (length ws) i) as [H|H].
  { rewrite nth_overflow by now rewrite accumulate_length. exact isD_0. }
  destruct i as [|i].
  - rewrite cum_0 by (intros ->; cbn in H; lia). apply round_double, fl_ok.
  - rewrite cum_S by assumption. apply round_double, fl_ok.
Qed.

Lemma fl_pos : forall w, (0 < fl w)%Qc -> (0 < w)%Qc.
Proof.
  intros w H. apply Qcnot_le_lt. intros Hle. apply (Qclt_not_le _ _ H).
  rewrite <- (round_0 fl (fl_ok G)) at 1. now apply round_mono; [apply fl_ok|].
Qed.

Lemma fl_nonneg : forall w, (0 <= w)%Qc -> (0 <= fl w)%Qc.
Proof. intros w H. apply (round_nonneg fl (fl_ok G)). exact H. Qed.

(** A positive weight is not rounded away. *)
Lemma fl_quarter : forall w, (0 < w)%Qc -> (w <= 4 * fl w)%Q.
Proof.
  intros w H. assert (Hn : (0 < Qnum w)%Z).
  { unfold Qclt, Qlt in H. cbn in H. lia. }
  destruct (ratio_bounds (Qnum w) (Zpos (Qden w)) Hn eq_refl) as [B1 B2].
  set (k := (Z.log2 (Qnum w) - Z.log2 (Zpos (Qden w)) - 53)%Z) in *.
  assert (Hd : (0 < inject_Z (Zpos (Qden w)))%Q) by reflexivity.
  assert (Hw : (w * inject_Z (Zpos (Qden w)) == inject_Z (Qnum w))%Q).
  { destruct w as [[a b] Hc]. cbn [this Qnum Qden]. rewrite (Qmake_Qdiv a b). field. discriminate. }
  assert (H1 : (4503599627370496 * 2 ^ k <= w)%Q).
  { apply (Qmult_le_r _ _ _ Hd). rewrite Hw. apply Qlt_le_weak, B1. }
  assert (H2 : (w <= 4 * (4503599627370496 * 2 ^ k))%Q).
  { apply (Qmult_le_r _ _ _ Hd). rewrite Hw. apply Qlt_le_weak.
    setoid_replace (4 * (4503599627370496 * 2 ^ k) * inject_Z (Zpos (Qden w)))%Q
      with (18014398509481984 * 2 ^ k * inject_Z (Zpos (Qden w)))%Q by ring. exact B2. }
  assert (H3 : (4503599627370496 * 2 ^ k <= fl w)%Q).
  { apply (round_ge fl (fl_ok G)); [|exact H1]. exists 4503599627370496%Z, k. split; [vm_compute; discriminate|reflexivity]. }
  lra.
Qed.

Lemma fl_lt_0 : forall w, (0 < w)%Qc -> (0 < fl w)%Qc.
Proof. intros w H. pose proof (fl_quarter w H). unfold Qclt in *. change (this 0%Qc) with 0%Q in *. lra. Qed.

(** A cumulative weight above the previous one comes from a positive weight. *)
Lemma cum_grows : forall ws i, S i < length ws -> (cum ws i < cum ws (S i))%Qc -> (0 < nth (S i) ws 0)%Qc.
Proof.
  intros ws i Hi H. apply fl_pos. apply Qcnot_le_lt. intros Hle. apply (Qclt_not_le _ _ H).
  rewrite cum_S by assumption. rewrite <- (round_id fl (fl_ok G) (cum ws i)) at 2 by apply cum_double.
  apply round_mono; [apply fl_ok|]. rewrite <- (Qcplus_0_r (cum ws i)) at 2.
  apply Qcplus_le_compat; [apply Qcle_refl|assumption].
Qed.

Lemma cum_step_le : forall ws i, Forall (fun w => 0 <= w)%Qc ws -> S i < length ws -> (cum ws i <= cum ws (S i))%Qc.
Proof.
  intros ws i Hnn Hi. rewrite cum_S by assumption.
  rewrite <- (round_id fl (fl_ok G) (cum ws i)) at 1 by apply cum_double.
  apply round_mono; [apply fl_ok|]. rewrite <- (Qcplus_0_r (cum ws i)) at 1.
  apply Qcplus_le_compat; [apply Qcle_refl|]. apply fl_nonneg. rewrite Forall_forall in Hnn. apply Hnn, nth_In, Hi.
Qed.

Lemma cum_mono : forall ws i j, Forall (fun w => 0 <= w)%Qc ws -> i <= j -> j < length ws -> (cum ws i <= cum ws j)%Qc.
Proof.
  intros ws i j Hnn Hij. induction Hij as [|j Hij IH]; intros Hj; [apply Qcle_refl|].
  eapply Qcle_trans; [apply IH; lia|]. now apply cum_step_le.
Qed.

Lemma cum_nonneg : forall ws i, Forall (fun w => 0 <= w)%Qc ws -> i < length ws -> (0 <= cum ws i)%Qc.
Proof.
  intros ws i Hnn Hi. apply Qcle_trans with (cum ws 0); [|apply cum_mono; [assumption|lia|assumption]].
  rewrite cum_0 by (intros ->; cbn in Hi; lia). apply fl_nonneg. rewrite Forall_forall in Hnn. apply Hnn, nth_In. lia.
Qed.

(** A positive weight makes the total positive. *)
Lemma cum_positive : forall ws i, Forall (fun w => 0 <= w)%Qc ws -> i < length ws -> (0 < nth i ws 0)%Qc ->
  (0 < cum ws i)%Qc.
Proof.
  intros ws i Hnn Hi Hw. pose proof (fl_lt_0 _ Hw) as Hf. destruct i as [|i].
  - rewrite cum_0 by (intros ->; cbn in Hi; lia). assumption.
  - rewrite cum_S by assumption. apply Qclt_le_trans with (fl (nth (S i) ws 0%Qc)); [assumption|].
    rewrite <- (round_id fl (fl_ok G) (fl (nth (S i) ws 0%Qc))) at 1 by apply round_double, fl_ok.
    apply round_mono; [apply fl_ok|]. rewrite <- (Qcplus_0_l (fl (nth (S i) ws 0%Qc))) at 1.
    apply Qcplus_le_compat; [|apply Qcle_refl]. apply cum_nonneg; [assumption|lia].
Qed.

Notation float_sum := (float_sum fl).
Lemma accumulate_from_sum : forall ws acc, ws <> [] ->
  last (accumulate_from acc ws) 0%Qc = fold_left (fun s w => fl (s + fl w)%Qc) ws acc.
Proof.
  induction ws as [|w ws IH]; intros acc H; [congruence|]. cbn [Rng.accumulate_from fold_left].
  destruct ws as [|v ws]; [reflexivity|]. rewrite <- (IH (fl (acc + fl w)%Qc)) by discriminate. reflexivity.
Qed.

Lemma accumulate_sum : forall ws, last (accumulate ws) 0%Qc = float_sum ws.
Proof.
  intros [|w ws]; [reflexivity|]. unfold Comb.float_sum. cbn [fold_left Rng.accumulate].
  rewrite Qcplus_0_l, (round_id fl (fl_ok G) (fl w)) by apply round_double, fl_ok.
  destruct ws as [|v ws]; [reflexivity|]. rewrite <- accumulate_from_sum by discriminate. reflexivity.
Qed.

Lemma float_sum_zero : forall ws, Forall (fun w => 0 <= w)%Qc ws -> (float_sum ws <= 0)%Qc ->
  Forall (fun w => w = 0)%Qc ws.
Proof.
  intros ws Hnn Hle. rewrite <- accumulate_sum in Hle. apply Forall_forall. intros w Hin.
  destruct (In_nth ws w 0%Qc Hin) as (i & Hi & Hw).
  assert (H0 : (0 <= w)%Qc) by (rewrite Forall_forall in Hnn; now apply Hnn).
  apply Qcle_antisym; [|assumption]. apply Qcnot_lt_le. intros Hpos.
  rewrite accumulate_last in Hle. apply (Qcle_not_lt _ _ Hle).
  apply Qclt_le_trans with (cum ws i); [apply cum_positive; [assumption|assumption|now rewrite Hw]|].
  apply cum_mono; [assumption|lia|lia].
Qed.

(** [random() * total], rounded, is below the total. *)
Lemma random01_top : forall r : rng, (fst (random01 G r) <= 1 - (1 # 9007199254740992))%Q.
Proof.
  intros r. unfold random01. destruct (prim_random G r) as [x r']. cbn [fst].
  set (k := (x mod N.pos two53)%N).
  assert (Hk : (k < N.pos two53)%N) by (apply N.mod_lt; discriminate).
  cbn [this Q2Qc]. rewrite Qred_correct. unfold Qle, two53 in *. cbn. lia.
Qed.

Lemma fl_draw_below : forall (r : rng) t, Double t -> (0 < t)%Qc -> (fl (fst (random01 G r) * t) < t)%Qc.
Proof.
  intros r t Hd Ht. pose proof (random01_top r) as Hu. set (u := fst (random01 G r)) in *.
  apply (round_below fl (fl_ok G)); [exact Hd|exact Ht|].
  unfold Qcmult. cbn [this Q2Qc]. rewrite Qred_correct. unfold Qclt in Ht. change (this 0%Qc) with 0%Q in Ht.
  setoid_replace (t - t * (1 # 9007199254740992))%Q with ((1 - (1 # 9007199254740992)) * t)%Q by ring.
  apply Qmult_le_compat_r; lra.
Qed.

Lemma fl_draw_nonneg : forall (r : rng) t, (0 < t)%Qc -> (0 <= fl (fst (random01 G r) * t))%Qc.
Proof.
  intros r t Ht. apply fl_nonneg. rewrite <- (Qcmult_0_l t). apply Qcmult_le_compat_r.
  - apply random01_range.
  - now apply Qclt_le_weak.
Qed.

(** * One draw *)
Lemma draw_index_spec : forall ws (r : rng) i r',
  ws <> [] -> (0 < last (accumulate ws) 0)%Qc -> draw_index G (accumulate ws) r = (i, r') ->
  i < length ws /\ (0 < nth i ws 0)%Qc.
Proof.
  intros ws r i r' Hne Hpos. unfold draw_index.
  rewrite accumulate_last in *. rewrite accumulate_length.
  pose proof (fl_draw_nonneg r _ Hpos) as Hx0.
  pose proof (fl_draw_below r _ (cum_double ws _) Hpos) as Hxt.
  destruct (random01 G r) as [u r1]. cbn [fst] in *.
  set (x := fl (u * cum ws (pred (length ws)))%Qc) in *.
  destruct (bisect_spec (pred (length ws)) (accumulate ws) x 0 (pred (length ws)))
    as (H1 & H2 & H3); [lia|lia|]. intros [= <- <-].
  set (i := bisect_right _ _ _ _ _) in *. clearbody i x.
  assert (Hlen : 0 < length ws) by (destruct ws; [congruence|cbn; lia]).
  assert (Hi : i < length ws) by lia. split; [assumption|].
  assert (Hup : (x < cum ws i)%Qc).
  { destruct H2 as [H2|H2]; [now rewrite H2|assumption]. }
  destruct i as [|i].
  - rewrite cum_0 in Hup by assumption. apply fl_pos. eapply Qcle_lt_trans; eassumption.
  - destruct H3 as [H3|H3]; [discriminate|]. cbn [pred] in H3. apply cum_grows; [assumption|].
    eapply Qcle_lt_trans; eassumption.
Qed.

Lemma draw_indices_spec : forall ws k (r : rng) is r',
  ws <> [] -> (0 < last (accumulate ws) 0)%Qc -> draw_indices G (accumulate ws) k r = (is, r') ->
  length is = k /\ Forall (fun i => i < length ws /\ (0 < nth i ws 0)%Qc) is.
Proof.
  intros ws k. induction k as [|k IH]; intros r is r' Hne Hpos; cbn [draw_indices].
  - intros [= <- <-]. split; [reflexivity|constructor].
  - destruct (draw_index G (accumulate ws) r) as [i r1] eqn:E1.
    destruct (draw_indices G (accumulate ws) k r1) as [is2 r2] eqn:E2.
    intros [= <- <-]. destruct (IH _ _ _ Hne Hpos E2) as [Hl Hf].
    split; [cbn; lia|]. constructor; [|assumption]. eapply draw_index_spec; eauto.
Qed.

Lemma choices_ok : forall ws k (r : rng) is r',
  choices G (accumulate ws) k r = ROk is r' ->
  (0 < last (accumulate ws) 0)%Qc /\ length is = k /\
  Forall (fun i => i < length ws /\ (0 < nth i ws 0)%Qc) is.
Proof.
  intros ws k r is r' H. unfold choices in H.
  destruct (accumulate ws) as [|c cs] eqn:Ea; [discriminate|].
  assert (Hne : ws <> []) by (intros ->; discriminate).
  rewrite <- Ea in *.
  destruct (Qc_leb (last (accumulate ws) 0%Qc) 0%Qc) eqn:El; [discriminate|].
  assert (Hpos : (0 < last (accumulate ws) 0)%Qc).
  { apply Qcnot_le_lt. intros Hle. apply Qc_leb_spec in Hle. congruence. }
  destruct (draw_indices G (accumulate ws) k r) as [is' r1] eqn:Ed.
  injection H as <- <-. split; [assumption|]. eapply draw_indices_spec; eauto.
Qed.

Lemma choices_err : forall ws k (r : rng) e r',
  choices G (accumulate ws) k r = RErr e r' ->
  (ws = [] /\ e = EIndex) \/ (ws <> [] /\ e = EValue /\ (float_sum ws <= 0)%Qc).
Proof.
  intros ws k r e r' H. unfold choices in H.
  destruct (accumulate ws) as [|c cs] eqn:Ea.
  - left. injection H as <- _. split; [|reflexivity]. destruct ws; [reflexivity|discriminate].
  - right. rewrite <- Ea in H.
    assert (Hne : ws <> []) by (intros ->; discriminate).
    destruct (Qc_leb (last (accumulate ws) 0%Qc) 0%Qc) eqn:El.
    + injection H as <- _. split; [assumption|]. split; [reflexivity|].
      rewrite <- accumulate_sum. now apply Qc_leb_spec.
    + destruct (draw_indices G (accumulate ws) k r). discriminate.
Qed.

Lemma float_sum_pos : forall ws, ws <> [] -> Forall (fun w => 0 < w)%Qc ws -> ~ (float_sum ws <= 0)%Qc.
Proof.
  intros ws Hne H Hw. destruct H as [|w ws Hp Hps]; [congruence|].
  assert (Hz : Forall (fun w => w = 0)%Qc (w :: ws)).
  { apply float_sum_zero; [|assumption]. constructor; [now apply Qclt_le_weak|].
    eapply Forall_impl; [|exact Hps]. intros v. apply Qclt_le_weak. }
  inversion Hz as [|? ? Hw0 _]; subst. discriminate Hp.
Qed.

(** * Lists with one element removed *)
Fixpoint remove_nth {B} (j : nat) (l : list B) : list B :=
  match l, j with
  | [], _ => []
  | _ :: l', O => l'
  | x :: l', S j' => x :: remove_nth j' l'
  end.

Lemma remove_nth_perm : forall {B} (l : list B) j x,
  nth_error l j = Some x -> Permutation l (x :: remove_nth j l).
Proof.
  induction l as [|y l IH]; intros [|j] x H; cbn in *; try discriminate.
  - injection H as ->. apply Permutation_refl.
  - apply perm_trans with (y :: x :: remove_nth j l); [|apply perm_swap].
    constructor. now apply IH.
Qed.

Section Eqb.
Context {B : Type} (f : B -> B -> bool).
Hypothesis f_spec : forall a b, reflect (a = b) (f a b).

Lemma index_of_In : forall x l, In x l ->
  exists j, index_of f x l = Some j /\ nth_error l j = Some x /\
            (forall i, i < j -> nth_error l i <> Some x).
Proof.
  induction l as [|y l IH]; intros H; [destruct H|]. cbn.
  destruct (f_spec y x) as [->|Hn].
  - exists 0. repeat split. intros i Hi; lia.
  - destruct H as [->|H]; [congruence|]. destruct (IH H) as (j & Hj & Hx & Hf).
    exists (S j). rewrite Hj. repeat split; [assumption|].
    intros [|i] Hi; cbn; [congruence|apply Hf; lia].
Qed.

Lemma remove_first_index : forall x l j, index_of f x l = Some j ->
  remove_first f x l = remove_nth j l.
Proof.
  induction l as [|y l IH]; intros j H; [discriminate|]. cbn in *.
  destruct (f y x); [injection H as <-; reflexivity|].
  destruct (index_of f x l) as [k|]; [|discriminate]. injection H as <-. cbn.
  f_equal. now apply IH.
Qed.

Lemma remove_first_perm : forall x l, In x l -> Permutation l (x :: remove_first f x l).
Proof.
  intros x l H. destruct (index_of_In x l H) as (j & Hj & Hx & _).
  rewrite (remove_first_index _ _ _ Hj). now apply remove_nth_perm.
Qed.

Lemma remove_first_length : forall x l, In x l -> length l = S (length (remove_first f x l)).
Proof. intros x l H. now rewrite (Permutation_length (remove_first_perm x l H)). Qed.
End Eqb.

Section Cwr.
Context {A : Type} (eqb : A -> A -> bool).
Hypothesis eqb_spec : forall a b, reflect (a = b) (eqb a b).

Lemma cwr_remaining_spec : forall chosen vals ws vals' ws',
  length vals = length ws -> In chosen vals ->
  cwr_remaining eqb chosen vals ws = (vals', ws') ->
  exists j, FirstAt vals chosen j /\ j < length ws /\
    vals' = remove_nth j vals /\ ws' = remove_first Qc_eq_bool (nth j ws 0%Qc) ws /\
    length vals' = length ws' /\ length vals = S (length vals') /\
    Permutation vals (chosen :: vals') /\
    Permutation ws (nth j ws 0%Qc :: ws').
Proof.
  intros chosen vals ws vals' ws' Hl Hin H. unfold cwr_remaining in H.
  destruct (index_of_In eqb eqb_spec chosen vals Hin) as (j & Hj & Hx & Hf).
  rewrite Hj in H. injection H as <- <-.
  assert (Hjl : j < length ws).
  { rewrite <- Hl. apply nth_error_Some. congruence. }
  pose proof (remove_first_perm eqb eqb_spec chosen vals Hin) as P1.
  pose proof (remove_first_perm _ Qc_eq_bool_spec _ _ (nth_In ws 0%Qc Hjl)) as P2.
  pose proof (Permutation_length P1) as L1. pose proof (Permutation_length P2) as L2.
  cbn [length] in L1, L2.
  exists j. repeat split; auto; try lia.
  now apply remove_first_index.
Qed.

Lemma cwr_loop_ok : forall k vals ws (r : rng) sel r',
  length vals = length ws ->
  cwr_loop G eqb k vals ws r = ROk sel r' ->
  length sel = k /\ exists rest, Permutation vals (sel ++ rest).
Proof.
  induction k as [|k IH]; intros vals ws r sel r' Hl H; cbn [cwr_loop] in H.
  - injection H as <- <-. split; [reflexivity|]. exists vals. apply Permutation_refl.
  - destruct (choices G (accumulate ws) 1 r) as [is r1|] eqn:Ec; [|discriminate].
    apply choices_ok in Ec as (Hp & Hil & Hf).
    destruct is as [|i is]; [discriminate|].
    inversion Hf as [|? ? [Hi Hw] _]; subst.
    destruct (nth_error vals i) as [chosen|] eqn:En; [|discriminate].
    destruct (cwr_remaining eqb chosen vals ws) as [vals' ws'] eqn:Er.
    destruct (cwr_loop G eqb k vals' ws' r1) as [l r2|] eqn:El; [|discriminate].
    injection H as <- <-.
    apply cwr_remaining_spec in Er as (j & _ & _ & _ & _ & Hl' & _ & P1 & _);
      [|assumption|eapply nth_error_In; eauto].
    destruct (IH _ _ _ _ _ Hl' El) as (Hll & rest & P2).
    split; [cbn; lia|]. exists rest. cbn.
    rewrite P1. now constructor.
Qed.

(** The only failure of a drawing run is [ValueError], and then what is left
    of the weights does not sum to something positive. *)
Lemma cwr_loop_err : forall k vals ws (r : rng) e r',
  length vals = length ws -> k <= length vals ->
  cwr_loop G eqb k vals ws r = RErr e r' ->
  e = EValue /\ exists used left, Permutation ws (used ++ left) /\ left <> [] /\
    (float_sum left <= 0)%Qc.
Proof.
  induction k as [|k IH]; intros vals ws r e r' Hl Hk H; cbn [cwr_loop] in H; [discriminate|].
  destruct (choices G (accumulate ws) 1 r) as [is r1|e1 r1] eqn:Ec.
  - apply choices_ok in Ec as (Hp & Hil & Hf).
    destruct is as [|i is]; [discriminate|].
    inversion Hf as [|? ? [Hi Hw] _]; subst.
    destruct (nth_error vals i) as [chosen|] eqn:En.
    2:{ apply nth_error_None in En. lia. }
    destruct (cwr_remaining eqb chosen vals ws) as [vals' ws'] eqn:Er.
    destruct (cwr_loop G eqb k vals' ws' r1) as [l r2|] eqn:El; [discriminate|].
    injection H as <- <-.
    apply cwr_remaining_spec in Er as (j & _ & _ & _ & _ & Hl' & Hs & P1 & P2);
      [|assumption|eapply nth_error_In; eauto].
    destruct (IH _ _ _ _ _ Hl' ltac:(lia) El) as (He & used & left & P3 & Hle & Hn).
    split; [assumption|]. exists (nth j ws 0%Qc :: used), left.
    split; [cbn; eapply perm_trans; [exact P2|]; now constructor|]. split; assumption.
  - injection H as <- <-. apply choices_err in Ec as [[-> ->]|(Hne & -> & Hs)].
    + destruct vals; cbn in *; lia.
    + split; [reflexivity|]. exists [], ws. repeat split; auto.
Qed.

Lemma cwr_ok : forall vals ws n (r : rng) sel r',
  choose_without_replacement G eqb vals ws n r = ROk sel r' ->
  (exists rest, Permutation vals (sel ++ rest)) /\
  match vals with
  | [] => sel = []
  | [v] => sel = [v]
  | _ => length sel = Z.to_nat n /\ (n <= Z.of_nat (length vals))%Z
  end.
Proof.
  intros vals ws n r sel r' H. unfold choose_without_replacement in H.
  destruct (Z.ltb_spec (Z.of_nat (length vals)) n) as [Hlt|Hge]; [discriminate|].
  set (ws0 := match ws with [] => map (fun _ => 1%Qc) vals | _ => ws end) in *.
  destruct (Nat.eqb_spec (length vals) (length ws0)) as [Hl|]; [|discriminate]. cbn [negb] in H.
  destruct vals as [|v [|v' vals]].
  - injection H as <- <-. split; [exists []; constructor|reflexivity].
  - injection H as <- <-. split; [exists []; apply Permutation_refl|reflexivity].
  - apply cwr_loop_ok in H as [H1 H2]; [|assumption]. auto.
Qed.

Lemma cwr_err : forall vals ws n (r : rng) e r',
  choose_without_replacement G eqb vals ws n r = RErr e r' ->
  e = EValue /\
  ((Z.of_nat (length vals) < n)%Z \/ (ws <> [] /\ length ws <> length vals) \/
   (ws <> [] /\ exists used left, Permutation ws (used ++ left) /\ left <> [] /\
      (float_sum left <= 0)%Qc)).
Proof.
  intros vals ws n r e r' H. unfold choose_without_replacement in H.
  destruct (Z.ltb_spec (Z.of_nat (length vals)) n) as [Hlt|Hge].
  { injection H as <- _. auto. }
  destruct ws as [|w ws].
  - rewrite map_length, Nat.eqb_refl in H. cbn [negb] in H.
    destruct vals as [|v [|v' vals]]; [discriminate|discriminate|].
    apply cwr_loop_err in H as (He & used & left & P & Hle & Hn);
      [|now rewrite map_length|lia].
    exfalso. revert Hn. apply float_sum_pos; [assumption|].
    { apply Forall_forall. intros x Hx.
      assert (Hi : In x (map (fun _ => 1%Qc) (v :: v' :: vals))).
      { eapply Permutation_in; [symmetry; exact P|]. apply in_or_app; now right. }
      apply in_map_iff in Hi as (_ & <- & _). reflexivity. }
  - destruct (Nat.eqb_spec (length vals) (length (w :: ws))) as [Hl|Hl]; cbn [negb] in H.
    + destruct vals as [|v [|v' vals]]; [discriminate|discriminate|].
      apply cwr_loop_err in H as (He & used & left & P & Hle & Hn); [|assumption|lia].
      split; [assumption|]. right; right. split; [discriminate|]. exists used, left. auto.
    + injection H as <- _. split; [reflexivity|]. right; left. split; [discriminate|congruence].
Qed.

(** With positive weights drawing always succeeds. *)
Lemma cwr_succeeds : forall vals ws n (r : rng),
  length ws = length vals -> Forall (fun w => 0 < w)%Qc ws ->
  (n <= Z.of_nat (length vals))%Z ->
  exists sel r', choose_without_replacement G eqb vals ws n r = ROk sel r'.
Proof.
  intros vals ws n r Hl Hp Hn.
  destruct (choose_without_replacement G eqb vals ws n r) as [sel r'|e r'] eqn:E; [eauto|].
  exfalso. apply cwr_err in E as (_ & [H|[[_ H]|(_ & used & left & P & Hne & Hs)]]); [lia|congruence|].
  revert Hs. apply float_sum_pos; [assumption|].
  { apply Forall_forall. intros x Hx.
    rewrite Forall_forall in Hp. apply Hp. eapply Permutation_in; [symmetry; exact P|].
    apply in_or_app; now right. }
Qed.

(** The first pick has positive weight. *)
Lemma cwr_first : forall vals ws n (r : rng) v sel r',
  2 <= length vals -> length ws = length vals ->
  choose_without_replacement G eqb vals ws n r = ROk (v :: sel) r' ->
  exists i, nth_error vals i = Some v /\ exists w, nth_error ws i = Some w /\ (0 < w)%Qc.
Proof.
  intros vals ws n r v sel r' H2 Hl H. unfold choose_without_replacement in H.
  destruct (Z.ltb_spec (Z.of_nat (length vals)) n) as [Hlt|Hge]; [discriminate|].
  destruct ws as [|w0 ws0]; [cbn in Hl; lia|].
  rewrite Hl, Nat.eqb_refl in H. cbn [negb] in H.
  destruct vals as [|v0 [|v1 vals]]; [cbn in H2; lia|cbn in H2; lia|].
  set (vs := v0 :: v1 :: vals) in *. set (ws := w0 :: ws0) in *. clearbody vs ws.
  destruct (Z.to_nat n) as [|k]; cbn [cwr_loop] in H; [discriminate|].
  destruct (choices G (accumulate ws) 1 r) as [is r1|] eqn:Ec; [|discriminate].
  apply choices_ok in Ec as (Hp & Hil & Hf).
  destruct is as [|i is]; [discriminate|].
  inversion Hf as [|? ? [Hi Hw] _]; subst.
  destruct (nth_error vs i) as [chosen|] eqn:En; [|discriminate].
  destruct (cwr_remaining eqb chosen vs ws) as [vals' ws'].
  destruct (cwr_loop G eqb k vals' ws' r1) as [l r2|]; [|discriminate].
  injection H as <- <- <-. exists i. split; [assumption|].
  exists (nth i ws 0%Qc). split; [now apply nth_error_nth'|assumption].
Qed.

(** * When a step keeps weights attached *)
Lemma remove_nth_first_eq : forall (ws : list Qc) j w, nth_error ws j = Some w ->
  (remove_first Qc_eq_bool w ws = remove_nth j ws <->
   forall i i', i <= i' -> i' <= j -> nth_error ws i = Some w -> nth_error ws i' = Some w).
Proof.
  induction ws as [|x ws IH]; intros j w Hj; [destruct j; discriminate|].
  cbn [remove_first]. destruct (Qc_eq_bool_spec x w) as [->|Hne].
  - (* the head is removed *)
    assert (Hshift : forall l j, nth_error l j = Some w ->
       (l = w :: remove_nth j l <-> forall i, i <= j -> nth_error l i = Some w) ->
       True) by auto. clear Hshift.
    assert (Hk : forall (l : list Qc) j, j < length (w :: l) ->
      (l = remove_nth j (w :: l) <-> forall i, i <= j -> nth_error (w :: l) i = Some w)).
    { clear. induction l as [|y l IHl]; intros j Hj.
      - cbn in Hj. assert (j = 0) by lia. subst. cbn. split; [|reflexivity].
        intros _ i Hi. assert (i = 0) by lia. now subst.
      - destruct j as [|j].
        + cbn. split; [|reflexivity]. intros _ i Hi. assert (i = 0) by lia. now subst.
        + cbn [remove_nth]. split.
          * intros E. injection E as -> E. specialize (IHl j ltac:(cbn in *; lia)).
            intros [|i] Hi; [reflexivity|]. cbn [nth_error].
            apply IHl; [exact E|lia].
          * intros H. pose proof (H 1 ltac:(lia)) as Hy. cbn in Hy. injection Hy as ->.
            f_equal. apply IHl; [cbn in *; lia|]. intros i Hi. apply (H (S i)). lia. }
    assert (Hjl : j < length (w :: ws)) by (apply nth_error_Some; congruence).
    rewrite (Hk ws j Hjl). split.
    + intros H i i' Hii Hij _. now apply H.
    + intros H i Hi. apply (H 0 i); [lia|assumption|reflexivity].
  - destruct j as [|j]; [cbn in Hj; congruence|]. cbn [remove_nth].
    assert (Hc : x :: remove_first Qc_eq_bool w ws = x :: remove_nth j ws
                 <-> remove_first Qc_eq_bool w ws = remove_nth j ws)
      by (split; [intros [= H]; exact H|intros ->; reflexivity]).
    rewrite Hc, (IH j w Hj). split.
    + intros H [|i] i' Hii Hij Hi; [cbn in Hi; congruence|].
      destruct i' as [|i']; [lia|]. cbn in *. apply (H i i'); [lia|lia|assumption].
    + intros H i i' Hii Hij Hi. apply (H (S i) (S i')); [lia|lia|assumption].
Qed.

Lemma cwr_step_aligned : forall chosen vals ws j,
  length vals = length ws -> FirstAt vals chosen j ->
  forall w, nth_error ws j = Some w ->
  (cwr_remaining eqb chosen vals ws = (remove_nth j vals, remove_nth j ws) <->
   forall i i', i <= i' -> i' <= j -> nth_error ws i = Some w -> nth_error ws i' = Some w).
Proof.
  intros chosen vals ws j Hl [Hj Hfirst] w Hw.
  destruct (cwr_remaining eqb chosen vals ws) as [vals' ws'] eqn:E.
  apply cwr_remaining_spec in E as (j' & [Hj' Hf'] & _ & -> & -> & _); [|assumption|eapply nth_error_In; eauto].
  assert (j' = j).
  { destruct (Nat.lt_trichotomy j j') as [H|[H|H]]; [|auto|].
    - destruct (Hf' j H Hj).
    - destruct (Hfirst j' H Hj'). }
  subst j'. rewrite (nth_error_nth ws j 0%Qc Hw).
  rewrite <- (remove_nth_first_eq ws j w Hw). split; [intros [= H]; exact H|intros ->; reflexivity].
Qed.

Lemma remove_first_repeat : forall (w : Qc) n,
  remove_first Qc_eq_bool w (repeat w n) = repeat w (pred n).
Proof.
  intros w [|n]; [reflexivity|]. cbn. destruct (Qc_eq_bool_spec w w); congruence.
Qed.

Lemma cwr_step_equal_weights : forall chosen vals (w : Qc),
  In chosen vals -> exists j, FirstAt vals chosen j /\
  cwr_remaining eqb chosen vals (repeat w (length vals))
  = (remove_nth j vals, repeat w (length (remove_nth j vals))).
Proof.
  intros chosen vals w Hin.
  destruct (cwr_remaining eqb chosen vals (repeat w (length vals))) as [vals' ws'] eqn:E.
  apply cwr_remaining_spec in E as (j & HF & Hj & -> & -> & Hl & Hs & _);
    [|now rewrite repeat_length|assumption].
  exists j. split; [assumption|]. f_equal. rewrite repeat_length in Hj.
  rewrite (nth_error_nth (repeat w (length vals)) j 0%Qc (nth_error_repeat w Hj)).
  rewrite remove_first_repeat. now rewrite Hs.
Qed.
End Cwr.
End WithRng.
