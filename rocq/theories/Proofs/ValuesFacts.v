(** Weighted wildcard values (Model/Values.v). *)
From Coq Require Import ZArith QArith Qcanon Qround Bool Arith List Lia Lqa Permutation.
From Verif.Model Require Import Str Rng Values.
From Verif.Spec Require Import Text Comb Items.
From Verif.Proofs Require Import StrFacts CommandFacts RngFacts.
Import ListNotations.
Local Open Scope nat_scope.

Definition item_pairs (items : list witem) : list (str * Qc) :=
  map (fun i => (w_content i, w_weight i)) items.

Lemma Qc_of_Z_le : forall z (w : Qc), (Q2Qc (inject_Z z) <= w)%Qc <-> (inject_Z z <= w)%Q.
Proof. intros. unfold Qcle. cbn [this Q2Qc]. now rewrite Qred_correct. Qed.

Lemma Qc_of_Z_lt : forall z (w : Qc), (w < Q2Qc (inject_Z z))%Qc <-> (w < inject_Z z)%Q.
Proof. intros. unfold Qclt. cbn [this Q2Qc]. now rewrite Qred_correct. Qed.

Lemma int_count_spec : forall w, IntegerPart w (int_count w).
Proof.
  intros w. unfold IntegerPart, int_count, QcN.
  rewrite Qc_of_Z_le, Qc_of_Z_lt. split.
  - intros H. rewrite Z2Nat.id by lia. apply Qfloor_le.
  - eapply Qlt_le_trans; [apply Qlt_floor|]. rewrite <- Zle_Qle. lia.
Qed.

Lemma IntegerPart_unique : forall w n m, IntegerPart w n -> IntegerPart w m -> n = m.
Proof.
  assert (H : forall w n m, IntegerPart w n -> IntegerPart w m -> n < m -> False).
  { intros w n m [_ H1] [H2 _] Hlt. specialize (H2 ltac:(lia)).
    unfold QcN in *. apply Qc_of_Z_lt in H1. apply Qc_of_Z_le in H2.
    assert (inject_Z (Z.of_nat (S n)) <= inject_Z (Z.of_nat m))%Q by (rewrite <- Zle_Qle; lia).
    lra. }
  intros w n m Hn Hm. destruct (Nat.lt_trichotomy n m) as [Hl|[He|Hl]]; [|assumption|].
  - exfalso; exact (H w n m Hn Hm Hl).
  - exfalso; exact (H w m n Hm Hn Hl).
Qed.

Lemma iterate_weighted_Listed : forall items,
  Listed (item_pairs items) (iterate_weighted items).
Proof.
  induction items as [|i items IH]; cbn; constructor; [apply int_count_spec|exact IH].
Qed.

Lemma Listed_unique : forall l o1 o2, Listed l o1 -> Listed l o2 -> o1 = o2.
Proof.
  intros l o1 o2 H. revert o2. induction H as [|t w n rest out Hn Ho IH]; intros o2 H2.
  - inversion H2; reflexivity.
  - inversion H2; subst. f_equal; [|auto]. f_equal. eapply IntegerPart_unique; eauto.
Qed.

Lemma iterate_weighted_small : forall items t,
  (forall i, In i items -> w_content i = t -> (w_weight i < 1)%Qc) ->
  ~ In t (iterate_weighted items).
Proof.
  intros items t H Hin. unfold iterate_weighted in Hin. apply in_flat_map in Hin as (i & Hi & Ht).
  assert (int_count (w_weight i) = 0).
  { apply (IntegerPart_unique (w_weight i)); [apply int_count_spec|]. split; [lia|].
    assert (w_content i = t) by (apply repeat_spec in Ht; symmetry; exact Ht).
    exact (H i Hi H0). }
  rewrite H0 in Ht. destruct Ht.
Qed.

Lemma iterate_weighted_In : forall items t, In t (iterate_weighted items) ->
  exists i, In i items /\ w_content i = t /\ (1 <= w_weight i)%Qc.
Proof.
  intros items t Hin. unfold iterate_weighted in Hin. apply in_flat_map in Hin as (i & Hi & Ht).
  exists i. split; [assumption|]. split; [apply repeat_spec in Ht; symmetry; exact Ht|].
  destruct (int_count_spec (w_weight i)) as [H _].
  destruct (int_count (w_weight i)) as [|n]; [destruct Ht|].
  specialize (H ltac:(lia)). eapply Qcle_trans; [|exact H].
  unfold QcN. change 1%Qc with (Q2Qc (inject_Z 1)). rewrite Qc_of_Z_le.
  cbn [this Q2Qc]. rewrite Qred_correct. rewrite <- Zle_Qle. lia.
Qed.

(** * Random values *)
Section R.
Variable G : rng_impl.
Notation rng := (rng_state G).

(** States the weighted generator of [items] can be in. *)
Definition wgen_of (items : list witem) (g : wgen) : Prop :=
  if has_varied_weights items
  then exists buffer, g = WBatch (string_values items) (cum_weight_values G items) buffer /\
       Forall (fun t => exists i, In i items /\ w_content i = t /\ (0 < w_weight i)%Qc) buffer
  else g = WChoice (string_values items).

Lemma wgen_of_start : forall items, wgen_of items (start_wgen G items).
Proof.
  intros items. unfold wgen_of, start_wgen. destruct (has_varied_weights items); [|reflexivity].
  exists []. split; [reflexivity|constructor].
Qed.

Lemma next_wgen_spec : forall items g (r : rng) t g' r',
  wgen_of items g -> next_wgen G g r = ROk (t, g') r' ->
  wgen_of items g' /\
  exists i, In i items /\ w_content i = t /\
    (has_varied_weights items = true -> (0 < w_weight i)%Qc).
Proof.
  intros items g r t g' r' Hg H. unfold wgen_of in *.
  destruct (has_varied_weights items) eqn:Hv.
  - destruct Hg as (buffer & -> & Hb). destruct buffer as [|v buffer]; cbn [next_wgen] in H.
    + destruct (choices G (cum_weight_values G items) batch_size r) as [is r1|] eqn:Ec; [|discriminate].
      unfold cum_weight_values in Ec. apply choices_ok in Ec as (_ & Hl & Hf).
      assert (Hm : Forall (fun t => exists i, In i items /\ w_content i = t /\ (0 < w_weight i)%Qc)
                     (map (fun i => nth i (string_values items) []) is)).
      { apply Forall_forall. intros x Hx. apply in_map_iff in Hx as (i & <- & Hi).
        rewrite Forall_forall in Hf. destruct (Hf i Hi) as [Hlt Hp]. rewrite map_length in Hlt.
        destruct (nth_error items i) as [it|] eqn:En; [|apply nth_error_None in En; lia].
        exists it. split; [eapply nth_error_In; eauto|].
        split.
        - unfold string_values. symmetry. apply nth_error_nth. now apply map_nth_error.
        - rewrite (nth_error_nth (map w_weight items) i 0%Qc (map_nth_error _ _ _ En)) in Hp. exact Hp. }
      destruct (map (fun i => nth i (string_values items) []) is) as [|v buffer]; [discriminate|].
      injection H as <- <- <-. inversion Hm as [|? ? (i & Hi & Hc & Hw) Hm']; subst.
      split; [exists buffer; auto|]. exists i. auto.
    + injection H as <- <- <-. inversion Hb as [|? ? (i & Hi & Hc & Hw) Hb']; subst.
      split; [exists buffer; auto|]. exists i. auto.
  - subst g. cbn [next_wgen] in H.
    destruct (choice G (length (string_values items)) r) as [i r1|] eqn:Ec; [|discriminate].
    injection H as <- <- <-. split; [reflexivity|].
    unfold choice in Ec. destruct (length (string_values items)) as [|n] eqn:Hl; [discriminate|].
    pose proof (randbelow_lt G (S n) r ltac:(lia)) as Hlt.
    destruct (randbelow G (S n) r) as [j r2]. injection Ec as <- <-. cbn [fst] in Hlt.
    unfold string_values in *. rewrite map_length in Hl.
    destruct (nth_error items j) as [it|] eqn:En; [|apply nth_error_None in En; lia].
    exists it. split; [eapply nth_error_In; eauto|]. split; [|discriminate].
    symmetry. apply nth_error_nth. now apply map_nth_error.
Qed.

(** [n] successive requests, stopping at the first error. *)
Fixpoint wdraw (n : nat) (g : wgen) (r : rng) : list str :=
  match n with
  | O => []
  | S n' => match next_wgen G g r with
            | ROk (t, g') r' => t :: wdraw n' g' r'
            | RErr _ _ => []
            end
  end.

Lemma wdraw_spec : forall n items g (r : rng) t, wgen_of items g -> In t (wdraw n g r) ->
  exists i, In i items /\ w_content i = t /\
    (has_varied_weights items = true -> (0 < w_weight i)%Qc).
Proof.
  induction n as [|n IH]; cbn; intros items g r t Hg Hin; [destruct Hin|].
  destruct (next_wgen G g r) as [[t' g'] r'|] eqn:E; [|destruct Hin].
  destruct (next_wgen_spec _ _ _ _ _ _ Hg E) as [Hg' Hi].
  destruct Hin as [<-|Hin]; [assumption|eauto].
Qed.

(** The generator never stops and fails only for an empty collection or a
    total weight that is not positive. *)
Lemma next_wgen_err : forall items g (r : rng) e r',
  wgen_of items g -> next_wgen G g r = RErr e r' ->
  items = [] \/ (has_varied_weights items = true /\ (float_sum (fl G) (map w_weight items) <= 0)%Qc).
Proof.
  intros items g r e r' Hg H. unfold wgen_of in Hg.
  destruct (has_varied_weights items) eqn:Hv.
  - destruct Hg as (buffer & -> & Hb). destruct buffer as [|v buffer]; cbn [next_wgen] in H; [|discriminate].
    destruct (choices G (cum_weight_values G items) batch_size r) as [is r1|] eqn:Ec.
    + unfold cum_weight_values in Ec. apply choices_ok in Ec as (_ & Hl & Hf).
      destruct is; [discriminate|]. discriminate.
    + unfold cum_weight_values in Ec. apply choices_err in Ec as [[Hn _]|(_ & _ & Hs)].
      * left. destruct items; [reflexivity|discriminate].
      * right; auto.
  - subst g. cbn [next_wgen] in H. unfold choice in H. unfold string_values in H. rewrite map_length in H.
    destruct items as [|i items]; [auto|]. cbn [length] in H.
    destruct (randbelow G _ r). discriminate.
Qed.
End R.

(** [has_varied_weights]. *)
Lemma varied_aux_spec : forall items seen, length seen <= 1 ->
  (varied_aux seen items = true <->
   exists a b, In a (seen ++ map w_weight items) /\ In b (seen ++ map w_weight items) /\ a <> b).
Proof.
  induction items as [|i items IH]; intros seen Hs; cbn [varied_aux map].
  - rewrite app_nil_r. split; [discriminate|]. intros (a & b & Ha & Hb & Hne).
    destruct seen as [|x [|y seen]]; cbn in *; [tauto| |lia]. intuition congruence.
  - assert (Hex : existsb (Qc_eq_bool (w_weight i)) seen = true <-> In (w_weight i) seen).
    { rewrite existsb_exists. split.
      - intros (x & Hx & E). destruct (Qc_eq_bool_spec (w_weight i) x); congruence.
      - intros H. exists (w_weight i). split; [assumption|].
        destruct (Qc_eq_bool_spec (w_weight i) (w_weight i)); congruence. }
    destruct (existsb (Qc_eq_bool (w_weight i)) seen) eqn:Ee.
    + apply proj1 in Hex. specialize (Hex eq_refl).
      destruct (Nat.ltb_spec 1 (length seen)); [lia|].
      rewrite IH by assumption.
      assert (Heq : forall a, In a (seen ++ map w_weight items)
                    <-> In a (seen ++ w_weight i :: map w_weight items)).
      { intros a. rewrite !in_app_iff. cbn. intuition. subst. auto. }
      split; intros (a & b & Ha & Hb & Hne); exists a, b; rewrite ?Heq in *; auto.
    + cbn [length]. destruct seen as [|x seen].
      * cbn [length]. destruct (Nat.ltb_spec 1 1); [lia|]. rewrite IH by (cbn; lia). reflexivity.
      * destruct (Nat.ltb_spec 1 (S (length (x :: seen)))); [|cbn in *; lia].
        split; [intros _|reflexivity]. exists x, (w_weight i). repeat split.
        -- now left.
        -- apply in_or_app; right; now left.
        -- intros ->. assert (false = true) by (apply Hex; now left). discriminate.
Qed.

Lemma has_varied_weights_spec : forall items,
  has_varied_weights items = true <->
  exists i j, In i items /\ In j items /\ w_weight i <> w_weight j.
Proof.
  intros items. unfold has_varied_weights. rewrite varied_aux_spec by (cbn; lia). cbn. split.
  - intros (a & b & Ha & Hb & Hne). apply in_map_iff in Ha as (i & <- & Hi).
    apply in_map_iff in Hb as (j & <- & Hj). eauto.
  - intros (i & j & Hi & Hj & Hne). exists (w_weight i), (w_weight j).
    repeat split; [now apply in_map|now apply in_map|assumption].
Qed.
