(** Shuffling draws every order in exactly one way. *)
From Coq Require Import String NArith ZArith QArith Qcanon Bool Arith List Permutation Lia.
From Verif.Model Require Import Str Rng Values Context Structured TextFile Tree Manager.
From Verif.Spec Require Import Text Names Files Tree Lookup StreamRng Shuffle.
From Verif.Proofs Require Import RngFacts ManagerFacts LookupFacts.
Import ListNotations.
Local Open Scope nat_scope.

Lemma order_bounds_S : forall i, order_bounds (S (S i)) = S (S i) :: order_bounds (S i).
Proof.
  intros i. unfold order_bounds. replace (S (S i) - 1) with (S i) by lia.
  replace (S i - 1) with i by lia. rewrite seq_S, rev_app_distr. reflexivity.
Qed.

(** The shuffle as a function of the draws. *)
Fixpoint arrange {A} (i : nat) (l : list A) (ds : list nat) : list A :=
  match i, ds with
  | S i', d :: ds' => arrange i' (swap i d l) ds'
  | _, _ => l
  end.

Lemma randbelow_below : forall G n r, 0 < n -> fst (randbelow G n r) < n.
Proof.
  intros G n r H. unfold randbelow. destruct (prim_below G (N.of_nat n) r) as [x r']. cbn [fst].
  pose proof (N.mod_lt x (N.of_nat n)). lia.
Qed.

Lemma shuffle_from_arrange : forall G A i (l : list A) r ds r',
  Answers G r (order_bounds (S i)) ds r' -> shuffle_from G i l r = (arrange i l ds, r').
Proof.
  intros G A. induction i as [|i IH]; intros l r ds r' H.
  - cbn in H. inversion H. reflexivity.
  - rewrite order_bounds_S in H. inversion H as [|r0 n ns d ds0 r1 r2 E H']; subst.
    cbn [shuffle_from]. rewrite E. cbn [arrange]. now apply IH.
Qed.

Lemma answers_exist : forall G n r, exists ds r', Answers G r (order_bounds n) ds r' /\ Draws n ds.
Proof.
  intros G [|n]; [intros r; exists [], r; split; constructor|].
  induction n as [|n IH]; intros r.
  - exists [], r; split; constructor.
  - destruct (randbelow G (S (S n)) r) as [d r1] eqn:E. destruct (IH r1) as (ds & r' & H1 & H2).
    exists (d :: ds), r'. unfold Draws. rewrite order_bounds_S. split; [econstructor; eassumption|].
    constructor; [|exact H2]. pose proof (randbelow_below G (S (S n)) r). rewrite E in H. cbn in H. lia.
Qed.

(** Every series of draws is answered by some source. *)
Lemma draws_answered : forall n ds, Draws n ds ->
  Answers stream_rng (map N.of_nat ds) (order_bounds n) ds [].
Proof.
  intros n ds. unfold Draws. generalize (order_bounds n). intros ns H.
  induction H as [|d n' ds ns Hd _ IH]; [constructor|]. cbn [map]. econstructor; [|exact IH].
  unfold randbelow. cbn. f_equal. rewrite N.mod_small by lia. apply Nat2N.id.
Qed.

Lemma swap_length : forall A i j (l : list A), length (swap i j l) = length l.
Proof. intros. apply Permutation_length, swap_perm. Qed.
Lemma nth_swap_i : forall A i j (l : list A), i < length l -> j < length l ->
  nth_error (swap i j l) i = nth_error l j.
Proof.
  intros A i j l Hi Hj. destruct (Nat.eq_dec i j) as [->|Hn]; [now rewrite swap_same|]. unfold swap.
  destruct (nth_error l i) as [a|] eqn:Ea; [|apply nth_error_None in Ea; lia].
  destruct (nth_error l j) as [b|] eqn:Eb; [|apply nth_error_None in Eb; lia].
  rewrite nth_error_set_nth by (now rewrite set_nth_length).
  rewrite (proj2 (Nat.eqb_neq i j)) by lia.
  rewrite nth_error_set_nth by assumption. now rewrite Nat.eqb_refl.
Qed.
Lemma nth_swap_other : forall A i j (l : list A) k, i < length l -> j < length l -> k <> i -> k <> j ->
  nth_error (swap i j l) k = nth_error l k.
Proof.
  intros A i j l k Hi Hj Hk1 Hk2. unfold swap.
  destruct (nth_error l i) as [a|] eqn:Ea; [|reflexivity].
  destruct (nth_error l j) as [b|] eqn:Eb; [|reflexivity].
  rewrite nth_error_set_nth by (now rewrite set_nth_length).
  rewrite (proj2 (Nat.eqb_neq k j)) by lia.
  rewrite nth_error_set_nth by assumption. now rewrite (proj2 (Nat.eqb_neq k i)) by lia.
Qed.

Lemma arrange_above : forall A i (l : list A) ds k, i < length l -> i < k ->
  Draws (S i) ds -> nth_error (arrange i l ds) k = nth_error l k.
Proof.
  intros A. induction i as [|i IH]; intros l ds k Hl Hk Hd; [destruct ds; reflexivity|].
  unfold Draws in Hd. rewrite order_bounds_S in Hd. inversion Hd as [|d n ds' ns Hlt Hd']; subst.
  cbn [arrange]. rewrite IH; [|rewrite swap_length; lia|lia|exact Hd'].
  apply nth_swap_other; lia.
Qed.

Lemma nth_ext_error : forall A (l p : list A), (forall k, nth_error l k = nth_error p k) -> l = p.
Proof.
  induction l as [|x l IH]; intros [|y p] H; try reflexivity; try (specialize (H 0); discriminate).
  pose proof (H 0) as H0. cbn in H0. injection H0 as ->. f_equal. apply IH. intros k. exact (H (S k)).
Qed.

Lemma arrange_bijective : forall A i (l p : list A), i < length l -> NoDup l -> Permutation l p ->
  (forall k, i < k -> nth_error l k = nth_error p k) ->
  exists ds, Draws (S i) ds /\ arrange i l ds = p /\
    forall ds', Draws (S i) ds' -> arrange i l ds' = p -> ds' = ds.
Proof.
  intros A. induction i as [|i IH]; intros l p Hl Hn Hp Hk.
  - exists []. split; [constructor|]. split.
    + cbn. destruct l as [|x l]; [cbn in Hl; lia|]. destruct p as [|y p].
      { apply Permutation_sym, Permutation_nil in Hp. discriminate. }
      assert (l = p) as -> by (apply nth_ext_error; intros k; exact (Hk (S k) ltac:(lia))).
      f_equal. apply (Permutation_app_inv_r p [x] [y]) in Hp.
      now apply Permutation_length_1 in Hp.
    + intros ds' Hd _. inversion Hd. reflexivity.
  - assert (Hlen : length p = length l) by (symmetry; now apply Permutation_length).
    assert (Hnp : NoDup p) by (eapply Permutation_NoDup; eassumption).
    destruct (nth_error p (S i)) as [v|] eqn:Ev; [|apply nth_error_None in Ev; lia].
    assert (Hv : In v l).
    { apply (Permutation_in v (Permutation_sym Hp)). eapply nth_error_In; eassumption. }
    apply In_nth_error in Hv as [j Ej].
    assert (Hjl : j < length l) by (apply nth_error_Some; congruence).
    assert (Hj : j <= S i).
    { destruct (Nat.le_gt_cases j (S i)) as [H|H]; [assumption|]. exfalso.
      assert (Ep : nth_error p j = nth_error p (S i)) by (rewrite <- (Hk j H), Ev; exact Ej).
      apply (proj1 (NoDup_nth_error p) Hnp) in Ep; [|lia]. lia. }
    assert (Hsw : forall k, i < k -> nth_error (swap (S i) j l) k = nth_error p k).
    { intros k Hik. destruct (Nat.eq_dec k (S i)) as [->|Hne].
      - rewrite nth_swap_i by lia. congruence.
      - rewrite nth_swap_other by lia. apply Hk. lia. }
    destruct (IH (swap (S i) j l) p) as (ds & Hd & Ha & Hu).
    + rewrite swap_length. lia.
    + eapply Permutation_NoDup; [apply Permutation_sym, swap_perm|exact Hn].
    + rewrite swap_perm. exact Hp.
    + exact Hsw.
    + exists (j :: ds). unfold Draws. rewrite order_bounds_S. split; [constructor; [lia|exact Hd]|].
      split; [exact Ha|]. intros ds' Hd' Ha'.
      inversion Hd' as [|d n ds0 ns Hlt Hd0]; subst. cbn [arrange] in Ha'.
      assert (Hdl : d < length l) by lia.
      assert (Ed : nth_error l d = nth_error l j).
      { rewrite Ej, <- Ev, <- Ha'. rewrite (arrange_above A i); [|rewrite swap_length; lia|lia|exact Hd0].
        symmetry. apply nth_swap_i; lia. }
      apply (proj1 (NoDup_nth_error l) Hn) in Ed; [|exact Hdl]. subst d.
      f_equal. now apply Hu.
Qed.

Lemma shuffled_arrange : forall G A (l : list A) r ds r', Answers G r (order_bounds (length l)) ds r' ->
  shuffled G l r = (arrange (length l - 1) l ds, r').
Proof.
  intros G A l r ds r' H. unfold shuffled. apply shuffle_from_arrange.
  destruct l as [|x l]; cbn [length] in *; [exact H|]. now replace (S (S (length l) - 1)) with (S (length l)) by lia.
Qed.

Lemma shuffled_bijective : forall A (l p : list A), NoDup l -> Permutation l p ->
  exists ds, Draws (length l) ds /\ arrange (length l - 1) l ds = p /\
    forall ds', Draws (length l) ds' -> arrange (length l - 1) l ds' = p -> ds' = ds.
Proof.
  intros A l p Hn Hp. destruct l as [|x l].
  - apply Permutation_nil in Hp. subst p. exists []. split; [constructor|]. split; [reflexivity|].
    intros ds' H _. inversion H. reflexivity.
  - destruct (arrange_bijective A (length l) (x :: l) p) as (ds & H).
    + cbn. lia.
    + assumption.
    + assumption.
    + intros k Hk. assert (length p = S (length l)) by (symmetry; exact (Permutation_length Hp)).
      rewrite (proj2 (nth_error_None _ _)) by (cbn; lia). symmetry. apply nth_error_None. lia.
    + exists ds. cbn [length]. replace (S (length l) - 1) with (length l) by lia. exact H.
Qed.

Lemma map_set_nth : forall A B (f : A -> B) i x l, map f (set_nth i x l) = set_nth i (f x) (map f l).
Proof. intros A B f i x l. revert i. induction l as [|y l IH]; intros [|i]; cbn; try reflexivity. now rewrite IH. Qed.
Lemma map_swap : forall A B (f : A -> B) i j l, map f (swap i j l) = swap i j (map f l).
Proof.
  intros A B f i j l. unfold swap. rewrite !nth_error_map.
  destruct (nth_error l i), (nth_error l j); cbn; try reflexivity. now rewrite !map_set_nth.
Qed.
Lemma shuffle_from_map : forall G A B (f : A -> B) i l r,
  shuffle_from G i (map f l) r = (map f (fst (shuffle_from G i l r)), snd (shuffle_from G i l r)).
Proof.
  intros G A B f. induction i as [|i IH]; intros l r; cbn [shuffle_from]; [reflexivity|].
  destruct (randbelow G (S (S i)) r) as [j r']. now rewrite <- map_swap, IH.
Qed.

(** Lookups while shuffling is on shuffle one list, whatever the random source. *)
Definition with_source (G : rng_impl) (w : world G) (r : rng_state G) : world G :=
  {| w_fs := w_fs G w; w_man := w_man G w; w_rng := r |}.
Lemma lookup_shuffles : forall P G ww roots w wc,
  Inv P ww roots (fun _ => True) (w_fs G w) (w_man G w) -> m_shuffle (w_man G w) = true ->
  forall out, lookup P G ww roots wc w = Ok out ->
  exists l, Permutation l out /\
    forall r, lookup P G ww roots wc (with_source G w r) = Ok (fst (shuffled G l r)).
Proof.
  intros P G ww roots w wc I Hsh out E. unfold lookup, get_values in *. cbn [with_source w_fs w_man w_rng].
  pose proof (get_values_ok P G ww roots (fun _ => True) (w_fs G w) wc (w_man G w) (w_rng G w) I) as H.
  unfold get_values in H.
  destruct (get_values_cached P ww roots (w_fs G w) wc (w_man G w)) as [st' [vs|e]]; [|discriminate].
  assert (Hst : m_shuffle st' = true).
  { destruct (m_shuffle st') eqn:Es; [reflexivity|]. destruct H as (_ & _ & _ & H & _). congruence. }
  rewrite Hst in E |- *. exists vs. split.
  - destruct (shuffled G vs (w_rng G w)) as [vs' r'] eqn:Er. injection E as <-.
    symmetry. pose proof (shuffled_perm G vs (w_rng G w)) as Hp. now rewrite Er in Hp.
  - intros r. now destruct (shuffled G vs r) as [vs' r'].
Qed.

(** The number of series of draws. *)
Fixpoint all_draws (ns : list nat) : list (list nat) :=
  match ns with
  | [] => [[]]
  | n :: ns' => flat_map (fun d => map (cons d) (all_draws ns')) (seq 0 n)
  end.
Lemma all_draws_In : forall ns ds, In ds (all_draws ns) <-> Forall2 lt ds ns.
Proof.
  induction ns as [|n ns IH]; intros ds; cbn.
  - split; [intros [<-|[]]; constructor|]. intros H. inversion H. now left.
  - rewrite in_flat_map. split.
    + intros (d & Hd & H). apply in_seq in Hd. apply in_map_iff in H as (ds' & <- & H).
      constructor; [lia|]. now apply IH.
    + intros H. inversion H as [|d n' ds' ns' Hd Hr]; subst. exists d. split; [apply in_seq; lia|].
      apply in_map. now apply IH.
Qed.
Lemma all_draws_length : forall ns, length (all_draws ns) = fold_right Nat.mul 1 ns.
Proof.
  induction ns as [|n ns IH]; [reflexivity|]. cbn. rewrite <- IH.
  generalize 0. induction n as [|n IHn]; intros s; [reflexivity|].
  cbn. rewrite app_length, map_length. f_equal. apply IHn.
Qed.
Lemma all_draws_NoDup : forall ns, NoDup (all_draws ns).
Proof.
  induction ns as [|n ns IH]; [repeat constructor; intros []|]. cbn. generalize 0.
  induction n as [|n IHn]; intros s; [constructor|]. cbn.
  assert (H1 : NoDup (map (cons s) (all_draws ns))).
  { apply FinFun.Injective_map_NoDup; [|exact IH]. intros a b E. now injection E. }
  assert (H2 : forall x, In x (map (cons s) (all_draws ns)) ->
             ~ In x (flat_map (fun d => map (cons d) (all_draws ns)) (seq (S s) n))).
  { intros x Hx Hy. apply in_map_iff in Hx as (a & <- & _). apply in_flat_map in Hy as (d & Hd & Hy).
    apply in_seq in Hd. apply in_map_iff in Hy as (b & E & _). injection E as <- _. lia. }
  specialize (IHn (S s)). clear IH. revert H1 H2.
  induction (map (cons s) (all_draws ns)) as [|x l IHl]; intros H1 H2; cbn; [exact IHn|].
  inversion H1; subst. constructor.
  - rewrite in_app_iff. intros [H|H]; [contradiction|]. apply (H2 x); [now left|exact H].
  - apply IHl; [assumption|]. intros y Hy. apply H2. now right.
Qed.
Lemma order_bounds_fact : forall n, fold_right Nat.mul 1 (order_bounds n) = fact n.
Proof.
  intros [|n]; [reflexivity|]. induction n as [|n IH]; [reflexivity|].
  rewrite order_bounds_S. cbn [fold_right]. rewrite IH. reflexivity.
Qed.
Lemma draws_counted : forall n, exists L, NoDup L /\ (forall ds, In ds L <-> Draws n ds) /\ length L = fact n.
Proof.
  intros n. exists (all_draws (order_bounds n)). split; [apply all_draws_NoDup|].
  split; [apply all_draws_In|]. rewrite all_draws_length. apply order_bounds_fact.
Qed.
