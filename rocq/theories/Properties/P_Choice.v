(** C05-C09, C35, C36: bounds, selections, weighted draws. *)
From Coq Require Import String NArith ZArith QArith Qcanon Bool Arith List Permutation Sorted Lia.
From Verif.Model Require Import Str Command Rng Values.
From Verif.Spec Require Import Text Comb Items StreamRng.
From Verif.Proofs Require Import CommandFacts CombFacts RngFacts ValuesFacts.
Import ListNotations.
Local Open Scope nat_scope.

(** C05: the bounds a sampler works with, for bounds given in any order. *)
Theorem C05_bounds_normalised : forall n lo hi,
  (let (mn, mx) := post_init_bounds lo hi in adjust_range n mn mx)
  = (clamp n (Z.min lo hi), clamp n (Z.max lo hi)).
Proof. exact sampler_bounds. Qed.

Theorem C05_clamp_in_range : forall n z, (0 <= clamp n z <= Z.of_nat n)%Z.
Proof. exact clamp_range. Qed.

Theorem C05_clamp_keeps_valid : forall n z, (0 <= z <= Z.of_nat n)%Z -> clamp n z = z.
Proof. exact clamp_id. Qed.

Theorem C05_clamp_keeps_order : forall n y z, (y <= z)%Z -> (clamp n y <= clamp n z)%Z.
Proof. exact clamp_mono. Qed.

Example C05_example : (let (mn, mx) := post_init_bounds 7 (-2) in adjust_range 3 mn mx) = (0%Z, 3%Z).
Proof. reflexivity. Qed.

(** C06 *)
Theorem C06_combinations_are_the_selections : forall k vals t,
  In t (get_value_combinations k vals) <-> Selection k vals t.
Proof. exact combos_In. Qed.

Theorem C06_each_selection_once : forall k vals, NoDup vals ->
  NoDup (get_value_combinations k vals).
Proof. exact combos_NoDup. Qed.

Theorem C06_in_order : forall k vals,
  StronglySorted (Before vals) (get_value_combinations k vals).
Proof. exact combos_sorted. Qed.

Theorem C06_count : forall k vals, NoDup vals ->
  length (get_value_combinations k vals) = falling (length vals) k.
Proof. exact combos_length. Qed.

Theorem C06_empty_selection : forall vals, get_value_combinations 0 vals = [[]].
Proof. exact combos_0. Qed.

Definition lit (s : string) : command := Lit (of_string s) None.
Definition q (n : Z) : Qc := Q2Qc (inject_Z n).

Example C06_example :
  NoDup [lit "a"; lit "b"; lit "c"] /\
  get_value_combinations 2 [lit "a"; lit "b"; lit "c"]
  = [[lit "a"; lit "b"]; [lit "a"; lit "c"]; [lit "b"; lit "a"];
     [lit "b"; lit "c"]; [lit "c"; lit "a"]; [lit "c"; lit "b"]].
Proof.
  split; [|reflexivity].
  repeat constructor; cbn; intuition discriminate.
Qed.

(** C07 *)
Theorem C07_draw_without_replacement : forall G vals ws n (r : rng_state G) sel r',
  choose_without_replacement G cmd_eqb vals ws n r = ROk sel r' ->
  (exists rest, Permutation vals (sel ++ rest)) /\
  match vals with
  | [] => sel = []
  | [v] => sel = [v]
  | _ => length sel = Z.to_nat n /\ (n <= Z.of_nat (length vals))%Z
  end.
Proof. exact (fun G => cwr_ok G cmd_eqb cmd_eqb_spec). Qed.

Theorem C07_failure : forall G vals ws n (r : rng_state G) e r',
  choose_without_replacement G cmd_eqb vals ws n r = RErr e r' ->
  e = EValue /\
  ((Z.of_nat (length vals) < n)%Z \/ (ws <> [] /\ length ws <> length vals) \/
   (ws <> [] /\ exists used left, Permutation ws (used ++ left) /\ left <> [] /\
      (float_sum (fl G) left <= 0)%Qc)).
Proof. exact (fun G => cwr_err G cmd_eqb cmd_eqb_spec). Qed.

Theorem C07_success_with_positive_weights : forall G vals ws n (r : rng_state G),
  length ws = length vals -> Forall (fun w => 0 < w)%Qc ws ->
  (n <= Z.of_nat (length vals))%Z ->
  exists sel r', choose_without_replacement G cmd_eqb vals ws n r = ROk sel r'.
Proof. exact (fun G => cwr_succeeds G cmd_eqb cmd_eqb_spec). Qed.

Example C07_example :
  choose_without_replacement stream_rng cmd_eqb [lit "a"; lit "b"; lit "c"] [q 1; q 1; q 1] 2
    [top53; half53] = ROk (G:=stream_rng) [lit "c"; lit "b"] [].
Proof. run_both. Qed.

(** With two options of weight zero left, the draw fails. *)
Example C07_failure_example :
  choose_without_replacement stream_rng cmd_eqb [lit "a"; lit "b"; lit "c"] [q 1; q 0; q 0] 2
    [half53; half53] = RErr (G:=stream_rng) EValue [half53].
Proof. run_both. Qed.

(** C08 *)
Theorem C08_first_pick_has_positive_weight : forall G vals ws n (r : rng_state G) v sel r',
  2 <= length vals -> length ws = length vals ->
  choose_without_replacement G cmd_eqb vals ws n r = ROk (v :: sel) r' ->
  exists i, nth_error vals i = Some v /\ exists w, nth_error ws i = Some w /\ (0 < w)%Qc.
Proof. exact (fun G => cwr_first G cmd_eqb). Qed.

(** Not true of later picks: options a, b, c with weights 1, 0, 1; two picks
    can return b although a was still available. *)
Theorem C08_later_picks_refuted : exists G vals ws (r : rng_state G) sel r',
  NoDup vals /\ length ws = length vals /\
  choose_without_replacement G cmd_eqb vals ws 2 r = ROk sel r' /\
  exists v, In v sel /\ forall i, nth_error vals i = Some v -> nth_error ws i = Some 0%Qc.
Proof.
  exists stream_rng, [lit "a"; lit "b"; lit "c"], [q 1; q 0; q 1], [top53; half53],
    [lit "c"; lit "b"], [].
  split; [repeat constructor; cbn; intuition discriminate|].
  split; [reflexivity|]. split; [run_both|].
  exists (lit "b"). split; [cbn; auto|].
  intros [|[|[|i]]]; cbn; intros H; try discriminate; [reflexivity|destruct i; discriminate].
Qed.

(** C09: a step keeps the remaining options paired with their weights exactly
    when the weight of the drawn option, from its first occurrence in the
    weight list on, is repeated without interruption up to the drawn option. *)
Theorem C09_step_keeps_pairing_iff : forall chosen vals ws j,
  length vals = length ws -> FirstAt vals chosen j ->
  forall w, nth_error ws j = Some w ->
  (cwr_remaining cmd_eqb chosen vals ws = (remove_nth j vals, remove_nth j ws) <->
   forall i i', i <= i' -> i' <= j -> nth_error ws i = Some w -> nth_error ws i' = Some w).
Proof. exact (cwr_step_aligned cmd_eqb cmd_eqb_spec). Qed.

(** In particular with equal weights, at every step. *)
Theorem C09_equal_weights_keep_pairing : forall chosen vals w,
  In chosen vals -> exists j, FirstAt vals chosen j /\
  cwr_remaining cmd_eqb chosen vals (repeat w (length vals))
  = (remove_nth j vals, repeat w (length (remove_nth j vals))).
Proof. exact (cwr_step_equal_weights cmd_eqb cmd_eqb_spec). Qed.

Theorem C09_pairing_refuted : exists chosen vals ws vals' ws' v w,
  NoDup vals /\ length vals = length ws /\
  cwr_remaining cmd_eqb chosen vals ws = (vals', ws') /\
  In (v, w) (combine vals' ws') /\ ~ In (v, w) (combine vals ws).
Proof.
  exists (lit "c"), [lit "a"; lit "b"; lit "c"], [q 1; q 0; q 1], [lit "a"; lit "b"], [q 0; q 1],
    (lit "b"), (q 1).
  split; [repeat constructor; cbn; intuition discriminate|].
  split; [reflexivity|]. split; [vm_compute; reflexivity|]. split; [cbn; auto|].
  cbn. intros [H|[H|[H|[]]]]; discriminate.
Qed.

Example C09_example :
  cwr_remaining cmd_eqb (lit "b") [lit "a"; lit "b"; lit "c"] [q 1; q 2; q 1]
  = ([lit "a"; lit "c"], [q 1; q 1]).
Proof. vm_compute. reflexivity. Qed.

(** C35 *)
Theorem C35_items_repeat_by_integer_weight : forall items,
  Listed (item_pairs items) (iterate_weighted items).
Proof. exact iterate_weighted_Listed. Qed.

Theorem C35_listing_is_unique : forall l o1 o2, Listed l o1 -> Listed l o2 -> o1 = o2.
Proof. exact Listed_unique. Qed.

Theorem C35_light_items_never_occur : forall items t,
  (forall i, In i items -> w_content i = t -> (w_weight i < 1)%Qc) ->
  ~ In t (iterate_weighted items).
Proof. exact iterate_weighted_small. Qed.

Example C35_example :
  iterate_weighted [{| w_content := $"a"; w_weight_opt := Some (Q2Qc (5 # 2)) |};
                    {| w_content := $"b"; w_weight_opt := Some (Q2Qc (1 # 2)) |};
                    {| w_content := $"c"; w_weight_opt := None |}]
  = [$"a"; $"a"; $"c"].
Proof. vm_compute. reflexivity. Qed.

(** C36 *)
Theorem C36_random_values_are_items : forall G n items (r : rng_state G) t,
  In t (wdraw G n (start_wgen G items) r) ->
  exists i, In i items /\ w_content i = t /\
    ((exists j k, In j items /\ In k items /\ w_weight j <> w_weight k) -> (0 < w_weight i)%Qc).
Proof.
  intros G n items r t H.
  destruct (wdraw_spec G n items _ r t (wgen_of_start G items) H) as (i & Hi & Hc & Hw).
  exists i. repeat split; auto. intros Hv. apply Hw. now apply has_varied_weights_spec.
Qed.

Example C36_example :
  wdraw stream_rng 2 (start_wgen stream_rng [{| w_content := $"a"; w_weight_opt := Some (q 0) |};
                    {| w_content := $"b"; w_weight_opt := Some (q 1) |};
                    {| w_content := $"c"; w_weight_opt := Some (q 1) |}]) [0%N; top53]
  = [$"b"; $"c"].
Proof. vm_compute. reflexivity. Qed.

Print Assumptions C05_bounds_normalised.
Print Assumptions C05_clamp_in_range.
Print Assumptions C05_clamp_keeps_valid.
Print Assumptions C05_clamp_keeps_order.
Print Assumptions C06_combinations_are_the_selections.
Print Assumptions C06_each_selection_once.
Print Assumptions C06_in_order.
Print Assumptions C06_count.
Print Assumptions C06_empty_selection.
Print Assumptions C07_draw_without_replacement.
Print Assumptions C07_failure.
Print Assumptions C07_success_with_positive_weights.
Print Assumptions C08_first_pick_has_positive_weight.
Print Assumptions C08_later_picks_refuted.
Print Assumptions C09_step_keeps_pairing_iff.
Print Assumptions C09_equal_weights_keep_pairing.
Print Assumptions C09_pairing_refuted.
Print Assumptions C35_items_repeat_by_integer_weight.
Print Assumptions C35_listing_is_unique.
Print Assumptions C35_light_items_never_occur.
Print Assumptions C36_random_values_are_items.
