(** C67: an option's share of the random numbers is its share of the weights. *)
From Coq Require Import String NArith ZArith QArith Qcanon Qabs Bool Arith List Lia.
From Verif.Model Require Import Str Utils Command Float Rng Values Context Sampler.
From Verif.Spec Require Import Text Comb Items StreamRng Lang Enum Share.
From Verif.Proofs Require Import StrFacts FloatFacts DrawFacts ShareFacts ShareRun.
From Verif.Properties Require Import P_Sampler.
Import ListNotations.
Local Open Scope nat_scope.

(** * C67 *)
(** The 2^53 values of [random()] fall into one stretch per option.  The ends
    of the stretches do not depend on the state of the generator. *)
Theorem C67_draws_follow_the_cuts : forall G ws,
  Forall (fun w => 0 <= w)%Qc ws -> (0 < float_sum (fl G) ws)%Qc ->
  exists cuts, Cuts 1 (float_sum (fl G)) ws cuts /\
    forall r : rng_state G, exists i,
      choices G (accumulate G ws) 1 r = ROk [i] (snd (prim_random G r)) /\
      i < length ws /\
      (nth i cuts 0 <= N.modulo (fst (prim_random G r)) (2 ^ 53) < nth (S i) cuts 0)%N.
Proof. exact choices_cuts. Qed.

(** The rounding of the sums moves a cut by at most 9 numbers per option. *)
Theorem C67_true_shares : forall G ws cuts,
  Forall (fun w => 0 <= w)%Qc ws -> (0 < float_sum (fl G) ws)%Qc ->
  (Z.of_nat (length ws) <= 2 ^ 48)%Z -> Cuts 1 (float_sum (fl G)) ws cuts ->
  Cuts (9 * inject_Z (Z.of_nat (length ws)) + 1) exact_sum ws cuts.
Proof. exact true_cuts. Qed.

(** When the weights add up without rounding, it does not move them at all. *)
Theorem C67_exact_shares : forall G ws cuts,
  Forall Double ws -> (forall k, k <= length ws -> Double (exact_sum (firstn k ws))) ->
  Cuts 1 (float_sum (fl G)) ws cuts -> Cuts 1 exact_sum ws cuts.
Proof. exact exact_cuts. Qed.

(** How many of the 2^53 numbers draw option [i]. *)
Theorem C67_each_options_share : forall err ws cuts i w,
  Cuts err exact_sum ws cuts -> nth_error ws i = Some w ->
  (Qabs (inject_Z (Z.of_N (nth (S i) cuts 0%N) - Z.of_N (nth i cuts 0%N))
         - 2 ^ 53 * (w / exact_sum ws)) <= 2 * err)%Q.
Proof. exact stretch_length. Qed.

(** Random single choice: the prompt is the option whose stretch holds the
    number that was drawn for it, for every prompt of the run. *)
Theorem C67_random_choices_follow_the_cuts : forall G E c opts texts sep m,
  resolve (c_method c) m = Random -> 2 <= length opts ->
  Forall2 (fun o t => exists s, Cyc E (as_method Random c) (fst o) s /\ s 0 = t) opts texts ->
  Forall (fun o => 0 <= snd o)%Qc opts -> (0 < float_sum (fl G) (map snd opts))%Qc ->
  exists cuts, Cuts 1 (float_sum (fl G)) (map snd opts) cuts /\
  exists f, forall fuel, f <= fuel ->
  exists g, sample_prompts E fuel c (WCmd (Var opts 1 1 sep m)) None = MOk g /\
  forall n r, exists us g' r', collect G E fuel n g r = (us, EndLimit g', Some r') /\
    Forall2 (fun x u => exists i t, nth_error texts i = Some t /\ Tidy (c_ignws c) t u /\
                                    (nth i cuts 0 <= x < nth (S i) cuts 0)%N) (choice_numbers G n r) us.
Proof. exact share_run_snd. Qed.

Definition weighted : list (command * Qc) :=
  [(Lit $"a" None, 1%Qc); (Lit $"b" None, Q2Qc 2); (Lit $"c" None, 1%Qc)].
Definition quarters : list N := [0; 2251799813685248; 6755399441055744; 9007199254740992]%N.
Example C67_example : Cuts 1 exact_sum (map snd weighted) quarters.
Proof.
  split; try reflexivity.
  - intros [|[|[|k]]] Hk; vm_compute; try discriminate. cbn in Hk. lia.
  - intros [|[|[|[|k]]]] Hk; [| | | |cbn in Hk; lia]; vm_compute; discriminate.
Qed.
Example C67_run_example :
  run Random (Var weighted 1 1 $"," None) 5
    [0; 0; 0; 2251799813685247; 0; 2251799813685248; 0; 6755399441055743; 7; 6755399441055744]%N
  = ([$"a"; $"a"; $"b"; $"b"; $"c"], None) /\
  choice_numbers stream_rng 5
    [0; 0; 0; 2251799813685247; 0; 2251799813685248; 0; 6755399441055743; 7; 6755399441055744]%N
  = [0; 2251799813685247; 2251799813685248; 6755399441055743; 6755399441055744]%N.
Proof. vm_compute. split; reflexivity. Qed.
(** Its hypotheses. *)
Example C67_hypotheses_example :
  Forall2 (fun o t => exists s, Cyc env0 (as_method Random (ctx0 Random)) (fst o) s /\ s 0 = t)
          weighted [$"a"; $"b"; $"c"] /\
  Forall (fun o => 0 <= snd o)%Qc weighted /\ (0 < float_sum ieee_round (map snd weighted))%Qc.
Proof.
  split; [|split; [repeat constructor; discriminate|vm_compute; reflexivity]].
  assert (H : forall t : text, exists s, Cyc env0 (as_method Random (ctx0 Random)) (Lit t None) s /\ s 0 = t).
  { intros t. exists (fun _ => t). split; [|reflexivity]. apply Cy_lit; [now left|reflexivity]. }
  repeat apply Forall2_cons; try apply Forall2_nil; apply H.
Qed.
(** Without rounding: 3 options of weight 1 get the numbers below 2^53/3, between, and above. *)
Example C67_thirds_example :
  run Random (Var [(Lit $"a" None, 1%Qc); (Lit $"b" None, 1%Qc); (Lit $"c" None, 1%Qc)] 1 1 $"," None) 2
    [0; 3002399751580330; 0; 3002399751580331]%N = ([$"a"; $"b"], None).
Proof. vm_compute. reflexivity. Qed.

Print Assumptions C67_draws_follow_the_cuts.
Print Assumptions C67_true_shares.
Print Assumptions C67_exact_shares.
Print Assumptions C67_each_options_share.
Print Assumptions C67_random_choices_follow_the_cuts.
