(** C89: how likely each prompt is. *)
From Coq Require Import String NArith ZArith QArith Qcanon Qabs Bool Arith List Lia.
From Verif.Model Require Import Str Utils Command Float Rng Values Context Sampler.
From Verif.Spec Require Import Text Comb Items StreamRng Lang Seeds Sure Share Chance.
From Verif.Proofs Require Import StrFacts FloatFacts ShareFacts ChanceFacts ChanceRun.
From Verif.Properties Require Import P_Sampler.
Import ListNotations.
Local Open Scope nat_scope.

(** * C89 *)
(** Count the sequences of [n] raw random numbers, [n] large enough: the part
    of them for which the first prompt is [u] is the chance of [u]. *)
Theorem C89_chance_of_a_prompt : forall E c p cmd l l',
  c_method c = Random -> Reads E p cmd -> Outcomes ieee_round cmd l -> Tidied (c_ignws c) l l' ->
  exists n0, forall n, n0 <= n -> forall u, exists hits, NoDup hits /\
    (forall s, In s hits <-> Numbers n s /\
       exists fuel g g' s', sample_prompts E fuel c p None = MOk g /\
         next stream_rng E fuel g s = @OVal stream_rng _ (u, g') s') /\
    number hits = (streams n * chance text_dec u l')%Qc.
Proof.
  intros E c p cmd l l' Hc Hr Ho Ht. destruct (first_chance E c p cmd l l' Hc Hr Ho Ht) as [n0 H].
  exists n0. intros n Hn u. destruct (H n Hn u) as (hits & H1 & H2 & H3). exists hits.
  split; [exact H1|]. split; [exact H2|]. rewrite <- streams_mass. exact H3.
Qed.

(** The prompts of a run do not depend on each other: the chance of a list of
    [k] prompts is the product of their chances. *)
Theorem C89_chance_of_a_run : forall E c p cmd l l' k,
  NoMemoryCtx E c -> Reads E p cmd -> Outcomes ieee_round cmd l -> Sure E (scope_of c) (c_busy c) cmd ->
  Tidied (c_ignws c) l l' ->
  exists n0, forall n, n0 <= n -> forall us, exists hits, NoDup hits /\
    (forall s, In s hits <-> Numbers n s /\
       exists fuel g g' s', sample_prompts E fuel c p None = MOk g /\
         collect stream_rng E fuel k g s = (us, EndLimit g', Some s')) /\
    number hits = (streams n * chance texts_dec us (repeated k l'))%Qc.
Proof.
  intros E c p cmd l l' k Hc Hr Ho Hs Ht. destruct (many_chance E c p cmd l l' k Hc Hr Ho Hs Ht) as [n0 H].
  exists n0. intros n Hn us. destruct (H n Hn us) as (hits & H1 & H2 & H3). exists hits.
  split; [exact H1|]. split; [exact H2|]. rewrite <- streams_mass. exact H3.
Qed.
Theorem C89_runs_multiply : forall u us k (l : list (text * Qc)), length us = k ->
  chance texts_dec (u :: us) (repeated (S k) l) = (chance text_dec u l * chance texts_dec us (repeated k l))%Qc.
Proof. exact runs_multiply. Qed.

(** Every template of texts, sequences and single choices has chances, and
    they add up to 1. *)
Theorem C89_there_are_chances : forall cmd, Simple ieee_round cmd ->
  exists l, Outcomes ieee_round cmd l /\ total (map snd l) = 1%Qc /\ forall b, exists l', Tidied b l l'.
Proof.
  intros cmd H. destruct (proj1 outcomes_exist _ H) as [l Hl]. exists l. split; [exact Hl|].
  split; [exact (outcomes_one env0 _ _ Hl)|]. intros b. apply tidied_exists.
Qed.

(** The chance of an option is its share of the weights, up to rounding. *)
Theorem C89_shares_follow_the_weights : forall ws cuts i w q,
  Forall (fun w => 0 <= w)%Qc ws -> (0 < float_sum ieee_round ws)%Qc -> (Z.of_nat (length ws) <= 2 ^ 48)%Z ->
  Stretches ieee_round ws cuts -> nth_error ws i = Some w -> nth_error (shares cuts) i = Some q ->
  (Qabs (q - w / exact_sum ws) <= (18 * inject_Z (Z.of_nat (length ws)) + 2) / 2 ^ 53)%Q.
Proof. exact shares_weights. Qed.

(** * Examples *)
Definition ab : command := Var (opts ["a"; "b"]%string) 1 1 $"," None.
Definition pair_of_ab : command := Seq [ab; lit " "; ab] [] None.
Example C89_halves : Stretches ieee_round [1; 1]%Qc [0; 4503599627370496; 9007199254740992]%N.
Proof. apply stretches_check; [repeat constructor; discriminate|vm_compute; reflexivity|reflexivity]. Qed.
Example C89_pair_example : exists l, Outcomes ieee_round pair_of_ab l /\
  chance text_dec $"a b" l = Q2Qc (1 # 4) /\ chance text_dec $"b b" l = Q2Qc (1 # 4) /\ chance text_dec $"c" l = 0%Qc.
Proof.
  assert (Ha : Outcomes ieee_round ab (scaled (Q2Qc (4503599627370496 # 9007199254740992)) [($"a", 1%Qc)] ++
                 scaled (Q2Qc (4503599627370496 # 9007199254740992)) [($"b", 1%Qc)] ++ [])).
  { eapply Out_choice; [now left|cbn; lia|repeat constructor; discriminate|exact C89_halves|].
    apply (OutO_cons _ (lit "a")); [apply Out_text; now left|].
    apply (OutO_cons _ (lit "b")); [apply Out_text; now left|constructor]. }
  exists (map (fun o => (joined (fst o) [], snd o))
    (both (scaled (Q2Qc (4503599627370496 # 9007199254740992)) [($"a", 1%Qc)] ++
                 scaled (Q2Qc (4503599627370496 # 9007199254740992)) [($"b", 1%Qc)] ++ [])
      (both [($" ", 1%Qc)]
      (both (scaled (Q2Qc (4503599627370496 # 9007199254740992)) [($"a", 1%Qc)] ++
                 scaled (Q2Qc (4503599627370496 # 9007199254740992)) [($"b", 1%Qc)] ++ []) [([], 1%Qc)])))).
  split; [|repeat split; apply Qc_is_canon; vm_compute; reflexivity].
  eapply Out_parts; [now left| |].
  - apply OutA_cons; [exact Ha|]. apply OutA_cons; [apply Out_text; now left|].
    apply OutA_cons; [exact Ha|apply OutA_nil].
  - apply glued_map.
Qed.
(** The other hypotheses hold for it. *)
Example C89_pair_hypotheses : NoMemoryCtx env0 (ctx0 Random) /\ Reads env0 (WCmd pair_of_ab) pair_of_ab /\
  Sure env0 (scope_of (ctx0 Random)) [] pair_of_ab /\ Simple ieee_round pair_of_ab.
Proof.
  assert (Hab : forall sc, sc_method sc = Random -> Sure env0 sc [] ab).
  { intros sc Hs. constructor. apply Sure_random; [cbn; now rewrite Hs| |discriminate| |].
    - intros (w & m & vs & q & K). discriminate.
    - right. split; [lia|]. intros v q [[= _ <-]|[[= _ <-]|[]]]; reflexivity.
    - intros v q [[= <- _]|[[= <- _]|[]]]; constructor; apply Sure_lit; cbn; rewrite Hs; discriminate. }
  split; [split; [reflexivity|split; [constructor|discriminate]]|].
  split; [constructor; split; discriminate|]. split.
  - constructor. apply Sure_seq; [discriminate| |].
    + intros x v ovr [K|[K|[K|[]]]]; discriminate.
    + intros sc' toks tok [Hm _] _ Hp Hin. cbn in Hm.
      assert (Ht : In tok [ab; lit " "; ab]).
      { clear -Hp Hin. revert toks Hp Hin. generalize [ab; lit " "; ab]. intros l toks Hp.
        induction Hp as [|n v i o ts ps Hp IH|c ts ps Hc Hp IH]; intros Hin; [contradiction|right; now apply IH|].
        destruct Hin as [->|Hin]; [now left|right; now apply IH]. }
      destruct Ht as [<-|[<-|[<-|[]]]]; try (now apply Hab).
      constructor. apply Sure_lit. cbn. rewrite Hm. discriminate.
  - assert (Ha : Simple ieee_round ab).
    { apply Simple_choice; [now left|cbn; lia|repeat constructor; discriminate|vm_compute; reflexivity|].
      repeat constructor. }
    apply Simple_parts; [now left|]. repeat (apply SimpleA_cons; [try exact Ha|]); [|constructor].
    apply Simple_text. now left.
Qed.

(** Weights count: [{3::a|b}]. *)
Example C89_weighted : Stretches ieee_round [Q2Qc 3; 1]%Qc [0; 6755399441055744; 9007199254740992]%N /\
  shares [0; 6755399441055744; 9007199254740992]%N = [Q2Qc (3 # 4); Q2Qc (1 # 4)].
Proof.
  split; [apply stretches_check; [repeat constructor; discriminate|vm_compute; reflexivity|reflexivity]|].
  cbn [shares]. f_equal; [|f_equal]; apply Qc_is_canon; vm_compute; reflexivity.
Qed.
(** Options of equal weight are not always equally likely: with three, the
    numbers cannot be shared out evenly. *)
Theorem C89_equal_weights_equal_chances_refuted : exists cuts q q',
  Stretches ieee_round [1; 1; 1]%Qc cuts /\ nth_error (shares cuts) 0 = Some q /\ nth_error (shares cuts) 1 = Some q' /\
  q <> q'.
Proof.
  exists [0; 3002399751580331; 6004799503160661; 9007199254740992]%N.
  exists (Q2Qc (3002399751580331 # 9007199254740992)), (Q2Qc (3002399751580330 # 9007199254740992)).
  split; [apply stretches_check; [repeat constructor; discriminate|vm_compute; reflexivity|reflexivity]|].
  split; [reflexivity|]. split; [reflexivity|]. intros H. apply (f_equal this) in H. vm_compute in H. discriminate.
Qed.

(** A quarter of all number sequences gives [a b]. *)
Example C89_a_quarter : exists n0, forall n, n0 <= n -> exists hits, NoDup hits /\
  (forall s, In s hits <-> Numbers n s /\
     exists fuel g g' s', sample_prompts env0 fuel (ctx0 Random) (WCmd pair_of_ab) None = MOk g /\
       next stream_rng env0 fuel g s = @OVal stream_rng _ ($"a b", g') s') /\
  number hits = (streams n * Q2Qc (1 # 4))%Qc.
Proof.
  destruct C89_pair_example as (l & Hl & Hq & _).
  assert (Ht : Tidied (c_ignws (ctx0 Random)) l l).
  { clear. induction l as [|o l IH]; constructor; [split; reflexivity|assumption]. }
  destruct (C89_chance_of_a_prompt env0 (ctx0 Random) (WCmd pair_of_ab) pair_of_ab l l eq_refl
    (proj1 (proj2 C89_pair_hypotheses)) Hl Ht) as [n0 H].
  exists n0. intros n Hn. destruct (H n Hn $"a b") as (hits & H1 & H2 & H3). exists hits. rewrite Hq in H3. auto.
Qed.

Print Assumptions C89_chance_of_a_prompt.
Print Assumptions C89_chance_of_a_run.
Print Assumptions C89_runs_multiply.
Print Assumptions C89_there_are_chances.
Print Assumptions C89_shares_follow_the_weights.
Print Assumptions C89_equal_weights_equal_chances_refuted.
