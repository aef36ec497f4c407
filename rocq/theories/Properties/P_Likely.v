(** C91: which templates have chances, and which prompts. *)
From Coq Require Import String NArith ZArith QArith Qcanon Bool Arith List Lia.
From Verif.Model Require Import Str Utils Command Float Rng Values Context Sampler.
From Verif.Spec Require Import Text Comb Items StreamRng Lang Draws Rolls Seeds Sure Share Chance Odds.
From Verif.Proofs Require Import StrFacts FloatFacts FairFacts ReachFacts ChanceFacts ChanceRun OddsFacts OddsRun OddsExist.
From Verif.Properties Require Import P_Sampler P_Live.
Import ListNotations.
Local Open Scope nat_scope.
Local Notation unit53 := Chance.unit53.

(** * C91 *)
(** A template that random sampling can always serve (C55), without cyclical
    parts, has chances, so that C90 is about it; every prompt listed is one the
    template allows. *)
Theorem C91_safe_templates_have_chances : forall E c p cmd, AllRandomValues E -> AllRandomScope E (scope_of c) -> AllRandomPrompt E p ->
  Reads E p cmd -> Sure E (scope_of c) (c_busy c) cmd ->
  exists M l, M <> 0%N /\ N.divide unit53 M /\ OddsPath M ieee_round E (scope_of c) (c_busy c) p l /\
    forall u q, In (u, q) l -> Allowed E c p u.
Proof.
  intros E c p cmd Hv Hc Hp Hr Hs.
  destruct (has_path E _ _ _ _ Hr (proj1 (sure_odds E Hv) _ _ _ Hs Hc (Hp _ Hr))) as (M & l & HM & Ho & Hl).
  exists (M * unit53)%N, l. split; [assert (unit53 <> 0%N) by discriminate; lia|]. split; [now exists M|]. split.
  - apply Ho. exists unit53. lia.
  - intros u q Hin. rewrite Forall_forall in Hl. pose proof (Hl _ Hin) as K. inversion K as [? ? cmd' t ? K1 K2 K3]; subst.
    exists cmd', t. split; [exact K1|]. split; [exact K2|exact K3].
Qed.

(** The chance of a prompt does not depend on how many raw numbers there are. *)
Theorem C91_chances_are_unique : forall E c p M M' l l' u, M <> 0%N -> M' <> 0%N -> N.divide unit53 M -> N.divide unit53 M' ->
  OddsPath M ieee_round E (scope_of c) (c_busy c) p l -> OddsPath M' ieee_round E (scope_of c) (c_busy c) p l' ->
  chance text_dec u l = chance text_dec u l'.
Proof. exact odds_unique. Qed.

(** Prompts with a chance are allowed, and prompts that can be drawn (C56) have
    a chance. *)
Theorem C91_likely_prompts_are_allowed : forall E c p M l u, M <> 0%N -> N.divide unit53 M ->
  OddsPath M ieee_round E (scope_of c) (c_busy c) p l -> (0 < chance text_dec u l)%Qc -> Allowed E c p u.
Proof.
  intros E c p M l u HM Hd Ho Hpos. rewrite <- (N2Nat.id M) in Hd, Ho.
  destruct (odds_support (N.to_nat M) ltac:(lia) Hd E c p l u Ho) as (s & _ & fuel & g & g' & s' & Hg & Hn).
  { intros K. rewrite K in Hpos. discriminate. }
  assert (Hc : collect stream_rng E fuel 1 g s = ([u], EndLimit g', Some s')) by (cbn [collect]; now rewrite Hn).
  pose proof (C14_every_prompt_is_allowed stream_rng E fuel c p None g fuel 1 s _ _ _ Hg Hc) as Ha. now inversion Ha.
Qed.
Theorem C91_drawable_prompts_have_a_chance : forall E c p M l u, M <> 0%N -> N.divide unit53 M ->
  OddsPath M ieee_round E (scope_of c) (c_busy c) p l -> Drawn E c p u -> (0 < chance text_dec u l)%Qc.
Proof.
  intros E c p M l u HM Hd Ho H. destruct (drawn_first E c p u H) as (n & draws & g & g' & K).
  apply (given_chance E c p M l u draws HM Hd Ho). intros rest. destruct (K n rest (le_n _)) as [K1 K2]. now exists n, g, g', rest.
Qed.

(** With fair weights the prompts with a chance are exactly those allowed. *)
Theorem C91_exactly_the_allowed_prompts : forall E c p M l u, M <> 0%N -> N.divide unit53 M ->
  OddsPath M ieee_round E (scope_of c) (c_busy c) p l ->
  FairValues E -> c_method c = Random -> (forall cmd, Reads E p cmd -> Fair E cmd) ->
  ((0 < chance text_dec u l)%Qc <-> Allowed E c p u).
Proof.
  intros E c p M l u HM Hd Ho Hv Hm Hf. split; [eapply C91_likely_prompts_are_allowed; eassumption|].
  intros Ha. eapply C91_drawable_prompts_have_a_chance; [exact HM|exact Hd|exact Ho|]. now apply fair_allowed_drawn.
Qed.

(** * Example *)
(** The template of [C56_fair_cmd]: one to three of [a], some of [b] and [c],
    and [d], with different weights, and an animal. *)
Lemma fair_random : AllRandomValues env0 /\ AllRandomScope env0 (scope_of (ctx0 Random)) /\ AllRandomPrompt env0 (WCmd fair_cmd).
Proof.
  assert (Hl : forall s, AllRandom env0 (lit s)) by (intros s; constructor; discriminate).
  split; [|split].
  - intros path t q Hin. split.
    + cbn [env0 env_lookup] in Hin. destruct (str_eqb path $"animal"); [|destruct Hin].
      destruct Hin as [[= <- <-]|[[= <- <-]|[]]]; discriminate.
    + intros c [= <-]. constructor. discriminate.
  - split; [reflexivity|]. split; [intros x v H|intros v H]; discriminate.
  - intros c H. inversion H; subst. constructor; [discriminate|].
    repeat constructor; cbn [fst snd]; try discriminate; auto; try apply Hl. intros c [= <-]. constructor. discriminate.
Qed.
Lemma fair_sure : Sure env0 (scope_of (ctx0 Random)) [] fair_cmd.
Proof.
  assert (Hlit : forall sc busy s, sc_method sc = Random -> Sure env0 sc busy (lit s)).
  { intros sc busy s H. constructor. constructor. cbn. rewrite H. discriminate. }
  constructor. apply Sure_seq.
  - discriminate.
  - intros x v ovr [|[|[]]]; discriminate.
  - intros sc' toks tok (Hm & Hs & Hu) _ Hp Hin. cbn in Hm, Hs.
    assert (Htoks : forall t, In t toks -> In t (match fair_cmd with Seq ts _ _ => ts | _ => [] end)).
    { clear -Hp. cbn [fair_cmd]. revert Hp. generalize [Var [(lit "a", 1%Qc); (Var (opts ["b"; "c"]%string) 0 2 $"&" None, Q2Qc (2 # 1)); (lit "d", Q2Qc (1 # 2))] 1 3 $"+" None;
       Wild (WStr $"animal") None []]. intros l H. induction H; intros x Hx; cbn in *; [assumption|auto|destruct Hx; auto]. }
    destruct (Htoks _ Hin) as [<-|[<-|[]]].
    + constructor. apply Sure_random.
      * cbn. now rewrite Hm.
      * intros (w & m & vs & q & [=]).
      * discriminate.
      * right. split; [lia|]. intros v q Hv. repeat (destruct Hv as [[= <- <-]|Hv]; [reflexivity|]). destruct Hv.
      * intros v q Hv. destruct Hv as [[= <- <-]|[[= <- <-]|[[= <- <-]|[]]]]; [now apply Hlit| |now apply Hlit].
        constructor. apply Sure_random.
        -- cbn. now rewrite Hm.
        -- intros (w & m & vs & q & [=]).
        -- discriminate.
        -- right. split; [lia|]. intros v q Hv. repeat (destruct Hv as [[= <- <-]|Hv]; [reflexivity|]). destruct Hv.
        -- intros v q Hv. destruct Hv as [[= <- <-]|[[= <- <-]|[]]]; now apply Hlit.
    + now apply served_animal.
Qed.
Example C91_a_nested_template : exists M l, M <> 0%N /\ N.divide unit53 M /\
  OddsPath M ieee_round env0 (scope_of (ctx0 Random)) [] (WCmd fair_cmd) l /\
  (0 < chance text_dec $"d dog" l)%Qc.
Proof.
  destruct fair_random as (H1 & H2 & H3).
  destruct (C91_safe_templates_have_chances env0 (ctx0 Random) (WCmd fair_cmd) fair_cmd H1 H2 H3) as (M & l & HM & Hd & Ho & Ha).
  { constructor. split; discriminate. }
  { exact fair_sure. }
  exists M, l. split; [exact HM|]. split; [exact Hd|]. split; [exact Ho|].
  eapply C91_drawable_prompts_have_a_chance; [exact HM|exact Hd|exact Ho|exact C56_example_drawn].
Qed.

(** Fair weights are needed: the weight 1/2 is lost beside 2^53, so the second
    option is allowed but has no chance. *)
Definition big : Qc := Q2Qc (9007199254740992 # 1).
Definition faint : command := Var [(lit "a", big); (lit "b", Q2Qc (1 # 2))] 1 1 $"," None.
Lemma faint_cuts : Stretches ieee_round [big; Q2Qc (1 # 2)] [0; 9007199254740992; 9007199254740992]%N.
Proof. apply stretches_check; [repeat constructor; discriminate|vm_compute; reflexivity|vm_compute; reflexivity]. Qed.
Lemma faint_shares : shares [0; 9007199254740992; 9007199254740992]%N = [1; 0]%Qc.
Proof. cbn [shares]. f_equal; [|f_equal]; apply Qc_is_canon; vm_compute; reflexivity. Qed.
Theorem C91_refuted_for_faint_options : exists l,
  OddsPath unit53 ieee_round env0 (scope_of (ctx0 Random)) [] (WCmd faint) l /\
  Allowed env0 (ctx0 Random) (WCmd faint) $"b" /\ chance text_dec $"b" l = 0%Qc.
Proof.
  assert (Hr : Reads env0 (WCmd faint) faint) by (constructor; split; discriminate).
  exists [($"a", one_in 1 * (1 * 1) * (1 * 1))%Qc]. split; [|split].
  - apply (OdP unit53 ieee_round env0 (scope_of (ctx0 Random)) [] (WCmd faint) faint [($"a", one_in 1 * (1 * 1) * (1 * 1))%Qc]);
      [exact Hr| |constructor; [split; reflexivity|constructor]].
    constructor; [reflexivity|].
    apply (Od_choice unit53 ieee_round env0 _ [] _ 1 1 $"," None 1%Z 1 [([lit "a"], one_in 1 * (1 * 1))%Qc]
             [([$"a"], one_in 1 * (1 * 1) * (1 * 1))%Qc]);
      [cbn; lia|reflexivity|reflexivity|lia|exists unit53; reflexivity| | |].
    + apply (ChS_cons ieee_round _ _ _ 1 [] [([lit "a"], 1 * 1)%Qc] []); [|constructor].
      eapply Cho_more; [repeat constructor; discriminate|exact faint_cuts|]. rewrite faint_shares.
      apply (ChE_cons ieee_round _ _ _ (lit "a") _ 1%Qc _ 0 big [lit "b"] [Q2Qc (1 # 2)] [([], 1%Qc)] []).
      * split; [reflexivity|]. intros j Hj. lia.
      * reflexivity.
      * exists [], [lit "b"]. repeat split. intros [].
      * exists [], [Q2Qc (1 # 2)]. repeat split. intros [].
      * constructor.
      * apply ChE_never. constructor.
    + cbn [map fst snd].
      apply (OdM_cons unit53 ieee_round env0 _ (one_in 1 * (1 * 1))%Qc [] [([$"a"], 1 * 1)%Qc] []); [|constructor].
      apply OdJ_all. apply (OdA_cons unit53 ieee_round env0 _ [] (lit "a") [] [($"a", 1%Qc)] [([], 1%Qc)]); [|constructor].
      constructor; [reflexivity|constructor].
    + constructor; [|constructor]. split; [constructor|reflexivity].
  - exists faint, $"b". split; [exact Hr|]. split; [|reflexivity]. constructor.
    apply B_choice with (sel := [lit "b"]) (rest := [lit "a"]) (parts := [$"b"]).
    + intros (w & m & vs & q & [=]).
    + discriminate.
    + discriminate.
    + apply Permutation.perm_swap.
    + cbn. lia.
    + intros _ v sel' [= <- <-]. exists (Q2Qc (1 # 2)). split; [right; now left|reflexivity].
    + constructor; [constructor; constructor|constructor].
    + discriminate.
    + constructor.
  - reflexivity.
Qed.

Print Assumptions C91_safe_templates_have_chances.
Print Assumptions C91_chances_are_unique.
Print Assumptions C91_likely_prompts_are_allowed.
Print Assumptions C91_drawable_prompts_have_a_chance.
Print Assumptions C91_exactly_the_allowed_prompts.
Print Assumptions C91_refuted_for_faint_options.
