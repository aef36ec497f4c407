(** C92: the weights of options are relative, and matter only for choices made
    at random. *)
From Coq Require Import String NArith ZArith QArith Qcanon Bool Arith List Lia.
From Verif.Model Require Import Str Float Utils Command Rng Values Context Sampler Parser Generators.
From Verif.Spec Require Import Text Lang StreamRng Weights.
From Verif.Proofs Require Import StrFacts UtilsFacts CommandFacts Soundness MentionFacts FloatScale WeightsFacts WeightsRun.
From Verif.Properties Require Import P_Sampler P_Parser P_EndToEnd.
Import ListNotations.
Local Open Scope nat_scope.

(** Two templates run alike: the same texts, the same end, the same exception
    and the same use of the random source, for any number of prompts. *)
Definition RunAlike (G : rng_impl) (E : env) (x y : mkres) : Prop :=
  match x, y with
  | MOk g, MOk h => forall f n r,
      let '(ts, e, s) := collect G E f n g r in
      let '(us, e', s') := collect G E f n h r in
      ts = us /\ s = s' /\ (e = EndStop <-> e' = EndStop) /\ forall x, e = EndRaise x <-> e' = EndRaise x
  | MErr e, MErr e' => e = e'
  | MFuel, MFuel => True
  | _, _ => False
  end.

Section Alike.
Variable G : rng_impl.
Variable E : env.
Variables (texts : text -> Prop) (methods : method -> Prop) (instead : list Qc -> list Qc -> Prop).
Hypothesis HT : Readable E texts methods instead.
Hypothesis Hrefl : forall ws, instead ws ws.
Hypothesis HR : methods Random -> forall os os' k r, Opts texts methods instead os os' ->
  twin G (lift_rres G (choose_without_replacement G cmd_eqb (values os) (weights os) k r))
         (lift_rres G (choose_without_replacement G cmd_eqb (values os') (weights os') k r))
         (Forall2 (Reweighed texts methods instead)).
Notation tw := (tw G E texts methods instead).

Lemma twin_alike : forall x y, twin_mk G E texts methods instead x y -> RunAlike G E x y.
Proof.
  intros [g|e|] [h|e'|] H; cbn in H |- *; try contradiction; auto. intros f n r.
  pose proof (collect_twin G E texts methods instead HT Hrefl HR f n g h r H) as HC.
  destruct (collect G E f n g r) as [[ts e] s], (collect G E f n h r) as [[us e'] s'].
  destruct HC as (-> & -> & HC). split; [reflexivity|]. split; [reflexivity|].
  destruct e, e'; try contradiction; (split; [|intros x]); split; intros K; try discriminate; try congruence; auto.
Qed.
Lemma drain_alike : forall f n g h r, tw g h -> drain G E f n g r = drain G E f n h r.
Proof.
  intros f n. induction n as [|n IH]; intros g h r Hg; cbn [drain]; [reflexivity|].
  pose proof (proj1 (next_twin G E texts methods instead HT Hrefl HR f) g h r Hg) as HTT.
  destruct (next G E f g r) as [[t g'] r1|r1|e r1|], (next G E f h r) as [[t' h'] r2|r2|e' r2|]; cbn in HTT; try contradiction.
  - destruct HTT as [-> [E' Hg']]. cbn in E', Hg'. subst t'. now rewrite (IH g' h' r2 Hg').
  - now subst.
  - now destruct HTT as [-> ->].
  - reflexivity.
Qed.
Lemma seeded_alike : forall f l g h r, tw g h -> seeded_loop G E f l g r = seeded_loop G E f l h r.
Proof.
  intros f l. induction l as [|z l IH]; intros g h r Hg; cbn [seeded_loop]; [reflexivity|].
  pose proof (proj1 (next_twin G E texts methods instead HT Hrefl HR f) g h (prim_seed G z) Hg) as HTT.
  destruct (next G E f g (prim_seed G z)) as [[t g'] r1|r1|e r1|], (next G E f h (prim_seed G z)) as [[t' h'] r2|r2|e' r2|];
    cbn in HTT; try contradiction.
  - destruct HTT as [-> [E' Hg']]. cbn in E', Hg'. subst t'. now rewrite (IH g' h' r2 Hg').
  - now subst.
  - now destruct HTT as [-> ->].
  - reflexivity.
Qed.
Lemma random_alike : forall c d fuel p p' num seeds r,
  ReweighedContext texts methods instead c d -> ReweighedPrompt E texts methods instead (WStr p) (WStr p') ->
  random_generate G E fuel c p num seeds r = random_generate G E fuel d p' num seeds r.
Proof.
  intros c d fuel p p' num seeds r Hc Hp. unfold random_generate.
  pose proof (twin_prompts G E texts methods instead fuel c d (WStr p) (WStr p') (Some num) Hc Hp) as HM.
  destruct (sample_prompts E fuel c (WStr p) (Some num)) as [g|e|],
    (sample_prompts E fuel d (WStr p') (Some num)) as [h|e'|]; cbn in HM; try contradiction; subst;
    destruct (effective_seeds seeds num) as [[l|e0]|]; cbn [drain_mk]; try reflexivity.
  - now apply seeded_alike.
  - now apply drain_alike.
Qed.
Lemma combinatorial_alike : forall c d fuel steps p p' limit r,
  ReweighedContext texts methods instead c d -> ReweighedPrompt E texts methods instead (WStr p) (WStr p') ->
  combinatorial_generate G E fuel steps c p limit r = combinatorial_generate G E fuel steps d p' limit r.
Proof.
  intros c d fuel steps p p' limit r Hc Hp. unfold combinatorial_generate.
  pose proof (twin_prompts G E texts methods instead fuel c d (WStr p) (WStr p') limit Hc Hp) as HM.
  destruct (sample_prompts E fuel c (WStr p) limit) as [g|e|],
    (sample_prompts E fuel d (WStr p') limit) as [h|e'|]; cbn in HM |- *; try contradiction; subst; try reflexivity.
  now apply drain_alike.
Qed.
End Alike.

Lemma same_context : forall c, (forall x, ReweighedOption all_texts all_methods Doubled (dict_get x (c_vars c)) (dict_get x (c_vars c))) /\
  ReweighedOption all_texts all_methods Doubled (c_unknown c) (c_unknown c).
Proof.
  assert (H : forall d, ReweighedOption all_texts all_methods Doubled d d).
  { intros [v|]; [|exact I]. apply reweighed_refl; [exact doubled_refl|apply asks_all]. }
  intros c. split; [intros x|]; apply H.
Qed.

(** * C92 *)
(** The weights of each variant multiplied by a power of two of its own
    change nothing, whatever the sampler: in the template, in the variables of
    the context and in the value for unknown variables. *)
Theorem C92_weights_are_relative : forall G E c c' p p' limit fuel,
  (forall q, fl G q = ieee_round q) ->
  ReweighedContext all_texts all_methods Doubled c c' -> ReweighedPrompt E all_texts all_methods Doubled p p' ->
  RunAlike G E (sample_prompts E fuel c p limit) (sample_prompts E fuel c' p' limit).
Proof.
  intros G E c c' p p' limit fuel HG Hc Hp.
  eapply twin_alike; [apply readable_all|exact doubled_refl|exact (choose_doubled G HG)|]. now apply twin_prompts.
Qed.
Theorem C92_random_generator : forall G E c c' fuel template template' num seeds r,
  (forall q, fl G q = ieee_round q) -> ReweighedContext all_texts all_methods Doubled c c' ->
  ReweighedPrompt E all_texts all_methods Doubled (WStr template) (WStr template') ->
  random_generate G E fuel c template num seeds r = random_generate G E fuel c' template' num seeds r.
Proof.
  intros. eapply random_alike; [apply readable_all|exact doubled_refl|exact (choose_doubled G H)|eassumption|eassumption].
Qed.
(** One power of two for all weights of a template, in any context. *)
Theorem C92_all_weights_scaled : forall G E c cmd e limit fuel,
  (forall q, fl G q = ieee_round q) ->
  RunAlike G E (sample_prompts E fuel c (WCmd cmd) limit)
               (sample_prompts E fuel c (WCmd (reweigh (Qcmult (pow2 e)) cmd)) limit).
Proof.
  intros G E c cmd e limit fuel HG.
  eapply twin_alike; [apply readable_all|exact doubled_refl|exact (choose_doubled G HG)|]. apply prompt_twin.
  - destruct (same_context c) as [H1 H2]. split; [reflexivity|]. split; [exact I|]. split; [reflexivity|]. split; [reflexivity|].
    split; [exact H2|exact H1].
  - apply reweigh_ok; [|intros ws; now exists e|apply asks_all].
    intros a b. apply (up_inj G); [apply pow2_above|]. intros q. rewrite !HG. apply ieee_scale.
Qed.
(** Without choices at random any weights do, as long as the same options are
    repeated. *)
Theorem C92_only_chance_weighs : forall G E (texts : text -> Prop) (methods : method -> Prop) c c' p p' limit fuel,
  ~ methods Random ->
  (forall t cmd, texts t -> env_parse E t = Ok cmd -> Asks texts methods cmd) ->
  (forall name i, In i (env_lookup E name) -> texts (w_content i)) ->
  ReweighedContext texts methods AnyWeights c c' -> ReweighedPrompt E texts methods AnyWeights p p' ->
  RunAlike G E (sample_prompts E fuel c p limit) (sample_prompts E fuel c' p' limit).
Proof.
  intros G E texts methods c c' p p' limit fuel HN H1 H2 Hc Hp.
  eapply twin_alike; [apply (readable_asks E texts methods H1 H2)|intros; exact I|intros K; contradiction|]. now apply twin_prompts.
Qed.
Theorem C92_combinatorial_generator : forall G E (texts : text -> Prop) (methods : method -> Prop) c c' fuel steps template template' limit r,
  ~ methods Random ->
  (forall t cmd, texts t -> env_parse E t = Ok cmd -> Asks texts methods cmd) ->
  (forall name i, In i (env_lookup E name) -> texts (w_content i)) ->
  ReweighedContext texts methods AnyWeights c c' ->
  ReweighedPrompt E texts methods AnyWeights (WStr template) (WStr template') ->
  combinatorial_generate G E fuel steps c template limit r = combinatorial_generate G E fuel steps c' template' limit r.
Proof.
  intros G E texts methods c c' fuel steps p p' limit r HN H1 H2 Hc Hp.
  eapply combinatorial_alike; [apply (readable_asks E texts methods H1 H2)|intros; exact I|intros K; contradiction|eassumption|eassumption].
Qed.
(** All weights of a template changed, different weights staying different. *)
Theorem C92_any_weights_without_chance : forall G E (texts : text -> Prop) (methods : method -> Prop) c c' cmd f limit fuel,
  ~ methods Random ->
  (forall t cmd, texts t -> env_parse E t = Ok cmd -> Asks texts methods cmd) ->
  (forall name i, In i (env_lookup E name) -> texts (w_content i)) ->
  ReweighedContext texts methods AnyWeights c c' -> Asks texts methods cmd ->
  (forall a b, f a = f b -> a = b) ->
  RunAlike G E (sample_prompts E fuel c (WCmd cmd) limit) (sample_prompts E fuel c' (WCmd (reweigh f cmd)) limit).
Proof.
  intros G E texts methods c c' cmd f limit fuel HN H1 H2 Hc Ha Hf.
  eapply twin_alike; [apply (readable_asks E texts methods H1 H2)|intros; exact I|intros K; contradiction|]. apply prompt_twin; [exact Hc|].
  apply reweigh_ok; [exact Hf|intros; exact I|exact Ha].
Qed.
(** The reason: floats of twice the size are rounded alike. *)
Theorem C92_floats_scale : forall e q, ieee_round (pow2 e * q)%Qc = (pow2 e * ieee_round q)%Qc.
Proof. exact ieee_scale. Qed.

(** The texts of a run, for the examples. *)
Definition map_ret {S A} (x : out S A) : option A := match x with Ret a _ => Some a | _ => None end.
(** [{2::a|5::b|{1::c|d}} __animal__] and the same with the weights of the outer
    variant doubled and those of the inner one multiplied by four. *)
Definition light : text := $"{2::a|5::b|{1::c|d}} __animal__".
Definition heavy : text := $"{4::a|10::b|2::{4::c|4::d}} __animal__".
Example C92_example_related :
  ReweighedPrompt zoo all_texts all_methods Doubled (WStr light) (WStr heavy) /\
  ReweighedContext all_texts all_methods Doubled (fresh Random false) (fresh Random false).
Proof.
  assert (HM : forall m, Mark all_methods m) by (intros m x _; exact I).
  assert (HL : forall t, Reweighed all_texts all_methods Doubled (Lit t None) (Lit t None)) by (intros t; apply Rw_text, HM).
  split.
  - right. eexists. eexists. split; [apply Reads_text; [discriminate|vm_compute; reflexivity]|].
    split; [apply Reads_text; [discriminate|vm_compute; reflexivity]|].
    apply Rw_sequence; [apply HM| |].
    + constructor; [|constructor; [apply HL|constructor; [|constructor]]].
      * apply Rw_variants; [apply HM| | |].
        -- constructor; [apply HL|constructor; [apply HL|constructor; [|constructor]]]. cbn [fst].
           apply Rw_variants; [apply HM| | |].
           ++ constructor; [apply HL|constructor; [apply HL|constructor]].
           ++ intros [|[|[|i]]] [|[|[|j]]]; cbn; split; congruence.
           ++ exists 2%Z. cbn [map snd]. repeat f_equal; apply Qc_is_canon; vm_compute; reflexivity.
        -- intros [|[|[|[|i]]]] [|[|[|[|j]]]]; cbn; split; congruence.
        -- exists 1%Z. cbn [map snd]. repeat f_equal; apply Qc_is_canon; vm_compute; reflexivity.
      * apply Rw_wildcard; [apply HM|exact I|constructor].
    + intros [|[|[|[|i]]]] [|[|[|[|j]]]]; cbn; split; congruence.
  - split; [reflexivity|]. split; [exact I|]. split; [reflexivity|]. split; [reflexivity|]. split; [exact I|]. intros x. exact I.
Qed.
(** Draws for three prompts, the same from either template. *)
Definition weigh_draws : list N := [0; half53; 0; 0; top53; 0; 0; 0; top53; 0; top53; 0; 0; 0]%N.
Example C92_example_prompts :
  map_ret (random_generate stream_rng zoo 40 (fresh Random false) light 3 SNone weigh_draws) = Some [$"b cat"; $"a cat"; $"a big dog"] /\
  map_ret (random_generate stream_rng zoo 40 (fresh Random false) heavy 3 SNone weigh_draws) = Some [$"b cat"; $"a cat"; $"a big dog"].
Proof. split; vm_compute; reflexivity. Qed.

(** Listing all prompts of [{3::a|b|{c|d}} __animal__], which reads one
    wildcard and its values, with quite different weights. *)
Definition zoo_texts (t : text) : Prop := In t [$"animal"; $"cat"; $"{big|small} dog"].
Definition some_weights : text := $"{3::a|b|{c|d}} __animal__".
Definition other_weights : text := $"{a|7::b|2::{c|5::d}} __animal__".
Example C92_example_listed :
  ~ no_chance Random /\
  (forall t cmd, zoo_texts t -> env_parse zoo t = Ok cmd -> Asks zoo_texts no_chance cmd) /\
  (forall name i, In i (env_lookup zoo name) -> zoo_texts (w_content i)) /\
  ReweighedContext zoo_texts no_chance AnyWeights (fresh Combinatorial false) (fresh Combinatorial false) /\
  ReweighedPrompt zoo zoo_texts no_chance AnyWeights (WStr some_weights) (WStr other_weights).
Proof.
  assert (HM : Mark no_chance None) by (intros x Hx; discriminate).
  assert (HL : forall t, Reweighed zoo_texts no_chance AnyWeights (Lit t None) (Lit t None)) by (intros t; now apply Rw_text).
  split; [intros H; now apply H|]. split; [|split; [|split]].
  - intros t cmd [<-|[<-|[<-|[]]]] H; vm_compute in H; injection H as <-.
    + now apply Asks_text.
    + now apply Asks_text.
    + apply Asks_sequence; [exact HM|]. constructor; [|constructor; [now apply Asks_text|constructor]].
      apply Asks_variants; [exact HM|]. constructor; [now apply Asks_text|constructor; [now apply Asks_text|constructor]].
  - intros name i. cbn [env_lookup zoo]. destruct (str_eqb name $"animal"); [|intros []].
    intros [<-|[<-|[]]]; [right; left|right; right; left]; reflexivity.
  - split; [reflexivity|]. split; [discriminate|]. split; [reflexivity|]. split; [reflexivity|]. split; [exact I|]. intros x. exact I.
  - right. eexists. eexists. split; [apply Reads_text; [discriminate|vm_compute; reflexivity]|].
    split; [apply Reads_text; [discriminate|vm_compute; reflexivity]|].
    apply Rw_sequence; [exact HM| |].
    + constructor; [|constructor; [apply HL|constructor; [|constructor]]].
      * apply Rw_variants; [exact HM| | |exact I].
        -- constructor; [apply HL|constructor; [apply HL|constructor; [|constructor]]]. cbn [fst].
           apply Rw_variants; [exact HM| | |exact I].
           ++ constructor; [apply HL|constructor; [apply HL|constructor]].
           ++ intros [|[|[|i]]] [|[|[|j]]]; cbn; split; congruence.
        -- intros [|[|[|[|i]]]] [|[|[|[|j]]]]; cbn; split; congruence.
      * apply Rw_wildcard; [exact HM|now left|constructor].
    + intros [|[|[|[|i]]]] [|[|[|[|j]]]]; cbn; split; congruence.
Qed.
Definition seven : list text :=
  [$"a cat"; $"a big dog"; $"a small dog"; $"a big dog"; $"a small dog"; $"b cat"; $"b big dog"].
Example C92_example_list :
  map_ret (combinatorial_generate stream_rng zoo 60 20 (fresh Combinatorial false) some_weights (Some 7) []) = Some seven /\
  map_ret (combinatorial_generate stream_rng zoo 60 20 (fresh Combinatorial false) other_weights (Some 7) []) = Some seven.
Proof. split; vm_compute; reflexivity. Qed.

(** Other factors are rounded: two to five is not 0.2 to 0.5, and one random
    number in 2^53 chooses otherwise. *)
Definition odd_draw : N := 2573485501354569.
Example C92_any_factor_refuted :
  map_ret (random_generate stream_rng zoo 40 (fresh Random false) $"{2::a|5::b}" 1 SNone [0; odd_draw]%N) = Some [$"b"] /\
  map_ret (random_generate stream_rng zoo 40 (fresh Random false) $"{0.2::a|0.5::b}" 1 SNone [0; odd_draw]%N) = Some [$"a"].
Proof. split; vm_compute; reflexivity. Qed.
(** Options that are no longer the same: weights inside an option tell two of
    them apart, and two different ones can be picked. *)
Example C92_repeats_matter :
  map_ret (combinatorial_generate stream_rng zoo 40 9 (fresh Combinatorial false) $"{2$${a|b}|{a|b}}" None []) = Some [] /\
  map_ret (combinatorial_generate stream_rng zoo 40 9 (fresh Combinatorial false) $"{2$${a|b}|{a|2::b}}" None []) =
    Some [$"a,b"; $"b,a"].
Proof. split; vm_compute; reflexivity. Qed.

Print Assumptions C92_weights_are_relative.
Print Assumptions C92_random_generator.
Print Assumptions C92_all_weights_scaled.
Print Assumptions C92_only_chance_weighs.
Print Assumptions C92_combinatorial_generator.
Print Assumptions C92_any_weights_without_chance.
Print Assumptions C92_floats_scale.
