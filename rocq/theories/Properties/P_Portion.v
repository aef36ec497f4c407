(** C99: asking for prompts all at once or portion by portion. *)
From Coq Require Import String NArith ZArith QArith Qcanon Bool Arith List Permutation Lia.
From Verif.Model Require Import Str Utils Command Float Rng Values Context Sampler Parser Generators.
From Verif.Spec Require Import Text Comb Items StreamRng Lang Draws Seeds Sure Rolls Reseed.
From Verif.Proofs Require Import StrFacts RollFacts RollBack RollRun ReseedFacts PortionFacts.
From Verif.Properties Require Import P_Sampler P_Parser P_Generators P_EndToEnd P_Live P_Alike P_Rolls P_Even P_Pace P_Reseed.
Import ListNotations.
Local Open Scope nat_scope.

(** The call answers [us] and leaves the source at [r'], given enough fuel. *)
Definition Gives (G : rng_impl) (E : env) (c : ctx) (template : text) (num : nat) (seeds : seeds_arg)
    (r : rng_state G) (us : list text) (r' : rng_state G) : Prop :=
  exists n, forall m, n <= m -> random_generate G E m c template num seeds r = Ret us r'.

(** * C99 *)
(** A request for [a + b] prompts is a request for [a] and then one for [b]. *)
Theorem C99_requests_may_be_split : forall G E c template cmd a b r us r', AllRandomValues E ->
  NoMemoryCtx E c -> NoMemory E cmd -> Reads E (WStr template) cmd -> AllRandomScope E (scope_of c) -> AllRandom E cmd ->
  Sure E (scope_of c) (c_busy c) cmd ->
  (Gives G E c template (a + b) SNone r us r' <->
   exists u v r1, us = u ++ v /\ Gives G E c template a SNone r u r1 /\ Gives G E c template b SNone r1 v r').
Proof.
  intros G E c template cmd a b r us r' H1 H2 H3 H4 H5 H6 H7. unfold Gives.
  rewrite (answer_iff G E c template cmd) by assumption. rewrite answer_plain_split.
  split; intros (u & v & r1 & E1 & K1 & K2); exists u, v, r1; (split; [exact E1|]);
    (split; [now apply (answer_iff G E c template cmd)|now apply (answer_iff G E c template cmd)]).
Qed.

(** So is a request with the seeds of both, in their order. *)
Theorem C99_seeded_requests_may_be_split : forall G E c template cmd k l r us r', AllRandomValues E ->
  NoMemoryCtx E c -> NoMemory E cmd -> Reads E (WStr template) cmd -> AllRandomScope E (scope_of c) -> AllRandom E cmd ->
  Sure E (scope_of c) (c_busy c) cmd ->
  (Gives G E c template (length (k ++ l)) (SList (k ++ l)) r us r' <->
   exists u v r1, us = u ++ v /\ Gives G E c template (length k) (SList k) r u r1 /\
     Gives G E c template (length l) (SList l) r1 v r').
Proof.
  intros G E c template cmd k l r us r' H1 H2 H3 H4 H5 H6 H7. unfold Gives.
  rewrite (answer_iff G E c template cmd) by assumption. rewrite answer_list_split.
  split; intros (u & v & r1 & E1 & K1 & K2); exists u, v, r1; (split; [exact E1|]);
    (split; [now apply (answer_iff G E c template cmd)|now apply (answer_iff G E c template cmd)]).
Qed.

(** One seed for a request for many prompts makes all of them the same. *)
Theorem C99_one_seed_gives_one_prompt : forall G E c template cmd num z fuel r us r', AllRandomValues E ->
  NoMemoryCtx E c -> NoMemory E cmd -> Reads E (WStr template) cmd -> AllRandomScope E (scope_of c) -> AllRandom E cmd ->
  z <> 0%Z -> random_generate G E fuel c template num (SInt z) r = Ret us r' -> length us = num ->
  exists u, forall v, In v us -> v = u.
Proof.
  intros G E c template cmd num z fuel r us r' H1 H2 H3 H4 H5 H6 Hz H Hl.
  apply (answered_so G E c template cmd) in H; auto. now apply answer_one_seed in H.
Qed.

(** * Examples *)
Example C99_example_whole : Gives stream_rng zoo (fresh Random true) bare_text (1 + 1) SNone [1; half53; 0; 0; half53; 0; 0; 0; half53; 8]%N
  [$"blue,red dog"; $"red dog"] [8%N].
Proof.
  destruct C98_example_conditions as (H1 & H2 & H3 & H4 & _).
  assert (Hr : Reads zoo (WStr bare_text) bare) by (apply Reads_text; [discriminate|exact (proj1 C98_example_parsed)]).
  apply (C99_requests_may_be_split stream_rng zoo (fresh Random true) bare_text bare);
    [exact zoo_values|exact H1|exact H3|exact Hr|exact fresh_scope|exact H2|exact H4|].
  exists [$"blue,red dog"], [$"red dog"], [0; 0; 0; half53; 8]%N. split; [reflexivity|].
  split; apply (C98_answers_are_rolled stream_rng zoo (fresh Random true) bare_text bare _ _ _ _ _ zoo_values H1 H3 Hr fresh_scope H2 H4);
    apply (C98_full_answers_are_rolled stream_rng zoo (fresh Random true) bare_text bare 1 SNone 50 _ _ _ zoo_values H1 H3 Hr fresh_scope H2);
    try reflexivity; vm_compute; reflexivity.
Qed.
Example C99_example_one_seed :
  random_generate stream_rng zoo 50 (fresh Random true) bare_text 3 (SInt 7) [] = Ret [$"red,blue cat"; $"red,blue cat"; $"red,blue cat"] [].
Proof. vm_compute. reflexivity. Qed.

(** Templates that remember: in [{@a|b}] the second request begins anew. *)
Definition turns : text := $"{@a|b}".
Theorem C99_cyclical_requests_refuted : exists E c template r us vs ws r',
  random_generate stream_rng E 50 c template (1 + 1) SNone r = Ret us r' /\
  random_generate stream_rng E 50 c template 1 SNone r = Ret vs r' /\
  random_generate stream_rng E 50 c template 1 SNone r' = Ret ws r' /\ us <> vs ++ ws.
Proof.
  exists zoo, (fresh Random true), turns, [], [$"a"; $"b"], [$"a"], [$"a"], [].
  split; [vm_compute; reflexivity|]. split; [vm_compute; reflexivity|]. split; [vm_compute; reflexivity|discriminate].
Qed.
(** So do weighted wildcards, which draw ten values at a time. *)
Theorem C99_weighted_wildcards_refuted : exists E c template r us vs r1 ws r2 r',
  random_generate stream_rng E 50 c template (1 + 1) SNone r = Ret us r' /\
  random_generate stream_rng E 50 c template 1 SNone r = Ret vs r1 /\
  random_generate stream_rng E 50 c template 1 SNone r1 = Ret ws r2 /\ us <> vs ++ ws.
Proof.
  exists (parses_to (Wild (WStr $"w") None [])), (ctx0 Random), $"T", [0; top53; 0; 0; 0; 0; 0; 0; 0; 0; 0]%N.
  exists [$"cat"; $"dog"], [$"cat"]. eexists. exists [$"cat"]. eexists. eexists.
  split; [vm_compute; reflexivity|]. split; [vm_compute; reflexivity|]. split; [vm_compute; reflexivity|discriminate].
Qed.

Print Assumptions C99_requests_may_be_split.
Print Assumptions C99_seeded_requests_may_be_split.
Print Assumptions C99_one_seed_gives_one_prompt.
Print Assumptions C99_cyclical_requests_refuted.
Print Assumptions C99_weighted_wildcards_refuted.
