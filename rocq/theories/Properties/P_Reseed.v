(** C98: the answers of the random prompt generator, number by number. *)
From Coq Require Import String NArith ZArith QArith Qcanon Bool Arith List Permutation Lia.
From Verif.Model Require Import Str Utils Command Float Rng Values Context Sampler Parser Generators.
From Verif.Spec Require Import Text Comb Items StreamRng Lang Draws Seeds Sure Rolls Akin Pace Reseed.
From Verif.Proofs Require Import StrFacts RollFacts RollBack RollRun PaceFacts ReseedFacts.
From Verif.Properties Require Import P_Sampler P_Parser P_Generators P_EndToEnd P_Live P_Alike P_Rolls P_Even P_Pace.
Import ListNotations.
Local Open Scope nat_scope.

(** * C98 *)
(** The generator answers exactly what the seeds, or without seeds the source,
    make of the template, and leaves the source as described. *)
Theorem C98_answers_are_rolled : forall G E c template cmd num seeds r us r', AllRandomValues E ->
  NoMemoryCtx E c -> NoMemory E cmd -> Reads E (WStr template) cmd -> AllRandomScope E (scope_of c) -> AllRandom E cmd ->
  Sure E (scope_of c) (c_busy c) cmd ->
  ((exists n, forall m, n <= m -> random_generate G E m c template num seeds r = Ret us r') <->
   Answer G E c (WStr template) num seeds r us r').
Proof. exact answer_iff. Qed.

(** Templates that need not succeed: full answers are of this form. *)
Theorem C98_full_answers_are_rolled : forall G E c template cmd num seeds fuel r us r', AllRandomValues E ->
  NoMemoryCtx E c -> NoMemory E cmd -> Reads E (WStr template) cmd -> AllRandomScope E (scope_of c) -> AllRandom E cmd ->
  random_generate G E fuel c template num seeds r = Ret us r' -> length us = num ->
  Answer G E c (WStr template) num seeds r us r'.
Proof. exact answered_so. Qed.

(** There is one answer to each request. *)
Theorem C98_answers_are_determined : forall G E c p num seeds r us r1 vs r2,
  Answer G E c p num seeds r us r1 -> Answer G E c p num seeds r vs r2 -> us = vs /\ r1 = r2.
Proof. exact answer_det. Qed.

(** Templates rewritten by the rules of C97 are answered with the same prompts
    for the same seeds, and leave the source in the same state. *)
Theorem C98_rewritten_templates_are_answered_alike : forall G E c template template' x y num seeds fuel r us r', Pace x y ->
  AllRandomValues E -> NoMemoryCtx E c -> AllRandomScope E (scope_of c) ->
  Reads E (WStr template) x -> AllRandom E x -> NoMemory E x ->
  Reads E (WStr template') y -> AllRandom E y -> NoMemory E y -> Sure E (scope_of c) (c_busy c) y ->
  random_generate G E fuel c template num seeds r = Ret us r' -> length us = num ->
  exists n, forall m, n <= m -> random_generate G E m c template' num seeds r = Ret us r'.
Proof.
  intros G E c template template' x y num seeds fuel r us r' H Hv Hc Hs Rx Ax Mx Ry Ay My Sy Hg Hl.
  apply (answer_iff G E c template' y); auto. apply (pace_answer G E c (WStr template) (WStr template') x y); auto.
  now apply (answered_so G E c template x num seeds fuel).
Qed.

(** * Examples *)
Definition shades : command := Var [one "red"; one "blue"] 1 2 $"," None.
Definition bare : command := Seq [shades; plainly " "; pets] [] None.
Definition braced : command := Seq [shades; plainly " "; Var [(pets, 1%Qc)] 1 1 $"," None] [] None.
Definition bare_text : text := $"{1-2$$red|blue} {cat|dog}".
Definition braced_text : text := $"{1-2$$red|blue} {{cat|dog}}".
Example C98_example_parsed : env_parse zoo bare_text = Ok bare /\ env_parse zoo braced_text = Ok braced.
Proof. vm_compute. auto. Qed.
Example C98_example_pace : Pace bare braced.
Proof.
  apply (Pace_part pets (Var [(pets, 1%Qc)] 1 1 $"," None) [shades; plainly " "] [] [] None); try (intros (n & v & i & o & K); discriminate).
  apply Pace_sym, Pace_only; [cbn; lia| |reflexivity]. split; discriminate.
Qed.
Lemma sure_shades : forall sc, sc_method sc = Random -> Sure zoo sc [] shades.
Proof.
  intros sc H. constructor. apply Sure_random; [exact H| |discriminate| |].
  - intros (w & m & vs & q & K). discriminate.
  - right. split; [lia|]. intros v q [[= <- <-]|[[= <- <-]|[]]]; reflexivity.
  - intros v q [[= <- <-]|[[= <- <-]|[]]]; now apply sure_text.
Qed.
Example C98_example_conditions : NoMemoryCtx zoo (fresh Random true) /\ AllRandom zoo bare /\ NoMemory zoo bare /\
  Sure zoo (scope_of (fresh Random true)) [] bare /\
  AllRandom zoo braced /\ NoMemory zoo braced /\ Sure zoo (scope_of (fresh Random true)) [] braced.
Proof.
  assert (Hlit : forall s, AllRandom zoo (plainly s)) by (intros s; constructor; discriminate).
  assert (Hone : forall a b hi, AllRandom zoo (Var [one a; one b] 1 hi $"," None)).
  { intros a b hi. constructor; [discriminate|]. repeat constructor; cbn [fst snd one]; try apply Hlit; discriminate. }
  assert (Hno : forall os lo hi, length os = 2 -> NoMemory zoo (Var os lo hi $"," None)) by (intros os lo hi K; constructor; [discriminate|lia]).
  split; [split; [reflexivity|split; [constructor|discriminate]]|].
  split; [constructor; [discriminate|]; constructor; [apply Hone|]; constructor; [apply Hlit|]; constructor; [apply Hone|constructor]|].
  split; [constructor; [discriminate|]; constructor; [now apply Hno|]; constructor; [constructor|]; constructor; [now apply Hno|constructor]|].
  split.
  { apply sure_parts; [reflexivity|repeat constructor; intros (n & v & i & o & K); discriminate|].
    intros t [<-|[<-|[<-|[]]]] sc' Hs'; [now apply sure_shades|now apply sure_text|now apply sure_pets]. }
  split.
  { constructor; [discriminate|]. constructor; [apply Hone|]. constructor; [apply Hlit|]. constructor; [|constructor].
    constructor; [discriminate|]. constructor; [|constructor]. split; [apply Hone|discriminate]. }
  split.
  { constructor; [discriminate|]. constructor; [now apply Hno|]. constructor; [constructor|]. constructor; [|constructor].
    apply NM_one; [discriminate|now apply Hno|discriminate]. }
  apply sure_parts; [reflexivity|repeat constructor; intros (n & v & i & o & K); discriminate|].
  intros t [<-|[<-|[<-|[]]]] sc' Hs'; [now apply sure_shades|now apply sure_text|].
  apply sure_choice; [exact Hs'|intros (w & m & vs & q & K); discriminate|discriminate|].
  intros v q [[= <- <-]|[]]. split; [reflexivity|]. intros sc2 Hs2. now apply sure_pets.
Qed.
(** Seeds 4 and 7, and no seeds at all. *)
Example C98_example_seeded : forall r, random_generate stream_rng zoo 50 (fresh Random true) bare_text 2 (SList [4; 7]%Z) r =
  Ret [$"red cat"; $"red,blue cat"] [].
Proof. intros r. vm_compute. reflexivity. Qed.
Example C98_example_unseeded : random_generate stream_rng zoo 50 (fresh Random true) bare_text 1 SNone [1; half53; 0; 0; half53; 8]%N =
  Ret [$"blue,red dog"] [8%N].
Proof. vm_compute. reflexivity. Qed.
Example C98_example : forall r, exists n, forall m, n <= m ->
  random_generate stream_rng zoo m (fresh Random true) braced_text 2 (SList [4; 7]%Z) r = Ret [$"red cat"; $"red,blue cat"] [].
Proof.
  intros r. destruct C98_example_conditions as (H1 & H2 & H3 & H4 & H5 & H6 & H7).
  apply (C98_rewritten_templates_are_answered_alike stream_rng zoo (fresh Random true) bare_text braced_text bare braced 2 _ 50 r _ _
    C98_example_pace zoo_values H1 fresh_scope); auto.
  - apply Reads_text; [discriminate|exact (proj1 C98_example_parsed)].
  - apply Reads_text; [discriminate|exact (proj2 C98_example_parsed)].
Qed.
Example C98_example_answer : Answer stream_rng zoo (fresh Random true) (WStr bare_text) 1 SNone [1; half53; 0; 0; half53; 8]%N
  [$"blue,red dog"] [8%N].
Proof.
  destruct C98_example_conditions as (H1 & H2 & H3 & H4 & H5 & H6 & H7).
  apply (C98_full_answers_are_rolled stream_rng zoo (fresh Random true) bare_text bare 1 SNone 50); auto using zoo_values, fresh_scope.
  apply Reads_text; [discriminate|exact (proj1 C98_example_parsed)].
Qed.

Print Assumptions C98_answers_are_rolled.
Print Assumptions C98_full_answers_are_rolled.
Print Assumptions C98_answers_are_determined.
Print Assumptions C98_rewritten_templates_are_answered_alike.
