(** C97: templates that are written differently and make the same prompts of
    the same random numbers. *)
From Coq Require Import String NArith ZArith QArith Qcanon Bool Arith List Permutation Lia.
From Verif.Model Require Import Str Utils Command Float Rng Values Context Sampler Parser Generators.
From Verif.Spec Require Import Text Comb Items StreamRng Lang Draws Seeds Sure Rolls Akin Even Pace.
From Verif.Proofs Require Import StrFacts RollFacts RollBack RollRun PaceFacts.
From Verif.Properties Require Import P_Sampler P_Parser P_Generators P_EndToEnd P_Live P_Alike P_Rolls P_Even.
Import ListNotations.
Local Open Scope nat_scope.

Lemma read_same : forall E p c d, Reads E p c -> Reads E p d -> c = d.
Proof. intros E p c d H K. inversion H; subst; inversion K; subst; congruence. Qed.
Lemma pace_rolled : forall G E c p p' x y r u r', Pace x y -> Reads E p x -> Reads E p' y ->
  Rolled G E c p r u r' -> Rolled G E c p' r u r'.
Proof.
  intros G E c p p' x y r u r' H Hp Hp' K. inversion K as [? ? ? z ? t ? ? Hz Hr Ht]; subst.
  rewrite <- (read_same _ _ _ _ Hp Hz) in Hr. apply RoP with (c := y) (t := t); auto.
  now apply (same_rolls _ _ _ _ (pace_same G E x y H)).
Qed.
Lemma pace_rolled_many : forall G E c p p' x y r us r', Pace x y -> Reads E p x -> Reads E p' y ->
  RolledMany G E c p r us r' -> RolledMany G E c p' r us r'.
Proof.
  intros G E c p p' x y r us r' H Hp Hp' K. induction K as [r|r u r1 us r2 K1 _ IH]; [constructor|].
  apply RM_cons with (r1 := r1); [|exact IH]. now apply (pace_rolled G E c p p' x y).
Qed.
Lemma rolled_many_det : forall G E c p r us r1, RolledMany G E c p r us r1 -> forall vs r2, RolledMany G E c p r vs r2 ->
  length us = length vs -> us = vs /\ r1 = r2.
Proof.
  intros G E c p r us r1 H. induction H as [r|r u s us r1 H1 _ IH]; intros vs r2 K Hl.
  - destruct vs; [|discriminate]. inversion K; subst. now split.
  - inversion K as [|? v s2 vs2 ? K1 K2]; subst; [discriminate|]. destruct (rolled_det _ _ _ _ _ _ _ _ _ H1 K1) as [-> ->].
    destruct (IH _ _ K2) as [-> ->]; [now injection Hl|]. now split.
Qed.
Lemma collected_length : forall G E fuel k g r us g' r', collect G E fuel k g r = (us, EndLimit g', Some r') -> length us = k.
Proof.
  intros G E fuel k. induction k as [|k IH]; intros g r us g' r' H; cbn in H; [now injection H as <- _ _|].
  destruct (next G E fuel g r) as [[t g1] r1| | |]; try discriminate.
  destruct (collect G E fuel k g1 r1) as [[us1 e] o] eqn:Hc. injection H as <- -> ->. cbn. f_equal. eapply IH, Hc.
Qed.

(** * C97 *)
(** What can be rolled for one template can be rolled for the other: the same
    text, from the same state of the source, leaving the same state. *)
Theorem C97_the_same_is_rolled : forall G E c p p' x y r u r', Pace x y -> Reads E p x -> Reads E p' y ->
  (Rolled G E c p r u r' <-> Rolled G E c p' r u r').
Proof.
  intros G E c p p' x y r u r' H Hp Hp'. split; [now apply (pace_rolled G E c p p' x y)|].
  apply (pace_rolled G E c p' p y x); auto. now apply Pace_sym.
Qed.

(** The first prompt: whatever the source of random numbers, and whatever its
    state, the other template gives the same prompt and takes the same numbers. *)
Theorem C97_first_prompts_are_the_same : forall G E c p p' x y n g r u g' r', Pace x y ->
  AllRandomValues E -> AllRandomScope E (scope_of c) -> AllRandom E x -> Reads E p x -> Reads E p' y ->
  sample_prompts E n c p None = MOk g -> next G E n g r = OVal (u, g') r' ->
  exists n2 h h', forall m, n2 <= m -> sample_prompts E m c p' None = MOk h /\ next G E m h r = OVal (u, h') r'.
Proof.
  intros G E c p p' x y n g r u g' r' H Hv Hs Hx Hp Hp' Hg Hn. apply C77_rolled_prompts_are_given.
  apply (pace_rolled G E c p p' x y); auto. apply C77_the_first_prompt_is_rolled; auto.
  - intros z Hz. now rewrite <- (read_same _ _ _ _ Hp Hz).
  - now exists n, g, g'.
Qed.

(** All prompts of a run, for templates that keep nothing from one prompt to
    the next. *)
Theorem C97_runs_are_the_same : forall G E c p p' x y k n fuel g r us g' r', Pace x y ->
  AllRandomValues E -> AllRandomScope E (scope_of c) -> AllRandom E x -> AllRandom E y ->
  NoMemoryCtx E c -> NoMemory E x -> NoMemory E y -> Sure E (scope_of c) (c_busy c) y ->
  Reads E p x -> Reads E p' y ->
  sample_prompts E n c p None = MOk g -> collect G E fuel k g r = (us, EndLimit g', Some r') ->
  exists n2 h h', forall m, n2 <= m ->
    sample_prompts E m c p' None = MOk h /\ collect G E m k h r = (us, EndLimit h', Some r').
Proof.
  intros G E c p p' x y k n fuel g r us g' r' H Hv Hs Hx Hy Hc Mx My Hsure Hp Hp' Hg Hr.
  assert (Rx : RolledMany G E c p r us r').
  { apply (C77_every_prompt_is_rolled G E c p x n g k fuel r us g' r'); auto.
    intros z Hz. now rewrite <- (read_same _ _ _ _ Hp Hz). }
  apply (pace_rolled_many G E c p p' x y) in Rx; auto.
  destruct (C55_endless_templates_never_fail G E c p' y k r Hp' Hsure) as (n2 & h & vs & h' & r2 & Hrun & Hl).
  assert (Ry : RolledMany G E c p' r vs r2).
  { destruct (Hrun n2 (le_n _)) as [K1 K2]. apply (C77_every_prompt_is_rolled G E c p' y n2 h k n2 r vs h' r2); auto.
    intros z Hz. now rewrite <- (read_same _ _ _ _ Hp' Hz). }
  destruct (rolled_many_det _ _ _ _ _ _ _ Rx _ _ Ry) as [-> ->]; [|now exists n2, h, h'].
  rewrite Hl. eapply collected_length, Hr.
Qed.

(** * Examples *)
Example zoo_values : AllRandomValues zoo.
Proof.
  intros path t q H. cbn [env_lookup zoo] in H. destruct (str_eqb path $"animal"); [|contradiction].
  destruct H as [[= <- <-]|[[= <- <-]|[]]]; (split; [discriminate|]); intros c H; vm_compute in H; injection H as <-;
    repeat (constructor; cbn; try discriminate).
Qed.
Example fresh_scope : AllRandomScope zoo (scope_of (fresh Random true)).
Proof. repeat split; cbn; discriminate. Qed.

(** Different in the value of the variable and in what follows it. *)
Definition hues : command := Var [one "red"; one "blue"] 1 1 $"," None.
Definition brief : command :=
  Seq [Assign $"c" hues false true; plainly "a "; pets; plainly ", "; Access $"c" None; plainly " ";
       Wild (WStr $"animal") None []] [] None.
Definition lengthy : command :=
  Seq [Assign $"c" (Var [(hues, 1%Qc)] 1 1 $"," None) false true; Var [one "a cat"; one "a dog"] 1 1 $"," None;
       plainly ", "; Access $"c" None; plainly " "; Wild (WStr $"animal") None []] [] None.
Definition brief_text : text := $"${c={red|blue}}a {cat|dog}, ${c} __animal__".
Definition lengthy_text : text := $"${c={{red|blue}}}{a cat|a dog}, ${c} __animal__".
Example C97_example_parsed : env_parse zoo brief_text = Ok brief /\ env_parse zoo lengthy_text = Ok lengthy.
Proof. vm_compute. auto. Qed.
Lemma joined : forall a b, Pace (Seq [plainly a; plainly b] [] None) (Lit ($a ++ $b) None).
Proof.
  intros a b. eapply Pace_trans; [apply (Pace_texts [] $a $b [] None)|]. apply Pace_alone; [exact I| |reflexivity].
  split; discriminate.
Qed.
Lemma pets_spread : Pace (Seq [plainly "a "; pets] [] None) (Var [one "a cat"; one "a dog"] 1 1 $"," None).
Proof.
  eapply Pace_trans; [apply (Pace_spread [$"a "] [one "cat"; one "dog"] [] $"," $"," None); [cbn; lia|constructor|]|].
  - repeat constructor; intros (n & v & i & o & K); discriminate.
  - cbn [map fst snd app one words]. eapply Pace_trans.
    + apply (Pace_option _ (plainly "a cat") 1%Qc [] [(Seq [plainly "a "; plainly "dog"] [] None, 1%Qc)]); [|discriminate].
      exact (joined "a " "cat").
    + apply (Pace_option _ (plainly "a dog") 1%Qc [one "a cat"] []); [|discriminate]. exact (joined "a " "dog").
Qed.
Example C97_example_pace : Pace brief lengthy.
Proof.
  eapply Pace_trans.
  - apply (Pace_value $"c" hues (Var [(hues, 1%Qc)] 1 1 $"," None) true []). apply Pace_sym, Pace_only; [cbn; lia| |reflexivity].
    split; discriminate.
  - set (value := Var [(hues, 1%Qc)] 1 1 $"," None). set (rest := [plainly ", "; Access $"c" None; plainly " "; Wild (WStr $"animal") None []]).
    eapply Pace_trans; [apply Pace_sym, (Pace_grouped [Assign $"c" value false true] [plainly "a "; pets] rest None); [discriminate|]|].
    + repeat constructor; intros (n & v & i & o & K); discriminate.
    + apply (Pace_part _ _ [Assign $"c" value false true] rest [] None pets_spread); intros (n & v & i & o & K); discriminate.
Qed.
Example C97_example_random : AllRandom zoo brief.
Proof.
  assert (Hlit : forall s, AllRandom zoo (plainly s)) by (intros s; constructor; discriminate).
  assert (Hone : forall a b, AllRandom zoo (Var [one a; one b] 1 1 $"," None)).
  { intros a b. constructor; [discriminate|]. repeat constructor; cbn [fst snd one]; try apply Hlit; discriminate. }
  constructor; [discriminate|]. constructor; [constructor; apply Hone|]. constructor; [apply Hlit|]. constructor; [apply Hone|].
  constructor; [apply Hlit|]. constructor; [constructor; discriminate|]. constructor; [apply Hlit|]. constructor; [|constructor].
  constructor; [discriminate| |constructor]. intros c H. vm_compute in H. injection H as <-. constructor. discriminate.
Qed.
(** The pet takes two numbers, the colour two, the animal ten, as ten are drawn
    at a time, and what it stands for two. *)
Definition pace_rolls : list N := [0; half53; 0; 0; half53; 0; 0; 0; 0; 0; 0; 0; 0; 0; 0; half53; 7]%N.
Lemma answered : forall E n c p k r us r',
  match sample_prompts E n c p None with
  | MOk g => match collect stream_rng E n k g r with (ts, EndLimit _, Some s) => Some (ts, s) | _ => None end
  | _ => None
  end = Some (us, r') ->
  exists g g', sample_prompts E n c p None = MOk g /\ collect stream_rng E n k g r = (us, EndLimit g', Some r').
Proof.
  intros E n c p k r us r' H. destruct (sample_prompts E n c p None) as [g| |]; try discriminate.
  destruct (collect stream_rng E n k g r) as [[ts e] s] eqn:Hc. exists g. destruct e as [g'| | |]; try discriminate.
  destruct s as [s|]; [|discriminate]. injection H as <- <-. now exists g'.
Qed.
Lemma collected_one : forall G E n g r u g' r', collect G E n 1 g r = ([u], EndLimit g', Some r') ->
  exists g1, next G E n g r = OVal (u, g1) r'.
Proof.
  intros G E n g r u g' r' H. cbn [collect] in H. destruct (next G E n g r) as [[t g1] r1| | |]; try discriminate.
  injection H as -> _ ->. now exists g1.
Qed.
Example C97_example_run : exists g g', sample_prompts zoo 50 (fresh Random true) (WStr brief_text) None = MOk g /\
  next stream_rng zoo 50 g pace_rolls = @OVal stream_rng _ ($"a dog, red small dog", g') [7%N].
Proof.
  destruct (answered zoo 50 (fresh Random true) (WStr brief_text) 1 pace_rolls [$"a dog, red small dog"] [7%N]) as (g & g' & Hg & Hc);
    [vm_compute; reflexivity|].
  destruct (collected_one _ _ _ _ _ _ _ _ Hc) as (g1 & Hn). exists g, g1. exact (conj Hg Hn).
Qed.
Example C97_example : exists n2 h h', forall m, n2 <= m ->
  sample_prompts zoo m (fresh Random true) (WStr lengthy_text) None = MOk h /\
  next stream_rng zoo m h pace_rolls = @OVal stream_rng _ ($"a dog, red small dog", h') [7%N].
Proof.
  destruct C97_example_run as (g & g' & Hg & Hn).
  apply (C97_first_prompts_are_the_same stream_rng zoo (fresh Random true) (WStr brief_text) _ brief lengthy 50 g pace_rolls _ g' _
    C97_example_pace zoo_values fresh_scope C97_example_random); auto.
  - apply Reads_text; [discriminate|exact (proj1 C97_example_parsed)].
  - apply Reads_text; [discriminate|exact (proj2 C97_example_parsed)].
Qed.

(** A run of two prompts. *)
Definition calm : command := Seq [plainly "a "; pets; plainly ", "; hues] [] None.
Definition broad : command :=
  Var [(Seq [plainly "a cat, "; hues] [] None, 1%Qc); (Seq [plainly "a dog, "; hues] [] None, 1%Qc)] 1 1 $"," None.
Example C97_run_parsed : env_parse zoo $"a {cat|dog}, {red|blue}" = Ok calm /\
  env_parse zoo $"{a cat, {red|blue}|a dog, {red|blue}}" = Ok broad.
Proof. vm_compute. auto. Qed.
Lemma prefixed : forall s, Pace (Seq [plainly "a "; plainly s; plainly ", "; hues] [] None) (Seq [Lit ($"a " ++ $s ++ $", ") None; hues] [] None).
Proof.
  intros s. eapply Pace_trans; [apply (Pace_texts [plainly "a "] $s $", " [hues] None)|].
  exact (Pace_texts [] $"a " ($s ++ $", ") [hues] None).
Qed.
Example C97_run_pace : Pace calm broad.
Proof.
  eapply Pace_trans; [apply (Pace_spread [$"a "] [one "cat"; one "dog"] [plainly ", "; hues] $"," $"," None); [cbn; lia| |]|].
  - repeat constructor; intros (n & v & i & o & K); discriminate.
  - repeat constructor; intros (n & v & i & o & K); discriminate.
  - cbn [map fst snd app one words]. eapply Pace_trans.
    + apply (Pace_option _ (Seq [plainly "a cat, "; hues] [] None) 1%Qc [] [(Seq [plainly "a "; plainly "dog"; plainly ", "; hues] [] None, 1%Qc)]);
        [|discriminate]. exact (prefixed "cat").
    + apply (Pace_option _ (Seq [plainly "a dog, "; hues] [] None) 1%Qc [(Seq [plainly "a cat, "; hues] [] None, 1%Qc)] []); [|discriminate].
      exact (prefixed "dog").
Qed.
Lemma sure_hues : forall sc, sc_method sc = Random -> Sure zoo sc [] hues.
Proof.
  intros sc H. apply sure_choice; [exact H| |discriminate|].
  - intros (w & m & vs & q & K). discriminate.
  - intros v q [[= <- <-]|[[= <- <-]|[]]]; (split; [reflexivity|intros sc' Hs; now apply sure_text]).
Qed.
Example C97_run_conditions : AllRandom zoo calm /\ AllRandom zoo broad /\ NoMemoryCtx zoo (fresh Random true) /\
  NoMemory zoo calm /\ NoMemory zoo broad /\ Sure zoo (scope_of (fresh Random true)) [] broad.
Proof.
  split; [unfold calm, hues, pets; repeat (constructor; cbn; try discriminate)|].
  split; [unfold broad, hues, pets; repeat (constructor; cbn; try discriminate)|].
  split; [split; [reflexivity|split; [constructor|discriminate]]|].
  split; [unfold calm, hues, pets; repeat (constructor; cbn; try discriminate)|].
  split; [constructor; [discriminate|cbn; lia]|].
  apply sure_choice; [reflexivity|intros (w & m & vs & q & K); discriminate|discriminate|].
  intros v q [[= <- <-]|[[= <- <-]|[]]]; (split; [reflexivity|]); intros sc Hs;
    (apply sure_parts; [exact Hs|repeat constructor; intros (n & v & i & o & K); discriminate|];
     intros t [<-|[<-|[]]] sc' Hs'; [now apply sure_text|now apply sure_hues]).
Qed.
Definition two_rolls : list N := [0; half53; 0; 0; 0; 0; 0; half53; 9]%N.
Example C97_run_first : exists g g', sample_prompts zoo 50 (fresh Random true) (WStr $"a {cat|dog}, {red|blue}") None = MOk g /\
  collect stream_rng zoo 50 2 g two_rolls = ([$"a dog, red"; $"a cat, blue"], EndLimit g', Some [9%N]).
Proof. apply answered. vm_compute. reflexivity. Qed.
Example C97_run_example : exists n2 h h', forall m, n2 <= m ->
  sample_prompts zoo m (fresh Random true) (WStr $"{a cat, {red|blue}|a dog, {red|blue}}") None = MOk h /\
  collect stream_rng zoo m 2 h two_rolls = ([$"a dog, red"; $"a cat, blue"], EndLimit h', Some [9%N]).
Proof.
  destruct C97_run_first as (g & g' & Hg & Hr). destruct C97_run_conditions as (H1 & H2 & H3 & H4 & H5 & H6).
  apply (C97_runs_are_the_same stream_rng zoo (fresh Random true) (WStr $"a {cat|dog}, {red|blue}") _ calm broad 2 50 50 g _ _ g' [9%N]
    C97_run_pace zoo_values fresh_scope); auto.
  - apply Reads_text; [discriminate|exact (proj1 C97_run_parsed)].
  - apply Reads_text; [discriminate|exact (proj2 C97_run_parsed)].
Qed.

(** The same chances are not enough: [{a|b} {c|d}] and [{{a|b} c|{a|b} d}] take
    their numbers in different orders. *)
Definition first_second : command := Seq [Var [one "a"; one "b"] 1 1 $"," None; plainly " "; Var [one "c"; one "d"] 1 1 $"," None] [] None.
Definition second_first : command :=
  Var [(Seq [Var [one "a"; one "b"] 1 1 $"," None; plainly " "; plainly "c"] [] None, 1%Qc);
       (Seq [Var [one "a"; one "b"] 1 1 $"," None; plainly " "; plainly "d"] [] None, 1%Qc)] 1 1 $"," None.
Theorem C97_even_templates_refuted : exists x y c r u v r',
  Even x y /\ Rolled stream_rng zoo c (WCmd x) r u r' /\ Rolled stream_rng zoo c (WCmd y) r v r' /\ u <> v.
Proof.
  exists first_second, second_first, (fresh Random true), [0; 0; 0; half53]%N, $"a d", $"b c", [].
  pose proof zoo_values as HV. pose proof fresh_scope as HS.
  split; [|split; [|split]].
  - exact (Even_spread [Var [one "a"; one "b"] 1 1 $"," None; plainly " "] [one "c"; one "d"] [] $"," $"," None None
      (or_introl eq_refl) (or_introl eq_refl) ltac:(discriminate)).
  - apply C77_the_first_prompt_is_rolled; [exact HV|exact HS| |].
    + intros c H. inversion H; subst. repeat (constructor; cbn; try discriminate).
    + destruct (answered zoo 50 (fresh Random true) (WCmd first_second) 1 [0; 0; 0; half53]%N [$"a d"] []) as (g & g' & Hg & Hc);
        [vm_compute; reflexivity|]. destruct (collected_one _ _ _ _ _ _ _ _ Hc) as (g1 & Hn). exists 50, g, g1. exact (conj Hg Hn).
  - apply C77_the_first_prompt_is_rolled; [exact HV|exact HS| |].
    + intros c H. inversion H; subst. repeat (constructor; cbn; try discriminate).
    + destruct (answered zoo 50 (fresh Random true) (WCmd second_first) 1 [0; 0; 0; half53]%N [$"b c"] []) as (g & g' & Hg & Hc);
        [vm_compute; reflexivity|]. destruct (collected_one _ _ _ _ _ _ _ _ Hc) as (g1 & Hn). exists 50, g, g1. exact (conj Hg Hn).
  - discriminate.
Qed.

(** Where several options are chosen: both of two, in any order. *)
Definition several (first : command) : command := Var [(first, 1%Qc); one "a cow"] 2 2 $" and " None.
Definition both_pets : command := Var [one "a cat"; one "a dog"] 1 1 $"," None.
Example C97_several_parsed : env_parse zoo $"{2$$ and $$a {cat|dog}|a cow}" = Ok (several (Seq [plainly "a "; pets] [] None)) /\
  env_parse zoo $"{2$$ and $${a cat|a dog}|a cow}" = Ok (several both_pets).
Proof. vm_compute. auto. Qed.
Example C97_several_pace : Pace (several (Seq [plainly "a "; pets] [] None)) (several both_pets).
Proof.
  apply (Pace_options _ _ 1%Qc [] [one "a cow"]); [exact pets_spread|discriminate| |]; intros [K|[]]; discriminate.
Qed.
(** Numbers for how many, for the order, and for the pet. *)
Example C97_several_rolled : forall x, In x [Seq [plainly "a "; pets] [] None; both_pets] ->
  Rolled stream_rng zoo (fresh Random true) (WCmd (several x)) [0; half53; 0; 0; half53; 6]%N $"a cow and a dog" [6%N].
Proof.
  assert (H : Rolled stream_rng zoo (fresh Random true) (WCmd (several (Seq [plainly "a "; pets] [] None))) [0; half53; 0; 0; half53; 6]%N
                $"a cow and a dog" [6%N]).
  { apply C77_the_first_prompt_is_rolled; [exact zoo_values|exact fresh_scope| |].
    - intros c H. inversion H; subst. unfold several, pets. repeat (constructor; cbn; try discriminate).
    - destruct (answered zoo 50 (fresh Random true) (WCmd (several (Seq [plainly "a "; pets] [] None))) 1 [0; half53; 0; 0; half53; 6]%N
        [$"a cow and a dog"] [6%N]) as (g & g' & Hg & Hc); [vm_compute; reflexivity|].
      destruct (collected_one _ _ _ _ _ _ _ _ Hc) as (g1 & Hn). exists 50, g, g1. exact (conj Hg Hn). }
  intros x [<-|[<-|[]]]; [exact H|].
  apply (C97_the_same_is_rolled stream_rng zoo (fresh Random true) (WCmd (several (Seq [plainly "a "; pets] [] None))) (WCmd (several both_pets))
    _ _ _ _ _ C97_several_pace); [constructor; split; discriminate|constructor; split; discriminate|exact H].
Qed.
(** The rule needs its condition: in [{2$$3::a|{a}|b}] the option [{a}] is
    removed with its own weight, in [{2$$3::a|a|b}] with that of the first. *)
Definition heavy (second : command) : command := Var [(plainly "a", Q2Qc 3); (second, 1%Qc); one "b"] 2 2 $"," None.
Theorem C97_equal_options_refuted : exists x y c r u v r', Pace x y /\
  Rolled stream_rng zoo c (WCmd (heavy x)) r u r' /\ Rolled stream_rng zoo c (WCmd (heavy y)) r v r' /\ u <> v.
Proof.
  exists (Var [one "a"] 1 1 $"," None), (plainly "a"), (fresh Random true), [0; 6305039478318694; 5404319552844595]%N, $"a,a", $"a,b", [].
  split; [apply Pace_only; [exact I|split; discriminate|reflexivity]|]. split; [|split; [|discriminate]];
    (apply C77_the_first_prompt_is_rolled; [exact zoo_values|exact fresh_scope| |]);
    try (intros c H; inversion H; subst; unfold heavy; repeat (constructor; cbn; try discriminate)).
  - destruct (answered zoo 50 (fresh Random true) (WCmd (heavy (Var [one "a"] 1 1 $"," None))) 1 [0; 6305039478318694; 5404319552844595]%N
      [$"a,a"] []) as (g & g' & Hg & Hc); [vm_compute; reflexivity|].
    destruct (collected_one _ _ _ _ _ _ _ _ Hc) as (g1 & Hn). exists 50, g, g1. exact (conj Hg Hn).
  - destruct (answered zoo 50 (fresh Random true) (WCmd (heavy (plainly "a"))) 1 [0; 6305039478318694; 5404319552844595]%N
      [$"a,b"] []) as (g & g' & Hg & Hc); [vm_compute; reflexivity|].
    destruct (collected_one _ _ _ _ _ _ _ _ Hc) as (g1 & Hn). exists 50, g, g1. exact (conj Hg Hn).
Qed.

Print Assumptions C97_the_same_is_rolled.
Print Assumptions C97_first_prompts_are_the_same.
Print Assumptions C97_runs_are_the_same.
Print Assumptions C97_even_templates_refuted.
Print Assumptions C97_equal_options_refuted.
