(** C96: templates that are written differently and give every prompt with the
    same chance. *)
From Coq Require Import String NArith ZArith QArith Qcanon Bool Arith List Permutation Lia.
From Verif.Model Require Import Str Utils Command Float Rng Values Context Sampler Parser Generators.
From Verif.Spec Require Import Text Comb Items StreamRng Lang Seeds Sure Share Chance Even.
From Verif.Proofs Require Import StrFacts ShareFacts ChanceFacts ChanceRun EvenFacts.
From Verif.Properties Require Import P_Sampler P_Parser P_Generators P_EndToEnd P_Live P_Alike P_Chance.
Import ListNotations.
Local Open Scope nat_scope.

(** * C96 *)
(** If one of them has chances then so has the other, and every prompt has the
    same chance in both: exactly, in spite of the rounding. *)
Theorem C96_even_templates_have_the_same_chances : forall x y, Even x y ->
  ((exists l, Outcomes ieee_round x l) <-> (exists l, Outcomes ieee_round y l)) /\
  forall l l', Outcomes ieee_round x l -> Outcomes ieee_round y l' -> forall u, chance text_dec u l = chance text_dec u l'.
Proof.
  intros x y H. apply even_both in H. destruct H as [H1 H2]. split.
  - split; intros [l Hl]; [destruct (H1 l Hl) as (l' & H & _)|destruct (H2 l Hl) as (l' & H & _)]; eauto.
  - intros l l' Hl Hl' u. destruct (H1 l Hl) as (l2 & Hl2 & E). apply level_chance.
    rewrite (proj1 outcomes_unique _ _ Hl2 _ Hl'). exact E.
Qed.

(** The first prompt, with or without squashing the white space: of all
    sequences of [n] raw random numbers, equally many make it [u]. *)
Theorem C96_first_prompts_are_as_likely : forall E c p p' x y l, Even x y ->
  c_method c = Random -> Reads E p x -> Reads E p' y -> Outcomes ieee_round x l ->
  exists n0, forall n, n0 <= n -> forall u, exists hits hits', NoDup hits /\ NoDup hits' /\
    (forall s, In s hits <-> Numbers n s /\
       exists fuel g g' s', sample_prompts E fuel c p None = MOk g /\
         next stream_rng E fuel g s = @OVal stream_rng _ (u, g') s') /\
    (forall s, In s hits' <-> Numbers n s /\
       exists fuel g g' s', sample_prompts E fuel c p' None = MOk g /\
         next stream_rng E fuel g s = @OVal stream_rng _ (u, g') s') /\
    length hits = length hits'.
Proof.
  intros E c p p' x y l He Hc Hp Hp' Hx. apply even_both in He. destruct He as [He _].
  destruct (He l Hx) as (l' & Hy & HL).
  destruct (tidied_exists (c_ignws c) l) as (lt & Ht). destruct (tidied_exists (c_ignws c) l') as (lt' & Ht').
  destruct (C89_chance_of_a_prompt E c p x l lt Hc Hp Hx Ht) as [n1 H1].
  destruct (C89_chance_of_a_prompt E c p' y l' lt' Hc Hp' Hy Ht') as [n2 H2].
  exists (n1 + n2). intros n Hn u. destruct (H1 n ltac:(lia) u) as (hits & A1 & A2 & A3).
  destruct (H2 n ltac:(lia) u) as (hits' & B1 & B2 & B3). exists hits, hits'.
  split; [exact A1|]. split; [exact B1|]. split; [exact A2|]. split; [exact B2|].
  rewrite (level_chance text_dec lt lt' u (level_tidied _ _ _ _ _ HL Ht Ht')), <- B3 in A3. now apply number_inj.
Qed.

(** The same for the first [k] prompts of a run. *)
Theorem C96_runs_are_as_likely : forall E c p p' x y l k, Even x y ->
  NoMemoryCtx E c -> Reads E p x -> Reads E p' y -> Outcomes ieee_round x l ->
  Sure E (scope_of c) (c_busy c) x -> Sure E (scope_of c) (c_busy c) y ->
  exists n0, forall n, n0 <= n -> forall us, exists hits hits', NoDup hits /\ NoDup hits' /\
    (forall s, In s hits <-> Numbers n s /\
       exists fuel g g' s', sample_prompts E fuel c p None = MOk g /\
         collect stream_rng E fuel k g s = (us, EndLimit g', Some s')) /\
    (forall s, In s hits' <-> Numbers n s /\
       exists fuel g g' s', sample_prompts E fuel c p' None = MOk g /\
         collect stream_rng E fuel k g s = (us, EndLimit g', Some s')) /\
    length hits = length hits'.
Proof.
  intros E c p p' x y l k He Hc Hp Hp' Hx Hs Hs'. apply even_both in He. destruct He as [He _].
  destruct (He l Hx) as (l' & Hy & HL).
  destruct (tidied_exists (c_ignws c) l) as (lt & Ht). destruct (tidied_exists (c_ignws c) l') as (lt' & Ht').
  destruct (C89_chance_of_a_run E c p x l lt k Hc Hp Hx Hs Ht) as [n1 H1].
  destruct (C89_chance_of_a_run E c p' y l' lt' k Hc Hp' Hy Hs' Ht') as [n2 H2].
  exists (n1 + n2). intros n Hn us. destruct (H1 n ltac:(lia) us) as (hits & A1 & A2 & A3).
  destruct (H2 n ltac:(lia) us) as (hits' & B1 & B2 & B3). exists hits, hits'.
  split; [exact A1|]. split; [exact B1|]. split; [exact A2|]. split; [exact B2|].
  rewrite (level_chance texts_dec _ _ us (level_repeated k _ _ (level_tidied _ _ _ _ _ HL Ht Ht'))), <- B3 in A3.
  now apply number_inj.
Qed.

(** The chances of a template are determined by the template. *)
Theorem C96_chances_are_unique : forall x l l', Outcomes ieee_round x l -> Outcomes ieee_round x l' -> l = l'.
Proof. intros x l l' H H'. exact (proj1 outcomes_unique _ _ H' _ H). Qed.

(** * Examples *)
Definition pets : command := Var [one "cat"; one "dog"] 1 1 $"," None.
Definition apart : command := Seq [Var [(plainly "red", Q2Qc 3); one "blue"] 1 1 $"," None; plainly " "; pets] [] None.
Definition together : command :=
  Var [(Var [one "red cat"; one "red dog"] 1 1 $"," None, Q2Qc 3); (Seq [plainly "blue "; pets] [] None, 1%Qc)] 1 1 $"," None.
Example C96_example_parsed : env_parse zoo $"{3::red|blue} {cat|dog}" = Ok apart /\
  env_parse zoo $"{3::{red cat|red dog}|blue {cat|dog}}" = Ok together.
Proof. vm_compute. auto. Qed.
Lemma pet : forall s, Even (Seq [plainly "red "; plainly s] [] None) (Lit ($"red " ++ $s) None).
Proof.
  intros s. eapply Even_trans; [apply (Even_texts [] $"red " $s [] None)|]. apply Even_alone. now left.
Qed.
Example C96_example_even : Even apart together.
Proof.
  eapply Even_trans; [apply (Even_spread [] [(plainly "red", Q2Qc 3); one "blue"] [plainly " "; pets] $"," $"," None None); [now left|now left|discriminate]|].
  cbn [map fst snd app one]. eapply Even_trans.
  - apply (Even_option _ (Var [one "red cat"; one "red dog"] 1 1 $"," None) (Q2Qc 3) [] [(Seq [plainly "blue"; plainly " "; pets] [] None, 1%Qc)]).
    eapply Even_trans; [apply (Even_texts [] $"red" $" " [pets] None)|].
    eapply Even_trans; [apply (Even_spread [plainly "red "] [one "cat"; one "dog"] [] $"," $"," None None); [now left|now left|discriminate]|].
    cbn [map fst snd app one]. eapply Even_trans.
    + apply (Even_option _ (plainly "red cat") 1%Qc []). exact (pet "cat").
    + apply (Even_option _ (plainly "red dog") 1%Qc [one "red cat"] []). exact (pet "dog").
  - apply (Even_option _ (Seq [plainly "blue "; pets] [] None) 1%Qc [(Var [one "red cat"; one "red dog"] 1 1 $"," None, Q2Qc 3)] []).
    exact (Even_texts [] $"blue" $" " [pets] None).
Qed.
(** They have chances: [red cat] has three eighths, [blue dog] one eighth. *)
Example C96_example_chances : exists l, Outcomes ieee_round together l /\
  chance text_dec $"red cat" l = Q2Qc (3 # 8) /\ chance text_dec $"blue dog" l = Q2Qc (1 # 8).
Proof.
  assert (Hlit : forall s, Outcomes ieee_round (plainly s) [(of_string s, 1%Qc)]) by (intros s; apply Out_text; now left).
  eexists. split; [|split].
  - eapply Out_choice; [now left|cbn; lia|repeat constructor; discriminate|exact (proj1 C89_weighted)|].
    apply OutO_cons; [|apply OutO_cons; [|constructor]].
    + eapply Out_choice; [now left|cbn; lia|repeat constructor; discriminate|exact C89_halves|].
      apply OutO_cons; [apply Hlit|]. apply OutO_cons; [apply Hlit|constructor].
    + eapply Out_parts; [now left| |apply glued_map]. apply OutA_cons; [apply Hlit|]. apply OutA_cons; [|constructor].
      eapply Out_choice; [now left|cbn; lia|repeat constructor; discriminate|exact C89_halves|].
      apply OutO_cons; [apply Hlit|]. apply OutO_cons; [apply Hlit|constructor].
  - apply Qc_is_canon. vm_compute. reflexivity.
  - apply Qc_is_canon. vm_compute. reflexivity.
Qed.
(** So has the other template, and they are the same. *)
Example C96_example : exists l, Outcomes ieee_round apart l /\
  chance text_dec $"red cat" l = Q2Qc (3 # 8) /\ chance text_dec $"blue dog" l = Q2Qc (1 # 8).
Proof.
  destruct C96_example_chances as (l & Hl & H1 & H2).
  destruct (C96_even_templates_have_the_same_chances _ _ C96_example_even) as [He Hc].
  destruct (proj2 He (ex_intro _ l Hl)) as (l' & Hl'). exists l'. split; [exact Hl'|].
  split; [now rewrite (Hc l' l Hl' Hl)|now rewrite (Hc l' l Hl' Hl)].
Qed.
(** The first prompts of the two texts. *)
Example C96_example_first : exists n0, forall n, n0 <= n -> forall u, exists hits hits', NoDup hits /\ NoDup hits' /\
  (forall s, In s hits <-> Numbers n s /\
     exists fuel g g' s', sample_prompts zoo fuel (fresh Random true) (WStr $"{3::red|blue} {cat|dog}") None = MOk g /\
       next stream_rng zoo fuel g s = @OVal stream_rng _ (u, g') s') /\
  (forall s, In s hits' <-> Numbers n s /\
     exists fuel g g' s', sample_prompts zoo fuel (fresh Random true) (WStr $"{3::{red cat|red dog}|blue {cat|dog}}") None = MOk g /\
       next stream_rng zoo fuel g s = @OVal stream_rng _ (u, g') s') /\
  length hits = length hits'.
Proof.
  destruct C96_example as (l & Hl & _).
  apply (C96_first_prompts_are_as_likely zoo (fresh Random true) _ _ apart together l C96_example_even); [reflexivity| | |exact Hl].
  - apply Reads_text; [discriminate|exact (proj1 C96_example_parsed)].
  - apply Reads_text; [discriminate|exact (proj2 C96_example_parsed)].
Qed.

(** The hypotheses for runs. *)
Lemma sure_text : forall sc s, sc_method sc = Random -> Sure zoo sc [] (plainly s).
Proof. intros sc s H. constructor. apply Sure_lit. cbn. rewrite H. discriminate. Qed.
Lemma sure_choice : forall sc os, sc_method sc = Random -> ~ lone_wildcard os -> os <> [] ->
  (forall v q, In (v, q) os -> (0 < q)%Qc /\ forall sc', sc_method sc' = Random -> Sure zoo sc' [] v) ->
  Sure zoo sc [] (Var os 1 1 $"," None).
Proof.
  intros sc os H Hl Hn Ho. constructor. apply Sure_random; [exact H|exact Hl|exact Hn| |].
  - right. split; [lia|]. intros v q K. apply (Ho v q K).
  - intros v q K. now apply (Ho v q K).
Qed.
Lemma sure_parts : forall sc ts, sc_method sc = Random -> Forall (fun t => ~ is_assign t) ts ->
  (forall t, In t ts -> forall sc', sc_method sc' = Random -> Sure zoo sc' [] t) -> Sure zoo sc [] (Seq ts [] None).
Proof.
  intros sc ts H Ha Ht. constructor. apply Sure_seq; [cbn; rewrite H; discriminate| |].
  - intros x v ovr K. exfalso. apply (proj1 (Forall_forall _ _) Ha _ K). do 4 eexists. reflexivity.
  - intros sc' toks tok [Hm _] _ Hp Hin. cbn in Hm. apply Ht; [|congruence]. clear -Hp Hin.
    induction Hp as [|n v i o ts ps Hp IH|c ts ps Hc Hp IH]; [contradiction|right; now apply IH|].
    destruct Hin as [->|Hin]; [now left|right; now apply IH].
Qed.
Lemma sure_pets : forall sc, sc_method sc = Random -> Sure zoo sc [] pets.
Proof.
  intros sc H. apply sure_choice; [exact H| |discriminate|].
  - intros (w & m & vs & q & K). discriminate.
  - intros v q [[= <- <-]|[[= <- <-]|[]]]; (split; [reflexivity|intros sc' Hs; now apply sure_text]).
Qed.
Example C96_example_sure : NoMemoryCtx zoo (fresh Random true) /\
  Sure zoo (scope_of (fresh Random true)) [] apart /\ Sure zoo (scope_of (fresh Random true)) [] together.
Proof.
  split; [split; [reflexivity|split; [constructor|discriminate]]|]. split.
  - apply sure_parts; [reflexivity|repeat constructor; intros (x & v & i & o & K); discriminate|].
    intros t [<-|[<-|[<-|[]]]] sc' Hs; [|now apply sure_text|now apply sure_pets].
    apply sure_choice; [exact Hs|intros (w & m & vs & q & K); discriminate|discriminate|].
    intros v q [[= <- <-]|[[= <- <-]|[]]]; (split; [reflexivity|intros sc2 Hs2; now apply sure_text]).
  - apply sure_choice; [reflexivity|intros (w & m & vs & q & K); discriminate|discriminate|].
    intros v q [[= <- <-]|[[= <- <-]|[]]]; (split; [reflexivity|]); intros sc' Hs.
    + apply sure_choice; [exact Hs|intros (w & m & vs & q & K); discriminate|discriminate|].
      intros v q [[= <- <-]|[[= <- <-]|[]]]; (split; [reflexivity|intros sc2 Hs2; now apply sure_text]).
    + apply sure_parts; [exact Hs|repeat constructor; intros (x & v & i & o & K); discriminate|].
      intros t [<-|[<-|[]]] sc2 Hs2; [now apply sure_text|now apply sure_pets].
Qed.

(** The order of the options is not among the rules: three options of weight 1
    cannot share the numbers evenly, and the middle one has one number less. *)
Theorem C96_order_refuted : exists os os' l l' u, Permutation os os' /\
  Outcomes ieee_round (Var os 1 1 $"," None) l /\ Outcomes ieee_round (Var os' 1 1 $"," None) l' /\
  chance text_dec u l <> chance text_dec u l'.
Proof.
  exists [one "a"; one "b"; one "c"], [one "b"; one "a"; one "c"].
  assert (Ht : Stretches ieee_round [1; 1; 1]%Qc [0; 3002399751580331; 6004799503160661; 9007199254740992]%N)
    by (apply stretches_check; [repeat constructor; discriminate|vm_compute; reflexivity|reflexivity]).
  assert (Hlit : forall s, Outcomes ieee_round (plainly s) [(of_string s, 1%Qc)]) by (intros s; apply Out_text; now left).
  do 2 eexists. exists $"a". split; [apply perm_swap|]. split; [|split].
  - eapply Out_choice; [now left|cbn; lia|repeat constructor; discriminate|exact Ht|].
    apply OutO_cons; [apply Hlit|]. apply OutO_cons; [apply Hlit|]. apply OutO_cons; [apply Hlit|constructor].
  - eapply Out_choice; [now left|cbn; lia|repeat constructor; discriminate|exact Ht|].
    apply OutO_cons; [apply Hlit|]. apply OutO_cons; [apply Hlit|]. apply OutO_cons; [apply Hlit|constructor].
  - intros K. apply (f_equal this) in K. vm_compute in K. discriminate.
Qed.
(** Nor is leaving out a repeated option: in [{a|b|a}] the prompt [a] is more
    likely than in [{a|b}]. *)
Theorem C96_repeated_refuted : exists os o l l' u, In o os /\
  Outcomes ieee_round (Var (os ++ [o]) 1 1 $"," None) l /\ Outcomes ieee_round (Var os 1 1 $"," None) l' /\
  chance text_dec u l <> chance text_dec u l'.
Proof.
  exists [one "a"; one "b"], (one "a").
  assert (Ht : Stretches ieee_round [1; 1; 1]%Qc [0; 3002399751580331; 6004799503160661; 9007199254740992]%N)
    by (apply stretches_check; [repeat constructor; discriminate|vm_compute; reflexivity|reflexivity]).
  assert (Hlit : forall s, Outcomes ieee_round (plainly s) [(of_string s, 1%Qc)]) by (intros s; apply Out_text; now left).
  do 2 eexists. exists $"a". split; [now left|]. split; [|split].
  - eapply Out_choice; [now left|cbn; lia|repeat constructor; discriminate|exact Ht|].
    apply OutO_cons; [apply Hlit|]. apply OutO_cons; [apply Hlit|]. apply OutO_cons; [apply Hlit|constructor].
  - eapply Out_choice; [now left|cbn; lia|repeat constructor; discriminate|exact C89_halves|].
    apply OutO_cons; [apply Hlit|]. apply OutO_cons; [apply Hlit|constructor].
  - intros K. apply (f_equal this) in K. vm_compute in K. discriminate.
Qed.

Print Assumptions C96_even_templates_have_the_same_chances.
Print Assumptions C96_first_prompts_are_as_likely.
Print Assumptions C96_runs_are_as_likely.
Print Assumptions C96_chances_are_unique.
Print Assumptions C96_order_refuted.
Print Assumptions C96_repeated_refuted.
