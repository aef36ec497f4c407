(** C100: templates in which nothing is left to choose. *)
From Coq Require Import String NArith ZArith QArith Qcanon Bool Arith List Lia.
From Verif.Model Require Import Str Utils Command Float Rng Values Context Sampler Parser Generators.
From Verif.Spec Require Import Text Comb Items StreamRng Lang Draws Seeds Sure Rolls Reseed Fixed.
From Verif.Proofs Require Import StrFacts EnumFacts RollFacts RollBack RollRun ReseedFacts FixedFacts.
From Verif.Properties Require Import P_Sampler P_Parser P_EndToEnd P_Live P_Alike P_Rolls P_Even P_Pace P_Reseed P_Portion.
Import ListNotations.
Local Open Scope nat_scope.

(** * C100 *)
(** The first prompt of such a template takes no number from the source, and
    every other source gives the same prompt. *)
Theorem C100_fixed_templates_take_no_number : forall G1 G2 E c template cmd n g r u g' r', AllRandomValues E ->
  AllRandomScope E (scope_of c) -> Reads E (WStr template) cmd -> AllRandom E cmd ->
  FixedScope E (scope_of c) -> Fixed E cmd ->
  sample_prompts E n c (WStr template) None = MOk g -> next G1 E n g r = OVal (u, g') r' ->
  r' = r /\ forall s, exists n2 h h', forall m, n2 <= m ->
    sample_prompts E m c (WStr template) None = MOk h /\ next G2 E m h s = OVal (u, h') s.
Proof.
  intros G1 G2 E c template cmd n g r u g' r' Hv Hs Hr Ha Fs Fc Hg Hn.
  assert (Hp : forall x, Reads E (WStr template) x -> x = cmd) by (intros x K; inversion K; inversion Hr; congruence).
  destruct (fixed_rolled E G1 G2 c (WStr template) r u r') as [-> K]; auto.
  - apply (rolled_iff G1 E Hv); [exact Hs|intros x Kx; now rewrite (Hp x Kx)|]. now exists n, g, g'.
  - intros x Kx. now rewrite (Hp x Kx).
  - split; [reflexivity|]. intros s. exact (rolled_first G2 E _ _ _ _ _ (K s)).
Qed.

(** All prompts of one request are the same, whatever the seeds, and without
    seeds the source is left as it was. *)
Theorem C100_fixed_requests_repeat_one_prompt : forall G E c template cmd num seeds fuel r us r', AllRandomValues E ->
  NoMemoryCtx E c -> NoMemory E cmd -> Reads E (WStr template) cmd -> AllRandomScope E (scope_of c) -> AllRandom E cmd ->
  FixedScope E (scope_of c) -> Fixed E cmd ->
  random_generate G E fuel c template num seeds r = Ret us r' -> length us = num ->
  (forall u v, In u us -> In v us -> u = v) /\ (seeds = SNone -> r' = r).
Proof.
  intros G E c template cmd num seeds fuel r us r' H1 H2 H3 H4 H5 H6 Fs Fc H Hl.
  assert (Hp : fixed_prompt E (WStr template)) by (intros x K; inversion K; inversion H4; congruence).
  apply (answered_so G E c template cmd) in H; auto. destruct H as [D _ K|l D K].
  - destruct (fixed_many E G _ _ _ _ _ K Fs Hp) as [-> Ka]. now split.
  - split; [exact (fixed_seeds E G _ _ _ _ _ _ K Fs Hp)|]. intros ->. inversion D.
Qed.

(** A prompt of one request is every prompt of all other requests: of other
    sources, for other numbers of prompts, with other seeds. *)
Theorem C100_fixed_requests_agree : forall G1 G2 E c template cmd num seeds fuel r us r' u, AllRandomValues E ->
  NoMemoryCtx E c -> NoMemory E cmd -> Reads E (WStr template) cmd -> AllRandomScope E (scope_of c) -> AllRandom E cmd ->
  FixedScope E (scope_of c) -> Fixed E cmd -> Sure E (scope_of c) (c_busy c) cmd ->
  random_generate G1 E fuel c template num seeds r = Ret us r' -> length us = num -> In u us ->
  forall num2 seeds2 s, Usable num2 seeds2 ->
    exists s', Gives G2 E c template num2 seeds2 s (repeat u num2) s' /\ (seeds2 = SNone -> s' = s).
Proof.
  intros G1 G2 E c template cmd num seeds fuel r us r' u H1 H2 H3 H4 H5 H6 Fs Fc Sc H Hl Hu num2 seeds2 s U.
  assert (Hp : fixed_prompt E (WStr template)) by (intros x K; inversion K; inversion H4; congruence).
  apply (answered_so G1 E c template cmd) in H; auto.
  destruct (fixed_first E G1 _ _ _ _ _ _ _ _ H Hu) as (s1 & s2 & K).
  destruct (fixed_rolled E G1 G2 _ _ _ _ _ K Fs Hp) as [_ K2].
  destruct (fixed_answer E G2 c (WStr template) u K2 num2 seeds2 s U) as (s' & Ka & Ks). exists s'. split; [|exact Ks].
  now apply (answer_iff G2 E c template cmd).
Qed.

(** * Examples *)
(** A text, a single option, and a wildcard that has no values. *)
Definition settled_text : text := $"a {red} cat, __nope__".
Definition settled : command :=
  Seq [plainly "a "; Var [one "red"] 1 1 $"," None; plainly " cat, "; Wild (WStr $"nope") None []] [] None.
Example C100_example_parsed : env_parse zoo settled_text = Ok settled.
Proof. vm_compute. reflexivity. Qed.
Lemma nope_parsed : env_parse zoo $"nope" = Ok (plainly "nope").
Proof. vm_compute. reflexivity. Qed.
Lemma nope_missing : forall b u, Tidy b $"nope" u -> env_lookup zoo u = [].
Proof. intros b u H. apply Tidy_fun in H. subst u. destruct b; vm_compute; reflexivity. Qed.
Example C100_example_fixed : Fixed zoo settled /\ FixedScope zoo (scope_of (fresh Random true)).
Proof.
  split; [|split; intros; discriminate]. constructor.
  constructor; [constructor|]. constructor; [constructor; [constructor|discriminate]|]. constructor; [constructor|]. constructor; [|constructor].
  constructor. intros c K. rewrite nope_parsed in K. injection K as <-. exists $"nope", None. split; [reflexivity|exact nope_missing].
Qed.
Lemma nope_path : forall sc path, Path zoo sc (WStr $"nope") path -> env_lookup zoo path = [].
Proof.
  intros sc path H. inversion H as [? ? c t u Hr Hp Ht]; subst. assert (K : c = plainly "nope").
  { remember (WStr $"nope") as w eqn:Hw. destruct Hr as [s c _ K|]; [|discriminate]. assert (s = $"nope") by congruence. pose proof nope_parsed. congruence. }
  subst c. inversion Hp as [? ? ? Hb]; subst. inversion Hb; subst. now apply (nope_missing _ _ Ht).
Qed.
Lemma nothing_drawable : forall m v, ~ Drawable m [] v.
Proof. intros [] v (q & [] & _). Qed.
Example C100_example_conditions : NoMemoryCtx zoo (fresh Random true) /\ NoMemory zoo settled /\ AllRandom zoo settled /\
  Sure zoo (scope_of (fresh Random true)) [] settled.
Proof.
  assert (Hlit : forall s, AllRandom zoo (plainly s)) by (intros s; constructor; discriminate).
  split; [exact (proj1 C98_example_conditions)|]. split; [|split].
  - constructor; [discriminate|]. constructor; [constructor|]. constructor; [apply NM_one; [discriminate|constructor|discriminate]|].
    constructor; [constructor|]. constructor; [|constructor]. constructor; [discriminate|]. exists $"nope". split; [reflexivity|].
    intros c K. rewrite nope_parsed in K. injection K as <-. exists $"nope", None. split; [reflexivity|].
    split; vm_compute; intros; (contradiction || auto).
  - constructor; [discriminate|]. constructor; [apply Hlit|]. constructor.
    { constructor; [discriminate|]. constructor; [|constructor]. split; [apply Hlit|discriminate]. }
    constructor; [apply Hlit|]. constructor; [|constructor]. constructor; [discriminate| |constructor].
    intros c K. rewrite nope_parsed in K. injection K as <-. apply Hlit.
  - apply sure_parts; [reflexivity|repeat constructor; intros (n & v & i & o & K); discriminate|].
    intros t [<-|[<-|[<-|[<-|[]]]]] sc' Hs'; [now apply sure_text| |now apply sure_text|].
    + apply sure_choice; [exact Hs'|intros (w & m & vs & q & K); discriminate|discriminate|].
      intros v q [[= <- <-]|[]]. split; [reflexivity|]. intros sc2 Hs2. now apply sure_text.
    + constructor. apply Sure_wild with (path_cmd := plainly "nope") (meaning := fun _ => plainly "nope").
      * cbn. rewrite Hs'. discriminate.
      * apply Reads_text; [discriminate|exact nope_parsed].
      * now apply sure_text.
      * intros path K N. destruct (N (nope_path _ _ K)).
      * intros path K N. destruct (N (nope_path _ _ K)).
      * intros path v K D. rewrite (nope_path _ _ K) in D. destruct (nothing_drawable _ _ D).
      * intros path sc2 v K _ D. rewrite (nope_path _ _ K) in D. destruct (nothing_drawable _ _ D).
      * intros path sc2 cmd _ _ _ K. discriminate.
Qed.
Example C100_example_run : random_generate stream_rng zoo 50 (fresh Random true) settled_text 2 SNone [5; 6]%N =
  Ret [$"a red cat, __nope__"; $"a red cat, __nope__"] [5; 6]%N.
Proof. vm_compute. reflexivity. Qed.
(** So every source gives this prompt, here for the seeds 4 and 7 and 1. *)
Example C100_example : forall G s, exists s',
  Gives G zoo (fresh Random true) settled_text 3 (SList [4; 7; 1]%Z) s (repeat $"a red cat, __nope__" 3) s'.
Proof.
  intros G s. destruct C100_example_conditions as (H1 & H2 & H3 & H4). destruct C100_example_fixed as [F1 F2].
  assert (Hr : Reads zoo (WStr settled_text) settled) by (apply Reads_text; [discriminate|exact C100_example_parsed]).
  assert (U : Usable 3 (SList [4; 7; 1]%Z)) by now constructor.
  destruct (C100_fixed_requests_agree stream_rng G zoo (fresh Random true) settled_text settled 2 SNone 50 _ _ _ $"a red cat, __nope__"
    zoo_values H1 H2 Hr fresh_scope H3 F2 F1 H4 C100_example_run eq_refl (or_introl eq_refl) 3 _ s U) as (s' & K & _).
  now exists s'.
Qed.

(** A variable set at once, which C100_fixed_templates_take_no_number covers. *)
Definition tinted_text : text := $"${x=!{red}}a ${x} cat".
Definition tinted : command :=
  Seq [Assign $"x" (Var [one "red"] 1 1 $"," None) true true; plainly "a "; Access $"x" None; plainly " cat"] [] None.
Example C100_variable_parsed : env_parse zoo tinted_text = Ok tinted.
Proof. vm_compute. reflexivity. Qed.
Example C100_variable_example : forall G s, exists n h h', forall m, n <= m ->
  sample_prompts zoo m (fresh Random true) (WStr tinted_text) None = MOk h /\ next G zoo m h s = OVal ($"a red cat", h') s.
Proof.
  intros G s.
  destruct (answered zoo 50 (fresh Random true) (WStr tinted_text) 1 [5; 6]%N [$"a red cat"] [5; 6]%N) as (g & g' & Hg & Hc);
    [vm_compute; reflexivity|].
  destruct (collected_one _ _ _ _ _ _ _ _ Hc) as (g1 & Hn).
  assert (Hlit : forall s, AllRandom zoo (plainly s)) by (intros t; constructor; discriminate).
  assert (Hr : Reads zoo (WStr tinted_text) tinted) by (apply Reads_text; [discriminate|exact C100_variable_parsed]).
  refine (proj2 (C100_fixed_templates_take_no_number stream_rng G zoo (fresh Random true) tinted_text tinted 50 g _ _ g1 _
    zoo_values fresh_scope Hr _ (proj2 C100_example_fixed) _ Hg Hn) s).
  - constructor; [discriminate|]. constructor.
    { constructor. constructor; [discriminate|]. constructor; [|constructor]. split; [apply Hlit|discriminate]. }
    constructor; [apply Hlit|]. constructor; [constructor; discriminate|]. constructor; [apply Hlit|constructor].
  - constructor. constructor; [constructor; constructor; [constructor|discriminate]|]. constructor; [constructor|].
    constructor; [constructor; discriminate|]. constructor; [constructor|constructor].
Qed.

(** Two options written alike leave nothing to choose either, but take numbers. *)
Theorem C100_equal_options_take_numbers_refuted : exists E c template r us r',
  env_parse E template = Ok (Var [one "a"; one "a"] 1 1 $"," None) /\
  random_generate stream_rng E 50 c template 1 SNone r = Ret us r' /\ us = [$"a"] /\ r' <> r.
Proof.
  exists zoo, (fresh Random true), $"{a|a}", [0; 0; 8]%N, [$"a"], [8%N].
  split; [vm_compute; reflexivity|]. split; [vm_compute; reflexivity|]. split; [reflexivity|discriminate].
Qed.

Print Assumptions C100_fixed_templates_take_no_number.
Print Assumptions C100_fixed_requests_repeat_one_prompt.
Print Assumptions C100_fixed_requests_agree.
Print Assumptions C100_equal_options_take_numbers_refuted.
