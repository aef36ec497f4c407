(** C79: a combinatorial run that ends has given exactly the allowed prompts. *)
From Coq Require Import String NArith ZArith QArith Qcanon Bool Arith List Permutation Lia.
From Verif.Model Require Import Str Utils Command Rng Values Context Sampler.
From Verif.Spec Require Import Text Comb Items StreamRng Lang Enum Exhaust.
From Verif.Proofs Require Import StrFacts UtilsFacts CommandFacts ValuesFacts EnumFacts EnumRun CombRun ExhaustFacts ExhaustRun.
From Verif.Proofs Require Soundness StackFacts.
From Verif.Properties Require Import P_Sampler P_Comb.
Import ListNotations.
Local Open Scope nat_scope.

Theorem C79_ended_runs_are_exhaustive : forall G E c p n g f k r us r' u, ExhaustiveValues E ->
  ExhaustiveScope E (scope_of c) -> ExhaustivePrompt E p ->
  sample_prompts E n c p None = MOk g -> collect G E f k g r = (us, EndStop, r') ->
  (In u us <-> Allowed E c p u).
Proof.
  intros G E c p n g f k r us r' u Hv Hs Hp Hg Hc. split.
  - pose proof (C14_every_prompt_is_allowed _ _ _ _ _ _ _ _ _ _ _ _ _ Hg Hc) as Ha. rewrite Forall_forall in Ha. apply Ha.
  - eapply run_complete; eassumption.
Qed.

(** So two such runs give the same prompts, whatever the random generators. *)
Theorem C79_runs_agree : forall G E c p n g f k r us r' G' n' g' f' k' s us' s' u, ExhaustiveValues E ->
  ExhaustiveScope E (scope_of c) -> ExhaustivePrompt E p ->
  sample_prompts E n c p None = MOk g -> collect G E f k g r = (us, EndStop, r') ->
  sample_prompts E n' c p None = MOk g' -> collect G' E f' k' g' s = (us', EndStop, s') ->
  (In u us <-> In u us').
Proof.
  intros. rewrite (C79_ended_runs_are_exhaustive G E c p n g f k r us r') by eassumption.
  now rewrite (C79_ended_runs_are_exhaustive G' E c p n' g' f' k' s us' s') by eassumption.
Qed.

(** Literals, sequences and variants: the run does end. *)
Theorem C79_simple_templates : forall G E c cmd, ExhaustiveValues E ->
  ExhaustiveScope E (scope_of c) -> Nonempty cmd -> Simple cmd -> Exhaustive E cmd ->
  exists ts f g, sample_prompts E f c (WCmd cmd) None = MOk g /\
    (forall n r, length ts < n -> collect G E f n g r = (ts, EndStop, Some r)) /\
    (forall u, In u ts <-> Allowed E c (WCmd cmd) u).
Proof.
  intros G E c cmd Hv Hs Hne Hsi He. destruct (Simple_lists E c cmd Hsi) as (ts & Ht & _).
  destruct (StackFacts.tidy_all (c_ignws c) ts) as [us Hus].
  destruct (C15_enumerates_in_order G E c (WCmd cmd) us (proj1 Hs)) as (f & Hf).
  { eapply EnP_reads; [constructor; exact Hne|exact Ht|exact Hus]. }
  destruct (Hf f (le_n f)) as (g & Hg & Hn). exists us, f, g. split; [exact Hg|]. split; [intros n r; apply Hn|].
  intros u. destruct (Hn (S (length us)) (prim_seed G 0)) as [Hc _].
  exact (C79_ended_runs_are_exhaustive G E c (WCmd cmd) f g f _ _ us _ u Hv Hs
    ltac:(intros cmd' H; inversion H; now subst) Hg (Hc (le_n _))).
Qed.

(** * Examples *)
Example C79_values_example : ExhaustiveValues env0.
Proof. intros path t q cmd _ H. cbn in H. injection H as <-. constructor. now left. Qed.
Example C79_scope_example : ExhaustiveScope env0 (scope_of (ctx0 Combinatorial)).
Proof. repeat split; cbn; discriminate. Qed.

Lemma exhaustive_run : forall cmd us, Exhaustive env0 cmd -> forall g, 
  sample_prompts env0 50 (ctx0 Combinatorial) (WCmd cmd) None = MOk g ->
  (exists r', collect stream_rng env0 50 50 g [] = (us, EndStop, r')) ->
  forall u, In u us <-> Allowed env0 (ctx0 Combinatorial) (WCmd cmd) u.
Proof.
  intros cmd us He g Hg [r' Hc] u.
  eapply (C79_ended_runs_are_exhaustive stream_rng); [apply C79_values_example|apply C79_scope_example| |exact Hg|exact Hc].
  intros cmd' H. inversion H; now subst.
Qed.

Lemma ex_lit : forall s, Exhaustive env0 (lit s).
Proof. intros s. constructor. now left. Qed.
Lemma ex_two : forall a b lo hi sep, Exhaustive env0 a -> Exhaustive env0 b -> a <> b -> (0 <= Z.max lo hi)%Z ->
  Exhaustive env0 (Var [(a, 1%Qc); (b, 1%Qc)] lo hi sep None).
Proof.
  intros a b lo hi sep Ha Hb Hab Hz. apply Ex_var; [now left|intros (w & m & vs & q & [=])|repeat constructor; assumption|exact Hz|].
  right. cbn. constructor; [intros [->|[]]; congruence|constructor; [intros []|constructor]].
Qed.

Example C79_nested_example : forall u,
  In u [$"a x1"; $"a x2"; $"a y"; $"b x1"; $"b x2"; $"b y";
      $"a-b x1"; $"a-b x2"; $"a-b y"; $"b-a x1"; $"b-a x2"; $"b-a y"] <->
  Allowed env0 (ctx0 Combinatorial) (WCmd nested) u.
Proof.
  eapply exhaustive_run; [|reflexivity|eexists; vm_compute; reflexivity].
  constructor; [now left|]. constructor; [|constructor; [apply ex_lit|constructor; [|constructor]]].
  - apply ex_two; [apply ex_lit|apply ex_lit|discriminate|lia].
  - apply ex_two; [|apply ex_lit|discriminate|lia].
    constructor; [now left|]. constructor; [apply ex_lit|constructor; [|constructor]].
    apply ex_two; [apply ex_lit|apply ex_lit|discriminate|lia].
Qed.

(** "${x={a|b}}$x {0-2$$+$$__animal__} $x": each access chooses anew. *)
Definition with_x : command :=
  Seq [Assign $"x" ab false true; Access $"x" None;
       Var [(Wild (WStr $"animal") None [], 1%Qc)] 0 2 $"+" None; Access $"x" None] $" " None.
Example C79_variables_example : forall u,
  In u [$"a  a"; $"a  b"; $"a cat a"; $"a cat b"; $"a dog a"; $"a dog b"; $"a cat+dog a"; $"a cat+dog b";
        $"a dog+cat a"; $"a dog+cat b"; $"b  a"; $"b  b"; $"b cat a"; $"b cat b"; $"b dog a"; $"b dog b";
        $"b cat+dog a"; $"b cat+dog b"; $"b dog+cat a"; $"b dog+cat b"] <->
  Allowed env0 (ctx0 Combinatorial) (WCmd with_x) u.
Proof.
  eapply exhaustive_run; [|reflexivity|eexists; vm_compute; reflexivity].
  constructor; [now left|]. constructor; [|constructor; [|constructor; [|constructor; [|constructor]]]].
  - constructor. apply ex_two; [apply ex_lit|apply ex_lit|discriminate|lia].
  - constructor. discriminate.
  - apply Ex_lone; [now left| |].
    + intros cmd H. inversion H as [s c _ Hp|]; subst. cbn in Hp. injection Hp as <-. eauto.
    + intros path opts (vals & cmds & Hv & Hc & ->).
      rewrite (Listed_unique _ _ _ Hv (iterate_weighted_Listed (env_lookup env0 path))) in Hc.
      unfold env0, env_lookup, env_parse in Hc. destruct (str_eqb path $"animal").
      * cbn in Hc. inversion Hc as [|? ? ? ? H1 H2]; subst. inversion H2 as [|? ? ? ? H3 H4]; subst. inversion H4; subst.
        injection H1 as <-. injection H3 as <-. split; [intros (w & m & vs & q & [=])|].
        right. cbn. constructor; [intros [[=]|[]]|constructor; [intros []|constructor]].
      * inversion Hc; subst. split; [intros (w & m & vs & q & [=])|right; constructor].
  - constructor. discriminate.
Qed.

(** What is left out.  Of two equal options both may be chosen, with different
    values; the run never chooses them both. *)
Example C79_equal_options_example :
  run Combinatorial (Var [(ab, 1%Qc); (ab, 1%Qc)] 2 2 $"," None) 9 [] = ([], None) /\
  Allowed env0 (ctx0 Combinatorial) (WCmd (Var [(ab, 1%Qc); (ab, 1%Qc)] 2 2 $"," None)) $"a,b".
Proof.
  split; [vm_compute; reflexivity|]. eexists. exists $"a,b". split; [constructor; split; discriminate|]. split; [|reflexivity].
  assert (Hab : forall t, In t [$"a"; $"b"] -> Produces env0 (scope_of (ctx0 Combinatorial)) ab t).
  { intros t Ht.
    constructor. destruct Ht as [<-|[<-|[]]].
    - apply B_choice with (sel := [lit "a"]) (rest := [lit "b"]) (parts := [$"a"]); try discriminate; cbn; try lia.
      + intros (w & m & vs & q & [=]).
      + reflexivity.
      + repeat constructor.
      + repeat constructor. intros [].
      + apply Glued_one.
    - apply B_choice with (sel := [lit "b"]) (rest := [lit "a"]) (parts := [$"b"]); try discriminate; cbn; try lia.
      + intros (w & m & vs & q & [=]).
      + apply perm_swap.
      + repeat constructor.
      + repeat constructor. intros [].
      + apply Glued_one. }
  constructor. apply B_choice with (sel := [ab; ab]) (rest := []) (parts := [$"a"; $"b"]); try discriminate; cbn; try lia.
  - intros (w & m & vs & q & [=]).
  - reflexivity.
  - constructor; [apply Hab; now left|]. constructor; [apply Hab; right; now left|constructor].
  - constructor; [intros [[=]|[]]|constructor; [intros []|constructor]].
  - change $"a,b" with (joined [$"a"; $"b"] $","). apply Soundness.joined_Glued.
Qed.
(** A value chosen once is always the first. *)
Example C79_chosen_once_example :
  run Combinatorial (Seq [Assign $"x" ab true true; Access $"x" None] [] None) 9 [] = ([$"a"], None) /\
  Allowed env0 (ctx0 Combinatorial) (WCmd (Seq [Assign $"x" ab true true; Access $"x" None] [] None)) $"b".
Proof.
  split; [vm_compute; reflexivity|]. eexists. exists $"b". split; [constructor; split; discriminate|]. split; [|reflexivity].
  constructor. pose (sc' := {| sc_method := Combinatorial; sc_squash := false; sc_unknown := None;
    sc_var := fun x => if str_eqb x $"x" then Some (Lit $"b" None) else None |}).
  apply B_seq with (sc' := sc') (toks := [Access $"x" None]) (parts := [$"b"]).
  - repeat split.
  - intros x. cbn [sc_var sc']. destruct (str_eqb x $"x") eqn:Hx.
    + apply str_eqb_eq in Hx. subst x.
      eapply Bound_immediate with (v := ab) (ovr := true); [| discriminate | discriminate |].
      * exists [], [Access $"x" None]. split; [reflexivity|]. intros v' i' o' [[=]|[]].
      * constructor. apply B_choice with (sel := [lit "b"]) (rest := [lit "a"]) (parts := [$"b"]); try discriminate; cbn; try lia.
        -- intros (w & m & vs & q & [=]).
        -- apply perm_swap.
        -- repeat constructor.
        -- repeat constructor. intros [].
        -- apply Glued_one.
    + apply (Bound_outer env0 (scope_of (ctx0 Combinatorial))). intros v i o [Heq|[[=]|[]]]. inversion Heq; subst. discriminate.
  - apply Plain_drop. apply Plain_keep; [intros (n & v & i & o & [=])|constructor].
  - constructor; [|constructor]. constructor. eapply B_access; [apply Refers_var; [reflexivity|split; discriminate]|].
    constructor. constructor.
  - reflexivity.
  - intros H. now destruct H.
Qed.

Print Assumptions C79_ended_runs_are_exhaustive.
Print Assumptions C79_runs_agree.
Print Assumptions C79_simple_templates.
