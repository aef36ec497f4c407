(** C77: the numbers that decide a random prompt. *)
From Coq Require Import String NArith ZArith QArith Qcanon Bool Arith List Permutation Lia.
From Verif.Model Require Import Str Float Utils Command Rng Values Context Sampler.
From Verif.Spec Require Import Text Comb Items StreamRng Lang Draws Seeds Rolls.
From Verif.Proofs Require Import StrFacts UtilsFacts RollFacts RollBack RollRun.
From Verif.Properties Require Import P_Sampler.
Import ListNotations.
Local Open Scope nat_scope.

(** For templates, values and variables without cyclical parts and negative
    weights, the first prompt is the one described by [Rolled], and the source
    is left as described. *)
Theorem C77_the_first_prompt_is_rolled : forall G E c p r u r', AllRandomValues E ->
  AllRandomScope E (scope_of c) -> AllRandomPrompt E p ->
  ((exists n g g', sample_prompts E n c p None = MOk g /\ next G E n g r = OVal (u, g') r')
   <-> Rolled G E c p r u r').
Proof. intros G E c p r u r' Hv. exact (rolled_iff G E Hv c p r u r'). Qed.

(** Whatever the template, what can be rolled is what the sampler gives. *)
Theorem C77_rolled_prompts_are_given : forall G E c p r u r', Rolled G E c p r u r' ->
  exists n g g', forall m, n <= m -> sample_prompts E m c p None = MOk g /\ next G E m g r = OVal (u, g') r'.
Proof. exact rolled_first. Qed.

(** The state of the source decides the text and the state afterwards. *)
Theorem C77_the_source_decides : forall G E c p r u r' u2 r2,
  Rolled G E c p r u r' -> Rolled G E c p r u2 r2 -> u = u2 /\ r' = r2.
Proof. exact rolled_det. Qed.

(** Templates that keep nothing from one prompt to the next: every prompt of a
    run is rolled like a first one, from where the one before left the source. *)
Theorem C77_every_prompt_is_rolled : forall G E c p cmd n g k fuel r us g' r', AllRandomValues E ->
  NoMemoryCtx E c -> NoMemory E cmd -> Reads E p cmd ->
  AllRandomScope E (scope_of c) -> AllRandomPrompt E p ->
  sample_prompts E n c p None = MOk g ->
  collect G E fuel k g r = (us, EndLimit g', Some r') -> RolledMany G E c p r us r'.
Proof. intros G E c p cmd n g k fuel r us g' r' Hv. apply (collected_rolled G E Hv). Qed.

(** * Examples *)
Example C77_values_example : AllRandomValues env0.
Proof.
  intros path t q H. unfold env0, env_lookup in H. destruct (str_eqb path $"animal"); [|contradiction].
  destruct H as [[= <- <-]|[[= <- <-]|[]]]; (split; [discriminate|]); intros c [= <-]; constructor; discriminate.
Qed.

Definition dice : command :=
  Seq [lit "a"; Assign $"x" (Var (opts ["k"; "l"]%string) 1 1 $"," None) true true;
       Var [(lit "p", 1%Qc); (lit "q", Q2Qc 2); (lit "s", 1%Qc)] 1 2 $"+" None;
       Wild (WStr $"animal") None []; Access $"x" None] $" " None.
Example C77_dice_random : AllRandomPrompt env0 (WCmd dice).
Proof.
  intros c H. inversion H; subst. unfold dice, opts, lit. cbn [map].
  repeat (constructor; cbn; try discriminate; intros; try (split; [|discriminate])); try discriminate.
  all: match goal with Hc : _ = Ok _ |- _ => injection Hc as <- end; constructor; discriminate.
Qed.
Example C77_scope_example : AllRandomScope env0 (scope_of (ctx0 Random)).
Proof. repeat split; cbn; discriminate. Qed.

(** First the assigned value, with two numbers; then how many of the three
    options, which first, which of the two left; then the animal. *)
Definition dice_rolls : list N := [0; half53; 1; half53; top53; 1; 7]%N.
Example C77_dice_run : exists g',
  match sample_prompts env0 50 (ctx0 Random) (WCmd dice) None with
  | MOk g => next stream_rng env0 50 g dice_rolls
  | _ => OFuel
  end = @OVal stream_rng _ ($"a q+s dog l", g') [7%N].
Proof. eexists. vm_compute. reflexivity. Qed.
Example C77_dice_rolled : Rolled stream_rng env0 (ctx0 Random) (WCmd dice) dice_rolls $"a q+s dog l" [7%N].
Proof.
  apply (C77_the_first_prompt_is_rolled stream_rng);
    [exact C77_values_example|exact C77_scope_example|exact C77_dice_random|].
  destruct C77_dice_run as [g' H].
  destruct (sample_prompts env0 50 (ctx0 Random) (WCmd dice) None) as [g| |] eqn:Hg; try discriminate.
  exists 50, g, g'. now split.
Qed.

(** Built by hand: one of two options takes one number for how many and one
    for which, and no more. *)
Definition coin : command := Var (opts ["k"; "l"]%string) 1 1 $"," None.
Example C77_coin_rolled : Rolled stream_rng env0 (ctx0 Random) (WCmd coin) [5; half53; 9]%N $"l" [9%N].
Proof.
  unfold Rolled. apply RoP with (c := coin) (t := $"l"); [constructor; split; discriminate| |reflexivity].
  constructor; [reflexivity|].
  apply (@Ro_choice stream_rng) with (k := 1%Z) (r1 := [half53; 9%N]) (sel := [lit "l"]) (r2 := [9%N]) (parts := [$"l"]).
  - cbn. lia.
  - split; [vm_compute; discriminate|]. exists 5%N. split; reflexivity.
  - apply (@Ch_cons stream_rng) with (i := 1) (r1 := [9%N]) (v := lit "l") (j := 1) (w := 1%Qc) (vs' := [lit "k"]) (ws' := [1%Qc]).
    + split; [repeat constructor; discriminate|]. split; [cbn; lia|].
      exists half53, 1%Qc. split; [reflexivity|]. split; [apply Qc_is_canon; vm_compute; reflexivity|].
      split; vm_compute; [discriminate|reflexivity].
    + reflexivity.
    + split; [reflexivity|]. intros [|j'] H; [discriminate|lia].
    + reflexivity.
    + exists [lit "k"], []. repeat split. intros [H|[]]. discriminate.
    + exists [], [1%Qc]. repeat split. intros [].
    + constructor.
  - apply (@RoA_cons stream_rng) with (r1 := [9%N]); [|constructor].
    constructor; [reflexivity|]. constructor.
  - repeat constructor.
Qed.

(** A run of three prompts of a template that keeps nothing. *)
Definition plain_dice : command :=
  Seq [Var [(lit "p", 1%Qc); (lit "q", Q2Qc 2); (lit "s", 1%Qc)] 1 2 $"+" None;
       Wild (WStr $"animal") None []] $" " None.
Example C77_plain_random : AllRandomPrompt env0 (WCmd plain_dice).
Proof.
  intros c H. inversion H; subst. unfold plain_dice, opts, lit. cbn [map].
  repeat (constructor; cbn; try discriminate; intros; try (split; [|discriminate])); try discriminate.
  all: match goal with Hc : _ = Ok _ |- _ => injection Hc as <- end; constructor; discriminate.
Qed.
Example C77_plain_no_memory : NoMemory env0 plain_dice /\ NoMemoryCtx env0 (ctx0 Random).
Proof.
  split.
  - constructor; [discriminate|]. constructor; [constructor; [discriminate|cbn; lia]|].
    constructor; [|constructor]. constructor; [discriminate|].
    exists $"animal". split; [reflexivity|]. intros cmd [= <-]. exists $"animal", None. split; [reflexivity|].
    split; intros p q Hp Hq; cbn in Hp, Hq;
      destruct Hp as [<-|[<-|[]]]; destruct Hq as [<-|[<-|[]]]; reflexivity.
  - split; [reflexivity|]. split; [constructor|discriminate].
Qed.
Example C77_plain_run : exists g g',
  sample_prompts env0 50 (ctx0 Random) (WCmd plain_dice) None = MOk g /\
  collect stream_rng env0 50 2 g [0; half53; 1; 1; 0; half53; 0; 4]%N
  = ([$"q dog"; $"p+q cat"], EndLimit g', Some [4%N]).
Proof. eexists. eexists. split; [reflexivity|]. vm_compute. reflexivity. Qed.
Example C77_plain_rolled :
  RolledMany stream_rng env0 (ctx0 Random) (WCmd plain_dice) [0; half53; 1; 1; 0; half53; 0; 4]%N
    [$"q dog"; $"p+q cat"] [4%N].
Proof.
  destruct C77_plain_run as (g & g' & Hg & Hr).
  apply (C77_every_prompt_is_rolled stream_rng env0 (ctx0 Random) (WCmd plain_dice) plain_dice 50 g 2 50 _ _ g');
    [exact C77_values_example|exact (proj2 C77_plain_no_memory)|exact (proj1 C77_plain_no_memory)|constructor; split; discriminate
    |exact C77_scope_example|exact C77_plain_random|exact Hg|exact Hr].
Qed.

Print Assumptions C77_the_first_prompt_is_rolled.
Print Assumptions C77_rolled_prompts_are_given.
Print Assumptions C77_the_source_decides.
Print Assumptions C77_every_prompt_is_rolled.
