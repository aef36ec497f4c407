(** C57-C60: from the text of a template to the prompts. *)
From Coq Require Import String NArith ZArith QArith Qcanon Bool Arith List Sorted Lia.
From Verif.Model Require Import Str Utils Command Rng Values Context Sampler Parser Generators.
From Verif.Spec Require Import Text Comb Items StreamRng Names Lookup Shape Enum Sure Choices Syntax Lang Everyday.
From Verif.Proofs Require Import StrFacts UtilsFacts PlainFacts GeneratorFacts ShapeFacts EverydayFacts EndFacts.
From Verif.Properties Require Import P_Parser.
Import ListNotations.
Local Open Scope nat_scope.

(** For the examples: the parser with its default settings, and one wildcard. *)
Definition animals : list witem :=
  [{| w_content := $"cat"; w_weight_opt := None |}; {| w_content := $"{big|small} dog"; w_weight_opt := Some (Q2Qc 2) |}].
Definition zoo : env :=
  {| env_parse := parse ascii_alnum default_parser_config;
     env_lookup := fun path => if str_eqb path $"animal" then animals else [];
     env_wrap := $"__" |}.
Definition fresh (m : method) (b : bool) : ctx :=
  {| c_method := m; c_ignws := b; c_vars := []; c_unknown := None; c_busy := [] |}.

(** * C57 *)
Theorem C57_parsed_commands_are_well_formed : forall alnum C t c, parse alnum C t = Ok c -> Shaped Top c.
Proof. exact parse_shaped. Qed.

(** A comment, a tab, bounds in the wrong order, repeated wildcard variables. *)
Definition odd_text : text :=
  $"a" ++ [9%N] ++ $"b {3-1$$x|${v:y}} /* c */ __w(k=1,a=2,k={p|q})__ // end".
Example C57_example :
  parse ascii_alnum default_parser_config odd_text =
  Ok (Seq [plainly "a       b ";
           Var [(plainly "x", 1%Qc); (Access $"v" (Some (plainly "y")), 1%Qc)] 1 3 $"," None;
           plainly " ";
           Wild (WStr $"w") None
             [($"a", plainly "2"); ($"k", Var [(plainly "p", 1%Qc); (plainly "q", 1%Qc)] 1 1 $"," None)]] [] None).
Proof. vm_compute. reflexivity. Qed.
(** Not every command is of this shape. *)
Example C57_example_not_shaped : ~ Shaped Top (Var [(plainly "x", 1%Qc)] 3 1 $"," None).
Proof. intros H. inversion H as [? ? Hp|]; subst. inversion Hp; subst. lia. Qed.

(** * C58 *)
Theorem C58_everyday_templates_are_served : forall G alnum C E c template cmd num seeds r,
  (forall s, env_parse E s = parse alnum C s) ->
  template <> [] -> parse alnum C template = Ok cmd ->
  c_method c <> Combinatorial -> c_vars c = [] -> c_busy c = [] ->
  Everyday E (c_ignws c) no_names (c_method c) cmd -> Usable num seeds ->
  exists n ts r', (forall m, n <= m -> random_generate G E m c template num seeds r = Ret ts r') /\
    length ts = num /\ Forall (Allowed E c (WStr template)) ts.
Proof. exact everyday_prompts. Qed.

Definition day_text : text :=
  $"a ${x=!__animal__}{red|2::blue} ${x}, %{[...]$${u|v}} {@p|q} __none__ {2$$ and $$__animal__}".
Definition day_cmd : command :=
  Seq [plainly "a ";
       Assign $"x" (Wild (WStr $"animal") None []) true true;
       Var [(plainly "red", 1%Qc); (plainly "blue", Q2Qc 2)] 1 1 $"," None;
       plainly " "; Access $"x" None; plainly ", ";
       Wrap (plainly "[...]") (Var [(plainly "u", 1%Qc); (plainly "v", 1%Qc)] 1 1 $"," None) None;
       plainly " ";
       Var [(plainly "p", 1%Qc); (plainly "q", 1%Qc)] 1 1 $"," (Some Cyclical);
       plainly " "; Wild (WStr $"none") None []; plainly " ";
       Var [(Wild (WStr $"animal") None [], 1%Qc)] 2 2 $" and " None] [] None.
Example C58_example_parsed : parse ascii_alnum default_parser_config day_text = Ok day_cmd.
Proof. vm_compute. reflexivity. Qed.
Lemma animal_path : NamesPath zoo true $"animal" $"animal".
Proof.
  split; [discriminate|]. exists $"animal". split; [vm_compute; reflexivity|].
  exact (squash_Tidy $"animal").
Qed.
Lemma none_path : NamesPath zoo true $"none" $"none".
Proof.
  split; [discriminate|]. exists $"none". split; [vm_compute; reflexivity|].
  exact (squash_Tidy $"none").
Qed.
Lemma dog_parsed : env_parse zoo $"{big|small} dog" =
  Ok (Seq [Var [(plainly "big", 1%Qc); (plainly "small", 1%Qc)] 1 1 $"," None; plainly " dog"] [] None).
Proof. vm_compute. reflexivity. Qed.
Ltac in_cases H := repeat (destruct H as [H|H]); try contradiction; try discriminate.
Lemma everyday_dog : forall k m cmd, m <> Combinatorial ->
  env_parse zoo $"{big|small} dog" = Ok cmd -> Everyday zoo true k m cmd.
Proof.
  intros k m cmd Hm H. rewrite dog_parsed in H. injection H as <-. apply Ev_seq.
  - intros x v imm ovr H. in_cases H.
  - intros x v imm ovr m' H. in_cases H.
  - intros tok H _. in_cases H; subst tok; [|apply Ev_text].
    destruct m; [|congruence|].
    + apply Ev_random; [reflexivity|intros (w & mw & vs & q & H); discriminate H| |];
        intros v q H; in_cases H; injection H as <- <-; [reflexivity|reflexivity|apply Ev_text|apply Ev_text].
    + apply Ev_cyclical; [reflexivity|intros (w & mw & vs & q & H); discriminate H| |].
      * repeat constructor; cbn; intuition discriminate.
      * intros v q H. in_cases H; injection H as <- <-; apply Ev_text.
Qed.

Lemma animal_values : forall v q, In (v, q) (pairs (env_lookup zoo $"animal")) ->
  v = $"cat" /\ q = 1%Qc \/ v = $"{big|small} dog" /\ q = Q2Qc 2.
Proof.
  change (pairs (env_lookup zoo $"animal")) with [($"cat", 1%Qc); ($"{big|small} dog", Q2Qc 2)].
  intros v q H. in_cases H; injection H as <- <-; auto.
Qed.
Lemma cat_parsed : env_parse zoo $"cat" = Ok (plainly "cat").
Proof. vm_compute. reflexivity. Qed.
Lemma everyday_animal : forall k m, m <> Combinatorial -> Everyday zoo true k m (Wild (WStr $"animal") None []).
Proof.
  intros k m Hm. assert (Hr : resolve m None = m) by (destruct m; reflexivity).
  assert (Hd : forall v, Drawable (resolve m None) (env_lookup zoo $"animal") v -> v = $"cat" \/ v = $"{big|small} dog").
  { rewrite Hr. intros v H. destruct m; cbn [Drawable] in H; [|congruence|]; destruct H as (q & Hin & _);
      apply animal_values in Hin; tauto. }
  apply Ev_wild with (path := $"animal").
  - exact animal_path.
  - intros x v [].
  - intros x v m' [].
  - intros _ _ v q H. apply animal_values in H as [[_ ->]|[_ ->]]; discriminate.
  - intros _. exists $"cat". rewrite Hr.
    assert (Hin : In ($"cat", 1%Qc) (pairs (env_lookup zoo $"animal"))) by (left; reflexivity).
    destruct m; cbn [Drawable]; [|congruence|]; exists 1%Qc; (split; [exact Hin|]); [reflexivity|discriminate].
  - intros v H. destruct (Hd v H) as [-> | ->]; (split; [discriminate|]); [eexists; exact cat_parsed|eexists; exact dog_parsed].
  - intros v cmd H Hp. rewrite Hr. destruct (Hd v H) as [-> | ->].
    + rewrite cat_parsed in Hp. injection Hp as <-. apply Ev_text.
    + now apply everyday_dog.
Qed.
Lemma everyday_pair : forall k m a b q q' sep mk, resolve m mk <> Combinatorial ->
  of_string a <> of_string b -> (0 < q)%Qc -> (0 < q')%Qc ->
  Everyday zoo true k m (Var [(plainly a, q); (plainly b, q')] 1 1 sep mk).
Proof.
  intros k m a b q q' sep mk Hm Hab Hq Hq'. destruct (resolve m mk) eqn:Hr; [|congruence|].
  - apply Ev_random; [exact Hr|intros (w & mw & vs & x & H); discriminate H| |];
      intros v x H; in_cases H; injection H as <- <-; auto; apply Ev_text.
  - apply Ev_cyclical; [exact Hr|intros (w & mw & vs & x & H); discriminate H| |].
    + repeat constructor; cbn; [|tauto]. intros [H|[]]. injection H as H. now destruct Hab.
    + intros v x H; in_cases H; injection H as <- <-; apply Ev_text.
Qed.
Example C58_example_everyday : Everyday zoo true no_names Random day_cmd.
Proof.
  apply Ev_seq.
  - intros x v imm ovr H. in_cases H. injection H as <- <- <- <-. split; discriminate.
  - intros x v imm ovr m' H Hm. in_cases H. injection H as <- <- <- <-. now apply everyday_animal.
  - intros tok H Hna. change (resolve Random None) with Random.
    in_cases H; subst tok; try apply Ev_text; try (apply everyday_pair; [discriminate|discriminate|reflexivity|reflexivity]).
    + destruct Hna. do 4 eexists. reflexivity.
    + apply Ev_access. right. do 3 eexists. right. left. reflexivity.
    + apply Ev_wrap; [reflexivity|apply Ev_text|].
      apply everyday_pair; [discriminate|discriminate|reflexivity|reflexivity].
    + apply Ev_wild with (path := $"none"); [exact none_path| | | | | |].
      * intros x v [].
      * intros x v m' [].
      * intros Hx. now destruct Hx.
      * intros Hx. now destruct Hx.
      * intros v (q & [] & _).
      * intros v cmd (q & [] & _).
    + eapply Ev_lone with (path := $"animal"); [exact animal_path| | |reflexivity|].
      * exists [$"cat"; $"{big|small} dog"; $"{big|small} dog"]. eexists. split; [|split; [|reflexivity]].
        -- apply (Listed_cons $"cat" 1%Qc 1); [split; [intros _; discriminate|reflexivity]|].
           apply (Listed_cons $"{big|small} dog" (Q2Qc 2) 2 [] []); [split; [intros _; discriminate|reflexivity]|constructor].
        -- constructor; [exact cat_parsed|]. constructor; [exact dog_parsed|]. constructor; [exact dog_parsed|constructor].
      * discriminate.
      * apply Ev_random; [reflexivity|intros (w & mw & vs & x & H); discriminate H| |].
        -- intros v q H. in_cases H; injection H as <- <-; reflexivity.
        -- intros v q H. in_cases H; injection H as <- <-; [apply Ev_text| |]; now apply everyday_dog, dog_parsed.
Qed.
Definition prompts {S} (x : out S (list str)) : option (list str) :=
  match x with Ret l _ => Some l | _ => None end.
Example C58_example_run :
  prompts (random_generate stream_rng zoo 60 (fresh Random true) day_text 2 SNone []) =
  Some [$"a red cat, [u] p __none__ cat and big dog"; $"a red cat, [u] q __none__ cat and big dog"].
Proof. vm_compute. reflexivity. Qed.

(** * C59 *)
Theorem C59_plain_text_is_its_own_prompt : forall G alnum C E c t u num seeds r,
  env_parse E t = parse alnum C t -> Marks C -> t <> [] -> Syntax.Plain C t -> ~ BeginsComment t ->
  c_method c <> Combinatorial -> Usable num seeds -> Tidy (c_ignws c) t u ->
  exists n r', forall m, n <= m -> random_generate G E m c t num seeds r = Ret (repeat u num) r'.
Proof. exact plain_random. Qed.

Theorem C59_plain_text_is_listed_once : forall G alnum C E c t u limit,
  env_parse E t = parse alnum C t -> Marks C -> t <> [] -> Syntax.Plain C t -> ~ BeginsComment t ->
  c_method c = Combinatorial -> Tidy (c_ignws c) t u ->
  exists f, forall m steps r, f <= m -> length (at_most limit [u]) < steps ->
    combinatorial_generate G E m steps c t limit r = Ret (at_most limit [u]) r.
Proof. exact plain_combinatorial. Qed.

Example C59_example :
  prompts (random_generate stream_rng zoo 60 (fresh Random true) plain_example 2 SNone []) =
  Some [$"I, love } (punct:1.2) | a/*b // c_d!"; $"I, love } (punct:1.2) | a/*b // c_d!"]
  /\ prompts (random_generate stream_rng zoo 60 (fresh Cyclical false) plain_example 1 (SInt 4) []) = Some [plain_example]
  /\ prompts (combinatorial_generate stream_rng zoo 60 9 (fresh Combinatorial false) plain_example None []) = Some [plain_example].
Proof. vm_compute. auto. Qed.

(** * C60 *)
(** The combinatorial generator returns the listed prompts, cut to the limit,
    and draws no random number. *)
Theorem C60_combinatorial_generator_lists_all : forall G E c template limit ts,
  c_method c = Combinatorial -> EnumPrompt E c (WStr template) ts ->
  exists f, forall m steps r, f <= m -> length (at_most limit ts) < steps ->
    combinatorial_generate G E m steps c template limit r = Ret (at_most limit ts) r.
Proof. exact combinatorial_list. Qed.

(** With one choice per variant the list is given by [choices]. *)
Theorem C60_one_choice_templates_list_their_choices : forall G E c template cmd limit,
  c_method c = Combinatorial -> template <> [] -> env_parse E template = Ok cmd -> OneChoice cmd ->
  exists ts, Forall2 (Tidy (c_ignws c)) (choices cmd) ts /\
    exists f, forall m steps r, f <= m -> length (at_most limit ts) < steps ->
      combinatorial_generate G E m steps c template limit r = Ret (at_most limit ts) r.
Proof. exact one_choice_generated. Qed.

Definition comb_text : text := $"{big|{small|big}} {3::cat|dog}!".
Definition comb_cmd : command :=
  Seq [Var [(plainly "big", 1%Qc);
            (Var [(plainly "small", 1%Qc); (plainly "big", 1%Qc)] 1 1 $"," None, 1%Qc)] 1 1 $"," None;
       plainly " "; Var [(plainly "cat", Q2Qc 3); (plainly "dog", 1%Qc)] 1 1 $"," None; plainly "!"] [] None.
Example C60_example :
  env_parse zoo comb_text = Ok comb_cmd /\ OneChoice comb_cmd
  /\ choices comb_cmd = [$"big cat!"; $"big dog!"; $"small cat!"; $"small dog!"].
Proof.
  split; [vm_compute; reflexivity|]. split; [|vm_compute; reflexivity].
  repeat first [left; reflexivity|discriminate|constructor].
Qed.
Example C60_example_run :
  prompts (combinatorial_generate stream_rng zoo 60 9 (fresh Combinatorial false) comb_text None []) =
    Some [$"big cat!"; $"big dog!"; $"small cat!"; $"small dog!"]
  /\ prompts (combinatorial_generate stream_rng zoo 60 9 (fresh Combinatorial false) comb_text (Some 3) []) =
    Some [$"big cat!"; $"big dog!"; $"small cat!"].
Proof. vm_compute. auto. Qed.

Print Assumptions C57_parsed_commands_are_well_formed.
Print Assumptions C58_everyday_templates_are_served.
Print Assumptions C59_plain_text_is_its_own_prompt.
Print Assumptions C59_plain_text_is_listed_once.
Print Assumptions C60_combinatorial_generator_lists_all.
Print Assumptions C60_one_choice_templates_list_their_choices.
