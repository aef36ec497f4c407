(** C68 and C69: generators with their random sources, and the functions of
    Jinja templates that call generators. *)
From Coq Require Import String NArith ZArith QArith Qcanon Bool Arith List Lia.
From Verif.Model Require Import Str Command Rng Values Context Structured Tree Manager Sampler Parser Generators Stack Session.
From Verif.Spec Require Import Text Comb Items StreamRng Names Files Tree Lookup Enum Sure Choices Syntax Lang Everyday FileWildcard Session.
From Verif.Proofs Require Import StrFacts SessionFacts JinjaFacts.
From Verif.Properties Require Import P_Parser P_EndToEnd P_Stack.
Import ListNotations.
Local Open Scope nat_scope.

(** * C68 *)
(** A random generator with a source of its own answers, call after call, from
    that source; no other call of the process touches it. *)
Theorem C68_own_source : forall G E fuel calls r0 answers s i st b,
  perform_all G E fuel calls (start G r0) = Some (answers, s) ->
  nth_error (flat_map (makes G) calls) i = Some (Linked st b) ->
  Thread G E fuel (fun j _ => j = i) [] st calls answers.
Proof. exact own_source. Qed.

(** All the other generators answer in turn from the shared source. *)
Theorem C68_shared_source : forall G E fuel calls r0 answers s,
  perform_all G E fuel calls (start G r0) = Some (answers, s) ->
  Thread G E fuel (fun _ k => forall st b, k <> Linked st b) [] r0 calls answers.
Proof. exact shared_source. Qed.

(** Hence generators made with the same seed and asked the same answer the
    same, in any two programs. *)
Theorem C68_same_seed_same_prompts : forall G E fuel calls r0 answers s i calls' r0' answers' s' i' z b,
  perform_all G E fuel calls (start G r0) = Some (answers, s) ->
  perform_all G E fuel calls' (start G r0') = Some (answers', s') ->
  nth_error (flat_map (makes G) calls) i = Some (Linked (prim_seed G z) b) ->
  nth_error (flat_map (makes G) calls') i' = Some (Linked (prim_seed G z) b) ->
  map fst (dialogue G i calls answers) = map fst (dialogue G i' calls' answers') ->
  dialogue G i calls answers = dialogue G i' calls' answers'.
Proof. intros. eapply same_state_same_answers; eassumption. Qed.

(** An unlinked generator ignores its seed. *)
Theorem C68_unlinked_seed_is_ignored : forall G E fuel pre post seed seed' b os os' r0,
  perform_all G E fuel (pre ++ NewRandom seed true b os :: post) (start G r0) =
  perform_all G E fuel (pre ++ NewRandom seed' true b os' :: post) (start G r0).
Proof. intros G E fuel pre post seed seed' b os os' r0. exact (unlinked_seed G E fuel pre post seed seed' b os os' (start G r0)). Qed.

(** After a call with seeds nothing depends on what was drawn before. *)
Theorem C68_seeds_forget_the_past : forall G E fuel c t n seeds l r r' ts r2,
  effective_seeds seeds n = Some (Ok l) -> 0 < n ->
  random_generate G E fuel c t n seeds r = Ret ts r2 ->
  random_generate G E fuel c t n seeds r' = Ret ts r2.
Proof. exact seeded_forgets. Qed.

Definition random_with (z : Z) (unlink : bool) : call stream_rng := @NewRandom stream_rng (Some z) unlink true [].
Definition ask (t : text) : request := {| q_template := t; q_number := None; q_seeds := SNone |}.
(** Two generators made with seed 5, one unlinked generator, one combinatorial
    generator that draws for its random part. *)
Definition program : list (call stream_rng) :=
  [random_with 5 false; NewCombinatorial true; random_with 9 true;
   Ask 0 (ask $"{a|b|c}"); Ask 1 (ask $"{u|v} {~x|y}"); Ask 2 (ask $"{a|b|c}");
   random_with 5 false; Ask 3 (ask $"{a|b|c}"); Ask 0 (ask $"{a|b|c}")].
Definition answers_of {G} (x : option (list answer * session G)) : option (list answer) :=
  match x with Some (l, _) => Some l | None => None end.
Example C68_example :
  answers_of (perform_all stream_rng zoo 60 program (start stream_rng [0; half53; 0; 0; 0; half53; 0; top53])%N)
  = Some [Prompts []; Prompts []; Prompts []; Prompts [$"a"]; Prompts [$"u y"; $"v x"]; Prompts [$"c"];
          Prompts []; Prompts [$"a"]; Prompts [$"a"]] /\
  map (nth_error (flat_map (makes stream_rng) program)) [0; 3] =
    [Some (@Linked stream_rng [5%N] true); Some (@Linked stream_rng [5%N] true)].
Proof. run_both. Qed.

(** Unlinked and combinatorial generators are not independent. *)
Theorem C68_unlinked_generators_are_independent_refuted : exists G E fuel pre q post r0 l l',
  answers_of (perform_all G E fuel (pre ++ post) (start G r0)) = Some l /\
  answers_of (perform_all G E fuel (pre ++ Ask 1 q :: post) (start G r0)) = Some l' /\
  nth_error (flat_map (makes G) pre) 0 = Some (Unlinked true) /\
  nth_error (flat_map (makes G) pre) 1 = Some (Listing true) /\
  dialogue G 0 (pre ++ post) l <> dialogue G 0 (pre ++ Ask 1 q :: post) l'.
Proof.
  exists stream_rng, zoo, 60, [random_with 1 true; NewCombinatorial true], {| q_template := $"{~x|y}"; q_number := Some 1; q_seeds := SNone |},
    [Ask 0 (ask $"{a|b}")], [0; half53]%N,
    [Prompts []; Prompts []; Prompts [$"b"]], [Prompts []; Prompts []; Prompts [$"y"]; Prompts [$"a"]].
  split; [run_both|]. split; [run_both|]. split; [reflexivity|]. split; [reflexivity|].
  cbn [dialogue app Nat.eqb]. discriminate.
Qed.

(** * C69 *)
(** [wildcard(name)] in a template gives the values of the text file, in order
    and each once, up to 1000. *)
Theorem C69_wildcard_lists_the_file : forall P G0 G alnum ww fs root r0 c name lines,
  UniqueNames fs -> WrapText ww -> LettersAndDigits (standard ww) alnum ->
  WildcardName ww (c_ignws c) name -> ~ EndsWith (ww ++ name) ww ->
  TextFileNamed fs root name lines -> PlainLines ww lines -> c_method c = Combinatorial ->
  exists vals ts, InOrder lines vals /\ Forall2 (Tidy (c_ignws c)) vals ts /\
    exists f, forall m r, f <= m ->
      jinja_wildcard G (folder P G0 alnum ww fs root r0) m c name r = Ret (firstn (N.to_nat 1000) ts) r.
Proof.
  intros P G0 G alnum ww fs root r0 c name lines Hu Hw Ha Hn He Hf Hp Hc.
  destruct (C62_file_wildcard_combinatorial P G0 G alnum ww fs root r0 c name lines [] None (Some max_images)
              Hu Hw Ha Hn Hf Hp Mark_none (or_introl eq_refl) Hc) as (vals & ts & Ho & Ht & f & H).
  exists vals, ts. split; [exact Ho|]. split; [exact Ht|]. exists f. intros m r Hm. unfold jinja_wildcard.
  change (env_wrap (folder P G0 alnum ww fs root r0)) with ww.
  rewrite (to_wildcard_name ww name (c_ignws c) Hn He). apply H; [exact Hm|].
  cbn [at_most]. rewrite firstn_length. apply Nat.lt_succ_r, Nat.le_min_l.
Qed.

(** [all_combinations(prompt)] gives the whole list, up to 1000. *)
Theorem C69_all_combinations_lists_all : forall G E c prompt ts,
  c_method c = Combinatorial -> EnumPrompt E c (WStr prompt) ts ->
  exists f, forall m r, f <= m -> jinja_all_combinations G E m c prompt r = Ret (firstn (N.to_nat 1000) ts) r.
Proof. exact all_combinations_list. Qed.

(** [random_sample(prompt)] gives an allowed prompt; it is the one that the
    random generator returns when asked for one. *)
Theorem C69_random_sample_is_allowed : forall G E fuel c prompt r t r', c_method c <> Combinatorial ->
  jinja_random_sample G E fuel c prompt r = Ret t r' -> Allowed E c (WStr prompt) t.
Proof. exact random_sample_allowed. Qed.
Theorem C69_random_sample_is_the_generators : forall G E fuel c prompt r t r',
  jinja_random_sample G E fuel c prompt r = Ret t r' <-> random_generate G E fuel c prompt 1 SNone r = Ret [t] r'.
Proof. exact random_sample_first. Qed.
Theorem C69_random_sample_answers : forall G alnum C E c prompt cmd r,
  (forall s, env_parse E s = parse alnum C s) -> prompt <> [] -> parse alnum C prompt = Ok cmd ->
  c_method c <> Combinatorial -> c_vars c = [] -> c_busy c = [] ->
  Everyday E (c_ignws c) no_names (c_method c) cmd ->
  exists n t r', (forall m, n <= m -> jinja_random_sample G E m c prompt r = Ret t r') /\ Allowed E c (WStr prompt) t.
Proof. exact random_sample_served. Qed.
(** ... but not for the empty prompt. *)
Theorem C69_random_sample_of_nothing : forall G E fuel c r,
  jinja_random_sample G E (S fuel) c [] r = Exn EStopIteration r.
Proof. exact random_sample_nothing. Qed.

Example C69_example :
  jinja_wildcard stream_rng E1 50 (ctx1 Combinatorial) $"sub/hues" []
  = @Ret (list N) _ [$"azure"; $"light blue"; $"red"] [] /\
  jinja_all_combinations stream_rng E1 50 (ctx1 Combinatorial) $"{a|b} __sub/hues__" []
  = @Ret (list N) _ [$"a azure"; $"a light blue"; $"a red"; $"b azure"; $"b light blue"; $"b red"] [] /\
  jinja_random_sample stream_rng E1 50 (ctx1 Random) $"my __sub/hues__" [2%N]
  = @Ret (list N) _ $"my red" [].
Proof. run_both. Qed.
Example C69_example_wrap : ~ EndsWith ($"__" ++ $"sub/hues") $"__".
Proof. intros H. apply endswith_spec in H. vm_compute in H. discriminate. Qed.

Print Assumptions C68_own_source.
Print Assumptions C68_shared_source.
Print Assumptions C68_same_seed_same_prompts.
Print Assumptions C68_unlinked_seed_is_ignored.
Print Assumptions C68_seeds_forget_the_past.
Print Assumptions C68_unlinked_generators_are_independent_refuted.
Print Assumptions C69_wildcard_lists_the_file.
Print Assumptions C69_all_combinations_lists_all.
Print Assumptions C69_random_sample_is_allowed.
Print Assumptions C69_random_sample_is_the_generators.
Print Assumptions C69_random_sample_answers.
Print Assumptions C69_random_sample_of_nothing.
