(** The project's own tests of commands and prompt generators, run on the model.
    These are tests, not proofs. *)
From Coq Require Import String NArith ZArith QArith Qcanon Bool List.
From Verif.Model Require Import Str Utils Command Rng Values Context Parser Structured Sampler Build Generators Session.
From Verif.Spec Require Import Syntax StreamRng.
From Verif.Tests Require Import T_Data.
Import ListNotations.
Local Open Scope nat_scope.

(** * tests/parser/test_commands.py *)

(** tests/parser/test_commands.py:25 *)
Example test_length :
  match sequence_from_literals [inl $"hello"; inl $"world"] $"" None with Seq ts _ _ => List.length ts | _ => 0 end = 2 /\
  match variant_from_literals [$"hello"; $"world"] None 1 1 $"," None with Some (Var vs _ _ _ _) => List.length vs | _ => 0 end = 2.
Proof. same. Qed.

(** tests/parser/test_commands.py:40 *)
Example test_combine_literal_commands :
  literal_add (Lit $"hello" None) (Lit $"world" None) = Ok (Lit $"hello world" None).
Proof. same. Qed.

(** tests/parser/test_commands.py:44 *)
Example test_error_combining_incompatible_commands :
  literal_add (Lit $"hello" None) (Var [((Lit $"world" None), 1%Qc)] 1 1 $"," None) = Err EType.
Proof. same. Qed.

(** tests/parser/test_commands.py:61 *)
Example test_combinations :
  get_value_combinations 1 (map (fun s => Lit s None) [$"one"; $"two"; $"three"]) =
    map (fun s => [Lit s None]) [$"one"; $"two"; $"three"] /\
  get_value_combinations 2 (map (fun s => Lit s None) [$"one"; $"two"; $"three"]) =
    map (fun p => [Lit (fst p) None; Lit (snd p) None]) (cross str_eqb [$"one"; $"two"; $"three"] [$"one"; $"two"; $"three"]) /\
  cross str_eqb [$"one"; $"two"; $"three"] [$"one"; $"two"; $"three"] = [($"one", $"two"); ($"one", $"three"); ($"two", $"one"); ($"two", $"three"); ($"three", $"one"); ($"three", $"two")].
Proof. same. Qed.

(** tests/parser/test_commands.py:73 *)
Example test_range :
  match variant_from_literals [$"one"; $"two"; $"three"] None (-1) 10 $"," None with Some (Var _ lo hi _ _) => (lo, hi) | _ => (9, 9)%Z end = (0, 10)%Z /\
  match variant_from_literals [$"one"; $"two"; $"three"] None 2 1 $"," None with Some (Var _ lo hi _ _) => (lo, hi) | _ => (9, 9)%Z end = (1, 2)%Z.
Proof. same. Qed.

(** * tests/samplers/test_utils.py *)

(** tests/samplers/test_utils.py:18 *)
Example test_wildcard_to_variant :
  map (fun ww => match wildcard_to_variant stream_rng (files ww) (next stream_rng (files ww) 50) 50 (context Random) (WStr $"colors*") 1 10 [] with
    OVal (_, bounds) _ => bounds | _ => (9, 9)%Z end) wraps = thrice (1, 4)%Z.
Proof. same. Qed.

(** * tests/generators/test_batched_combinatorial.py *)

(** tests/generators/test_batched_combinatorial.py:10 *)
Example test_single_batch :
  match batched_generate (fun s : unit => Ret [$"image1"; $"image2"] s) 1 tt with Ret ts _ => ts | _ => [] end = [$"image1"; $"image2"].
Proof. same. Qed.

(** tests/generators/test_batched_combinatorial.py:19 *)
Example test_multiple_batches :
  match batched_generate (fun s : unit => Ret [$"image1"; $"image2"] s) 3 tt with Ret ts _ => ts | _ => [] end = [$"image1"; $"image2"; $"image1"; $"image2"; $"image1"; $"image2"].
Proof. same. Qed.

(** * tests/generators/test_combinatorial.py *)

Definition listed (values : list str) : env :=
  {| env_parse := parse letters default_parser_config;
     env_lookup := fun _ => map (fun s => {| w_content := s; w_weight_opt := None |}) values;
     env_wrap := $"__" |}.
Definition returned {S} (x : out S (list str)) : list str + option exn :=
  match x with Ret ts _ => inl ts | Exn e _ => inr (Some e) | NoFuel => inr None end.
Definition combinatorial (E : env) (t : str) (n : option nat) : list str + option exn :=
  returned (combinatorial_generate stream_rng E 100 100 (new_context Combinatorial false) t n []).
Definition random (ignws : bool) (t : str) (n : nat) (seeds : seeds_arg) (r : list N) : list (list str + option exn) :=
  map (fun ww => returned (random_generate stream_rng (files ww) 100 (new_context Random ignws) t n seeds r)) wraps.

(** tests/generators/test_combinatorial.py:9 *)
Example test_literal_template :
  combinatorial (files $"__") $"I love bread" (Some 10) = inl [$"I love bread"].
Proof. same. Qed.

(** tests/generators/test_combinatorial.py:17 *)
Example test_generate_with_wildcard :
  combinatorial (listed [$"bread"; $"butter"; $"cheese"]) $"I love __food__" (Some 10) = inl [$"I love bread"; $"I love butter"; $"I love cheese"] /\
  combinatorial (listed [$"bread"; $"butter"; $"cheese"]) $"I love __food__" (Some 2) = inl [$"I love bread"; $"I love butter"].
Proof. same. Qed.

(** tests/generators/test_combinatorial.py:40 *)
Example test_generate_variant_with_separator :
  combinatorial (files $"__") $"{2$$ and $$A|B|C}" None = inl [$"A and B"; $"A and C"; $"B and A"; $"B and C"; $"C and A"; $"C and B"].
Proof. same. Qed.

(** tests/generators/test_combinatorial.py:54 *)
Example test_generate_variant_with_pipe_separator :
  combinatorial (files $"__") $"{2$$|$$A|B|C}" (Some 9) = inl [$"A|B"; $"A|C"; $"B|A"; $"B|C"; $"C|A"; $"C|B"].
Proof. same. Qed.

(** tests/generators/test_combinatorial.py:71 *)
Example test_all_generations :
  combinatorial (listed [$"bread"; $"butter"; $"cheese"]) $"I love __food__ and __drink__" None = inl [$"I love bread and bread"; $"I love bread and butter"; $"I love bread and cheese"; $"I love butter and bread"; $"I love butter and butter"; $"I love butter and cheese"; $"I love cheese and bread"; $"I love cheese and butter"; $"I love cheese and cheese"] /\
  combinatorial (listed [$"bread"; $"butter"; $"cheese"]) $"I love __food__ and __drink__" (Some 9) = inl [$"I love bread and bread"; $"I love bread and butter"; $"I love bread and cheese"; $"I love butter and bread"; $"I love butter and butter"; $"I love butter and cheese"; $"I love cheese and bread"; $"I love cheese and butter"; $"I love cheese and cheese"].
Proof. same. Qed.

(** * tests/generators/test_random.py *)

(** tests/generators/test_random.py:17 *)
Example test_literal_template_2 :
  random false $"I love bread" 10 SNone [] = thrice (inl [$"I love bread"; $"I love bread"; $"I love bread"; $"I love bread"; $"I love bread"; $"I love bread"; $"I love bread"; $"I love bread"; $"I love bread"; $"I love bread"]).
Proof. same. Qed.

(** tests/generators/test_random.py:25 *)
Example test_generate_with_wildcard_2 :
  random false $"I saw a __animals/mammals/*__" 4 SNone [1%N; 1%N; 3%N; 2%N] = thrice (inl [$"I saw a dog"; $"I saw a dog"; $"I saw a wolf"; $"I saw a tiger"]).
Proof. same. Qed.

(** tests/generators/test_random.py:38 *)
Example test_generate_with_seeds_wrong_length :
  random false $"x" 3 (SList [42; 44]%Z) [] = thrice (inr (Some EValue)).
Proof. same. Qed.

(** tests/generators/test_random.py:66 *)
Example test_cyclical_sampler_with_seeds :
  random false $"A {@red|green|blue} ball" 3 (SList [1; 2; 3]%Z) [] = thrice (inl [$"A red ball"; $"A green ball"; $"A blue ball"]).
Proof. same. Qed.

(** * tests/generators/test_attentiongenerator.py *)

(** tests/generators/test_attentiongenerator.py:15 *)
Example test_cheap_chunker :
  cheap_chunker (py_isdigit readers) $"purple cat singing opera, artistic, painting (best quality:1.3)" =
    [$"purple cat singing opera"; $"artistic"; $"painting"; $"best quality"].
Proof. same. Qed.

(** * tests/generators/test_magicprompt.py *)

(** [1.1 ** n] as text. *)
Definition power (n : nat) : str := match n with 1 => $"1.1" | 2 => $"1.21" | _ => $"?" end.

(** tests/generators/test_magicprompt.py:46 *)
Example test_cleanup_magic_prompt :
  clean_up_magic_prompt letters power $"Original prompt" $"Original prompt - This is a {prompt} xyz" =
    $"Original prompt This is a (prompt) xyz" /\
  clean_up_magic_prompt letters power $"Original prompt" $"Original prompt  $$ This is a prompt $$" =
    $"Original prompt This is a prompt" /\
  clean_up_magic_prompt letters power $"Original prompt" $"Original prompt This ( is ) a prompt" =
    $"Original prompt This (is) a prompt" /\
  clean_up_magic_prompt letters power $"Original prompt" $"Original prompt This is - a prompt" =
    $"Original prompt This is-a prompt" /\
  clean_up_magic_prompt letters power $"Original prompt" $"Original prompt This is a prompt; another prompt" =
    $"Original prompt This is a prompt, another prompt" /\
  clean_up_magic_prompt letters power $"Original prompt" $"Original prompt This is. a prompt; another prompt" =
    $"Original prompt This is, a prompt, another prompt" /\
  clean_up_magic_prompt letters power $"Original prompt" $"Original promptThis is a prompt _ another prompt" =
    $"Original prompt This is a prompt another prompt" /\
  clean_up_magic_prompt letters power $"Original prompt" $"Original prompt This is a prompt , , another prompt" =
    $"Original prompt This is a prompt ,, another prompt" /\
  clean_up_magic_prompt letters power $"Original prompt" $"Original prompt This is a prompt! dddd" =
    $"Original prompt (This is a prompt:1.1) dddd" /\
  clean_up_magic_prompt letters power $"Original prompt" $"Original prompt This is a prompt!! dddd" =
    $"Original prompt (This is a prompt:1.21) dddd" /\
  clean_up_magic_prompt letters power $"[Original|prompt]" $"[Original|prompt] - This is a {prompt} xyz" =
    $"[Original|prompt] This is a (prompt) xyz" /\
  clean_up_magic_prompt letters power $"[Original|prompt]" $"[Original|prompt]  $$ This is a prompt $$" =
    $"[Original|prompt] This is a prompt" /\
  clean_up_magic_prompt letters power $"[Original|prompt]" $"[Original|prompt] This ( is ) a prompt" =
    $"[Original|prompt] This (is) a prompt" /\
  clean_up_magic_prompt letters power $"[Original|prompt]" $"[Original|prompt] This is - a prompt" =
    $"[Original|prompt] This is-a prompt" /\
  clean_up_magic_prompt letters power $"[Original|prompt]" $"[Original|prompt] This is a prompt; another prompt" =
    $"[Original|prompt] This is a prompt, another prompt" /\
  clean_up_magic_prompt letters power $"[Original|prompt]" $"[Original|prompt] This is. a prompt; another prompt" =
    $"[Original|prompt] This is, a prompt, another prompt" /\
  clean_up_magic_prompt letters power $"[Original|prompt]" $"[Original|prompt]This is a prompt _ another prompt" =
    $"[Original|prompt] This is a prompt another prompt" /\
  clean_up_magic_prompt letters power $"[Original|prompt]" $"[Original|prompt] This is a prompt , , another prompt" =
    $"[Original|prompt] This is a prompt ,, another prompt" /\
  clean_up_magic_prompt letters power $"[Original|prompt]" $"[Original|prompt] This is a prompt! dddd" =
    $"[Original|prompt] (This is a prompt:1.1) dddd" /\
  clean_up_magic_prompt letters power $"[Original|prompt]" $"[Original|prompt] This is a prompt!! dddd" =
    $"[Original|prompt] (This is a prompt:1.21) dddd" /\
  clean_up_magic_prompt letters power $"{Original|prompt}" $"{Original|prompt} - This is a {prompt} xyz" =
    $"{Original|prompt} This is a (prompt) xyz" /\
  clean_up_magic_prompt letters power $"{Original|prompt}" $"{Original|prompt}  $$ This is a prompt $$" =
    $"{Original|prompt} This is a prompt" /\
  clean_up_magic_prompt letters power $"{Original|prompt}" $"{Original|prompt} This ( is ) a prompt" =
    $"{Original|prompt} This (is) a prompt" /\
  clean_up_magic_prompt letters power $"{Original|prompt}" $"{Original|prompt} This is - a prompt" =
    $"{Original|prompt} This is-a prompt" /\
  clean_up_magic_prompt letters power $"{Original|prompt}" $"{Original|prompt} This is a prompt; another prompt" =
    $"{Original|prompt} This is a prompt, another prompt" /\
  clean_up_magic_prompt letters power $"{Original|prompt}" $"{Original|prompt} This is. a prompt; another prompt" =
    $"{Original|prompt} This is, a prompt, another prompt" /\
  clean_up_magic_prompt letters power $"{Original|prompt}" $"{Original|prompt}This is a prompt _ another prompt" =
    $"{Original|prompt} This is a prompt another prompt" /\
  clean_up_magic_prompt letters power $"{Original|prompt}" $"{Original|prompt} This is a prompt , , another prompt" =
    $"{Original|prompt} This is a prompt ,, another prompt" /\
  clean_up_magic_prompt letters power $"{Original|prompt}" $"{Original|prompt} This is a prompt! dddd" =
    $"{Original|prompt} (This is a prompt:1.1) dddd" /\
  clean_up_magic_prompt letters power $"{Original|prompt}" $"{Original|prompt} This is a prompt!! dddd" =
    $"{Original|prompt} (This is a prompt:1.21) dddd" /\
  clean_up_magic_prompt letters power $"Original - prompt" $"Original - prompt - This is a {prompt} xyz" =
    $"Original - prompt This is a (prompt) xyz" /\
  clean_up_magic_prompt letters power $"Original - prompt" $"Original - prompt  $$ This is a prompt $$" =
    $"Original - prompt This is a prompt" /\
  clean_up_magic_prompt letters power $"Original - prompt" $"Original - prompt This ( is ) a prompt" =
    $"Original - prompt This (is) a prompt" /\
  clean_up_magic_prompt letters power $"Original - prompt" $"Original - prompt This is - a prompt" =
    $"Original - prompt This is-a prompt" /\
  clean_up_magic_prompt letters power $"Original - prompt" $"Original - prompt This is a prompt; another prompt" =
    $"Original - prompt This is a prompt, another prompt" /\
  clean_up_magic_prompt letters power $"Original - prompt" $"Original - prompt This is. a prompt; another prompt" =
    $"Original - prompt This is, a prompt, another prompt" /\
  clean_up_magic_prompt letters power $"Original - prompt" $"Original - promptThis is a prompt _ another prompt" =
    $"Original - prompt This is a prompt another prompt" /\
  clean_up_magic_prompt letters power $"Original - prompt" $"Original - prompt This is a prompt , , another prompt" =
    $"Original - prompt This is a prompt ,, another prompt" /\
  clean_up_magic_prompt letters power $"Original - prompt" $"Original - prompt This is a prompt! dddd" =
    $"Original - prompt (This is a prompt:1.1) dddd" /\
  clean_up_magic_prompt letters power $"Original - prompt" $"Original - prompt This is a prompt!! dddd" =
    $"Original - prompt (This is a prompt:1.21) dddd".
Proof. same. Qed.

(** * tests/generators/test_jinja.py *)

(** tests/generators/test_jinja.py:24 *)
Example test_literal_prompt :
  jinja_generate (Some (fun s : unit => Ret ($"This is a literal prompt", []) s)) false false 1 tt = Ret [$"This is a literal prompt"] tt.
Proof. same. Qed.

(** tests/generators/test_jinja.py:48 *)
Example test_prompt_block :
  jinja_generate (Some (fun s : unit => Ret (([10%N] ++ $" " ++ [10%N]), [$"My favourite colour is red"; $"My favourite colour is blue"; $"My favourite colour is green"]) s)) false false 1 tt = Ret [$"My favourite colour is red"; $"My favourite colour is blue"; $"My favourite colour is green"] tt.
Proof. same. Qed.

(** tests/generators/test_jinja.py:60 *)
Example test_prompt_block_multiple :
  jinja_generate (Some (fun s : unit => Ret (([10%N] ++ $" " ++ [10%N]), [$"My favourite colour is red"; $"My favourite colour is blue"; $"My favourite colour is green"]) s)) false false 2 tt = Ret [$"My favourite colour is red"; $"My favourite colour is blue"; $"My favourite colour is green"; $"My favourite colour is red"; $"My favourite colour is blue"; $"My favourite colour is green"] tt.
Proof. same. Qed.

(** tests/generators/test_jinja.py:77 *)
Example test_limit_prompts :
  jinja_generate (Some (fun s : unit => Ret (([10%N] ++ $" " ++ [10%N]), [$"My favourite colour is red"; $"My favourite colour is blue"; $"My favourite colour is green"]) s)) true false 2 tt = Ret [$"My favourite colour is red"; $"My favourite colour is blue"] tt.
Proof. same. Qed.

(** tests/generators/test_jinja.py:16-19: the parser is told how wildcards are written. *)
Definition jinja_env (ww : str) (lookup : str -> list str) : env :=
  {| env_parse := parse letters (standard ww);
     env_lookup := fun wc => map (fun s => {| w_content := s; w_weight_opt := None |}) (lookup wc);
     env_wrap := ww |}.
Definition jinja_files (ww : str) : env := jinja_env ww (strings_of ww).

(** tests/generators/test_jinja.py:91 *)
Example test_wildcards :
  map (fun ww => returned (jinja_wildcard stream_rng (jinja_files ww) 100 (new_context Combinatorial false) $"colors-cold" [])) wraps = thrice (inl [$"blue"; $"green"]) /\
  map (fun ww => returned (jinja_wildcard stream_rng (jinja_files ww) 100 (new_context Combinatorial false) (ww ++ $"colors-cold" ++ ww) [])) wraps = thrice (inl [$"blue"; $"green"]).
Proof. same. Qed.

(** tests/generators/test_jinja.py:111 *)
Example test_nested_wildcards :
  map (fun ww => returned (jinja_wildcard stream_rng (jinja_env ww (fun wc => if str_eqb wc $"colours" then [$"pink"; $"yellow"; ww ++ $"blacks" ++ ww; $"purple"] else [$"black"; $"grey"]))
    100 (new_context Combinatorial false) (ww ++ $"colours" ++ ww) [])) wraps = thrice (inl [$"pink"; $"yellow"; $"black"; $"grey"; $"purple"]).
Proof. same. Qed.

(** tests/generators/test_jinja.py:145 *)
Example test_deep_nested_wildcards :
  map (fun ww => returned (jinja_wildcard stream_rng (jinja_env ww (fun wc => if str_eqb wc $"colours" then [$"pink"; $"yellow"; ww ++ $"black" ++ ww; $"purple"]
    else if str_eqb wc $"black" then [$"black"; ww ++ $"greys" ++ ww] else [$"light grey"; $"dark grey"]))
    100 (new_context Combinatorial false) (ww ++ $"colours" ++ ww) [])) wraps = thrice (inl [$"pink"; $"yellow"; $"black"; $"light grey"; $"dark grey"; $"purple"]).
Proof. same. Qed.

(** tests/generators/test_jinja.py:186 *)
Example test_random_sample :
  map (fun ww => match jinja_random_sample stream_rng (jinja_files ww) 100 (new_context Random false) $"A {blue} {daisy}" [] with Ret t _ => t | _ => [] end) wraps = thrice $"A blue daisy".
Proof. same. Qed.

(** tests/generators/test_jinja.py:196 *)
Example test_all_combinations :
  map (fun ww => returned (jinja_all_combinations stream_rng (jinja_files ww) 100 (new_context Combinatorial false) $"A {red|blue|green} {rose|daisy}" [])) wraps = thrice (inl [$"A red rose"; $"A red daisy"; $"A blue rose"; $"A blue daisy"; $"A green rose"; $"A green daisy"]).
Proof. same. Qed.

(** tests/generators/test_jinja.py:248 *)
Example test_permutations :
  permutation [$"red"; $"green"; $"blue"] 1 (Some 2%Z) = Ok [[$"red"]; [$"green"]; [$"blue"]; [$"red"; $"green"]; [$"red"; $"blue"]; [$"green"; $"red"]; [$"green"; $"blue"]; [$"blue"; $"red"]; [$"blue"; $"green"]].
Proof. same. Qed.

(** * tests/test_smoke.py *)

(** tests/test_smoke.py:37 *)
Example test_generator :
  List.length (fst (prompts_in (files $"__") (context Combinatorial) (WStr $"foo {0-1$$a|b|c|d}") 10 [])) = 5 /\
  List.length (fst (prompts_in (files $"__") (context Combinatorial) (WStr $"foo {a|b|c|d}") 10 [])) = 4.
Proof. same. Qed.
