(** The project's own sampler tests, run on the model with the files of its
    tests.  These are tests, not proofs; they check that the model does what the
    authors of the code expect.  Where a test replaces random choices, the random
    draws that lead to these choices are given. *)
From Coq Require Import String NArith ZArith QArith Qcanon Bool List.
From Verif.Model Require Import Str Utils Command Rng Values Context Parser Structured Sampler.
From Verif.Tests Require Import T_Data.
From Verif.Spec Require Import Syntax StreamRng.
Import ListNotations.
Local Open Scope nat_scope.

(** A manager whose [get_values] is replaced. *)
Definition listed (values : list str) : env :=
  {| env_parse := parse letters default_parser_config;
     env_lookup := fun _ => map (fun s => {| w_content := s; w_weight_opt := None |}) values;
     env_wrap := $"__" |}.
(** The parser told how wildcards are written. *)
Definition wrapped_files (ww : str) : env :=
  {| env_parse := parse letters (standard ww);
     env_lookup := env_lookup (files ww); env_wrap := ww |}.

(** * tests/samplers/test_prompts.py *)

(** tests/samplers/test_prompts.py:47 *)
Example test_empty :
  sampled Random [] 5 [] =
    thrice ([], None) /\
  sampled Cyclical [] 5 [] =
    thrice ([], None) /\
  sampled Combinatorial [] 5 [] =
    thrice ([], None).
Proof. run_both. Qed.

(** tests/samplers/test_prompts.py:59 *)
Example test_literals :
  sampled Random $"A literal sentence" 5 [] =
    thrice ([$"A literal sentence"; $"A literal sentence"; $"A literal sentence"; $"A literal sentence"; $"A literal sentence"], None) /\
  sampled Cyclical $"A literal sentence" 5 [] =
    thrice ([$"A literal sentence"; $"A literal sentence"; $"A literal sentence"; $"A literal sentence"; $"A literal sentence"], None) /\
  sampled Combinatorial $"A literal sentence" 5 [] =
    thrice ([$"A literal sentence"], None).
Proof. run_both. Qed.

(** tests/samplers/test_prompts.py:77 *)
Example test_literal_with_square_brackets :
  sampled Random $"Test [low emphasis]" 5 [] =
    thrice ([$"Test [low emphasis]"; $"Test [low emphasis]"; $"Test [low emphasis]"; $"Test [low emphasis]"; $"Test [low emphasis]"], None) /\
  sampled Cyclical $"Test [low emphasis]" 5 [] =
    thrice ([$"Test [low emphasis]"; $"Test [low emphasis]"; $"Test [low emphasis]"; $"Test [low emphasis]"; $"Test [low emphasis]"], None) /\
  sampled Combinatorial $"Test [low emphasis]" 5 [] =
    thrice ([$"Test [low emphasis]"], None).
Proof. run_both. Qed.

(** tests/samplers/test_prompts.py:101 *)
Example test_variants :
  sampled Random $"A red {square|circle}" 5 [0%N; pick 1 2; 0%N; pick 1 2; 0%N; pick 0 2; 0%N; pick 1 2; 0%N; pick 0 2] =
    thrice ([$"A red circle"; $"A red circle"; $"A red square"; $"A red circle"; $"A red square"], None) /\
  sampled Cyclical $"A red {square|circle}" 5 [] =
    thrice ([$"A red square"; $"A red circle"; $"A red square"; $"A red circle"; $"A red square"], None) /\
  sampled Combinatorial $"A red {square|circle}" 5 [] =
    thrice ([$"A red square"; $"A red circle"], None).
Proof. run_both. Qed.

(** tests/samplers/test_prompts.py:134 *)
Example test_variant_with_blank :
  sampled Random $"A {red|blue|} rose" 5 [0%N; pick 0 3; 0%N; pick 0 3; 0%N; pick 0 3; 0%N; pick 0 3; 0%N; pick 1 3] =
    thrice ([$"A red rose"; $"A red rose"; $"A red rose"; $"A red rose"; $"A blue rose"], None) /\
  sampled Cyclical $"A {red|blue|} rose" 5 [] =
    thrice ([$"A red rose"; $"A blue rose"; $"A  rose"; $"A red rose"; $"A blue rose"], None) /\
  sampled Combinatorial $"A {red|blue|} rose" 5 [] =
    thrice ([$"A red rose"; $"A blue rose"; $"A  rose"], None).
Proof. run_both. Qed.

(** tests/samplers/test_prompts.py:177 *)
Example test_two_variants :
  sampled Random $"A {red|green} {square|circle}" 5 [0%N; pick 0 2; 0%N; pick 1 2; 0%N; pick 1 2; 0%N; pick 0 2; 0%N; pick 0 2; 0%N; pick 0 2; 0%N; pick 1 2; 0%N; pick 0 2; 0%N; pick 1 2; 0%N; pick 0 2] =
    thrice ([$"A red circle"; $"A green square"; $"A red square"; $"A green square"; $"A green square"], None) /\
  sampled Cyclical $"A {red|green} {square|circle}" 5 [] =
    thrice ([$"A red square"; $"A green circle"; $"A red square"; $"A green circle"; $"A red square"], None) /\
  sampled Combinatorial $"A {red|green} {square|circle}" 5 [] =
    thrice ([$"A red square"; $"A red circle"; $"A green square"; $"A green circle"], None).
Proof. run_both. Qed.

(** tests/samplers/test_prompts.py:236 *)
Example test_combination_variants :
  sampled Cyclical $"A {2$$red|green} {square|circle}" 5 [] =
    thrice ([$"A red,green square"; $"A green,red circle"; $"A red,green square"; $"A green,red circle"; $"A red,green square"], None) /\
  sampled Combinatorial $"A {2$$red|green} {square|circle}" 5 [] =
    thrice ([$"A red,green square"; $"A red,green circle"; $"A green,red square"; $"A green,red circle"], None).
Proof. run_both. Qed.

(** tests/samplers/test_prompts.py:300 *)
Example test_combination_variants_range :
  sampled Cyclical $"A {1-2$$red|green|blue} square" 5 [] =
    thrice ([$"A red square"; $"A green square"; $"A blue square"; $"A red,green square"; $"A red,blue square"], None) /\
  sampled Combinatorial $"A {1-2$$red|green|blue} square" 5 [] =
    thrice ([$"A red square"; $"A green square"; $"A blue square"; $"A red,green square"; $"A red,blue square"], None).
Proof. run_both. Qed.

(** tests/samplers/test_prompts.py:345 *)
Example test_combination_variants_with_separator :
  sampled Cyclical $"A {2$$|$$red|green|blue} square" 6 [] =
    thrice ([$"A red|green square"; $"A red|blue square"; $"A green|red square"; $"A green|blue square"; $"A blue|red square"; $"A blue|green square"], None) /\
  sampled Combinatorial $"A {2$$|$$red|green|blue} square" 6 [] =
    thrice ([$"A red|green square"; $"A red|blue square"; $"A green|red square"; $"A green|blue square"; $"A blue|red square"; $"A blue|green square"], None).
Proof. run_both. Qed.

(** tests/samplers/test_prompts.py:386 *)
Example test_weighted_variant :
  sampled Cyclical $"A {1::red|2::green|3::blue} square" 3 [] =
    thrice ([$"A red square"; $"A green square"; $"A blue square"], None) /\
  sampled Combinatorial $"A {1::red|2::green|3::blue} square" 3 [] =
    thrice ([$"A red square"; $"A green square"; $"A blue square"], None).
Proof. run_both. Qed.

(** tests/samplers/test_prompts.py:414 *)
Example test_nested_variants :
  sampled Random $"A {red|green {square|circle}}" 2 [0%N; pick 1 2; 0%N; pick 1 2; 0%N; pick 0 2] =
    thrice ([$"A green circle"; $"A red"], None) /\
  sampled Cyclical $"A {red|green {square|circle}}" 4 [] =
    thrice ([$"A red"; $"A green square"; $"A red"; $"A green circle"], None) /\
  sampled Combinatorial $"A {red|green {square|circle}}" 3 [] =
    thrice ([$"A red"; $"A green square"; $"A green circle"], None).
Proof. run_both. Qed.

(** tests/samplers/test_prompts.py:457 *)
Example test_wildcards :
  prompts_in (listed [$"red"; $"green"; $"blue"]) (context Cyclical) (WStr $"A __colours__ square") 6 [] =
    ([$"A red square"; $"A green square"; $"A blue square"; $"A red square"; $"A green square"; $"A blue square"], None) /\
  prompts_in (listed [$"red"; $"green"; $"blue"]) (context Combinatorial) (WStr $"A __colours__ square") 3 [] =
    ([$"A red square"; $"A green square"; $"A blue square"], None) /\
  prompts_in (listed [$"red"; $"green"; $"blue"]) (context Random) (WStr $"A __colours__ square") 2 [2%N; 0%N] =
    ([$"A blue square"; $"A red square"], None).
Proof. run_both. Qed.

(** tests/samplers/test_prompts.py:483 *)
Example test_missing_wildcard :
  map (fun ww => prompts_in (wrapped_files ww) (context Random) (WStr ($"A " ++ ww ++ $"missing" ++ ww ++ $" wildcard")) 5 []) wraps =
    map (fun ww => (repeat ($"A " ++ ww ++ $"missing" ++ ww ++ $" wildcard") 5, None)) wraps /\
  map (fun ww => prompts_in (wrapped_files ww) (context Cyclical) (WStr ($"A " ++ ww ++ $"missing" ++ ww ++ $" wildcard")) 5 []) wraps =
    map (fun ww => (repeat ($"A " ++ ww ++ $"missing" ++ ww ++ $" wildcard") 5, None)) wraps.
Proof. run_both. Qed.

(** tests/samplers/test_prompts.py:504 *)
Example test_nested_wildcard :
  sampled Cyclical $"{__colors*__}" 4 [] =
    thrice ([$"blue"; $"green"; $"red"; $"yellow"], None) /\
  sampled Combinatorial $"{__colors*__}" 4 [] =
    thrice ([$"blue"; $"green"; $"red"; $"yellow"], None).
Proof. run_both. Qed.

(** tests/samplers/test_prompts.py:526 *)
Example test_nested_wildcard_with_range_and_literal :
  sampled Cyclical $"{2$$__colors*__|black}" 8 [] =
    thrice ([$"blue,black"; $"black,blue"; $"green,black"; $"black,green"; $"red,black"; $"black,red"; $"yellow,black"; $"black,yellow"], None) /\
  sampled Combinatorial $"{2$$__colors*__|black}" 8 [] =
    thrice ([$"blue,black"; $"green,black"; $"red,black"; $"yellow,black"; $"black,blue"; $"black,green"; $"black,red"; $"black,yellow"], None).
Proof. run_both. Qed.

(** tests/samplers/test_prompts.py:573 *)
Example test_variants_with_larger_bounds_than_choices :
  sampled Combinatorial $"A red {3$$square|circle}" 10 [] =
    thrice ([$"A red square,circle"; $"A red circle,square"], None) /\
  sampled Cyclical $"A red {3$$square|circle}" 4 [] =
    thrice ([$"A red square,circle"; $"A red circle,square"; $"A red square,circle"; $"A red circle,square"], None).
Proof. run_both. Qed.

(** tests/samplers/test_prompts.py:591 *)
Example test_nospace_before_or_after_wildcard :
  sampled Combinatorial $"(__colors*__:2.3) " 20 [] =
    thrice ([$"(blue:2.3) "; $"(green:2.3) "; $"(red:2.3) "; $"(yellow:2.3) "], None).
Proof. run_both. Qed.

(** * tests/samplers/test_common.py *)

(** tests/samplers/test_common.py:55 *)
Example test_prompts :
  taken Random (Seq [(Lit $"one" None); (Lit $" " None); (Lit $"two" None); (Lit $" " None); (Lit $"three" None)] [] None) 1 [] =
    thrice ([$"one two three"], None) /\
  taken Cyclical (Seq [(Lit $"one" None); (Lit $" " None); (Lit $"two" None); (Lit $" " None); (Lit $"three" None)] [] None) 1 [] =
    thrice ([$"one two three"], None) /\
  taken Combinatorial (Seq [(Lit $"one" None); (Lit $" " None); (Lit $"two" None); (Lit $" " None); (Lit $"three" None)] [] None) 1 [] =
    thrice ([$"one two three"], None).
Proof. run_both. Qed.

(** tests/samplers/test_common.py:61 *)
Example test_custom_separator :
  taken Random (Seq [(Lit $"A" None); (Lit $"sentence" None)] $"|" None) 1 [] =
    thrice ([$"A|sentence"], None) /\
  taken Cyclical (Seq [(Lit $"A" None); (Lit $"sentence" None)] $"|" None) 1 [] =
    thrice ([$"A|sentence"], None) /\
  taken Combinatorial (Seq [(Lit $"A" None); (Lit $"sentence" None)] $"|" None) 1 [] =
    thrice ([$"A|sentence"], None).
Proof. run_both. Qed.

(** tests/samplers/test_common.py:71 *)
Example test_single_literal :
  taken Random (Lit $"one" None) 1 [] =
    thrice ([$"one"], None) /\
  taken Cyclical (Lit $"one" None) 1 [] =
    thrice ([$"one"], None) /\
  taken Combinatorial (Lit $"one" None) 1 [] =
    thrice ([$"one"], None).
Proof. run_both. Qed.

(** tests/samplers/test_common.py:89 *)
Example test_empty_variant :
  taken Random (Var [] 1 1 $"," None) 5 [] =
    thrice ([], None) /\
  taken Cyclical (Var [] 1 1 $"," None) 5 [] =
    thrice ([], None) /\
  taken Combinatorial (Var [] 1 1 $"," None) 5 [] =
    thrice ([], None).
Proof. run_both. Qed.

(** tests/samplers/test_common.py:95 *)
Example test_single_variant :
  taken Random (Var [((Lit $"one" None), 1%Qc)] 1 1 $"," None) 1 [] =
    thrice ([$"one"], None) /\
  taken Cyclical (Var [((Lit $"one" None), 1%Qc)] 1 1 $"," None) 1 [] =
    thrice ([$"one"], None) /\
  taken Combinatorial (Var [((Lit $"one" None), 1%Qc)] 1 1 $"," None) 1 [] =
    thrice ([$"one"], None).
Proof. run_both. Qed.

(** tests/samplers/test_common.py:112 *)
Example test_multiple_variant :
  taken Random (Var [((Lit $"one" None), 1%Qc); ((Lit $"two" None), 1%Qc); ((Lit $"three" None), 1%Qc)] 1 1 $"," None) 4 [0%N; pick 0 3; 0%N; pick 2 3; 0%N; pick 1 3; 0%N; pick 0 3] =
    thrice ([$"one"; $"three"; $"two"; $"one"], None) /\
  taken Cyclical (Var [((Lit $"one" None), 1%Qc); ((Lit $"two" None), 1%Qc); ((Lit $"three" None), 1%Qc)] 1 1 $"," None) 5 [] =
    thrice ([$"one"; $"two"; $"three"; $"one"; $"two"], None) /\
  taken Combinatorial (Var [((Lit $"one" None), 1%Qc); ((Lit $"two" None), 1%Qc); ((Lit $"three" None), 1%Qc)] 1 1 $"," None) 5 [] =
    thrice ([$"one"; $"two"; $"three"], None).
Proof. run_both. Qed.

(** tests/samplers/test_common.py:143 *)
Example test_variant_with_literal :
  taken Random (Seq [(Var [((Lit $"one" None), 1%Qc); ((Lit $"two" None), 1%Qc); ((Lit $"three" None), 1%Qc)] 1 1 $"," None); (Lit $" circles" None)] [] None) 4 [0%N; pick 2 3; 0%N; pick 2 3; 0%N; pick 0 3; 0%N; pick 1 3] =
    thrice ([$"three circles"; $"three circles"; $"one circles"; $"two circles"], None) /\
  taken Cyclical (Seq [(Var [((Lit $"one" None), 1%Qc); ((Lit $"two" None), 1%Qc); ((Lit $"three" None), 1%Qc)] 1 1 $"," None); (Lit $" circles" None)] [] None) 5 [] =
    thrice ([$"one circles"; $"two circles"; $"three circles"; $"one circles"; $"two circles"], None) /\
  taken Combinatorial (Seq [(Var [((Lit $"one" None), 1%Qc); ((Lit $"two" None), 1%Qc); ((Lit $"three" None), 1%Qc)] 1 1 $"," None); (Lit $" circles" None)] [] None) 5 [] =
    thrice ([$"one circles"; $"two circles"; $"three circles"], None).
Proof. run_both. Qed.

(** tests/samplers/test_common.py:168 *)
Example test_variant_with_zero_bound :
  taken Random (Var [((Lit $"one" None), 1%Qc); ((Lit $"two" None), 1%Qc); ((Lit $"three" None), 1%Qc)] 0 0 $"," None) 1 [] =
    thrice ([[]], None) /\
  taken Cyclical (Var [((Lit $"one" None), 1%Qc); ((Lit $"two" None), 1%Qc); ((Lit $"three" None), 1%Qc)] 0 0 $"," None) 1 [] =
    thrice ([[]], None) /\
  taken Combinatorial (Var [((Lit $"one" None), 1%Qc); ((Lit $"two" None), 1%Qc); ((Lit $"three" None), 1%Qc)] 0 0 $"," None) 1 [] =
    thrice ([[]], None).
Proof. run_both. Qed.

(** tests/samplers/test_common.py:198 *)
Example test_variant_with_bound :
  taken Cyclical (Var [((Lit $"one" None), 1%Qc); ((Lit $"two" None), 1%Qc); ((Lit $"three" None), 1%Qc)] 1 2 $"," None) 12 [] =
    thrice ([$"one"; $"two"; $"three"; $"one,two"; $"one,three"; $"two,one"; $"two,three"; $"three,one"; $"three,two"; $"one"; $"two"; $"three"], None) /\
  taken Combinatorial (Var [((Lit $"one" None), 1%Qc); ((Lit $"two" None), 1%Qc); ((Lit $"three" None), 1%Qc)] 1 2 $"," None) 12 [] =
    thrice ([$"one"; $"two"; $"three"; $"one,two"; $"one,three"; $"two,one"; $"two,three"; $"three,one"; $"three,two"], None).
Proof. run_both. Qed.

(** tests/samplers/test_common.py:242 *)
Example test_variant_with_bound_and_sep :
  taken Cyclical (Var [((Lit $"one" None), 1%Qc); ((Lit $"two" None), 1%Qc); ((Lit $"three" None), 1%Qc)] 1 2 $" and " None) 12 [] =
    thrice ([$"one"; $"two"; $"three"; $"one and two"; $"one and three"; $"two and one"; $"two and three"; $"three and one"; $"three and two"; $"one"; $"two"; $"three"], None) /\
  taken Combinatorial (Var [((Lit $"one" None), 1%Qc); ((Lit $"two" None), 1%Qc); ((Lit $"three" None), 1%Qc)] 1 2 $" and " None) 12 [] =
    thrice ([$"one"; $"two"; $"three"; $"one and two"; $"one and three"; $"two and one"; $"two and three"; $"three and one"; $"three and two"], None).
Proof. run_both. Qed.

(** tests/samplers/test_common.py:279 *)
Example test_variant_with_wildcard :
  taken Combinatorial (Var [((Wild (WStr $"colors*") None []), 1%Qc)] 2 2 $"," None) 13 [] =
    thrice ([$"blue,green"; $"blue,red"; $"blue,yellow"; $"green,blue"; $"green,red"; $"green,yellow"; $"red,blue"; $"red,green"; $"red,yellow"; $"yellow,blue"; $"yellow,green"; $"yellow,red"], None) /\
  taken Cyclical (Var [((Wild (WStr $"colors*") None []), 1%Qc)] 2 2 $"," None) 24 [] =
    thrice ([$"blue,green"; $"blue,red"; $"blue,yellow"; $"green,blue"; $"green,red"; $"green,yellow"; $"red,blue"; $"red,green"; $"red,yellow"; $"yellow,blue"; $"yellow,green"; $"yellow,red"; $"blue,green"; $"blue,red"; $"blue,yellow"; $"green,blue"; $"green,red"; $"green,yellow"; $"red,blue"; $"red,green"; $"red,yellow"; $"yellow,blue"; $"yellow,green"; $"yellow,red"], None) /\
  taken Combinatorial (Var [((Wild (WStr $"colors*") None []), 1%Qc)] 2 2 $" and " None) 13 [] =
    thrice ([$"blue and green"; $"blue and red"; $"blue and yellow"; $"green and blue"; $"green and red"; $"green and yellow"; $"red and blue"; $"red and green"; $"red and yellow"; $"yellow and blue"; $"yellow and green"; $"yellow and red"], None) /\
  taken Cyclical (Var [((Wild (WStr $"colors*") None []), 1%Qc)] 2 2 $" and " None) 24 [] =
    thrice ([$"blue and green"; $"blue and red"; $"blue and yellow"; $"green and blue"; $"green and red"; $"green and yellow"; $"red and blue"; $"red and green"; $"red and yellow"; $"yellow and blue"; $"yellow and green"; $"yellow and red"; $"blue and green"; $"blue and red"; $"blue and yellow"; $"green and blue"; $"green and red"; $"green and yellow"; $"red and blue"; $"red and green"; $"red and yellow"; $"yellow and blue"; $"yellow and green"; $"yellow and red"], None).
Proof. run_both. Qed.

(** tests/samplers/test_common.py:325 *)
Example test_variant_with_wildcard_and_high_bounds :
  taken Combinatorial (Var [((Wild (WStr $"colors-cold") None []), 1%Qc)] 3 3 $"," None) 2 [] =
    thrice ([$"blue,green"; $"green,blue"], None) /\
  taken Cyclical (Var [((Wild (WStr $"colors-cold") None []), 1%Qc)] 3 3 $"," None) 4 [] =
    thrice ([$"blue,green"; $"green,blue"; $"blue,green"; $"green,blue"], None).
Proof. run_both. Qed.

(** tests/samplers/test_common.py:373 *)
Example test_two_variants_2 :
  taken Cyclical (Seq [(Var [((Lit $"red" None), 1%Qc); ((Lit $"green" None), 1%Qc); ((Lit $"blue" None), 1%Qc)] 1 1 $"," None); (Lit $" " None); (Var [((Lit $"circles" None), 1%Qc); ((Lit $"squares" None), 1%Qc); ((Lit $"triangles" None), 1%Qc)] 1 1 $"," None)] [] None) 3 [] =
    thrice ([$"red circles"; $"green squares"; $"blue triangles"], None) /\
  taken Combinatorial (Seq [(Var [((Lit $"red" None), 1%Qc); ((Lit $"green" None), 1%Qc); ((Lit $"blue" None), 1%Qc)] 1 1 $"," None); (Lit $" " None); (Var [((Lit $"circles" None), 1%Qc); ((Lit $"squares" None), 1%Qc); ((Lit $"triangles" None), 1%Qc)] 1 1 $"," None)] [] None) 9 [] =
    thrice ([$"red circles"; $"red squares"; $"red triangles"; $"green circles"; $"green squares"; $"green triangles"; $"blue circles"; $"blue squares"; $"blue triangles"], None).
Proof. run_both. Qed.

(** tests/samplers/test_common.py:416 *)
Example test_varied_prompt :
  taken Cyclical (Seq [(Var [((Lit $"red" None), 1%Qc); ((Lit $"green" None), 1%Qc)] 1 1 $"," None); (Lit $" " None); (Var [((Lit $"circles" None), 1%Qc); ((Lit $"squares" None), 1%Qc); ((Lit $"triangles" None), 1%Qc)] 1 1 $"," None); (Lit $" " None); (Lit $"are" None); (Lit $" " None); (Lit $"cool" None)] [] None) 2 [] =
    thrice ([$"red circles are cool"; $"green squares are cool"], None) /\
  taken Combinatorial (Seq [(Var [((Lit $"red" None), 1%Qc); ((Lit $"green" None), 1%Qc)] 1 1 $"," None); (Lit $" " None); (Var [((Lit $"circles" None), 1%Qc); ((Lit $"squares" None), 1%Qc); ((Lit $"triangles" None), 1%Qc)] 1 1 $"," None); (Lit $" " None); (Lit $"are" None); (Lit $" " None); (Lit $"cool" None)] [] None) 9 [] =
    thrice ([$"red circles are cool"; $"red squares are cool"; $"red triangles are cool"; $"green circles are cool"; $"green squares are cool"; $"green triangles are cool"], None).
Proof. run_both. Qed.

(** tests/samplers/test_common.py:464 *)
Example test_basic_wildcard :
  taken Cyclical (Wild (WStr $"colors*") None []) 8 [] =
    thrice ([$"blue"; $"green"; $"red"; $"yellow"; $"blue"; $"green"; $"red"; $"yellow"], None) /\
  taken Combinatorial (Wild (WStr $"colors*") None []) 8 [] =
    thrice ([$"blue"; $"green"; $"red"; $"yellow"], None) /\
  taken Random (Wild (WStr $"colors*") None []) 4 [2%N; 0%N; 3%N; 1%N] =
    thrice ([$"red"; $"blue"; $"yellow"; $"green"], None).
Proof. run_both. Qed.

(** tests/samplers/test_common.py:489 *)
Example test_wildcard_with_literal :
  taken Cyclical (Seq [(Wild (WStr $"colors*") None []); (Lit $" " None); (Lit $"are" None); (Lit $" " None); (Lit $"cool" None)] [] None) 8 [] =
    thrice ([$"blue are cool"; $"green are cool"; $"red are cool"; $"yellow are cool"; $"blue are cool"; $"green are cool"; $"red are cool"; $"yellow are cool"], None) /\
  taken Combinatorial (Seq [(Wild (WStr $"colors*") None []); (Lit $" " None); (Lit $"are" None); (Lit $" " None); (Lit $"cool" None)] [] None) 8 [] =
    thrice ([$"blue are cool"; $"green are cool"; $"red are cool"; $"yellow are cool"], None).
Proof. run_both. Qed.

(** tests/samplers/test_common.py:517 *)
Example test_wildcard_with_variant :
  taken Cyclical (Seq [(Wild (WStr $"colors*") None []); (Lit $" " None); (Var [((Lit $"circles" None), 1%Qc); ((Lit $"squares" None), 1%Qc); ((Lit $"triangles" None), 1%Qc)] 1 1 $"," None)] [] None) 10 [] =
    thrice ([$"blue circles"; $"green squares"; $"red triangles"; $"yellow circles"; $"blue squares"; $"green triangles"; $"red circles"; $"yellow squares"; $"blue triangles"; $"green circles"], None) /\
  taken Combinatorial (Seq [(Wild (WStr $"colors*") None []); (Lit $" " None); (Var [((Lit $"circles" None), 1%Qc); ((Lit $"squares" None), 1%Qc); ((Lit $"triangles" None), 1%Qc)] 1 1 $"," None)] [] None) 13 [] =
    thrice ([$"blue circles"; $"blue squares"; $"blue triangles"; $"green circles"; $"green squares"; $"green triangles"; $"red circles"; $"red squares"; $"red triangles"; $"yellow circles"; $"yellow squares"; $"yellow triangles"], None).
Proof. run_both. Qed.

(** tests/samplers/test_common.py:575 *)
Example test_variant_nested_in_wildcard :
  prompts_in (listed [$"{red|pink}"; $"green"; $"blue"]) (context Cyclical) (WCmd (Seq [(Wild (WStr $"colours") None [])] [] None)) 6 [] =
    ([$"red"; $"green"; $"blue"; $"pink"; $"green"; $"blue"], None) /\
  prompts_in (listed [$"{red|pink}"; $"green"; $"blue"]) (context Combinatorial) (WCmd (Seq [(Wild (WStr $"colours") None [])] [] None)) 6 [] =
    ([$"red"; $"pink"; $"green"; $"blue"], None).
Proof. run_both. Qed.

(** tests/samplers/test_common.py:618 *)
Example test_wildcard_nested_in_wildcard :
  taken Cyclical (Seq [(Wild (WStr $"referencing-colors") None [])] [] None) 9 [] =
    thrice ([$"blue"; $"red"; $"green"; $"yellow"; $"blue"; $"red"; $"green"; $"yellow"; $"blue"], None) /\
  taken Combinatorial (Seq [(Wild (WStr $"referencing-colors") None [])] [] None) 9 [] =
    thrice ([$"blue"; $"green"; $"red"; $"yellow"], None).
Proof. run_both. Qed.

(** tests/samplers/test_common.py:630 *)
Example test_wildcard_with_nested_variable :
  sampled Cyclical $"${temp=cold}wearing __colors-${temp}__ suede shoes" 1 [] =
    thrice ([$"wearing blue suede shoes"], None) /\
  sampled Combinatorial $"${temp=cold}wearing __colors-${temp}__ suede shoes" 1 [] =
    thrice ([$"wearing blue suede shoes"], None) /\
  sampled Random $"${temp=cold}wearing __colors-${temp}__ suede shoes" 1 [0%N] =
    thrice ([$"wearing blue suede shoes"], None) /\
  sampled Random $"${temp=cold}wearing __colors-${temp}__ suede shoes" 1 [1%N] =
    thrice ([$"wearing green suede shoes"], None).
Proof. run_both. Qed.

(** tests/samplers/test_common.py:642 *)
Example test_wildcard_with_default_variable :
  sampled Cyclical $"wearing __colors-${temp:cold}__ suede shoes" 1 [] =
    thrice ([$"wearing blue suede shoes"], None) /\
  sampled Combinatorial $"wearing __colors-${temp:cold}__ suede shoes" 1 [] =
    thrice ([$"wearing blue suede shoes"], None) /\
  sampled Random $"wearing __colors-${temp:cold}__ suede shoes" 1 [0%N] =
    thrice ([$"wearing blue suede shoes"], None) /\
  sampled Random $"wearing __colors-${temp:cold}__ suede shoes" 1 [1%N] =
    thrice ([$"wearing green suede shoes"], None).
Proof. run_both. Qed.

(** tests/samplers/test_common.py:654 *)
Example test_wildcard_with_undefined_variable :
  map (fun ww => prompts_in (files ww) (context Random) (WStr $"wearing __colors-${temp}__ suede shoes") 1 []) wraps =
    map (fun ww => ([$"wearing " ++ ww ++ $"colors-temp" ++ ww ++ $" suede shoes"], None)) wraps /\
  map (fun ww => prompts_in (files ww) (context Cyclical) (WStr $"wearing __colors-${temp}__ suede shoes") 1 []) wraps =
    map (fun ww => ([$"wearing " ++ ww ++ $"colors-temp" ++ ww ++ $" suede shoes"], None)) wraps /\
  map (fun ww => prompts_in (files ww) (context Combinatorial) (WStr $"wearing __colors-${temp}__ suede shoes") 1 []) wraps =
    map (fun ww => ([$"wearing " ++ ww ++ $"colors-temp" ++ ww ++ $" suede shoes"], None)) wraps.
Proof. run_both. Qed.

(** tests/samplers/test_common.py:663 *)
Example test_wildcard_with_multiple_variables :
  sampled Cyclical $"${genus=mammals}${species=feline}__animals/${genus:reptiles}/${species:snakes}__" 1 [] =
    thrice ([$"cat"], None) /\
  sampled Combinatorial $"${genus=mammals}${species=feline}__animals/${genus:reptiles}/${species:snakes}__" 1 [] =
    thrice ([$"cat"], None) /\
  sampled Random $"${genus=mammals}${species=feline}__animals/${genus:reptiles}/${species:snakes}__" 1 [0%N] =
    thrice ([$"cat"], None) /\
  sampled Random $"${genus=mammals}${species=feline}__animals/${genus:reptiles}/${species:snakes}__" 1 [1%N] =
    thrice ([$"tiger"], None).
Proof. run_both. Qed.

(** tests/samplers/test_common.py:674 *)
Example test_wildcard_with_variable_and_glob :
  sampled Cyclical $"${genus=reptiles}__animals/${genus}/*__" 1 [] =
    thrice ([$"cobra"], None) /\
  sampled Combinatorial $"${genus=reptiles}__animals/${genus}/*__" 1 [] =
    thrice ([$"cobra"], None) /\
  sampled Random $"${genus=reptiles}__animals/${genus}/*__" 1 [0%N] =
    thrice ([$"cobra"], None) /\
  sampled Random $"${genus=reptiles}__animals/${genus}/*__" 1 [1%N] =
    thrice ([$"gecko"], None) /\
  sampled Random $"${genus=reptiles}__animals/${genus}/*__" 1 [2%N] =
    thrice ([$"iguana"], None) /\
  sampled Random $"${genus=reptiles}__animals/${genus}/*__" 1 [3%N] =
    thrice ([$"python"], None).
Proof. run_both. Qed.

(** tests/samplers/test_common.py:683 *)
Example test_wildcard_with_variable_in_nested_wildcard :
  sampled Cyclical $"${genus=mammals}__animal__" 1 [] =
    thrice ([$"cat"], None) /\
  sampled Combinatorial $"${genus=mammals}__animal__" 1 [] =
    thrice ([$"cat"], None) /\
  sampled Random $"${genus=mammals}__animal__" 1 [0%N; 0%N] =
    thrice ([$"cat"], None) /\
  sampled Random $"${genus=mammals}__animal__" 1 [0%N; 1%N] =
    thrice ([$"dog"], None) /\
  sampled Random $"${genus=mammals}__animal__" 1 [0%N; 2%N] =
    thrice ([$"tiger"], None) /\
  sampled Random $"${genus=mammals}__animal__" 1 [0%N; 3%N] =
    thrice ([$"wolf"], None).
Proof. run_both. Qed.

(** tests/samplers/test_common.py:695 *)
Example test_nested_wildcard_with_parameterized_variable :
  sampled Cyclical $"__animal(genus=mammals)__" 1 [] =
    thrice ([$"cat"], None) /\
  sampled Combinatorial $"__animal(genus=mammals)__" 1 [] =
    thrice ([$"cat"], None) /\
  sampled Random $"__animal(genus=mammals)__" 1 [0%N; 0%N] =
    thrice ([$"cat"], None) /\
  sampled Random $"__animal(genus=mammals)__" 1 [0%N; 1%N] =
    thrice ([$"dog"], None) /\
  sampled Random $"__animal(genus=mammals)__" 1 [0%N; 2%N] =
    thrice ([$"tiger"], None) /\
  sampled Random $"__animal(genus=mammals)__" 1 [0%N; 3%N] =
    thrice ([$"wolf"], None).
Proof. run_both. Qed.

(** tests/samplers/test_common.py:707 *)
Example test_nested_wildcards_in_single_file :
  sampled Cyclical $"${car=!{porsche|john_deere}}a __cars/${car}/types__ made by __cars/${car}/name__" 1 [] =
    thrice ([$"a sports car made by Porsche"], None) /\
  sampled Combinatorial $"${car=!{porsche|john_deere}}a __cars/${car}/types__ made by __cars/${car}/name__" 1 [] =
    thrice ([$"a sports car made by Porsche"], None) /\
  sampled Random $"${car=!{porsche|john_deere}}a __cars/${car}/types__ made by __cars/${car}/name__" 1 [0%N; pick 0 2] =
    thrice ([$"a sports car made by Porsche"], None) /\
  sampled Random $"${car=!{porsche|john_deere}}a __cars/${car}/types__ made by __cars/${car}/name__" 1 [0%N; pick 1 2] =
    thrice ([$"a tractor made by John Deere"], None).
Proof. run_both. Qed.

(** tests/samplers/test_common.py:720 *)
Example test_variable_commands :
  sampled Random $"${animal=cat}the animal is ${animal:dog}" 1 [] =
    thrice ([$"the animal is cat"], None) /\
  sampled Cyclical $"${animal=cat}the animal is ${animal:dog}" 1 [] =
    thrice ([$"the animal is cat"], None) /\
  sampled Combinatorial $"${animal=cat}the animal is ${animal:dog}" 1 [] =
    thrice ([$"the animal is cat"], None).
Proof. run_both. Qed.

(** tests/samplers/test_common.py:728 *)
Example test_variable_commands_default :
  sampled Random $"the animal is ${animal:dog}" 1 [] =
    thrice ([$"the animal is dog"], None) /\
  sampled Cyclical $"the animal is ${animal:dog}" 1 [] =
    thrice ([$"the animal is dog"], None) /\
  sampled Combinatorial $"the animal is ${animal:dog}" 1 [] =
    thrice ([$"the animal is dog"], None).
Proof. run_both. Qed.

(** tests/samplers/test_common.py:736 *)
Example test_immediate_variable_commands :
  sampled Random $"${number={1|2|3|4|5}}the number is ${number}" 4 [0%N; pick 3 5; 0%N; pick 1 5; 0%N; pick 4 5; 0%N; pick 0 5] =
    thrice ([$"the number is 4"; $"the number is 2"; $"the number is 5"; $"the number is 1"], None) /\
  sampled Random $"${number=!{1|2|3|4|5}}the number is ${number}" 4 [0%N; pick 3 5; 0%N; pick 1 5; 0%N; pick 4 5; 0%N; pick 0 5] =
    thrice ([$"the number is 4"; $"the number is 4"; $"the number is 4"; $"the number is 4"], None).
Proof. run_both. Qed.

(** tests/samplers/test_common.py:756 *)
Example test_immediate_literal_variable :
  sampled Random $"${a =! foo}${a}" 1 [] =
    thrice ([$"foo"], None).
Proof. run_both. Qed.

(** tests/samplers/test_common.py:786 *)
Example test_preserve_variable :
  map (fun x => map strip (fst x)) (sampled Random $"${season=summer} ${temp=cold} ${location=north}__drink/beverage__" 1 [0%N; 0%N; 0%N; 0%N; pick 1 2]) =
    thrice [$"a glass of iced pop"] /\
  map (fun x => map strip (fst x)) (sampled Random $"${season=summer} ${temp=cold} ${location=south}__drink/winter/beverage__" 1 []) =
    thrice [$"a mug of hot coffee"] /\
  map (fun x => map strip (fst x)) (sampled Random $"${season=summer} ${temp=cold}__drink/winter/beverage__" 1 []) =
    thrice [$"a mug of hot tea"] /\
  map (fun x => map strip (fst x)) (sampled Random $"__drink/summer/beverage__" 1 []) =
    thrice [$"a glass of iced soda"] /\
  map (fun x => map strip (fst x)) (sampled Random $"${location=north}__drink/summer/beverage__" 1 []) =
    thrice [$"a glass of iced pop"].
Proof. run_both. Qed.

(** tests/samplers/test_common.py:798 *)
Example test_unknown_variable :
  map (fun ww => prompts_in (files ww) {| c_method := Random; c_ignws := false; c_vars := []; c_unknown := None; c_busy := [] |} (WStr $"${a}") 1 []) wraps =
    thrice ([], Some EKey) /\
  map (fun ww => prompts_in (files ww) {| c_method := Random; c_ignws := false; c_vars := []; c_unknown := Some (Lit $"oop!" None); c_busy := [] |} (WStr $"${a}") 1 []) wraps =
    thrice ([$"oop!"], None) /\
  map (fun ww => prompts_in (files ww) {| c_method := Random; c_ignws := false; c_vars := []; c_unknown := Some (Var [((Lit $"bloop!" None), 1%Qc)] 1 1 $"," None); c_busy := [] |} (WStr $"${a}") 1 []) wraps =
    thrice ([$"bloop!"], None).
Proof. run_both. Qed.

(** * tests/samplers/test_mixed_methods.py *)

(** tests/samplers/test_mixed_methods.py:29 *)
Example test_non_finite_variants :
  sampled Combinatorial $"A {@red|green} ball" 3 [] =
    thrice ([$"A red ball"], None) /\
  sampled Combinatorial $"A {~red|green} ball" 3 [0%N; pick 1 2] =
    thrice ([$"A green ball"], None).
Proof. run_both. Qed.

(** tests/samplers/test_mixed_methods.py:55 *)
Example test_mixed_non_finite_variants_last_position :
  sampled Combinatorial $"A {red|green} {@ball|car}" 3 [] =
    thrice ([$"A red ball"; $"A green car"], None) /\
  sampled Combinatorial $"A {red|green} {~ball|car}" 3 [0%N; pick 1 2; 0%N; pick 1 2; 0%N; pick 1 2] =
    thrice ([$"A red car"; $"A green car"], None).
Proof. run_both. Qed.

(** tests/samplers/test_mixed_methods.py:81 *)
Example test_mixed_non_finite_variants_first_position :
  sampled Combinatorial $"A {@red|green} {ball|car}" 3 [] =
    thrice ([$"A red ball"; $"A green car"], None) /\
  sampled Combinatorial $"A {~red|green} {ball|car}" 3 [0%N; pick 1 2; 0%N; pick 1 2; 0%N; pick 1 2] =
    thrice ([$"A green ball"; $"A green car"], None).
Proof. run_both. Qed.

(** tests/samplers/test_mixed_methods.py:115 *)
Example test_mixed_non_finite_variants_multiple_variants :
  sampled Combinatorial $"A {@red|green} {ball|car} {at night|in the morning}" 3 [] =
    thrice ([$"A red ball at night"; $"A green ball in the morning"; $"A red car at night"], None) /\
  sampled Combinatorial $"A {~red|green} {ball|car} {at night|in the morning}" 3 [0%N; pick 1 2; 0%N; pick 1 2; 0%N; pick 1 2; 0%N; pick 1 2] =
    thrice ([$"A green ball at night"; $"A green ball in the morning"; $"A green car at night"], None).
Proof. run_both. Qed.

(** tests/samplers/test_mixed_methods.py:141 *)
Example test_nested_cyclical_variants :
  sampled Combinatorial $"A {red|{@green|blue}} {@ball|car}" 10 [] =
    thrice ([$"A red ball"; $"A green car"], None) /\
  sampled Combinatorial $"A {red|{~green|blue}} {~ball|car}" 10 [0%N; pick 0 2; 0%N; pick 1 2; 0%N; pick 1 2; 0%N; pick 0 2] =
    thrice ([$"A red ball"; $"A blue car"], None).
Proof. run_both. Qed.

(** tests/samplers/test_mixed_methods.py:183 *)
Example test_combinatorial_nested_in_non_finite :
  sampled Combinatorial $"A {red|blue|green|yellow|purple|black|white} {@ball|{!car|bike}}" 8 [] =
    thrice ([$"A red ball"; $"A blue car"; $"A green ball"; $"A yellow bike"; $"A purple ball"; $"A black car"; $"A white ball"], None) /\
  sampled Combinatorial $"A {red|blue|green|yellow|purple|black|white} {~ball|{!car|bike}}" 8 [0%N; pick 0 2; 0%N; pick 1 2; 0%N; pick 0 2; 0%N; pick 0 2; 0%N; pick 1 2; 0%N; pick 1 2; 0%N; pick 0 2; 0%N; pick 1 2; 0%N; pick 0 2; 0%N; pick 0 2; 0%N; pick 0 2] =
    thrice ([$"A red ball"; $"A blue car"; $"A green ball"; $"A yellow bike"; $"A purple ball"; $"A black car"; $"A white ball"], None).
Proof. run_both. Qed.

(** tests/samplers/test_mixed_methods.py:221 *)
Example test_non_finite_wildcards :
  sampled Combinatorial $"test __@colors-cold__" 3 [] =
    thrice ([$"test blue"], None) /\
  sampled Combinatorial $"test __~colors-cold__" 3 [1%N] =
    thrice ([$"test green"], None).
Proof. run_both. Qed.

(** tests/samplers/test_mixed_methods.py:250 *)
Example test_mixed_non_finite_wildcards_last_position :
  sampled Combinatorial $"{test1|test2} __@colors-cold__" 3 [] =
    thrice ([$"test1 blue"; $"test2 green"], None) /\
  sampled Combinatorial $"{test1|test2} __~colors-cold__" 3 [1%N; 1%N; 1%N; 1%N; 1%N; 1%N] =
    thrice ([$"test1 green"; $"test2 green"], None).
Proof. run_both. Qed.

(** tests/samplers/test_mixed_methods.py:278 *)
Example test_variants_2 :
  sampled Random $"A {@red|green} ball" 3 [] =
    thrice ([$"A red ball"; $"A green ball"; $"A red ball"], None) /\
  sampled Random $"A {!red|green} ball" 3 [0%N; pick 0 2; 0%N; pick 1 2; 0%N; pick 0 2] =
    thrice ([$"A red ball"; $"A green ball"; $"A red ball"], None).
Proof. run_both. Qed.

(** tests/samplers/test_mixed_methods.py:302 *)
Example test_variants_3 :
  sampled Cyclical $"A {!red|green} ball" 3 [] =
    thrice ([$"A red ball"; $"A green ball"; $"A red ball"], None) /\
  sampled Cyclical $"A {~red|green} ball" 3 [0%N; pick 0 2; 0%N; pick 1 2; 0%N; pick 0 2] =
    thrice ([$"A red ball"; $"A green ball"; $"A red ball"], None).
Proof. run_both. Qed.

(** * tests/test_variable_features.py *)

(** tests/test_variable_features.py:9 *)
Example test_discussion_61 :
  sampled Random $"${animal={fox|manatee}} __publicprompts/plush-toy__" 2 [0%N; 0%N; pick 0 2; 0%N; 0%N; pick 1 2] =
    thrice ([$" Cute kawaii Squishy fox plush toy, realistic texture, visible stitch line, soft smooth lighting, vibrant studio lighting, modular constructivism, physically based rendering, square image"; $" Cute kawaii Squishy manatee plush toy, realistic texture, visible stitch line, soft smooth lighting, vibrant studio lighting, modular constructivism, physically based rendering, square image"], None).
Proof. run_both. Qed.

(** tests/test_variable_features.py:34 *)
Example test_discussion_61_shorthand :
  sampled Random $"__publicprompts/plush-toy(animal=fox)__" 1 [] =
    thrice ([$"Cute kawaii Squishy fox plush toy, realistic texture, visible stitch line, soft smooth lighting, vibrant studio lighting, modular constructivism, physically based rendering, square image"], None).
Proof. run_both. Qed.

(** * tests/test_wrapping.py *)

(** tests/test_wrapping.py:24 *)
Example test_wrap_with_wildcard :
  sampled Combinatorial $"%{__wrappers__$${fox|cow}}" 5 [] =
    thrice ([$"Art Deco, fox, sleek, geometric forms, art deco style"; $"Art Deco, cow, sleek, geometric forms, art deco style"; $"Pop Art, fox, vivid colors, flat color, 2D, strong lines, Pop Art"; $"Pop Art, cow, vivid colors, flat color, 2D, strong lines, Pop Art"], None).
Proof. run_both. Qed.

(** tests/test_wrapping.py:35 *)
Example test_wrap_with_literal :
  sampled Combinatorial ($"%{happy " ++ [8230%N] ++ $" on a meadow$${fox|cow}}") 3 [] =
    thrice ([$"happy fox on a meadow"; $"happy cow on a meadow"], None) /\
  sampled Random ($"%{happy " ++ [8230%N] ++ $" on a meadow$${fox|cow}}") 2 [0%N; pick 1 2; 0%N; pick 0 2] =
    thrice ([$"happy cow on a meadow"; $"happy fox on a meadow"], None) /\
  sampled Combinatorial ($"%{happy " ++ [6145%N] ++ $" on a meadow$${fox|cow}}") 3 [] =
    thrice ([$"happy fox on a meadow"; $"happy cow on a meadow"], None) /\
  sampled Random ($"%{happy " ++ [6145%N] ++ $" on a meadow$${fox|cow}}") 2 [0%N; pick 1 2; 0%N; pick 0 2] =
    thrice ([$"happy cow on a meadow"; $"happy fox on a meadow"], None) /\
  sampled Combinatorial $"%{happy ......... on a meadow$${fox|cow}}" 3 [] =
    thrice ([$"happy fox on a meadow"; $"happy cow on a meadow"], None) /\
  sampled Random $"%{happy ......... on a meadow$${fox|cow}}" 2 [0%N; pick 1 2; 0%N; pick 0 2] =
    thrice ([$"happy cow on a meadow"; $"happy fox on a meadow"], None) /\
  sampled Combinatorial $"%{happy ... on a meadow$${fox|cow}}" 3 [] =
    thrice ([$"happy fox on a meadow"; $"happy cow on a meadow"], None) /\
  sampled Random $"%{happy ... on a meadow$${fox|cow}}" 2 [0%N; pick 1 2; 0%N; pick 0 2] =
    thrice ([$"happy cow on a meadow"; $"happy fox on a meadow"], None).
Proof. run_both. Qed.

(** tests/test_wrapping.py:43 *)
Example test_bad_wrap_is_prefix :
  sampled Combinatorial $"%{happy $${fox|cow}}" 3 [] =
    thrice ([$"happy fox"; $"happy cow"], None).
Proof. run_both. Qed.

(** tests/test_wrapping.py:51 *)
Example test_wrap_suffix :
  sampled Combinatorial $"%{... in jail$${fox|cow}}" 3 [] =
    thrice ([$"fox in jail"; $"cow in jail"], None).
Proof. run_both. Qed.

(** tests/test_wrapping.py:59 *)
Example test_wrap_with_variant :
  sampled Combinatorial $"%{ {cool|hot} ...$${fox|cow}}" 5 [] =
    thrice ([$"cool fox"; $"cool cow"; $"hot fox"; $"hot cow"], None).
Proof. run_both. Qed.

(** * tests/test_sd_issues.py *)

(** tests/test_sd_issues.py:16 *)
Example test_sd_223 :
  parse letters default_parser_config ($"prefix," ++ [10%N] ++ $"({0$$a|b} {1$$c|d|e})," ++ [10%N] ++ $"suffix") = Ok (Seq [(Lit ($"prefix," ++ [10%N] ++ $"(") None); (Var [((Lit $"a" None), 1%Qc); ((Lit $"b" None), 1%Qc)] 0 0 $"," None); (Lit $" " None); (Var [((Lit $"c" None), 1%Qc); ((Lit $"d" None), 1%Qc); ((Lit $"e" None), 1%Qc)] 1 1 $"," None); (Lit ($")," ++ [10%N] ++ $"suffix") None)] [] None).
Proof. run_both. Qed.

(** tests/test_sd_issues.py:35 *)
Example test_sd_237 :
  parse letters default_parser_config $"{2$$ 1| 2| 3} {2$$ 1| 2| 3}" = Ok (Seq [(Var [((Lit $"1" None), 1%Qc); ((Lit $"2" None), 1%Qc); ((Lit $"3" None), 1%Qc)] 2 2 $"," None); (Lit $" " None); (Var [((Lit $"1" None), 1%Qc); ((Lit $"2" None), 1%Qc); ((Lit $"3" None), 1%Qc)] 2 2 $"," None)] [] None).
Proof. run_both. Qed.

(** tests/test_sd_issues.py:54 *)
Example test_sd_212 :
  parse letters default_parser_config $"prompt with closing bra}ce but {parsed|accepted}" = Ok (Seq [(Lit $"prompt with closing bra}ce but " None); (Var [((Lit $"parsed" None), 1%Qc); ((Lit $"accepted" None), 1%Qc)] 1 1 $"," None)] [] None).
Proof. run_both. Qed.

(** tests/test_sd_issues.py:63 *)
Example test_sd_307 :
  sampled Random $"{2$$__colors-cold__}" 2 [0%N; pick 0 2; 0%N; 0%N; pick 1 2; 0%N] =
    thrice ([$"blue,green"; $"green,blue"], None).
Proof. run_both. Qed.

(** tests/test_sd_issues.py:72 *)
Example test_sd_324 :
  map (fun ww => prompts_in (files ww) {| c_method := Random; c_ignws := true; c_vars := []; c_unknown := None; c_busy := [] |} (WStr ($"{" ++ [10%N] ++ $"        # 60% A" ++ [10%N] ++ $"        0.6::A" ++ [10%N] ++ $"        |" ++ [10%N] ++ $"        # 40% B" ++ [10%N] ++ $"        0.4::B" ++ [10%N] ++ $"        }" ++ [10%N] ++ $"        ")) 2 [0%N; pick 0 2; 0%N; pick 2 3]) wraps =
    thrice ([$"A"; $"B"], None).
Proof. run_both. Qed.

(** tests/test_sd_issues.py:88 *)
Example test_dp_28 :
  sampled Combinatorial $"{1$$A|B|{2$$ and $$X|Y|Z}}" 10 [] =
    thrice ([$"A"; $"B"; $"X and Y"; $"X and Z"; $"Y and X"; $"Y and Z"; $"Z and X"; $"Z and Y"], None).
Proof. run_both. Qed.

(** tests/test_sd_issues.py:107 *)
Example test_sd_358 :
  sampled Combinatorial $"{2$$__referencing-colors__}" 20 [] =
    thrice ([$"blue,red"; $"blue,yellow"; $"green,red"; $"green,yellow"; $"red,blue"; $"red,green"; $"yellow,blue"; $"yellow,green"], None).
Proof. run_both. Qed.

(** tests/test_sd_issues.py:118 *)
Example test_sd_377 :
  prompts_in (files $"__") (context Combinatorial) (WStr $"__animals/all-references__") 10 [] =
    ([$"dog"; $"wolf"; $"cat"; $"tiger"; $"unicorn"], None).
Proof. run_both. Qed.

(** tests/test_sd_issues.py:134 *)
Example test_sd_665 :
  match parse_list readers [JStr $"{3::|looking up view|looking down view|birds-eye view}"] with Ok l => map w_str l | Err _ => [] end = [$"{3::|looking up view|looking down view|birds-eye view}"].
Proof. run_both. Qed.

(** tests/test_sd_issues.py:143 *)
Example test_sd_672 :
  sampled Combinatorial $"{|hot,}{|summer,}{|blue sky,}" 8 [] =
    thrice ([[]; $"blue sky,"; $"summer,"; $"summer,blue sky,"; $"hot,"; $"hot,blue sky,"; $"hot,summer,"; $"hot,summer,blue sky,"], None).
Proof. run_both. Qed.
