(** The project's own parser tests, run on the model: tests/parser/test_parser.py.
    These are tests, not proofs; they check that the model does what the authors
    of the code expect. *)
From Coq Require Import String NArith ZArith QArith Qcanon Bool List.
From Verif.Model Require Import Str Command Rng Context Parser.
From Verif.Tests Require Import T_Data.
Import ListNotations.
Local Open Scope nat_scope.

Definition with_marks (a b w : list N) : parser_config := {|
  variant_start := a; variant_end := b; wildcard_wrap := w;
  variable_start := $"${"; variable_end := $"}"; wrap_start := $"%{"; wrap_end := $"}" |}.
Definition usual : parser_config := with_marks $"{" $"}" $"__".
Definition with_braces (a b : list N) : parser_config := with_marks a b $"__".
Definition with_wrap (w : list N) : parser_config := with_marks $"{" $"}" w.

(** tests/parser/test_parser.py:41 *)
Example test_literal_characters :
  parse letters usual $"hello world" = Ok (Lit $"hello world" None) /\
  parse letters usual $"good-bye world" = Ok (Lit $"good-bye world" None) /\
  parse letters usual $"good_bye world" = Ok (Lit $"good_bye world" None) /\
  parse letters usual $"I, love. punctuation" = Ok (Lit $"I, love. punctuation" None) /\
  parse letters usual ($"Test " ++ [228%N] ++ $"nder" ++ [333%N]) = Ok (Lit ($"Test " ++ [228%N] ++ $"nder" ++ [333%N]) None) /\
  parse letters usual $"Test [low emphasis]" = Ok (Lit $"Test [low emphasis]" None) /\
  parse letters usual $"Test [low emphasis:0.4]" = Ok (Lit $"Test [low emphasis:0.4]" None) /\
  parse letters usual $"Test (high emphasis)" = Ok (Lit $"Test (high emphasis)" None) /\
  parse letters usual $"Test (high emphasis:0.4)" = Ok (Lit $"Test (high emphasis:0.4)" None) /\
  parse letters usual $"Unmatched } bracket" = Ok (Lit $"Unmatched } bracket" None).
Proof. same. Qed.

(** tests/parser/test_parser.py:54 *)
Example test_wildcard :
  parse letters usual $"__colours__" = Ok (Wild (WStr $"colours") None []) /\
  parse letters usual $"__path/to/colours__" = Ok (Wild (WStr $"path/to/colours") None []) /\
  parse letters usual ($"__" ++ [228%N] ++ $"nder__") = Ok (Wild (WStr ([228%N] ++ $"nder")) None []).
Proof. same. Qed.

(** tests/parser/test_parser.py:101 *)
Example test_wildcard_dynamic :
  parse letters usual $"__path/to/${subject}__" = Ok (Wild (WCmd (Seq [(Lit $"path/to/" None); (Access $"subject" (Some (Lit $"subject" None)))] [] None)) None []) /\
  parse letters usual $"__${pallette}_colours__" = Ok (Wild (WCmd (Seq [(Access $"pallette" (Some (Lit $"pallette" None))); (Lit $"_colours" None)] [] None)) None []) /\
  parse letters usual $"__${pallette:warm}_colours__" = Ok (Wild (WCmd (Seq [(Access $"pallette" (Some (Lit $"warm" None))); (Lit $"_colours" None)] [] None)) None []) /\
  parse letters usual $"__locations/${room: dining room }/furniture__" = Ok (Wild (WCmd (Seq [(Lit $"locations/" None); (Access $"room" (Some (Lit $"dining room" None))); (Lit $"/furniture" None)] [] None)) None []) /\
  parse letters usual $"__light/source/{indoor|outdoor}__" = Ok (Wild (WCmd (Seq [(Lit $"light/source/" None); (Var [((Lit $"indoor" None), 1%Qc); ((Lit $"outdoor" None), 1%Qc)] 1 1 $"," None)] [] None)) None []).
Proof. same. Qed.

(** tests/parser/test_parser.py:118 *)
Example test_sampling_method :
  parse letters usual $"__colours__" = Ok (Wild (WStr $"colours") None []) /\
  parse letters usual $"__~path/to/colours__" = Ok (Wild (WStr $"path/to/colours") (Some Random) []) /\
  parse letters usual ($"__!" ++ [228%N] ++ $"nder__") = Ok (Wild (WStr ([228%N] ++ $"nder")) (Some Combinatorial) []) /\
  parse letters usual ($"__@" ++ [228%N] ++ $"nder__") = Ok (Wild (WStr ([228%N] ++ $"nder")) (Some Cyclical) []).
Proof. same. Qed.

(** tests/parser/test_parser.py:129 *)
Example test_two_wildcards_adjacent :
  parse letters usual $"__colours__ __colours__" = Ok (Seq [(Wild (WStr $"colours") None []); (Lit $" " None); (Wild (WStr $"colours") None [])] [] None).
Proof. same. Qed.

(** tests/parser/test_parser.py:133 *)
Example test_wildcard_adjactent_to_literal :
  parse letters usual $",__colours__" = Ok (Seq [(Lit $"," None); (Wild (WStr $"colours") None [])] [] None) /\
  parse letters usual $"__colours__ world" = Ok (Seq [(Wild (WStr $"colours") None []); (Lit $" world" None)] [] None).
Proof. same. Qed.

(** tests/parser/test_parser.py:143 *)
Example test_weight :
  weight $"1" = PFail /\
  weight $"1::" = POk 1%Qc [] /\
  weight $"0.25::" = POk (Q2Qc (1 # 4)) [].
Proof. same. Qed.

(** tests/parser/test_parser.py:151 *)
Example test_basic_variant :
  parse letters usual $"{cat|dog}" = Ok (Var [((Lit $"cat" None), 1%Qc); ((Lit $"dog" None), 1%Qc)] 1 1 $"," None).
Proof. same. Qed.

(** tests/parser/test_parser.py:173 *)
Example test_variant_with_sampling_method :
  parse letters usual $"{red|green|blue}" = Ok (Var [((Lit $"red" None), 1%Qc); ((Lit $"green" None), 1%Qc); ((Lit $"blue" None), 1%Qc)] 1 1 $"," None) /\
  parse letters usual $"{~red|green|blue}" = Ok (Var [((Lit $"red" None), 1%Qc); ((Lit $"green" None), 1%Qc); ((Lit $"blue" None), 1%Qc)] 1 1 $"," (Some Random)) /\
  parse letters usual $"{!red|green|blue}" = Ok (Var [((Lit $"red" None), 1%Qc); ((Lit $"green" None), 1%Qc); ((Lit $"blue" None), 1%Qc)] 1 1 $"," (Some Combinatorial)) /\
  parse letters usual $"{!__test/colours__}" = Ok (Var [((Wild (WStr $"test/colours") None []), 1%Qc)] 1 1 $"," (Some Combinatorial)) /\
  parse letters usual $"{~1-3$$ and $$red|green|blue}" = Ok (Var [((Lit $"red" None), 1%Qc); ((Lit $"green" None), 1%Qc); ((Lit $"blue" None), 1%Qc)] 1 3 $" and " (Some Random)) /\
  parse letters usual $"{~0.2::red|0.4::green|0.6::blue}" = Ok (Var [((Lit $"red" None), (Q2Qc (1 # 5))); ((Lit $"green" None), (Q2Qc (2 # 5))); ((Lit $"blue" None), (Q2Qc (3 # 5)))] 1 1 $"," (Some Random)) /\
  parse letters usual $"{@0.2::red|0.4::green|0.6::blue}" = Ok (Var [((Lit $"red" None), (Q2Qc (1 # 5))); ((Lit $"green" None), (Q2Qc (2 # 5))); ((Lit $"blue" None), (Q2Qc (3 # 5)))] 1 1 $"," (Some Cyclical)).
Proof. same. Qed.

(** tests/parser/test_parser.py:178 *)
Example test_variant_with_different_characters :
  parse letters usual ($"{new york|washing-ton!|" ++ [228%N] ++ $"nder}") = Ok (Var [((Lit $"new york" None), 1%Qc); ((Lit $"washing-ton!" None), 1%Qc); ((Lit ([228%N] ++ $"nder") None), 1%Qc)] 1 1 $"," None).
Proof. same. Qed.

(** tests/parser/test_parser.py:187; a blank option is a sequence without tokens, of length 0 *)
Example test_variant_with_blank :
  parse letters usual $"{|red|blue}" = Ok (Var [((Seq [] [] None), 1%Qc); ((Lit $"red" None), 1%Qc); ((Lit $"blue" None), 1%Qc)] 1 1 $"," None).
Proof. same. Qed.

(** tests/parser/test_parser.py:195 *)
Example test_variant_breaks_without_closing_bracket :
  parse letters usual $"{cat|dog" = Err EParse.
Proof. same. Qed.

(** tests/parser/test_parser.py:199 *)
Example test_variant_with_wildcard :
  parse letters usual $"{__test/colours__|washington}" = Ok (Var [((Wild (WStr $"test/colours") None []), 1%Qc); ((Lit $"washington" None), 1%Qc)] 1 1 $"," None).
Proof. same. Qed.

(** tests/parser/test_parser.py:208 *)
Example test_variant_sequences :
  parse letters usual $"{My favourite colour is __colour__ and not __other_colour__|__colour__ is my favourite colour}" = Ok (Var [((Seq [(Lit $"My favourite colour is " None); (Wild (WStr $"colour") None []); (Lit $" and not " None); (Wild (WStr $"other_colour") None [])] [] None), 1%Qc); ((Seq [(Wild (WStr $"colour") None []); (Lit $" is my favourite colour" None)] [] None), 1%Qc)] 1 1 $"," None).
Proof. same. Qed.

(** tests/parser/test_parser.py:233 *)
Example test_variant_with_nested_variant :
  parse letters usual $"{__test/colours__|{__test/shapes__|washington}}" = Ok (Var [((Wild (WStr $"test/colours") None []), 1%Qc); ((Var [((Wild (WStr $"test/shapes") None []), 1%Qc); ((Lit $"washington" None), 1%Qc)] 1 1 $"," None), 1%Qc)] 1 1 $"," None).
Proof. same. Qed.

(** tests/parser/test_parser.py:256 *)
Example test_variant_with_weights :
  parse letters usual $"{1::cat|2::dog|3::bird} test" = Ok (Seq [(Var [((Lit $"cat" None), 1%Qc); ((Lit $"dog" None), (Q2Qc (2 # 1))); ((Lit $"bird" None), (Q2Qc (3 # 1)))] 1 1 $"," None); (Lit $" test" None)] [] None) /\
  parse letters usual $"{0.2::cat|0.3::dog|0.4::bird} test" = Ok (Seq [(Var [((Lit $"cat" None), (Q2Qc (1 # 5))); ((Lit $"dog" None), (Q2Qc (3 # 10))); ((Lit $"bird" None), (Q2Qc (2 # 5)))] 1 1 $"," None); (Lit $" test" None)] [] None) /\
  parse letters usual $"{1::cat|dog|3::bird} test" = Ok (Seq [(Var [((Lit $"cat" None), 1%Qc); ((Lit $"dog" None), 1%Qc); ((Lit $"bird" None), (Q2Qc (3 # 1)))] 1 1 $"," None); (Lit $" test" None)] [] None).
Proof. same. Qed.

(** tests/parser/test_parser.py:278 *)
Example test_range :
  parse letters usual $"{2$$cat|dog|bird}" = Ok (Var [((Lit $"cat" None), 1%Qc); ((Lit $"dog" None), 1%Qc); ((Lit $"bird" None), 1%Qc)] 2 2 $"," None) /\
  parse letters usual $"{1-2$$cat|dog|bird}" = Ok (Var [((Lit $"cat" None), 1%Qc); ((Lit $"dog" None), 1%Qc); ((Lit $"bird" None), 1%Qc)] 1 2 $"," None) /\
  parse letters usual $"{1-3$$cat|dog|bird}" = Ok (Var [((Lit $"cat" None), 1%Qc); ((Lit $"dog" None), 1%Qc); ((Lit $"bird" None), 1%Qc)] 1 3 $"," None) /\
  parse letters usual $"{-2$$cat|dog|bird}" = Ok (Var [((Lit $"cat" None), 1%Qc); ((Lit $"dog" None), 1%Qc); ((Lit $"bird" None), 1%Qc)] 1 2 $"," None) /\
  parse letters usual $"{0-1$$a|b|c|d}" = Ok (Var [((Lit $"a" None), 1%Qc); ((Lit $"b" None), 1%Qc); ((Lit $"c" None), 1%Qc); ((Lit $"d" None), 1%Qc)] 0 1 $"," None) /\
  parse letters usual $"{!1-2$$cat|dog|bird}" = Ok (Var [((Lit $"cat" None), 1%Qc); ((Lit $"dog" None), 1%Qc); ((Lit $"bird" None), 1%Qc)] 1 2 $"," (Some Combinatorial)) /\
  parse letters usual $"{~1-2$$cat|dog|bird}" = Ok (Var [((Lit $"cat" None), 1%Qc); ((Lit $"dog" None), 1%Qc); ((Lit $"bird" None), 1%Qc)] 1 2 $"," (Some Random)).
Proof. same. Qed.

(** tests/parser/test_parser.py:285 *)
Example test_variant_delimiter :
  parse letters usual $"{2$$ and $$cat|dog|bird}" = Ok (Var [((Lit $"cat" None), 1%Qc); ((Lit $"dog" None), 1%Qc); ((Lit $"bird" None), 1%Qc)] 2 2 $" and " None) /\
  parse letters usual $"I love {2$$|$$green|yellow|blue} roses" = Ok (Seq [(Lit $"I love " None); (Var [((Lit $"green" None), 1%Qc); ((Lit $"yellow" None), 1%Qc); ((Lit $"blue" None), 1%Qc)] 2 2 $"|" None); (Lit $" roses" None)] [] None) /\
  parse letters usual $"{2$$ $ $$cat|dog|bird}" = Err EParse /\
  parse letters usual $"{2$$  $$cat|dog|bird}" = Ok (Var [((Lit $"cat" None), 1%Qc); ((Lit $"dog" None), 1%Qc); ((Lit $"bird" None), 1%Qc)] 2 2 $"  " None).
Proof. same. Qed.

(** tests/parser/test_parser.py:311 *)
Example test_variants_adjacent :
  parse letters usual $"{2$$cat|dog|bird}{3$$red|blue|green}" = Ok (Seq [(Var [((Lit $"cat" None), 1%Qc); ((Lit $"dog" None), 1%Qc); ((Lit $"bird" None), 1%Qc)] 2 2 $"," None); (Var [((Lit $"red" None), 1%Qc); ((Lit $"blue" None), 1%Qc); ((Lit $"green" None), 1%Qc)] 3 3 $"," None)] [] None).
Proof. same. Qed.

(** tests/parser/test_parser.py:328 *)
Example test_comments :
  parse letters usual ([10%N] ++ $"        one" ++ [10%N] ++ $"        two" ++ [10%N] ++ $"        three # comment" ++ [10%N] ++ $"        # A comment" ++ [10%N] ++ $"        {cat|dog|bird} # another comment" ++ [10%N] ++ $"        __wildcard_comment__# another comment" ++ [10%N] ++ $"        five" ++ [10%N] ++ $"        ") = Ok (Seq [(Lit ([10%N] ++ $"        one" ++ [10%N] ++ $"        two" ++ [10%N] ++ $"        three  " ++ [10%N] ++ $"        ") None); (Var [((Lit $"cat" None), 1%Qc); ((Lit $"dog" None), 1%Qc); ((Lit $"bird" None), 1%Qc)] 1 1 $"," None); (Lit ([10%N] ++ $"        ") None); (Wild (WStr $"wildcard_comment") None []); (Lit ([10%N] ++ $"        five" ++ [10%N] ++ $"        ") None)] [] None).
Proof. same. Qed.

(** tests/parser/test_parser.py:361 *)
Example test_a1111_special_syntax_intact :
  parse letters usual $"[cat|dog]" = Ok (Lit $"[cat|dog]" None) /\
  parse letters usual $"[cat:dog:0.25]" = Ok (Lit $"[cat:dog:0.25]" None).
Proof. same. Qed.

(** tests/parser/test_parser.py:373 *)
Example test_deep_propagation :
  parse letters usual $"A literal sentence" = Ok (Lit $"A literal sentence" None) /\
  parse letters usual $"{RED|GREEN|BLUE}" = Ok (Var [((Lit $"RED" None), 1%Qc); ((Lit $"GREEN" None), 1%Qc); ((Lit $"BLUE" None), 1%Qc)] 1 1 $"," None) /\
  parse letters usual $"__wildcard__" = Ok (Wild (WStr $"wildcard") None []) /\
  parse letters usual $"{A|B|C} {D|E|g}" = Ok (Seq [(Var [((Lit $"A" None), 1%Qc); ((Lit $"B" None), 1%Qc); ((Lit $"C" None), 1%Qc)] 1 1 $"," None); (Lit $" " None); (Var [((Lit $"D" None), 1%Qc); ((Lit $"E" None), 1%Qc); ((Lit $"g" None), 1%Qc)] 1 1 $"," None)] [] None).
Proof. same. Qed.

(** tests/parser/test_parser.py:408 *)
Example test_alternative_braces :
  parse letters (with_braces $"<" $">") $"some literal string <A|B|__some/wildcard__>" = Ok (Seq [(Lit $"some literal string " None); (Var [((Lit $"A" None), 1%Qc); ((Lit $"B" None), 1%Qc); ((Wild (WStr $"some/wildcard") None []), 1%Qc)] 1 1 $"," None)] [] None) /\
  parse letters (with_braces $"_" $"_") $"some literal string _A|B|__some/wildcard___" = Ok (Seq [(Lit $"some literal string " None); (Var [((Lit $"A" None), 1%Qc); ((Lit $"B" None), 1%Qc); ((Wild (WStr $"some/wildcard") None []), 1%Qc)] 1 1 $"," None)] [] None) /\
  parse letters (with_braces $":" $":") $"some literal string :A|B|__some/wildcard__:" = Ok (Seq [(Lit $"some literal string " None); (Var [((Lit $"A" None), 1%Qc); ((Lit $"B" None), 1%Qc); ((Wild (WStr $"some/wildcard") None []), 1%Qc)] 1 1 $"," None)] [] None) /\
  parse letters (with_braces $"&" $"&") $"some literal string &A|B|__some/wildcard__&" = Ok (Seq [(Lit $"some literal string " None); (Var [((Lit $"A" None), 1%Qc); ((Lit $"B" None), 1%Qc); ((Wild (WStr $"some/wildcard") None []), 1%Qc)] 1 1 $"," None)] [] None) /\
  parse letters (with_braces $"[" $"]") $"some literal string [A|B|__some/wildcard__]" = Ok (Seq [(Lit $"some literal string " None); (Var [((Lit $"A" None), 1%Qc); ((Lit $"B" None), 1%Qc); ((Wild (WStr $"some/wildcard") None []), 1%Qc)] 1 1 $"," None)] [] None) /\
  parse letters (with_braces $"<<:" $":>>") $"some literal string <<:A|B|__some/wildcard__:>>" = Ok (Seq [(Lit $"some literal string " None); (Var [((Lit $"A" None), 1%Qc); ((Lit $"B" None), 1%Qc); ((Wild (WStr $"some/wildcard") None []), 1%Qc)] 1 1 $"," None)] [] None).
Proof. same. Qed.

(** tests/parser/test_parser.py:429 *)
Example test_alternative_wildcard_wrap :
  parse letters (with_wrap $"&") $"some literal string {A|B|&some/wildcard&}" = Ok (Seq [(Lit $"some literal string " None); (Var [((Lit $"A" None), 1%Qc); ((Lit $"B" None), 1%Qc); ((Wild (WStr $"some/wildcard") None []), 1%Qc)] 1 1 $"," None)] [] None) /\
  parse letters (with_wrap $"@@") $"some literal string {A|B|@@some/wildcard@@}" = Ok (Seq [(Lit $"some literal string " None); (Var [((Lit $"A" None), 1%Qc); ((Lit $"B" None), 1%Qc); ((Wild (WStr $"some/wildcard") None []), 1%Qc)] 1 1 $"," None)] [] None) /\
  parse letters (with_wrap $"!!") $"some literal string {A|B|!!some/wildcard!!}" = Ok (Seq [(Lit $"some literal string " None); (Var [((Lit $"A" None), 1%Qc); ((Lit $"B" None), 1%Qc); ((Wild (WStr $"some/wildcard") None []), 1%Qc)] 1 1 $"," None)] [] None) /\
  parse letters (with_wrap $"..") $"some literal string {A|B|..some/wildcard..}" = Ok (Seq [(Lit $"some literal string " None); (Var [((Lit $"A" None), 1%Qc); ((Lit $"B" None), 1%Qc); ((Wild (WStr $"some/wildcard") None []), 1%Qc)] 1 1 $"," None)] [] None) /\
  parse letters (with_wrap $"~~") $"some literal string {A|B|~~some/wildcard~~}" = Ok (Seq [(Lit $"some literal string " None); (Var [((Lit $"A" None), 1%Qc); ((Lit $"B" None), 1%Qc); ((Wild (WStr $"some/wildcard") None []), 1%Qc)] 1 1 $"," None)] [] None) /\
  parse letters (with_wrap $"**") $"some literal string {A|B|**some/wildcard**}" = Ok (Seq [(Lit $"some literal string " None); (Var [((Lit $"A" None), 1%Qc); ((Lit $"B" None), 1%Qc); ((Wild (WStr $"some/wildcard") None []), 1%Qc)] 1 1 $"," None)] [] None) /\
  parse letters (with_wrap $"___") $"some literal string {A|B|___some/wildcard___}" = Ok (Seq [(Lit $"some literal string " None); (Var [((Lit $"A" None), 1%Qc); ((Lit $"B" None), 1%Qc); ((Wild (WStr $"some/wildcard") None []), 1%Qc)] 1 1 $"," None)] [] None).
Proof. same. Qed.

(** tests/parser/test_parser.py:444 *)
Example test_variable_commands :
  parse letters usual $"${animal = cat} the animal is ${animal:dog}" = Ok (Seq [(Assign $"animal" (Lit $"cat" None) false true); (Lit $" the animal is " None); (Access $"animal" (Some (Lit $"dog" None)))] [] None) /\
  parse letters usual $"${animal =! cat} the animal is ${animal:dog}" = Ok (Seq [(Assign $"animal" (Lit $"cat" None) true true); (Lit $" the animal is " None); (Access $"animal" (Some (Lit $"dog" None)))] [] None) /\
  parse letters usual $"${animal ?= cat} the animal is ${animal:dog}" = Ok (Seq [(Assign $"animal" (Lit $"cat" None) false false); (Lit $" the animal is " None); (Access $"animal" (Some (Lit $"dog" None)))] [] None) /\
  parse letters usual $"${animal ?=! cat} the animal is ${animal:dog}" = Ok (Seq [(Assign $"animal" (Lit $"cat" None) true false); (Lit $" the animal is " None); (Access $"animal" (Some (Lit $"dog" None)))] [] None).
Proof. same. Qed.

(** tests/parser/test_parser.py:478 *)
Example test_wildcard_variable_shorthand :
  parse letters usual $"__foo__" = Ok (Wild (WStr $"foo") None []) /\
  parse letters usual $"__foo(animal=bear)__" = Ok (Wild (WStr $"foo") None [($"animal", (Lit $"bear" None))]) /\
  parse letters usual $"__foo(animal=fox,color=red)__" = Ok (Wild (WStr $"foo") None [($"animal", (Lit $"fox" None)); ($"color", (Lit $"red" None))]) /\
  parse letters usual $"__foo(color={A|B|C})__" = Ok (Wild (WStr $"foo") None [($"color", (Var [((Lit $"A" None), 1%Qc); ((Lit $"B" None), 1%Qc); ((Lit $"C" None), 1%Qc)] 1 1 $"," None))]).
Proof. same. Qed.
