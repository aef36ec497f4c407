(** C01-C04, C47: the template parser. *)
From Coq Require Import String NArith ZArith QArith Qcanon Bool Arith List Permutation Sorted Lia.
From Verif.Model Require Import Str Command Rng Context Parser.
From Verif.Spec Require Import Text Names Lookup Syntax.
From Verif.Proofs Require Import StrFacts ParserFacts TokenFacts PlainFacts SyntaxFacts ReadFacts.
Import ListNotations.
Local Open Scope nat_scope.

(** Concrete instances for the examples: ASCII letters and digits. *)
Definition ascii_alnum (c : N) : bool := is_alpha c || is_digit c.
Definition plainly (s : string) : command := Lit (of_string s) None.
Lemma default_marks : Marks default_parser_config.
Proof. repeat split; discriminate. Qed.
Lemma default_standard : default_parser_config = standard $"__".
Proof. reflexivity. Qed.
Lemma ascii_letters : LettersAndDigits default_parser_config ascii_alnum.
Proof.
  split.
  - intros c Hc. unfold ascii_alnum in Hc. apply orb_true_iff in Hc.
    rewrite is_alpha_spec, is_digit_spec in Hc. unfold Letter in Hc.
    unfold Reserved, Blank. cbn. intuition lia.
  - exists 95%N. split; [left; reflexivity|reflexivity].
Qed.
Lemma default_wrap : WrapText $"__".
Proof.
  split; [discriminate|]. repeat constructor; unfold Blank; cbn; intuition discriminate.
Qed.

Lemma absent : forall t x,
  forallb (fun i => negb (startswith (skipn i t) x)) (seq 0 (S (length t))) = true -> ~ Contains t x.
Proof.
  intros t x H (a & b & ->). rewrite forallb_forall in H. specialize (H (length a)).
  rewrite skipn_app_length, startswith_app in H. discriminate H.
  apply in_seq. rewrite app_length. lia.
Qed.

(** * C01 *)
Theorem C01_plain_text_is_one_literal : forall alnum C t,
  Marks C -> t <> [] -> Plain C t -> ~ BeginsComment t ->
  parse alnum C t = Ok (Lit t None).
Proof. intros alnum C t HM H1 H2 H3. exact (proj1 (plain_parse alnum C HM t H1 H2 H3)). Qed.

Definition plain_example : text := $"  I, love } (punct:1.2) | a/*b // c_d!  ".
Example C01_example_plain : Plain default_parser_config plain_example /\ ~ BeginsComment plain_example.
Proof.
  split; [split|].
  - unfold plain_example. repeat constructor; unfold Reserved; cbn; intuition discriminate.
  - apply absent. reflexivity.
  - apply ignored_None. reflexivity.
Qed.
Example C01_example : parse ascii_alnum default_parser_config plain_example = Ok (Lit plain_example None).
Proof. vm_compute. reflexivity. Qed.
(** Each excluded shape is needed. *)
Example C01_example_tab : parse ascii_alnum default_parser_config ($"a" ++ [9%N] ++ $"b") = Ok (plainly "a       b").
Proof. vm_compute. reflexivity. Qed.
Example C01_example_comment : parse ascii_alnum default_parser_config $"// a b" = Ok (Seq [] [] None).
Proof. vm_compute. reflexivity. Qed.

(** * C02 *)
Theorem C02_written_templates_parse_back : forall ww alnum c t,
  WrapText ww -> LettersAndDigits (standard ww) alnum ->
  Prompt ww Top c t -> Uncommented t ->
  parse alnum (standard ww) t = Ok c.
Proof. intros ww alnum c t Hw Ha Ht Hu. exact (proj1 (written_parse ww Hw alnum Ha c t Ht Hu)). Qed.

(** And conversely: without comments and tabs, the parser accepts exactly the
    written syntax, and reads it as the command written. *)
Theorem C02_parser_accepts_exactly_the_syntax : forall ww alnum c t,
  WrapText ww -> LettersAndDigits (standard ww) alnum -> Uncommented t ->
  parse alnum (standard ww) t = Ok c <-> Prompt ww Top c t.
Proof.
  intros ww alnum c t Hw Ha Hu. split.
  - exact (parsed_written ww Hw alnum Ha c t Hu).
  - intros Ht. exact (proj1 (written_parse ww Hw alnum Ha c t Ht Hu)).
Qed.

(** Hence no text writes two different commands. *)
Theorem C02_writing_is_unambiguous : forall ww c c' t,
  WrapText ww -> Prompt ww Top c t -> Prompt ww Top c' t -> Uncommented t -> c = c'.
Proof. exact written_unique. Qed.

(** An example with a weight, bounds, a separator, a mark, a nested variant,
    variables, a wrap and a wildcard with variables. *)
Definition example_text : text :=
  $"a ${v=!{x|y}}{@1-2$$ & $$2.5::p|${v:q}}__~w/${v}(k=m)__%{[...]$$ z}".
Definition example_cmd : command :=
  Seq [plainly "a ";
       Assign $"v" (Var [(plainly "x", 1%Qc); (plainly "y", 1%Qc)] 1 1 $"," None) true true;
       Var [(plainly "p", Q2Qc (5 # 2)); (Access $"v" (Some (plainly "q")), 1%Qc)] 1 2 $" & " (Some Cyclical);
       Wild (WCmd (Seq [plainly "w/"; Access $"v" (Some (plainly "v"))] [] None)) (Some Random)
         [($"k", plainly "m")];
       Wrap (plainly "[...]") (plainly "z") None] [] None.

Ltac chars := repeat constructor; unfold Blank, Ordinary, Letter, NameStart, NameChar; cbn; intuition (try lia; try discriminate).
Lemma nowrap_check : forall t s, forallb (fun i => negb (startswith (skipn i (t ++ s)) $"__")) (seq 0 (length t)) = true ->
  NoWrapIn $"__" t s.
Proof.
  intros t s H a b E. destruct (le_lt_dec (length t) (length a)) as [L|L]; [exact L|exfalso].
  rewrite forallb_forall in H. specialize (H (length a)). rewrite E, skipn_app_length, startswith_app in H.
  discriminate H. apply in_seq. lia.
Qed.
Lemma inside_literal : forall t, t <> [] -> Forall (Ordinary Inside) t -> NoWrapIn $"__" t [] ->
  Prompt $"__" Inside (Lit t None) t.
Proof.
  intros t H1 H2 H3. apply (Prompt_elems _ _ [Lit t None]); [|constructor].
  rewrite <- (app_nil_r t) at 2. apply (Elems_literal _ _ Inside); auto; [left; auto|left; auto| |constructor].
  intros _ [r E]. discriminate E.
Qed.
Lemma one_element : forall p c t, Elem $"__" p c t -> Prompt $"__" p c t.
Proof.
  intros p c t H2. apply (Prompt_elems _ _ [c]); [|constructor].
  rewrite <- (app_nil_r t). apply Elems_cons; [exact H2|constructor].
Qed.
Lemma no_bounds : forall count o, Uncommented o -> popt bound_expr (o ++ $"}") = POk None (o ++ $"}") ->
  BoundsText count o [] 1 1 $",".
Proof.
  intros count o Hu E. apply popt_bounds_inv in E.
  - destruct E as (bt & E & H). assert (bt = []) as ->.
    { destruct bt; [reflexivity|]. apply (f_equal (@length N)) in E. cbn [List.app length] in E. rewrite !app_length in E. lia. }
    destruct (H count o [] eq_refl) as (lo & hi & sep & E' & HB). injection E' as <- <- <-. exact HB.
  - clear E. destruct Hu as (H1 & H2 & H3 & H4). assert (Hx : forall x y, x <> 125%N -> y <> 125%N -> ~ Contains o [x; y] -> ~ Contains (o ++ $"}") [x; y]).
    { intros x y Hx Hy HN (u & v & E).
      destruct v as [|v0 v] using rev_ind.
      - cbn in E. change (u ++ [x; y]) with (u ++ [x] ++ [y]) in E. rewrite app_assoc in E.
        apply app_inj_tail in E. destruct E as [_ E]. apply Hy. symmetry. exact E.
      - rewrite !app_assoc in E. apply app_inj_tail in E. destruct E as [E _]. apply HN. exists u, v.
        rewrite E, <- !app_assoc. reflexivity. }
    repeat split.
    + rewrite in_app_iff. intros [K|[K|[]]]; [auto|discriminate].
    + apply Hx; auto; discriminate.
    + apply Hx; auto; discriminate.
    + rewrite in_app_iff. intros [K|[K|[]]]; [auto|discriminate].
Qed.
Ltac notblank := intros (c & r & E & Hb); injection E as <- _; unfold Blank in Hb; cbn in Hb; intuition discriminate.
Ltac nonlit := intros (? & ? & K); discriminate K.
Ltac letter_stripped := exists [], []; split; [reflexivity|]; repeat split; try constructor;
  [intros c r E Hs; injection E as <- _; unfold Space in Hs; cbn in Hs; intuition discriminate
  |intros c r E Hs; destruct r as [|x r]; [|destruct r; discriminate E]; injection E as <-;
   unfold Space in Hs; cbn in Hs; intuition discriminate].
Lemma letter_option : forall c, Letter c -> Option $"__" (Lit [c] None, 1%Qc) [c].
Proof.
  intros c Hc. change [c] with ([] ++ [c]). constructor; [constructor| | |].
  - apply inside_literal; [discriminate| |].
    + repeat constructor. unfold Letter in Hc. cbn. intuition lia.
    + intros a b E. apply (f_equal (@length N)) in E. rewrite !app_length in E. cbn in E. lia.
  - intros (x & r & E & Hb). injection E as <- _. unfold Letter in Hc. unfold Blank in Hb. cbn in Hb. intuition lia.
  - intros wt q r _ E. apply (f_equal (@length N)) in E. rewrite !app_length in E. cbn in E. lia.
Qed.
Lemma letter_name : forall c, Letter c -> NameText [c].
Proof. intros c H. exists c, []. repeat split; [left; exact H|constructor]. Qed.
Example C02_example_written : Prompt $"__" Top example_cmd example_text.
Proof.
  unfold example_text, example_cmd.
  apply Prompt_elems with (cs := [plainly "a ";
       Assign $"v" (Var [(plainly "x", 1%Qc); (plainly "y", 1%Qc)] 1 1 $"," None) true true;
       Var [(plainly "p", Q2Qc (5 # 2)); (Access $"v" (Some (plainly "q")), 1%Qc)] 1 2 $" & " (Some Cyclical);
       Wild (WCmd (Seq [plainly "w/"; Access $"v" (Some (plainly "v"))] [] None)) (Some Random)
         [($"k", plainly "m")];
       Wrap (plainly "[...]") (plainly "z") None]); [|constructor; discriminate].
  change $"a ${v=!{x|y}}{@1-2$$ & $$2.5::p|${v:q}}__~w/${v}(k=m)__%{[...]$$ z}" with
    ($"a " ++ $"${v=!{x|y}}" ++ $"{@1-2$$ & $$2.5::p|${v:q}}" ++ $"__~w/${v}(k=m)__" ++ $"%{[...]$$ z}" ++ []).
  apply (Elems_literal _ _ Top); [left; reflexivity|discriminate|chars|apply nowrap_check; reflexivity| | |].
  { right; right. eexists _, _. split; [reflexivity|]. cbn. intuition discriminate. }
  { intros K. inversion K as [|? ? K1]; subst. unfold Blank in K1. cbn in K1. intuition discriminate. }
  apply Elems_cons.
  { apply (E_assign $"__" [] $"v" [] false true [] _ $"{x|y}"); try constructor; try discriminate.
    - apply letter_name; right; vm_compute; split; discriminate.
    - apply one_element.
      apply (E_variants $"__" Inside [] [] None [] 1 1 $"," _ $"x|y"); [constructor|constructor|apply no_bounds|
        |intros _ _; split].
      + repeat split; try (apply absent; reflexivity); cbn; intuition discriminate.
      + reflexivity.
      + apply (Options_more _ _ $"x" _ $"y"); [|constructor]; apply letter_option; right; vm_compute; split; discriminate.
      + intros (c & r & E & Hc). injection E as <- _. cbn in Hc. intuition discriminate.
      + notblank.
    - notblank. }
  apply Elems_cons.
  { apply (E_variants $"__" Top [] $"@" (Some Cyclical) $"1-2$$ & $$" 1 2 $" & " _ $"2.5::p|${v:q}");
      try constructor; try discriminate.
    - change $"1-2$$ & $$" with ($"1-2" ++ $"$$" ++ $" & " ++ $"$$" ++ []). constructor; [|split; [discriminate|chars]|constructor].
      apply (Bound_both _ $"1" 1 $"2" 2); [apply (Numeral_one 1)|apply (Numeral_one 2)]; reflexivity.
    - apply (Options_more _ _ $"2.5::p" _ $"${v:q}"); [|constructor].
      + apply (Option_weighted _ [] $"2.5" _ _ $"p"); [constructor| |].
        * apply (Weight_real [] false $"2" $"5" 25 (Q2Qc (5 # 2))); [auto| |].
          -- apply (Numeral_more $"2" 2 5); [apply (Numeral_one 2)|]; reflexivity.
          -- apply Qc_is_canon. reflexivity.
        * apply inside_literal; [discriminate|chars|apply nowrap_check; reflexivity].
      + apply (Option_plain _ []); [constructor| |notblank|].
        * apply one_element.
          apply (E_access_default $"__" Inside [] $"v" [] [] _ $"q"); try constructor; try discriminate.
          -- apply letter_name; right; vm_compute; split; discriminate.
          -- apply inside_literal; [discriminate|chars|apply nowrap_check; reflexivity].
          -- notblank.
        * intros wt q r Hw E. assert (Hc : Forall (fun c => ~ In c $"|}$:") wt) by (eapply weight_chars; exact Hw).
          destruct wt as [|c wt]; [discriminate E|]. injection E as <- _. inversion Hc; subst. apply H1. cbn; tauto. }
  apply Elems_cons.
  { apply (E_wildcard_variables $"__" Top $"~" (Some Random) [plainly "w/"; Access $"v" (Some (plainly "v"))]
             (Seq [plainly "w/"; Access $"v" (Some (plainly "v"))] [] None) _ $"w/${v}" []
             [($"k", plainly "m")] _ $"k=m"); try discriminate.
    - constructor.
    - constructor.
    - change $"w/${v}" with ($"w/" ++ $"${v}" ++ []).
      apply (Elems_literal _ _ Path); [left; reflexivity|discriminate|chars|apply nowrap_check; reflexivity| | |].
      + right; right. eexists _, _. split; [reflexivity|]. cbn. intuition discriminate.
      + intros K. inversion K as [|? ? K1]; subst. unfold Blank in K1. cbn in K1. intuition discriminate.
      + apply Elems_cons; [|constructor].
        apply (E_path_access $"__" [] $"v" []); [constructor| |constructor].
        apply letter_name; right; vm_compute; split; discriminate.
    - constructor; discriminate.
    - constructor. nonlit.
    - constructor. apply (Variable_value _ $"k" _ $"m" $"k" $"m").
      + chars.
      + letter_stripped.
      + chars.
      + letter_stripped.
      + apply (Prompt_elems _ _ [plainly "m"]); [|constructor].
        change $"m" with ($"m" ++ []). apply (Elems_literal _ _ Top); [left; reflexivity|discriminate|chars|apply nowrap_check; reflexivity|left; reflexivity| |constructor].
        intros _ [r E]. discriminate E.
    - split; [repeat constructor; intros []|]. split; [repeat constructor|].
      intros x c. split.
      + intros [E|[]]. injection E as <- <-. exists [], []. split; [reflexivity|intros []].
      + intros (a & b & E & _). destruct a as [|y a]; [|destruct a; discriminate E]. injection E as <- <- _. left. reflexivity. }
  apply Elems_cons; [|constructor].
  apply (E_wrap $"__" Top [] _ $"[...]" $" " _ $"z"); try constructor; try discriminate.
  - apply inside_literal; [discriminate|chars|apply nowrap_check; reflexivity].
  - notblank.
  - unfold Blank; cbn; auto.
  - constructor.
  - apply inside_literal; [discriminate|chars|apply nowrap_check; reflexivity].
  - notblank.
Qed.
Example C02_example_parsed : parse ascii_alnum (standard $"__") example_text = Ok example_cmd.
Proof.
  apply C02_written_templates_parse_back; [apply default_wrap|apply ascii_letters|apply C02_example_written|].
  repeat split.
  - cbn. intuition discriminate.
  - apply absent. reflexivity.
  - apply absent. reflexivity.
  - cbn. intuition discriminate.
Qed.

(** A text in no way part of the syntax: an option is never closed. *)
Example C02_example_unwritten : forall c, ~ Prompt $"__" Top c $"{cat|dog".
Proof.
  intros c H. apply (C02_parser_accepts_exactly_the_syntax _ ascii_alnum) in H;
    [|apply default_wrap|apply ascii_letters|].
  - vm_compute in H. discriminate H.
  - repeat split; try (apply absent; reflexivity); cbn; intuition discriminate.
Qed.

(** * C03 *)
(** Whatever the text: a command, a parse error, or the AttributeError below. *)
Theorem C03_parsing_ends : forall alnum C t, Marks C ->
  (exists c, parse alnum C t = Ok c) \/ parse alnum C t = Err EParse \/
  parse alnum C t = Err EAttribute.
Proof. exact parse_results. Qed.

(** The recursion never needs more depth than the text is long: at every
    greater depth the result is the same, and it is not "out of depth". *)
Theorem C03_depth_is_enough : forall alnum C t n, Marks C -> 2 + length (expandtabs t) <= n ->
  parse_depth alnum C n t = parse_raw alnum C t /\ parse_depth alnum C n t <> PFuel.
Proof. exact parse_enough. Qed.

Theorem C03_the_other_exception_occurs :
  exists t, parse ascii_alnum default_parser_config t = Err EAttribute.
Proof. exists $"__${a:{x|y}}__". vm_compute. reflexivity. Qed.
Example C03_example_error : parse ascii_alnum default_parser_config $"{cat|dog" = Err EParse.
Proof. vm_compute. reflexivity. Qed.
Example C03_example_command : parse ascii_alnum default_parser_config $"{cat|dog}" =
  Ok (Var [(plainly "cat", 1%Qc); (plainly "dog", 1%Qc)] 1 1 $"," None).
Proof. vm_compute. reflexivity. Qed.

(** * C04 *)
Theorem C04_comment_text_is_irrelevant : forall alnum C a body body' b,
  Marks C -> ~ In 35%N (wildcard_wrap C) -> alnum 35%N = false ->
  BeforeComment C a -> OneLine body -> OneLine body' ->
  parse alnum C (a ++ $"#" ++ body ++ [10%N] ++ b) = parse alnum C (a ++ $"#" ++ body' ++ [10%N] ++ b).
Proof. intros alnum C a body body' b HM Hw Ha. exact (comment_same alnum C HM Hw Ha a body body' b). Qed.

(** With plain text around it: the comment becomes one space. *)
Theorem C04_comment_leaves_no_trace : forall alnum C a body b,
  Marks C -> ~ In 35%N (wildcard_wrap C) -> alnum 35%N = false ->
  BeforeComment C a -> ~ Blanks a -> OneLine body ->
  Plain C (10%N :: b) -> ~ BeginsComment (10%N :: b) ->
  parse alnum C (a ++ $"#" ++ body ++ [10%N] ++ b) = Ok (Lit (a ++ $" " ++ [10%N] ++ b) None).
Proof. exact comment_between. Qed.
Theorem C04_final_comment_leaves_no_trace : forall alnum C a body,
  Marks C -> ~ In 35%N (wildcard_wrap C) -> alnum 35%N = false ->
  BeforeComment C a -> ~ Blanks a -> OneLine body ->
  parse alnum C (a ++ $"#" ++ body) = Ok (Lit a None).
Proof. exact comment_final. Qed.

Example C04_example_before : BeforeComment default_parser_config $"a cat " /\ ~ Blanks $"a cat ".
Proof.
  split; [split; [split|]|].
  - repeat constructor; unfold Reserved; cbn; intuition discriminate.
  - apply absent. reflexivity.
  - intros w r E Hw [q ->]. assert (Hin : In 47%N $"a cat ").
    { rewrite E. apply in_or_app; right; left; reflexivity. }
    cbn in Hin. intuition discriminate.
  - intros H. inversion H; subst. unfold Blank in H2. cbn in H2. intuition discriminate.
Qed.
Example C04_example : parse ascii_alnum default_parser_config ($"a cat # {x|y} ${" ++ [10%N] ++ $"in {a|the} hat") =
  Ok (Seq [Lit ($"a cat " ++ $" " ++ [10%N] ++ $"in ") None;
           Var [(plainly "a", 1%Qc); (plainly "the", 1%Qc)] 1 1 $"," None; plainly " hat"] [] None).
Proof. vm_compute. reflexivity. Qed.
Example C04_example_final : parse ascii_alnum default_parser_config $"a cat # {x|y} ${" = Ok (plainly "a cat ").
Proof. vm_compute. reflexivity. Qed.

(** * C47 *)
Theorem C47_shortcut_agrees : forall alnum C t, Marks C -> LettersAndDigits C alnum ->
  isalnum alnum t = true ->
  parse alnum C t = grammar alnum C t /\ grammar alnum C t = Ok (Lit t None).
Proof. intros alnum C t HM HL H. exact (shortcut_agrees alnum C HM HL t H). Qed.

Example C47_example : isalnum ascii_alnum $"cat9" = true /\
  grammar ascii_alnum default_parser_config $"cat9" = Ok (plainly "cat9").
Proof. vm_compute. auto. Qed.
(** A wildcard wrap of letters only: shortcut and grammar differ. *)
Theorem C47_letters_as_wrap_refuted : exists C t, Marks C /\ isalnum ascii_alnum t = true /\
  parse ascii_alnum C t <> grammar ascii_alnum C t.
Proof.
  exists (standard $"ww"), $"wwcatww". split; [repeat split; discriminate|].
  split; [reflexivity|]. vm_compute. discriminate.
Qed.

Print Assumptions C01_plain_text_is_one_literal.
Print Assumptions C02_written_templates_parse_back.
Print Assumptions C02_parser_accepts_exactly_the_syntax.
Print Assumptions C02_writing_is_unambiguous.
Print Assumptions C03_parsing_ends.
Print Assumptions C03_depth_is_enough.
Print Assumptions C03_the_other_exception_occurs.
Print Assumptions C04_comment_text_is_irrelevant.
Print Assumptions C04_comment_leaves_no_trace.
Print Assumptions C04_final_comment_leaves_no_trace.
Print Assumptions C47_shortcut_agrees.
Print Assumptions C47_letters_as_wrap_refuted.
