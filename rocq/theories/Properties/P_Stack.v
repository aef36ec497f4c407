(** C61-C64: from wildcard files to prompts. *)
From Coq Require Import String NArith ZArith QArith Qcanon Bool Arith List Sorted Lia.
From Verif.Model Require Import Str Utils Command Rng Values Context Sampler Names Structured Tree Manager Parser Generators Stack.
From Verif.Spec Require Import Text Comb Items StreamRng Names Files Tree Lookup Enum Cycle Sure Choices Draws Syntax Lang FileWildcard.
From Verif.Proofs Require Import StrFacts TokenFacts NamesFacts BuildFacts ManagerFacts GeneratorFacts ReachFacts StackFacts.
From Verif.Properties Require Import P_Files P_Tree P_Parser.
Import ListNotations.
Local Open Scope nat_scope.

(** The manager made for the folder [root], with the given wrap. *)
Definition folder (P : pylib) (G : rng_impl) (alnum : char -> bool) (ww : text) (fs : fsnode) (root : list text)
    (r : rng_state G) : env :=
  stack P G alnum (standard ww) ww [([], [RPath root])] fs true true r.

(** * C61: while nobody changes files or settings, every answer of the manager
    is that of a fixed function, whatever was asked before. *)
Theorem C61_answers_are_fixed : forall P G alnum C ww roots fs sort dedup r ops wc,
  UniqueNames fs -> Forall asks ops ->
  lookup P G ww roots wc (run_ops P G ww roots ops (fresh G fs sort dedup false r)) =
  Ok (env_lookup (stack P G alnum C ww roots fs sort dedup r) wc).
Proof. exact stack_answers. Qed.

(** * C62: a combinatorial run over the wildcard of a text file lists its
    values, in order and each once. *)
Theorem C62_file_wildcard_combinatorial : forall P G0 G alnum ww fs root r0 c name lines mark m limit,
  UniqueNames fs -> WrapText ww -> LettersAndDigits (standard ww) alnum ->
  WildcardName ww (c_ignws c) name -> TextFileNamed fs root name lines -> PlainLines ww lines ->
  MarkText mark m -> m = None \/ m = Some Combinatorial -> c_method c = Combinatorial ->
  exists vals ts, InOrder lines vals /\ Forall2 (Tidy (c_ignws c)) vals ts /\
    exists f, forall n steps r, f <= n -> length (at_most limit ts) < steps ->
      combinatorial_generate G (folder P G0 alnum ww fs root r0) n steps c (ww ++ mark ++ name ++ ww) limit r
      = Ret (at_most limit ts) r.
Proof.
  intros P G0 G alnum ww fs root r0 c name lines mark m limit Hu Hw Ha Hn Hf Hp Hm Hmm Hc.
  destruct (folder_lookup P G0 alnum ww fs root r0 _ name lines Hu Hw Hn Hf Hp) as (vals & Ho & Hne & Hl & Hpl).
  destruct (file_combinatorial P G0 alnum ww _ fs r0 c name vals Hw Ha Hn Hl Hne Hpl G mark m limit Hm Hc Hmm) as (ts & Ht & Hg).
  exists vals, ts. auto.
Qed.

(** * C63: the random generator gives as many prompts as asked for, all of
    them values of the file; and each value can be the first prompt. *)
Theorem C63_file_wildcard_random : forall P G0 G alnum ww fs root r0 c name lines mark m num seeds r,
  UniqueNames fs -> WrapText ww -> LettersAndDigits (standard ww) alnum ->
  WildcardName ww (c_ignws c) name -> TextFileNamed fs root name lines -> PlainLines ww lines ->
  MarkText mark m -> c_method c <> Combinatorial -> c_vars c = [] -> c_busy c = [] -> Usable num seeds ->
  exists n ts r', (forall f, n <= f ->
      random_generate G (folder P G0 alnum ww fs root r0) f c (ww ++ mark ++ name ++ ww) num seeds r = Ret ts r') /\
    length ts = num /\ forall t, In t ts -> exists l, In l lines /\ Tidy (c_ignws c) l t.
Proof.
  intros P G0 G alnum ww fs root r0 c name lines mark m num seeds r Hu Hw Ha Hn Hf Hp Hm Hc Hv Hb Hus.
  destruct (folder_lookup P G0 alnum ww fs root r0 _ name lines Hu Hw Hn Hf Hp) as (vals & Ho & Hne & Hl & Hpl).
  destruct (file_random P G0 alnum ww _ fs r0 c name vals Hw Ha Hn Hl Hne Hpl Hv Hb G mark m num seeds r Hm Hc Hus)
    as (n & ts & r' & H & Hlen & Hin).
  exists n, ts, r'. split; [exact H|]. split; [exact Hlen|]. intros t Ht. destruct (Hin t Ht) as (v & Hvv & Htt).
  exists v. split; [|exact Htt]. now apply Ho.
Qed.

Theorem C63_every_value_can_be_drawn : forall P G0 alnum ww fs root r0 c name lines mark m l u,
  UniqueNames fs -> WrapText ww -> LettersAndDigits (standard ww) alnum ->
  WildcardName ww (c_ignws c) name -> TextFileNamed fs root name lines -> PlainLines ww lines ->
  MarkText mark m -> resolve (c_method c) m = Random ->
  In l lines -> Tidy (c_ignws c) l u ->
  exists n draws g g', forall f rest, n <= f ->
    sample_prompts (folder P G0 alnum ww fs root r0) f c (WStr (ww ++ mark ++ name ++ ww)) None = MOk g /\
    next stream_rng (folder P G0 alnum ww fs root r0) f g (draws ++ rest) = @OVal stream_rng _ (u, g') rest.
Proof.
  intros P G0 alnum ww fs root r0 c name lines mark m l u Hu Hw Ha Hn Hf Hp Hm Hr Hl Ht.
  destruct (folder_lookup P G0 alnum ww fs root r0 _ name lines Hu Hw Hn Hf Hp) as (vals & Ho & Hne & Hlk & Hpl).
  apply drawn_first. eapply file_drawn; try eassumption. now apply Ho.
Qed.

(** * C64: a cyclical wildcard goes through the values in order, again and
    again, whatever the seeds. *)
Theorem C64_file_wildcard_cyclical : forall P G0 G alnum ww fs root r0 c name lines mark m num seeds r,
  UniqueNames fs -> WrapText ww -> LettersAndDigits (standard ww) alnum ->
  WildcardName ww (c_ignws c) name -> TextFileNamed fs root name lines -> PlainLines ww lines ->
  MarkText mark m -> resolve (c_method c) m = Cyclical -> Usable num seeds ->
  exists vals ts, InOrder lines vals /\ Forall2 (Tidy (c_ignws c)) vals ts /\
    exists n r', forall f, n <= f ->
      random_generate G (folder P G0 alnum ww fs root r0) f c (ww ++ mark ++ name ++ ww) num seeds r
      = Ret (map (fun k => nth (k mod length ts) ts []) (seq 0 num)) r'.
Proof.
  intros P G0 G alnum ww fs root r0 c name lines mark m num seeds r Hu Hw Ha Hn Hf Hp Hm Hr Hus.
  destruct (folder_lookup P G0 alnum ww fs root r0 _ name lines Hu Hw Hn Hf Hp) as (vals & Ho & Hne & Hl & Hpl).
  destruct (tidy_all (c_ignws c) vals) as [ts Hts].
  exists vals, ts. split; [exact Ho|]. split; [exact Hts|].
  rewrite <- (Forall2_len _ _ _ _ _ Hts).
  exact (file_cyclical P G0 alnum ww _ fs r0 c name vals Hw Ha Hn Hl Hne Hpl G mark m num seeds r ts Hm Hr Hus Hts).
Qed.

(** A folder with the file sub/hues.txt. *)
Definition hues : text := $"  red
# a comment
light  blue
red
azure".
Definition fs1 : fsnode := FDir
  [($"w", FDir [($"sub", FDir [($"hues.txt", FFile hues); ($"more.txt", FFile $"x")]);
                ($"hues.txt", FFile $"other"); ($".git", FDir [($"a.json", FFile $"{}")])])].
Notation E1 := (folder lib0 stream_rng ascii_alnum $"__" fs1 [$"w"] []).
Definition ctx1 (m : method) : ctx :=
  {| c_method := m; c_ignws := true; c_vars := []; c_unknown := None; c_busy := [] |}.
Example C62_example :
  combinatorial_generate stream_rng E1 50 50 (ctx1 Combinatorial) $"__sub/hues__" (Some 2) []
  = @Ret (list N) _ [$"azure"; $"light blue"] [].
Proof. vm_compute. reflexivity. Qed.
Example C63_example :
  random_generate stream_rng E1 50 (ctx1 Random) $"__~sub/hues__" 3 SNone [2; 0; 1]%N
  = @Ret (list N) _ [$"red"; $"azure"; $"light blue"] [].
Proof. vm_compute. reflexivity. Qed.
Example C64_example :
  random_generate stream_rng E1 50 (ctx1 Random) $"__@sub/hues__" 5 SNone []
  = @Ret (list N) _ [$"azure"; $"light blue"; $"red"; $"azure"; $"light blue"] [].
Proof. vm_compute. reflexivity. Qed.

(** The hypotheses hold here. *)
Example C61_example_names : UniqueNames fs1.
Proof.
  assert (HF : forall es, NoDup (map fst es) -> Forall (fun e => UniqueNames (snd e)) es -> UniqueNames (FDir es)).
  { intros es H1 H2. constructor; [assumption|]. intros name n Hin. rewrite Forall_forall in H2. exact (H2 _ Hin). }
  unfold fs1. repeat first [apply HF | apply UniqueNames_file | apply Forall_nil | apply Forall_cons |
    apply NoDup_nil | apply NoDup_cons | progress cbn [snd fst map]];
  cbn; intros H; repeat (destruct H as [H|H]; [discriminate|]); exact H.
Qed.
Example C61_example : Forall asks [OGet $"sub/hues"; OFile $"hues"; ONames; OClear; OGet $"*"].
Proof. unfold asks. repeat (apply Forall_cons; [eauto 6|]). apply Forall_nil. Qed.
Example C62_example_name : WildcardName $"__" true $"sub/hues".
Proof.
  assert (Hs : SafeName $"sub/hues") by (apply (clean_safe $"sub/hues" $"__"); reflexivity).
  split; [discriminate|]. split.
  { repeat constructor; cbn; intros H; repeat (destruct H as [H|H]; [discriminate|]); exact H. }
  split. { intros (c & r & H & Hc). injection H as <- <-. cbn in Hc. repeat (destruct Hc as [Hc|Hc]; [discriminate|]). exact Hc. }
  split. { intros H. inversion H as [|? ? Hb _]; subst. cbn in Hb. repeat (destruct Hb as [Hb|Hb]; [discriminate|]). exact Hb. }
  split.
  { intros a b H. destruct (le_lt_dec (length $"sub/hues") (length a)) as [Hl|Hl]; [exact Hl|]. exfalso.
    cbn in Hl. do 8 (destruct a as [|? a]; [discriminate H|injection H as _ H; cbn in Hl]). lia. }
  split.
  { split; [|split; [|split]]; [| | |]; try (apply absent; vm_compute; reflexivity);
      intros H; cbn in H; repeat (destruct H as [H|H]; [discriminate|]); exact H. }
  split; [exact Hs|]. split.
  { repeat constructor; intros [H|[H|H]]; discriminate. }
  exact (squash_Tidy $"sub/hues").
Qed.
Example C62_example_file : TextFileNamed fs1 [$"w"] $"sub/hues" [$"red"; $"light  blue"; $"red"; $"azure"].
Proof.
  do 1 eexists. exists [$"sub"], $"hues.txt", $"hues", hues. split; [econstructor; [now left|constructor]|].
  split; [split|].
  - eapply FileAt_down; [left; reflexivity|]. eapply FileAt_down; [left; reflexivity|]. constructor.
  - constructor; [|constructor]. intros [t H]. discriminate.
  - split.
    { split; [reflexivity|]. split; [discriminate|]. exists $"txt". split; [reflexivity|].
      split; [discriminate|]. cbn. intros H. repeat (destruct H as [H|H]; [discriminate|]). exact H. }
    split; [reflexivity|]. split; [apply C37_values_of_text; vm_compute; reflexivity|].
    intros dir f content H. apply C49_scan in H. vm_compute in H.
    assert (Hx : forall stem ext, HasSuffix f stem ext -> split_suffix f = (stem, ext)) by (intros; now apply split_suffix_has).
    destruct H as [H|[H|[H|[]]]]; injection H as <- <- <-;
      (split; [intros stem Hs Ht|split; intros stem Hs; apply Hx in Hs; discriminate Hs]);
      apply Hx in Hs; injection Hs as <-.
    + apply (combine_iff []) in Ht. vm_compute in Ht. discriminate Ht.
    + auto.
    + apply (combine_iff []) in Ht. vm_compute in Ht. discriminate Ht.
Qed.
Example C62_example_lines : PlainLines $"__" [$"red"; $"light  blue"; $"red"; $"azure"].
Proof.
  split; [discriminate|]. intros l H.
  repeat (destruct H as [<-|H]; [split; [split; [repeat constructor; unfold Reserved; cbn; intuition discriminate|
    apply absent; reflexivity]|apply ignored_None; reflexivity]|]). destruct H.
Qed.

Print Assumptions C61_answers_are_fixed.
Print Assumptions C62_file_wildcard_combinatorial.
Print Assumptions C63_file_wildcard_random.
Print Assumptions C63_every_value_can_be_drawn.
Print Assumptions C64_file_wildcard_cyclical.
