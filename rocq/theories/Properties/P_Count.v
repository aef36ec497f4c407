(** C82: the number of combinatorial prompts. *)
From Coq Require Import String NArith ZArith QArith Qcanon Bool Arith List Lia.
From Verif.Model Require Import Str Command Rng Values Context Sampler.
From Verif.Spec Require Import Text Comb Lang Enum Count.
From Verif.Proofs Require Import StrFacts CommandFacts EnumFacts EnumRun StackFacts CountFacts.
From Verif.Properties Require Import P_Sampler P_Comb.
Import ListNotations.
Local Open Scope nat_scope.

(** A run that gives [total] prompts and then ends, whatever the random
    generator. *)
Definition GivesExactly (E : env) (c : ctx) (cmd : command) (total : nat) : Prop :=
  forall G : rng_impl, exists f ts, length ts = total /\ forall m, f <= m ->
    exists g, sample_prompts E m c (WCmd cmd) None = MOk g /\
      forall n r, (total < n -> collect G E m n g r = (ts, EndStop, Some r)) /\
        (n <= total -> exists g', collect G E m n g r = (firstn n ts, EndLimit g', Some r)).

Lemma listed_exactly : forall E c cmd ts, c_method c = Combinatorial -> Nonempty cmd -> Enum E c cmd ts ->
  GivesExactly E c cmd (length ts).
Proof.
  intros E c cmd ts Hc Hn He G. destruct (tidy_all (c_ignws c) ts) as [us Hus].
  destruct (C15_enumerates_in_order G E c (WCmd cmd) us Hc) as (f & Hf).
  { eapply EnP_reads; [constructor; exact Hn|exact He|exact Hus]. }
  assert (Hl : length us = length ts) by (symmetry; eapply EnumFacts.Forall2_len; exact Hus).
  exists f, us. split; [exact Hl|]. intros m Hm. destruct (Hf m Hm) as (g & Hg & Hr). exists g. split; [exact Hg|].
  rewrite Hl in Hr. exact Hr.
Qed.

(** * C82 *)
(** Texts and variants with different texts as options: each variant with [n]
    options and bounds [lo] and [hi] multiplies the number of prompts by the
    sum of n!/(n-k)! for k from lo to hi. *)
Theorem C82_prompts_of_flat_templates : forall E c parts sep, c_method c = Combinatorial ->
  parts <> [] -> Forall FlatPart parts ->
  GivesExactly E c (Seq (map part_command parts) sep None) (prod (map part_count parts)).
Proof.
  intros E c parts sep Hc Hne H. destruct (flat_listed E c parts sep H) as (ts & Ht & <-).
  apply listed_exactly; [exact Hc| |exact Ht]. split; [|discriminate]. intros s m E'. destruct parts; [congruence|discriminate E'].
Qed.

(** Any variant whose options share no text, if the options list their texts:
    each way to take so many options and a text of each counts once. *)
Theorem C82_prompts_of_a_variant : forall E c opts lo hi sep m ls, c_method c = Combinatorial ->
  finite_mark (Var opts lo hi sep m) -> opts <> [] -> ~ lone_wildcard opts -> NoDup (map fst opts) ->
  EnumAll E c (map fst opts) ls -> NoDup (concat ls) ->
  GivesExactly E c (Var opts lo hi sep m)
    (sum (map (ways (map (@length text) ls)) (sizes (length opts) lo hi))).
Proof.
  intros E c opts lo hi sep m ls Hc Hm Hne Hw Hn He Hd.
  destruct (variant_count E c opts lo hi sep m ls Hm Hne Hw Hn He Hd) as (ts & Ht & <-).
  apply listed_exactly; [exact Hc| |exact Ht]. split; [discriminate|]. intros ? ? ? ? E'. injection E' as E' _ _ _ _. contradiction.
Qed.

(** [{1-2$$a|b|c} and {x|y}]: (3 + 3*2) * 1 * 2 prompts. *)
Definition counted : list part :=
  [Choice_part [($"a", 1%Qc); ($"b", 1%Qc); ($"c", 1%Qc)] 1 2 $","; Text_part $" and ";
   Choice_part [($"x", 1%Qc); ($"y", 1%Qc)] 1 1 $","].
Example C82_example : Forall FlatPart counted /\ prod (map part_count counted) = 18 /\
  length (fst (run Combinatorial (Seq (map part_command counted) [] None) 99 [])) = 18.
Proof.
  split; [|split; [reflexivity|vm_compute; reflexivity]].
  repeat constructor; try discriminate; cbn; try lia; try (intuition discriminate).
Qed.
(** Bounds above the number of options: all of them, in each order. *)
Example C82_example_bounds : part_count (Choice_part [($"a", 1%Qc); ($"b", 1%Qc); ($"c", 1%Qc)] 5 9 $",") = 6 /\
  part_count (Choice_part [($"a", 1%Qc); ($"b", 1%Qc); ($"c", 1%Qc)] 0 9 $",") = 16.
Proof. split; reflexivity. Qed.
(** Nested variants: [{2$$ & $${a|b}|c|{x|y|z}}] has
    2*(2*1 + 2*3 + 1*3) prompts. *)
Definition unequal : list (command * Qc) :=
  [(Var (opts ["a"; "b"]%string) 1 1 $"," None, 1%Qc); (lit "c", 1%Qc);
   (Var (opts ["x"; "y"; "z"]%string) 1 1 $"," None, 1%Qc)].
Example C82_example_variant : ways [2; 1; 3] 2 = 22 /\ NoDup (map fst unequal) /\
  length (fst (run Combinatorial (Var unequal 2 2 $" & " None) 99 [])) = 22.
Proof.
  split; [reflexivity|]. split; [|vm_compute; reflexivity].
  repeat constructor; cbn; intuition discriminate.
Qed.
(** Options that share a text give fewer prompts. *)
Example C82_example_shared : length (fst (run Combinatorial
  (Var [(Var (opts ["a"; "b"]%string) 1 1 $"," None, 1%Qc); (lit "a", 1%Qc)] 1 2 $"," None) 99 [])) = 4 /\
  sum (map (ways [2; 1]) [1; 2]) = 7.
Proof. split; [vm_compute; reflexivity|reflexivity]. Qed.

Print Assumptions C82_prompts_of_flat_templates.
Print Assumptions C82_prompts_of_a_variant.
