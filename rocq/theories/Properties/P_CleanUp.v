(** C76: the clean-up of magic prompts. *)
From Coq Require Import String NArith ZArith Bool Arith List Lia.
From Verif.Model Require Import Str Generators.
From Verif.Spec Require Import Text Regex Names CleanUp.
From Verif.Proofs Require Import StrFacts CleanUpFacts.
From Verif.Properties Require Import P_Generators.
Import ListNotations.
Local Open Scope nat_scope.

(** The text is changed as the patterns of magicprompt.py:34-59 say, and in no
    other way. *)
Theorem C76_cleaned_up_as_the_patterns_say : forall alnum bang_weight,
  PlainWords (WordChar alnum) -> forall s u,
  CleanedUp (WordChar alnum) bang_weight s u <-> u = tidy alnum bang_weight s.
Proof.
  intros alnum bang_weight Hp s u.
  assert (Hw : forall c, is_word alnum c = true <-> WordChar alnum c).
  { intros c. unfold is_word, WordChar. now rewrite orb_true_iff, N.eqb_eq. }
  split.
  - exact (cleaned_one alnum _ Hw Hp bang_weight s u).
  - intros ->. exact (tidy_cleaned alnum _ Hw Hp bang_weight s).
Qed.

(** Only what the model added to the prompt is changed. *)
Theorem C76_only_the_added_text : forall alnum bang_weight,
  PlainWords (WordChar alnum) -> forall prompt added u,
  CleanedUp (WordChar alnum) bang_weight added u ->
  clean_up_magic_prompt alnum bang_weight prompt (prompt ++ added) = prompt ++ $" " ++ u.
Proof.
  intros alnum bang_weight Hp prompt added u H.
  apply C76_cleaned_up_as_the_patterns_say in H as ->; [|assumption].
  unfold clean_up_magic_prompt. rewrite startswith_app.
  rewrite skipn_app, skipn_all, Nat.sub_diag. reflexivity.
Qed.
Theorem C76_other_texts : forall alnum bang_weight,
  PlainWords (WordChar alnum) -> forall prompt text u,
  ~ StartsWith text prompt -> CleanedUp (WordChar alnum) bang_weight text u ->
  clean_up_magic_prompt alnum bang_weight prompt text = u.
Proof.
  intros alnum bang_weight Hp prompt text u Hn H.
  apply C76_cleaned_up_as_the_patterns_say in H as ->; [|assumption].
  unfold clean_up_magic_prompt. destruct (startswith text prompt) eqn:E; [|reflexivity].
  apply startswith_spec in E. destruct Hn. exact E.
Qed.

(** The texts of tests/generators/test_magicprompt.py:47-89. *)
Definition weight0 (n : nat) : str := match n with 1 => $"1.1" | 2 => $"1.21" | _ => $"9" end.
Definition clean0 (added : str) : str := clean_up_magic_prompt ascii_alnum weight0 $"[Original|prompt]" ($"[Original|prompt]" ++ added).
Example C76_words_are_plain : PlainWords (WordChar ascii_alnum).
Proof.
  intros c Hc.
  assert (H : (48 <= c <= 57 \/ 65 <= c <= 90 \/ 97 <= c <= 122 \/ c = 95)%N).
  { destruct Hc as [Hc|Hc]; [|lia]. unfold ascii_alnum in Hc.
    rewrite ?orb_true_iff, ?andb_true_iff, ?N.leb_le in Hc. lia. }
  split; [unfold Space|]; cbn [In of_string]; intros Hx; cbn in Hx; intuition lia.
Qed.
Example C76_examples :
  clean0 $" - This is a {prompt} xyz" = $"[Original|prompt] This is a (prompt) xyz" /\
  clean0 $"  $$ This is a prompt $$" = $"[Original|prompt] This is a prompt" /\
  clean0 $" This ( is ) a prompt" = $"[Original|prompt] This (is) a prompt" /\
  clean0 $" This is - a prompt" = $"[Original|prompt] This is-a prompt" /\
  clean0 $" This is. a prompt; another prompt" = $"[Original|prompt] This is, a prompt, another prompt" /\
  clean0 $"This is a prompt _ another prompt" = $"[Original|prompt] This is a prompt another prompt" /\
  clean0 $" This is a prompt , , another prompt" = $"[Original|prompt] This is a prompt ,, another prompt" /\
  clean0 $" This is a prompt! dddd" = $"[Original|prompt] (This is a prompt:1.1) dddd" /\
  clean0 $" This is a prompt!! dddd" = $"[Original|prompt] (This is a prompt:1.21) dddd".
Proof. vm_compute. repeat split; reflexivity. Qed.

(** Cleaning up can take away one of a pair of parentheses. *)
Theorem C76_pairs_of_parentheses_refuted : exists alnum bang_weight s,
  PlainWords (WordChar alnum) /\ Balanced s /\ ~ Balanced (tidy alnum bang_weight s).
Proof.
  exists ascii_alnum, weight0, $"(cat) sitting". split; [exact C76_words_are_plain|]. split.
  - assert (Hplain : forall w : str, Forall (fun c => c <> 40%N /\ c <> 41%N) w -> Balanced w).
    { intros w Hw. induction Hw as [|c w [H1 H2] Hw IH]; constructor; assumption. }
    apply (Balanced_pair $"cat" $" sitting"); apply Hplain; repeat constructor; discriminate.
  - vm_compute. intros H.
    repeat match type of H with Balanced (_ :: _) => inversion H as [|? ? ? ? H'|]; clear H; subst; try congruence; rename H' into H end.
Qed.

(** A phrase with bangs can lose its weight to another one that is its end. *)
Theorem C76_every_phrase_gets_its_weight_refuted : exists alnum bang_weight s found x new u,
  PlainWords (WordChar alnum) /\
  FindAll (WordChar alnum) (bang_pattern (WordChar alnum)) [] s found /\ In x found /\
  Weighted bang_weight x new /\ tidy alnum bang_weight s = u /\
  u = $"(cat:1.1) dog (cat:1.1)! x" /\ x = $"dog cat!!" /\ new = $"(dog cat:1.21)".
Proof.
  assert (Hw : forall c, is_word ascii_alnum c = true <-> WordChar ascii_alnum c).
  { intros c. unfold is_word, WordChar. now rewrite orb_true_iff, N.eqb_eq. }
  exists ascii_alnum, weight0, $"cat! dog cat!! x", [$"cat!"; $"dog cat!!"], $"dog cat!!", $"(dog cat:1.21)",
    $"(cat:1.1) dog (cat:1.1)! x".
  split; [exact C76_words_are_plain|].
  split; [exact (proj1 (bangs_found ascii_alnum _ Hw C76_words_are_plain $"cat! dog cat!! x" []))|].
  split; [right; now left|].
  split; [exists $"dog cat", 2; split; [reflexivity|]; split; [|reflexivity]; cbn; intuition discriminate|].
  split; [vm_compute; reflexivity|]. repeat split.
Qed.

(** Bangs at the end of the text are dropped before they are counted. *)
Theorem C76_bangs_at_the_end_refuted : exists alnum bang_weight s found x new u,
  PlainWords (WordChar alnum) /\
  FindAll (WordChar alnum) (bang_pattern (WordChar alnum)) [] s found /\ In x found /\
  Weighted bang_weight x new /\ tidy alnum bang_weight s = u /\
  u = $"a dog" /\ x = $"a dog!!" /\ new = $"(a dog:1.21)".
Proof.
  assert (Hw : forall c, is_word ascii_alnum c = true <-> WordChar ascii_alnum c).
  { intros c. unfold is_word, WordChar. now rewrite orb_true_iff, N.eqb_eq. }
  exists ascii_alnum, weight0, $"a dog!!", [$"a dog!!"], $"a dog!!", $"(a dog:1.21)", $"a dog".
  split; [exact C76_words_are_plain|].
  split; [exact (proj1 (bangs_found ascii_alnum _ Hw C76_words_are_plain $"a dog!!" []))|].
  split; [now left|].
  split; [exists $"a dog", 2; split; [reflexivity|]; split; [|reflexivity]; cbn; intuition discriminate|].
  split; [vm_compute; reflexivity|]. repeat split.
Qed.

Print Assumptions C76_cleaned_up_as_the_patterns_say.
Print Assumptions C76_only_the_added_text.
Print Assumptions C76_other_texts.
Print Assumptions C76_pairs_of_parentheses_refuted.
Print Assumptions C76_every_phrase_gets_its_weight_refuted.
Print Assumptions C76_bangs_at_the_end_refuted.
