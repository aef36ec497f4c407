(** C02, for texts with tabs. *)
From Coq Require Import String NArith ZArith QArith Qcanon Bool Arith List Lia.
From Verif.Model Require Import Str Utils Command Values Context Parser.
From Verif.Spec Require Import Text Syntax Tabs.
From Verif.Proofs Require Import TabFacts SyntaxFacts.
From Verif.Properties Require Import P_Parser.
Import ListNotations.
Local Open Scope nat_scope.

(** * C02 *)
(** Every text is read as the text in which blanks stand for its tabs, and the
    parser accepts exactly those whose tabs stand for blanks of the written
    syntax. *)
Theorem C02_tabs_are_blanks : forall C alnum t, LettersAndDigits C alnum ->
  exists u, Expanded 0 t u /\ ~ In 9%N u /\ forall u', Expanded 0 t u' -> u' = u /\
    parse alnum C t = parse alnum C u.
Proof.
  intros C alnum t [Ha _].
  assert (H9 : alnum 9%N = false) by (apply not_true_is_false; intros E; now apply Ha in E).
  assert (H32 : alnum 32%N = false)
    by (apply not_true_is_false; intros E; apply Ha in E as (_ & _ & _ & E); apply E; left; reflexivity).
  destruct (Expanded_total t 0) as [u Hu]. exists u. split; [exact Hu|]. split; [exact (Expanded_no_tab _ _ _ Hu)|].
  intros u' Hu'. split; [|exact (parse_expanded alnum C t u H9 H32 Hu)].
  apply Expanded_expandtabs in Hu, Hu'. congruence.
Qed.
Theorem C02_parser_accepts_exactly_the_syntax_with_tabs : forall ww alnum c t u,
  WrapText ww -> LettersAndDigits (standard ww) alnum -> Expanded 0 t u -> Uncommented u ->
  parse alnum (standard ww) t = Ok c <-> Prompt ww Top c u.
Proof.
  intros ww alnum c t u Hw Ha Hx Hu.
  destruct (C02_tabs_are_blanks (standard ww) alnum t Ha) as (v & _ & _ & Hv).
  destruct (Hv u Hx) as [-> ->]. apply C02_parser_accepts_exactly_the_syntax; assumption.
Qed.
(** After a new line and two characters a tab is six blanks; in column eight
    it is eight. *)
Definition tabbed : text := $"a" ++ [10%N] ++ $"{b" ++ [9%N] ++ [9%N] ++ $"|c}".
Example C02_example_tabs :
  Expanded 0 tabbed ($"a" ++ [10%N] ++ $"{b              |c}") /\
  parse ascii_alnum default_parser_config tabbed
  = parse ascii_alnum default_parser_config ($"a" ++ [10%N] ++ $"{b              |c}") /\
  Uncommented ($"a" ++ [10%N] ++ $"{b              |c}").
Proof.
  split; [apply Expanded_expandtabs; reflexivity|]. split; [vm_compute; reflexivity|].
  repeat split; try (intros H; vm_compute in H; repeat (destruct H as [H|H]; [discriminate H|]); exact H).
  all: apply absent; reflexivity.
Qed.

Print Assumptions C02_tabs_are_blanks.
Print Assumptions C02_parser_accepts_exactly_the_syntax_with_tabs.
