(** C66: combinatorial sequences with random or cyclical parts. *)
From Coq Require Import String NArith ZArith QArith Qcanon Bool Arith List Permutation Lia.
From Verif.Model Require Import Str Utils Command Rng Values Context Sampler.
From Verif.Spec Require Import Text Comb Items StreamRng Lang Enum.
From Verif.Proofs Require Import StrFacts UtilsFacts EnumFacts BindFacts CycleFacts MixedFacts EnumRun.
From Verif.Properties Require Import P_Sampler.
Import ListNotations.
Local Open Scope nat_scope.

(** * C66 *)
(** The assignments [bs] first.  Then the finite parts run through their product.  The [j]-th prompt takes the
    next values of the endless parts; equal endless parts share one stream. *)
Theorem C66_endless_parts_after_assignments : forall G E c c' stream, c_method c = Combinatorial ->
  forall tokens sep bs need toks ls us, tokens <> [] ->
  Assigned (scope_of c) tokens bs need -> EnumFirsts E c need -> Extends c bs c' -> Plain tokens toks ->
  TimedParts E c' stream toks toks ls -> length us = length (product ls) ->
  (forall j arr, nth_error (product ls) j = Some arr ->
     exists u, nth_error us j = Some u /\ Tidy (c_ignws c) (interleave sep (at_time arr j)) u) ->
  exists f, forall m, f <= m ->
    exists g, sample_prompts E m c (WCmd (Seq tokens sep None)) None = MOk g /\
    forall n r, (length us < n -> collect G E m n g r = (us, EndStop, Some r)) /\
      (n <= length us -> exists g', collect G E m n g r = (firstn n us, EndLimit g', Some r)).
Proof. exact mixed_run. Qed.

Theorem C66_endless_parts_advance_once_per_prompt : forall G E c stream, c_method c = Combinatorial ->
  forall tokens sep ls us, tokens <> [] -> Forall (fun tok => ~ is_assign tok) tokens ->
  TimedParts E c stream tokens tokens ls -> length us = length (product ls) ->
  (forall j arr, nth_error (product ls) j = Some arr ->
     exists u, nth_error us j = Some u /\ Tidy (c_ignws c) (interleave sep (at_time arr j)) u) ->
  exists f, forall m, f <= m ->
    exists g, sample_prompts E m c (WCmd (Seq tokens sep None)) None = MOk g /\
    forall n r, (length us < n -> collect G E m n g r = (us, EndStop, Some r)) /\
      (n <= length us -> exists g', collect G E m n g r = (firstn n us, EndLimit g', Some r)).
Proof. exact mixed_run_plain. Qed.

Definition digits : command := Var (opts ["1"; "2"; "3"]%string) 1 1 $"," None.
Definition turn : command := Var (opts ["a"; "b"; "c"; "d"; "e"; "f"]%string) 1 1 $"," (Some Cyclical).
Definition abcdef (k : nat) : text :=
  nth (k mod 6) [$"a"; $"b"; $"c"; $"d"; $"e"; $"f"] [].
Definition streams (_ : command) : nat -> text := abcdef.

(** A cyclical variant of single options, as in the theorem. *)
Lemma turn_cycles : Cyc env0 (ctx0 Combinatorial) turn abcdef.
Proof.
  unfold turn. eapply Cy_var with
    (sels := map (fun o => [fst o]) (opts ["a"; "b"; "c"; "d"; "e"; "f"]%string))
    (sss := map (fun t => [fun _ => t]) [$"a"; $"b"; $"c"; $"d"; $"e"; $"f"]).
  - reflexivity.
  - discriminate.
  - intros (w & mw & vs & q & [=]).
  - exists [map (fun o => [fst o]) (opts ["a"; "b"; "c"; "d"; "e"; "f"]%string)].
    split; [|reflexivity]. repeat constructor; intros [].
  - discriminate.
  - repeat constructor; try (right; reflexivity); intros; reflexivity.
  - intros k. unfold abcdef.
    change (length (map (fun o => [fst o]) (opts ["a"; "b"; "c"; "d"; "e"; "f"]%string))) with 6.
    pose proof (Nat.mod_upper_bound k 6 ltac:(lia)) as H.
    destruct (k mod 6) as [|[|[|[|[|[|n]]]]]]; try (exfalso; lia); cbn [nth map at_time]; constructor.
Qed.

(** The cyclical part moves on with every prompt; in "{1|2|3}-{a..}{a..}" the
    two equal parts take turns on one cycle, the right one first. *)
Definition one_turn : list command := [digits; lit "-"; turn].
Definition two_turns : list command := [digits; lit "-"; turn; turn].
Example C66_example :
  run Combinatorial (Seq one_turn [] None) 9 [] = ([$"1-a"; $"2-b"; $"3-c"], None) /\
  run Combinatorial (Seq two_turns [] None) 9 [] = ([$"1-ba"; $"2-dc"; $"3-fe"], None) /\
  exists ls, TimedParts env0 (ctx0 Combinatorial) streams two_turns two_turns ls /\
    map (fun ja => interleave [] (at_time (snd ja) (fst ja))) (combine [0; 1; 2] (product ls))
      = [$"1-ba"; $"2-dc"; $"3-fe"].
Proof.
  split; [vm_compute; reflexivity|]. split; [vm_compute; reflexivity|].
  assert (Hneq1 : digits <> turn) by discriminate.
  assert (Hneq2 : lit "-" <> turn) by discriminate.
  assert (Ht : ~ finite_mark turn) by (intros [H|H]; discriminate).
  assert (H0 : Occ turn [] 0) by constructor.
  assert (H1 : Occ turn [turn] 1) by (constructor; exact H0).
  assert (H2 : Occ turn two_turns 2).
  { constructor; [exact Hneq1|]. constructor; [exact Hneq2|]. constructor. exact H1. }
  eexists. split.
  - apply TP_finite with (ts := [$"1"; $"2"; $"3"]); [|discriminate|].
    { eapply En_var with (sels := map (fun o => [fst o]) (opts ["1"; "2"; "3"]%string))
        (arrs := [[$"1"]; [$"2"]; [$"3"]]) (kept := [[$"1"]; [$"2"]; [$"3"]]) (outs := [[$"1"]; [$"2"]; [$"3"]]).
      - now left.
      - discriminate.
      - intros (w & mw & vs & q & [=]).
      - exists [map (fun o => [fst o]) (opts ["1"; "2"; "3"]%string)].
        split; [|reflexivity]. repeat constructor; intros [].
      - change [[$"1"]; [$"2"]; [$"3"]]
          with (product [[$"1"]] ++ product [[$"2"]] ++ product [[$"3"]] ++ []).
        repeat (constructor; [apply Enum_combo; repeat constructor|]). constructor.
      - repeat constructor; intros [].
      - repeat constructor; intros H; cbn in H; repeat destruct H as [H|H]; try discriminate; exact H.
      - repeat constructor. }
    apply TP_finite with (ts := [$"-"]); [constructor; now left|discriminate|].
    eapply TP_endless; [exact Ht|exact turn_cycles|exact H2|exact H1|].
    eapply TP_endless; [exact Ht|exact turn_cycles|exact H2|exact H0|].
    constructor.
  - vm_compute. reflexivity.
Qed.

Print Assumptions C66_endless_parts_after_assignments.
Print Assumptions C66_endless_parts_advance_once_per_prompt.
