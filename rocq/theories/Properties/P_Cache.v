(** C74: the cache of parsers. *)
From Coq Require Import String NArith ZArith QArith Qcanon Bool List.
From Verif.Model Require Import Str Command Rng Context Parser ParserCache.
From Verif.Spec Require Import Text Syntax.
From Verif.Proofs Require Import CacheFacts.
Import ListNotations.
Local Open Scope nat_scope.

(** Whatever was parsed before, under whatever configurations, and whichever
    of their parsers have been dropped: a text is parsed as by a new parser. *)
Theorem C74_earlier_parses_do_not_matter : forall alnum (events : list cache_event) C s,
  fst (parse_with_cache alnum C s (cache_run alnum events)) = parse alnum C s.
Proof.
  intros alnum events C s. apply good_step. unfold cache_run.
  assert (H : forall cache, Good alnum cache ->
    Good alnum (fold_left (fun cache e => cache_step alnum e cache) events cache)).
  { induction events as [|e events IH]; intros cache Hc; [exact Hc|]. cbn [fold_left]. apply IH.
    destruct e as [C' s'|C']; [exact (proj2 (good_step alnum C' s' cache Hc))|now apply good_collected]. }
  apply H. intros C' p s' Hf. discriminate.
Qed.

(** Two configurations that differ in one mark, used in turn. *)
Definition angle : parser_config := {|
  variant_start := $"<"; variant_end := $">"; wildcard_wrap := $"__";
  variable_start := $"${"; variable_end := $"}"; wrap_start := $"%{"; wrap_end := $"}" |}.
Definition events74 : list cache_event :=
  [Parsing (standard $"__") $"{a|b}"; Parsing angle $"<a|b>"; Collected (standard $"__");
   Parsing (standard $"**") $"{a|b}"; Parsing (standard $"__") $"{a|b}"].
Example C74_example : exists c d,
  fst (parse_with_cache (fun _ => false) (standard $"__") $"<c|d>" (cache_run (fun _ => false) events74)) = Ok c /\
  fst (parse_with_cache (fun _ => false) angle $"<c|d>" (cache_run (fun _ => false) events74)) = Ok d /\
  c <> d /\ length (cache_run (fun _ => false) events74) = 3.
Proof.
  do 2 eexists. split; [vm_compute; reflexivity|]. split; [vm_compute; reflexivity|].
  split; [discriminate|]. vm_compute. reflexivity.
Qed.

Print Assumptions C74_earlier_parses_do_not_matter.
