(** C28 (names), C29, C34 (patterns): wildcard names and glob patterns. *)
From Coq Require Import String NArith ZArith QArith Qcanon Bool Arith List Permutation Lia.
From Verif.Model Require Import Str Utils Rng Values Context Names.
From Verif.Spec Require Import Text Names Lookup.
From Verif.Proofs Require Import StrFacts NamesFacts GlobFacts ManagerFacts LookupFacts.
Import ListNotations.
Local Open Scope nat_scope.

(** Cleaning drops the wraps, keeps the non-empty path components, joins them
    with single slashes, and rejects what then has two dots in a row. *)
Theorem C28_clean_result : forall ww w o,
  Cleaned ww w o <-> clean_wildcard w ww = match o with Some p => Ok p | None => Err EValue end.
Proof. exact Cleaned_iff. Qed.

Theorem C28_cleaned_name_is_safe : forall w ww n, clean_wildcard w ww = Ok n -> SafeName n.
Proof. exact clean_safe. Qed.

(** Safe names are left alone. *)
Theorem C28_safe_name_unchanged : forall n ww,
  SafeName n -> ~ StartsWith n ww -> ~ EndsWith n ww -> clean_wildcard n ww = Ok n.
Proof. exact clean_of_safe. Qed.

(** Nothing but an answer or a ValueError. *)
Theorem C28_clean_outcomes : forall w ww,
  (exists p, clean_wildcard w ww = Ok p) \/ clean_wildcard w ww = Err EValue.
Proof. exact clean_cases. Qed.

Example C28_example_messy :
  clean_wildcard $"__\\a//b/\c/__" $"__" = Ok $"a/b/c".
Proof. vm_compute. reflexivity. Qed.
Example C28_example_escape :
  clean_wildcard $"__../secret__" $"__" = Err EValue /\
  clean_wildcard $"a\..\..\b" $"__" = Err EValue /\
  clean_wildcard $"__/etc/passwd__" $"__" = Ok $"etc/passwd".
Proof. vm_compute. auto. Qed.
(** Cleaning twice can change a name again. *)
Theorem C28_cleaning_idempotent_refuted : exists w ww n,
  clean_wildcard w ww = Ok n /\ clean_wildcard n ww <> Ok n.
Proof.
  exists $"____x____", $"__", $"__x__". split; vm_compute; [reflexivity|discriminate].
Qed.

Theorem C29_wrapped : forall ww n,
  StartsWith (to_wildcard ww n) ww /\ EndsWith (to_wildcard ww n) ww.
Proof. exact to_wildcard_wrapped. Qed.

Theorem C29_recognised : forall ww n, is_wildcard ww (to_wildcard ww n) = true.
Proof.
  intros ww n. destruct (to_wildcard_wrapped ww n) as [H1 H2]. unfold is_wildcard.
  apply startswith_spec in H1. apply endswith_spec in H2. now rewrite H1, H2.
Qed.

(** What is recognised. *)
Theorem C29_recognised_iff : forall ww t,
  is_wildcard ww t = true <-> StartsWith t ww /\ EndsWith t ww.
Proof. intros ww t. unfold is_wildcard. now rewrite andb_true_iff, startswith_spec, endswith_spec. Qed.

Theorem C29_unchanged_when_wrapped : forall ww n, StartsWith n ww -> EndsWith n ww ->
  to_wildcard ww n = n.
Proof. exact to_wildcard_fixed. Qed.

Theorem C29_idempotent : forall ww n, to_wildcard ww (to_wildcard ww n) = to_wildcard ww n.
Proof. intros ww n. apply to_wildcard_fixed; apply to_wildcard_wrapped. Qed.

(** Only missing wraps are added: in front unless the name starts with the
    wrap, behind unless the result so far ends with it. *)
Theorem C29_only_missing_wraps : forall ww n, exists a z,
  to_wildcard ww n = a ++ n ++ z /\
  ((a = [] /\ StartsWith n ww) \/ (a = ww /\ ~ StartsWith n ww)) /\
  ((z = [] /\ EndsWith (a ++ n) ww) \/ (z = ww /\ ~ EndsWith (a ++ n) ww)).
Proof.
  intros ww n. destruct (to_wildcard_adds ww n) as (a & z & E & Ha & Hz).
  exists a, z. split; [assumption|]. split; [|assumption].
  destruct (startswith n ww) eqn:Es; [left|right]; (split; [assumption|]).
  - now apply startswith_spec.
  - intros H. apply startswith_spec in H. congruence.
Qed.

Theorem C29_clean_inverts : forall ww n, SafeName n ->
  ww = [] \/ (~ StartsWith n ww /\ ~ EndsWith n ww) ->
  clean_wildcard (to_wildcard ww n) ww = Ok n.
Proof. exact clean_to_wildcard. Qed.

Example C29_example :
  to_wildcard $"__" $"colours/warm" = $"__colours/warm__" /\
  to_wildcard $"__" $"__x" = $"__x__" /\ to_wildcard $"__" $"_" = $"___" /\
  clean_wildcard $"___" $"__" = Ok $"_".
Proof. vm_compute. auto. Qed.
Example C29_example_safe : SafeName $"colours/warm" /\ ~ StartsWith $"colours/warm" $"__" /\
  ~ EndsWith $"colours/warm" $"__".
Proof.
  split; [apply (clean_safe $"__colours//warm__" $"__"); vm_compute; reflexivity|].
  split.
  - intros H. apply startswith_spec in H. vm_compute in H. discriminate.
  - intros H. apply endswith_spec in H. vm_compute in H. discriminate.
Qed.
(** A name that itself starts with the wrap is not given back. *)
Theorem C29_clean_inverts_always_refuted : exists ww n,
  SafeName n /\ clean_wildcard (to_wildcard ww n) ww <> Ok n.
Proof.
  exists $"__", $"__x". split.
  - apply (clean_safe $"____x__" $"__"). vm_compute. reflexivity.
  - vm_compute. discriminate.
Qed.

(** The matcher decides the declarative meaning of patterns. *)
Theorem C34_matcher : forall name pat, fnmatch name pat = true <-> Glob pat name.
Proof. exact fnmatch_Glob. Qed.

Theorem C34_plain_pattern : forall pat name, NoGlob pat -> (fnmatch name pat = true <-> name = pat).
Proof. intros pat name H. rewrite fnmatch_Glob. now apply Glob_plain. Qed.

(** A star stands for any text, slashes included. *)
Theorem C34_star : forall pre post name, NoGlob pre -> NoGlob post ->
  (fnmatch name (pre ++ $"*" ++ post) = true <-> exists any, name = pre ++ any ++ post).
Proof.
  intros pre post name H1 H2. rewrite fnmatch_Glob. change ($"*" ++ post) with (42%N :: post).
  rewrite (Glob_lit_app pre H1). split.
  - intros (t & -> & H). apply Glob_star_app in H as (a & b & -> & Hb).
    apply (Glob_plain post H2) in Hb. subst. now exists a.
  - intros (any & ->). exists (any ++ post). split; [reflexivity|].
    apply Glob_star_app. exists any, post. split; [reflexivity|]. now apply Glob_plain.
Qed.

Theorem C34_fallback_pattern : forall n name, NoGlob n ->
  (fnmatch name ($"**/" ++ n) = true <-> EndsWith name (slash :: n)).
Proof. intros n name H. rewrite fnmatch_Glob. now apply Glob_fallback. Qed.

Example C34_example :
  fnmatch $"a/b/c" $"a/*c" = true /\ fnmatch $"a/b/c" $"a/?/[a-d]" = true /\
  fnmatch $"a/b/c" $"a/[!b]/c" = false /\ fnmatch $"ab" $"a" = false /\
  fnmatch $"x/warm" $"**/warm" = true /\ fnmatch $"warm" $"**/warm" = false.
Proof. vm_compute. repeat split. Qed.

Print Assumptions C28_clean_result.
Print Assumptions C28_cleaned_name_is_safe.
Print Assumptions C28_safe_name_unchanged.
Print Assumptions C28_clean_outcomes.
Print Assumptions C28_cleaning_idempotent_refuted.
Print Assumptions C29_wrapped.
Print Assumptions C29_recognised.
Print Assumptions C29_recognised_iff.
Print Assumptions C29_unchanged_when_wrapped.
Print Assumptions C29_idempotent.
Print Assumptions C29_only_missing_wraps.
Print Assumptions C29_clean_inverts.
Print Assumptions C29_clean_inverts_always_refuted.
Print Assumptions C34_matcher.
Print Assumptions C34_plain_pattern.
Print Assumptions C34_star.
Print Assumptions C34_fallback_pattern.
