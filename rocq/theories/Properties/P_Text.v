(** C10-C13: texts. *)
From Coq Require Import String NArith Bool Arith List Permutation.
From Verif.Model Require Import Str Utils.
From Verif.Spec Require Import Text.
From Verif.Proofs Require Import StrFacts UtilsFacts.
Import ListNotations.
Local Open Scope nat_scope.

(** C10 *)
Theorem C10_dedupe_no_repeats : forall l, NoDup (dedupe l).
Proof. exact dedupe_NoDup. Qed.

Theorem C10_dedupe_same_elements : forall l x, In x (dedupe l) <-> In x l.
Proof. exact dedupe_In. Qed.

(** If [x] stands before [y] in the result then [x]'s first occurrence in the
    input comes before [y]'s. *)
Theorem C10_dedupe_first_occurrence_order : forall l i j x y a b,
  i < j -> nth_error (dedupe l) i = Some x -> nth_error (dedupe l) j = Some y ->
  FirstAt l x a -> FirstAt l y b -> a < b.
Proof. exact (fun l => dedupe_aux_order l []). Qed.

Theorem C10_dedupe_idempotent : forall l, dedupe (dedupe l) = dedupe l.
Proof. exact dedupe_idem. Qed.

Theorem C10_dedupe_identity_on_distinct : forall l, NoDup l -> dedupe l = l.
Proof. exact dedupe_id. Qed.

Example C10_example :
  dedupe [$"b"; $"a"; $"b"; $"c"; $"a"] = [$"b"; $"a"; $"c"] /\
  FirstAt [$"b"; $"a"; $"b"; $"c"; $"a"] $"c" 3.
Proof.
  split; [reflexivity|]. split; [reflexivity|].
  intros [|[|[|j]]] H; cbn; try discriminate.
  exfalso. do 3 apply le_S_n in H. inversion H.
Qed.

(** C11 *)
Theorem C11_joined_drops_outer_separators : forall ts sep,
  length ts <> 1 -> sep <> [] ->
  exists mid, DropLeading sep (interleave sep ts) mid /\ DropTrailing sep mid (joined ts sep).
Proof. exact joined_spec. Qed.

Theorem C11_joined_single_untouched : forall t sep, joined [t] sep = t.
Proof. exact joined_single. Qed.

Theorem C11_joined_empty_separator : forall ts, joined ts [] = concat ts.
Proof. exact joined_nil_sep. Qed.

(** The outer texts are at least as long as the separator and do not begin or
    end with it: nothing is trimmed. *)
Theorem C11_joined_exact : forall a ts b sep,
  sep <> [] ->
  length sep <= length a -> ~ StartsWith a sep ->
  length sep <= length b -> ~ EndsWith b sep ->
  joined (a :: ts ++ [b]) sep = interleave sep (a :: ts ++ [b]).
Proof. exact joined_exact_long. Qed.

(** The length condition is needed: with a separator that overlaps itself, text
    is lost although no text begins or ends with the separator. *)
Theorem C11_overlapping_separator_refuted : exists ts sep,
  Forall (fun t => t <> [] /\ ~ StartsWith t sep /\ ~ EndsWith t sep) ts /\
  joined ts sep <> interleave sep ts.
Proof.
  exists [$"ab"; $"x"], $"aba". split; [|vm_compute; discriminate].
  repeat constructor; try discriminate;
  intros [q H]; do 4 (try destruct q as [|? q]); discriminate.
Qed.

Example C11_example :
  joined [[]; $"a"; $"b"] $", " = $"a, b" /\ joined [$"a"; $"b"] $", " = $"a, b" /\
  joined [$","] $"," = $",".
Proof. repeat split; reflexivity. Qed.

(** C12 *)
Theorem C12_squash_keeps_words : forall s ws, Words s ws ->
  squash_whitespace s = interleave [32%N] ws.
Proof. exact squash_words. Qed.

Theorem C12_words_exist : forall s, exists ws, Words s ws.
Proof. exact Words_total. Qed.

Theorem C12_squash_normal_form : forall s, Squashed (squash_whitespace s).
Proof. exact squash_Squashed. Qed.

Theorem C12_normal_form_shape : forall t, Squashed t ->
  (forall c t', t = c :: t' -> ~ Space c) /\
  (forall c t', t = t' ++ [c] -> ~ Space c) /\
  (forall c, In c t -> Space c -> c = 32%N) /\
  (forall a c d b, t = a ++ c :: d :: b -> Space c -> ~ Space d).
Proof. exact Squashed_shape. Qed.

Theorem C12_squash_idempotent : forall s,
  squash_whitespace (squash_whitespace s) = squash_whitespace s.
Proof. exact squash_idem. Qed.

Theorem C12_squash_fixes_normal_forms : forall t, Squashed t -> squash_whitespace t = t.
Proof. exact squash_of_Squashed. Qed.

Example C12_example : squash_whitespace $"  a   b c " = $"a b c".
Proof. reflexivity. Qed.

(** C13 *)
Theorem C13_wrap_cuts_at_first_marker : forall wrapper inner, exists before after,
  CutAtMarker wrapper before after /\ as_wrapper wrapper inner = before ++ inner ++ after.
Proof. exact as_wrapper_cut. Qed.

Theorem C13_cut_is_unique : forall s p q p' q',
  CutAtMarker s p q -> CutAtMarker s p' q' -> p = p' /\ q = q'.
Proof. exact CutAtMarker_unique. Qed.

Example C13_example :
  as_wrapper $"a .... b ... c" $"X" = $"a X b ... c" /\ as_wrapper $"a.." $"X" = $"a..X".
Proof. split; reflexivity. Qed.

Print Assumptions C10_dedupe_no_repeats.
Print Assumptions C10_dedupe_same_elements.
Print Assumptions C10_dedupe_first_occurrence_order.
Print Assumptions C10_dedupe_idempotent.
Print Assumptions C10_dedupe_identity_on_distinct.
Print Assumptions C11_joined_drops_outer_separators.
Print Assumptions C11_joined_single_untouched.
Print Assumptions C11_joined_empty_separator.
Print Assumptions C11_joined_exact.
Print Assumptions C11_overlapping_separator_refuted.
Print Assumptions C12_squash_keeps_words.
Print Assumptions C12_words_exist.
Print Assumptions C12_squash_normal_form.
Print Assumptions C12_normal_form_shape.
Print Assumptions C12_squash_idempotent.
Print Assumptions C12_squash_fixes_normal_forms.
Print Assumptions C13_wrap_cuts_at_first_marker.
Print Assumptions C13_cut_is_unique.
