(** Commands made by callers. *)
From Coq Require Import String NArith ZArith QArith Qcanon Bool Arith List Lia.
From Verif.Model Require Import Str Command Rng Context Parser Build.
From Verif.Spec Require Import Text Names Syntax Build.
From Verif.Proofs Require Import StrFacts SyntaxFacts.
Import ListNotations.
Local Open Scope nat_scope.

Lemma option_prompt : forall ww t, OptionText ww t -> Prompt ww Inside (Lit t None) t.
Proof.
  intros ww t (Hn & Ho & Hc). apply Prompt_elems with (cs := [Lit t None]); [|constructor].
  replace t with (t ++ []) at 2 by apply app_nil_r.
  apply Elems_literal with (q := Inside).
  - now left.
  - assumption.
  - assumption.
  - intros a b E. exfalso. apply Hc. rewrite !app_nil_r in E. now exists a, b.
  - now left.
  - intros _ (k & E). discriminate.
  - constructor.
Qed.

Definition as_option (e : text * Qc) : command * Qc := (Lit (fst e) None, snd e).

Lemma entry_option : forall ww e t, Entry ww e t -> Option ww (as_option e) t.
Proof.
  intros ww e t [t' Ht Hb Hq|t' wt q Ht Hq]; cbn.
  - apply (Option_plain ww [] _ t'); [constructor|now apply option_prompt|assumption|assumption].
  - apply (Option_weighted ww [] wt q _ t'); [constructor|assumption|now apply option_prompt].
Qed.

Lemma entries_options : forall ww es ts, es <> [] -> Forall2 (Entry ww) es ts ->
  Options ww (map as_option es) (interleave $"|" ts).
Proof.
  intros ww es ts Hn H. destruct H as [|e t es ts He H]; [congruence|]. clear Hn.
  cbn [map interleave]. revert e t He. induction H as [|e' t' es ts He' _ IH]; intros e t He; cbn [map flat_map].
  - rewrite app_nil_r. apply Options_one. now apply entry_option.
  - cbn [map] in IH. specialize (IH e' t' He').
    replace (t ++ ($"|" ++ t') ++ flat_map (fun y => $"|" ++ y) ts)
      with (t ++ $"|" ++ t' ++ flat_map (fun y => $"|" ++ y) ts) by now rewrite <- app_assoc.
    apply Options_more; [now apply entry_option|exact IH].
Qed.

Lemma numeral_no_dollar : forall ds n, Numeral ds n -> ~ In 36%N ds.
Proof.
  induction 1 as [d H|ds n d H IH Hd]; intros Hin.
  - destruct Hin as [E|[]]. lia.
  - rewrite in_app_iff in Hin. destruct Hin as [Hin|[E|[]]]; [contradiction|lia].
Qed.
Lemma weight_no_dollar : forall wt q, WeightText wt q -> ~ In 36%N wt.
Proof.
  intros wt q [ds n H|sign neg ip fp n q' Hs H _]; [exact (numeral_no_dollar _ _ H)|].
  apply numeral_no_dollar in H. rewrite in_app_iff in H. rewrite !in_app_iff.
  intros [H'|[H'|[H'|H']]]; try tauto.
  - destruct Hs as [[-> _]|[[-> _]|[-> _]]]; cbn in H'; repeat (destruct H' as [H'|H']; try discriminate); exact H'.
  - cbn in H'. destruct H' as [H'|[]]. discriminate.
Qed.
Lemma entry_no_dollar : forall ww e t, Entry ww e t -> ~ In 36%N t.
Proof.
  assert (HO : forall ww t, OptionText ww t -> ~ In 36%N t).
  { intros ww t (_ & H & _) Hin. rewrite Forall_forall in H. apply (H _ Hin). cbn. tauto. }
  intros ww e t [t' Ht _ _|t' wt q Ht Hq].
  - now apply (HO ww).
  - rewrite !in_app_iff. intros [H|[H|H]].
    + now apply (weight_no_dollar _ _ Hq).
    + cbn in H. repeat (destruct H as [H|H]; try discriminate); exact H.
    + now apply (HO ww t').
Qed.
Lemma entries_no_dollar : forall ww es ts, Forall2 (Entry ww) es ts -> ~ In 36%N (interleave $"|" ts).
Proof.
  intros ww es ts H. destruct H as [|e t es ts He H]; [intros []|]. cbn [interleave]. rewrite in_app_iff.
  intros [Hin|Hin]; [now apply (entry_no_dollar _ _ _ He)|].
  apply in_flat_map in Hin as (y & Hy & [E|Hin]); [discriminate|].
  clear He. induction H as [|e' t' es ts He' _ IH]; [contradiction|].
  destruct Hy as [->|Hy]; [now apply (entry_no_dollar _ _ _ He')|now apply IH].
Qed.

Lemma written_variants : forall ww es ts, es <> [] -> Forall2 (Entry ww) es ts ->
  let o := interleave $"|" ts in ~ MarkStart o -> ~ BlankStart o ->
  Prompt ww Top (Var (map as_option es) 1 1 $"," None) ($"{" ++ o ++ $"}").
Proof.
  intros ww es ts Hn H o Hm Hb. apply Prompt_elems with (cs := [Var (map as_option es) 1 1 $"," None]); [|constructor].
  rewrite <- (app_nil_r ($"{" ++ o ++ $"}")). apply Elems_cons; [|constructor].
  apply (E_variants ww Top [] [] None [] 1 1 $"," (map as_option es) o).
  - constructor.
  - constructor.
  - constructor. intros b lo hi r _ E. apply (entries_no_dollar ww es ts H). fold o. rewrite E, !in_app_iff.
    right. left. now left.
  - now apply entries_options.
  - intros _ _. now split.
Qed.
