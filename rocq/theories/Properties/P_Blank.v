(** C88: white space in templates. *)
From Coq Require Import String NArith ZArith QArith Qcanon Bool Arith List Lia.
From Verif.Model Require Import Str Utils Command Rng Values Context Sampler Parser.
From Verif.Spec Require Import Text Lang StreamRng Blank.
From Verif.Proofs Require Import StrFacts UtilsFacts CommandFacts Soundness MentionFacts BlankFacts.
From Verif.Properties Require Import P_Sampler P_Parser P_EndToEnd P_Inline.
Import ListNotations.
Local Open Scope nat_scope.

Lemma sq_made : forall E c p cmd limit fuel, c_ignws c = true -> Reads E p cmd -> forall g,
  mk fuel c cmd = MOk g ->
  sample_prompts E fuel c p limit = MOk (match limit with None => GSquash g | Some n => GSlice n (GSquash g) end).
Proof.
  intros E c p cmd limit fuel Hc Hp g Hg. unfold sample_prompts. inversion Hp as [s ? Hs Hps|? Hne]; subst.
  - destruct s; [congruence|]. rewrite Hps, Hg, Hc. reflexivity.
  - apply truthy_Nonempty in Hne. rewrite Hne, Hg, Hc. reflexivity.
Qed.
Lemma sq_run : forall g h limit, bl g h ->
  sq (match limit with None => GSquash g | Some n => GSlice n (GSquash g) end)
     (match limit with None => GSquash h | Some n => GSlice n (GSquash h) end).
Proof. intros g h [n|] H; repeat constructor; exact H. Qed.

(** * C88 *)
(** When white space is squashed, other white space between the parts of a
    template, at its start and at its end gives the same prompts, exceptions
    and use of the random source. *)
Theorem C88_white_space_between_parts : forall G E parts parts' m c p p' limit fuel,
  c_ignws c = true -> Spread true parts parts' ->
  Reads E p (Seq parts [] m) -> Reads E p' (Seq parts' [] m) -> fuel <> 0 ->
  exists g h, sample_prompts E fuel c p limit = MOk g /\ sample_prompts E fuel c p' limit = MOk h /\
    forall f n r,
      let '(ts, e, s) := collect G E f n g r in
      let '(us, e', s') := collect G E f n h r in
      ts = us /\ s = s' /\ (e = EndStop <-> e' = EndStop) /\ forall y, e = EndRaise y <-> e' = EndRaise y.
Proof.
  intros G E parts parts' m c p p' limit fuel Hc HS Hp Hp' Hf. destruct fuel as [|k]; [congruence|].
  assert (HM : exists g h, mk (S k) c (Seq parts [] m) = MOk g /\ mk (S k) c (Seq parts' [] m) = MOk h /\ bl g h).
  { cbn [mk]. change (chosen_method c (Seq parts' [] m)) with (chosen_method c (Seq parts [] m)).
    destruct (chosen_method c (Seq parts [] m)) eqn:Em; do 2 eexists; (split; [reflexivity|]); (split; [reflexivity|]);
      constructor; auto. }
  destruct HM as (g & h & Hg & Hh & HB). do 2 eexists. split; [eapply sq_made; eassumption|]. split; [eapply sq_made; eassumption|].
  intros f n r. apply collect_sq. apply sq_run, HB.
Qed.
Theorem C88_white_space_of_texts : forall G E s t m c p p' limit fuel,
  c_ignws c = true -> AlikeText true true s t ->
  Reads E p (Lit s m) -> Reads E p' (Lit t m) -> fuel <> 0 ->
  exists g h, sample_prompts E fuel c p limit = MOk g /\ sample_prompts E fuel c p' limit = MOk h /\
    forall f n r,
      let '(ts, e, s) := collect G E f n g r in
      let '(us, e', s') := collect G E f n h r in
      ts = us /\ s = s' /\ (e = EndStop <-> e' = EndStop) /\ forall y, e = EndRaise y <-> e' = EndRaise y.
Proof.
  intros G E s t m c p p' limit fuel Hc HS Hp Hp' Hf. destruct fuel as [|k]; [congruence|].
  assert (HM : exists g h, mk (S k) c (Lit s m) = MOk g /\ mk (S k) c (Lit t m) = MOk h /\ bl g h).
  { cbn [mk]. change (chosen_method c (Lit t m)) with (chosen_method c (Lit s m)).
    destruct (chosen_method c (Lit s m)); do 2 eexists; (split; [reflexivity|]); (split; [reflexivity|]);
      (eapply bl_text; [exact HS|constructor]). }
  destruct HM as (g & h & Hg & Hh & HB). do 2 eexists. split; [eapply sq_made; eassumption|]. split; [eapply sq_made; eassumption|].
  intros f n r. apply collect_sq. apply sq_run, HB.
Qed.

(** [${s={hot|cold}}In ${s} water] over several lines. *)
Definition nl : str := [10%N].
Definition squashing (m : method) : ctx :=
  {| c_method := m; c_ignws := true; c_vars := []; c_unknown := None; c_busy := [] |}.
Definition one_line : str := $"${s={hot|cold}}In ${s} water".
Definition two_lines : str := $"${s={hot|cold}}" ++ nl ++ nl ++ $"  In" ++ nl ++ $"  ${s}" ++ nl ++ $"water" ++ nl.
Definition one_line_parts : list command :=
  [Assign $"s" hot_cold false true; lit "In "; Access $"s" None; lit " water"].
Definition two_lines_parts : list command :=
  [Assign $"s" hot_cold false true; Lit (nl ++ nl ++ $"  In" ++ nl ++ $"  ") None; Access $"s" None;
   Lit (nl ++ $"water" ++ nl) None].
Lemma blanks : forall s, forallb isspace s = true -> Forall Space s.
Proof. intros s. apply Forall_isspace. Qed.
Example C88_example :
  Reads no_wildcards (WStr one_line) (Seq one_line_parts [] None) /\
  Reads no_wildcards (WStr two_lines) (Seq two_lines_parts [] None) /\
  Spread true one_line_parts two_lines_parts.
Proof.
  split; [constructor; [discriminate|vm_compute; reflexivity]|].
  split; [constructor; [discriminate|vm_compute; reflexivity]|].
  apply Spread_quiet; [do 4 eexists; reflexivity|].
  apply (Spread_text true false); [|discriminate|].
  { exists [], $"In ", [], (nl ++ nl ++ $"  "), ($"In" ++ nl ++ $"  "), [].
    do 2 (split; [reflexivity|]). do 4 (split; [apply blanks; reflexivity|]). split; [discriminate|]. split; [auto|].
    apply (Respaced_app $"In" $"In"); [apply Respaced_refl|].
    apply (Respaced_run $" " (nl ++ $"  ") [] []); [apply blanks; reflexivity|apply blanks; reflexivity|discriminate|discriminate|constructor]. }
  apply Spread_same. apply (Spread_text false true); [|intros _; constructor|constructor].
  exists [], $" water", [], [], (nl ++ $"water"), nl.
  do 2 (split; [reflexivity|]). do 4 (split; [apply blanks; reflexivity|]). split; [auto|]. split; [discriminate|].
  apply (Respaced_run $" " nl $"water" $"water"); [apply blanks; reflexivity|apply blanks; reflexivity|discriminate|discriminate|apply Respaced_refl].
Qed.
Definition squashed_prompts (c : ctx) (s : str) : list str :=
  match sample_prompts no_wildcards 60 c (WStr s) None with
  | MOk g => fst (fst (collect stream_rng no_wildcards 60 9 g []))
  | _ => []
  end.
Example C88_example_run :
  squashed_prompts (squashing Combinatorial) two_lines = [$"In hot water"; $"In cold water"] /\
  squashed_prompts (squashing Combinatorial) one_line = [$"In hot water"; $"In cold water"].
Proof. split; vm_compute; reflexivity. Qed.
(** The guide says that the parser ignores white space.  It does not: without
    squashing the prompts have it, *)
Theorem C88_ignored_by_the_parser_refuted :
  squashed_prompts (ctx0 Combinatorial) two_lines <> squashed_prompts (ctx0 Combinatorial) one_line.
Proof. intros H. vm_compute in H. discriminate H. Qed.
(** and white space inside an option stays, as a blank, with squashing too.
    So the guide's example, which as printed lacks a brace and is not accepted,
    has a blank before the comma. *)
Definition guide_example (closing : str) : str :=
  $"    # Set the season variable" ++ nl ++ $"    ${season={" ++ nl ++ $"        summer" ++ nl ++ $"	|autumn" ++ nl ++
  $"	# | fall    # commented this value out" ++ nl ++ $"	|winter" ++ nl ++ $"	|spring" ++ nl ++ $"    }" ++ closing ++ nl ++ nl ++
  $"   In ${season:summer}, I wear ${season:summer} shirts and ${season:summer} trousers".
Theorem C88_guide_example_refuted :
  parse ascii_alnum default_parser_config (guide_example []) = Err EParse /\
  hd [] (squashed_prompts (squashing Combinatorial) (guide_example $"}")) =
    $"In summer , I wear summer shirts and summer trousers".
Proof. split; vm_compute; reflexivity. Qed.

Print Assumptions C88_white_space_between_parts.
Print Assumptions C88_white_space_of_texts.
Print Assumptions C88_ignored_by_the_parser_refuted.
Print Assumptions C88_guide_example_refuted.
