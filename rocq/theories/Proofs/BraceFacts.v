(** With closing marks that options do not end at there are no values, no
    defaults and no wraps. *)
From Coq Require Import String NArith ZArith QArith Qcanon Bool Arith List Sorted Lia.
From Verif.Model Require Import Str Command Rng Context Parser.
From Verif.Spec Require Import Text Names Lookup Lang Syntax Shape Braces.
From Verif.Proofs Require Import StrFacts DictFacts ManagerFacts ParserFacts TokenFacts SyntaxFacts ReadFacts ShapeFacts.
Import ListNotations.
Local Open Scope nat_scope.

Inductive Bare (nv nw : Prop) : command -> Prop :=
| Bare_lit : forall t m, Bare nv nw (Lit t m)
| Bare_seq : forall ts sep m, Forall (Bare nv nw) ts -> Bare nv nw (Seq ts sep m)
| Bare_var : forall vs lo hi sep m, Forall (fun v => Bare nv nw (fst v)) vs -> Bare nv nw (Var vs lo hi sep m)
| Bare_wild : forall p m vars, (forall c, p = WCmd c -> Bare nv nw c) ->
    Forall (fun kv => Bare nv nw (snd kv)) vars -> Bare nv nw (Wild p m vars)
| Bare_assign : forall x v imm ovr, ~ nv -> Bare nv nw v -> Bare nv nw (Assign x v imm ovr)
| Bare_access : forall x, Bare nv nw (Access x None)
| Bare_default : forall x d, (nv -> d = Lit x None) -> Bare nv nw d -> Bare nv nw (Access x (Some d))
| Bare_wrap : forall w i m, ~ nw -> Bare nv nw w -> Bare nv nw i -> Bare nv nw (Wrap w i m).

Lemma part_bare : forall nv nw d c, Part d c -> Bare nv nw c -> Bare nv nw d.
Proof.
  intros nv nw d c H. induction H; intros B; auto; inversion B; subst; auto;
    match goal with
    | F : Forall _ _, I : In _ _ |- _ => rewrite Forall_forall in F; auto
    end.
Qed.

Lemma rounds_end_stop : forall A (p : str -> pres A) n s,
  gives (fun _ r => p r = PFail) (many_rounds n never p s).
Proof.
  intros A p n s. eapply gives_mono; [apply rounds_end|]. intros a r [H _]. exact H.
Qed.

Lemma suffix_length : forall r s, Suffix r s -> length r <= length s.
Proof. intros r s [p ->]. rewrite app_length. lia. Qed.

Section Bare.
Variable alnum : char -> bool.
Variable C : parser_config.
Let nv := Unseen C (variable_end C).
Let nw := Unseen C (wrap_end C).
Notation B := (Bare nv nw).

Lemma ends_option_bad : forall c, variant_bad C c = true -> EndsOption C c.
Proof.
  intros c. unfold variant_bad, top_bad, mem, EndsOption. rewrite orb_true_iff, !existsb_exists.
  intros [(d & Hd & E)|(d & Hd & E)]; apply N.eqb_eq in E; subst d.
  - rewrite !in_app_iff in Hd. cbn in Hd |- *. tauto.
  - rewrite in_app_iff in Hd. cbn in Hd |- *. tauto.
Qed.

(** Where no literal begins, no unseen mark is found. *)
Lemma unseen_head : forall mark r, Unseen C mark -> literal C (variant_bad C) r = PFail ->
  ~ BlankStart (skip r) /\ startswith (skip r) mark = false.
Proof.
  intros mark r (c & q & -> & H) Hl. unfold literal in Hl.
  destruct (skip r) as [|x u].
  { split; [intros (? & ? & K & _); discriminate K|reflexivity]. }
  cbn [literal_run] in Hl.
  assert (Hx : x = c \/ Blank x -> False).
  { intros K. destruct (H x K) as [H1 (w & p & Ew & Hw)]. rewrite Ew in Hl.
    destruct (variant_bad C x) eqn:Eb; [apply H1, ends_option_bad, Eb|].
    rewrite orb_false_r in Hl. cbn [startswith] in Hl.
    destruct (N.eqb_spec w x) as [->|]; [congruence|].
    destruct (N.eqb_spec x w) as [->|]; [congruence|]. cbn in Hl.
    destruct (literal_run C (variant_bad C) u); discriminate Hl. }
  split.
  - intros (y & z & E & Hy). injection E as <- <-. auto.
  - apply startswith_false. intros [z E]. injection E as -> _. auto.
Qed.
Lemma unseen_tok : forall mark r, Unseen C mark -> literal C (variant_bad C) r = PFail ->
  tok mark r = PFail /\ tok mark (opt_ws r) = PFail.
Proof.
  intros mark r Hm Hl. destruct (unseen_head mark r Hm Hl) as [H1 H2].
  assert (E : opt_ws r = skip r).
  { unfold opt_ws. apply drop_while_nonhead. intros c s Ec. destruct (blank c) eqn:Eb; [|reflexivity].
    exfalso. apply H1. exists c, s. split; [exact Ec|apply blank_spec, Eb]. }
  rewrite E. unfold tok. rewrite skip_idem, H2. split; reflexivity.
Qed.

Lemma literal_sequence_end : forall bad r, literal_sequence C bad r = PFail -> literal C bad r = PFail.
Proof.
  intros bad r. unfold literal_sequence, many1, many. cbn [many_rounds never].
  destruct (literal C bad r) as [a s| |e|] eqn:E; try discriminate; try reflexivity.
  unfold literal in E. destruct (literal_run C bad (skip r)) as [[|c a'] r'] eqn:El; [discriminate|].
  injection E as <- <-.
  assert (Hl : length r' < length r).
  { apply literal_run_app in El. pose proof (suffix_length _ _ (skip_suffix r)) as Hs.
    rewrite El in Hs. cbn in Hs. rewrite app_length in Hs. lia. }
  intros H. exfalso.
  assert (Hm : forall n s, length s < n -> exists l q, many_rounds n never (literal C bad) s = POk l q).
  { induction n as [|n IH]; intros s Hn; [lia|]. cbn [many_rounds never].
    unfold literal at 1. destruct (literal_run C bad (skip s)) as [[|d b] q] eqn:Eq; [eauto|].
    apply literal_run_app in Eq. pose proof (suffix_length _ _ (skip_suffix s)) as Hs.
    rewrite Eq in Hs. cbn in Hs. rewrite app_length in Hs.
    destruct (IH q) as (l & z & ->); [lia|]. eauto. }
  destruct (Hm (length r) r' Hl) as (l & q & E). rewrite E in H. discriminate H.
Qed.

Lemma bare_together : forall cs, Forall B cs -> B (sequence_or_single cs).
Proof.
  intros [|a [|b cs]] H; cbn; [constructor; constructor| |constructor; exact H].
  inversion H; assumption.
Qed.

Section Rec.
Variable V T : str -> pres command.
Hypothesis HV : forall s, gives (fun c r => B c /\ literal C (variant_bad C) r = PFail) (V s).
Hypothesis HT : forall s, gives (fun c _ => B c) (T s).

Lemma variant_bare : forall s, gives (fun v _ => B (fst v)) (variant V s).
Proof.
  intros s. unfold variant. apply gives_skip; intros w s1. apply gives_bind.
  eapply gives_mono; [apply HV|]. intros c s2 [Hc _]. exact Hc.
Qed.
Lemma variants_list_bare : forall s,
  gives (fun vs _ => Forall (fun v => B (fst v)) vs) (variants_list V s).
Proof.
  intros s. unfold variants_list. apply gives_bind. eapply gives_mono; [apply variant_bare|].
  intros v s1 Hv. apply gives_bind. eapply gives_mono; [apply (gives_rounds _ never (fun v => B (fst v)))|].
  - intros s2. apply gives_skip; intros _ s3. apply variant_bare.
  - intros vs s2 Hvs. cbn. constructor; auto.
Qed.
Lemma variants_bare : forall s, gives (fun c _ => B c) (variants C V s).
Proof.
  intros s. unfold variants. apply gives_skip; intros _ s1. apply gives_skip; intros m s2.
  apply gives_skip; intros b s3.
  apply gives_bind. eapply gives_mono; [apply variants_list_bare|]. intros vs s4 Hvs.
  apply gives_skip; intros _ s5.
  destruct (bounds_of b (length vs)) as [[lo hi] sep] eqn:E. cbn [gives].
  unfold mk_variant. destruct (post_init_bounds lo hi). constructor. exact Hvs.
Qed.
Lemma access_bare : forall s,
  gives (fun nd _ => NameText (fst nd) /\ forall c, snd nd = Some c -> ~ nv /\ B c) (access C V s).
Proof.
  intros s. unfold access. apply gives_skip; intros _ s1. apply gives_bind.
  eapply gives_mono; [apply var_name_gives|]. intros x s2 Hx.
  apply gives_bind.
  eapply gives_mono; [apply (gives_popt _ (fun c r => B c /\ literal C (variant_bad C) r = PFail))|].
  - apply gives_skip; intros _ s3. apply HV.
  - intros [d|] s3 Hd.
    + specialize (Hd d eq_refl). destruct Hd as [Hd Hl].
      destruct (tok (variable_end C) (opt_ws s3)) as [u r| |e|] eqn:E; cbn; auto.
      split; [exact Hx|]. intros c Hc. injection Hc as <-. split; [|exact Hd].
      intros K. destruct (unseen_tok _ _ K Hl) as [_ K']. congruence.
    + apply gives_skip; intros _ s4. cbn. split; [exact Hx|discriminate].
Qed.
Lemma variable_access_bare : forall s, gives (fun c _ => B c) (variable_access C V s).
Proof.
  intros s. unfold variable_access. apply gives_bind. eapply gives_mono; [apply access_bare|].
  intros [x [d|]] s1 [Hx Hd]; cbn.
  - destruct (Hd d eq_refl) as [H1 H2]. apply Bare_default; [intros K; contradiction|exact H2].
  - constructor.
Qed.
Lemma strip_name : forall x, NameText x -> strip x = x.
Proof.
  intros x (c & r & -> & Hc & Hr). unfold strip.
  assert (Hs : forall d, In d (c :: r) -> isspace d = false).
  { assert (Hn : forall d, NameChar d -> isspace d = false).
    { intros d Hd. destruct (isspace d) eqn:E; [|reflexivity]. exfalso.
      unfold isspace in E. repeat rewrite ?orb_true_iff, ?andb_true_iff, ?N.leb_le, ?N.eqb_eq in E.
      unfold NameChar, NameStart, Letter in Hd. lia. }
    intros d [<-|Hd]; apply Hn; [left; exact Hc|]. rewrite Forall_forall in Hr. auto. }
  unfold strip_by.
  rewrite (drop_while_nonhead isspace (c :: r)).
  2:{ intros d s E. apply Hs. rewrite E. left; reflexivity. }
  rewrite (drop_while_nonhead isspace (rev (c :: r))).
  2:{ intros d s E. apply Hs. apply in_rev. rewrite E. left; reflexivity. }
  apply rev_involutive.
Qed.
Lemma wildcard_variable_access_bare : forall s, gives (fun c _ => B c) (wildcard_variable_access C V s).
Proof.
  intros s. unfold wildcard_variable_access. apply gives_bind. eapply gives_mono; [apply access_bare|].
  intros [x d] s1 [Hx Hd]. cbn [fst snd] in *. destruct d as [d|].
  - destruct (Hd d eq_refl) as [H1 H2].
    destruct (if truthy d then d else Lit x None); cbn; auto.
    apply Bare_default; [intros K; contradiction|constructor].
  - cbn. rewrite (strip_name x Hx). apply Bare_default; [reflexivity|constructor].
Qed.
Lemma variable_assignment_bare : forall s, gives (fun c _ => B c) (variable_assignment C V s).
Proof.
  intros s. unfold variable_assignment. apply gives_skip; intros _ s1. apply gives_skip; intros x s2.
  apply gives_skip; intros pr s3. apply gives_skip; intros _ s4. apply gives_skip; intros im s5.
  apply gives_bind. eapply gives_mono; [apply HV|]. intros c s6 [Hc Hl].
  destruct (tok (variable_end C) (opt_ws s6)) as [u r| |e|] eqn:E; cbn; auto.
  apply Bare_assign; [|exact Hc]. intros K. destruct (unseen_tok _ _ K Hl) as [_ K']. congruence.
Qed.
Lemma wrap_bare : forall s, gives (fun c _ => B c) (wrap_command C V s).
Proof.
  intros s. unfold wrap_command. apply gives_skip; intros _ s1. apply gives_bind.
  eapply gives_mono; [apply HV|]. intros c s2 [Hc _]. apply gives_skip; intros _ s3. apply gives_bind.
  eapply gives_mono; [apply HV|]. intros d s4 [Hd Hl].
  destruct (tok (wrap_end C) s4) as [u r| |e|] eqn:E; cbn; auto.
  apply Bare_wrap; auto. intros K. destruct (unseen_tok _ _ K Hl) as [K' _]. congruence.
Qed.
Lemma literal_bare : forall bad s, gives (fun c _ => B c) (literal_sequence C bad s).
Proof.
  intros bad s. eapply gives_mono; [apply literal_sequence_gives|].
  intros c r ((t & Ht & ->) & _). constructor.
Qed.
Lemma wildcard_prompt_bare : forall s, gives (fun c _ => B c) (wildcard_prompt C V s).
Proof.
  intros s. unfold wildcard_prompt. apply gives_bind.
  eapply gives_mono; [apply (gives_many1 _ _ B)|].
  - intros s1. unfold wildcard_chunk. repeat (apply gives_alt; [|intros _]).
    + apply wildcard_variable_access_bare.
    + apply variants_bare.
    + apply literal_bare.
    + apply literal_bare.
  - intros l r [Hf _]. cbn. apply bare_together, Hf.
Qed.
Lemma spec_pairs_bare : forall pairs d, Forall (fun kv => B (snd kv)) d ->
  gives (fun d _ => Forall (fun kv => B (snd kv)) d) (spec_pairs alnum T pairs d).
Proof.
  induction pairs as [|kv pairs IH]; intros d Hf; cbn [spec_pairs]; [exact Hf|].
  destruct (partition_eq kv) as [k v]. apply gives_bind.
  assert (Hv : gives (fun c _ => B c) (spec_value alnum T (strip v))).
  { unfold spec_value. destruct (isalnum alnum (strip v)) eqn:E; [|apply HT]. constructor. }
  eapply gives_mono; [exact Hv|]. intros c r Hc. apply IH.
  clear - Hf Hc. induction Hf as [|[k' v'] d H Hf IH]; cbn.
  - constructor; [exact Hc|constructor].
  - destruct (str_eqb (strip k) k'); [constructor; auto|]. destruct (str_leb (strip k) k'); [constructor; [exact Hc|constructor; auto]|constructor; auto].
Qed.
Lemma wildcard_bare : forall s, gives (fun c _ => B c) (wildcard alnum C V T s).
Proof.
  intros s. unfold wildcard. apply gives_skip; intros _ s1. apply gives_skip; intros m s2.
  apply gives_bind. eapply gives_mono; [apply wildcard_prompt_bare|]. intros path s3 H1.
  apply gives_skip; intros spec s4. apply gives_skip; intros _ s5. apply gives_bind.
  assert (Hv : gives (fun d _ => Forall (fun kv => B (snd kv)) d)
    match spec with Some t => spec_pairs alnum T (split_char 44 t) [] | None => POk [] [] end).
  { destruct spec; [apply spec_pairs_bare; constructor|constructor]. }
  eapply gives_mono; [exact Hv|]. intros vars s6 Hf. cbn [gives]. apply Bare_wild; auto.
  intros c Hc. destruct path; try discriminate Hc; injection Hc as <-; auto.
Qed.
Lemma prompt_bare : forall s, gives (fun c _ => B c) (prompt alnum C V T s).
Proof.
  intros s. unfold prompt. apply gives_bind. eapply gives_mono; [apply (gives_rounds _ _ B)|].
  - intros s1. unfold chunk. repeat (apply gives_alt; [|intros _]).
    + apply variable_assignment_bare.
    + apply variable_access_bare.
    + apply wrap_bare.
    + apply variants_bare.
    + apply wildcard_bare.
    + apply literal_bare.
  - intros l r Hf. cbn. apply bare_together, Hf.
Qed.
Lemma alt_fails : forall A (p q : str -> pres A) s, alt p q s = PFail -> p s = PFail /\ q s = PFail.
Proof. intros A p q s. unfold alt. destruct (p s); try discriminate. auto. Qed.
Lemma variant_prompt_bare : forall s,
  gives (fun c r => B c /\ literal C (variant_bad C) r = PFail) (variant_prompt_body alnum C V T s).
Proof.
  intros s. unfold variant_prompt_body. unfold many.
  pose proof (rounds_end_stop _ (variant_chunk alnum C V T) (S (length (skip s))) (skip s)) as H1.
  pose proof (gives_rounds _ never B (variant_chunk alnum C V T)) as H2.
  specialize (H2 ltac:(
    intros s1; unfold variant_chunk; repeat (apply gives_alt; [|intros _]);
    [apply variable_access_bare|apply wrap_bare|apply variants_bare|apply wildcard_bare|apply literal_bare])
    (S (length (skip s))) (skip s)).
  destruct (many_rounds (S (length (skip s))) never (variant_chunk alnum C V T) (skip s)) as [l r| |e|]; cbn in *; auto.
  split; [apply bare_together, H2|]. unfold variant_chunk in H1.
  repeat (apply alt_fails in H1; destruct H1 as [_ H1]). apply literal_sequence_end, H1.
Qed.
Lemma parse_body_bare : forall s, gives (fun c _ => B c) (parse_body alnum C V T s).
Proof.
  intros s. unfold parse_body. destruct (isalnum alnum s); [constructor|].
  unfold grammar_body. apply gives_bind. eapply gives_mono; [apply prompt_bare|].
  intros c r H. destruct (drop_while blank (skip r)); [exact H|exact I].
Qed.
End Rec.

Lemma parsers_bare : forall n,
  (forall s, gives (fun c r => B c /\ literal C (variant_bad C) r = PFail) (fst (parsers alnum C n) s)) /\
  (forall s, gives (fun c _ => B c) (snd (parsers alnum C n) s)).
Proof.
  induction n as [|n [IH1 IH2]]; cbn [parsers]; [split; intros; exact I|].
  destruct (parsers alnum C n) as [V T]. cbn [fst snd] in *. split; intros s.
  - apply variant_prompt_bare; assumption.
  - apply parse_body_bare; assumption.
Qed.
Theorem parse_bare : forall t c, parse alnum C t = Ok c -> B c.
Proof.
  intros t c. unfold parse, parse_raw, parse_depth. pose proof (proj2 (parsers_bare (depth t)) t) as H.
  destruct (snd (parsers alnum C (depth t)) t) as [c' r| |e|]; cbn in *; try discriminate.
  intros K. injection K as <-. exact H.
Qed.
End Bare.

Theorem no_values : forall alnum C t c d, Unseen C (variable_end C) -> parse alnum C t = Ok c -> Part d c ->
  (forall x v imm ovr, d <> Assign x v imm ovr) /\
  (forall x e, d = Access x (Some e) -> e = Lit x None).
Proof.
  intros alnum C t c d Hu Hp Hd. pose proof (part_bare _ _ _ _ Hd (parse_bare alnum C t c Hp)) as HB. split.
  - intros x v imm ovr ->. inversion HB; subst; contradiction.
  - intros x e ->. inversion HB; subst; auto.
Qed.
Theorem no_wraps : forall alnum C t c w i m, Unseen C (wrap_end C) -> parse alnum C t = Ok c -> ~ Part (Wrap w i m) c.
Proof.
  intros alnum C t c w i m Hu Hp Hd. pose proof (part_bare _ _ _ _ Hd (parse_bare alnum C t c Hp)) as HB.
  inversion HB; subst; contradiction.
Qed.
