(** The bounds of variants as the syntax guide describes them: texts that
    leave a bound out, and bounds above the number of options. *)
From Coq Require Import String NArith ZArith QArith Qcanon Bool Arith List Permutation Lia.
From Verif.Model Require Import Str Command Rng Context Parser Sampler.
From Verif.Spec Require Import Text Names Lookup Syntax Comb Lang Items Guide.
From Verif.Proofs Require Import StrFacts ParserFacts TokenFacts PlainFacts SyntaxFacts Soundness.
Import ListNotations.
Local Open Scope nat_scope.

(** * Texts *)
Definition Solid (s : str) : Prop := match s with [] => True | c :: _ => ~ Blank c /\ c <> 35%N /\ c <> 47%N end.
Lemma skip_solid : forall s, Solid s -> skip s = s.
Proof.
  intros s Hs. apply skip_plain. intros (w & r & E & Hw & Hr). destruct w as [|x w].
  - cbn [app] in E. subst r. destruct s as [|c s].
    + destruct Hr as [[q K]|[[q K]|(b & a & K)]]; discriminate.
    + destruct Hs as (_ & H1 & H2). destruct Hr as [[q K]|[[q K]|(b & a & K)]]; injection K as K _; congruence.
  - subst s. cbn in Hs. inversion Hw; subst. tauto.
Qed.
Lemma opt_ws_solid : forall s, Solid s -> opt_ws s = s.
Proof.
  intros s Hs. unfold opt_ws. rewrite skip_solid by exact Hs. destruct s as [|c s]; [reflexivity|].
  cbn [drop_while]. destruct (blank c) eqn:E; [|reflexivity]. apply blank_spec in E. cbn in Hs. tauto.
Qed.
Lemma tok_solid : forall t k, Solid (t ++ k) -> tok t (t ++ k) = POk tt k.
Proof. intros t k H; unfold tok. rewrite (skip_solid _ H), startswith_app, skipn_app_length. reflexivity. Qed.
Lemma tok_other : forall x t c s, Solid (c :: s) -> x <> c -> tok (x :: t) (c :: s) = PFail.
Proof.
  intros x t c s H Hx; unfold tok. rewrite (skip_solid _ H).
  assert (E : startswith (c :: s) (x :: t) = false) by (apply startswith_false, not_starts; congruence).
  rewrite E. reflexivity.
Qed.
Lemma tok_differs : forall t c s, Solid (c :: s) -> (exists x r, t = x :: r /\ x <> c) -> tok t (c :: s) = PFail.
Proof. intros t c s H (x & r & -> & Hx). apply tok_other; assumption. Qed.
Ltac differs := eexists; eexists; (split; [reflexivity|discriminate]).
Lemma digits_solid : forall ds n s, Numeral ds n -> Solid (ds ++ s).
Proof.
  intros ds n s H. apply Numeral_facts in H. destruct H as (Hd & _ & Hne).
  destruct ds as [|c ds]; [congruence|]. cbn in *. apply andb_true_iff in Hd. destruct Hd as [Hc _].
  unfold is_digit in Hc. apply andb_true_iff in Hc. destruct Hc as [H1 H2].
  apply N.leb_le in H1, H2. unfold Blank. cbn. repeat split; [intuition lia|lia|lia].
Qed.
Lemma integer_solid : forall ds n s, Numeral ds n -> NoDigitStart s -> integer (ds ++ s) = POk n s.
Proof.
  intros ds n s Hn Hs; unfold integer. rewrite (skip_solid _ (digits_solid _ _ _ Hn)).
  apply Numeral_facts in Hn. destruct Hn as (Hd & <- & Hne).
  destruct (while_hit is_digit ds s Hd Hs) as [-> ->]. destruct ds; [congruence|reflexivity].
Qed.
Lemma integer_none : forall c s, Solid (c :: s) -> is_digit c = false -> integer (c :: s) = PFail.
Proof. intros c s Hs Hc. unfold integer. rewrite (skip_solid _ Hs). cbn [take_while]. rewrite Hc. reflexivity. Qed.
Ltac solid := cbn; unfold Blank; cbn; repeat split; try discriminate; intuition discriminate.
Lemma dash_no_digit : forall s, NoDigitStart ($"-" ++ s).
Proof. intros s c r E. injection E as <- _. reflexivity. Qed.
Lemma dollar_no_digit : forall s, NoDigitStart ($"$" ++ s).
Proof. intros s c r E. injection E as <- _. reflexivity. Qed.
Lemma digit_not : forall ds n s x t, Numeral ds n -> is_digit x = false -> tok (x :: t) (ds ++ s) = PFail.
Proof.
  intros ds n s x t H Hx. pose proof (digits_solid ds n s H) as Hs. apply Numeral_facts in H.
  destruct H as (Hd & _ & Hne). destruct ds as [|c ds]; [congruence|]. cbn [app] in *. apply tok_other; [exact Hs|].
  intros ->. cbn in Hd. rewrite Hx in Hd. discriminate.
Qed.

(** The ways to write a range before ["$$"]. *)
Lemma range_upper : forall es m r, Numeral es m ->
  bound_range ($"-" ++ es ++ $"$$" ++ r) = POk (None, Some m) ($"$$" ++ r).
Proof.
  intros es m r Hm. unfold bound_range, alt, lower_upper, only_upper.
  change ($"-" ++ es ++ $"$$" ++ r) with (45%N :: es ++ $"$$" ++ r) at 1.
  rewrite integer_none by (solid || reflexivity).
  rewrite tok_solid by solid. rewrite (integer_solid es m) by (exact Hm || apply (dollar_no_digit ($"$" ++ r))).
  reflexivity.
Qed.
Lemma range_both : forall ds n es m r, Numeral ds n -> Numeral es m ->
  bound_range (ds ++ $"-" ++ es ++ $"$$" ++ r) = POk (Some n, Some m) ($"$$" ++ r).
Proof.
  intros ds n es m r Hn Hm. unfold bound_range, alt, lower_upper.
  rewrite (integer_solid ds n) by (exact Hn || apply dash_no_digit).
  rewrite tok_solid by solid. rewrite (integer_solid es m) by (exact Hm || apply (dollar_no_digit ($"$" ++ r))).
  reflexivity.
Qed.
Lemma range_lower : forall ds n r, Numeral ds n ->
  bound_range (ds ++ $"-" ++ $"$$" ++ r) = POk (Some n, None) ($"$$" ++ r).
Proof.
  intros ds n r Hn. unfold bound_range, alt, lower_upper, only_upper, only_lower.
  rewrite (integer_solid ds n) by (exact Hn || apply dash_no_digit).
  rewrite tok_solid by solid.
  change ($"$$" ++ r) with (36%N :: $"$" ++ r) at 1.
  rewrite integer_none by (solid || reflexivity).
  change ($"-") with [45%N] at 1.
  rewrite (digit_not ds n) by (exact Hn || reflexivity). reflexivity.
Qed.
Lemma range_exact : forall ds n r, Numeral ds n ->
  bound_range (ds ++ $"$$" ++ r) = POk (Some n, Some n) ($"$$" ++ r).
Proof.
  intros ds n r Hn. unfold bound_range, alt, lower_upper, only_upper, only_lower, exact.
  rewrite (integer_solid ds n) by (exact Hn || apply (dollar_no_digit ($"$" ++ r))).
  change ($"$$" ++ r) with (36%N :: $"$" ++ r) at 1 3.
  change ($"-") with [45%N]. rewrite !tok_differs by (solid || differs).
  rewrite (digit_not ds n) by (exact Hn || reflexivity). reflexivity.
Qed.
Definition sep_part (s : str) : pres (option str) :=
  popt (fun s => let! (w, s) := separator s in let! (_, s) := tok $"$$" s in POk w s) s.
Lemma sep_part_ok : forall s, exists o r, sep_part s = POk o r.
Proof.
  intros s. unfold sep_part, popt. unfold separator. destruct (take_while separator_char (skip s)); [eauto|].
  unfold tok. destruct (startswith _ _); eauto.
Qed.
Lemma bound_expr_after : forall x b r, bound_range x = POk b ($"$$" ++ r) -> exists sep q,
  (forall y b', bound_range y = POk b' ($"$$" ++ r) -> bound_expr y = POk (b', sep) q).
Proof.
  intros x b r _. destruct (sep_part_ok r) as (o & q & E).
  exists (match o with Some w => w | None => $"," end), q. intros y b' Hy. unfold bound_expr. rewrite Hy.
  rewrite tok_solid by solid. unfold sep_part in E. rewrite E. reflexivity.
Qed.

Section Start.
Variable ww : str.
Hypothesis Hww : WrapText ww.
Variable alnum : char -> bool.
Hypothesis Hbrace : alnum 123%N = false.
Let C := standard ww.

Lemma standard_marks : Marks C.
Proof. repeat split; try discriminate. apply Hww. Qed.
Lemma chunk_brace : forall V T s, chunk alnum C V T ($"{" ++ s) = variants C V ($"{" ++ s).
Proof.
  intros V T s. assert (Hs : Solid ($"{" ++ s)) by solid.
  unfold chunk, alt, variable_assignment, variable_access, access, wrap_command.
  assert (E1 : tok (variable_start C) ($"{" ++ s) = PFail) by (apply tok_other; [exact Hs|discriminate]).
  assert (E2 : tok (wrap_start C) ($"{" ++ s) = PFail) by (apply tok_other; [exact Hs|discriminate]).
  rewrite E1, E2. destruct (variants C V ($"{" ++ s)) eqn:E; try reflexivity.
  unfold wildcard. assert (E3 : tok (wildcard_wrap C) ($"{" ++ s) = PFail).
  { destruct (ww_head ww Hww alnum) as (c & r & Ec & Hc & _).
    change (wildcard_wrap C) with ww. rewrite Ec. apply tok_other; [exact Hs|].
    intros ->. apply Hc. cbn. tauto. }
  rewrite E3. unfold literal_sequence, many1, many. cbn [many_rounds never]. unfold literal at 1.
  rewrite (skip_solid _ Hs).
  assert (B : top_bad C 123%N = true) by reflexivity. change ($"{" ++ s) with (123%N :: s).
  cbn [literal_run]. rewrite B, orb_true_r. reflexivity.
Qed.

Lemma same_start : forall x y, ~ In 9%N x -> ~ In 9%N y ->
  (forall V, variants C V ($"{" ++ x) = variants C V ($"{" ++ y)) ->
  parse alnum C ($"{" ++ x) = parse alnum C ($"{" ++ y).
Proof.
  intros x y Hx Hy HV. unfold parse. f_equal.
  set (n := 2 + length (expandtabs ($"{" ++ x)) + length (expandtabs ($"{" ++ y))).
  destruct (parse_enough alnum C ($"{" ++ x) n standard_marks ltac:(lia)) as [E1 N1].
  destruct (parse_enough alnum C ($"{" ++ y) n standard_marks ltac:(lia)) as [E2 N2].
  rewrite <- E1, <- E2. clear E1 E2. revert N1 N2.
  unfold parse_depth. replace n with (S (n - 1)) by lia. cbn [parsers].
  destruct (parsers alnum C (n - 1)) as [V T]. cbn [snd].
  assert (T1 : ~ In 9%N ($"{" ++ x)) by (cbn; intuition discriminate).
  assert (T2 : ~ In 9%N ($"{" ++ y)) by (cbn; intuition discriminate).
  unfold parse_body. assert (A : forall s, isalnum alnum ($"{" ++ s) = false).
  { intros s. cbn. rewrite Hbrace. reflexivity. }
  rewrite !A. unfold grammar_body, Parser.prompt. rewrite !expandtabs_id by assumption.
  rewrite !skip_solid by solid. unfold many. cbn [many_rounds never].
  rewrite !chunk_brace, HV. destruct (variants C V ($"{" ++ y)) as [a r| |e|]; try reflexivity.
  intros N1 N2.
  rewrite (rounds_same _ never (chunk alnum C V T) (length ($"{" ++ x)) (length ($"{" ++ y)) r); [reflexivity| |].
  - intros K. apply N1. rewrite K. reflexivity.
  - intros K. apply N2. rewrite K. reflexivity.
Qed.

Lemma sampler_mark : forall mark m c s, MarkText mark m -> Solid (c :: s) -> ~ In c $"~!@" ->
  sampler (mark ++ c :: s) = POk m (c :: s) /\ opt_ws (mark ++ c :: s) = mark ++ c :: s.
Proof.
  intros mark m c s Hm Hs Hc. split.
  - unfold sampler. destruct Hm; cbn [app].
    + rewrite !tok_differs by (exact Hs || (eexists; eexists; (split; [reflexivity|]); intros <-; apply Hc; cbn; tauto)).
      reflexivity.
    + rewrite tok_solid by solid. reflexivity.
    + change ($"!" ++ c :: s) with (33%N :: c :: s).
      rewrite tok_differs by (solid || differs).
      change (33%N :: c :: s) with ($"!" ++ c :: s). rewrite tok_solid by solid. reflexivity.
    + change ($"@" ++ c :: s) with (64%N :: c :: s).
      rewrite !tok_differs by (solid || differs).
      change (64%N :: c :: s) with ($"@" ++ c :: s). rewrite tok_solid by solid. reflexivity.
  - apply opt_ws_solid. destruct Hm; [exact Hs|solid..].
Qed.
(** What [variants] does once the bounds have been read. *)
Definition after_bounds (V : str -> pres command) (m : option method)
    (b : (option N * option N) * str) (s : str) : pres command :=
  let! (vs, s) := variants_list V (opt_ws s) in
  let! (_, s) := tok (variant_end C) (opt_ws s) in
  let '(lo, hi, sep) := bounds_of (Some b) (length vs) in
  POk (mk_variant vs lo hi sep m) s.
Definition RangeStart (x : str) : Prop := exists c r, x = c :: r /\ Solid x /\ ~ In c $"~!@".
Lemma variants_range : forall V mark m x b sep q, MarkText mark m -> RangeStart x ->
  bound_expr x = POk (b, sep) q -> variants C V ($"{" ++ mark ++ x) = after_bounds V m (b, sep) q.
Proof.
  intros V mark m x b sep q Hm (c & r & -> & Hs & Hc) Hb. unfold variants, after_bounds.
  rewrite (tok_solid (variant_start C)) by solid.
  destruct (sampler_mark mark m c r Hm Hs Hc) as [E1 E2]. rewrite E2, E1. unfold popt. rewrite Hb. reflexivity.
Qed.
Lemma start_dash : forall s, RangeStart ($"-" ++ s).
Proof. intros s. exists 45%N, s. split; [reflexivity|]. split; [solid|]. cbn. intuition discriminate. Qed.
Lemma start_digits : forall ds n s, Numeral ds n -> RangeStart (ds ++ s).
Proof.
  intros ds n s H. pose proof (digits_solid ds n s H) as Hs. apply Numeral_facts in H.
  destruct H as (Hd & _ & Hne). destruct ds as [|c ds]; [congruence|].
  exists c, (ds ++ s). split; [reflexivity|]. split; [exact Hs|].
  intros Hc. cbn in Hd. apply andb_true_iff in Hd. destruct Hd as [Hd _].
  cbn in Hc. destruct Hc as [<-|[<-|[<-|[]]]]; discriminate.
Qed.
Lemma numeral_no_tab : forall ds n, Numeral ds n -> ~ In 9%N ds.
Proof.
  intros ds n H Hin. apply Numeral_facts in H. destruct H as (Hd & _ & _).
  rewrite forallb_forall in Hd. apply Hd in Hin. discriminate.
Qed.
Lemma mark_no_tab : forall mark m, MarkText mark m -> ~ In 9%N mark.
Proof. intros mark m H; destruct H; cbn; intuition discriminate. Qed.
Lemma no_tab_app : forall a b : str, ~ In 9%N a -> ~ In 9%N b -> ~ In 9%N (a ++ b).
Proof. intros a b Ha Hb H. apply in_app_iff in H. tauto. Qed.
Ltac notab := repeat apply no_tab_app;
  first [assumption | eapply numeral_no_tab; eassumption | eapply mark_no_tab; eassumption
        | cbn; intuition discriminate].

Lemma upper_alone : forall mark m es n rest, MarkText mark m -> Numeral es n -> ~ In 9%N rest ->
  parse alnum C ($"{" ++ mark ++ $"-" ++ es ++ $"$$" ++ rest) =
  parse alnum C ($"{" ++ mark ++ $"1-" ++ es ++ $"$$" ++ rest).
Proof.
  intros mark m es n rest Hm Hn Ht.
  pose proof (range_upper es n rest Hn) as R1.
  assert (H1 : Numeral $"1" 1) by (apply (Numeral_one 1); reflexivity).
  pose proof (range_both $"1" 1%N es n rest H1 Hn) as R2.
  destruct (bound_expr_after _ _ _ R1) as (sep & q & B).
  apply same_start; [notab|notab|]. intros V.
  change ($"1-" ++ es ++ $"$$" ++ rest) with ($"1" ++ $"-" ++ es ++ $"$$" ++ rest).
  rewrite (variants_range V mark m _ _ _ _ Hm (start_dash _) (B _ _ R1)).
  rewrite (variants_range V mark m _ _ _ _ Hm (start_digits _ _ _ H1) (B _ _ R2)).
  reflexivity.
Qed.
(** An exact number is both bounds. *)
Lemma number_alone : forall mark m es n rest, MarkText mark m -> Numeral es n -> ~ In 9%N rest ->
  parse alnum C ($"{" ++ mark ++ es ++ $"$$" ++ rest) =
  parse alnum C ($"{" ++ mark ++ es ++ $"-" ++ es ++ $"$$" ++ rest).
Proof.
  intros mark m es n rest Hm Hn Ht.
  pose proof (range_exact es n rest Hn) as R1.
  pose proof (range_both es n es n rest Hn Hn) as R2.
  destruct (bound_expr_after _ _ _ R1) as (sep & q & B).
  apply same_start; [notab|notab|]. intros V.
  rewrite (variants_range V mark m _ _ _ _ Hm (start_digits _ _ _ Hn) (B _ _ R1)).
  rewrite (variants_range V mark m _ _ _ _ Hm (start_digits _ _ _ Hn) (B _ _ R2)).
  reflexivity.
Qed.
(** Bounds the wrong way round. *)
Lemma either_order : forall mark m ds n es k rest, MarkText mark m -> Numeral ds n -> Numeral es k ->
  ~ In 9%N rest ->
  parse alnum C ($"{" ++ mark ++ ds ++ $"-" ++ es ++ $"$$" ++ rest) =
  parse alnum C ($"{" ++ mark ++ es ++ $"-" ++ ds ++ $"$$" ++ rest).
Proof.
  intros mark m ds n es k rest Hm Hn Hk Ht.
  pose proof (range_both ds n es k rest Hn Hk) as R1.
  pose proof (range_both es k ds n rest Hk Hn) as R2.
  destruct (bound_expr_after _ _ _ R1) as (sep & q & B).
  apply same_start; [notab|notab|]. intros V.
  rewrite (variants_range V mark m _ _ _ _ Hm (start_digits _ _ _ Hn) (B _ _ R1)).
  rewrite (variants_range V mark m _ _ _ _ Hm (start_digits _ _ _ Hk) (B _ _ R2)).
  unfold after_bounds. destruct (variants_list V (opt_ws q)) as [vs s| |e|]; try reflexivity.
  destruct (tok (variant_end C) (opt_ws s)) as [u s'| |e|]; try reflexivity.
  cbn [bounds_of]. f_equal. unfold mk_variant, post_init_bounds.
  destruct (Z.leb_spec (Z.of_N n) (Z.of_N k)), (Z.leb_spec (Z.of_N k) (Z.of_N n)); try lia; f_equal; lia.
Qed.
(** Without an upper bound the number of options is the upper bound. *)
Lemma start_whole : forall x y vs lo hi sep m, ~ In 9%N x -> ~ In 9%N y ->
  (forall V r, variants C V ($"{" ++ x) = POk (Var vs lo hi sep m) r ->
               variants C V ($"{" ++ y) = POk (Var vs lo hi sep m) r) ->
  parse alnum C ($"{" ++ x) = Ok (Var vs lo hi sep m) ->
  parse alnum C ($"{" ++ y) = Ok (Var vs lo hi sep m).
Proof.
  intros x y vs lo hi sep m Hx Hy HV. unfold parse.
  set (n := 2 + length (expandtabs ($"{" ++ x)) + length (expandtabs ($"{" ++ y))).
  destruct (parse_enough alnum C ($"{" ++ x) n standard_marks ltac:(lia)) as [E1 N1].
  destruct (parse_enough alnum C ($"{" ++ y) n standard_marks ltac:(lia)) as [E2 N2].
  rewrite <- E1, <- E2. clear E1 E2. revert N1 N2.
  unfold parse_depth. replace n with (S (n - 1)) by lia. cbn [parsers].
  destruct (parsers alnum C (n - 1)) as [V T]. cbn [snd].
  assert (T1 : ~ In 9%N ($"{" ++ x)) by (cbn; intuition discriminate).
  assert (T2 : ~ In 9%N ($"{" ++ y)) by (cbn; intuition discriminate).
  unfold parse_body. assert (A : forall s, isalnum alnum ($"{" ++ s) = false).
  { intros s. cbn. rewrite Hbrace. reflexivity. }
  rewrite !A. unfold grammar_body, Parser.prompt. rewrite !expandtabs_id by assumption.
  rewrite !skip_solid by solid. unfold many. cbn [many_rounds never].
  rewrite !chunk_brace. destruct (variants C V ($"{" ++ x)) as [a r| |e|] eqn:EV.
  2: { cbn [sequence_or_single]. intros _ _ K. exfalso. revert K. cbn [result].
       destruct (drop_while blank (skip ($"{" ++ x))); discriminate. }
  2: { intros _ _ K. discriminate. }
  2: { intros _ _ K. discriminate. }
  intros N1 N2 H.
  assert (R : many_rounds (length ($"{" ++ x)) never (chunk alnum C V T) r <> PFuel)
    by (intros K; rewrite K in N1; apply N1; reflexivity).
  destruct (many_rounds (length ($"{" ++ x)) never (chunk alnum C V T) r) as [l q| |e|] eqn:EM;
    [|discriminate H..].
  destruct l as [|a' l].
  2: { exfalso. cbn [sequence_or_single] in H. destruct (drop_while blank (skip q)); discriminate H. }
  cbn [sequence_or_single] in H.
  assert (Ea : a = Var vs lo hi sep m) by (destruct (drop_while blank (skip q)); [injection H as ->; reflexivity|discriminate H]).
  subst a. rewrite (HV V r EV) in *.
  rewrite (rounds_same _ never (chunk alnum C V T) (length ($"{" ++ y)) (length ($"{" ++ x)) r).
  - rewrite EM. exact H.
  - intros K. apply N2. rewrite K. reflexivity.
  - rewrite EM. discriminate.
Qed.
Lemma lower_alone : forall mark m ds n es rest vs lo hi sep, MarkText mark m -> Numeral ds n ->
  Numeral es (N.of_nat (length vs)) -> ~ In 9%N rest ->
  parse alnum C ($"{" ++ mark ++ ds ++ $"-" ++ $"$$" ++ rest) = Ok (Var vs lo hi sep m) ->
  parse alnum C ($"{" ++ mark ++ ds ++ $"-" ++ es ++ $"$$" ++ rest) = Ok (Var vs lo hi sep m).
Proof.
  intros mark m ds n es rest vs lo hi sep Hm Hn Hk Ht.
  pose proof (range_lower ds n rest Hn) as R1.
  pose proof (range_both ds n es _ rest Hn Hk) as R2.
  destruct (bound_expr_after _ _ _ R1) as (sp & q & B).
  apply start_whole; [notab|notab|]. intros V r.
  rewrite (variants_range V mark m _ _ _ _ Hm (start_digits _ _ _ Hn) (B _ _ R1)).
  rewrite (variants_range V mark m _ _ _ _ Hm (start_digits _ _ _ Hn) (B _ _ R2)).
  unfold after_bounds. destruct (variants_list V (opt_ws q)) as [vs' s| |e|]; try discriminate.
  destruct (tok (variant_end C) (opt_ws s)) as [u s'| |e|]; try discriminate.
  cbn [bounds_of]. intros H. injection H as H1 <-. f_equal.
  assert (vs' = vs).
  { revert H1. unfold mk_variant. destruct (post_init_bounds _ _). intros H1; injection H1; auto. }
  subst vs'. rewrite nat_N_Z. exact H1.
Qed.
End Start.

(** * Runs *)
Section Runs.
Variable G : rng_impl.
Variable E : env.

Lemma range_cut : forall n lo hi,
  adjust_range n (Z.min lo (Z.of_nat n)) (Z.min hi (Z.of_nat n)) = adjust_range n lo hi.
Proof. intros n lo hi. unfold adjust_range. rewrite <- !Z.min_assoc, !Z.min_id. reflexivity. Qed.

(** Two ways to write the same choice. *)
Inductive samegen : gen -> gen -> Prop :=
| same_random : forall c vs lo hi lo' hi' sep,
    adjust_range (length vs) lo hi = adjust_range (length vs) lo' hi' -> single_wildcard vs = None ->
    samegen (GRVarStart c vs lo hi sep) (GRVarStart c vs lo' hi' sep)
| same_combinatorial : forall c vs lo hi lo' hi' sep,
    adjust_range (length vs) lo hi = adjust_range (length vs) lo' hi' -> single_wildcard vs = None ->
    samegen (GCVarStart c vs lo hi sep) (GCVarStart c vs lo' hi' sep)
| same_cyclical : forall c vs lo hi lo' hi' sep,
    adjust_range (length vs) lo hi = adjust_range (length vs) lo' hi' -> single_wildcard vs = None ->
    samegen (GYVarStart c vs lo hi sep) (GYVarStart c vs lo' hi' sep)
| same_squash : forall g h, samegen g h -> samegen (GSquash g) (GSquash h)
| same_slice : forall k g h, samegen g h -> samegen (GSlice (S k) g) (GSlice (S k) h).

Lemma loop_same : forall f c vs lo hi lo' hi' sep r,
  adjust_range (length vs) lo hi = adjust_range (length vs) lo' hi' ->
  next G E f (GRVarLoop c vs lo hi sep) r = next G E f (GRVarLoop c vs lo' hi' sep) r.
Proof. intros [|f] c vs lo hi lo' hi' sep r H; [reflexivity|]. cbn [next]. rewrite H. reflexivity. Qed.
Lemma combos_same : forall vs lo hi lo' hi',
  adjust_range (length vs) lo hi = adjust_range (length vs) lo' hi' ->
  bound_combos vs lo hi = bound_combos vs lo' hi'.
Proof. intros vs lo hi lo' hi' H. unfold bound_combos. rewrite H. reflexivity. Qed.
Lemma samegen_next : forall g h, samegen g h -> forall f r, next G E f g r = next G E f h r.
Proof.
  induction 1 as [c vs lo hi lo' hi' sep Ha Hs|c vs lo hi lo' hi' sep Ha Hs|c vs lo hi lo' hi' sep Ha Hs
                 |g h Hg IH|k g h Hg IH]; intros [|f] r; try reflexivity; cbn [next].
  - destruct vs as [|[v q] [|v2 vs]].
    + try apply loop_same, Ha; reflexivity.
    + rewrite Hs. reflexivity.
    + apply loop_same, Ha.
  - destruct vs as [|v vs]; [reflexivity|]. rewrite Hs, (combos_same _ _ _ _ _ Ha). reflexivity.
  - destruct vs as [|v vs]; [reflexivity|]. rewrite Hs, (combos_same _ _ _ _ _ Ha). reflexivity.
  - rewrite IH. reflexivity.
  - rewrite IH. reflexivity.
Qed.
Lemma samegen_prompts : forall f c vs lo hi lo' hi' sep m limit g,
  adjust_range (length vs) lo hi = adjust_range (length vs) lo' hi' -> ~ lone_wildcard vs ->
  limit <> Some 0 ->
  sample_prompts E f c (WCmd (Var vs lo hi sep m)) limit = MOk g ->
  exists h, sample_prompts E f c (WCmd (Var vs lo' hi' sep m)) limit = MOk h /\
    (g = h \/ samegen g h).
Proof.
  intros f c vs lo hi lo' hi' sep m limit g Ha Hl H0 H. unfold sample_prompts in *. cbn [truthy] in *.
  assert (Hs : single_wildcard vs = None).
  { destruct (single_wildcard vs) as [w|] eqn:Ew; [|reflexivity]. exfalso. apply Hl.
    destruct (single_wildcard_spec _ _ Ew) as (mw & vars & q & ->). exists w, mw, vars, q. reflexivity. }
  destruct (match vs with [] => false | _ => true end); cbn [negb] in *.
  2: { injection H as <-. exists GDone. auto. }
  destruct f as [|f]; cbn [mk] in *; [discriminate|].
  assert (Hm : exists a b,
    match chosen_method c (Var vs lo hi sep m) with
    | Random => MOk (GRVarStart (with_method (chosen_method c (Var vs lo hi sep m)) c) vs lo hi sep)
    | Combinatorial => MOk (GCVarStart (with_method (chosen_method c (Var vs lo hi sep m)) c) vs lo hi sep)
    | Cyclical => MOk (GYVarStart (with_method (chosen_method c (Var vs lo hi sep m)) c) vs lo hi sep)
    end = MOk a /\
    match chosen_method c (Var vs lo' hi' sep m) with
    | Random => MOk (GRVarStart (with_method (chosen_method c (Var vs lo' hi' sep m)) c) vs lo' hi' sep)
    | Combinatorial => MOk (GCVarStart (with_method (chosen_method c (Var vs lo' hi' sep m)) c) vs lo' hi' sep)
    | Cyclical => MOk (GYVarStart (with_method (chosen_method c (Var vs lo' hi' sep m)) c) vs lo' hi' sep)
    end = MOk b /\ samegen a b).
  { change (chosen_method c (Var vs lo' hi' sep m)) with (chosen_method c (Var vs lo hi sep m)).
    destruct (chosen_method c (Var vs lo hi sep m)); do 2 eexists; repeat split; constructor; assumption. }
  destruct Hm as (a & b & Ea & Eb & Hab). rewrite Ea in H. rewrite Eb. injection H as <-.
  eexists. split; [reflexivity|]. right.
  assert (Hab' : samegen (if c_ignws c then GSquash a else a) (if c_ignws c then GSquash b else b))
    by (destruct (c_ignws c); [constructor|]; exact Hab).
  destruct limit as [[|k]|]; [congruence|constructor; exact Hab'|exact Hab'].
Qed.
Lemma samegen_collect : forall g h f n r, g = h \/ samegen g h -> n <> 0 ->
  collect G E f n g r = collect G E f n h r.
Proof.
  intros g h f n r [->|H] Hn; [reflexivity|]. destruct n as [|n]; [congruence|]. cbn [collect].
  rewrite (samegen_next _ _ H). reflexivity.
Qed.
End Runs.

(** * Texts that are shown *)
Section Shown.
Variable E : env.

Lemma shown_texts : forall sc cmds texts parts,
  Forall2 (fun c t => exists m, c = Lit t m) cmds texts -> ProducesAll E sc cmds parts -> parts = texts.
Proof.
  intros sc cmds texts parts H. revert parts. induction H as [|c t cmds texts (m & ->) _ IH]; intros parts Hp.
  - inversion Hp. reflexivity.
  - inversion Hp; subst. f_equal; [eapply Prod_Lit; eassumption|apply IH; assumption].
Qed.
Lemma Forall2_perm : forall (A B : Type) (R : A -> B -> Prop) l l', Permutation l l' ->
  forall k, Forall2 R l k -> exists k', Permutation k k' /\ Forall2 R l' k'.
Proof.
  intros A B R l l' H. induction H as [|x l l' _ IH|x y l|l l' l'' _ IH1 _ IH2]; intros k Hk.
  - inversion Hk. exists []. auto.
  - inversion Hk as [|? b ? k0 Hx Hk0]; subst. destruct (IH _ Hk0) as (k' & P & F).
    exists (b :: k'). auto.
  - inversion Hk as [|? b ? k0 Hx Hk0]; subst. inversion Hk0 as [|? b2 ? k1 Hy Hk1]; subst.
    exists (b2 :: b :: k1). split; [constructor|auto].
  - destruct (IH1 _ Hk) as (k1 & P1 & F1). destruct (IH2 _ F1) as (k2 & P2 & F2).
    exists k2. split; [eapply perm_trans; eassumption|exact F2].
Qed.
Lemma Forall2_app_l : forall (A B : Type) (R : A -> B -> Prop) l1 l2 k, Forall2 R (l1 ++ l2) k ->
  exists k1 k2, k = k1 ++ k2 /\ Forall2 R l1 k1 /\ Forall2 R l2 k2.
Proof. intros A B R l1 l2 k H. apply Forall2_app_inv_l in H. destruct H as (k1 & k2 & H1 & H2 & ->). eauto. Qed.
Lemma lit_not_void : forall sc t m, ~ Void E sc (Lit t m).
Proof. intros sc t m H. inversion H as [? ? Hb]; subst. inversion Hb. Qed.
Lemma Forall2_lens : forall (A B : Type) (R : A -> B -> Prop) l k, Forall2 R l k -> length l = length k.
Proof. intros A B R l k H; induction H; cbn; congruence. Qed.

Lemma body_picked : forall sc opts texts lo hi sep m t, Texts opts texts ->
  2 <= length opts \/ (1 <= Z.min lo hi)%Z ->
  Body E sc (Var opts lo hi sep m) t -> Picked texts lo hi sep t.
Proof.
  intros sc opts texts lo hi sep m t HT Hlo HB.
  assert (HF : Forall2 (fun c t => exists m, c = Lit t m) (map fst opts) texts).
  { clear -HT. induction HT; cbn; constructor; auto. }
  assert (HL : length opts = length texts) by (eapply Forall2_lens; exact HT).
  unfold Picked. rewrite <- HL.
  inversion HB; subst.
  - match goal with HP : Permutation _ _ |- _ => destruct (Forall2_perm _ _ _ _ _ HP _ HF) as (k' & P & F) end.
    destruct (Forall2_app_l _ _ _ _ _ _ F) as (k1 & k2 & -> & F1 & F2).
    exists k1, k2. rewrite <- (Forall2_lens _ _ _ _ _ F1). split; [exact P|]. split; [assumption|].
    rewrite <- (shown_texts _ _ _ _ F1 H12). assumption.
  - exfalso. match goal with HP : Permutation _ _ |- _ => destruct (Forall2_perm _ _ _ _ _ HP _ HF) as (k' & P & F) end.
    destruct (Forall2_app_l _ _ _ _ _ _ F) as (k1 & k2 & -> & F1 & F2).
    destruct (Forall2_app_l _ _ _ _ _ _ F1) as (k3 & k4 & -> & F3 & F4).
    inversion F4 as [|? y ? ? (mm & ->) ?]; subst. eapply lit_not_void; eassumption.
  - inversion HF as [|? x ? ? (mm & Ev) Hn]; subst. inversion Hn; subst.
    match goal with HP : Produces _ _ _ _ |- _ => apply Prod_Lit in HP; subst t end. exists [x], []. cbn [length app]. split; [apply Permutation_refl|].
    split; [|constructor]. cbn in Hlo. unfold clamp. cbn. destruct Hlo; lia.
  - exfalso. inversion HF as [|? x ? ? (mm & Ev) Hn]; subst. discriminate.
Qed.
End Shown.

