From Coq Require Import String NArith Bool Arith List Lia.
From Verif.Model Require Import Str Utils Rng Context Names.
From Verif.Spec Require Import Text Names.
From Verif.Proofs Require Import StrFacts UtilsFacts.
Import ListNotations.
Local Open Scope nat_scope.

Lemma is_separator_spec : forall c, is_separator c = true <-> PathSep c.
Proof.
  intros c. unfold is_separator, PathSep, slash, backslash.
  rewrite orb_true_iff, !N.eqb_eq. tauto.
Qed.

Lemma is_separator_false : forall c, is_separator c = false <-> ~ PathSep c.
Proof. intros c. rewrite <- is_separator_spec. destruct (is_separator c); intuition congruence. Qed.

Lemma Forall_sep : forall s, Forall PathSep s <-> forallb is_separator s = true.
Proof. intros; symmetry; apply Forall_forallb, is_separator_spec. Qed.

(** [Contains] is decidable by [contains]. *)
Lemma contains_Contains : forall s sub, contains s sub = true <-> Contains s sub.
Proof. intros; apply contains_spec. Qed.
Lemma contains_false : forall s sub, contains s sub = false <-> ~ Contains s sub.
Proof. intros. rewrite <- contains_Contains. destruct (contains s sub); intuition congruence. Qed.

(** [collapse_separators] on the pieces. *)
Lemma collapse_seps_true : forall s r, Forall PathSep s ->
  collapse_separators true (s ++ r) = collapse_separators true r.
Proof.
  induction s as [|c s IH]; cbn; intros r H; [reflexivity|].
  inversion H as [|? ? H2 H3]; subst. apply is_separator_spec in H2. rewrite H2. auto.
Qed.

Lemma collapse_seps_false : forall s r, Forall PathSep s ->
  collapse_separators false (s ++ r) =
  match s with [] => collapse_separators false r | _ => slash :: collapse_separators true r end.
Proof.
  destruct s as [|c s]; cbn; intros r H; [reflexivity|].
  inversion H as [|? ? H2 H3]; subst. apply is_separator_spec in H2. rewrite H2.
  unfold slash. now rewrite collapse_seps_true.
Qed.

Lemma collapse_word : forall w r b, w <> [] -> Forall (fun c => ~ PathSep c) w ->
  collapse_separators b (w ++ r) = w ++ collapse_separators false r.
Proof.
  induction w as [|c w IH]; intros r b H0 H; [congruence|]. cbn.
  inversion H as [|? ? H2 H3]; subst. apply is_separator_false in H2. rewrite H2.
  f_equal. destruct w as [|d w]; [reflexivity|]. apply IH; [congruence|assumption].
Qed.

Lemma Pieces_empty : forall Sep ps, Pieces Sep [] ps -> ps = [].
Proof.
  intros Sep ps H. remember (@nil N) as s. destruct H; [reflexivity|].
  apply app_eq_nil in Heqs as [_ Hs]. apply app_eq_nil in Hs as [Hw _]. congruence.
Qed.

(** The collapsed text of a string with pieces [ps]: a slash may be left at
    either end. *)
Lemma collapse_pieces : forall s ps, Pieces PathSep s ps -> forall b, exists a z,
  (a = [] \/ a = [slash]) /\ (z = [] \/ z = [slash]) /\
  (b = true -> a = []) /\
  (ps <> [] -> (exists c s', s = c :: s' /\ PathSep c) -> b = false -> a = [slash]) /\
  collapse_separators b s = a ++ interleave [slash] ps ++ z.
Proof.
  intros s ps H. induction H as [s Hs|pad w rest ps Hp Hw0 Hw Hr Hps IH]; intros b.
  - exists [], (match b, s with false, _ :: _ => [slash] | _, _ => [] end).
    split; [auto|]. split; [destruct b, s; auto|]. split; [auto|]. split; [congruence|].
    cbn [interleave app]. destruct b.
    + rewrite <- (app_nil_r s), collapse_seps_true by assumption. reflexivity.
    + rewrite <- (app_nil_r s), collapse_seps_false by assumption.
      destruct s; cbn; rewrite ?app_nil_r; reflexivity.
  - assert (Hrest : exists z, (z = [] \/ z = [slash]) /\
              collapse_separators false rest
              = match ps with [] => z | _ => [slash] ++ interleave [slash] ps ++ z end).
    { destruct (IH false) as (a & z & Ha & Hz & _ & Has & E). rewrite E.
      destruct ps as [|p ps].
      - cbn [interleave app] in E |- *. inversion Hps; subst.
        rewrite <- (app_nil_r rest), collapse_seps_false in E by assumption.
        exists (a ++ z). split; [|reflexivity].
        rewrite <- E. destruct rest; [now left|right].
        cbn. now destruct rest.
      - destruct Hr as [->|Hr].
        + apply Pieces_empty in Hps. discriminate.
        + rewrite (Has ltac:(congruence) Hr eq_refl). exists z. split; [assumption|reflexivity]. }
    destruct Hrest as (z & Hz & E).
    assert (Hint : interleave [slash] (w :: ps) ++ z
                   = w ++ match ps with [] => z | _ => [slash] ++ interleave [slash] ps ++ z end).
    { cbn [interleave]. destruct ps as [|p ps]; cbn; [now rewrite app_nil_r|].
      rewrite <- !app_assoc. cbn. rewrite <- ?app_assoc. reflexivity. }
    destruct b.
    + exists [], z. split; [auto|]. split; [assumption|]. split; [auto|]. split; [congruence|].
      rewrite collapse_seps_true by assumption. rewrite collapse_word by assumption.
      rewrite E. cbn [app]. now rewrite Hint.
    + exists (match pad with [] => [] | _ => [slash] end), z.
      split; [destruct pad; auto|]. split; [assumption|]. split; [congruence|]. split.
      * intros _ (c & s' & Hc & Hsep) _. destruct pad; [|reflexivity].
        destruct w as [|d w]; [congruence|]. cbn in Hc. injection Hc as -> _.
        inversion Hw; subst. tauto.
      * rewrite collapse_seps_false by assumption. destruct pad as [|d pad].
        -- rewrite collapse_word by assumption. rewrite E. cbn [app]. now rewrite Hint.
        -- rewrite collapse_word by assumption. rewrite E. cbn [app]. f_equal. now rewrite Hint.
Qed.

Lemma Pieces_words : forall s ps, Pieces PathSep s ps ->
  Forall (fun w => w <> [] /\ Forall (fun c => ~ PathSep c) w) ps.
Proof. induction 1; constructor; auto. Qed.

Lemma interleave_head : forall ps c t,
  Forall (fun w => w <> [] /\ Forall (fun c => ~ PathSep c) w) ps ->
  interleave [slash] ps = c :: t -> ~ PathSep c.
Proof.
  intros ps c t H E. destruct ps as [|w ps]; [discriminate|].
  inversion H as [|? ? [Hw0 Hw] _]; subst. destruct w as [|d w]; [congruence|].
  cbn in E. injection E as -> _. now inversion Hw.
Qed.

Lemma interleave_last : forall ps c t,
  Forall (fun w => w <> [] /\ Forall (fun c => ~ PathSep c) w) ps ->
  interleave [slash] ps = t ++ [c] -> ~ PathSep c.
Proof.
  intros ps c t H E. destruct (rev ps) as [|w rp] eqn:Er.
  - apply (f_equal (@rev _)) in Er. rewrite rev_involutive in Er. subst.
    destruct t; discriminate.
  - apply (f_equal (@rev _)) in Er. rewrite rev_involutive in Er. cbn in Er. subst ps.
    apply Forall_app in H as [_ H]. inversion H as [|? ? [Hw0 Hw] _]; subst.
    destruct (exists_last Hw0) as (w' & d & ->).
    assert (exists t', interleave [slash] (rev rp ++ [w' ++ [d]]) = t' ++ [d]) as [t' E'].
    { destruct (rev rp) as [|x l] eqn:Ex.
      - exists w'. cbn. now rewrite app_nil_r.
      - rewrite interleave_snoc by congruence. exists (interleave [slash] (x :: l) ++ [slash] ++ w').
        now rewrite <- !app_assoc. }
    rewrite E' in E. apply app_inj_tail in E as [_ <-].
    apply Forall_app in Hw as [_ Hw]. now inversion Hw.
Qed.

Lemma strip_edges : forall f a z m,
  Forall (fun c => f c = true) a -> Forall (fun c => f c = true) z ->
  (forall c t, m = c :: t -> f c = false) -> (forall c t, m = t ++ [c] -> f c = false) ->
  strip_by f (a ++ m ++ z) = m.
Proof.
  intros f a z m Ha Hz Hh Hl. unfold strip_by.
  assert (Fa : forallb f a = true) by (apply forallb_forall; now apply Forall_forall).
  assert (Fz : forallb f (rev z) = true).
  { rewrite forallb_rev. apply forallb_forall; now apply Forall_forall. }
  rewrite drop_while_app_all by assumption.
  destruct m as [|c m].
  - cbn. replace (drop_while f z) with (@nil N); [reflexivity|].
    rewrite forallb_rev in Fz. rewrite <- (app_nil_r z), drop_while_app_all by assumption.
    reflexivity.
  - rewrite (drop_while_nonhead f ((c :: m) ++ z)).
    2:{ cbn. intros d s' E. injection E as -> _. eauto. }
    rewrite rev_app_distr, drop_while_app_all by assumption.
    rewrite drop_while_nonhead; [apply rev_involutive|].
    intros d s' E. apply (f_equal (@rev _)) in E. rewrite rev_involutive in E. cbn in E.
    eapply Hl; exact E.
Qed.

Lemma normalise : forall s ps, Pieces PathSep s ps ->
  strip_by is_slash (collapse_separators false s) = interleave [slash] ps.
Proof.
  intros s ps H. destruct (collapse_pieces _ _ H false) as (a & z & Ha & Hz & _ & _ & E).
  rewrite E. pose proof (Pieces_words _ _ H) as Hw. apply strip_edges.
  - destruct Ha as [->| ->]; repeat constructor.
  - destruct Hz as [->| ->]; repeat constructor.
  - intros c t Et. apply interleave_head in Et; [|assumption].
    unfold is_slash. apply N.eqb_neq. intros ->. apply Et. now left.
  - intros c t Et. apply interleave_last in Et; [|assumption].
    unfold is_slash. apply N.eqb_neq. intros ->. apply Et. now left.
Qed.

Lemma no_backslash_interleave : forall ps,
  Forall (fun w => w <> [] /\ Forall (fun c => ~ PathSep c) w) ps ->
  ~ In backslash (interleave [slash] ps).
Proof.
  intros ps H Hin.
  assert (Hw : forall w, In w ps -> ~ In backslash w).
  { intros w Hw Hb. rewrite Forall_forall in H. destruct (H w Hw) as [_ F].
    rewrite Forall_forall in F. apply (F _ Hb). now right. }
  destruct ps as [|w ps]; [exact Hin|]. cbn in Hin. apply in_app_iff in Hin as [Hin|Hin].
  - eapply Hw; [now left|exact Hin].
  - apply in_flat_map in Hin as (x & Hx & [Hin|Hin]); [discriminate|].
    eapply Hw; [right; exact Hx|exact Hin].
Qed.

Lemma In_contains1 : forall (c : N) s, contains s [c] = true <-> In c s.
Proof.
  intros c s. rewrite contains_spec. split.
  - intros (a & b & ->). apply in_app_iff. right. now left.
  - intros H. apply in_split in H as (a & b & ->). now exists a, b.
Qed.

Lemma clean_pieces : forall w wrap ps,
  Pieces PathSep (removesuffix (removeprefix w wrap) wrap) ps ->
  clean_wildcard w wrap =
  if contains (interleave [slash] ps) $".." then Err EValue else Ok (interleave [slash] ps).
Proof.
  intros w wrap ps H. unfold clean_wildcard. rewrite (normalise _ _ H).
  destruct (contains (interleave [slash] ps) $".."); [reflexivity|].
  destruct (contains (interleave [slash] ps) [92%N]) eqn:E; [|reflexivity].
  apply In_contains1 in E. exfalso. eapply no_backslash_interleave; [|exact E].
  eapply Pieces_words; exact H.
Qed.

Lemma Pieces_total : forall s, exists ps, Pieces PathSep s ps.
Proof.
  intros s. remember (length s) as n eqn:Hn. revert s Hn.
  induction n as [n IH] using lt_wf_ind. intros s ->.
  pose proof (take_drop_while is_separator s) as E1.
  pose proof (take_while_all is_separator s) as A1.
  remember (take_while is_separator s) as pad. remember (drop_while is_separator s) as r.
  assert (Hpad : Forall PathSep pad) by now apply Forall_sep.
  destruct r as [|c r].
  - exists []. rewrite <- E1, app_nil_r. now constructor.
  - assert (Hc : is_separator c = false) by (eapply drop_while_head; symmetry; exact Heqr).
    pose (nf := fun d => negb (is_separator d)).
    pose proof (take_drop_while nf (c :: r)) as E2.
    pose proof (take_while_all nf (c :: r)) as A2.
    remember (drop_while nf (c :: r)) as rest. remember (take_while nf (c :: r)) as wd.
    assert (Hwd : wd <> []).
    { subst wd. cbn. unfold nf at 1. rewrite Hc. discriminate. }
    destruct (IH (length rest)) with (s := rest) as [ps Hps].
    { rewrite <- E1, <- E2, !app_length. destruct wd; [congruence|]. cbn. lia. }
    { reflexivity. }
    exists (wd :: ps). rewrite <- E1, <- E2. constructor; auto.
    + apply Forall_forall. intros x Hx. rewrite forallb_forall in A2.
      apply is_separator_false. specialize (A2 x Hx). unfold nf in A2.
      now apply negb_true_iff in A2.
    + destruct rest as [|d rest]; [now left|right]. exists d, rest. split; [reflexivity|].
      apply is_separator_spec. symmetry in Heqrest. apply drop_while_head in Heqrest.
      unfold nf in Heqrest. now apply negb_false_iff in Heqrest.
Qed.

Lemma no_double_slash : forall ps,
  Forall (fun w => w <> [] /\ Forall (fun c => ~ PathSep c) w) ps ->
  ~ Contains (interleave [slash] ps) [slash; slash].
Proof.
  assert (Hns : forall w, Forall (fun c => ~ PathSep c) w -> ~ In slash w).
  { intros w F Hin. rewrite Forall_forall in F. apply (F _ Hin). now left. }
  (* a slash in [w ++ t] with [w] free of slashes lies in [t] *)
  assert (Hcut : forall (w : list N) t a b, ~ In slash w ->
            w ++ t = a ++ [slash; slash] ++ b -> exists a', t = a' ++ [slash; slash] ++ b).
  { induction w as [|c w IHw]; intros t a b Hw E; [now exists a|].
    destruct a as [|d a]; cbn in E; injection E as E0 E.
    - subst c. exfalso. apply Hw. now left.
    - eapply IHw; [|exact E]. intros H; apply Hw; now right. }
  intros ps H. destruct ps as [|w ps]; [intros (a & b & E); destruct a; discriminate|].
  inversion H as [|? ? [Hw0 Hw] Hps]; subst. cbn [interleave].
  intros (a & b & E). apply Hcut in E; [|auto]. destruct E as [a' E]. clear a w Hw0 Hw H.
  revert a' E. induction ps as [|x ps IH]; intros a E; [destruct a; discriminate|].
  inversion Hps as [|? ? [Hx0 Hx] Hps']; subst. cbn [flat_map] in E.
  destruct a as [|d a]; cbn in E; injection E as E; [|rename H into E'].
  - destruct x as [|y x]; [congruence|]. cbn in E. injection E as -> _.
    inversion Hx as [|? ? Hy]; subst. apply Hy. now left.
  - apply (Hcut x _ a b) in E'; [|auto]. destruct E' as [a' E']. eapply IH; eauto.
Qed.

Lemma clean_safe : forall w wrap n, clean_wildcard w wrap = Ok n -> SafeName n.
Proof.
  intros w wrap n H.
  destruct (Pieces_total (removesuffix (removeprefix w wrap) wrap)) as [ps Hps].
  rewrite (clean_pieces _ _ _ Hps) in H.
  destruct (contains (interleave [slash] ps) $"..") eqn:E; [discriminate|].
  injection H as <-. pose proof (Pieces_words _ _ Hps) as Hw. split; [|split; [|split; [|split]]].
  - now apply no_backslash_interleave.
  - now apply contains_false in E.
  - now apply no_double_slash.
  - intros t Et. apply interleave_head in Et; [|assumption]. apply Et. now left.
  - intros t Et. apply interleave_last in Et; [|assumption]. apply Et. now left.
Qed.

(** Text without separators at the ends, without backslashes and double
    slashes is made of its own pieces. *)
Lemma collapse_clean : forall s b, ~ In backslash s -> ~ Contains s [slash; slash] ->
  (b = true -> forall t, s <> slash :: t) -> collapse_separators b s = s.
Proof.
  induction s as [|c s IH]; intros b Hb Hd Hh; [reflexivity|]. cbn.
  assert (Hb' : ~ In backslash s) by (intros H; apply Hb; now right).
  assert (Hd' : ~ Contains s [slash; slash]).
  { intros (x & y & E). apply Hd. exists (c :: x), y. now rewrite E. }
  destruct (is_separator c) eqn:E.
  - apply is_separator_spec in E as [->| ->]; [|exfalso; apply Hb; now left].
    destruct b; [exfalso; now apply (Hh eq_refl s)|]. unfold slash. f_equal.
    apply IH; auto. intros _ t ->. apply Hd. exists [], t. reflexivity.
  - f_equal. apply IH; auto. discriminate.
Qed.

Lemma clean_of_safe : forall n wrap, SafeName n -> ~ StartsWith n wrap -> ~ EndsWith n wrap ->
  clean_wildcard n wrap = Ok n.
Proof.
  intros n wrap (Hb & Hdd & Hds & Hh & Hl) Hs He. unfold clean_wildcard.
  assert (E1 : removeprefix n wrap = n).
  { apply removeprefix_spec. intros q E. apply Hs. now exists q. }
  assert (E2 : removesuffix n wrap = n).
  { apply removesuffix_spec. intros q E. apply He. now exists q. }
  rewrite E1, E2, collapse_clean by (auto; discriminate).
  rewrite strip_by_fix.
  - destruct (contains n $"..") eqn:E; [apply contains_Contains in E; tauto|].
    destruct (contains n [92%N]) eqn:F; [apply In_contains1 in F; tauto|reflexivity].
  - intros c s' ->. unfold is_slash. apply N.eqb_neq. intros ->. now apply (Hh s').
  - intros c s' ->. unfold is_slash. apply N.eqb_neq. intros ->. now apply (Hl s').
Qed.
