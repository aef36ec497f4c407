(** The small parsers (tokens, names, numbers, bounds, weights) on text
    without comments. *)
From Coq Require Import String NArith ZArith QArith Qcanon Bool Arith List Lia.
From Verif.Model Require Import Str Command Rng Context Parser.
From Verif.Spec Require Import Text Names Syntax.
From Verif.Proofs Require Import StrFacts ParserFacts.
Import ListNotations.
Local Open Scope nat_scope.

(** * Lists *)
Lemma app_split : forall (a b c d : str), a ++ b = c ++ d ->
  (exists l, a = c ++ l /\ d = l ++ b) \/ (exists l, c = a ++ l /\ b = l ++ d).
Proof.
  induction a as [|x a IH]; intros b c d H; cbn in H.
  - right; exists c; split; [reflexivity|exact H].
  - destruct c as [|y c]; cbn in H.
    + left; exists (x :: a); split; [reflexivity|symmetry; exact H].
    + injection H as -> H. apply IH in H. destruct H as [(l & -> & ->)|(l & -> & ->)]; [left|right]; exists l; split; reflexivity.
Qed.

Lemma startswith_false : forall s p, startswith s p = false <-> ~ StartsWith s p.
Proof.
  intros s p. destruct (startswith s p) eqn:E.
  - split; [discriminate|]. intros H; exfalso; apply H, startswith_spec, E.
  - split; [|reflexivity]. intros _ H. apply startswith_spec in H. congruence.
Qed.
Lemma startswith_nil_l : forall p, p <> [] -> startswith [] p = false.
Proof. intros [|c p] H; [congruence|reflexivity]. Qed.

(** * Whitespace *)
Lemma blank_spec : forall c, blank c = true <-> Blank c.
Proof.
  intros c; unfold blank, Blank; cbn. rewrite !orb_true_iff, !N.eqb_eq.
  intuition congruence.
Qed.
Lemma Blanks_forallb : forall w, Blanks w <-> forallb blank w = true.
Proof.
  intros w; unfold Blanks. rewrite forallb_forall, Forall_forall.
  split; intros H c Hc; apply blank_spec, H, Hc.
Qed.
Lemma drop_blank_app : forall w s, Blanks w -> ~ BlankStart s -> drop_while blank (w ++ s) = s.
Proof.
  intros w s Hw Hs. rewrite drop_while_app_all by (apply Blanks_forallb, Hw).
  apply drop_while_nonhead. intros c r ->. destruct (blank c) eqn:E; [|reflexivity].
  exfalso; apply Hs. exists c, r; split; [reflexivity|apply blank_spec, E].
Qed.
Lemma drop_blank_start : forall s, ~ BlankStart (drop_while blank s).
Proof.
  intros s (c & r & E & H). apply drop_while_head in E. apply blank_spec in H. congruence.
Qed.
Lemma drop_blank_idem : forall s, drop_while blank (drop_while blank s) = drop_while blank s.
Proof. intros s. apply (drop_blank_app [] _ (Forall_nil _)), drop_blank_start. Qed.

(** * Comments *)
Lemma after_close_spec : forall s r, after_close s = Some r -> exists b, s = b ++ $"*/" ++ r.
Proof.
  induction s as [|c s IH]; cbn [after_close]; intros r H; [discriminate|].
  destruct (startswith (c :: s) $"*/") eqn:E.
  - injection H as <-. apply startswith_skipn in E. exists []. exact E.
  - apply IH in H. destruct H as [b ->]. exists (c :: b); reflexivity.
Qed.
Lemma after_close_None : forall s b a, after_close s = None -> s <> b ++ $"*/" ++ a.
Proof.
  induction s as [|c s IH]; cbn [after_close]; intros b a H E.
  - destruct b; discriminate.
  - destruct (startswith (c :: s) $"*/") eqn:Es; [discriminate|].
    destruct b as [|x b].
    + apply startswith_false in Es. apply Es. exists a; exact E.
    + injection E as _ E. exact (IH b a H E).
Qed.
Lemma after_close_app : forall b r, ~ Contains (b ++ $"*") $"*/" ->
  after_close (b ++ $"*/" ++ r) = Some r.
Proof.
  induction b as [|c b IH]; intros r H.
  - change (([] : str) ++ $"*/" ++ r) with (42%N :: 47%N :: r). cbn [after_close].
    change (42%N :: 47%N :: r) with ($"*/" ++ r). rewrite startswith_app. reflexivity.
  - cbn [after_close app].
    destruct (startswith (c :: b ++ $"*/" ++ r) $"*/") eqn:E.
    + exfalso. apply startswith_spec in E. destruct E as [q Hq].
      injection Hq as -> Hq. destruct b as [|y b].
      * discriminate Hq.
      * injection Hq as -> _. apply H. exists [], (b ++ $"*"). reflexivity.
    + apply IH. intros (x & y & Hxy). apply H. exists (c :: x), y. cbn; f_equal; exact Hxy.
Qed.

Lemma ignored_None : forall s, ignored s = None <-> ~ BeginsComment s.
Proof.
  intros s; unfold ignored. split.
  - intros H (w & r & -> & Hw & Hr).
    assert (Hd : drop_while blank (w ++ r) = r).
    { apply drop_blank_app; [exact Hw|]. intros (c & t & -> & Hc).
      destruct Hr as [[q Hq]|[[q Hq]|(b & a & Hq)]]; injection Hq as -> _;
        unfold Blank in Hc; cbn in Hc; intuition discriminate. }
    rewrite Hd in H. destruct Hr as [Hr|[Hr|(b & a & Hr)]].
    + apply startswith_spec in Hr. rewrite Hr in H. discriminate.
    + destruct (startswith r $"#"); [discriminate|].
      apply startswith_spec in Hr. rewrite Hr in H. discriminate.
    + subst r. cbn in H. rewrite startswith_nil in H. exact (after_close_None _ b a H eq_refl).
  - intros H. set (r := drop_while blank s) in *.
    assert (Hs : s = take_while blank s ++ r) by (symmetry; apply take_drop_while).
    assert (Hw : Blanks (take_while blank s)) by (apply Blanks_forallb, take_while_all).
    destruct (startswith r $"#") eqn:E1.
    { exfalso; apply H. exists (take_while blank s), r. repeat split; auto.
      left; apply startswith_spec, E1. }
    destruct (startswith r $"//") eqn:E2.
    { exfalso; apply H. exists (take_while blank s), r. repeat split; auto.
      right; left; apply startswith_spec, E2. }
    destruct (startswith r $"/*") eqn:E3; [|reflexivity].
    destruct (after_close (skipn 2 r)) as [a|] eqn:E4; [|reflexivity].
    exfalso; apply H. exists (take_while blank s), r. repeat split; auto.
    right; right. apply after_close_spec in E4. destruct E4 as [b Hb].
    exists b, a. rewrite <- Hb. apply startswith_skipn in E3. exact E3.
Qed.
Lemma skip_plain : forall s, ~ BeginsComment s -> skip s = s.
Proof. intros s H; apply skip_id, ignored_None, H. Qed.

Lemma Contains_app_r : forall a b x, Contains b x -> Contains (a ++ b) x.
Proof. intros a b x (p & q & ->). exists (a ++ p), q. rewrite <- app_assoc; reflexivity. Qed.
Lemma Contains_app_l : forall a b x, Contains a x -> Contains (a ++ b) x.
Proof.
  intros a b x (p & q & ->). exists p, (q ++ b). rewrite <- !app_assoc; reflexivity.
Qed.
Lemma Unc_r : forall a b, Uncommented (a ++ b) -> Uncommented b.
Proof.
  intros a b (H1 & H2 & H3 & H4). repeat split.
  - intros H; apply H1, in_or_app; auto.
  - intros H; apply H2, Contains_app_r, H.
  - intros H; apply H3, Contains_app_r, H.
  - intros H; apply H4, in_or_app; auto.
Qed.
Lemma Unc_l : forall a b, Uncommented (a ++ b) -> Uncommented a.
Proof.
  intros a b (H1 & H2 & H3 & H4). repeat split.
  - intros H; apply H1, in_or_app; auto.
  - intros H; apply H2, Contains_app_l, H.
  - intros H; apply H3, Contains_app_l, H.
  - intros H; apply H4, in_or_app; auto.
Qed.
Lemma Unc_Suffix : forall s r, Suffix r s -> Uncommented s -> Uncommented r.
Proof. intros s r [p ->]; apply Unc_r. Qed.
Lemma Unc_nil : Uncommented [].
Proof.
  repeat split.
  - intros [].
  - intros (a & b & H); symmetry in H; apply app_eq_nil in H; destruct H as [_ H]; discriminate.
  - intros (a & b & H); symmetry in H; apply app_eq_nil in H; destruct H as [_ H]; discriminate.
  - intros [].
Qed.

Lemma Unc_skip : forall s, Uncommented s -> skip s = s.
Proof.
  intros s (H1 & H2 & H3 & H4). apply skip_plain.
  intros (w & r & -> & Hw & Hr). destruct Hr as [[q ->]|[[q ->]|(b & a & ->)]].
  - apply H1, in_or_app; right; left; reflexivity.
  - apply H2. exists w, q; reflexivity.
  - apply H3. exists w, (b ++ $"*/" ++ a). reflexivity.
Qed.

(** * Tokens *)
Lemma tok_hit : forall t k, Uncommented (t ++ k) -> tok t (t ++ k) = POk tt k.
Proof.
  intros t k H; unfold tok. rewrite (Unc_skip _ H), startswith_app, skipn_app_length. reflexivity.
Qed.
Lemma tok_miss : forall t s, Uncommented s -> ~ StartsWith s t -> tok t s = PFail.
Proof.
  intros t s H Hs; unfold tok. rewrite (Unc_skip _ H).
  apply startswith_false in Hs. rewrite Hs. reflexivity.
Qed.
Lemma tok_inv : forall t s x r, Uncommented s -> tok t s = POk x r -> s = t ++ r.
Proof.
  intros t s x r H; unfold tok. rewrite (Unc_skip _ H).
  destruct (startswith s t) eqn:E; [|discriminate]. intros K; injection K as _ <-.
  apply startswith_skipn, E.
Qed.
Lemma tok_not_raise : forall t s, tok t s = PFail \/ exists r, tok t s = POk tt r.
Proof. intros t s; unfold tok. destruct (startswith (skip s) t); eauto. Qed.

Lemma opt_ws_hit : forall w s, Uncommented (w ++ s) -> Blanks w -> ~ BlankStart s ->
  opt_ws (w ++ s) = s.
Proof.
  intros w s H Hw Hs; unfold opt_ws. rewrite (Unc_skip _ H). apply drop_blank_app; assumption.
Qed.
Lemma opt_ws_none : forall s, Uncommented s -> ~ BlankStart s -> opt_ws s = s.
Proof. intros s H Hs. apply (opt_ws_hit [] s H (Forall_nil _) Hs). Qed.
Lemma opt_ws_idem : forall s, Uncommented s -> opt_ws (opt_ws s) = opt_ws s.
Proof.
  intros s H. apply opt_ws_none.
  - eapply Unc_Suffix; [apply opt_ws_suffix|exact H].
  - apply drop_blank_start.
Qed.

Lemma head_not_blank : forall c s, ~ Blank c -> ~ BlankStart (c :: s).
Proof. intros c s H (d & r & E & Hd). injection E as -> _. contradiction. Qed.

(** First characters decide. *)
Lemma not_starts : forall c s d t, c <> d -> ~ StartsWith (c :: s) (d :: t).
Proof. intros c s d t H [q E]. injection E as E _. congruence. Qed.
Lemma tok_head_miss : forall c s d t, Uncommented (c :: s) -> c <> d -> tok (d :: t) (c :: s) = PFail.
Proof. intros; apply tok_miss; [assumption|apply not_starts; assumption]. Qed.

(** * Sampling marks *)
Lemma sampler_hit : forall mark m s, MarkText mark m -> Uncommented (mark ++ s) ->
  (m = None -> ~ MarkStart s) -> sampler (mark ++ s) = POk m s.
Proof.
  intros mark m s Hm Hu Hn; unfold sampler. destruct Hm.
  - cbn [app] in *. specialize (Hn eq_refl).
    assert (Ht : forall c, In c $"~!@" -> tok [c] s = PFail).
    { intros c Hc. apply tok_miss; [exact Hu|]. intros [q E]. apply Hn. exists c, q. auto. }
    change $"~" with [126%N]; change $"!" with [33%N]; change $"@" with [64%N].
    rewrite !Ht by (cbn; auto). reflexivity.
  - rewrite (tok_hit $"~" s Hu). reflexivity.
  - rewrite (tok_hit $"!" s Hu). rewrite (tok_miss $"~" _ Hu) by (intros [? E]; discriminate E). reflexivity.
  - rewrite (tok_hit $"@" s Hu).
    rewrite (tok_miss $"~" _ Hu) by (intros [? E]; discriminate E).
    rewrite (tok_miss $"!" _ Hu) by (intros [? E]; discriminate E). reflexivity.
Qed.

(** * Names *)
Lemma is_alpha_spec : forall c, is_alpha c = true <-> Letter c.
Proof.
  intros c; unfold is_alpha, Letter.
  rewrite orb_true_iff, !andb_true_iff, !N.leb_le. reflexivity.
Qed.
Lemma name_start_spec : forall c, name_start c = true <-> NameStart c.
Proof.
  intros c; unfold name_start, NameStart.
  rewrite !orb_true_iff, is_alpha_spec, !N.eqb_eq. tauto.
Qed.
Lemma is_digit_spec : forall c, is_digit c = true <-> (48 <= c <= 57)%N.
Proof. intros c; unfold is_digit. rewrite andb_true_iff, !N.leb_le. reflexivity. Qed.
Lemma name_char_spec : forall c, name_char c = true <-> NameChar c.
Proof.
  intros c; unfold name_char, NameChar. rewrite orb_true_iff, name_start_spec, is_digit_spec. reflexivity.
Qed.
Lemma while_hit : forall f a s, forallb f a = true ->
  (forall c r, s = c :: r -> f c = false) ->
  take_while f (a ++ s) = a /\ drop_while f (a ++ s) = s.
Proof.
  intros f a s Ha Hs. rewrite take_while_app_all, drop_while_app_all by exact Ha.
  rewrite (drop_while_nonhead f s Hs). split; [|reflexivity].
  destruct s as [|c s]; cbn; [apply app_nil_r|]. rewrite (Hs c s eq_refl). apply app_nil_r.
Qed.
Lemma NameText_chars : forall x, NameText x -> forallb name_char x = true.
Proof.
  intros x (c & r & -> & Hc & Hr). cbn. apply andb_true_iff; split.
  - apply name_char_spec; left; exact Hc.
  - apply forallb_forall. intros d Hd. apply name_char_spec. rewrite Forall_forall in Hr. auto.
Qed.
Lemma var_name_hit : forall x s, NameText x -> Uncommented (x ++ s) ->
  (forall c r, s = c :: r -> ~ NameChar c) -> var_name (x ++ s) = POk x s.
Proof.
  intros x s Hx Hu Hs; unfold var_name. rewrite (Unc_skip _ Hu).
  destruct (while_hit name_char x s (NameText_chars x Hx)) as [Ht Hd].
  { intros c r E. destruct (name_char c) eqn:En; [|reflexivity].
    exfalso; apply (Hs c r E), name_char_spec, En. }
  rewrite Ht, Hd. destruct Hx as (c & r & -> & Hc & Hr). cbn [app].
  apply name_start_spec in Hc. rewrite Hc. reflexivity.
Qed.

(** * Numbers *)
Lemma number_snoc : forall ds c, number (ds ++ [c]) = (10 * number ds + (c - 48))%N.
Proof. intros ds c; unfold number. rewrite fold_left_app. reflexivity. Qed.
Lemma Numeral_facts : forall ds n, Numeral ds n ->
  forallb is_digit ds = true /\ number ds = n /\ ds <> [].
Proof.
  induction 1 as [d Hd|ds n d H [IH1 [IH2 IH3]] Hd].
  - assert (E : (48 + d - 48 = d)%N) by lia. split; [|split].
    + cbn [forallb]. rewrite andb_true_r. apply is_digit_spec. lia.
    + change [(48 + d)%N] with (([] : str) ++ [(48 + d)%N]). rewrite number_snoc, E.
      change (number []) with 0%N. lia.
    + discriminate.
  - assert (E : (48 + d - 48 = d)%N) by lia. split; [|split].
    + rewrite forallb_app, IH1. cbn [forallb andb]. rewrite andb_true_r. apply is_digit_spec. lia.
    + rewrite number_snoc, IH2, E. reflexivity.
    + intros K; apply app_eq_nil in K; destruct K; discriminate.
Qed.
Lemma Numeral_of : forall ds, forallb is_digit ds = true -> ds <> [] -> Numeral ds (number ds).
Proof.
  induction ds as [|c ds IH] using rev_ind; intros H Hn; [congruence|].
  rewrite forallb_app in H. apply andb_true_iff in H. destruct H as [H1 H2]. cbn in H2.
  rewrite andb_true_r in H2. apply is_digit_spec in H2.
  rewrite number_snoc.
  replace c with (48 + (c - 48))%N at 1 by lia.
  destruct ds as [|d ds].
  - cbn [app]. change (number []) with 0%N. rewrite N.mul_0_r, N.add_0_l.
    apply Numeral_one. lia.
  - apply Numeral_more; [|lia]. apply IH; [exact H1|discriminate].
Qed.
Lemma Numeral_fun : forall ds n m, Numeral ds n -> Numeral ds m -> n = m.
Proof. intros ds n m H1 H2. apply Numeral_facts in H1, H2. destruct H1 as (_ & <- & _), H2 as (_ & <- & _). reflexivity. Qed.

Definition NoDigitStart (s : str) : Prop := forall c r, s = c :: r -> is_digit c = false.
Lemma integer_hit : forall ds n s, Numeral ds n -> Uncommented (ds ++ s) -> NoDigitStart s ->
  integer (ds ++ s) = POk n s.
Proof.
  intros ds n s Hn Hu Hs; unfold integer. rewrite (Unc_skip _ Hu).
  apply Numeral_facts in Hn. destruct Hn as (Hd & <- & Hne).
  destruct (while_hit is_digit ds s Hd Hs) as [-> ->]. destruct ds; [congruence|reflexivity].
Qed.
Lemma integer_inv : forall s n r, Uncommented s -> integer s = POk n r ->
  exists ds, Numeral ds n /\ s = ds ++ r.
Proof.
  intros s n r Hu; unfold integer. rewrite (Unc_skip _ Hu).
  destruct (take_while is_digit s) as [|c w] eqn:E; [discriminate|].
  intros H; injection H as <- <-. exists (c :: w). split.
  - apply Numeral_of; [rewrite <- E; apply take_while_all|discriminate].
  - rewrite <- E. symmetry; apply take_drop_while.
Qed.
Lemma integer_miss : forall s, Uncommented s -> NoDigitStart s -> integer s = PFail.
Proof.
  intros s Hu Hs; unfold integer. rewrite (Unc_skip _ Hu).
  destruct s as [|c s]; cbn; [reflexivity|]. rewrite (Hs c s eq_refl). reflexivity.
Qed.

(** Decimal fractions. *)
Lemma ten_pow_nonzero : forall k, Q2Qc (inject_Z (10 ^ Z.of_nat k)) <> 0%Qc.
Proof.
  intros k H. apply Q2Qc_eq_iff in H. unfold Qeq in H; cbn in H.
  assert (0 < 10 ^ Z.of_nat k)%Z by (apply Z.pow_pos_nonneg; lia). lia.
Qed.
Lemma decimal_spec : forall ip fp,
  (decimal ip fp * Q2Qc (inject_Z (10 ^ Z.of_nat (length fp))) =
   Q2Qc (inject_Z (Z.of_N (number (ip ++ fp)))))%Qc.
Proof.
  intros ip fp; unfold decimal.
  assert (Hp : (0 < 10 ^ Z.of_nat (length fp))%Z) by (apply Z.pow_pos_nonneg; lia).
  set (d := (10 ^ Z.of_nat (length fp))%Z) in *. set (n := Z.of_N (number (ip ++ fp))).
  apply Qc_is_canon. cbn [Qcmult this Q2Qc]. rewrite !Qred_correct.
  field. intros H. unfold Qeq in H; cbn in H. lia.
Qed.
Lemma decimal_unique : forall ip fp q n, number (ip ++ fp) = n ->
  (q * Q2Qc (inject_Z (10 ^ Z.of_nat (length fp))) = Q2Qc (inject_Z (Z.of_N n)))%Qc ->
  decimal ip fp = q.
Proof.
  intros ip fp q n Hn Hq. pose proof (decimal_spec ip fp) as Hd. rewrite Hn, <- Hq in Hd.
  pose proof (ten_pow_nonzero (length fp)) as H0.
  set (d := Q2Qc (inject_Z (10 ^ Z.of_nat (length fp)))) in *.
  rewrite <- (Qcmult_1_r (decimal ip fp)), <- (Qcmult_1_r q).
  rewrite <- (Qcmult_inv_r d H0), !Qcmult_assoc, Hd. reflexivity.
Qed.

(** * Weights *)
Lemma not_digit_colon : forall s, NoDigitStart ($"::" ++ s).
Proof. intros s c r E. injection E as <- _. reflexivity. Qed.
Lemma not_digit_dot : forall s, NoDigitStart ($"." ++ s).
Proof. intros s c r E. injection E as <- _. reflexivity. Qed.

Lemma digit_not_sign : forall c, is_digit c = true -> N.eqb c 43 = false /\ N.eqb c 45 = false.
Proof.
  intros c H. apply is_digit_spec in H. split; apply N.eqb_neq; lia.
Qed.

(** [real] after the optional sign. *)
Definition unsigned (neg : bool) (s : str) : pres Qc :=
  let ip := take_while is_digit s in
  match drop_while is_digit s with
  | c :: s' =>
      let fp := take_while is_digit s' in
      if N.eqb c 46 && negb (match ip, fp with [], [] => true | _, _ => false end) then
        let q := decimal ip fp in
        POk (if neg then (- q)%Qc else q) (drop_while is_digit s')
      else PFail
  | [] => PFail
  end.
Lemma real_unfold : forall s, real s =
  match skip s with
  | c :: s' => if N.eqb c 43 then unsigned false s' else if N.eqb c 45 then unsigned true s'
               else unsigned false (c :: s')
  | [] => PFail
  end.
Proof.
  intros s; unfold real, unsigned. destruct (skip s) as [|c s']; [reflexivity|].
  destruct (N.eqb c 43); [reflexivity|]. destruct (N.eqb c 45); reflexivity.
Qed.

Lemma unsigned_hit : forall neg ip fp n q s,
  Numeral (ip ++ fp) n ->
  (q * Q2Qc (inject_Z (10 ^ Z.of_nat (length fp))) = Q2Qc (inject_Z (Z.of_N n)))%Qc ->
  NoDigitStart s ->
  unsigned neg (ip ++ $"." ++ fp ++ s) = POk (if neg then (- q)%Qc else q) s.
Proof.
  intros neg ip fp n q s Hn Hq Hs; unfold unsigned.
  apply Numeral_facts in Hn. destruct Hn as (Hd & Hnum & Hne).
  rewrite forallb_app in Hd. apply andb_true_iff in Hd. destruct Hd as [Hi Hf].
  destruct (while_hit is_digit ip ($"." ++ fp ++ s) Hi (not_digit_dot _)) as [-> ->].
  change ($"." ++ fp ++ s) with (46%N :: fp ++ s).
  destruct (while_hit is_digit fp s Hf Hs) as [-> ->].
  rewrite (decimal_unique ip fp q n Hnum Hq).
  rewrite N.eqb_refl; cbn [andb].
  destruct ip as [|a ip]; [|reflexivity]. destruct fp as [|b fp]; [|reflexivity].
  exfalso; apply Hne; reflexivity.
Qed.

Lemma weight_hit : forall wt q s, WeightText wt q -> Uncommented (wt ++ $"::" ++ s) ->
  weight (wt ++ $"::" ++ s) = POk q s.
Proof.
  intros wt q s H Hu; unfold weight.
  pose proof (Unc_r _ _ Hu) as Hu2.
  destruct H as [ds n Hn|sign neg ip fp n q Hsign Hn Hq].
  - assert (E : alt real (fun s => let! (n, s) := integer s in POk (Q2Qc (inject_Z (Z.of_N n))) s)
                  (ds ++ $"::" ++ s) = POk (Q2Qc (inject_Z (Z.of_N n))) ($"::" ++ s)).
    { unfold alt. rewrite real_unfold, (Unc_skip _ Hu).
      rewrite (integer_hit ds n _ Hn Hu (not_digit_colon s)).
      apply Numeral_facts in Hn. destruct Hn as (Hd & _ & Hne).
      destruct ds as [|d ds]; [congruence|]. cbn [app].
      pose proof Hd as Hd'. cbn in Hd'. apply andb_true_iff in Hd'. destruct Hd' as [Hd1 _].
      destruct (digit_not_sign d Hd1) as [-> ->].
      unfold unsigned.
      destruct (while_hit is_digit (d :: ds) ($"::" ++ s) Hd (not_digit_colon s)) as [Ht Hdr].
      cbn [app] in Ht, Hdr. rewrite Ht, Hdr. reflexivity. }
    rewrite E, (tok_hit $"::" s Hu2). reflexivity.
  - assert (E : real ((sign ++ ip ++ $"." ++ fp) ++ $"::" ++ s) =
                POk (if neg then (- q)%Qc else q) ($"::" ++ s)).
    { rewrite real_unfold, (Unc_skip _ Hu). rewrite <- !app_assoc.
      pose proof (fun b => unsigned_hit b ip fp n q ($"::" ++ s) Hn Hq (not_digit_colon s)) as K.
      destruct Hsign as [[-> ->]|[[-> ->]|[-> ->]]].
      - cbn [app]. apply Numeral_facts in Hn. destruct Hn as (Hd & _ & _).
        rewrite <- (K false). destruct ip as [|d ip]; [reflexivity|]. cbn [app].
        cbn in Hd. apply andb_true_iff in Hd. destruct Hd as [Hd1 _].
        destruct (digit_not_sign d Hd1) as [-> ->]. reflexivity.
      - exact (K false).
      - exact (K true). }
    unfold alt. rewrite E, (tok_hit $"::" s Hu2). reflexivity.
Qed.

Lemma unsigned_inv : forall neg s q r, unsigned neg s = POk q r ->
  exists ip fp n q0, s = ip ++ $"." ++ fp ++ r /\ Numeral (ip ++ fp) n /\
    (q0 * Q2Qc (inject_Z (10 ^ Z.of_nat (length fp))) = Q2Qc (inject_Z (Z.of_N n)))%Qc /\
    q = (if neg then (- q0)%Qc else q0).
Proof.
  intros neg s q r; unfold unsigned.
  pose proof (take_drop_while is_digit s) as Hs.
  pose proof (take_while_all is_digit s) as Hi.
  set (ip := take_while is_digit s) in *.
  destruct (drop_while is_digit s) as [|c s']; [discriminate|].
  pose proof (take_drop_while is_digit s') as Hs'.
  pose proof (take_while_all is_digit s') as Hf.
  set (fp := take_while is_digit s') in *.
  destruct (N.eqb_spec c 46) as [->|]; [|discriminate]. cbn [andb].
  destruct (negb _) eqn:E; [|discriminate]. intros H; injection H as <- <-.
  exists ip, fp, (number (ip ++ fp)), (decimal ip fp). split; [|split; [|split]].
  - rewrite <- Hs at 1. f_equal. cbn. f_equal. symmetry; exact Hs'.
  - apply Numeral_of; [rewrite forallb_app, Hi, Hf; reflexivity|].
    intros K; apply app_eq_nil in K. destruct K as [K1 K2].
    rewrite K1, K2 in E. discriminate.
  - apply decimal_spec.
  - reflexivity.
Qed.

Lemma weight_inv : forall s q r, Uncommented s -> weight s = POk q r ->
  exists wt, WeightText wt q /\ s = wt ++ $"::" ++ r.
Proof.
  intros s q r Hu; unfold weight.
  set (i := fun s => let! (n, s) := integer s in POk (Q2Qc (inject_Z (Z.of_N n))) s).
  destruct (alt real i s) as [q' s'| |e|] eqn:E; try discriminate.
  assert (Hw : exists wt, WeightText wt q' /\ s = wt ++ s').
  { unfold alt in E. destruct (real s) as [q2 s2| |e2|] eqn:Er; try discriminate.
    - injection E as -> ->. rewrite real_unfold, (Unc_skip _ Hu) in Er.
      destruct s as [|c s2]; [discriminate|].
      destruct (N.eqb_spec c 43) as [->|H43].
      + apply unsigned_inv in Er. destruct Er as (ip & fp & n & q0 & -> & Hn & Hq & ->).
        exists ($"+" ++ ip ++ $"." ++ fp). split.
        * apply (Weight_real $"+" false ip fp n q0); auto.
        * rewrite <- !app_assoc. reflexivity.
      + destruct (N.eqb_spec c 45) as [->|H45].
        * apply unsigned_inv in Er. destruct Er as (ip & fp & n & q0 & -> & Hn & Hq & ->).
          exists ($"-" ++ ip ++ $"." ++ fp). split.
          -- apply (Weight_real $"-" true ip fp n q0); auto.
          -- rewrite <- !app_assoc. reflexivity.
        * apply unsigned_inv in Er. destruct Er as (ip & fp & n & q0 & Hs & Hn & Hq & ->).
          exists ([] ++ ip ++ $"." ++ fp). split.
          -- apply (Weight_real [] false ip fp n q0); auto.
          -- rewrite Hs. cbn [app]. rewrite <- !app_assoc. reflexivity.
    - unfold i in E. destruct (integer s) as [n s2| |e2|] eqn:Ei; try discriminate.
      injection E as <- ->. apply integer_inv in Ei; [|exact Hu].
      destruct Ei as (ds & Hn & ->). exists ds. split; [constructor; exact Hn|reflexivity]. }
  destruct Hw as (wt & Hwt & ->).
  destruct (tok $"::" s') as [x s2| |e|] eqn:Et; try discriminate.
  intros H; injection H as -> ->. apply tok_inv in Et; [|apply (Unc_r wt), Hu].
  exists wt. split; [exact Hwt|rewrite Et; reflexivity].
Qed.
Lemma integer_not_raise : forall s, integer s = PFail \/ exists n r, integer s = POk n r.
Proof. intros s; unfold integer. destruct (take_while is_digit (skip s)); eauto. Qed.
Lemma real_not_raise : forall s, real s = PFail \/ exists n r, real s = POk n r.
Proof.
  assert (U : forall b s, unsigned b s = PFail \/ exists n r, unsigned b s = POk n r).
  { intros b s; unfold unsigned. destruct (drop_while is_digit s); [auto|].
    destruct (N.eqb n 46 && _); eauto. }
  intros s; rewrite real_unfold. destruct (skip s) as [|c r]; [auto|].
  destruct (N.eqb c 43); [apply U|]. destruct (N.eqb c 45); apply U.
Qed.
Lemma weight_not_raise : forall s, weight s = PFail \/ exists q r, weight s = POk q r.
Proof.
  intros s; unfold weight, alt.
  destruct (real_not_raise s) as [->|(q & r & ->)].
  - destruct (integer_not_raise s) as [->|(n & r & ->)]; [auto|].
    destruct (tok_not_raise $"::" r) as [->|(r' & ->)]; eauto.
  - destruct (tok_not_raise $"::" r) as [->|(r' & ->)]; eauto.
Qed.

(** A text that does not begin with a weight, whatever follows the option. *)
Lemma weight_chars : forall wt q, WeightText wt q -> Forall (fun c => ~ In c $"|}$:") wt.
Proof.
  assert (D : forall ds, forallb is_digit ds = true -> Forall (fun c => ~ In c $"|}$:") ds).
  { intros ds H. apply Forall_forall. intros c Hc. rewrite forallb_forall in H.
    apply H, is_digit_spec in Hc. cbn. intuition lia. }
  intros wt q [ds n Hn|sign neg ip fp n q0 Hs Hn Hq].
  - apply D. apply Numeral_facts in Hn. apply Hn.
  - apply Numeral_facts in Hn. destruct Hn as (Hd & _). rewrite forallb_app in Hd.
    apply andb_true_iff in Hd. destruct Hd as [H1 H2].
    rewrite !Forall_app. repeat split; auto.
    + destruct Hs as [[-> _]|[[-> _]|[-> _]]]; repeat constructor; cbn; intuition discriminate.
    + repeat constructor; cbn; intuition discriminate.
Qed.
Lemma weight_miss : forall t k, Uncommented (t ++ k) ->
  (forall wt q r, WeightText wt q -> t <> wt ++ $"::" ++ r) ->
  (forall c r, k = c :: r -> In c $"|}$") ->
  weight (t ++ k) = PFail.
Proof.
  intros t k Hu Ht Hk. destruct (weight_not_raise (t ++ k)) as [E|(q & r & E)]; [exact E|exfalso].
  apply weight_inv in E; [|exact Hu]. destruct E as (wt & Hw & E).
  replace (wt ++ $"::" ++ r) with ((wt ++ $"::") ++ r) in E by (rewrite <- app_assoc; reflexivity).
  apply app_split in E. destruct E as [(l & E1 & E2)|(l & E1 & E2)].
  - apply (Ht wt q l Hw). rewrite E1, <- app_assoc. reflexivity.
  - destruct l as [|c l].
    + apply (Ht wt q [] Hw). rewrite app_nil_r in E1. rewrite <- E1. reflexivity.
    + specialize (Hk c _ E2). apply weight_chars in Hw.
      assert (Hin : In c (wt ++ $"::")) by (rewrite E1; apply in_or_app; right; left; reflexivity).
      apply in_app_or in Hin. destruct Hin as [Hin|Hin].
      * rewrite Forall_forall in Hw. apply (Hw c Hin). cbn in Hk |- *. tauto.
      * cbn in Hin, Hk. intuition congruence.
Qed.

(** * Bounds *)
Lemma not_digit_dollar : forall s, NoDigitStart ($"$$" ++ s).
Proof. intros s c r E. injection E as <- _. reflexivity. Qed.
Lemma not_digit_hyphen : forall s, NoDigitStart ($"-" ++ s).
Proof. intros s c r E. injection E as <- _. reflexivity. Qed.
Lemma numeral_head : forall ds n, Numeral ds n -> exists d r, ds = d :: r /\ is_digit d = true.
Proof.
  intros ds n H. apply Numeral_facts in H. destruct H as (H & _ & Hn).
  destruct ds as [|d r]; [congruence|]. exists d, r. split; [reflexivity|].
  cbn in H. apply andb_true_iff in H. apply H.
Qed.

Definition range_bounds (rng : option N * option N) (count : nat) : Z * Z :=
  (match fst rng with Some n => Z.of_N n | None => 1%Z end,
   match snd rng with Some n => Z.of_N n | None => Z.of_nat count end).

Lemma bound_range_hit : forall count b lo hi s, BoundText count b lo hi ->
  Uncommented (b ++ $"$$" ++ s) ->
  exists rng, bound_range (b ++ $"$$" ++ s) = POk rng ($"$$" ++ s) /\
    range_bounds rng count = (lo, hi).
Proof.
  intros count b lo hi s H Hu; unfold bound_range, alt.
  destruct H as [ds n Hn|ds n es m Hn Hm|es m Hm|ds n Hn].
  - exists (Some n, Some n). split; [|reflexivity].
    unfold lower_upper. rewrite (integer_hit ds n _ Hn Hu (not_digit_dollar s)).
    pose proof (Unc_r _ _ Hu) as Hu2.
    rewrite (tok_miss $"-" _ Hu2) by (intros [? E]; discriminate E).
    unfold only_upper.
    destruct (numeral_head ds n Hn) as (d & r & Hds & Hd).
    assert (Hm : tok $"-" (ds ++ $"$$" ++ s) = PFail).
    { rewrite Hds in *. apply (tok_head_miss d _ 45 [] Hu).
      apply is_digit_spec in Hd. lia. }
    rewrite Hm. unfold only_lower, exact.
    rewrite (integer_hit ds n _ Hn Hu (not_digit_dollar s)).
    rewrite (tok_miss $"-" _ Hu2) by (intros [? E]; discriminate E). reflexivity.
  - exists (Some n, Some m). split; [|reflexivity].
    rewrite <- !app_assoc in *. unfold lower_upper.
    rewrite (integer_hit ds n _ Hn Hu (not_digit_hyphen _)).
    pose proof (Unc_r _ _ Hu) as Hu2. rewrite (tok_hit $"-" _ Hu2).
    pose proof (Unc_r _ _ Hu2) as Hu3.
    rewrite (integer_hit es m _ Hm Hu3 (not_digit_dollar s)). reflexivity.
  - exists (None, Some m). split; [|reflexivity].
    rewrite <- !app_assoc in *. unfold lower_upper.
    rewrite (integer_miss _ Hu (not_digit_hyphen _)). unfold only_upper.
    rewrite (tok_hit $"-" _ Hu). pose proof (Unc_r _ _ Hu) as Hu2.
    rewrite (integer_hit es m _ Hm Hu2 (not_digit_dollar s)). reflexivity.
  - exists (Some n, None). split; [|reflexivity].
    rewrite <- !app_assoc in *. unfold lower_upper.
    rewrite (integer_hit ds n _ Hn Hu (not_digit_hyphen _)).
    pose proof (Unc_r _ _ Hu) as Hu2. rewrite (tok_hit $"-" _ Hu2).
    pose proof (Unc_r _ _ Hu2) as Hu3.
    rewrite (integer_miss _ Hu3 (not_digit_dollar s)). unfold only_upper.
    destruct (numeral_head ds n Hn) as (d & r & Hds & Hd).
    assert (Hm : tok $"-" (ds ++ $"-" ++ $"$$" ++ s) = PFail).
    { rewrite Hds in *. apply (tok_head_miss d _ 45 [] Hu).
      apply is_digit_spec in Hd. lia. }
    rewrite Hm. unfold only_lower.
    rewrite (integer_hit ds n _ Hn Hu (not_digit_hyphen _)), (tok_hit $"-" _ Hu2). reflexivity.
Qed.

Lemma bound_range_inv : forall s x r, Uncommented s -> bound_range s = POk x r ->
  exists p, s = p ++ r /\ forall count, exists lo hi, BoundText count p lo hi /\
    forall sep, bounds_of (Some (x, sep)) count = (lo, hi, sep).
Proof.
  intros s x r Hu; unfold bound_range, alt.
  destruct (lower_upper s) as [a ra| |e|] eqn:E1; try discriminate.
  { intros H; injection H as -> ->. unfold lower_upper in E1.
    destruct (integer s) as [n1 s1| |?|] eqn:I1; try discriminate.
    apply integer_inv in I1; [|exact Hu]. destruct I1 as (ds & Hn & ->).
    destruct (tok $"-" s1) as [u s2| |?|] eqn:T1; try discriminate.
    apply tok_inv in T1; [|exact (Unc_r _ _ Hu)]. subst s1.
    destruct (integer s2) as [n2 s3| |?|] eqn:I2; try discriminate.
    apply integer_inv in I2; [|exact (Unc_r _ _ (Unc_r _ _ Hu))]. destruct I2 as (es & Hm & ->).
    injection E1 as <- ->. exists (ds ++ $"-" ++ es). split; [rewrite <- !app_assoc; reflexivity|].
    intros count. eexists; eexists; (split; [apply Bound_both; eassumption|reflexivity]). }
  destruct (only_upper s) as [a ra| |e|] eqn:E2; try discriminate.
  { intros H; injection H as -> ->. unfold only_upper in E2.
    destruct (tok $"-" s) as [u s2| |?|] eqn:T1; try discriminate.
    apply tok_inv in T1; [|exact Hu]. subst s.
    destruct (integer s2) as [n2 s3| |?|] eqn:I2; try discriminate.
    apply integer_inv in I2; [|exact (Unc_r _ _ Hu)]. destruct I2 as (es & Hm & ->).
    injection E2 as <- ->. exists ($"-" ++ es). split; [rewrite <- !app_assoc; reflexivity|].
    intros count. eexists; eexists; (split; [apply Bound_upper; eassumption|reflexivity]). }
  destruct (only_lower s) as [a ra| |e|] eqn:E3; try discriminate.
  { intros H; injection H as -> ->. unfold only_lower in E3.
    destruct (integer s) as [n1 s1| |?|] eqn:I1; try discriminate.
    apply integer_inv in I1; [|exact Hu]. destruct I1 as (ds & Hn & ->).
    destruct (tok $"-" s1) as [u s2| |?|] eqn:T1; try discriminate.
    apply tok_inv in T1; [|exact (Unc_r _ _ Hu)]. subst s1.
    injection E3 as <- ->. exists (ds ++ $"-"). split; [rewrite <- !app_assoc; reflexivity|].
    intros count. eexists; eexists; (split; [apply Bound_lower; eassumption|reflexivity]). }
  unfold exact. destruct (integer s) as [n1 s1| |?|] eqn:I1; try discriminate.
  apply integer_inv in I1; [|exact Hu]. destruct I1 as (ds & Hn & ->).
  intros H; injection H as <- ->. exists ds. split; [reflexivity|].
  intros count. eexists; eexists; (split; [apply Bound_exact; eassumption|reflexivity]).
Qed.
Lemma bound_range_not_raise : forall s, bound_range s = PFail \/ exists x r, bound_range s = POk x r.
Proof.
  intros s; unfold bound_range, alt, lower_upper, only_upper, only_lower, exact.
  destruct (integer_not_raise s) as [->|(n1 & r1 & ->)].
  - destruct (tok_not_raise $"-" s) as [->|(r2 & ->)]; [auto|].
    destruct (integer_not_raise r2) as [->|(n3 & r3 & ->)]; eauto.
  - destruct (tok_not_raise $"-" r1) as [->|(r2 & ->)].
    + destruct (tok_not_raise $"-" s) as [->|(r3 & ->)]; [eauto|].
      destruct (integer_not_raise r3) as [->|(n4 & r4 & ->)]; eauto.
    + destruct (integer_not_raise r2) as [->|(n3 & r3 & ->)]; [|eauto].
      destruct (tok_not_raise $"-" s) as [->|(r4 & ->)]; [eauto|].
      destruct (integer_not_raise r4) as [->|(n4 & r5 & ->)]; eauto.
Qed.

Lemma separator_char_spec : forall c, separator_char c = true <->
  (32 <= c <= 126)%N /\ ~ In c $"${}".
Proof.
  intros c; unfold separator_char.
  rewrite !andb_true_iff, !N.leb_le, negb_true_iff, !orb_false_iff, !N.eqb_neq. cbn.
  intuition congruence.
Qed.
Lemma separator_hit : forall sep s, SeparatorText sep -> Uncommented (sep ++ $"$$" ++ s) ->
  separator (sep ++ $"$$" ++ s) = POk sep ($"$$" ++ s).
Proof.
  intros sep s [Hne Hs] Hu; unfold separator. rewrite (Unc_skip _ Hu).
  assert (Hf : forallb separator_char sep = true).
  { apply forallb_forall. intros c Hc. apply separator_char_spec.
    rewrite Forall_forall in Hs. apply Hs, Hc. }
  destruct (while_hit separator_char sep ($"$$" ++ s) Hf) as [-> ->].
  { intros c r E. injection E as <- _. reflexivity. }
  destruct sep; [congruence|reflexivity].
Qed.
Lemma separator_inv : forall s x r, Uncommented s -> separator s = POk x r ->
  s = x ++ r /\ SeparatorText x.
Proof.
  intros s x r Hu; unfold separator. rewrite (Unc_skip _ Hu).
  pose proof (take_drop_while separator_char s) as Hs.
  pose proof (take_while_all separator_char s) as Ha.
  destruct (take_while separator_char s) as [|c w]; [discriminate|].
  intros H; injection H as <- <-. split; [symmetry; exact Hs|]. split; [discriminate|].
  apply Forall_forall. intros d Hd. rewrite forallb_forall in Ha.
  apply Ha, separator_char_spec in Hd. exact Hd.
Qed.
Lemma separator_not_raise : forall s, separator s = PFail \/ exists x r, separator s = POk x r.
Proof. intros s; unfold separator. destruct (take_while separator_char (skip s)); eauto. Qed.

(** Text before a double dollar that has no brace ends before the brace. *)
Lemma dollars_before : forall p r o k, ~ In 125%N p -> o ++ $"}" ++ k = p ++ $"$$" ++ r ->
  exists q, o = p ++ $"$$" ++ q.
Proof.
  intros p r o k Hp E. apply app_split in E. destruct E as [(l & E1 & E2)|(l & E1 & E2)].
  - destruct l as [|a [|b l]].
    + discriminate E2.
    + discriminate E2.
    + exists l. injection E2 as <- <- _. rewrite E1. reflexivity.
  - destruct l as [|a l]; [discriminate E2|]. injection E2 as <- _.
    exfalso; apply Hp. rewrite E1. apply in_or_app; right; left; reflexivity.
Qed.
Lemma Numeral_no : forall ds n c, Numeral ds n -> ~ (48 <= c <= 57)%N -> ~ In c ds.
Proof.
  intros ds n c H Hc Hin. apply Numeral_facts in H. destruct H as (H & _).
  rewrite forallb_forall in H. apply H, is_digit_spec in Hin. contradiction.
Qed.
Lemma BoundText_no : forall count b lo hi, BoundText count b lo hi -> ~ In 125%N b.
Proof.
  intros count b lo hi H.
  assert (D : forall ds n, Numeral ds n -> ~ In 125%N ds) by (intros ds n Hn; eapply Numeral_no; [exact Hn|lia]).
  destruct H; rewrite ?in_app_iff; cbn [In].
  - eapply D; eassumption.
  - intros [K|[[K|[]]|K]]; [|discriminate K|]; revert K; eapply D; eassumption.
  - intros [[K|[]]|K]; [discriminate K|]; revert K; eapply D; eassumption.
  - intros [K|[K|[]]]; [|discriminate K]; revert K; eapply D; eassumption.
Qed.
Lemma SeparatorText_no : forall sep, SeparatorText sep -> ~ In 125%N sep.
Proof.
  intros sep [_ H] Hin. rewrite Forall_forall in H. apply H in Hin. apply Hin. cbn; tauto.
Qed.

Lemma bound_expr_miss : forall count o k, Uncommented (o ++ $"}" ++ k) ->
  (forall b lo hi r, BoundText count b lo hi -> o <> b ++ $"$$" ++ r) ->
  bound_expr (o ++ $"}" ++ k) = PFail.
Proof.
  intros count o k Hu Hc; unfold bound_expr.
  destruct (bound_range_not_raise (o ++ $"}" ++ k)) as [->|(x & r & E)]; [reflexivity|]. rewrite E.
  apply bound_range_inv in E; [|exact Hu]. destruct E as (p & E & Hp).
  destruct (Hp count) as (lo & hi & Hb & _).
  destruct (tok_not_raise $"$$" r) as [->|(r' & Et)]; [reflexivity|exfalso].
  rewrite E in Hu. apply tok_inv in Et; [|exact (Unc_r _ _ Hu)]. subst r.
  destruct (dollars_before p r' o k) as [q Eq]; [eapply BoundText_no; exact Hb|exact E|].
  exact (Hc _ _ _ _ Hb Eq).
Qed.

(** The separator part. *)
Definition separator_part (s : str) : pres str :=
  let! (w, s) := separator s in
  let! (_, s) := tok $"$$" s in
  POk w s.
Lemma separator_part_miss : forall o k, Uncommented (o ++ $"}" ++ k) ->
  (forall sep r, SeparatorText sep -> o <> sep ++ $"$$" ++ r) ->
  separator_part (o ++ $"}" ++ k) = PFail.
Proof.
  intros o k Hu Hc; unfold separator_part.
  destruct (separator_not_raise (o ++ $"}" ++ k)) as [->|(x & r & E)]; [reflexivity|]. rewrite E.
  apply separator_inv in E; [|exact Hu]. destruct E as (E & Hs).
  destruct (tok_not_raise $"$$" r) as [->|(r' & Et)]; [reflexivity|exfalso].
  rewrite E in Hu. apply tok_inv in Et; [|exact (Unc_r _ _ Hu)]. subst r.
  destruct (dollars_before x r' o k) as [q Eq]; [apply SeparatorText_no, Hs|exact E|].
  exact (Hc _ _ Hs Eq).
Qed.

Lemma bounds_hit : forall count o bt lo hi sep k, BoundsText count o bt lo hi sep ->
  Uncommented (bt ++ o ++ $"}" ++ k) ->
  exists b s', popt bound_expr (bt ++ o ++ $"}" ++ k) = POk b s' /\
    opt_ws s' = opt_ws (o ++ $"}" ++ k) /\ bounds_of b count = (lo, hi, sep).
Proof.
  intros count o bt lo hi sep k H Hu.
  destruct H as [Hno|b lo hi w Hb Hw Hno|b lo hi sep w Hb Hsep Hw].
  - exists None, (o ++ $"}" ++ k). cbn [app] in *. unfold popt.
    change (o ++ 125%N :: k) with (o ++ $"}" ++ k) in *.
    rewrite (bound_expr_miss count o k Hu Hno), (Unc_skip _ Hu). repeat split.
  - rewrite <- !app_assoc in *. set (s := o ++ $"}" ++ k) in *.
    destruct (bound_range_hit count b lo hi (w ++ s) Hb Hu) as (rng & Hr & Hrb).
    pose proof (Unc_r _ _ Hu) as Hu1. pose proof (Unc_r _ _ Hu1) as Hu2.
    exists (Some (rng, $",")), (w ++ s). split; [|split].
    + unfold popt, bound_expr. fold separator_part.
      rewrite Hr, (tok_hit $"$$" _ Hu1). unfold popt.
      assert (Em : separator_part (w ++ s) = PFail).
      { unfold s in *. rewrite app_assoc in *. apply separator_part_miss; assumption. }
      rewrite Em, (Unc_skip _ Hu2). reflexivity.
    + unfold opt_ws. rewrite (Unc_skip _ Hu2), (Unc_skip _ (Unc_r _ _ Hu2)).
      apply drop_while_app_all, Blanks_forallb, Hw.
    + unfold bounds_of. destruct rng as [l h]; cbn in Hrb |- *. injection Hrb as -> ->. reflexivity.
  - rewrite <- !app_assoc in *. set (s := o ++ $"}" ++ k) in *.
    destruct (bound_range_hit count b lo hi (sep ++ $"$$" ++ w ++ s) Hb Hu) as (rng & Hr & Hrb).
    pose proof (Unc_r _ _ Hu) as Hu1. pose proof (Unc_r _ _ Hu1) as Hu2.
    pose proof (Unc_r _ _ Hu2) as Hu3. pose proof (Unc_r _ _ Hu3) as Hu4.
    exists (Some (rng, sep)), (w ++ s). split; [|split].
    + unfold popt, bound_expr. fold separator_part.
      rewrite Hr, (tok_hit $"$$" _ Hu1). unfold popt, separator_part.
      rewrite (separator_hit sep _ Hsep Hu2), (tok_hit $"$$" _ Hu3). reflexivity.
    + unfold opt_ws. rewrite (Unc_skip _ Hu4), (Unc_skip _ (Unc_r _ _ Hu4)).
      apply drop_while_app_all, Blanks_forallb, Hw.
    + unfold bounds_of. destruct rng as [l h]; cbn in Hrb |- *. injection Hrb as -> ->. reflexivity.
Qed.
