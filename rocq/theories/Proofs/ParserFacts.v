(** Facts about the template parser: what it consumes, that it terminates,
    which exceptions it raises. *)
From Coq Require Import String NArith ZArith QArith Qcanon Bool Arith List Lia.
From Verif.Model Require Import Str Command Rng Context Parser.
From Verif.Proofs Require Import StrFacts.
Import ListNotations.
Local Open Scope nat_scope.

(** * Remaining texts *)
Definition Suffix (r s : str) : Prop := exists p, s = p ++ r.
Definition Shorter (r s : str) : Prop := exists c p, s = c :: p ++ r.

Lemma Suffix_refl : forall s, Suffix s s.
Proof. intro s; exists []; reflexivity. Qed.
Lemma Suffix_trans : forall a b c, Suffix a b -> Suffix b c -> Suffix a c.
Proof. intros a b c [p ->] [q ->]; exists (q ++ p); rewrite app_assoc; reflexivity. Qed.
Lemma Shorter_Suffix : forall a b, Shorter a b -> Suffix a b.
Proof. intros a b (c & p & ->); exists (c :: p); reflexivity. Qed.
Lemma Shorter_l : forall a b c, Shorter a b -> Suffix b c -> Shorter a c.
Proof.
  intros a b c (x & p & ->) ([|y q] & ->); cbn.
  - exists x, p; reflexivity.
  - exists y, (q ++ x :: p); rewrite <- app_assoc; reflexivity.
Qed.
Lemma Shorter_r : forall a b c, Suffix a b -> Shorter b c -> Shorter a c.
Proof.
  intros a b c [q ->] (x & p & ->).
  exists x, (p ++ q); rewrite <- app_assoc; reflexivity.
Qed.
Lemma Shorter_length : forall a b, Shorter a b -> length a < length b.
Proof. intros a b (c & p & ->); cbn; rewrite app_length; lia. Qed.
Lemma Suffix_length : forall a b, Suffix a b -> length a <= length b.
Proof. intros a b [p ->]; rewrite app_length; lia. Qed.
Lemma Suffix_In : forall a b (x : N), Suffix a b -> In x a -> In x b.
Proof. intros a b x [p ->] H; apply in_or_app; auto. Qed.
Lemma Suffix_skipn : forall n s, Suffix (skipn n s) s.
Proof. intros n s; exists (firstn n s); symmetry; apply firstn_skipn. Qed.
Lemma Suffix_drop_while : forall f s, Suffix (drop_while f s) s.
Proof.
  intros f; induction s as [|c s IH]; cbn; [apply Suffix_refl|].
  destruct (f c); [|apply Suffix_refl].
  destruct IH as [p Hp]; exists (c :: p); cbn; f_equal; exact Hp.
Qed.
Lemma startswith_skipn : forall p s, startswith s p = true -> s = p ++ skipn (length p) s.
Proof.
  intros p s H; apply startswith_spec in H; destruct H as [q ->].
  rewrite skipn_app, skipn_all, Nat.sub_diag; reflexivity.
Qed.
Lemma skipn_app_length : forall (p q : str), skipn (length p) (p ++ q) = q.
Proof. intros p q; rewrite skipn_app, skipn_all, Nat.sub_diag; reflexivity. Qed.

(** * Skipping comments *)
Lemma after_close_suffix : forall s r, after_close s = Some r -> Suffix r s.
Proof.
  induction s as [|c s IH]; cbn [after_close]; intros r H; [discriminate|].
  destruct (startswith (c :: s) $"*/").
  - injection H as <-. destruct (Suffix_skipn 1 s) as [p Hp].
    exists (c :: p); cbn; f_equal; exact Hp.
  - destruct (IH r H) as [p ->]; exists (c :: p); reflexivity.
Qed.

Lemma ignored_shorter : forall s r, ignored s = Some r -> Shorter r s.
Proof.
  intros s r; unfold ignored.
  pose proof (Suffix_drop_while blank s) as Hd.
  set (t := drop_while blank s) in *; clearbody t.
  destruct (startswith t $"#") eqn:E1.
  { intros H; injection H as <-. apply startswith_skipn in E1.
    eapply Shorter_l; [|exact Hd]. eapply Shorter_r; [apply Suffix_drop_while|].
    exists 35%N, []; exact E1. }
  destruct (startswith t $"//") eqn:E2.
  { intros H; injection H as <-. apply startswith_skipn in E2.
    eapply Shorter_l; [|exact Hd]. eapply Shorter_r; [apply Suffix_drop_while|].
    exists 47%N, [47%N]; exact E2. }
  destruct (startswith t $"/*") eqn:E3; [|discriminate].
  intros H; apply after_close_suffix in H. apply startswith_skipn in E3.
  eapply Shorter_l; [|exact Hd]. eapply Shorter_r; [exact H|].
  exists 47%N, [42%N]; exact E3.
Qed.

Lemma skip_rounds_suffix : forall n s, Suffix (skip_rounds n s) s.
Proof.
  induction n as [|n IH]; intros s; cbn; [apply Suffix_refl|].
  destruct (ignored s) as [r|] eqn:E; [|apply Suffix_refl].
  eapply Suffix_trans; [apply IH|]. apply Shorter_Suffix, ignored_shorter, E.
Qed.
Lemma skip_suffix : forall s, Suffix (skip s) s.
Proof. intros s; apply skip_rounds_suffix. Qed.

(** [skip] really reaches a text with nothing to ignore. *)
Lemma skip_rounds_done : forall n s, length s <= n -> ignored (skip_rounds n s) = None.
Proof.
  induction n as [|n IH]; intros s H; cbn.
  - destruct s; [reflexivity|cbn in H; lia].
  - destruct (ignored s) as [r|] eqn:E; [|exact E].
    apply IH. apply ignored_shorter, Shorter_length in E. lia.
Qed.
Lemma skip_done : forall s, ignored (skip s) = None.
Proof. intros s; apply skip_rounds_done; lia. Qed.
Lemma skip_id : forall s, ignored s = None -> skip s = s.
Proof. intros [|c s] H; unfold skip; cbn [length skip_rounds]; [reflexivity|rewrite H; reflexivity]. Qed.
Lemma skip_idem : forall s, skip (skip s) = skip s.
Proof. intros s; apply skip_id, skip_done. Qed.

(** * Results that terminate and only raise AttributeError *)
Definition okle {A} (s : str) (r : pres A) : Prop :=
  match r with
  | POk _ r' => Suffix r' s
  | PFail => True
  | PRaise e => e = EAttribute
  | PFuel => False
  end.
Definition oklt {A} (s : str) (r : pres A) : Prop :=
  match r with
  | POk _ r' => Shorter r' s
  | PFail => True
  | PRaise e => e = EAttribute
  | PFuel => False
  end.

Lemma oklt_okle : forall A s (r : pres A), oklt s r -> okle s r.
Proof. intros A s [a r| |e|]; cbn; auto using Shorter_Suffix. Qed.
Lemma okle_trans : forall A s t (r : pres A), okle t r -> Suffix t s -> okle s r.
Proof. intros A s t [a r| |e|]; cbn; auto; intros; eapply Suffix_trans; eauto. Qed.
Lemma oklt_trans : forall A s t (r : pres A), oklt t r -> Suffix t s -> oklt s r.
Proof. intros A s t [a r| |e|]; cbn; auto; intros; eapply Shorter_l; eauto. Qed.
Lemma okle_lt : forall A s t (r : pres A), okle t r -> Shorter t s -> oklt s r.
Proof. intros A s t [a r| |e|]; cbn; auto; intros; eapply Shorter_r; eauto. Qed.

Lemma bind_le : forall A B s (r : pres A) (k : A -> str -> pres B),
  okle s r -> (forall a r', r = POk a r' -> Suffix r' s -> okle r' (k a r')) ->
  okle s (let! (a, r') := r in k a r').
Proof.
  intros A B s [a r| |e|] k H K; cbn in *; auto.
  eapply okle_trans; [apply K; auto|exact H].
Qed.
Lemma bind_lt_l : forall A B s (r : pres A) (k : A -> str -> pres B),
  oklt s r -> (forall a r', r = POk a r' -> Shorter r' s -> okle r' (k a r')) ->
  oklt s (let! (a, r') := r in k a r').
Proof.
  intros A B s [a r| |e|] k H K; cbn in *; auto.
  eapply okle_lt; [apply K; auto|exact H].
Qed.
Lemma bind_lt_r : forall A B s (r : pres A) (k : A -> str -> pres B),
  okle s r -> (forall a r', r = POk a r' -> Suffix r' s -> oklt r' (k a r')) ->
  oklt s (let! (a, r') := r in k a r').
Proof.
  intros A B s [a r| |e|] k H K; cbn in *; auto.
  eapply oklt_trans; [apply K; auto|exact H].
Qed.

Lemma opt_ws_suffix : forall s, Suffix (opt_ws s) s.
Proof.
  intros s; eapply Suffix_trans; [apply Suffix_drop_while|apply skip_suffix].
Qed.
Lemma tok_lt : forall t s, t <> [] -> oklt s (tok t s).
Proof.
  intros t s Ht; unfold tok.
  destruct (startswith (skip s) t) eqn:E; cbn; [|exact I].
  apply startswith_skipn in E. eapply Shorter_l; [|apply skip_suffix].
  destruct t as [|c t]; [congruence|]. exists c, t; exact E.
Qed.
Lemma tok_le : forall t s, okle s (tok t s).
Proof.
  intros t s; unfold tok. destruct (startswith (skip s) t); cbn; [|exact I].
  eapply Suffix_trans; [apply Suffix_skipn|apply skip_suffix].
Qed.
Lemma popt_le : forall A (p : str -> pres A) s, okle s (p s) -> okle s (popt p s).
Proof.
  intros A p s H; unfold popt; destruct (p s); cbn in *; auto using skip_suffix.
Qed.
Lemma sampler_le : forall s, okle s (sampler s).
Proof.
  intros s; unfold sampler.
  pose proof (tok_le $"~" s) as H1; pose proof (tok_le $"!" s) as H2;
    pose proof (tok_le $"@" s) as H3.
  destruct (tok $"~" s); [exact H1|..];
    (destruct (tok $"!" s); [exact H2|..];
      (destruct (tok $"@" s); [exact H3|apply Suffix_refl..])).
Qed.
Lemma var_name_lt : forall s, oklt s (var_name s).
Proof.
  intros s; unfold var_name. pose proof (skip_suffix s) as H.
  destruct (skip s) as [|c t] eqn:E; cbn; [exact I|].
  destruct (name_start c) eqn:En; cbn; [|exact I].
  unfold name_char at 1; rewrite En; cbn.
  eapply Shorter_l; [|exact H]. destruct (Suffix_drop_while name_char t) as [p Hp].
  exists c, p; f_equal; exact Hp.
Qed.
Lemma run_lt : forall f t c w, take_while f t = c :: w -> Shorter (drop_while f t) t.
Proof.
  intros f t c w H. pose proof (take_drop_while f t) as E. rewrite H in E.
  exists c, w; symmetry; exact E.
Qed.
Lemma integer_lt : forall s, oklt s (integer s).
Proof.
  intros s; unfold integer. destruct (take_while is_digit (skip s)) as [|c w] eqn:E; cbn; [exact I|].
  eapply Shorter_l; [eapply run_lt; exact E|apply skip_suffix].
Qed.
Lemma separator_lt : forall s, oklt s (separator s).
Proof.
  intros s; unfold separator. destruct (take_while separator_char (skip s)) as [|c w] eqn:E; cbn; [exact I|].
  eapply Shorter_l; [eapply run_lt; exact E|apply skip_suffix].
Qed.
Lemma alt_le : forall A (p q : str -> pres A) s, okle s (p s) -> okle s (q s) -> okle s (alt p q s).
Proof. intros A p q s Hp Hq; unfold alt; destruct (p s); auto. Qed.
Lemma alt_lt : forall A (p q : str -> pres A) s, oklt s (p s) -> oklt s (q s) -> oklt s (alt p q s).
Proof. intros A p q s Hp Hq; unfold alt; destruct (p s); auto. Qed.

Lemma ret_le : forall A (a : A) s, okle s (POk a s).
Proof. intros; apply Suffix_refl. Qed.

Lemma bound_range_le : forall s, okle s (bound_range s).
Proof.
  intros s; unfold bound_range.
  repeat apply alt_le; unfold lower_upper, only_upper, only_lower, exact;
    repeat first
      [ apply ret_le
      | apply bind_le; [first [apply oklt_okle, integer_lt | apply tok_le]|intros ? ? _ _] ].
Qed.
Lemma bound_expr_le : forall s, okle s (bound_expr s).
Proof.
  intros s; unfold bound_expr.
  apply bind_le; [apply bound_range_le|intros rng r1 _ _].
  apply bind_le; [apply tok_le|intros _ r2 _ _].
  apply bind_le; [|intros sep r3 _ _; apply ret_le].
  apply popt_le.
  apply bind_le; [apply oklt_okle, separator_lt|intros w r3 _ _].
  apply bind_le; [apply tok_le|intros _ r4 _ _]. apply ret_le.
Qed.
Lemma real_le : forall s, okle s (real s).
Proof.
  intros s; unfold real. pose proof (skip_suffix s) as H.
  set (t := skip s) in *; clearbody t.
  set (p := match t with
            | [] => (false, t)
            | c :: s' => if N.eqb c 43 then (false, s') else if N.eqb c 45 then (true, s') else (false, t)
            end).
  assert (Hp : Suffix (snd p) s).
  { eapply Suffix_trans; [|exact H]. subst p. destruct t as [|c t]; [apply Suffix_refl|].
    destruct (N.eqb c 43); [exists [c]; reflexivity|].
    destruct (N.eqb c 45); [exists [c]; reflexivity|apply Suffix_refl]. }
  destruct p as [neg u]; cbn [snd] in Hp.
  pose proof (Suffix_drop_while is_digit u) as Hd.
  destruct (drop_while is_digit u) as [|c v]; cbn; [exact I|].
  destruct (N.eqb c 46 && _); cbn; [|exact I].
  eapply Suffix_trans; [apply Suffix_drop_while|].
  eapply Suffix_trans; [|exact Hp]. eapply Suffix_trans; [|exact Hd]. exists [c]; reflexivity.
Qed.
Lemma weight_le : forall s, okle s (weight s).
Proof.
  intros s; unfold weight. apply bind_le.
  - apply alt_le; [apply real_le|].
    apply bind_le; [apply oklt_okle, integer_lt|intros; apply ret_le].
  - intros w r _ _. apply bind_le; [apply tok_le|intros; apply ret_le].
Qed.

(** Repetition: a parser that consumes something is repeated at most
    [length s] times. *)
Lemma many_rounds_le : forall A stop (p : str -> pres A) s0,
  (forall s, Suffix s s0 -> oklt s (p s)) ->
  forall n s, length s < n -> Suffix s s0 -> okle s (many_rounds n stop p s).
Proof.
  intros A stop p s0 Hp; induction n as [|n IH]; intros s Hn Hs; [lia|cbn].
  destruct (stop s); [apply ret_le|].
  pose proof (Hp s Hs) as Hps. destruct (p s) as [a r| |e|]; cbn in *; auto using Suffix_refl.
  assert (Hr : okle r (many_rounds n stop p r)).
  { apply IH; [apply Shorter_length in Hps; lia|].
    eapply Suffix_trans; [apply Shorter_Suffix, Hps|exact Hs]. }
  destruct (many_rounds n stop p r) as [l r'| |e|]; cbn in *; auto.
  eapply Suffix_trans; [exact Hr|apply Shorter_Suffix, Hps].
Qed.
Lemma many_le : forall A stop (p : str -> pres A) s,
  (forall t, Suffix t s -> oklt t (p t)) -> okle s (many stop p s).
Proof.
  intros A stop p s Hp; unfold many.
  apply many_rounds_le with (s0 := s); auto using Suffix_refl.
Qed.
Lemma many1_lt : forall A stop (p : str -> pres A) s,
  (forall t, Suffix t s -> oklt t (p t)) -> oklt s (many1 stop p s).
Proof.
  intros A stop p s Hp; unfold many1, many.
  cbn [many_rounds]. destruct (stop s); [exact I|].
  pose proof (Hp s (Suffix_refl s)) as Hps.
  destruct (p s) as [a r| |e|]; cbn in *; auto.
  assert (Hr : okle r (many_rounds (length s) stop p r)).
  { apply many_rounds_le with (s0 := s); auto using Shorter_Suffix, Shorter_length. }
  destruct (many_rounds (length s) stop p r) as [l r'| |e|]; cbn in *; auto.
  eapply Shorter_r; eauto.
Qed.

(** * The grammar *)
Definition WfConfig (C : parser_config) : Prop :=
  variant_start C <> [] /\ variable_start C <> [] /\ wrap_start C <> [] /\
  wildcard_wrap C <> [].

Section Grammar.
Variable alnum : char -> bool.
Variable C : parser_config.
Hypothesis HC : WfConfig C.

Lemma literal_run_app : forall bad s a r, literal_run C bad s = (a, r) -> s = a ++ r.
Proof.
  intros bad; induction s as [|c s IH]; cbn [literal_run]; intros a r H.
  - injection H as <- <-; reflexivity.
  - destruct (startswith (c :: s) (wildcard_wrap C) || bad c).
    + injection H as <- <-; reflexivity.
    + destruct (literal_run C bad s) as [a' r'] eqn:E. injection H as <- <-.
      cbn; f_equal; apply IH; reflexivity.
Qed.
Lemma literal_lt : forall bad s, oklt s (literal C bad s).
Proof.
  intros bad s; unfold literal.
  destruct (literal_run C bad (skip s)) as [[|c a] r] eqn:E; cbn; [exact I|].
  apply literal_run_app in E. eapply Shorter_l; [|apply skip_suffix].
  exists c, a; exact E.
Qed.
Lemma literal_sequence_lt : forall bad s, oklt s (literal_sequence C bad s).
Proof.
  intros bad s; unfold literal_sequence.
  apply bind_lt_l; [apply many1_lt; intros; apply literal_lt|intros; apply ret_le].
Qed.

Section Rec.
Variables V T : str -> pres command.
Variable s0 : str.
(** The recursive parsers behave on everything shorter than [s0]. *)
Hypothesis HV : forall s, Shorter s s0 -> okle s (V s).
Hypothesis HT : forall s, length s < length s0 -> incl s s0 -> okle [] (T s).

Lemma variant_le : forall s, Shorter s s0 -> okle s (variant V s).
Proof.
  intros s Hs; unfold variant.
  apply okle_trans with (t := opt_ws s); [|apply opt_ws_suffix].
  assert (H1 : Shorter (opt_ws s) s0) by (eapply Shorter_r; [apply opt_ws_suffix|exact Hs]).
  set (u := opt_ws s) in *; clearbody u.
  apply bind_le; [apply popt_le, weight_le|intros w r1 _ Hr1].
  apply bind_le; [apply HV; eapply Shorter_r; eauto|intros c r2 _ _].
  apply opt_ws_suffix.
Qed.

Lemma variants_list_le : forall s, Shorter s s0 -> okle s (variants_list V s).
Proof.
  intros s Hs; unfold variants_list.
  apply bind_le; [apply variant_le, Hs|intros v r1 _ Hr1].
  apply bind_le; [|intros; apply ret_le].
  apply many_le. intros t Ht.
  apply bind_lt_l; [apply tok_lt; discriminate|intros _ r2 _ Hr2].
  apply variant_le. eapply Shorter_l; [exact Hr2|].
  eapply Suffix_trans; [exact Ht|]. eapply Suffix_trans; [exact Hr1|apply Shorter_Suffix, Hs].
Qed.

Lemma variants_lt : forall s, Suffix s s0 -> oklt s (variants C V s).
Proof.
  intros s Hs; unfold variants.
  apply bind_lt_l; [apply tok_lt, HC|intros _ r1 _ Hr1].
  apply okle_trans with (t := opt_ws r1); [|apply opt_ws_suffix].
  assert (H1 : Shorter (opt_ws r1) s0).
  { eapply Shorter_r; [apply opt_ws_suffix|]. eapply Shorter_l; eauto. }
  set (u := opt_ws r1) in *; clearbody u.
  apply bind_le; [apply sampler_le|intros m r2 _ Hr2].
  apply bind_le; [apply popt_le, bound_expr_le|intros b r3 _ Hr3].
  apply okle_trans with (t := opt_ws r3); [|apply opt_ws_suffix].
  apply bind_le.
  - apply variants_list_le. eapply Shorter_r; [|exact H1].
    eapply Suffix_trans; [apply opt_ws_suffix|]. eapply Suffix_trans; eauto.
  - intros vs r4 _ _. apply okle_trans with (t := opt_ws r4); [|apply opt_ws_suffix].
    apply bind_le; [apply tok_le|intros _ r5 _ _].
    destruct (bounds_of b (length vs)) as [[lo hi] sep]. apply ret_le.
Qed.

Lemma access_lt : forall s, Suffix s s0 -> oklt s (access C V s).
Proof.
  intros s Hs; unfold access.
  apply bind_lt_l; [apply tok_lt, HC|intros _ r1 _ Hr1].
  apply okle_trans with (t := opt_ws r1); [|apply opt_ws_suffix].
  assert (H1 : Shorter (opt_ws r1) s0).
  { eapply Shorter_r; [apply opt_ws_suffix|]. eapply Shorter_l; eauto. }
  set (u := opt_ws r1) in *; clearbody u.
  apply bind_le; [apply oklt_okle, var_name_lt|intros name r2 _ Hr2].
  apply okle_trans with (t := opt_ws r2); [|apply opt_ws_suffix].
  apply bind_le.
  - apply popt_le. apply bind_le; [apply tok_le|intros _ r3 _ Hr3].
    apply okle_trans with (t := opt_ws r3); [|apply opt_ws_suffix].
    apply HV. eapply Shorter_r; [|exact H1].
    eapply Suffix_trans; [apply opt_ws_suffix|]. eapply Suffix_trans; [exact Hr3|].
    eapply Suffix_trans; [apply opt_ws_suffix|exact Hr2].
  - intros d r3 _ _. apply okle_trans with (t := opt_ws r3); [|apply opt_ws_suffix].
    apply bind_le; [apply tok_le|intros; apply ret_le].
Qed.

Lemma variable_access_lt : forall s, Suffix s s0 -> oklt s (variable_access C V s).
Proof.
  intros s Hs; unfold variable_access.
  pose proof (access_lt s Hs) as H. destruct (access C V s) as [[n d] r| |e|]; cbn in *; auto.
Qed.
Lemma wildcard_variable_access_lt : forall s, Suffix s s0 ->
  oklt s (wildcard_variable_access C V s).
Proof.
  intros s Hs; unfold wildcard_variable_access.
  pose proof (access_lt s Hs) as H. destruct (access C V s) as [[n d] r| |e|]; cbn in *; auto.
  destruct d as [c|]; [|exact H].
  destruct (truthy c); [|exact H]. destruct c; cbn; auto.
Qed.

Lemma variable_assignment_lt : forall s, Suffix s s0 -> oklt s (variable_assignment C V s).
Proof.
  intros s Hs; unfold variable_assignment.
  apply bind_lt_l; [apply tok_lt, HC|intros _ r1 _ Hr1].
  apply okle_trans with (t := opt_ws r1); [|apply opt_ws_suffix].
  assert (H1 : Shorter (opt_ws r1) s0).
  { eapply Shorter_r; [apply opt_ws_suffix|]. eapply Shorter_l; eauto. }
  set (u := opt_ws r1) in *; clearbody u.
  apply bind_le; [apply oklt_okle, var_name_lt|intros name r2 _ Hr2].
  apply okle_trans with (t := opt_ws r2); [|apply opt_ws_suffix].
  apply bind_le; [apply popt_le, tok_le|intros pr r3 _ Hr3].
  apply bind_le; [apply tok_le|intros _ r4 _ Hr4].
  apply bind_le; [apply popt_le, tok_le|intros im r5 _ Hr5].
  apply okle_trans with (t := opt_ws r5); [|apply opt_ws_suffix].
  apply bind_le.
  - apply HV. eapply Shorter_r; [|exact H1].
    eapply Suffix_trans; [apply opt_ws_suffix|].
    repeat (eapply Suffix_trans; [eassumption|]).
    eapply Suffix_trans; [apply opt_ws_suffix|exact Hr2].
  - intros v r6 _ _. apply okle_trans with (t := opt_ws r6); [|apply opt_ws_suffix].
    apply bind_le; [apply tok_le|intros; apply ret_le].
Qed.

Lemma wrap_command_lt : forall s, Suffix s s0 -> oklt s (wrap_command C V s).
Proof.
  intros s Hs; unfold wrap_command.
  apply bind_lt_l; [apply tok_lt, HC|intros _ r1 _ Hr1].
  apply okle_trans with (t := opt_ws r1); [|apply opt_ws_suffix].
  assert (H1 : Shorter (opt_ws r1) s0).
  { eapply Shorter_r; [apply opt_ws_suffix|]. eapply Shorter_l; eauto. }
  set (u := opt_ws r1) in *; clearbody u.
  apply bind_le; [apply HV, H1|intros w r2 _ Hr2].
  apply okle_trans with (t := opt_ws r2); [|apply opt_ws_suffix].
  apply bind_le; [apply tok_le|intros _ r3 _ Hr3].
  apply okle_trans with (t := opt_ws r3); [|apply opt_ws_suffix].
  apply bind_le.
  - apply HV. eapply Shorter_r; [|exact H1].
    eapply Suffix_trans; [apply opt_ws_suffix|]. eapply Suffix_trans; [exact Hr3|].
    eapply Suffix_trans; [apply opt_ws_suffix|exact Hr2].
  - intros i r4 _ _. apply bind_le; [apply tok_le|intros; apply ret_le].
Qed.

Lemma wildcard_chunk_lt : forall s, Suffix s s0 -> oklt s (wildcard_chunk C V s).
Proof.
  intros s Hs; unfold wildcard_chunk.
  apply alt_lt; [apply wildcard_variable_access_lt, Hs|].
  apply alt_lt; [apply variants_lt, Hs|].
  apply alt_lt; apply literal_sequence_lt.
Qed.
Lemma wildcard_prompt_lt : forall s, Suffix s s0 -> oklt s (wildcard_prompt C V s).
Proof.
  intros s Hs; unfold wildcard_prompt.
  apply oklt_trans with (t := skip s); [|apply skip_suffix].
  apply bind_lt_l; [|intros; apply ret_le].
  apply many1_lt. intros t Ht. apply wildcard_chunk_lt.
  eapply Suffix_trans; [exact Ht|]. eapply Suffix_trans; [apply skip_suffix|exact Hs].
Qed.

Lemma incl_take_while : forall f (s : str), incl (take_while f s) s.
Proof.
  intros f s x Hx. rewrite <- (take_drop_while f s). apply in_or_app; auto.
Qed.
Lemma variable_spec_le : forall s, okle s (variable_spec s).
Proof.
  intros s; unfold variable_spec.
  apply okle_trans with (t := opt_ws s); [|apply opt_ws_suffix].
  apply bind_le; [apply tok_le|intros _ r1 _ _].
  apply okle_trans with (t := skip r1); [|apply skip_suffix].
  destruct (take_while not_paren (skip r1)); [exact I|].
  apply okle_trans with (t := drop_while not_paren (skip r1)); [|apply Suffix_drop_while].
  apply bind_le; [apply tok_le|intros; apply ret_le].
Qed.
Lemma variable_spec_text : forall s t r, variable_spec s = POk t r ->
  length t <= length s /\ incl t s.
Proof.
  intros s t r; unfold variable_spec.
  pose proof (opt_ws_suffix s) as H0. set (u := opt_ws s) in *; clearbody u.
  pose proof (tok_le $"(" u) as H1. destruct (tok $"(" u) as [x r1| |e|]; try discriminate.
  cbn in H1. pose proof (skip_suffix r1) as H2. set (v := skip r1) in *; clearbody v.
  assert (Hv : Suffix v s) by (eapply Suffix_trans; [exact H2|]; eapply Suffix_trans; eauto).
  destruct (take_while not_paren v) as [|c w] eqn:E; [discriminate|].
  destruct (tok $")" (drop_while not_paren v)); try discriminate.
  intros H; injection H as <- <-. rewrite <- E. split.
  - apply Suffix_length in Hv. rewrite <- (take_drop_while not_paren v) in Hv.
    rewrite app_length in Hv. lia.
  - intros y Hy. eapply Suffix_In; [exact Hv|]. eapply incl_take_while; exact Hy.
Qed.

Lemma split_char_aux_bound : forall sep s cur p, In p (split_char_aux sep cur s) ->
  length p <= length cur + length s /\ incl p (cur ++ s).
Proof.
  intros sep; induction s as [|c s IH]; cbn [split_char_aux]; intros cur p H.
  - destruct H as [<-|[]]. rewrite rev_length. split; [lia|].
    intros x Hx; apply in_rev in Hx; apply in_or_app; auto.
  - destruct (N.eqb c sep).
    + destruct H as [<-|H].
      * rewrite rev_length. split; [lia|].
        intros x Hx; apply in_rev in Hx; apply in_or_app; auto.
      * apply IH in H. destruct H as [Hl Hi]; cbn in *. split; [lia|].
        intros x Hx; apply in_or_app; right; right; apply Hi, Hx.
    + apply IH in H. destruct H as [Hl Hi]; cbn in *. split; [lia|].
      intros x Hx. apply Hi in Hx; cbn in Hx. destruct Hx as [->|Hx].
      * apply in_or_app; right; left; reflexivity.
      * apply in_app_or in Hx. apply in_or_app. destruct Hx; auto. right; right; auto.
Qed.
Lemma split_char_bound : forall sep s p, In p (split_char sep s) ->
  length p <= length s /\ incl p s.
Proof. intros sep s p H; apply split_char_aux_bound in H; exact H. Qed.

Lemma strip_bound : forall s, length (strip s) <= length s /\ incl (strip s) s.
Proof.
  intros s; unfold strip, strip_by. split.
  - rewrite rev_length. pose proof (Suffix_length _ _ (Suffix_drop_while isspace (rev (drop_while isspace s)))).
    rewrite rev_length in H. pose proof (Suffix_length _ _ (Suffix_drop_while isspace s)). lia.
  - intros x Hx. apply in_rev in Hx. apply (Suffix_In _ _ _ (Suffix_drop_while _ _)) in Hx.
    apply in_rev in Hx. apply (Suffix_In _ _ _ (Suffix_drop_while _ _)) in Hx. exact Hx.
Qed.
Lemma partition_bound : forall s k v, partition_eq s = (k, v) ->
  length v <= length s /\ incl v s.
Proof.
  intros s k v H; unfold partition_eq in H. injection H as _ <-.
  set (f := fun c => negb (N.eqb c 61)).
  assert (Hs : Suffix (skipn 1 (drop_while f s)) s)
    by (eapply Suffix_trans; [apply Suffix_skipn|apply Suffix_drop_while]).
  split; [apply Suffix_length, Hs|intros x Hx; eapply Suffix_In; eauto].
Qed.

Lemma spec_pairs_ok : forall pairs d,
  (forall p, In p pairs -> length p < length s0 /\ incl p s0) ->
  okle [] (spec_pairs alnum T pairs d).
Proof.
  induction pairs as [|p pairs IH]; intros d H; cbn [spec_pairs]; [apply Suffix_refl|].
  destruct (partition_eq p) as [k v] eqn:E. apply partition_bound in E.
  destruct (H p (or_introl eq_refl)) as [Hl Hi].
  assert (Hc : okle [] (spec_value alnum T (strip v))).
  { unfold spec_value. destruct (isalnum alnum (strip v)); [apply Suffix_refl|].
    destruct (strip_bound v) as [Sl Si]. apply HT; [lia|].
    eapply incl_tran; [exact Si|]. eapply incl_tran; [apply E|exact Hi]. }
  destruct (spec_value alnum T (strip v)) as [c r| |e|]; cbn in *; auto.
Qed.

Lemma wildcard_lt : forall s, Suffix s s0 -> oklt s (wildcard alnum C V T s).
Proof.
  intros s Hs; unfold wildcard.
  apply bind_lt_l; [apply tok_lt, HC|intros _ r1 _ Hr1].
  apply bind_le; [apply sampler_le|intros m r2 _ Hr2].
  assert (H2 : Shorter r2 s0).
  { eapply Shorter_r; [exact Hr2|]. eapply Shorter_l; eauto. }
  apply bind_le; [apply oklt_okle, wildcard_prompt_lt, Shorter_Suffix, H2|intros path r3 _ Hr3].
  apply bind_le; [apply popt_le, variable_spec_le|intros spec r4 Hspec Hr4].
  apply bind_le; [apply tok_le|intros _ r5 _ _].
  assert (Hv : okle [] (match spec with
                        | Some t => spec_pairs alnum T (split_char 44 t) []
                        | None => POk [] []
                        end)).
  { destruct spec as [t|]; [|apply Suffix_refl].
    apply spec_pairs_ok. intros p Hp. apply split_char_bound in Hp. destruct Hp as [Hl Hi].
    assert (Ht : length t <= length r3 /\ incl t r3).
    { unfold popt in Hspec. destruct (variable_spec r3) as [x y| |e|] eqn:E; try discriminate.
      injection Hspec as -> ->. apply variable_spec_text in E. exact E. }
    assert (H3 : Shorter r3 s0) by (eapply Shorter_r; eauto).
    split.
    - apply Shorter_length in H3. lia.
    - eapply incl_tran; [exact Hi|]. eapply incl_tran; [apply Ht|].
      intros x Hx; eapply Suffix_In; [apply Shorter_Suffix, H3|exact Hx]. }
  destruct (match spec with Some t => _ | None => _ end) as [vars r6| |e|]; cbn in *; auto.
  apply Suffix_refl.
Qed.

Lemma chunk_lt : forall s, Suffix s s0 -> oklt s (chunk alnum C V T s).
Proof.
  intros s Hs; unfold chunk.
  apply alt_lt; [apply variable_assignment_lt, Hs|].
  apply alt_lt; [apply variable_access_lt, Hs|].
  apply alt_lt; [apply wrap_command_lt, Hs|].
  apply alt_lt; [apply variants_lt, Hs|].
  apply alt_lt; [apply wildcard_lt, Hs|]. apply literal_sequence_lt.
Qed.
Lemma variant_chunk_lt : forall s, Suffix s s0 -> oklt s (variant_chunk alnum C V T s).
Proof.
  intros s Hs; unfold variant_chunk.
  apply alt_lt; [apply variable_access_lt, Hs|].
  apply alt_lt; [apply wrap_command_lt, Hs|].
  apply alt_lt; [apply variants_lt, Hs|].
  apply alt_lt; [apply wildcard_lt, Hs|]. apply literal_sequence_lt.
Qed.

Lemma variant_prompt_body_le : okle s0 (variant_prompt_body alnum C V T s0).
Proof.
  unfold variant_prompt_body.
  apply okle_trans with (t := skip s0); [|apply skip_suffix].
  apply bind_le; [|intros; apply ret_le].
  apply many_le. intros t Ht. apply variant_chunk_lt.
  eapply Suffix_trans; [exact Ht|apply skip_suffix].
Qed.
Lemma prompt_le : okle s0 (prompt alnum C V T s0).
Proof.
  unfold prompt.
  apply okle_trans with (t := skip s0); [|apply skip_suffix].
  apply bind_le; [|intros; apply ret_le].
  apply many_le. intros t Ht. apply chunk_lt.
  eapply Suffix_trans; [exact Ht|apply skip_suffix].
Qed.
End Rec.

(** * Tabs *)
Lemma expandtabs_from_notab : forall s col, ~ In 9%N (expandtabs_from col s).
Proof.
  induction s as [|c s IH]; intros col; cbn [expandtabs_from]; [intros []|].
  destruct (N.eqb_spec c 9) as [->|Hc].
  - intros H; apply in_app_or in H. destruct H as [H|H].
    + apply repeat_spec in H; discriminate.
    + exact (IH _ H).
  - intros [H|H]; [congruence|exact (IH _ H)].
Qed.
Lemma expandtabs_from_id : forall s col, ~ In 9%N s -> expandtabs_from col s = s.
Proof.
  induction s as [|c s IH]; intros col H; cbn [expandtabs_from]; [reflexivity|].
  destruct (N.eqb_spec c 9) as [->|Hc]; [exfalso; apply H; left; reflexivity|].
  f_equal. apply IH. intros Hin; apply H; right; exact Hin.
Qed.
Lemma expandtabs_id : forall s, ~ In 9%N s -> expandtabs s = s.
Proof. intros s H; apply expandtabs_from_id, H. Qed.

(** * Depth *)
Lemma parsers_ok : forall n s, ~ In 9%N s -> length s < n ->
  okle s (variant_prompt alnum C n s) /\ okle [] (parse_depth alnum C n s).
Proof.
  induction n as [|n IH]; intros s Htab Hn; [lia|].
  unfold variant_prompt, parse_depth in *. cbn [parsers].
  destruct (parsers alnum C n) as [V T]; cbn [fst snd] in *.
  assert (HV : forall r, Shorter r s -> okle r (V r)).
  { intros r Hr. apply IH.
    - intros Hin; apply Htab; eapply Suffix_In; [apply Shorter_Suffix, Hr|exact Hin].
    - apply Shorter_length in Hr; lia. }
  assert (HT : forall r, length r < length s -> incl r s -> okle [] (T r)).
  { intros r Hl Hi. apply IH; [intros Hin; apply Htab, Hi, Hin|lia]. }
  split.
  - apply variant_prompt_body_le; assumption.
  - unfold parse_body. destruct (isalnum alnum s); [apply Suffix_refl|].
    unfold grammar_body. rewrite (expandtabs_id s Htab).
    pose proof (prompt_le V T s HV HT) as H.
    destruct (prompt alnum C V T s) as [c r| |e|]; cbn in *; auto.
    destruct (drop_while blank (skip r)); cbn; auto using Suffix_refl.
Qed.

(** Enough depth for any text. *)
Lemma grammar_body_ok : forall n s, length (expandtabs s) <= n ->
  let (V, T) := parsers alnum C n in okle [] (grammar_body alnum C V T s).
Proof.
  intros n s Hn.
  pose proof (parsers_ok n) as IH. unfold variant_prompt, parse_depth in IH.
  destruct (parsers alnum C n) as [V T]; cbn [fst snd] in *.
  unfold grammar_body. set (u := expandtabs s) in *.
  assert (Htab : ~ In 9%N u) by apply expandtabs_from_notab. clearbody u.
  assert (H : okle u (prompt alnum C V T u)).
  { apply prompt_le.
    - intros r Hr. apply IH.
      + intros Hin; apply Htab; eapply Suffix_In; [apply Shorter_Suffix, Hr|exact Hin].
      + apply Shorter_length in Hr; lia.
    - intros r Hl Hi. apply IH; [intros Hin; apply Htab, Hi, Hin|lia]. }
  destruct (prompt alnum C V T u) as [c r| |e|]; cbn in *; auto.
  destruct (drop_while blank (skip r)); cbn; auto using Suffix_refl.
Qed.

Lemma parse_depth_ok : forall n s, length (expandtabs s) < n -> okle [] (parse_depth alnum C n s).
Proof.
  intros [|n] s Hn; [lia|]. unfold parse_depth; cbn [parsers].
  pose proof (grammar_body_ok n s ltac:(lia)) as H.
  destruct (parsers alnum C n) as [V T]; cbn [snd]. unfold parse_body.
  destruct (isalnum alnum s); [apply Suffix_refl|exact H].
Qed.

Theorem parse_outcome : forall s,
  (exists c, parse_raw alnum C s = POk c []) \/ parse_raw alnum C s = PFail \/
  parse_raw alnum C s = PRaise EAttribute.
Proof.
  intros s. pose proof (parse_depth_ok (depth s) s ltac:(unfold depth; lia)) as H.
  fold (parse_raw alnum C s) in H. destruct (parse_raw alnum C s) as [c r| |e|]; cbn in H.
  - destruct H as [p Hp]. symmetry in Hp. apply app_eq_nil in Hp. destruct Hp as [_ ->].
    left; eauto.
  - auto.
  - subst e; auto.
  - contradiction.
Qed.
End Grammar.
