(** What the parser accepts is written syntax: every successful parse of an
    uncommented text gives a derivation of Spec/Syntax.v. *)
From Coq Require Import String NArith ZArith QArith Qcanon Bool Arith List Lia Permutation Sorted.
From Verif.Model Require Import Str Command Rng Context Parser.
From Verif.Spec Require Import Text Names Lookup Syntax.
From Verif.Proofs Require Import StrFacts DictFacts ManagerFacts FileFacts ParserFacts TokenFacts PlainFacts SyntaxFacts.
Import ListNotations.
Local Open Scope nat_scope.

(** * Tokens *)
Lemma opt_ws_inv : forall s, Uncommented s ->
  exists w, s = w ++ opt_ws s /\ Blanks w /\ ~ BlankStart (opt_ws s).
Proof.
  intros s Hu. unfold opt_ws. rewrite (Unc_skip _ Hu). exists (take_while blank s).
  split; [symmetry; apply take_drop_while|]. split; [apply Blanks_forallb, take_while_all|apply drop_blank_start].
Qed.
Lemma BlankStart_l : forall a b, ~ BlankStart (a ++ b) -> ~ BlankStart a.
Proof. intros a b H (c & r & -> & Hc). apply H. exists c, (r ++ b). auto. Qed.
Lemma var_name_inv : forall s x r, Uncommented s -> var_name s = POk x r -> s = x ++ r /\ NameText x.
Proof.
  intros s x r Hu. unfold var_name. rewrite (Unc_skip _ Hu). destruct s as [|c s]; [discriminate|].
  destruct (name_start c) eqn:Ec; [|discriminate].
  assert (En : name_char c = true) by (unfold name_char; rewrite Ec; reflexivity).
  cbn [take_while drop_while]. rewrite En. intros H; injection H as <- <-.
  split; [cbn [app]; rewrite take_drop_while; reflexivity|]. exists c, (take_while name_char s). split; [reflexivity|].
  split; [apply name_start_spec, Ec|]. apply Forall_forall. intros d Hd. apply name_char_spec.
  pose proof (take_while_all name_char s) as Ha. rewrite forallb_forall in Ha. apply Ha, Hd.
Qed.
Lemma sampler_inv : forall s m r, Uncommented s -> sampler s = POk m r ->
  exists mark, s = mark ++ r /\ MarkText mark m /\ (m = None -> ~ MarkStart r).
Proof.
  intros s m r Hu; unfold sampler.
  destruct (tok $"~" s) as [? r1| | |] eqn:E1.
  1: { intros H; injection H as <- <-. apply tok_inv in E1; [|exact Hu]. exists $"~".
       split; [exact E1|]. split; [constructor|discriminate]. }
  all: destruct (tok $"!" s) as [? r2| | |] eqn:E2.
  all: try (intros H; injection H as <- <-; apply tok_inv in E2; [|exact Hu]; exists $"!";
            split; [exact E2|]; split; [constructor|discriminate]).
  all: destruct (tok $"@" s) as [? r3| | |] eqn:E3.
  all: try (intros H; injection H as <- <-; apply tok_inv in E3; [|exact Hu]; exists $"@";
            split; [exact E3|]; split; [constructor|discriminate]).
  all: intros H; injection H as <- <-; exists []; split; [reflexivity|]; split; [constructor|].
  all: intros _ (c & t & -> & Hc); cbn in Hc;
    destruct Hc as [<-|[<-|[<-|[]]]];
    [change (126%N :: t) with ($"~" ++ t) in *; rewrite (tok_hit _ _ Hu) in E1; discriminate E1
    |change (33%N :: t) with ($"!" ++ t) in *; rewrite (tok_hit _ _ Hu) in E2; discriminate E2
    |change (64%N :: t) with ($"@" ++ t) in *; rewrite (tok_hit _ _ Hu) in E3; discriminate E3].
Qed.
Lemma popt_bounds_inv : forall s b r, Uncommented s -> popt bound_expr s = POk b r ->
  exists bt, s = bt ++ r /\ forall count o k, r = o ++ $"}" ++ k ->
    exists lo hi sep, bounds_of b count = (lo, hi, sep) /\ BoundsText count o bt lo hi sep.
Proof.
  intros s b r Hu; unfold popt.
  destruct (bound_expr s) as [x r'| | |] eqn:E; try discriminate.
  - intros H; injection H as <- <-. unfold bound_expr in E. fold separator_part in E.
    destruct (bound_range s) as [rng s1| | |] eqn:E1; try discriminate.
    apply bound_range_inv in E1; [|exact Hu]. destruct E1 as (p & -> & Hp).
    pose proof (Unc_r _ _ Hu) as Hu1.
    destruct (tok $"$$" s1) as [u s2| | |] eqn:E2; try discriminate.
    apply tok_inv in E2; [|exact Hu1]. subst s1. pose proof (Unc_r _ _ Hu1) as Hu2.
    unfold popt in E. destruct (separator_part s2) as [sep s3| | |] eqn:E3; try discriminate.
    + injection E as <- <-. unfold separator_part in E3.
      destruct (separator s2) as [w s4| | |] eqn:E4; try discriminate.
      apply separator_inv in E4; [|exact Hu2]. destruct E4 as [-> Hs].
      destruct (tok $"$$" s4) as [u' s5| | |] eqn:E5; try discriminate.
      apply tok_inv in E5; [|exact (Unc_r _ _ Hu2)]. subst s4. injection E3 as <- <-.
      exists (p ++ $"$$" ++ w ++ $"$$" ++ []). split; [rewrite app_nil_r, <- !app_assoc; reflexivity|].
      intros count o k _. destruct (Hp count) as (lo & hi & Hb & Hbo).
      exists lo, hi, w. split; [apply Hbo|]. constructor; [exact Hb|exact Hs|constructor].
    + rewrite (Unc_skip _ Hu2) in E. injection E as <- <-.
      exists (p ++ $"$$" ++ []). split; [rewrite app_nil_r, <- !app_assoc; reflexivity|].
      intros count o k ->. destruct (Hp count) as (lo & hi & Hb & Hbo).
      exists lo, hi, $",". split; [apply Hbo|]. constructor; [exact Hb|constructor|].
      cbn [app]. intros sep t Hs ->. rewrite <- !app_assoc in *. unfold separator_part in E3.
      rewrite (separator_hit _ _ Hs Hu2), (tok_hit $"$$" _ (Unc_r _ _ Hu2)) in E3. discriminate E3.
  - intros H. rewrite (Unc_skip _ Hu) in H. injection H as <- <-. exists []. split; [reflexivity|].
    intros count o k ->. exists 1%Z, 1%Z, $",". split; [reflexivity|]. constructor.
    intros b lo hi t Hb ->. rewrite <- !app_assoc in *. unfold bound_expr in E.
    destruct (bound_range_hit count b lo hi _ Hb Hu) as (rng & Hr & _). rewrite Hr in E.
    rewrite (tok_hit $"$$" _ (Unc_r _ _ Hu)) in E. fold separator_part in E.
    unfold popt in E. destruct (separator_part (t ++ $"}" ++ k)) as [? ?| | |] eqn:E3; try discriminate E;
      exfalso; unfold separator_part in E3;
      destruct (separator_not_raise (t ++ $"}" ++ k)) as [Es|(y & r & Es)]; rewrite Es in E3; try discriminate E3;
      destruct (tok_not_raise $"$$" r) as [Et|(r' & Et)]; rewrite Et in E3; discriminate E3.
Qed.

Section Read.
Variable ww : str.
Hypothesis Hww : WrapText ww.
Variable alnum : char -> bool.
Let C := standard ww.
Hypothesis Hal : LettersAndDigits C alnum.

(** * Literals *)
Lemma literal_run_inv : forall p s a r, literal_run C (bad_at ww p) s = (a, r) ->
  s = a ++ r /\ Forall (Ordinary p) a /\ NoWrapIn ww a r /\ Break ww p r.
Proof.
  intros p; induction s as [|c s IH]; intros a r H; cbn [literal_run] in H.
  - injection H as <- <-. split; [reflexivity|]. split; [constructor|]. split; [intros x y _; cbn; lia|left; reflexivity].
  - unfold C at 1 in H. cbn [wildcard_wrap standard] in H.
    destruct (startswith (c :: s) ww) eqn:Ew; cbn [orb] in H.
    { injection H as <- <-. split; [reflexivity|]. split; [constructor|].
      split; [intros x y _; cbn; lia|]. right; left. apply startswith_spec, Ew. }
    destruct (bad_at ww p c) eqn:Eb.
    { injection H as <- <-. split; [reflexivity|]. split; [constructor|].
      split; [intros x y _; cbn; lia|]. right; right. exists c, s. split; [reflexivity|].
      intros K. apply (bad_spec ww) in K. congruence. }
    destruct (literal_run C (bad_at ww p) s) as [a' r'] eqn:E. injection H as <- <-.
    destruct (IH _ _ eq_refl) as (-> & H1 & H2 & H3). split; [reflexivity|].
    split; [constructor; [apply (bad_spec ww), Eb|exact H1]|]. split; [|exact H3].
    intros x y Exy. destruct x as [|d x].
    + exfalso. apply startswith_false in Ew. apply Ew. exists y. exact Exy.
    + injection Exy as -> Exy. apply H2 in Exy. cbn. lia.
Qed.
Lemma literal_sequence_inv : forall p s c k, Uncommented s ->
  literal_sequence C (bad_at ww p) s = POk c k ->
  exists t, c = Lit t None /\ s = t ++ k /\ t <> [] /\ Forall (Ordinary p) t /\
    NoWrapIn ww t k /\ Break ww p k.
Proof.
  intros p s c k Hu; unfold literal_sequence, many1, many. cbn [many_rounds never].
  unfold literal at 1. rewrite (Unc_skip _ Hu).
  destruct (literal_run C (bad_at ww p) s) as [a r] eqn:E.
  apply literal_run_inv in E. destruct E as (-> & H1 & H2 & H3).
  destruct a as [|x a]; [discriminate|]. cbn [app length many_rounds never].
  pose proof (literal_miss ww p r (Unc_r _ _ Hu) H3) as Em. fold C in Em. rewrite Em.
  intros H; injection H as <- <-. exists (x :: a). split; [reflexivity|].
  split; [reflexivity|]. split; [discriminate|]. auto.
Qed.
Lemma literal_sequence_no : forall p c s, Uncommented (c :: s) ->
  literal_sequence C (bad_at ww p) (c :: s) = PFail -> ~ StartsWith (c :: s) ww -> ~ Ordinary p c.
Proof.
  intros p c s Hu H Hw Ho. unfold literal_sequence, many1, many in H. cbn [many_rounds never] in H.
  unfold literal at 1 in H. rewrite (Unc_skip _ Hu) in H.
  destruct (literal_run C (bad_at ww p) (c :: s)) as [a r] eqn:E.
  pose proof E as E'. apply literal_run_inv in E. destruct E as (Es & H1 & H2 & H3).
  destruct a as [|x a].
  - cbn in Es. subst r. destruct H3 as [K|[K|(d & r & K & Hd)]]; [discriminate K|contradiction|].
    injection K as <- _. contradiction.
  - rewrite Es in Hu. pose proof (literal_miss ww p r (Unc_r _ _ Hu) H3) as Em. fold C in Em.
    cbn [length many_rounds never] in H. rewrite Em in H. discriminate H.
Qed.

Section Back.
Variable V T : str -> pres command.
Hypothesis HV : forall s c k, Uncommented s -> V s = POk c k ->
  exists t, s = t ++ k /\ Prompt ww Inside c t /\ ~ BlankStart k.
Hypothesis HT : forall s c k, Uncommented s -> T s = POk c k -> Prompt ww Top c s.

(** * Options and variants *)
Lemma variant_inv : forall s v k, Uncommented s -> variant V s = POk v k ->
  exists t, s = t ++ k /\ Option ww v t /\ ~ BlankStart k.
Proof.
  intros s v k Hu; unfold variant.
  destruct (opt_ws_inv s Hu) as (w & Es & Hw & Hb). set (s1 := opt_ws s) in *.
  assert (Hu1 : Uncommented s1) by (rewrite Es in Hu; eapply Unc_r; exact Hu).
  unfold popt. destruct (weight s1) as [q s2| | |] eqn:Ew; try discriminate.
  - apply weight_inv in Ew; [|exact Hu1]. destruct Ew as (wt & Hwt & Es1).
    assert (Hu2 : Uncommented s2) by (rewrite Es1 in Hu1; do 2 apply Unc_r in Hu1; exact Hu1).
    destruct (V s2) as [c s3| | |] eqn:Ev; try discriminate.
    apply HV in Ev; [|exact Hu2]. destruct Ev as (t & -> & Ht & Hb3).
    rewrite (opt_ws_none _ (Unc_r _ _ Hu2) Hb3). intros H; injection H as <- <-.
    exists (w ++ wt ++ $"::" ++ t). split; [rewrite Es, Es1, <- !app_assoc; reflexivity|].
    split; [constructor; assumption|exact Hb3].
  - rewrite (Unc_skip _ Hu1). destruct (V s1) as [c s3| | |] eqn:Ev; try discriminate.
    apply HV in Ev; [|exact Hu1]. destruct Ev as (t & Et & Ht & Hb3).
    rewrite Et in Hu1. rewrite (opt_ws_none _ (Unc_r _ _ Hu1) Hb3). intros H; injection H as <- <-.
    exists (w ++ t). split; [rewrite Es, Et, <- !app_assoc; reflexivity|].
    split; [|exact Hb3]. constructor; [exact Hw|exact Ht| |].
    + rewrite Et in Hb. eapply BlankStart_l; exact Hb.
    + intros wt q r Hwt ->. rewrite Et in Ew. rewrite <- !app_assoc in *.
      rewrite (weight_hit _ _ _ Hwt Hu1) in Ew. discriminate Ew.
Qed.
Lemma bars_inv : forall f s vs k, Uncommented s -> ~ BlankStart s ->
  many_rounds f never (fun s => let! (_, s) := tok $"|" s in variant V s) s = POk vs k ->
  ~ BlankStart k /\
  ((vs = [] /\ s = k) \/ exists r, s = $"|" ++ r ++ k /\ Options ww vs r).
Proof.
  induction f as [|f IH]; intros s vs k Hu Hb; cbn [many_rounds never]; [discriminate|].
  destruct (tok $"|" s) as [u s1| | |] eqn:E1.
  - apply tok_inv in E1; [|exact Hu]. subst s. pose proof (Unc_r _ _ Hu) as Hu1.
    destruct (variant V s1) as [v s2| | |] eqn:E2; try discriminate.
    + apply variant_inv in E2; [|exact Hu1]. destruct E2 as (t & -> & Ht & Hb2).
      destruct (many_rounds f never _ s2) as [l s3| | |] eqn:E3; try discriminate.
      intros H; injection H as <- <-.
      apply IH in E3; [|exact (Unc_r _ _ Hu1)|exact Hb2]. destruct E3 as [Hb3 E3].
      split; [exact Hb3|]. right. destruct E3 as [[-> ->]|(r & -> & Hr)].
      * exists t. split; [reflexivity|]. constructor; exact Ht.
      * exists (t ++ $"|" ++ r). split; [rewrite <- !app_assoc; reflexivity|].
        constructor; assumption.
    + intros H; injection H as <- <-. auto.
  - intros H; injection H as <- <-. auto.
  - discriminate.
  - discriminate.
Qed.
Lemma variants_list_inv : forall s vs k, Uncommented s -> variants_list V s = POk vs k ->
  exists o, s = o ++ k /\ Options ww vs o /\ ~ BlankStart k.
Proof.
  intros s vs k Hu; unfold variants_list.
  destruct (variant V s) as [v s1| | |] eqn:E1; try discriminate.
  apply variant_inv in E1; [|exact Hu]. destruct E1 as (t & -> & Ht & Hb). unfold many.
  destruct (many_rounds (S (length s1)) never _ s1) as [l s2| | |] eqn:E2; try discriminate.
  intros H; injection H as <- <-. apply bars_inv in E2; [|exact (Unc_r _ _ Hu)|exact Hb].
  destruct E2 as [Hb2 [[-> ->]|(r & -> & Hr)]].
  - exists t. split; [reflexivity|]. split; [constructor; exact Ht|exact Hb2].
  - exists (t ++ $"|" ++ r). split; [rewrite <- !app_assoc; reflexivity|].
    split; [constructor; assumption|exact Hb2].
Qed.
Lemma variants_inv : forall s c k, Uncommented s -> variants C V s = POk c k ->
  exists t, s = t ++ k /\ forall p, Elem ww p c t.
Proof.
  intros s c k Hu; unfold variants.
  destruct (tok (variant_start C) s) as [u s1| | |] eqn:E1; try discriminate.
  apply tok_inv in E1; [|exact Hu]. subst s. pose proof (Unc_r _ _ Hu) as Hu1.
  destruct (opt_ws_inv s1 Hu1) as (w & Es & Hw & Hb). set (s2 := opt_ws s1) in *.
  assert (Hu2 : Uncommented s2) by (rewrite Es in Hu1; eapply Unc_r; exact Hu1).
  destruct (sampler s2) as [m s3| | |] eqn:E2; try discriminate.
  apply sampler_inv in E2; [|exact Hu2]. destruct E2 as (mark & Es2 & Hm & Hms).
  assert (Hu3 : Uncommented s3) by (rewrite Es2 in Hu2; eapply Unc_r; exact Hu2).
  destruct (popt bound_expr s3) as [b s4| | |] eqn:E3; try discriminate.
  apply popt_bounds_inv in E3; [|exact Hu3]. destruct E3 as (bt & Es3 & Hbt).
  assert (Hu4 : Uncommented s4) by (rewrite Es3 in Hu3; eapply Unc_r; exact Hu3).
  assert (Ev : variants_list V (opt_ws s4) = variants_list V s4).
  { unfold variants_list, variant. rewrite (opt_ws_idem _ Hu4). reflexivity. }
  rewrite Ev. destruct (variants_list V s4) as [vs s5| | |] eqn:E4; try discriminate.
  apply variants_list_inv in E4; [|exact Hu4]. destruct E4 as (o & Es4 & Ho & Hb5).
  assert (Hu5 : Uncommented s5) by (rewrite Es4 in Hu4; eapply Unc_r; exact Hu4).
  rewrite (opt_ws_none _ Hu5 Hb5).
  destruct (tok (variant_end C) s5) as [u' s6| | |] eqn:E5; try discriminate.
  apply tok_inv in E5; [|exact Hu5]. change (variant_end C) with $"}" in E5.
  rewrite E5 in Es4. destruct (Hbt (length vs) o s6 Es4) as (lo & hi & sep & Eb & Hbs). rewrite Eb.
  intros H; injection H as <- <-.
  exists ($"{" ++ w ++ mark ++ bt ++ o ++ $"}"). split.
  - change (variant_start C) with $"{". rewrite Es, Es2, Es3, Es4, <- !app_assoc. reflexivity.
  - intros p. unfold mk_variant, post_init_bounds.
    destruct (bounds_nonneg _ _ _ _ _ _ Hbs) as [L1 L2].
    assert (Ez : (if (lo <=? hi)%Z then (lo, hi) else (hi, lo)) = (Z.min lo hi, Z.max lo hi)).
    { destruct (Z.leb_spec lo hi); f_equal; lia. }
    rewrite Ez, (Z.max_r 0 (Z.min lo hi)) by lia. apply E_variants; try assumption.
    intros Em Ebt. specialize (Hms Em). subst bt. cbn [app] in Es3. subst s4. subst m.
    assert (Emark : mark = []) by (inversion Hm; reflexivity). subst mark. cbn [app] in Es2. rewrite Es2 in Hb.
    split; [|rewrite Es4 in Hb; eapply BlankStart_l; exact Hb].
    intros (x & r & -> & Hx). apply Hms. exists x, (r ++ $"}" ++ s6). rewrite Es4. auto.
Qed.

(** * Variables and wraps *)
Lemma prefix_inv : forall s r, Uncommented s -> tok (variable_start C) s = POk tt r ->
  forall x r', var_name (opt_ws r) = POk x r' ->
  exists w1 w2, s = $"${" ++ w1 ++ x ++ w2 ++ opt_ws r' /\ Blanks w1 /\ NameText x /\ Blanks w2 /\
    ~ BlankStart (opt_ws r') /\ Uncommented (opt_ws r').
Proof.
  intros s r Hu E1 x r' E2. apply tok_inv in E1; [|exact Hu]. change (variable_start C) with $"${" in E1.
  subst s. pose proof (Unc_r _ _ Hu) as Hu1.
  destruct (opt_ws_inv r Hu1) as (w1 & Es & Hw1 & Hb1). rewrite Es in Hu1.
  apply var_name_inv in E2; [|exact (Unc_r _ _ Hu1)]. destruct E2 as [E2 Hx]. rewrite E2 in Hu1.
  assert (Hu2 : Uncommented r') by (do 2 apply Unc_r in Hu1; exact Hu1).
  destruct (opt_ws_inv r' Hu2) as (w2 & Es' & Hw2 & Hb2).
  exists w1, w2. split; [rewrite <- Es', <- E2, <- Es; reflexivity|].
  rewrite Es' in Hu2. pose proof (Unc_r _ _ Hu2) as Hu3. tauto.
Qed.
Lemma access_inv : forall s x d k, Uncommented s -> access C V s = POk (x, d) k ->
  exists w1 w2, Blanks w1 /\ NameText x /\ Blanks w2 /\
    match d with
    | None => s = $"${" ++ w1 ++ x ++ w2 ++ $"}" ++ k
    | Some c => exists w3 t, Blanks w3 /\ Prompt ww Inside c t /\ ~ BlankStart t /\
        s = $"${" ++ w1 ++ x ++ w2 ++ $":" ++ w3 ++ t ++ $"}" ++ k
    end.
Proof.
  intros s x d k Hu; unfold access.
  destruct (tok (variable_start C) s) as [[] s1| | |] eqn:E1; try discriminate.
  destruct (var_name (opt_ws s1)) as [y s2| | |] eqn:E2; try discriminate.
  destruct (prefix_inv s s1 Hu E1 y s2 E2) as (w1 & w2 & Es & Hw1 & Hx & Hw2 & Hb & Hu3).
  set (s3 := opt_ws s2) in *. unfold popt.
  destruct (tok $":" s3) as [u s4| | |] eqn:E3.
  - apply tok_inv in E3; [|exact Hu3]. pose proof Hu3 as Hu4. rewrite E3 in Hu4. apply Unc_r in Hu4.
    destruct (opt_ws_inv s4 Hu4) as (w3 & Es4 & Hw3 & Hb4).
    assert (Hu5 : Uncommented (opt_ws s4)) by (rewrite Es4 in Hu4; eapply Unc_r; exact Hu4).
    destruct (V (opt_ws s4)) as [c s5| | |] eqn:E4; try discriminate.
    + apply HV in E4; [|exact Hu5]. destruct E4 as (t & Et & Ht & Hb5).
      rewrite Et in Hu5. pose proof (Unc_r _ _ Hu5) as Hu6. rewrite (opt_ws_none _ Hu6 Hb5).
      destruct (tok (variable_end C) s5) as [u' s6| | |] eqn:E5; try discriminate.
      apply tok_inv in E5; [|exact Hu6]. change (variable_end C) with $"}" in E5.
      intros H; injection H as <- <- <-. exists w1, w2. repeat (split; [assumption|]).
      exists w3, t. split; [exact Hw3|]. split; [exact Ht|].
      split; [rewrite Et in Hb4; eapply BlankStart_l; exact Hb4|].
      rewrite Es, E3, Es4, Et, E5. reflexivity.
    + rewrite (Unc_skip _ Hu3), (opt_ws_none _ Hu3 Hb).
      destruct (tok (variable_end C) s3) as [u' s6| | |] eqn:E5; try discriminate.
      apply tok_inv in E5; [|exact Hu3]. rewrite E3 in E5. discriminate E5.
  - rewrite (Unc_skip _ Hu3), (opt_ws_none _ Hu3 Hb).
    destruct (tok (variable_end C) s3) as [u' s6| | |] eqn:E5; try discriminate.
    apply tok_inv in E5; [|exact Hu3]. change (variable_end C) with $"}" in E5.
    intros H; injection H as <- <- <-. exists w1, w2. repeat (split; [assumption|]).
    rewrite Es, E5. reflexivity.
  - discriminate.
  - discriminate.
Qed.
Lemma variable_access_inv : forall p s c k, p <> Path -> Uncommented s -> variable_access C V s = POk c k ->
  exists t, s = t ++ k /\ Elem ww p c t.
Proof.
  intros p s c k Hp Hu; unfold variable_access.
  destruct (access C V s) as [[x d] s1| | |] eqn:E; try discriminate.
  intros H; injection H as <- <-. apply access_inv in E; [|exact Hu].
  destruct E as (w1 & w2 & Hw1 & Hx & Hw2 & E). destruct d as [c|].
  - destruct E as (w3 & t & Hw3 & Ht & Hb & ->).
    exists ($"${" ++ w1 ++ x ++ w2 ++ $":" ++ w3 ++ t ++ $"}"). split; [rewrite <- !app_assoc; reflexivity|].
    constructor; assumption.
  - exists ($"${" ++ w1 ++ x ++ w2 ++ $"}"). split; [rewrite E, <- !app_assoc; reflexivity|].
    constructor; assumption.
Qed.
(** A literal stands for itself, and the empty command for the empty text. *)
Lemma Elem_not_literal : forall p c t, Elem ww p c t -> ~ IsLiteral c.
Proof. intros p c t H (u & m & E). destruct H; discriminate E. Qed.
Lemma Prompt_literal : forall c t u m, Prompt ww Inside c t -> c = Lit u m -> c = Lit t None.
Proof.
  intros c t u m H Ec. inversion H as [p cs c' t' Hes Htog]; subst.
  inversion Htog as [c0 E1 E2|cs0 Hl E1 E2]; subst.
  inversion Hes as [| ? ? ? t1 ? r He Hes'| ? q ? t1 ? r Hq Hne Ho Hnw Hbr Hp Hes']; subst.
  - exfalso. eapply Elem_not_literal; [exact He|]. do 2 eexists; reflexivity.
  - inversion Hes'; subst. rewrite app_nil_r. reflexivity.
Qed.
Lemma Options_nonempty : forall vs o, Options ww vs o -> vs <> [].
Proof. intros vs o H; destruct H; discriminate. Qed.
Lemma Prompt_falsy : forall c t, Prompt ww Inside c t -> truthy c = false -> t = [].
Proof.
  intros c t H Hf. inversion H as [p cs c' t' Hes Htog]; subst.
  inversion Htog as [c0 E1 E2|cs0 Hl E1 E2]; subst.
  - exfalso. inversion Hes as [| ? ? ? t1 ? r He Hes'| ? q ? t1 ? r Hq Hne Ho Hnw Hbr Hp Hes']; subst;
      [|discriminate Hf].
    inversion He; subst; try discriminate Hf. destruct vs; [|discriminate Hf].
    match goal with [ K : Options ww [] _ |- _ ] => apply Options_nonempty in K; congruence end.
  - destruct cs as [|x cs]; [|discriminate Hf]. inversion Hes; subst. reflexivity.
Qed.
Lemma path_access_inv : forall s c k, Uncommented s -> wildcard_variable_access C V s = POk c k ->
  exists t, s = t ++ k /\ Elem ww Path c t.
Proof.
  intros s c k Hu; unfold wildcard_variable_access.
  destruct (access C V s) as [[x d] s1| | |] eqn:E; try discriminate.
  apply access_inv in E; [|exact Hu]. destruct E as (w1 & w2 & Hw1 & Hx & Hw2 & E).
  destruct d as [c0|].
  - destruct E as (w3 & t & Hw3 & Ht & Hb & E). destruct (truthy c0) eqn:Etr.
    + destruct c0 as [u m| | | | | |]; try discriminate. intros H; injection H as <- <-.
      pose proof (Prompt_literal _ _ _ _ Ht eq_refl) as El. injection El as -> ->.
      exists ($"${" ++ w1 ++ x ++ w2 ++ $":" ++ w3 ++ t ++ $"}"). split; [rewrite E, <- !app_assoc; reflexivity|].
      apply E_path_access_default; try assumption. apply strip_Trimmed.
    + intros H; injection H as <- <-. apply Prompt_falsy in Ht; [|exact Etr]. subst t. cbn [app] in E.
      rewrite NameText_strip by exact Hx.
      exists ($"${" ++ w1 ++ x ++ w2 ++ $":" ++ w3 ++ $"}"). split; [rewrite E, <- !app_assoc; reflexivity|].
      apply E_path_access_empty; assumption.
  - intros H; injection H as <- <-. rewrite NameText_strip by exact Hx.
    exists ($"${" ++ w1 ++ x ++ w2 ++ $"}"). split; [rewrite E, <- !app_assoc; reflexivity|].
    apply E_path_access; assumption.
Qed.
Lemma assignment_inv : forall s c k, Uncommented s -> variable_assignment C V s = POk c k ->
  exists t, s = t ++ k /\ Elem ww Top c t.
Proof.
  intros s c k Hu; unfold variable_assignment.
  destruct (tok (variable_start C) s) as [[] s1| | |] eqn:E1; try discriminate.
  destruct (var_name (opt_ws s1)) as [x s2| | |] eqn:E2; try discriminate.
  destruct (prefix_inv s s1 Hu E1 x s2 E2) as (w1 & w2 & Es & Hw1 & Hx & Hw2 & Hb & Hu3).
  set (s3 := opt_ws s2) in *.
  destruct (popt (tok $"?") s3) as [pr s4| | |] eqn:E3; try discriminate.
  assert (H3 : s3 = (match pr with Some _ => $"?" | None => [] end) ++ s4).
  { unfold popt in E3. destruct (tok $"?" s3) as [u r| | |] eqn:Et; try discriminate.
    - injection E3 as <- <-. apply tok_inv in Et; auto.
    - rewrite (Unc_skip _ Hu3) in E3. injection E3 as <- <-. reflexivity. }
  assert (Hu4 : Uncommented s4) by (rewrite H3 in Hu3; eapply Unc_r; exact Hu3).
  destruct (tok $"=" s4) as [u5 s5| | |] eqn:E5; try discriminate.
  apply tok_inv in E5; [|exact Hu4].
  assert (Hu5 : Uncommented s5) by (rewrite E5 in Hu4; eapply Unc_r; exact Hu4).
  destruct (popt (tok $"!") s5) as [im s6| | |] eqn:E6; try discriminate.
  assert (H6 : s5 = (match im with Some _ => $"!" | None => [] end) ++ s6 /\
               (im = None -> ~ StartsWith s6 $"!")).
  { unfold popt in E6. destruct (tok $"!" s5) as [u r| | |] eqn:Et; try discriminate.
    - injection E6 as <- <-. apply tok_inv in Et; auto. split; [exact Et|discriminate].
    - rewrite (Unc_skip _ Hu5) in E6. injection E6 as <- <-. split; [reflexivity|]. intros _ [q ->].
      rewrite (tok_hit _ _ Hu5) in Et. discriminate Et. }
  destruct H6 as [H6 Him].
  assert (Hu6 : Uncommented s6) by (rewrite H6 in Hu5; eapply Unc_r; exact Hu5).
  destruct (opt_ws_inv s6 Hu6) as (w3 & Es6 & Hw3 & Hb6).
  assert (Hu7 : Uncommented (opt_ws s6)) by (rewrite Es6 in Hu6; eapply Unc_r; exact Hu6).
  destruct (V (opt_ws s6)) as [v s8| | |] eqn:E8; try discriminate.
  apply HV in E8; [|exact Hu7]. destruct E8 as (t & Et & Ht & Hb8).
  rewrite Et in Hu7. pose proof (Unc_r _ _ Hu7) as Hu8. rewrite (opt_ws_none _ Hu8 Hb8).
  destruct (tok (variable_end C) s8) as [u' s9| | |] eqn:E9; try discriminate.
  apply tok_inv in E9; [|exact Hu8]. change (variable_end C) with $"}" in E9.
  intros H; injection H as <- <-.
  set (preserve := match pr with Some _ => true | None => false end).
  set (immediate := match im with Some _ => true | None => false end).
  exists ($"${" ++ w1 ++ x ++ w2 ++ (if preserve then $"?" else []) ++ $"=" ++
       (if immediate then $"!" else []) ++ w3 ++ t ++ $"}"). split.
  - rewrite Es, H3, E5, H6, Es6, Et, E9. unfold preserve, immediate.
    destruct pr, im; rewrite <- !app_assoc; reflexivity.
  - replace (match pr with Some _ => false | None => true end) with (negb preserve) by (destruct pr; reflexivity).
    constructor; try assumption.
    + rewrite Et in Hb6. eapply BlankStart_l; exact Hb6.
    + intros Ei [q Eq]. apply Him; [destruct im; [discriminate Ei|reflexivity]|].
      exists (q ++ s8). rewrite Es6, Et, app_assoc, Eq, <- app_assoc. reflexivity.
Qed.
Lemma wrap_inv : forall p s c k, p <> Path -> Uncommented s -> wrap_command C V s = POk c k ->
  exists t, s = t ++ k /\ Elem ww p c t.
Proof.
  intros p s c k Hp Hu; unfold wrap_command.
  destruct (tok (wrap_start C) s) as [u s1| | |] eqn:E1; try discriminate.
  apply tok_inv in E1; [|exact Hu]. change (wrap_start C) with $"%{" in E1. subst s.
  pose proof (Unc_r _ _ Hu) as Hu1. destruct (opt_ws_inv s1 Hu1) as (w1 & Es1 & Hw1 & Hb1).
  assert (Hu2 : Uncommented (opt_ws s1)) by (rewrite Es1 in Hu1; eapply Unc_r; exact Hu1).
  destruct (V (opt_ws s1)) as [c1 s2| | |] eqn:E2; try discriminate.
  apply HV in E2; [|exact Hu2]. destruct E2 as (t1 & Et1 & Ht1 & Hb2).
  rewrite Et1 in Hu2. pose proof (Unc_r _ _ Hu2) as Hu3. rewrite (opt_ws_none _ Hu3 Hb2).
  destruct (tok $"$$" s2) as [u' s3| | |] eqn:E3; try discriminate.
  apply tok_inv in E3; [|exact Hu3]. subst s2. pose proof (Unc_r _ _ Hu3) as Hu4.
  destruct (opt_ws_inv s3 Hu4) as (w2 & Es3 & Hw2 & Hb3).
  assert (Hu5 : Uncommented (opt_ws s3)) by (rewrite Es3 in Hu4; eapply Unc_r; exact Hu4).
  destruct (V (opt_ws s3)) as [c2 s5| | |] eqn:E5; try discriminate.
  apply HV in E5; [|exact Hu5]. destruct E5 as (t2 & Et2 & Ht2 & Hb5).
  rewrite Et2 in Hu5. pose proof (Unc_r _ _ Hu5) as Hu6.
  destruct (tok (wrap_end C) s5) as [u6 s6| | |] eqn:E6; try discriminate.
  apply tok_inv in E6; [|exact Hu6]. change (wrap_end C) with $"}" in E6. subst s5.
  intros H; injection H as <- <-.
  exists ($"%{" ++ w1 ++ t1 ++ $"$$" ++ w2 ++ t2 ++ $"}"). split.
  - rewrite Es1, Et1, Es3, Et2, <- !app_assoc. reflexivity.
  - constructor; try assumption.
    + rewrite Et1 in Hb1. eapply BlankStart_l; exact Hb1.
    + rewrite Et2 in Hb3. eapply BlankStart_l; exact Hb3.
Qed.

(** * Sequences *)
Definition LitAt (p : place) (c : command) (s k : str) : Prop :=
  exists t q, c = Lit t None /\ s = t ++ k /\ ReadAs p t q /\ t <> [] /\ Forall (Ordinary q) t /\
    NoWrapIn ww t k /\ Break ww q k.
Definition Chunk (p : place) (stop : str -> bool) (f : str -> pres command) : Prop :=
  (forall s c k, Uncommented s -> stop s = false -> f s = POk c k ->
    (exists t, s = t ++ k /\ Elem ww p c t) \/ LitAt p c s k) /\
  (forall s, p <> Path -> Uncommented s -> f s = PFail -> literal_sequence C (bad_at ww p) s = PFail).
Definition Follows (z : str) : Prop := z = [] \/ z = ww \/ exists w, Blanks w /\ z = w ++ $"(".

Lemma elem_break : forall p q c t s, Elem ww p c t -> Break ww q (t ++ s).
Proof.
  intros p q c t s He.
  assert (B : forall x s, In x $"{$%" -> Break ww q (x :: s)).
  { intros x s' Hx. right; right. exists x, s'. split; [reflexivity|].
    destruct q; cbn in *; intros K; apply K; tauto. }
  destruct He; rewrite <- ?app_assoc; try (apply B; cbn; tauto); right; left; eexists; reflexivity.
Qed.
Lemma NoWrapIn_start : forall t s, t <> [] -> NoWrapIn ww t s -> ~ StartsWith (t ++ s) ww.
Proof. intros t s Hne H [x E]. specialize (H [] x E). destruct t; [congruence|cbn in H; lia]. Qed.
Lemma NoWrapIn_prefix : forall t a b, NoWrapIn ww t (a ++ b) -> NoWrapIn ww t a.
Proof.
  intros t a b H x y E. apply (H x (y ++ b)). rewrite app_assoc, E, <- !app_assoc. reflexivity.
Qed.
Lemma Break_prefix : forall q z k, Follows z -> StartsWith k z -> Break ww q k -> Break ww q z.
Proof.
  intros q z k Hz [y ->] Hb. destruct Hz as [->|[->|(w & Hw & ->)]].
  - left; reflexivity.
  - right; left. exists []. rewrite app_nil_r. reflexivity.
  - destruct (ww_head ww Hww alnum) as (x & r & Ew & Hx & Hxb).
    destruct Hb as [Hb|[[l Hb]|(d & l & Hb & Hd)]].
    + destruct w; discriminate Hb.
    + exfalso. rewrite Ew in Hb. destruct w as [|b w]; injection Hb as <- _.
      * apply Hx; cbn; tauto.
      * inversion Hw; contradiction.
    + right; right. destruct w as [|b w]; injection Hb as <- _; eexists; eexists; (split; [reflexivity|exact Hd]).
Qed.
Lemma paren_ordinary : forall q k, q <> Path -> Break ww q k -> ~ StartsWith k $"(".
Proof.
  intros q k Hq Hb [x ->]. destruct Hb as [Hb|[[l Hb]|(d & l & Hb & Hd)]].
  - discriminate Hb.
  - destruct (ww_head ww Hww alnum) as (y & r & Ew & Hy & _). rewrite Ew in Hb. injection Hb as <- _.
    apply Hy; cbn; tauto.
  - injection Hb as <- _. apply Hd. destruct q; cbn; [intuition discriminate|intuition discriminate|congruence].
Qed.
Lemma at_paren_blanks : forall t k, Blanks t -> StartsWith k $"(" -> at_paren (t ++ k) = true.
Proof.
  intros t k Ht [x ->]. unfold at_paren. rewrite drop_while_app_all by (apply Blanks_forallb, Ht).
  destruct x; reflexivity.
Qed.
Lemma elems_inv : forall p stop f, Chunk p stop f -> (p = Path -> stop = at_paren) ->
  forall n s cs k, Uncommented s -> many_rounds n stop f s = POk cs k ->
  (stop k = true \/ f k = PFail) /\
  exists t, s = t ++ k /\ (cs = [] -> t = []) /\
    (forall q z, cs <> [] -> Break ww q s -> Break ww q (t ++ z)) /\
    (forall z, Follows z -> StartsWith k z -> Elems ww p z cs t).
Proof.
  intros p stop f [Hf _] Hstop. induction n as [|n IH]; intros s cs k Hu; cbn [many_rounds]; [discriminate|].
  destruct (stop s) eqn:Es.
  { intros H; injection H as <- <-. split; [auto|]. exists []. split; [reflexivity|]. split; [reflexivity|].
    split; [congruence|]. intros z _ _. constructor. }
  destruct (f s) as [c s1| | |] eqn:Ef; try discriminate.
  2: { intros H; injection H as <- <-. split; [auto|]. exists []. split; [reflexivity|]. split; [reflexivity|].
    split; [congruence|]. intros z _ _. constructor. }
  destruct (many_rounds n stop f s1) as [l s2| | |] eqn:Em; try discriminate.
  intros H; injection H as <- <-.
  pose proof (Hf s c s1 Hu Es Ef) as Hc.
  assert (Hu1 : Uncommented s1).
  { destruct Hc as [(t & -> & _)|(t & q & _ & -> & _)]; eapply Unc_r; exact Hu. }
  destruct (IH s1 l s2 Hu1 Em) as (Hend & r & -> & Hnil & Hbr & Hr).
  split; [exact Hend|]. destruct Hc as [(t & -> & He)|(t & q & -> & -> & Hq & Hne & Ho & Hnw & Hb)].
  - exists (t ++ r). split; [rewrite <- app_assoc; reflexivity|]. split; [discriminate|]. split.
    + intros q z _ _. rewrite <- app_assoc. eapply elem_break; exact He.
    + intros z Hz Hk. constructor; [exact He|]. apply Hr; assumption.
  - exists (t ++ r). split; [rewrite <- app_assoc; reflexivity|]. split; [discriminate|]. split.
    + intros q' z _ Hbq. rewrite <- app_assoc.
      destruct Hbq as [K|[K|(d & x & K & Hd)]].
      * destruct t; [congruence|discriminate K].
      * exfalso. eapply NoWrapIn_start; [exact Hne| |exact K]. exact Hnw.
      * destruct t as [|y t]; [congruence|]. injection K as -> _. right; right. exists d, (t ++ r ++ z). auto.
    + intros z Hz Hk. apply (Elems_literal ww p q); auto.
      * destruct Hk as [y ->]. rewrite app_assoc in Hnw. eapply NoWrapIn_prefix; exact Hnw.
      * destruct l as [|d l].
        -- rewrite (Hnil eq_refl) in *. cbn [app] in *. eapply Break_prefix; eassumption.
        -- apply Hbr; [discriminate|exact Hb].
      * intros Ht Hpar.
        assert (K : StartsWith (r ++ s2) $"(").
        { destruct Hk as [y ->]. destruct Hpar as [x Hpar]. exists (x ++ y).
          rewrite app_assoc, Hpar, <- app_assoc. reflexivity. }
        assert (Hp : q = Path -> p = Path) by (intros ->; destruct Hq as [<-|(-> & _)]; reflexivity).
        destruct q; [revert K; eapply paren_ordinary; [|exact Hb]; discriminate
                    |revert K; eapply paren_ordinary; [|exact Hb]; discriminate|].
        rewrite (Hstop (Hp eq_refl)) in Es. rewrite at_paren_blanks in Es by assumption. discriminate Es.
Qed.

(** * Wildcards *)
Lemma path_chunk : Chunk Path at_paren (wildcard_chunk C V).
Proof.
  split; [|congruence]. intros s c k Hu Hs. unfold wildcard_chunk, alt.
  destruct (wildcard_variable_access C V s) as [c1 r1| | |] eqn:E1; try discriminate.
  { intros H; injection H as <- <-. left. apply path_access_inv; assumption. }
  destruct (variants C V s) as [c2 r2| | |] eqn:E2; try discriminate.
  { intros H; injection H as <- <-. left. apply variants_inv in E2; [|exact Hu].
    destruct E2 as (t & -> & He). exists t. auto. }
  destruct (literal_sequence C (wildcard_bad C) s) as [c3 r3| | |] eqn:E3; try discriminate.
  { intros H; injection H as <- <-. right.
    apply (literal_sequence_inv Path) in E3; [|exact Hu].
    destruct E3 as (t & -> & -> & Hne & Ho & Hnw & Hb). exists t, Path.
    repeat (split; [auto; try (left; reflexivity)|]). exact Hb. }
  intros E4. right. apply (literal_sequence_inv Inside) in E4; [|exact Hu].
  destruct E4 as (t & -> & -> & Hne & Ho & Hnw & Hb). exists t, Inside.
  split; [reflexivity|]. split; [reflexivity|]. split; [|auto]. right.
  split; [reflexivity|]. split; [reflexivity|]. destruct t as [|x t]; [congruence|].
  pose proof (NoWrapIn_start _ _ Hne Hnw) as Hw. cbn [app] in *.
  pose proof (literal_sequence_no Path x (t ++ k) Hu E3 Hw) as Hx.
  inversion Ho as [|? ? Hox _]; subst.
  assert (Hx' : x = 41%N \/ x = 40%N).
  { destruct (N.eq_dec x 41); [auto|]. destruct (N.eq_dec x 40); [auto|]. exfalso; apply Hx.
    cbn in *. intuition congruence. }
  destruct Hx' as [->| ->]; [exists t; reflexivity|].
  exfalso. unfold at_paren in Hs. cbn in Hs. destruct (t ++ k); discriminate Hs.
Qed.
Lemma together_of : forall cs, Together cs (sequence_or_single cs).
Proof.
  intros [|c [|d cs]]; [apply Together_many; discriminate|apply Together_one|apply Together_many; discriminate].
Qed.
Lemma path_of : forall c, (exists t, c = Lit t None) \/ ~ IsLiteral c ->
  PathOf c (match c with Lit t _ => WStr t | _ => WCmd c end).
Proof.
  intros c [[t ->]|H]; [constructor|]. destruct c; try (constructor; exact H).
  exfalso; apply H. do 2 eexists; reflexivity.
Qed.
Lemma elems_single : forall p z cs t, Elems ww p z cs t ->
  (exists u, sequence_or_single cs = Lit u None) \/ ~ IsLiteral (sequence_or_single cs).
Proof.
  intros p z cs t H. destruct cs as [|c [|d cs]]; cbn [sequence_or_single].
  - right. intros (u & m & E); discriminate E.
  - inversion H; subst; [right; eapply Elem_not_literal; eassumption|left; eexists; reflexivity].
  - right. intros (u & m & E); discriminate E.
Qed.
Lemma split_char_inv : forall sep t cur, exists (a : str) (l : list str), split_char_aux sep cur t = (rev cur ++ a) :: l /\ ~ In sep a /\ ((l = [] /\ t = a) \/ exists r, t = a ++ sep :: r /\ l = split_char sep r).
Proof.
  intros sep; induction t as [|c t IH]; intros cur; cbn [split_char_aux].
  - exists [], []. rewrite app_nil_r. split; [reflexivity|]. split; [intros []|auto].
  - destruct (N.eqb_spec c sep) as [->|Hn].
    + exists [], (split_char sep t). rewrite app_nil_r. split; [reflexivity|]. split; [intros []|].
      right. exists t. auto.
    + destruct (IH (c :: cur)) as (a & l & E & Ha & H). exists (c :: a), l. cbn [rev] in E.
      rewrite <- app_assoc in E. split; [exact E|]. split; [intros [K|K]; [congruence|contradiction]|].
      destruct H as [[-> ->]|(r & -> & ->)]; [auto|right; exists r; auto].
Qed.
Lemma alnum_literal : forall t, isalnum alnum t = true -> Prompt ww Top (Lit t None) t.
Proof.
  intros t Ht. destruct (alnum_plain alnum C Hal t Ht) as (Hne & [Hch Hw] & _).
  apply (Prompt_elems ww Top [Lit t None]); [|constructor].
  rewrite <- (app_nil_r t) at 2. apply (Elems_literal ww Top Top); try exact Hne.
  - left; reflexivity.
  - eapply Forall_impl; [|exact Hch]. intros c [Hc _] K. apply Hc. unfold Reserved, C.
    cbn in K |- *. clear - K. intuition.
  - intros a b E. exfalso. apply Hw. exists a, b. rewrite app_nil_r in E. exact E.
  - left; reflexivity.
  - intros _ [q E]. discriminate E.
  - constructor.
Qed.
Lemma spec_value_inv : forall v c k, Uncommented v -> spec_value alnum T v = POk c k -> Prompt ww Top c v.
Proof.
  intros v c k Hu; unfold spec_value. destruct (isalnum alnum v) eqn:Ea.
  - intros H; injection H as <- _. apply alnum_literal, Ea.
  - apply HT, Hu.
Qed.
Lemma Stripped_strip : forall t, Stripped t (strip t).
Proof. exact strip_Trimmed. Qed.
Lemma Unc_strip : forall v, Uncommented v -> Uncommented (strip v).
Proof.
  intros v Hu. destruct (strip_Trimmed v) as (a & b & E & _). rewrite E in Hu.
  apply Unc_r in Hu. apply Unc_l in Hu. exact Hu.
Qed.
Lemma prompt_empty : forall c, Prompt ww Top c [] -> c = Seq [] [] None.
Proof.
  intros c H. inversion H as [p cs c' t Hes Htog]; subst.
  destruct cs as [|d cs].
  - inversion Htog; subst; reflexivity.
  - exfalso. eapply (elems_nonempty ww Hww); [exact Hes|discriminate|reflexivity].
Qed.
Lemma pair_inv : forall kv l d r, Uncommented kv -> ~ In 44%N kv -> ~ In 41%N kv ->
  spec_pairs alnum T (kv :: l) d = r ->
  (exists e, r = PRaise e) \/ r = PFail \/ r = PFuel \/
  exists x c, Variable_ ww x c kv /\ r = spec_pairs alnum T l (dict_set x c d).
Proof.
  intros kv l d r Hu H44 H41 <-. cbn [spec_pairs]. unfold partition_eq.
  set (eqf := fun c => negb (N.eqb c 61)).
  pose proof (take_drop_while eqf kv) as Ekv. pose proof (take_while_all eqf kv) as Hall.
  assert (Hk : Forall (fun c => ~ In c $"=,)") (take_while eqf kv)).
  { apply Forall_forall. intros c Hc. pose proof Hc as Hc'. rewrite forallb_forall in Hall. apply Hall in Hc.
    unfold eqf in Hc. apply negb_true_iff, N.eqb_neq in Hc.
    assert (Hin : In c kv) by (rewrite <- Ekv; apply in_or_app; left; exact Hc').
    cbn. intros [K|[K|[K|[]]]]; subst c; contradiction || congruence. }
  assert (Huv : Uncommented (skipn 1 (drop_while eqf kv))).
  { rewrite <- Ekv in Hu. apply Unc_r in Hu.
    rewrite <- (firstn_skipn 1 (drop_while eqf kv)) in Hu. eapply Unc_r; exact Hu. }
  destruct (spec_value alnum T (strip (skipn 1 (drop_while eqf kv)))) as [c s1| |e|] eqn:E; eauto.
  right; right; right. apply spec_value_inv in E; [|apply Unc_strip, Huv].
  exists (strip (take_while eqf kv)), c. split; [|reflexivity].
  destruct (drop_while eqf kv) as [|x v] eqn:Ed.
  - change (skipn 1 (@nil N)) with (@nil N) in E. change (strip []) with (@nil N) in E.
    apply prompt_empty in E. subst c. rewrite app_nil_r in Ekv. rewrite Ekv in Hk |- *.
    constructor; [exact Hk|apply Stripped_strip].
  - pose proof (drop_while_head _ _ _ _ Ed) as Hx. unfold eqf in Hx. apply negb_false_iff, N.eqb_eq in Hx. subst x.
    cbn [skipn] in E. rewrite <- Ekv at 2. change (61%N :: v) with ($"=" ++ v).
    apply (Variable_value ww _ c (strip v)); [exact Hk|apply Stripped_strip| |apply Stripped_strip|exact E].
    apply Forall_forall. intros y Hy.
    assert (Hin : In y kv) by (rewrite <- Ekv; apply in_or_app; right; right; exact Hy).
    cbn. intros [K|[K|[]]]; subst y; contradiction.
Qed.
Lemma pairs_inv : forall n t d vars r, length t <= n -> Uncommented t -> ~ In 41%N t ->
  spec_pairs alnum T (split_char 44 t) d = POk vars r ->
  exists pairs, Variables ww pairs t /\ vars = set_all pairs d.
Proof.
  induction n as [|n IH]; intros t d vars r Hn Hu H41 H;
    destruct (split_char_inv 44%N t []) as (a & l & E & Ha & Hl); unfold split_char in H; rewrite E in H;
    cbn [rev app] in H.
  - destruct t; [|cbn in Hn; lia]. destruct Hl as [[-> <-]|(x & E' & _)]; [|destruct a; discriminate E'].
    apply pair_inv in H; [|assumption..]. destruct H as [[e H]|[H|[H|(x & c & Hv & H)]]]; try discriminate H.
    cbn in H. injection H as -> _. exists [(x, c)]. split; [constructor; exact Hv|reflexivity].
  - destruct Hl as [[-> <-]|(x & -> & ->)].
    + apply pair_inv in H; [|assumption..]. destruct H as [[e H]|[H|[H|(x & c & Hv & H)]]]; try discriminate H.
      cbn in H. injection H as -> _. exists [(x, c)]. split; [constructor; exact Hv|reflexivity].
    + apply pair_inv in H; [|exact (Unc_l _ _ Hu)|exact Ha|intros K; apply H41, in_or_app; left; exact K].
      destruct H as [[e H]|[H|[H|(y & c & Hv & H)]]]; try discriminate H.
      symmetry in H. apply IH in H.
      * destruct H as (pairs & Hps & ->). exists ((y, c) :: pairs). split; [|reflexivity].
        change (a ++ 44%N :: x) with (a ++ $"," ++ x). constructor; assumption.
      * rewrite app_length in Hn. cbn in Hn. lia.
      * change (a ++ 44%N :: x) with (a ++ $"," ++ x) in Hu. do 2 apply Unc_r in Hu. exact Hu.
      * intros K; apply H41, in_or_app; right; right; exact K.
Qed.
Lemma wildcard_inv : forall p s c k, p <> Path -> Uncommented s -> wildcard alnum C V T s = POk c k ->
  exists t, s = t ++ k /\ Elem ww p c t.
Proof.
  intros p s c k Hp Hu; unfold wildcard. change (wildcard_wrap C) with ww.
  destruct (tok ww s) as [u s1| | |] eqn:E1; try discriminate.
  apply tok_inv in E1; [|exact Hu]. subst s. pose proof (Unc_r _ _ Hu) as Hu1.
  destruct (sampler s1) as [m s2| | |] eqn:E2; try discriminate.
  apply sampler_inv in E2; [|exact Hu1]. destruct E2 as (mark & -> & Hm & Hms).
  pose proof (Unc_r _ _ Hu1) as Hu2. unfold wildcard_prompt, many1, many. rewrite (Unc_skip _ Hu2).
  destruct (many_rounds (S (length s2)) at_paren (wildcard_chunk C V) s2) as [cs s3| | |] eqn:E3; try discriminate.
  destruct (elems_inv Path at_paren _ path_chunk (fun _ => eq_refl) _ _ _ _ Hu2 E3)
    as (Hend & t & -> & Hnil & _ & Hes). pose proof (Unc_r _ _ Hu2) as Hu3.
  destruct cs as [|x cs]; [discriminate|]. set (l := x :: cs) in *.
  assert (Hl : l <> []) by discriminate.
  assert (Hms' : m = None -> ~ MarkStart t).
  { intros Em (y & r & -> & Hy). apply (Hms Em). exists y, (r ++ s3). auto. }
  unfold popt. destruct (variable_spec s3) as [spec s4| | |] eqn:E4; try discriminate.
  - (* with variables *)
    unfold variable_spec in E4. destruct (opt_ws_inv s3 Hu3) as (w & Es3 & Hw & Hb3).
    assert (Hu3' : Uncommented (opt_ws s3)) by (rewrite Es3 in Hu3; eapply Unc_r; exact Hu3).
    destruct (tok $"(" (opt_ws s3)) as [u' s5| | |] eqn:E5; try discriminate.
    apply tok_inv in E5; [|exact Hu3']. rewrite E5 in Es3, Hu3'. pose proof (Unc_r _ _ Hu3') as Hu5.
    rewrite (Unc_skip _ Hu5) in E4.
    pose proof (take_drop_while not_paren s5) as Et. pose proof (take_while_all not_paren s5) as Ha.
    destruct (take_while not_paren s5) as [|v vt] eqn:Ev; [discriminate|]. rewrite <- Et in Hu5.
    destruct (tok $")" (drop_while not_paren s5)) as [u6 s6| | |] eqn:E6; try discriminate.
    apply tok_inv in E6; [|exact (Unc_r _ _ Hu5)]. injection E4 as <- <-.
    rewrite E6 in Et, Hu5. set (spec := v :: vt) in *.
    assert (Hu6 : Uncommented s6) by (do 2 apply Unc_r in Hu5; exact Hu5).
    destruct (tok ww s6) as [u7 s7| | |] eqn:E7; try discriminate.
    apply tok_inv in E7; [|exact Hu6].
    destruct (spec_pairs alnum T (split_char 44 spec) []) as [vars r| | |] eqn:E8; try discriminate.
    intros H; injection H as <- <-.
    assert (H41 : ~ In 41%N spec).
    { intros K. rewrite forallb_forall in Ha. apply Ha in K. discriminate K. }
    apply (pairs_inv (length spec)) in E8; [|lia|eapply Unc_l; exact Hu5|exact H41].
    destruct E8 as (pairs & Hps & ->).
    assert (Hes' : Elems ww Path (w ++ $"(") l t).
    { apply Hes.
      - right; right. exists w. auto.
      - exists s5. rewrite Es3, <- app_assoc. reflexivity. }
    exists (ww ++ mark ++ t ++ w ++ $"(" ++ spec ++ $")" ++ ww). split.
    + rewrite Es3, <- Et, E7, <- !app_assoc. reflexivity.
    + apply (E_wildcard_variables ww p mark m l (sequence_or_single l) _ t w pairs); try assumption.
      * apply together_of.
      * apply (path_of (sequence_or_single l)). exact (elems_single _ _ _ _ Hes').
      * discriminate.
      * apply same_variables. reflexivity.
  - (* without *)
    rewrite (Unc_skip _ Hu3).
    destruct (tok ww s3) as [u7 s7| | |] eqn:E7; try discriminate.
    apply tok_inv in E7; [|exact Hu3]. intros H; injection H as <- <-.
    assert (Hes' : Elems ww Path ww l t).
    { apply Hes; [right; left; reflexivity|]. exists s7. exact E7. }
    exists (ww ++ mark ++ t ++ ww). split; [rewrite E7, <- !app_assoc; reflexivity|].
    apply (E_wildcard ww p mark m l (sequence_or_single l)); try assumption.
    + apply together_of.
    + apply (path_of (sequence_or_single l)). exact (elems_single _ _ _ _ Hes').
Qed.

(** * Prompts *)
Lemma inside_chunk : Chunk Inside never (variant_chunk alnum C V T).
Proof.
  assert (Hp : Inside <> Path) by discriminate. split.
  - intros s c k Hu _. unfold variant_chunk, alt.
    destruct (variable_access C V s) as [c1 r1| | |] eqn:E1; try discriminate.
    { intros H; injection H as <- <-. left. apply variable_access_inv; assumption. }
    destruct (wrap_command C V s) as [c2 r2| | |] eqn:E2; try discriminate.
    { intros H; injection H as <- <-. left. apply wrap_inv; assumption. }
    destruct (variants C V s) as [c3 r3| | |] eqn:E3; try discriminate.
    { intros H; injection H as <- <-. left. apply variants_inv in E3; [|exact Hu].
      destruct E3 as (t & -> & He). exists t. auto. }
    destruct (wildcard alnum C V T s) as [c4 r4| | |] eqn:E4; try discriminate.
    { intros H; injection H as <- <-. left. apply wildcard_inv; assumption. }
    intros E5. right. apply (literal_sequence_inv Inside) in E5; [|exact Hu].
    destruct E5 as (t & -> & -> & Hne & Ho & Hnw & Hb). exists t, Inside.
    repeat (split; [auto; try (left; reflexivity)|]). exact Hb.
  - intros s _ Hu. unfold variant_chunk, alt.
    destruct (variable_access C V s), (wrap_command C V s), (variants C V s), (wildcard alnum C V T s);
      try discriminate. auto.
Qed.
Lemma top_chunk : Chunk Top never (chunk alnum C V T).
Proof.
  assert (Hp : Top <> Path) by discriminate. split.
  - intros s c k Hu _. unfold chunk, alt.
    destruct (variable_assignment C V s) as [c0 r0| | |] eqn:E0; try discriminate.
    { intros H; injection H as <- <-. left. apply assignment_inv; assumption. }
    destruct (variable_access C V s) as [c1 r1| | |] eqn:E1; try discriminate.
    { intros H; injection H as <- <-. left. apply variable_access_inv; assumption. }
    destruct (wrap_command C V s) as [c2 r2| | |] eqn:E2; try discriminate.
    { intros H; injection H as <- <-. left. apply wrap_inv; assumption. }
    destruct (variants C V s) as [c3 r3| | |] eqn:E3; try discriminate.
    { intros H; injection H as <- <-. left. apply variants_inv in E3; [|exact Hu].
      destruct E3 as (t & -> & He). exists t. auto. }
    destruct (wildcard alnum C V T s) as [c4 r4| | |] eqn:E4; try discriminate.
    { intros H; injection H as <- <-. left. apply wildcard_inv; assumption. }
    intros E5. right. apply (literal_sequence_inv Top) in E5; [|exact Hu].
    destruct E5 as (t & -> & -> & Hne & Ho & Hnw & Hb). exists t, Top.
    repeat (split; [auto; try (left; reflexivity)|]). exact Hb.
  - intros s _ Hu. unfold chunk, alt.
    destruct (variable_assignment C V s), (variable_access C V s), (wrap_command C V s), (variants C V s),
      (wildcard alnum C V T s); try discriminate. auto.
Qed.
Lemma end_nonblank : forall p f k, p <> Path -> Chunk p never f -> Uncommented k ->
  never k = true \/ f k = PFail -> ~ BlankStart k.
Proof.
  intros p f k Hp [_ Hf] Hu [K|K] (c & r & -> & Hc); [discriminate K|].
  apply Hf in K; [|exact Hp|exact Hu].
  apply literal_sequence_no in K; [|exact Hu|].
  - apply K. unfold Blank in Hc. destruct p; cbn in *; intuition congruence.
  - intros [q E]. destruct (ww_head ww Hww alnum) as (y & w & Ew & _ & Hy). rewrite Ew in E. injection E as <- _.
    contradiction.
Qed.
Lemma variant_prompt_inv : forall s c k, Uncommented s -> variant_prompt_body alnum C V T s = POk c k ->
  exists t, s = t ++ k /\ Prompt ww Inside c t /\ ~ BlankStart k.
Proof.
  intros s c k Hu; unfold variant_prompt_body, many. rewrite (Unc_skip _ Hu).
  destruct (many_rounds (S (length s)) never (variant_chunk alnum C V T) s) as [cs s1| | |] eqn:E; try discriminate.
  intros H; injection H as <- <-.
  destruct (elems_inv Inside never _ inside_chunk ltac:(discriminate) _ _ _ _ Hu E)
    as (Hend & t & -> & _ & _ & Hes). exists t. split; [reflexivity|]. split.
  - apply (Prompt_elems ww Inside cs); [|apply together_of].
    apply Hes; [left; reflexivity|exists s1; reflexivity].
  - eapply end_nonblank; [|exact inside_chunk|exact (Unc_r _ _ Hu)|exact Hend]. discriminate.
Qed.
Lemma grammar_inv : forall s c k, Uncommented s -> grammar_body alnum C V T s = POk c k -> Prompt ww Top c s.
Proof.
  intros s c k Hu; unfold grammar_body, prompt, many. rewrite expandtabs_id by apply Hu. rewrite (Unc_skip _ Hu).
  destruct (many_rounds (S (length s)) never (chunk alnum C V T) s) as [cs s1| | |] eqn:E; try discriminate.
  destruct (elems_inv Top never _ top_chunk ltac:(discriminate) _ _ _ _ Hu E)
    as (Hend & t & -> & _ & _ & Hes). pose proof (Unc_r _ _ Hu) as Hu1. rewrite (Unc_skip _ Hu1).
  assert (Hb : ~ BlankStart s1) by (eapply end_nonblank; [|exact top_chunk|exact Hu1|exact Hend]; discriminate).
  destruct s1 as [|x s1].
  - cbn. intros H; injection H as <- _. rewrite app_nil_r.
    apply (Prompt_elems ww Top cs); [|apply together_of].
    apply Hes; [left; reflexivity|exists []; reflexivity].
  - cbn [drop_while]. destruct (blank x) eqn:Ex.
    + exfalso; apply Hb. exists x, s1. split; [reflexivity|apply blank_spec, Ex].
    + discriminate.
Qed.
Lemma parse_body_inv : forall s c k, Uncommented s -> parse_body alnum C V T s = POk c k -> Prompt ww Top c s.
Proof.
  intros s c k Hu; unfold parse_body. destruct (isalnum alnum s) eqn:Ea.
  - intros H; injection H as <- _. apply alnum_literal, Ea.
  - apply grammar_inv, Hu.
Qed.
End Back.

Lemma parsers_inv : forall n,
  (forall s c k, Uncommented s -> variant_prompt alnum C n s = POk c k ->
    exists t, s = t ++ k /\ Prompt ww Inside c t /\ ~ BlankStart k) /\
  (forall s c k, Uncommented s -> parse_depth alnum C n s = POk c k -> Prompt ww Top c s).
Proof.
  induction n as [|n [HV HT]].
  - split; intros s c k _ H; discriminate H.
  - split; intros s c k Hu H.
    + rewrite variant_prompt_S in H. eapply variant_prompt_inv; eassumption.
    + rewrite parse_depth_S in H. eapply parse_body_inv; eassumption.
Qed.
Theorem parsed_written : forall c t, Uncommented t -> parse alnum C t = Ok c -> Prompt ww Top c t.
Proof.
  intros c t Hu H. unfold parse, parse_raw in H.
  destruct (parse_depth alnum C (depth t) t) as [c' k| | |] eqn:E; try discriminate H.
  injection H as <-. eapply parsers_inv; eassumption.
Qed.
End Read.
