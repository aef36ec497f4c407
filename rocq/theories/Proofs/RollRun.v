(** Whole prompts, drawn as Spec/Rolls.v says. *)
From Coq Require Import String NArith ZArith QArith Qcanon Bool Arith List Permutation Lia.
From Verif.Model Require Import Str Float Utils Command Rng Values Context Sampler.
From Verif.Spec Require Import Text Comb Items Lang Draws Seeds Rolls.
From Verif.Proofs Require Import StrFacts UtilsFacts CommandFacts CombFacts FloatFacts RngFacts ValuesFacts DictFacts
  Soundness FuelFacts RunFacts EnumFacts WildRun LiveFacts DrawFacts ShareFacts ReachFacts SeedFacts RollFacts RollBack.
Import ListNotations.
Local Open Scope nat_scope.

Section Run.
Variable G : rng_impl.
Variable E : env.
Notation R := (rng_state G).
Notation next := (next G E).

(** * The source decides *)
Lemma rolled_det : forall c p r u r' u2 r2, Rolled G E c p r u r' -> Rolled G E c p r u2 r2 -> u = u2 /\ r' = r2.
Proof.
  intros c p r u r' u2 r2 H H2.
  destruct (rolled_first _ _ _ _ _ _ _ H) as (n & g & g' & Hn).
  destruct (rolled_first _ _ _ _ _ _ _ H2) as (n2 & g2 & g2' & Hn2).
  destruct (Hn (n + n2) ltac:(lia)) as [H3 H4]. destruct (Hn2 (n + n2) ltac:(lia)) as [H5 H6].
  rewrite H3 in H5. injection H5 as <-. rewrite H4 in H6. injection H6 as <- _ <-. now split.
Qed.

Section Back.
Hypothesis Hvals : AllRandomValues E.

Lemma made : forall k c p g, sample_prompts E k c p None = MOk g ->
  g = GDone \/ exists cmd g0, Reads E p cmd /\ mk k c cmd = MOk g0 /\ g = if c_ignws c then GSquash g0 else g0.
Proof.
  intros k c p g H. unfold sample_prompts in H.
  destruct (match p with WStr [] => true | WStr _ => false | WCmd cmd => negb (truthy cmd) end) eqn:Hf.
  { injection H as <-. now left. }
  destruct (match p with WStr s => env_parse E s | WCmd cmd => Ok cmd end) as [cmd|e] eqn:Hc; [|discriminate].
  right. destruct (mk k c cmd) as [g0| |] eqn:Hg; try discriminate. injection H as <-.
  exists cmd, g0. split; [|now split].
  destruct p as [s|cmd0]; [constructor; [destruct s; discriminate|assumption]|]. injection Hc as ->.
  constructor. apply truthy_Nonempty. now destruct (truthy cmd).
Qed.

Lemma first_rolled : forall k n c p g r u g' r', AllRandomScope E (scope_of c) -> AllRandomPrompt E p ->
  sample_prompts E k c p None = MOk g -> next n g r = OVal (u, g') r' -> Rolled G E c p r u r'.
Proof.
  intros k n c p g r u g' r' Hs Hp Hg H. unfold Rolled.
  destruct (made _ _ _ _ Hg) as [->|(cmd & g0 & Hr & Hm & ->)]; [destruct n; discriminate|].
  assert (Hgo : forall m t g1 r1, next m g0 r = OVal (t, g1) r1 -> Rolls G E (scope_of c) (c_busy c) cmd r t r1).
  { intros m t g1 r1 Hx.
    assert (Ha : Agrees c (scope_of c)) by (repeat split).
    pose proof (back_all G E Hvals m m ltac:(lia) k c (scope_of c) cmd g0 r Ha Hs (Hp _ Hr) Hm) as Hb.
    rewrite Hx in Hb. exact Hb. }
  destruct (c_ignws c) eqn:Hi.
  - destruct n as [|n]; [discriminate|]. revert H. unfold_next G E.
    destruct (next n g0 r) as [[t g1] r1| | |] eqn:Hx; cbn; try discriminate. intros [= <- <- <-].
    econstructor; [exact Hr|eapply Hgo, Hx|]. cbn. rewrite Hi. apply squash_Tidy.
  - econstructor; [exact Hr|eapply Hgo, H|]. cbn. rewrite Hi. reflexivity.
Qed.

Lemma rolled_iff : forall c p r u r', AllRandomScope E (scope_of c) -> AllRandomPrompt E p ->
  ((exists n g g', sample_prompts E n c p None = MOk g /\ next n g r = OVal (u, g') r') <-> Rolled G E c p r u r').
Proof.
  intros c p r u r' Hs Hp. split.
  - intros (n & g & g' & Hg & Hx). eapply first_rolled; eassumption.
  - intros H. destruct (rolled_first _ _ _ _ _ _ _ H) as (n & g & g' & Hn).
    destruct (Hn n ltac:(lia)). exists n, g, g'. now split.
Qed.

(** * One prompt after the other *)
Lemma many_rolled : forall c p cmd, NoMemoryCtx E c -> NoMemory E cmd -> Reads E p cmd ->
  AllRandomScope E (scope_of c) -> AllRandomPrompt E p ->
  forall k fuel g0 r us g' r', St G E c cmd g0 ->
  collect G E fuel k (if c_ignws c then GSquash g0 else g0) r = (us, EndLimit g', Some r') ->
  RolledMany G E c p r us r'.
Proof.
  intros c p cmd Hc Hn Hr Hs Hp k. induction k as [|k IH]; intros fuel g0 r us g' r' Hst H; cbn [collect] in H.
  { injection H as <- _ <-. constructor. }
  assert (Hask : forall m t g1 r1, next m g0 r = OVal (t, g1) r1 ->
     Rolled G E c p r (if c_ignws c then squash_whitespace t else t) r1 /\ St G E c cmd g1).
  { intros m t g1 r1 Hx. pose proof (memoryless G E m c cmd g0 r Hc Hn Hst) as Hm. rewrite Hx in Hm.
    destruct Hm as [Hm|[[n0 Hm] Hg1]]; [discriminate|]. split; [|eapply Hg1; reflexivity].
    specialize (Hm n0 ltac:(lia)). unfold ask in Hm.
    destruct (mk n0 c cmd) as [g2| |] eqn:Hg2; cbn [lift_mk obind] in Hm; try discriminate.
    destruct (next n0 g2 r) as [[t2 g3] r3| | |] eqn:Hx2; try discriminate. cbn in Hm. injection Hm as -> ->.
    assert (Ha : Agrees c (scope_of c)) by (repeat split).
    pose proof (back_all G E Hvals n0 n0 ltac:(lia) n0 c (scope_of c) cmd g2 r Ha Hs (Hp _ Hr) Hg2) as Hb.
    rewrite Hx2 in Hb. cbn in Hb. econstructor; [exact Hr|exact Hb|].
    cbn. destruct (c_ignws c); [apply squash_Tidy|reflexivity]. }
  destruct (next fuel (if c_ignws c then GSquash g0 else g0) r) as [[u g1] r1| | |] eqn:Hx; try discriminate.
  destruct (collect G E fuel k g1 r1) as [[us1 e] r2] eqn:Hk. injection H as <- -> ->.
  destruct (c_ignws c) eqn:Hi.
  - destruct fuel as [|fuel]; [discriminate|]. revert Hx. unfold_next G E.
    destruct (next fuel g0 r) as [[t g2] r3| | |] eqn:Hy; cbn; try discriminate. intros [= <- <- <-].
    destruct (Hask _ _ _ _ Hy) as [H1 H2]. econstructor; [exact H1|]. eapply IH; eassumption.
  - destruct (Hask _ _ _ _ Hx) as [H1 H2]. econstructor; [exact H1|]. eapply IH; eassumption.
Qed.

Lemma collected_rolled : forall c p cmd n g k fuel r us g' r',
  NoMemoryCtx E c -> NoMemory E cmd -> Reads E p cmd ->
  AllRandomScope E (scope_of c) -> AllRandomPrompt E p ->
  sample_prompts E n c p None = MOk g ->
  collect G E fuel k g r = (us, EndLimit g', Some r') -> RolledMany G E c p r us r'.
Proof.
  intros c p cmd n g k fuel r us g' r' Hc Hn Hr Hs Hp Hg H.
  destruct (made _ _ _ _ Hg) as [->|(cmd0 & g0 & Hr0 & Hm & ->)].
  - destruct k as [|k]; [injection H as <- _ <-; constructor|]. cbn in H. destruct fuel; discriminate.
  - assert (cmd0 = cmd) as ->. { inversion Hr; subst; inversion Hr0; subst; congruence. }
    eapply many_rolled; try eassumption. eapply St_start, Hm.
Qed.
End Back.
End Run.
