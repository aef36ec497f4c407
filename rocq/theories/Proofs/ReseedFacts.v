(** Answers of the random prompt generator, as Spec/Reseed.v says. *)
From Coq Require Import String NArith ZArith QArith Qcanon Bool Arith List Permutation Lia.
From Verif.Model Require Import Str Float Utils Command Rng Values Context Sampler Generators.
From Verif.Spec Require Import Text Comb Items Lang Draws Seeds Sure Rolls Pace Reseed.
From Verif.Proofs Require Import StrFacts UtilsFacts CommandFacts CombFacts FloatFacts RngFacts ValuesFacts DictFacts
  Soundness FuelFacts RunFacts EnumFacts WildRun LiveFacts ServeFacts DrawFacts ShareFacts ReachFacts SeedFacts RollFacts RollBack RollRun
  PaceFacts.
Import ListNotations.
Local Open Scope nat_scope.

Lemma repeat_same : forall (z : Z) n y, In y (repeat z n) -> y = z.
Proof. intros z n y H. now apply repeat_spec in H. Qed.
Lemma same_repeat : forall (z : Z) l, (forall y, In y l -> y = z) -> l = repeat z (length l).
Proof.
  intros z l. induction l as [|y l IH]; intros H; [reflexivity|]. cbn. rewrite <- IH by (intros; apply H; now right).
  now rewrite (H y (or_introl eq_refl)).
Qed.
Lemma dealt_iff : forall num seeds o, Dealt num seeds o <->
  match o with None => effective_seeds seeds num = None | Some l => effective_seeds seeds num = Some (Ok l) end.
Proof.
  intros num seeds o. split.
  - intros H. destruct H as [| | |z l Hz Hl Hs|z l Hl Hs|l Hn Hl]; cbn [effective_seeds]; try reflexivity.
    + apply Z.eqb_neq in Hz. rewrite Hz, repeat_length, Nat.eqb_refl, (same_repeat z l Hs), Hl. reflexivity.
    + rewrite repeat_length, Nat.eqb_refl, (same_repeat z l Hs), Hl. reflexivity.
    + destruct l as [|z [|z' l]]; cbn in Hl; try lia. cbn [length]. rewrite Hl, Nat.eqb_refl. reflexivity.
  - destruct seeds as [|z|[|z [|z' l0]]]; destruct o as [l|]; cbn [effective_seeds]; intros H; try discriminate.
    + apply De_none.
    + destruct (Z.eqb z 0) eqn:Hz; [discriminate|]. apply Z.eqb_neq in Hz. rewrite repeat_length, Nat.eqb_refl in H.
      injection H as <-. apply De_int; [exact Hz|apply repeat_length|apply repeat_same].
    + destruct (Z.eqb z 0) eqn:Hz; [|discriminate]. apply Z.eqb_eq in Hz. subst z. apply De_zero.
    + apply De_empty.
    + rewrite repeat_length, Nat.eqb_refl in H. injection H as <-. apply De_one; [apply repeat_length|apply repeat_same].
    + destruct (Nat.eqb (length (z :: z' :: l0)) num) eqn:Hn; [|discriminate]. injection H as <-. apply Nat.eqb_eq in Hn.
      apply De_each; [cbn in Hn; lia|exact Hn].
Qed.

Section Reseed.
Variable G : rng_impl.
Variable E : env.
Notation R := (rng_state G).
Notation next := (next G E).

Lemma many_det : forall c p r us r1, RolledMany G E c p r us r1 -> forall vs r2, RolledMany G E c p r vs r2 ->
  length us = length vs -> us = vs /\ r1 = r2.
Proof.
  intros c p r us r1 H. induction H as [r|r u s us r1 H1 _ IH]; intros vs r2 K Hl.
  - destruct vs; [|discriminate]. inversion K; subst. now split.
  - inversion K as [|? v s2 vs2 ? K1 K2]; subst; [discriminate|]. destruct (rolled_det _ _ _ _ _ _ _ _ _ H1 K1) as [-> ->].
    destruct (IH _ _ K2) as [-> ->]; [now injection Hl|]. now split.
Qed.
Lemma seeds_det : forall c p r l us r1, RolledSeeds G E c p r l us r1 -> forall vs r2, RolledSeeds G E c p r l vs r2 -> us = vs /\ r1 = r2.
Proof.
  intros c p r l us r1 H. induction H as [r|r z u s zs us r1 H1 _ IH]; intros vs r2 K; inversion K; subst; [now split|].
  match goal with K1 : Rolled _ _ _ _ (prim_seed G z) _ _ |- _ => destruct (rolled_det _ _ _ _ _ _ _ _ _ H1 K1) as [-> ->] end.
  match goal with K2 : RolledSeeds _ _ _ _ _ zs _ _ |- _ => destruct (IH _ _ K2) as [-> ->] end. now split.
Qed.
Lemma answer_det : forall c p num seeds r us r1 vs r2, Answer G E c p num seeds r us r1 -> Answer G E c p num seeds r vs r2 ->
  us = vs /\ r1 = r2.
Proof.
  intros c p num seeds r us r1 vs r2 H K. destruct H as [D1 L1 H|l1 D1 H]; destruct K as [D2 L2 K|l2 D2 K];
    apply dealt_iff in D1, D2; try congruence.
  - eapply many_det; [exact H|exact K|congruence].
  - assert (l1 = l2) as -> by congruence. eapply seeds_det; eassumption.
Qed.

Section Back.
Hypothesis Hvals : AllRandomValues E.
Variables (c : ctx) (p : wpath) (cmd : command).
Hypothesis Hc : NoMemoryCtx E c.
Hypothesis Hn : NoMemory E cmd.
Hypothesis Hr : Reads E p cmd.
Hypothesis Hs : AllRandomScope E (scope_of c).
Hypothesis Hp : AllRandom E cmd.

(** Being somewhere in a run of the template. *)
Definition Midway (g : gen) : Prop := exists g0, g = (if c_ignws c then GSquash g0 else g0) /\ St G E c cmd g0.
Lemma midway : forall n g r u g1 r1, Midway g -> next n g r = OVal (u, g1) r1 -> Rolled G E c p r u r1 /\ Midway g1.
Proof.
  intros fuel g r u g1 r1 (g0 & -> & Hst) H.
  assert (Hask : forall m t g1 r1, next m g0 r = OVal (t, g1) r1 ->
     Rolled G E c p r (if c_ignws c then squash_whitespace t else t) r1 /\ St G E c cmd g1).
  { intros m t g2 r2 Hx. pose proof (memoryless G E m c cmd g0 r Hc Hn Hst) as Hm. rewrite Hx in Hm.
    destruct Hm as [Hm|[[n0 Hm] Hg1]]; [discriminate|]. split; [|eapply Hg1; reflexivity].
    specialize (Hm n0 ltac:(lia)). unfold ask in Hm.
    destruct (mk n0 c cmd) as [g3| |] eqn:Hg3; cbn [lift_mk obind] in Hm; try discriminate.
    destruct (next n0 g3 r) as [[t2 g4] r3| | |] eqn:Hx2; try discriminate. cbn in Hm. injection Hm as -> ->.
    assert (Ha : Agrees c (scope_of c)) by (repeat split).
    pose proof (back_all G E Hvals n0 n0 ltac:(lia) n0 c (scope_of c) cmd g3 r Ha Hs Hp Hg3) as Hb.
    rewrite Hx2 in Hb. cbn in Hb. econstructor; [exact Hr|exact Hb|].
    cbn. destruct (c_ignws c); [apply squash_Tidy|reflexivity]. }
  unfold Midway. destruct (c_ignws c) eqn:Hi.
  - destruct fuel as [|fuel]; [discriminate|]. revert H. unfold_next G E.
    destruct (next fuel g0 r) as [[t g2] r3| | |] eqn:Hy; cbn; try discriminate. intros [= <- <- <-].
    destruct (Hask _ _ _ _ Hy) as [H1 H2]. split; [exact H1|]. now exists g2.
  - destruct (Hask _ _ _ _ H) as [H1 H2]. split; [exact H1|]. now exists g1.
Qed.
Lemma sliced : forall n k g r u g1 r1, Midway g -> next n (GSlice k g) r = OVal (u, g1) r1 ->
  exists k' g', k = S k' /\ g1 = GSlice k' g' /\ Rolled G E c p r u r1 /\ Midway g'.
Proof.
  intros n k g r u g1 r1 Hg H. destruct n as [|n]; [discriminate|]. revert H. unfold_next G E. destruct k as [|k]; [discriminate|].
  destruct (next n g r) as [[t g2] r2| | |] eqn:Hx; cbn; try discriminate. intros [= <- <- <-].
  destruct (midway _ _ _ _ _ _ Hg Hx) as [H1 H2]. now exists k, g2.
Qed.
Lemma drained : forall steps n k g r us r', Midway g -> drain G E n steps (GSlice k g) r = Ret us r' -> length us = k ->
  RolledMany G E c p r us r'.
Proof.
  induction steps as [|steps IH]; intros n k g r us r' Hg H Hl; cbn [drain] in H; [discriminate|].
  destruct (next n (GSlice k g) r) as [[t g1] r1|r1| |] eqn:Hx; try discriminate.
  - destruct (sliced _ _ _ _ _ _ _ Hg Hx) as (k' & g' & -> & -> & H1 & H2).
    destruct (drain G E n steps (GSlice k' g') r1) as [ts r2| |] eqn:Hd; cbn [bind] in H; try discriminate. injection H as <- <-.
    econstructor; [exact H1|]. eapply IH; [exact H2|exact Hd|now injection Hl].
  - injection H as <- <-. cbn in Hl. subst k. destruct n as [|n]; [discriminate|]. revert Hx. unfold_next G E. intros [= <-]. constructor.
Qed.
Lemma seeded : forall l n k g r us r', Midway g -> seeded_loop G E n l (GSlice k g) r = Ret us r' -> RolledSeeds G E c p r l us r'.
Proof.
  induction l as [|z l IH]; intros n k g r us r' Hg H; cbn [seeded_loop] in H; [injection H as <- <-; constructor|].
  destruct (next n (GSlice k g) (prim_seed G z)) as [[t g1] r1|r1| |] eqn:Hx; try discriminate.
  destruct (sliced _ _ _ _ _ _ _ Hg Hx) as (k' & g' & -> & -> & H1 & H2).
  destruct (seeded_loop G E n l (GSlice k' g') r1) as [ts r2| |] eqn:Hd; cbn [bind] in H; try discriminate. injection H as <- <-.
  econstructor; [exact H1|]. eapply IH; eassumption.
Qed.
End Back.

Lemma made_sliced : forall n c s k g cmd, Reads E (WStr s) cmd -> sample_prompts E n c (WStr s) (Some k) = MOk g ->
  exists g0, g = GSlice k g0 /\ Midway c cmd g0.
Proof.
  intros n c s k g cmd Hr H. inversion Hr as [? ? Hn Hp|]; subst. unfold sample_prompts in H. destruct s; [now destruct Hn|].
  rewrite Hp in H. destruct (mk n c cmd) as [g0| |] eqn:Hg; try discriminate. injection H as <-.
  eexists. split; [reflexivity|]. exists g0. split; [reflexivity|]. eapply St_start, Hg.
Qed.

(** Every answer is one of these. *)
Lemma answered_so : forall c template cmd num seeds fuel r us r', AllRandomValues E ->
  NoMemoryCtx E c -> NoMemory E cmd -> Reads E (WStr template) cmd -> AllRandomScope E (scope_of c) -> AllRandom E cmd ->
  random_generate G E fuel c template num seeds r = Ret us r' -> length us = num -> Answer G E c (WStr template) num seeds r us r'.
Proof.
  intros c template cmd num seeds fuel r us r' Hv Hc Hn Hr Hs Hp H Hl. unfold random_generate in H.
  destruct (effective_seeds seeds num) as [[l|e]|] eqn:He; [|discriminate|];
    destruct (sample_prompts E fuel c (WStr template) (Some num)) as [g| |] eqn:Hg; cbn [drain_mk] in H; try discriminate;
    destruct (made_sliced _ _ _ _ _ _ Hr Hg) as (g0 & -> & Hm).
  - apply An_seeded with (l := l); [now apply dealt_iff|]. eapply seeded; eassumption.
  - apply An_plain; [now apply dealt_iff|exact Hl|]. eapply drained; eassumption.
Qed.
Lemma dealt_usable : forall num seeds o, Dealt num seeds o -> Usable num seeds.
Proof. intros num seeds o H. destruct H; constructor; assumption. Qed.
Lemma answer_dealt : forall c p num seeds r us r', Answer G E c p num seeds r us r' -> Usable num seeds.
Proof. intros c p num seeds r us r' H. destruct H; eapply dealt_usable; eassumption. Qed.

Lemma answer_iff : forall c template cmd num seeds r us r', AllRandomValues E ->
  NoMemoryCtx E c -> NoMemory E cmd -> Reads E (WStr template) cmd -> AllRandomScope E (scope_of c) -> AllRandom E cmd ->
  Sure E (scope_of c) (c_busy c) cmd ->
  ((exists n, forall m, n <= m -> random_generate G E m c template num seeds r = Ret us r') <->
   Answer G E c (WStr template) num seeds r us r').
Proof.
  intros c template cmd num seeds r us r' Hv Hc Hn Hr Hs Hp Hsure.
  assert (Hserve : Usable num seeds -> exists n ts r2, (forall m, n <= m -> random_generate G E m c template num seeds r = Ret ts r2)
            /\ Answer G E c (WStr template) num seeds r ts r2 /\ length ts = num).
  { intros Hu. destruct (sure_generate G E c template cmd num seeds r Hr Hsure Hu) as (n & ts & r2 & Hg & Hl).
    exists n, ts, r2. split; [exact Hg|]. split; [|exact Hl]. eapply answered_so; try eassumption. apply (Hg n). lia. }
  split.
  - intros [n H]. destruct (effective_seeds seeds num) as [[l|e]|] eqn:He.
    + assert (Hu : Usable num seeds) by (apply (dealt_usable _ _ (Some l)), dealt_iff; exact He).
      destruct (Hserve Hu) as (n2 & ts & r2 & Hg & Ha & _). specialize (H (n + n2) ltac:(lia)). rewrite Hg in H by lia. now injection H as <- <-.
    + specialize (H n ltac:(lia)). unfold random_generate in H. rewrite He in H. discriminate.
    + assert (Hu : Usable num seeds) by (apply (dealt_usable _ _ None), dealt_iff; exact He).
      destruct (Hserve Hu) as (n2 & ts & r2 & Hg & Ha & _). specialize (H (n + n2) ltac:(lia)). rewrite Hg in H by lia. now injection H as <- <-.
  - intros Ha. destruct (Hserve (answer_dealt _ _ _ _ _ _ _ Ha)) as (n & ts & r2 & Hg & Hb & _). exists n.
    destruct (answer_det _ _ _ _ _ _ _ _ _ Ha Hb) as [-> ->]. exact Hg.
Qed.

(** Templates that make the same of the same numbers. *)
Lemma pace_answer : forall c p p' x y num seeds r us r', Pace x y -> Reads E p x -> Reads E p' y ->
  Answer G E c p num seeds r us r' -> Answer G E c p' num seeds r us r'.
Proof.
  intros c p p' x y num seeds r us r' H Hp Hp' K.
  assert (Hone : forall r u r', Rolled G E c p r u r' -> Rolled G E c p' r u r').
  { intros r0 u r1 K0. inversion K0 as [? ? ? z ? t ? ? Hz Hr Ht]; subst.
    assert (z = x) as -> by (inversion Hp; subst; inversion Hz; subst; congruence).
    apply RoP with (c := y) (t := t); auto. now apply (same_rolls _ _ _ _ (pace_same G E x y H)). }
  destruct K as [D L K|l D K].
  - apply An_plain; [exact D|exact L|]. clear D L. induction K; econstructor; eauto.
  - apply An_seeded with (l := l); [exact D|]. clear D. induction K; econstructor; eauto.
Qed.
End Reseed.
