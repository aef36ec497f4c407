(** The random generator serves every request for the templates of
    Spec/Sure.v. *)
From Coq Require Import String NArith ZArith QArith Qcanon Bool Arith List Permutation Lia.
From Verif.Model Require Import Str Utils Command Rng Values Context Sampler Generators.
From Verif.Spec Require Import Text Comb Items Lang Sure.
From Verif.Proofs Require Import CommandFacts CombFacts Soundness FuelFacts RunFacts EnumFacts LiveFacts.
Import ListNotations.
Local Open Scope nat_scope.

Section Serve.
Variable G : rng_impl.
Variable E : env.
Notation Live := (Live G E).

Lemma next_slice : forall k g r, Live g -> exists n t g' r', Live g' /\
  forall m, n <= m -> next G E m (GSlice (S k) g) r = OVal (t, GSlice k g') r'.
Proof.
  intros k g r H. destruct (Live_step G E g r H) as (n & [t g'] & r' & Hn & Hl). cbn in Hl.
  exists (S n), t, g', r'. split; [assumption|]. intros [|m] Hm; [lia|].
  cbn [next]. rewrite Hn by lia. reflexivity.
Qed.

Lemma seeded_Live : forall l k g r, Live g -> length l <= k ->
  exists n ts r', (forall m, n <= m -> seeded_loop G E m l (GSlice k g) r = Ret ts r') /\ length ts = length l.
Proof.
  induction l as [|z l IH]; intros k g r H Hk; cbn [seeded_loop].
  - exists 0, [], r. auto.
  - destruct k as [|k]; [cbn in Hk; lia|].
    destruct (next_slice k g (prim_seed G z) H) as (n & t & g' & r' & Hl & Hn).
    destruct (IH k g' r' Hl ltac:(cbn in Hk; lia)) as (n' & ts & r'' & Ht & Hlen).
    exists (n + n'), (t :: ts), r''. split; [|cbn; lia]. intros m Hm. rewrite Hn by lia. rewrite Ht by lia. reflexivity.
Qed.

Lemma drain_Live : forall k g r, Live g ->
  exists n ts r', (forall m, n <= m -> drain G E m (S k) (GSlice k g) r = Ret ts r') /\ length ts = k.
Proof.
  induction k as [|k IH]; intros g r H; cbn [drain].
  - exists 1, [], r. split; [|reflexivity]. intros [|m] Hm; [lia|]. reflexivity.
  - destruct (next_slice k g r H) as (n & t & g' & r' & Hl & Hn).
    destruct (IH g' r' Hl) as (n' & ts & r'' & Ht & Hlen).
    exists (n + n'), (t :: ts), r''. split; [|cbn; lia]. intros m Hm. rewrite Hn by lia.
    cbn [drain] in Ht. rewrite Ht by lia. reflexivity.
Qed.

Lemma sure_generate : forall c template cmd num seeds r,
  Reads E (WStr template) cmd -> Sure E (scope_of c) (c_busy c) cmd -> Usable num seeds ->
  exists n ts r', (forall m, n <= m -> random_generate G E m c template num seeds r = Ret ts r') /\ length ts = num.
Proof.
  intros c template cmd num seeds r Hr Hs Hu. pose proof (proj1 (sure_live G E) _ _ _ Hs c eq_refl eq_refl) as Hl.
  destruct (sample_Live _ _ _ _ _ Hr Hl) as (n & g & Hg & Hgl).
  assert (Hnone : exists n ts r', (forall m, n <= m ->
    drain_mk G E m (S num) (sample_prompts E m c (WStr template) (Some num)) r = Ret ts r') /\ length ts = num).
  { destruct (drain_Live num g r Hgl) as (n' & ts & r' & Hd & Hlen). exists (n + n'), ts, r'. split; [|assumption].
    intros m Hm. rewrite (Hg m (Some num)) by lia. cbn [drain_mk]. apply Hd. lia. }
  assert (Hsome : forall l, length l = num -> exists n ts r', (forall m, n <= m ->
    match sample_prompts E m c (WStr template) (Some num) with
    | MOk g => seeded_loop G E m l g r | MErr e => Exn e r | MFuel => NoFuel end = Ret ts r') /\ length ts = num).
  { intros l Hlen. destruct (seeded_Live l num g r Hgl ltac:(lia)) as (n' & ts & r' & Hd & Ht).
    exists (n + n'), ts, r'. split; [|lia]. intros m Hm. rewrite (Hg m (Some num)) by lia. apply Hd. lia. }
  unfold random_generate. destruct Hu as [|z| |z|l Hlen]; cbn [effective_seeds].
  - exact Hnone.
  - destruct (Z.eqb z 0); [exact Hnone|]. rewrite repeat_length, Nat.eqb_refl. apply Hsome, repeat_length.
  - exact Hnone.
  - rewrite repeat_length, Nat.eqb_refl. apply Hsome, repeat_length.
  - destruct l as [|z [|z' l]]; [exact Hnone| |].
    + rewrite repeat_length, Nat.eqb_refl. apply Hsome, repeat_length.
    + apply Nat.eqb_eq in Hlen as Hlen'. rewrite Hlen'. now apply Hsome.
Qed.
End Serve.

(** * Sampling that never answers *)
Section Hang.
Variable G : rng_impl.
Variable E : env.

Lemma spin : forall fuel c sep r, next G E fuel (GYVarLoop c sep []) r = OFuel.
Proof. induction fuel as [|fuel IH]; intros c sep r; [reflexivity|]. cbn [next]. apply IH. Qed.

Lemma no_selection_hangs : forall c opts lo hi sep m fuel g,
  resolve (c_method c) m = Cyclical -> opts <> [] -> ~ lone_wildcard opts ->
  (forall k sel, (clamp (length opts) (Z.min lo hi) <= Z.of_nat k <= clamp (length opts) (Z.max lo hi))%Z ->
     ~ Selection k (map fst opts) sel) ->
  sample_prompts E fuel c (WCmd (Var opts lo hi sep m)) None = MOk g ->
  forall fuel' r, next G E fuel' g r = OFuel.
Proof.
  intros c opts lo hi sep m fuel g Hm Hne Hnl Hsel Hg.
  assert (Hbc : bound_combos opts lo hi = []).
  { destruct (bound_combos opts lo hi) as [|[b combo] bcs] eqn:Hb; [reflexivity|]. exfalso.
    destruct (bound_combos_In opts lo hi b combo) as (H1 & H2 & H3 & H4); [rewrite Hb; now left|].
    subst b. apply (Hsel (length combo) combo); [assumption|]. repeat split; assumption. }
  assert (Hcore : forall fuel' c' r, next G E fuel' (GYVarStart c' opts lo hi sep) r = OFuel).
  { intros [|fuel'] c' r; [reflexivity|]. cbn [next]. destruct opts as [|o opts]; [congruence|].
    destruct (single_wildcard (o :: opts)) as [w|] eqn:Hx.
    { exfalso. apply Hnl. destruct (single_wildcard_spec _ _ Hx) as (mw & vs & q' & Hq). unfold lone_wildcard. eauto. }
    rewrite Hbc. apply spin. }
  unfold sample_prompts in Hg. assert (Ht : truthy (Var opts lo hi sep m) = true) by (destruct opts; [congruence|reflexivity]).
  rewrite Ht in Hg. cbn [negb] in Hg.
  destruct fuel as [|fuel]; [discriminate|].
  rewrite mk_resolved, <- chosen_method_resolve in Hg. cbn [with_mark] in Hg. rewrite mk_none in Hg by reflexivity.
  assert (Hcm : chosen_method c (Var opts lo hi sep m) = Cyclical) by (rewrite chosen_method_resolve; exact Hm).
  rewrite Hcm in Hg. cbn [with_method c_method] in Hg. injection Hg as <-. intros fuel' r.
  destruct (c_ignws c); [|apply Hcore]. destruct fuel' as [|fuel']; [reflexivity|]. cbn [next]. now rewrite Hcore.
Qed.
End Hang.
