(** Runs of wildcards with plain names: missing ones, and lone ones in variants. *)
From Coq Require Import String NArith ZArith QArith Qcanon Bool Arith List Permutation Lia.
From Verif.Model Require Import Str Utils Command Rng Values Context Sampler.
From Verif.Spec Require Import Text Comb Items Lang Enum.
From Verif.Proofs Require Import StrFacts UtilsFacts CommandFacts CombFacts ValuesFacts DictFacts
  Soundness FuelFacts RunFacts EnumFacts.
Import ListNotations.
Local Open Scope nat_scope.

Section Wild.
Variable G : rng_impl.
Variable E : env.

Lemma plain_path : forall c w name path, PlainPath E c w name path ->
  forall n r, 5 <= n -> sample_path G E (next G E n) n c w r = OVal path r.
Proof.
  intros c w name path (s & m & -> & Hne & Hp & Ht) n r Hn. do 5 (destruct n as [|n]; [lia|]). clear Hn. unfold sample_path, first_of, sample_prompts.
  destruct name as [|x name]; [congruence|]. rewrite Hp. cbn [mk].
  apply Tidy_fun in Ht. subst path.
  destruct (chosen_method c (Lit s m)), (c_ignws c); reflexivity.
Qed.

Lemma Wrapped_to_wildcard : forall ww name t, Wrapped ww name t -> t = to_wildcard ww name.
Proof.
  intros ww name t (a & Ha & Ht). unfold to_wildcard. destruct Ha as [[Hs ->]|[Hs ->]].
  - apply startswith_spec in Hs. rewrite Hs. destruct Ht as [[He ->]|[He ->]].
    + apply endswith_spec in He. now rewrite He.
    + destruct (endswith name ww) eqn:H; [apply endswith_spec in H; contradiction|reflexivity].
  - destruct (startswith name ww) eqn:H0; [apply startswith_spec in H0; contradiction|].
    destruct Ht as [[He ->]|[He ->]].
    + apply endswith_spec in He. now rewrite He.
    + destruct (endswith (ww ++ name) ww) eqn:H; [apply endswith_spec in H; contradiction|reflexivity].
Qed.

Lemma collect_repeat : forall f k t r, collect G E (S f) k (GRepeat t) r = (repeat t k, EndLimit (GRepeat t), Some r).
Proof. intros f k t. induction k as [|k IH]; intros r; cbn [collect repeat]; [reflexivity|].
  unfold_next G E. now rewrite IH. Qed.

Lemma repeat_next : forall f t r, next G E (S f) (GRepeat t) r = OVal (t, GRepeat t) r.
Proof. reflexivity. Qed.

Lemma fallback_next : forall c name n r, 2 <= n ->
  next G E n (GFallback c (WStr name)) r
  = OVal (to_wildcard (env_wrap E) name, GRepeat (to_wildcard (env_wrap E) name)) r.
Proof. intros c name [|[|n]] r Hn; [lia|lia|]. reflexivity. Qed.

Lemma missing_next : forall c w name path m vars t, PlainPath E c w name path ->
  env_lookup E path = [] -> Wrapped (env_wrap E) name t ->
  exists g, (forall n, mk (S n) c (Wild w m vars) = MOk g) /\
    forall n r, 6 <= n -> next G E n g r = OVal (t, GRepeat t) r.
Proof.
  intros c w name path m vars t Hp Hl Ht. apply Wrapped_to_wildcard in Ht. subst t.
  assert (Hp' : forall m', PlainPath E (with_method m' c) w name path) by (intros m'; exact Hp).
  pose proof Hp as (s & ms & -> & _).
  destruct (chosen_method c (Wild (WStr name) m vars)) eqn:Hm; eexists;
    (split; [intros n; cbn [mk]; rewrite Hm; reflexivity|]); intros [|n] r Hn; [lia| |lia| |lia|];
    unfold_next G E; rewrite (plain_path _ _ _ _ (Hp' _)) by lia; cbn [pep479 obind]; rewrite Hl;
    apply fallback_next; lia.
Qed.

Lemma missing_run : forall c w name path m vars t, PlainPath E c w name path ->
  env_lookup E path = [] -> Wrapped (env_wrap E) name t ->
  exists g, (forall f, sample_prompts E (S f) c (WCmd (Wild w m vars)) None = MOk g) /\
    forall f k r, 7 <= f -> exists g', collect G E f k g r
      = (repeat (if c_ignws c then squash_whitespace t else t) k, EndLimit g', Some r).
Proof.
  intros c w name path m vars t Hp Hl Ht.
  destruct (missing_next c w name path m vars t Hp Hl Ht) as (g & Hg & Hn).
  exists (if c_ignws c then GSquash g else g). split.
  - intros f. unfold sample_prompts. cbn [truthy negb]. rewrite Hg. reflexivity.
  - intros [|f] k r Hf; [lia|]. destruct (c_ignws c).
    + assert (Hr : forall j r, collect G E (S f) j (GSquash (GRepeat t)) r
              = (repeat (squash_whitespace t) j, EndLimit (GSquash (GRepeat t)), Some r)).
      { induction j as [|j IH]; intros r'; cbn [collect repeat]; [reflexivity|].
        unfold_next G E. destruct f as [|f]; [lia|]. rewrite repeat_next. cbn [obind]. now rewrite IH. }
      destruct k as [|k]; [eexists; reflexivity|]. cbn [collect repeat].
      unfold_next G E. rewrite Hn by lia. cbn [obind]. rewrite Hr. eexists. reflexivity.
    + destruct k as [|k]; [eexists; reflexivity|]. cbn [collect repeat].
      rewrite Hn by lia. rewrite collect_repeat. eexists. reflexivity.
Qed.

(** * A variant with a wildcard as its only option *)
Lemma lone_next : forall c w name path mw vars q lo hi sep m opts n, PlainPath E c w name path ->
  OptionsOf E path opts -> n = Z.of_nat (length (env_lookup E path)) ->
  exists g g',
    (forall f, mk (S f) c (Var [(Wild w mw vars, q)] lo hi sep m) = MOk g) /\
    (forall f, mk (S f) c (Var opts (Z.max 0 (Z.min (Z.min lo hi) n)) (Z.min (Z.max lo hi) n) sep m) = MOk g') /\
    forall f r, 5 <= f -> next G E (S f) g r = next G E f g' r.
Proof.
  intros c w name path mw vars q lo hi sep m opts n Hp Ho Hn.
  assert (Hp' : forall m', PlainPath E (with_method m' c) w name path) by (intros m'; exact Hp).
  assert (Hwv : forall m' k r, 5 <= k -> wildcard_to_variant G E (next G E k) k (with_method m' c) w lo hi r
      = OVal (opts, (Z.max 0 (Z.min (Z.min lo hi) n), Z.min (Z.max lo hi) n)) r).
  { intros m' k r Hk. unfold wildcard_to_variant. rewrite (plain_path _ _ _ _ (Hp' m')) by assumption. cbn [obind].
    destruct Ho as (vals & cmds & Hv & Hcm & ->).
    rewrite (Listed_unique _ _ _ Hv (iterate_weighted_Listed (env_lookup E path))) in Hcm.
    assert (Hpa : parse_all E (iterate_weighted (env_lookup E path)) = Ok cmds).
    { clear -Hcm. induction Hcm as [|v cm vs cms H _ IH]; cbn; [reflexivity|]. now rewrite H, IH. }
    cbn zeta. rewrite Hpa.
    replace (post_init_bounds (Z.min lo (Z.of_nat (length (env_lookup E path)))) (Z.min hi (Z.of_nat (length (env_lookup E path)))))
      with (Z.max 0 (Z.min (Z.min lo hi) n), Z.min (Z.max lo hi) n); [reflexivity|].
    subst n. unfold post_init_bounds.
    match goal with |- context [Z.leb ?a ?b] => destruct (Z.leb_spec a b) end; f_equal; lia. }
  assert (Hch : chosen_method c (Var opts (Z.max 0 (Z.min (Z.min lo hi) n)) (Z.min (Z.max lo hi) n) sep m)
              = chosen_method c (Var [(Wild w mw vars, q)] lo hi sep m)) by reflexivity.
  destruct (chosen_method c (Var [(Wild w mw vars, q)] lo hi sep m)) eqn:Hm; do 2 eexists;
    (split; [intros f; cbn [mk]; rewrite Hm; reflexivity|]);
    (split; [intros f; cbn [mk]; rewrite Hch; reflexivity|]);
    intros f r Hf; unfold_next G E; cbn [single_wildcard];
    rewrite Hwv by assumption; reflexivity.
Qed.

Lemma lone_collect : forall f k g g', (forall f r, 5 <= f -> next G E (S f) g r = next G E f g' r) ->
  forall r ts e r', (collect G E f (S k) g' r = (ts, e, r') -> e <> EndFuel ->
      collect G E (S (5 + f)) (S k) g r = (ts, e, r')) /\
    (collect G E f (S k) g r = (ts, e, r') -> e <> EndFuel ->
      collect G E (5 + f) (S k) g' r = (ts, e, r')).
Proof.
  intros f k g g' H r ts e r'. cbn [collect]. split; intros Hc He.
  - rewrite H by lia. assert (Hx : next G E f g' r <> OFuel) by (intros Hx; rewrite Hx in Hc; congruence).
    rewrite (next_more G E f (5 + f)) by (auto; lia).
    destruct (next G E f g' r) as [[t g2] r2|r2|x r2|]; try exact Hc.
    destruct (collect G E f k g2 r2) as [[ts2 e2] r3] eqn:H2. injection Hc as <- <- <-.
    rewrite (collect_more G E f (S (5 + f)) _ _ _ _ _ _ ltac:(lia) H2 He). reflexivity.
  - assert (Hx : next G E f g r <> OFuel) by (intros Hx; rewrite Hx in Hc; congruence).
    pose proof (H (5 + f) r ltac:(lia)) as Hh. rewrite (next_more G E f (S (5 + f))) in Hh by (auto; lia).
    rewrite <- Hh.
    destruct (next G E f g r) as [[t g2] r2|r2|x r2|]; try exact Hc.
    destruct (collect G E f k g2 r2) as [[ts2 e2] r3] eqn:H2. injection Hc as <- <- <-.
    rewrite (collect_more G E f (5 + f) _ _ _ _ _ _ ltac:(lia) H2 He). reflexivity.
Qed.
End Wild.
