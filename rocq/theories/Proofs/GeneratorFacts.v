(** The prompt generators. *)
From Coq Require Import String NArith ZArith QArith Qcanon Qround Bool Arith List Lia Sorted Lqa.
From Verif.Model Require Import Str Utils Command Rng Values Context Sampler Generators.
From Verif.Spec Require Import Text Comb Items Lang Seeds Generators.
From Verif.Proofs Require Import StrFacts UtilsFacts CommandFacts CombFacts RngFacts ValuesFacts DictFacts Soundness FuelFacts RunFacts SeedFacts.
Import ListNotations.
Local Open Scope nat_scope.

(** * Batches *)
Section Batched.
Context {S : Type} (inner : S -> out S (list str)).

Lemma batched_ok : forall b s res s',
  batched_generate inner b s = Ret res s' <->
  exists outs, Calls inner b s outs s' /\ res = concat outs.
Proof.
  induction b as [|b IH]; intros s res s'; cbn [batched_generate].
  - split.
    + intros [= <- <-]. exists []. split; [constructor|reflexivity].
    + intros (outs & H & ->). inversion H; subst. reflexivity.
  - split.
    + destruct (inner s) as [im s1|e s1|] eqn:Hi; cbn [bind]; try discriminate.
      destruct (batched_generate inner b s1) as [more s2|e s2|] eqn:Hb; cbn [bind]; try discriminate.
      intros [= <- <-]. apply IH in Hb. destruct Hb as (outs & Ho & ->).
      exists (im :: outs). split; [econstructor; eassumption|reflexivity].
    + intros (outs & H & ->). inversion H as [|? ? a s1 outs' ? Ha Hr]; subst. rewrite Ha. cbn [bind].
      assert (Hb : batched_generate inner b s1 = Ret (concat outs') s') by (apply IH; eauto).
      now rewrite Hb.
Qed.

Lemma batched_exn : forall b s e s',
  batched_generate inner b s = Exn e s' <->
  exists k outs s1, k < b /\ Calls inner k s outs s1 /\ inner s1 = Exn e s'.
Proof.
  induction b as [|b IH]; intros s e s'; cbn [batched_generate].
  - split; [discriminate|]. intros (k & outs & s1 & Hk & _). lia.
  - split.
    + destruct (inner s) as [im s1|e1 s1|] eqn:Hi; cbn [bind]; try discriminate.
      * destruct (batched_generate inner b s1) as [more s2|e2 s2|] eqn:Hb; cbn [bind]; try discriminate.
        intros [= -> ->]. apply IH in Hb. destruct Hb as (k & outs & s3 & Hk & Ho & He).
        exists (Datatypes.S k), (im :: outs), s3. split; [lia|]. split; [econstructor; eassumption|assumption].
      * intros [= -> ->]. exists 0, [], s. split; [lia|]. split; [constructor|assumption].
    + intros (k & outs & s1 & Hk & Ho & He). destruct k as [|k].
      * inversion Ho; subst. now rewrite He.
      * inversion Ho as [|? ? a s2 outs' ? Ha Hr]; subst. rewrite Ha. cbn [bind].
        assert (Hb : batched_generate inner b s2 = Exn e s') by (apply IH; exists k, outs', s1; repeat split; auto; lia).
        now rewrite Hb.
Qed.
End Batched.

(** * Draining generators *)
Section Drain.
Variable G : rng_impl.
Variable E : env.
Notation R := (rng_state G).

Lemma drain_collect : forall fuel steps g r ts r',
  drain G E fuel steps g r = Ret ts r' <-> collect G E fuel steps g r = (ts, EndStop, Some r').
Proof.
  intros fuel. induction steps as [|k IH]; intros g r ts r'; cbn [drain collect].
  - split; discriminate.
  - destruct (next G E fuel g r) as [[t g'] r1|r1|e r1|]; cbn.
    + destruct (drain G E fuel k g' r1) as [ts1 r2|e r2|] eqn:Hd; cbn [bind].
      * apply IH in Hd. rewrite Hd. split; [intros [= <- <-]; reflexivity|intros [= <- <-]; reflexivity].
      * destruct (collect G E fuel k g' r1) as [[ts2 e2] r3] eqn:Hc. split; [discriminate|].
        intros [= <- -> ->]. apply IH in Hc. congruence.
      * destruct (collect G E fuel k g' r1) as [[ts2 e2] r3] eqn:Hc. split; [discriminate|].
        intros [= <- -> ->]. apply IH in Hc. congruence.
    + split; intros [= <- <-]; reflexivity.
    + split; discriminate.
    + split; discriminate.
Qed.

(** * Seeds *)
Lemma seeded_run : forall fuel seeds g r ts r', seeded_loop G E fuel seeds g r = Ret ts r' ->
  Reseeded G E fuel g seeds ts.
Proof.
  intros fuel. induction seeds as [|z zs IH]; intros g r ts r' H; cbn [seeded_loop] in H.
  { injection H as <- <-. constructor. }
  destruct (next G E fuel g (prim_seed G z)) as [[t g'] r1|r1|e r1|] eqn:Hn; try discriminate.
  destruct (seeded_loop G E fuel zs g' r1) as [ts1 r2|e r2|] eqn:Hs; cbn [bind] in H; try discriminate.
  injection H as <- <-. econstructor; [eassumption|]. eapply IH, Hs.
Qed.

Lemma run_seeded : forall fuel g seeds ts, Reseeded G E fuel g seeds ts ->
  forall r, exists r', seeded_loop G E fuel seeds g r = Ret ts r'.
Proof.
  intros fuel g seeds ts H. induction H as [g|g z zs t g' r1 ts Hn H IH]; intros r; cbn [seeded_loop].
  - eauto.
  - rewrite Hn. destruct (IH r1) as [r' ->]. cbn. eauto.
Qed.

Lemma Reseeded_length : forall fuel g zs ts, Reseeded G E fuel g zs ts -> length ts = length zs.
Proof. intros fuel g zs ts H. induction H; cbn; congruence. Qed.

Lemma effective_one : forall z n, effective_seeds (SList [z]) n = Some (Ok (repeat z n)).
Proof. intros z n. cbn. rewrite repeat_length, Nat.eqb_refl. reflexivity. Qed.
Lemma effective_int : forall z n, z <> 0%Z -> effective_seeds (SInt z) n = Some (Ok (repeat z n)).
Proof.
  intros z n Hz. cbn. destruct (Z.eqb_spec z 0); [contradiction|]. rewrite repeat_length, Nat.eqb_refl. reflexivity.
Qed.
Lemma effective_list : forall l n, l <> [] -> length l = n -> effective_seeds (SList l) n = Some (Ok l).
Proof.
  intros l n Hl <-. destruct l as [|z [|y l]]; [contradiction|reflexivity|].
  cbn [effective_seeds]. now rewrite Nat.eqb_refl.
Qed.
Lemma effective_wrong : forall l n, l <> [] -> length l <> 1 -> length l <> n ->
  effective_seeds (SList l) n = Some (Err EValue).
Proof.
  intros l n Hl H1 Hn. destruct l as [|z [|y l]]; [contradiction|cbn in H1; lia|].
  cbn [effective_seeds]. destruct (Nat.eqb_spec (length (z :: y :: l)) n); [contradiction|reflexivity].
Qed.

Lemma random_in_order : forall fuel c template l r ts r', l <> [] ->
  random_generate G E fuel c template (length l) (SList l) r = Ret ts r' ->
  exists g, sample_prompts E fuel c (WStr template) (Some (length l)) = MOk g /\
    Reseeded G E fuel g l ts.
Proof.
  intros fuel c template l r ts r' Hl H. unfold random_generate in H. rewrite effective_list in H by auto.
  destruct (sample_prompts E fuel c (WStr template) (Some (length l))) as [g| |]; try discriminate.
  exists g. split; [reflexivity|]. eapply seeded_run, H.
Qed.

Lemma random_in_order_conv : forall fuel c template l r ts g, l <> [] ->
  sample_prompts E fuel c (WStr template) (Some (length l)) = MOk g ->
  Reseeded G E fuel g l ts ->
  exists r', random_generate G E fuel c template (length l) (SList l) r = Ret ts r'.
Proof.
  intros fuel c template l r ts g Hl Hg H. unfold random_generate. rewrite effective_list by auto.
  rewrite Hg. eapply run_seeded, H.
Qed.

Lemma random_broadcast : forall fuel c template n z r, 0 < n ->
  random_generate G E fuel c template n (SList [z]) r =
  random_generate G E fuel c template n (SList (repeat z n)) r.
Proof.
  intros fuel c template n z r Hn. unfold random_generate. rewrite effective_one.
  rewrite effective_list; [reflexivity| |apply repeat_length]. destruct n; [lia|discriminate].
Qed.
Lemma random_int : forall fuel c template n z r, z <> 0%Z ->
  random_generate G E fuel c template n (SInt z) r =
  random_generate G E fuel c template n (SList [z]) r.
Proof.
  intros fuel c template n z r Hz. unfold random_generate. now rewrite effective_one, effective_int.
Qed.
Lemma random_wrong_count : forall fuel c template n l r, l <> [] -> length l <> 1 -> length l <> n ->
  random_generate G E fuel c template n (SList l) r = Exn EValue r.
Proof. intros. unfold random_generate. now rewrite effective_wrong. Qed.

(** * One seed determines one prompt *)
Notation NoMem := (NoMemory E).

Lemma Reseeded_settles : forall fuel c cmd zs k g ts, NoMemoryCtx E c -> NoMem cmd ->
  St G E c cmd g ->
  Reseeded G E fuel (GSlice k (if c_ignws c then GSquash g else g)) zs ts ->
  Forall2 (fun z t => exists t0 r, Settles G E c cmd (prim_seed G z) (OVal t0 r) /\
                        t = if c_ignws c then squash_whitespace t0 else t0) zs ts.
Proof.
  intros fuel c cmd zs k g ts Hc Hn. revert k g ts. induction zs as [|z zs IH]; intros k g ts Hs H.
  { inversion H; subst. constructor. }
  inversion H as [|? ? ? t g' r ts' Hx Hr]; subst. destruct fuel as [|fuel]; [discriminate|].
  revert Hx. unfold_next G E. destruct k as [|k]; [discriminate|].
  destruct (c_ignws c) eqn:Hw.
  - destruct fuel as [|fuel]; [discriminate|]. unfold_next G E.
    pose proof (memoryless G E fuel c cmd g (prim_seed G z) Hc Hn Hs) as Hm.
    destruct (next G E fuel g (prim_seed G z)) as [[t0 g0] r0| | |]; cbn; try discriminate.
    intros [= <- <- <-]. destruct Hm as [Hm|[Hm Hst]]; [discriminate|].
    constructor; [eauto|]. eapply IH; [eapply Hst; reflexivity|exact Hr].
  - pose proof (memoryless G E fuel c cmd g (prim_seed G z) Hc Hn Hs) as Hm.
    destruct (next G E fuel g (prim_seed G z)) as [[t0 g0] r0| | |]; cbn; try discriminate.
    intros [= <- <- <-]. destruct Hm as [Hm|[Hm Hst]]; [discriminate|].
    constructor; [eauto|]. eapply IH; [eapply Hst; reflexivity|exact Hr].
Qed.

Lemma Forall2_nth : forall {A B} (P : A -> B -> Prop) l l', Forall2 P l l' -> forall i a,
  nth_error l i = Some a -> exists b, nth_error l' i = Some b /\ P a b.
Proof.
  intros A B P l l' H. induction H as [|x y l l' Hp H IH]; intros i a Hi.
  - now destruct i.
  - destruct i as [|i]; cbn in *; [injection Hi as <-; eauto|now apply IH].
Qed.

Lemma seed_settles : forall fuel c template cmd l r ts r', NoMemoryCtx E c ->
  env_parse E template = Ok cmd -> NoMem cmd -> l <> [] ->
  random_generate G E fuel c template (length l) (SList l) r = Ret ts r' ->
  Forall2 (fun z t => exists t0 r, Settles G E c cmd (prim_seed G z) (OVal t0 r) /\
                        t = if c_ignws c then squash_whitespace t0 else t0) l ts.
Proof.
  intros fuel c template cmd l r ts r' Hc Hp Hn Hl H.
  destruct (random_in_order _ _ _ _ _ _ _ Hl H) as (g & Hg & Hs). unfold sample_prompts in Hg.
  destruct template as [|ch0 template].
  { injection Hg as <-. inversion Hs as [|? z zs t g' r1 ts' Hx Hr]; subst; [contradiction|].
    destruct fuel; discriminate. }
  rewrite Hp in Hg. destruct (mk fuel c cmd) as [g0| |] eqn:Hm; try discriminate. injection Hg as <-.
  eapply Reseeded_settles; [exact Hc|exact Hn|eapply St_start, Hm|exact Hs].
Qed.

Lemma seed_determines : forall c template cmd fuel fuel' l l' r0 r0' ts ts' r1 r1' i j z,
  NoMemoryCtx E c -> env_parse E template = Ok cmd -> NoMem cmd ->
  random_generate G E fuel c template (length l) (SList l) r0 = Ret ts r1 ->
  random_generate G E fuel' c template (length l') (SList l') r0' = Ret ts' r1' ->
  nth_error l i = Some z -> nth_error l' j = Some z ->
  exists t, nth_error ts i = Some t /\ nth_error ts' j = Some t.
Proof.
  intros c template cmd fuel fuel' l l' r0 r0' ts ts' r1 r1' i j z Hc Hp Hn H H' Hi Hj.
  assert (Hl : l <> []) by (intros ->; destruct i; discriminate).
  assert (Hl' : l' <> []) by (intros ->; destruct j; discriminate).
  pose proof (seed_settles _ _ _ _ _ _ _ _ Hc Hp Hn Hl H) as Hs.
  pose proof (seed_settles _ _ _ _ _ _ _ _ Hc Hp Hn Hl' H') as Hs'.
  destruct (Forall2_nth _ _ _ Hs i z Hi) as (t & Ht & t0 & r2 & Ha & ->).
  destruct (Forall2_nth _ _ _ Hs' j z Hj) as (t' & Ht' & t0' & r2' & Ha' & ->).
  pose proof (Settles_det G E _ _ _ _ _ Ha Ha') as [= -> ->].
  exists (if c_ignws c then squash_whitespace t0' else t0'). now split.
Qed.

(** * Numbers of prompts *)
Lemma slice_stop : forall steps k f g r ts r',
  collect G E f steps (GSlice k g) r = (ts, EndStop, r') ->
  length ts = k \/ exists f', collect G E f' steps g r = (ts, EndStop, r').
Proof.
  induction steps as [|n IH]; intros k f g r ts r' H; cbn [collect] in H; [discriminate|].
  destruct f as [|f]; [discriminate|]. destruct k as [|k].
  { cbn in H. injection H as <- <-. now left. }
  revert H. unfold_next G E.
  destruct (next G E f g r) as [[t g'] r1|r1|e1 r1|] eqn:Hx; cbn [obind]; try discriminate.
  - destruct (collect G E (S f) n (GSlice k g') r1) as [[ts1 e1] r2] eqn:Hc. intros [= <- -> ->].
    destruct (IH _ _ _ _ _ _ Hc) as [Hl|[f' Hf']]; [left; cbn; congruence|].
    right. exists (S f + f'). cbn [collect].
    rewrite (next_more G E f (S f + f') g r) by (try lia; congruence). rewrite Hx.
    now rewrite (collect_more G E f' (S f + f') n g' r1 _ _ _ ltac:(lia) Hf' ltac:(discriminate)).
  - intros [= <- <-]. right. exists f. cbn [collect]. now rewrite Hx.
Qed.

Lemma slice_length : forall steps k f g r ts e r',
  collect G E f steps (GSlice k g) r = (ts, e, r') -> length ts <= k.
Proof.
  induction steps as [|n IH]; intros k f g r ts e r' H; cbn [collect] in H; [injection H as <- _ _; cbn; lia|].
  destruct f as [|f]; [injection H as <- _ _; cbn; lia|]. destruct k as [|k].
  { cbn in H. injection H as <- _ _. cbn. lia. }
  revert H. unfold_next G E.
  destruct (next G E f g r) as [[t g'] r1|r1|e1 r1|] eqn:Hx; cbn [obind]; try (intros [= <- _ _]; cbn; lia).
  destruct (collect G E (S f) n (GSlice k g') r1) as [[ts1 e1] r2] eqn:Hc. intros [= <- _ _].
  apply IH in Hc. cbn. lia.
Qed.

Lemma random_unseeded : forall fuel c template n seeds r ts r', is_nonfinite (c_method c) = true ->
  effective_seeds seeds n = None ->
  random_generate G E fuel c template n seeds r = Ret ts r' ->
  (ts = [] \/ length ts = n) /\ Forall (Allowed E c (WStr template)) ts.
Proof.
  intros fuel c template n seeds r ts r' Hm He H. unfold random_generate in H. rewrite He in H.
  destruct (sample_prompts E fuel c (WStr template) (Some n)) as [g| |] eqn:Hg; cbn [drain_mk] in H; try discriminate.
  apply drain_collect in H. split.
  - unfold sample_prompts in Hg.
    destruct (match WStr template with WStr [] => true | WStr _ => false | WCmd cmd => negb (truthy cmd) end) eqn:Hfalsy.
    { injection Hg as <-. destruct fuel as [|f]; [discriminate|]. cbn in H. injection H as <- _. now left. }
    destruct (match WStr template with WStr s => env_parse E s | WCmd cmd => Ok cmd end) as [cmd|] eqn:Hp; [|discriminate].
    destruct (mk fuel c cmd) as [g1| |] eqn:Hmk; try discriminate. injection Hg as <-.
    destruct (slice_stop _ _ _ _ _ _ _ H) as [Hl|[f' Hf']]; [now right|]. left.
    assert (Hg0 : sample_prompts E fuel c (WStr template) None = MOk (if c_ignws c then GSquash g1 else g1)).
    { unfold sample_prompts. now rewrite Hfalsy, Hp, Hmk. }
    destruct (inv_sample_prompts_nf G E _ _ _ _ Hg0 Hm) as (V & Hi).
    exact (proj1 (proj2 (collect_inv G E _ _ _ _ _ _ _ _ _ _ Hi Hf')) eq_refl eq_refl).
  - destruct (inv_sample_prompts G E _ _ _ _ _ Hg) as (nf & V & Hi).
    exact (proj1 (collect_inv G E _ _ _ _ _ _ _ _ _ _ Hi H)).
Qed.

Lemma Reseeded_inv : forall fuel nf g P V zs ts, inv G E nf g P V -> Reseeded G E fuel g zs ts -> Forall P ts.
Proof.
  intros fuel nf g P V zs ts Hi H. revert V Hi. induction H as [g|g z zs t g' r ts Hn H IH]; intros V Hi; [constructor|].
  pose proof (next_ok G E fuel nf g P V (prim_seed G z) Hi) as Hp. rewrite Hn in Hp. cbn in Hp.
  destruct Hp as [Ht Hg]. constructor; [exact Ht|]. eapply IH, Hg.
Qed.

Lemma random_seeded : forall fuel c template n seeds l r ts r',
  effective_seeds seeds n = Some (Ok l) ->
  random_generate G E fuel c template n seeds r = Ret ts r' ->
  length ts = n /\ Forall (Allowed E c (WStr template)) ts.
Proof.
  intros fuel c template n seeds l r ts r' He H. unfold random_generate in H. rewrite He in H.
  assert (Hl : length l = n).
  { destruct seeds as [|z|[|z [|y zs]]]; cbn [effective_seeds] in He.
    - discriminate.
    - destruct (Z.eqb z 0); [discriminate|]. rewrite repeat_length, Nat.eqb_refl in He. injection He as <-. apply repeat_length.
    - discriminate.
    - rewrite repeat_length, Nat.eqb_refl in He. injection He as <-. apply repeat_length.
    - destruct (Nat.eqb_spec (length (z :: y :: zs)) n); [injection He as <-; assumption|discriminate]. }
  destruct (sample_prompts E fuel c (WStr template) (Some n)) as [g| |] eqn:Hg; try discriminate.
  apply seeded_run in H. split.
  - rewrite <- Hl. eapply Reseeded_length, H.
  - destruct (inv_sample_prompts G E _ _ _ _ _ Hg) as (nf & V & Hi). eapply Reseeded_inv; eassumption.
Qed.

Lemma combinatorial_ok : forall fuel steps c template limit r ts r',
  combinatorial_generate G E fuel steps c template limit r = Ret ts r' ->
  (forall k, limit = Some k -> length ts <= k) /\ Forall (Allowed E c (WStr template)) ts.
Proof.
  intros fuel steps c template limit r ts r' H. unfold combinatorial_generate in H.
  destruct (sample_prompts E fuel c (WStr template) limit) as [g| |] eqn:Hg; cbn [drain_mk] in H; try discriminate.
  apply drain_collect in H. split.
  - intros k ->. unfold sample_prompts in Hg.
    destruct (match WStr template with WStr [] => true | WStr _ => false | WCmd cmd => negb (truthy cmd) end).
    { injection Hg as <-. destruct fuel as [|f], steps as [|m]; try discriminate. cbn in H. injection H as <- _. cbn. lia. }
    destruct (match WStr template with WStr s => env_parse E s | WCmd cmd => Ok cmd end) as [cmd|]; [|discriminate].
    destruct (mk fuel c cmd) as [g1| |]; try discriminate. injection Hg as <-. eapply slice_length, H.
  - destruct (inv_sample_prompts G E _ _ _ _ _ Hg) as (nf & V & Hi).
    exact (proj1 (collect_inv G E _ _ _ _ _ _ _ _ _ _ Hi H)).
Qed.
End Drain.

(** * Jinja *)
Section Jinja.
Context {S : Type} (render : S -> out S (str * list str)).

Lemma render_all_ok : forall n s x s', render_all render n s = Ret x s' <->
  exists outs, Calls render n s outs s' /\ x = (map fst outs, concat (map snd outs)).
Proof.
  induction n as [|n IH]; intros s x s'; cbn [render_all].
  - split.
    + intros [= <- <-]. exists []. split; [constructor|reflexivity].
    + intros (outs & H & ->). inversion H; subst. reflexivity.
  - split.
    + destruct (render s) as [tb s1|e s1|] eqn:Hi; cbn [bind]; try discriminate.
      destruct (render_all render n s1) as [rest s2|e s2|] eqn:Hb; cbn [bind]; try discriminate.
      intros [= <- <-]. apply IH in Hb. destruct Hb as (outs & Ho & ->).
      exists (tb :: outs). split; [econstructor; eassumption|reflexivity].
    + intros (outs & H & ->). inversion H as [|? ? a s1 outs' ? Ha Hr]; subst. rewrite Ha. cbn [bind].
      assert (Hb : render_all render n s1 = Ret (map fst outs', concat (map snd outs')) s') by (apply IH; eauto).
      now rewrite Hb.
Qed.

Lemma render_all_exn : forall n s e s', render_all render n s = Exn e s' <->
  exists k outs s1, k < n /\ Calls render k s outs s1 /\ render s1 = Exn e s'.
Proof.
  induction n as [|n IH]; intros s e s'; cbn [render_all].
  - split; [discriminate|]. intros (k & outs & s1 & Hk & _). lia.
  - split.
    + destruct (render s) as [im s1|e1 s1|] eqn:Hi; cbn [bind]; try discriminate.
      * destruct (render_all render n s1) as [more s2|e2 s2|] eqn:Hb; cbn [bind]; try discriminate.
        intros [= -> ->]. apply IH in Hb. destruct Hb as (k & outs & s3 & Hk & Ho & He).
        exists (Datatypes.S k), (im :: outs), s3. split; [lia|]. split; [econstructor; eassumption|assumption].
      * intros [= -> ->]. exists 0, [], s. split; [lia|]. split; [constructor|assumption].
    + intros (k & outs & s1 & Hk & Ho & He). destruct k as [|k].
      * inversion Ho; subst. now rewrite He.
      * inversion Ho as [|? ? a s2 outs' ? Ha Hr]; subst. rewrite Ha. cbn [bind].
        assert (Hb : render_all render n s2 = Exn e s') by (apply IH; exists k, outs', s1; repeat split; auto; lia).
        now rewrite Hb.
Qed.

Lemma Calls_length : forall {A} (f : S -> out S A) n s outs s', Calls f n s outs s' -> length outs = n.
Proof. intros A f n s outs s' H. induction H; cbn; congruence. Qed.

Lemma squash_Tidy : forall t, Tidy true t (squash_whitespace t).
Proof. intros t. destruct (Words_total t) as [ws Hws]. exists ws. split; [assumption|now apply squash_words]. Qed.

Lemma jinja_ok : forall limit ws n s ps s', jinja_generate (Some render) limit ws n s = Ret ps s' ->
  exists outs base kept, Calls render n s outs s' /\
    (concat (map snd outs) <> [] -> base = concat (map snd outs)) /\
    (concat (map snd outs) = [] -> base = map fst outs) /\
    (limit = false -> kept = base) /\
    (limit = true -> length kept <= n /\ exists dropped, base = kept ++ dropped /\
                        (dropped <> [] -> length kept = n)) /\
    Forall2 (Tidy ws) kept ps.
Proof.
  intros limit ws n s ps s' H. unfold jinja_generate in H.
  destruct (render_all render n s) as [[texts blocks] s1|e s1|] eqn:Hr; cbn [bind] in H; try discriminate.
  injection H as <- <-. apply render_all_ok in Hr. destruct Hr as (outs & Ho & [= -> ->]). cbn [fst snd].
  set (base := match concat (map snd outs) with [] => map fst outs | _ => concat (map snd outs) end).
  assert (Hb : match concat (map snd outs) with [] => map fst outs | (_ :: _) as blocks => blocks end = base).
  { unfold base. now destruct (concat (map snd outs)). }
  exists outs, base, (if limit then firstn n base else base).
  split; [assumption|]. split; [|split; [|split; [|split]]].
  - intros Hne. unfold base. destruct (concat (map snd outs)); congruence.
  - intros He. unfold base. now rewrite He.
  - now intros ->.
  - intros ->. split; [apply firstn_le_length|]. exists (skipn n base). split; [symmetry; apply firstn_skipn|].
    intros Hd. rewrite firstn_length. destruct (Nat.le_gt_cases n (length base)); [lia|].
    exfalso. apply Hd. apply skipn_all2. lia.
  - rewrite Hb. generalize (if limit then firstn n base else base). intros l. destruct ws.
    + induction l as [|x l IH]; cbn; constructor; [apply squash_Tidy|assumption].
    + induction l as [|x l IH]; constructor; [reflexivity|assumption].
Qed.
End Jinja.
