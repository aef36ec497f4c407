(** The k-th prompt of cyclical templates. *)
From Coq Require Import String NArith ZArith QArith Qcanon Bool Arith List Permutation Lia.
From Verif.Model Require Import Str Utils Command Rng Values Context Sampler.
From Verif.Spec Require Import Text Comb Items Lang Enum.
From Verif.Proofs Require Import StrFacts UtilsFacts CommandFacts CombFacts ValuesFacts DictFacts
  Soundness FuelFacts RunFacts EnumFacts BindFacts WildRun.
Import ListNotations.
Local Open Scope nat_scope.

Section Cyc.
Variable G : rng_impl.
Variable E : env.
Notation next := (next G E).
Notation next_yc := (next_yc G E).

(** [gs] are the states of a generator that yields [s 0], [s 1], ... *)
Definition Fam (n : nat) (gs : nat -> gen) (s : nat -> text) : Prop :=
  forall k m r, n <= m -> next m (gs k) r = OVal (s k, gs (S k)) r.
Definition Streams (g : gen) (s : nat -> text) : Prop :=
  exists gs n, gs 0 = g /\ Fam n gs s.
Definition SGives (c : ctx) (cmd : command) (s : nat -> text) : Prop :=
  exists n g, (forall m, n <= m -> mk m c cmd = MOk g) /\ Streams g s.

Lemma Fam_more : forall n n' gs s, n <= n' -> Fam n gs s -> Fam n' gs s.
Proof. intros n n' gs s Hn H k m r Hm. apply H. lia. Qed.

Lemma Streams_ext : forall g s s', (forall k, s k = s' k) -> Streams g s -> Streams g s'.
Proof.
  intros g s s' He (gs & n & H0 & H). exists gs, n. split; [assumption|]. intros k m r Hm.
  rewrite <- He. now apply H.
Qed.

(** One step before [g'] starts. *)
Lemma Streams_via : forall g g' s n, (forall m r, n <= m -> next (S m) g r = next m g' r) ->
  Streams g' s -> Streams g s.
Proof.
  intros g g' s n Hv (gs & n' & <- & H). exists (fun k => match k with O => g | S _ => gs k end), (S (n + n')).
  split; [reflexivity|]. intros [|k] [|m] r Hm; try lia.
  - rewrite Hv by lia. apply H. lia.
  - apply H. lia.
Qed.

Lemma GRepeat_Streams : forall t s, (forall k, s k = t) -> Streams (GRepeat t) s.
Proof.
  intros t s Hs. exists (fun _ => GRepeat t), 1. split; [reflexivity|]. intros k [|m] r Hm; [lia|].
  rewrite Hs. reflexivity.
Qed.

Lemma GSquash_Streams : forall g s, Streams g s -> Streams (GSquash g) (fun k => squash_whitespace (s k)).
Proof.
  intros g s (gs & n & <- & H). exists (fun k => GSquash (gs k)), (S n). split; [reflexivity|].
  intros k [|m] r Hm; [lia|]. unfold_next G E. rewrite H by lia. reflexivity.
Qed.

(** Several at once. *)
Inductive Fams (n : nat) : list (nat -> gen) -> list (nat -> text) -> Prop :=
| Fams_nil : Fams n [] []
| Fams_cons : forall gs s gss ss, Fam n gs s -> Fams n gss ss -> Fams n (gs :: gss) (s :: ss).
Definition gens_at (gss : list (nat -> gen)) (k : nat) : list gen := map (fun gs => gs k) gss.

Lemma Fams_more : forall n n' gss ss, n <= n' -> Fams n gss ss -> Fams n' gss ss.
Proof. intros n n' gss ss Hn H. induction H; constructor; eauto using Fam_more. Qed.

Lemma rotate_Fams : forall n gss ss k m r, Fams n gss ss -> n <= m ->
  rotate_all G (next m) (gens_at gss k) r = OVal (at_time ss k, gens_at gss (S k)) r.
Proof.
  intros n gss ss k m r H Hm. induction H as [|gs s gss ss Hf _ IH]; cbn; [reflexivity|].
  rewrite Hf by assumption. cbn. fold (gens_at gss k). rewrite IH. reflexivity.
Qed.

(** The generators of a list of commands. *)
Lemma mk_all_Streams : forall c cmds ss, Forall2 (SGives c) cmds ss ->
  exists n gss, (forall m, n <= m -> Forall2 (fun cmd gs => mk m c cmd = MOk (gs 0)) cmds gss) /\ Fams n gss ss.
Proof.
  intros c cmds ss H. induction H as [|cmd s cmds ss (n & g & Hg & gs & n1 & <- & Hf) _ (n2 & gss & H2 & H3)].
  - exists 0, []. split; [constructor|constructor].
  - exists (n + n1 + n2), (gs :: gss). split.
    + intros m Hm. constructor; [apply Hg; lia|]. apply H2. lia.
    + constructor; [eapply Fam_more; [|exact Hf]; lia|]. eapply Fams_more; [|exact H3]. lia.
Qed.

Lemma mk_all_run : forall m c cmds gss r, Forall2 (fun cmd gs => mk m c cmd = MOk (gs 0)) cmds gss ->
  mk_all G m c cmds r = OVal (gens_at gss 0) r.
Proof.
  intros m c cmds gss r H. induction H as [|cmd gs cmds gss Hg _ IH]; cbn [mk_all]; [reflexivity|].
  rewrite Hg. cbn [lift_mk obind]. rewrite IH. reflexivity.
Qed.

Lemma GSeq_Streams : forall c c' tokens toks sep ss s n0,
  (forall m r, n0 <= m -> process_variable_assignments G (next m) m c tokens r = OVal (toks, c') r) ->
  Forall2 (SGives c') toks ss -> (forall k, Glued sep (at_time ss k) (s k)) ->
  Streams (GSeqStart c tokens sep) s.
Proof.
  intros c c' tokens toks sep ss s n0 Ha H Hs. destruct (mk_all_Streams _ _ _ H) as (n & gss & Hm & Hf).
  exists (fun k => match k with O => GSeqStart c tokens sep | S _ => GSeqLoop (gens_at gss k) sep end), (S (S (n + n0))).
  split; [reflexivity|].
  assert (Hl : forall k m r, S n <= m -> next m (GSeqLoop (gens_at gss k) sep) r
            = OVal (s k, GSeqLoop (gens_at gss (S k)) sep) r).
  { intros k [|m] r Hk; [lia|]. unfold_next G E. rewrite (rotate_Fams n gss ss) by (auto; lia). cbn.
    now rewrite <- (Glued_joined _ _ _ (Hs k)). }
  intros [|k] m r Hk; [|apply Hl; lia].
  destruct m as [|m]; [lia|]. unfold_next G E. rewrite Ha by lia. cbn [obind].
  rewrite (mk_all_run m c' toks gss) by (apply Hm; lia). cbn [obind].
  rewrite Hl by lia. reflexivity.
Qed.

(** * Combination samplers *)
Definition chain (gss : list (nat -> gen)) (k : nat) : yc :=
  fold_right (fun gs rest => YCLoop (gs k) rest) YCEmpty gss.

Lemma chain_next : forall n gss ss k m c r, Fams n gss ss -> n + length gss < m ->
  next_yc m c (chain gss k) r = OVal (at_time ss k, chain gss (S k)) r.
Proof.
  intros n gss ss k m c r H. revert m. induction H as [|gs s gss ss Hf _ IH]; intros [|m] Hm; try lia.
  - reflexivity.
  - cbn [chain fold_right length] in *. fold (chain gss k). unfold_next G E. rewrite IH by lia. cbn [obind].
    rewrite Hf by lia. reflexivity.
Qed.

Lemma chain_start : forall n gss ss c sel m r, Fams n gss ss ->
  (forall m, n <= m -> Forall2 (fun cmd gs => mk m c cmd = MOk (gs 0)) sel gss) ->
  n + 2 * length gss + 1 < m ->
  next_yc m c (YCStart sel) r = OVal (at_time ss 0, chain gss 1) r.
Proof.
  intros n gss ss c sel m r H. revert sel m. induction H as [|gs s gss ss Hf _ IH]; intros sel m Hmk Hm.
  - specialize (Hmk n (le_n _)). inversion Hmk; subst. do 2 (destruct m as [|m]; [cbn in Hm; lia|]). reflexivity.
  - cbn [length] in Hm. destruct m as [|[|m]]; try lia.
    assert (Hs : exists cmd cmds, sel = cmd :: cmds).
    { specialize (Hmk n (le_n _)). inversion Hmk; subst; eauto. }
    destruct Hs as (cmd & cmds & ->).
    assert (H1 : mk (S m) c cmd = MOk (gs 0)).
    { specialize (Hmk (S m) ltac:(lia)). inversion Hmk; subst. assumption. }
    unfold_next G E. rewrite H1. cbn [lift_mk obind]. unfold_next G E.
    rewrite (IH cmds m) by (try lia; intros j Hj; specialize (Hmk j Hj); inversion Hmk; assumption).
    cbn [obind]. rewrite Hf by lia. reflexivity.
Qed.

(** Commands, their generators and their streams, for each selection. *)
Record sel_data := { sd_cmds : list command; sd_gens : list (nat -> gen); sd_texts : list (nat -> text) }.
Definition sd_ok (n : nat) (c : ctx) (d : sel_data) : Prop :=
  Fams n (sd_gens d) (sd_texts d) /\
  forall m, n <= m -> Forall2 (fun cmd gs => mk m c cmd = MOk (gs 0)) (sd_cmds d) (sd_gens d).

Lemma sd_more : forall n n' c d, n <= n' -> sd_ok n c d -> sd_ok n' c d.
Proof. intros n n' c d Hn [H1 H2]. split; [eapply Fams_more; eassumption|]. intros m Hm. apply H2. lia. Qed.

Lemma sels_data : forall c sels sss, Forall2 (Forall2 (SGives c)) sels sss ->
  exists n ds, Forall (sd_ok n c) ds /\ map sd_cmds ds = sels /\ map sd_texts ds = sss /\
    Forall (fun d => length (sd_gens d) <= n) ds.
Proof.
  intros c sels sss H. induction H as [|sel ss sels sss Hs _ (n & ds & H1 & <- & <- & H4)].
  - exists 0, []. repeat split; constructor.
  - destruct (mk_all_Streams _ _ _ Hs) as (n' & gss & Hm & Hf).
    exists (n + n' + length gss), ({| sd_cmds := sel; sd_gens := gss; sd_texts := ss |} :: ds).
    split; [|split; [reflexivity|split; [reflexivity|]]].
    + constructor.
      * eapply (sd_more n'); [lia|]. split; assumption.
      * eapply Forall_impl; [|exact H1]. intros d Hd. eapply sd_more; [|exact Hd]. lia.
    + constructor; [cbn; lia|]. eapply Forall_impl; [|exact H4]. cbn. intros d Hd. lia.
Qed.

Definition sd0 : sel_data := {| sd_cmds := []; sd_gens := []; sd_texts := [] |}.

(** The sampler that will be asked at time [j]. *)
Definition yc_at (ds : list sel_data) (j : nat) : yc :=
  let d := nth (j mod length ds) ds sd0 in
  if Nat.ltb j (length ds) then YCStart (sd_cmds d) else chain (sd_gens d) (j / length ds).

Lemma div_mod_step : forall j n, n <> 0 -> (j + n) mod n = j mod n /\ (j + n) / n = S (j / n).
Proof.
  intros j n Hn. replace (j + n) with (j + 1 * n) by lia. split.
  - now apply Nat.mod_add.
  - rewrite Nat.div_add by assumption. lia.
Qed.

Lemma yc_at_next : forall n c ds j m r, ds <> [] -> Forall (sd_ok n c) ds ->
  Forall (fun d => length (sd_gens d) <= n) ds -> 4 * n + 4 <= m ->
  next_yc m c (yc_at ds j) r
  = OVal (at_time (sd_texts (nth (j mod length ds) ds sd0)) (j / length ds), yc_at ds (j + length ds)) r.
Proof.
  intros n c ds j m r Hne Hok Hlen Hm.
  assert (Hl : length ds <> 0) by (destruct ds; [congruence|discriminate]).
  destruct (div_mod_step j (length ds) Hl) as [E1 E2].
  assert (Hin : In (nth (j mod length ds) ds sd0) ds) by (apply nth_In, Nat.mod_upper_bound, Hl).
  rewrite Forall_forall in Hok, Hlen. destruct (Hok _ Hin) as [Hf Hmk]. specialize (Hlen _ Hin). cbn in Hlen.
  unfold yc_at. rewrite E1, E2.
  destruct (Nat.ltb_spec (j + length ds) (length ds)) as [Hx|_]; [lia|].
  destruct (Nat.ltb_spec j (length ds)) as [Hj|Hj].
  - rewrite (Nat.div_small j) by assumption. apply (chain_start n); auto. lia.
  - apply (chain_next n); auto. lia.
Qed.

Lemma yc_state : forall ds k, ds <> [] -> 
  map (yc_at ds) (seq k (length ds)) = yc_at ds k :: map (yc_at ds) (seq (S k) (length ds - 1)) /\
  map (yc_at ds) (seq (S k) (length ds)) = map (yc_at ds) (seq (S k) (length ds - 1)) ++ [yc_at ds (k + length ds)].
Proof.
  intros ds k Hne. assert (Hl : length ds <> 0) by (destruct ds; [congruence|discriminate]).
  destruct (length ds) as [|n] eqn:Hn; [congruence|]. cbn [seq map Nat.sub]. rewrite Nat.sub_0_r. split; [reflexivity|].
  change (yc_at ds (S k) :: map (yc_at ds) (seq (S (S k)) n)) with (map (yc_at ds) (seq (S k) (S n))).
  rewrite seq_S, map_app. cbn. now rewrite Nat.add_succ_r.
Qed.

Lemma GYVarLoop_Streams : forall c sep sels sss s, sels <> [] -> Forall2 (Forall2 (SGives c)) sels sss ->
  (forall k, Glued sep (at_time (nth (k mod length sels) sss []) (k / length sels)) (s k)) ->
  Streams (GYVarLoop c sep (map YCStart sels)) s.
Proof.
  intros c sep sels sss s Hne H Hs. destruct (sels_data _ _ _ H) as (n & ds & Hok & <- & <- & Hlen).
  assert (Hd : ds <> []) by (intros ->; now apply Hne).
  rewrite map_length in Hs.
  exists (fun k => GYVarLoop c sep (map (yc_at ds) (seq k (length ds)))), (S (4 * n + 4)). split.
  - f_equal. rewrite map_map. apply nth_ext with (d := YCDone) (d' := YCDone).
    + now rewrite !map_length, seq_length.
    + intros i Hi. rewrite map_length, seq_length in Hi.
      rewrite (nth_indep _ YCDone (yc_at ds 0)) by now rewrite map_length, seq_length.
      rewrite map_nth, seq_nth by assumption. cbn [Nat.add].
      rewrite (nth_indep _ YCDone (YCStart (sd_cmds sd0))) by now rewrite map_length.
      rewrite (map_nth (fun d => YCStart (sd_cmds d))). unfold yc_at.
      destruct (Nat.ltb_spec i (length ds)) as [_|Hx]; [|lia]. now rewrite Nat.mod_small.
  - intros k [|m] r Hm; [lia|]. destruct (yc_state ds k Hd) as [E1 E2]. rewrite E1, E2. unfold_next G E.
    rewrite (yc_at_next n) by (auto; lia). cbn.
    rewrite (Glued_joined _ _ _ (Hs k)). repeat f_equal.
    destruct (nth_in_or_default (k mod length ds) ds sd0) as [Hin|Hdef];
      change [] with (sd_texts sd0); now rewrite map_nth.
Qed.

(** * Cyclical wildcards: one generator per value *)
Lemma GYWild_Streams : forall gss ss s n, gss <> [] -> Fams n gss ss ->
  (forall k, s k = nth (k mod length gss) ss (fun _ => []) (k / length gss)) ->
  Streams (GYWildLoop (gens_at gss 0)) s.
Proof.
  intros gss ss s n Hne Hf Hs. set (N := length gss).
  assert (HN : N <> 0) by (unfold N; destruct gss; [congruence|discriminate]).
  set (ga := fun j => nth (j mod N) gss (fun _ => GDone) (j / N)).
  exists (fun k => GYWildLoop (map ga (seq k N))), (S n). split.
  - f_equal. apply nth_ext with (d := GDone) (d' := GDone).
    + unfold gens_at. now rewrite !map_length, seq_length.
    + intros i Hi. rewrite map_length, seq_length in Hi.
      rewrite (nth_indep _ GDone (ga 0)) by now rewrite map_length, seq_length.
      rewrite map_nth, seq_nth by assumption. cbn [Nat.add]. unfold ga.
      rewrite Nat.mod_small, Nat.div_small by assumption. unfold gens_at.
      change GDone with ((fun gs : nat -> gen => gs 0) (fun _ => GDone)) at 2. now rewrite map_nth.
  - assert (Hstep : forall k m r, n <= m -> next m (ga k) r = OVal (s k, ga (k + N)) r).
    { intros k m r Hm. destruct (div_mod_step k N HN) as [E1 E2]. unfold ga. rewrite E1, E2, Hs. fold N.
      assert (Hi : k mod N < length gss) by (now apply Nat.mod_upper_bound).
      revert Hi. generalize (k mod N) as i, (k / N) as j. clear -Hf Hm.
      induction Hf as [|gs s gss ss Hx _ IH]; intros [|i] j Hi; cbn in *; try lia; [now apply Hx|].
      apply IH. lia. }
    intros k [|m] r Hm; [lia|]. destruct N as [|N'] eqn:HN'; [congruence|]. cbn [seq map].
    change (ga (S k) :: map ga (seq (S (S k)) N')) with (map ga (seq (S k) (S N'))).
    rewrite seq_S, map_app. unfold_next G E. rewrite Hstep by lia. cbn. now rewrite Nat.add_succ_r.
Qed.

Lemma sample_all_Streams : forall c vals ss,
  Forall2 (fun v s => exists n g, (forall m, n <= m -> sample_prompts E m c (WStr v) None = MOk g) /\ Streams g s) vals ss ->
  exists n gss, (forall m r, n <= m -> sample_all G E m c vals r = OVal (gens_at gss 0) r) /\ Fams n gss ss /\
    length gss = length vals.
Proof.
  intros c vals ss H. induction H as [|v s vals ss (n & g & Hg & gs & n1 & <- & Hf) _ (n2 & gss & H2 & H3 & H4)].
  - exists 0, []. repeat split; constructor.
  - exists (n + n1 + n2), (gs :: gss). split; [|split].
    + intros m r Hm. cbn [sample_all]. rewrite Hg by lia. cbn [lift_mk obind]. rewrite H2 by lia. reflexivity.
    + constructor; [eapply Fam_more; [|exact Hf]; lia|]. eapply Fams_more; [|exact H3]. lia.
    + cbn. now f_equal.
Qed.

(** First values. *)
Lemma SGives_Firsts : forall c cmd s, SGives c cmd s -> Firsts G E c cmd (s 0).
Proof.
  intros c cmd s (n & g & Hg & gs & k & <- & Hf). exists (n + k). intros m r Hm.
  unfold first_of. rewrite Hg by lia. cbn [lift_mk obind]. rewrite Hf by lia. reflexivity.
Qed.

Definition PSGives (c : ctx) (p : wpath) (s : nat -> text) : Prop :=
  exists n g, (forall m, n <= m -> sample_prompts E m c p None = MOk g) /\ Streams g s.

Lemma SGives_prompt : forall c p cmd s u, Reads E p cmd -> SGives c cmd s ->
  (forall k, Tidy (c_ignws c) (s k) (u k)) -> PSGives c p u.
Proof.
  intros c p cmd s u Hr (n & g & Hg & Hst) Hu. exists n, (if c_ignws c then GSquash g else g). split.
  - intros m Hm. unfold sample_prompts. destruct Hr as [t cmd Hs Hp|cmd Hn].
    + destruct t as [|x t]; [congruence|]. rewrite Hp, Hg by lia. reflexivity.
    + apply truthy_Nonempty in Hn. rewrite Hn. cbn [negb]. rewrite Hg by lia. reflexivity.
  - destruct (c_ignws c).
    + apply (Streams_ext _ (fun k => squash_whitespace (s k))); [|now apply GSquash_Streams].
      intros k. symmetry. exact (Tidy_fun true _ _ (Hu k)).
    + apply (Streams_ext _ s); [|assumption]. intros k. symmetry. exact (Tidy_fun false _ _ (Hu k)).
Qed.

Lemma PSGives_Names : forall c w s, PSGives c w s -> Names G E c w (s 0).
Proof.
  intros c w s (n & g & Hg & gs & k & <- & Hf). exists (S (n + k)). intros m r Hm. unfold sample_path, first_of.
  specialize (Hg m ltac:(lia)). unfold sample_prompts in *.
  destruct (match w with WStr [] => true | WStr _ => false | WCmd cmd => negb (truthy cmd) end).
  - exfalso. injection Hg as Hg. specialize (Hf 0 (S k) r ltac:(lia)). rewrite <- Hg in Hf. discriminate.
  - destruct (match w with WStr s => env_parse E s | WCmd cmd => Ok cmd end); [|discriminate].
    destruct (mk m c a) as [g0| |]; try discriminate. injection Hg as Hg. rewrite Hg. cbn [lift_mk obind].
    destruct m as [|m]; [lia|]. unfold_next G E. rewrite Hf by lia. reflexivity.
Qed.

Lemma SGives_Names : forall c w cmd s u, Reads E w cmd -> SGives c cmd s -> Tidy (c_ignws c) (s 0) u -> Names G E c w u.
Proof.
  intros c w cmd s u Hr Hs Hu.
  pose (us := fun k => match k with O => u | S _ => if c_ignws c then squash_whitespace (s k) else s k end).
  change u with (us 0). apply PSGives_Names. eapply SGives_prompt; [exact Hr|exact Hs|].
  intros [|k]; [exact Hu|]. unfold us, Tidy. destruct (c_ignws c); [|reflexivity].
  destruct (Words_total (s (S k))) as (ws & Hw). exists ws. split; [assumption|]. now apply squash_words.
Qed.

(** A missing wildcard. *)
Lemma fallback_Streams : forall c w name t s, (forall n, w = WStr n -> name = n) ->
  (forall cmd, w = WCmd cmd -> Names G E c w name) -> Wrapped (env_wrap E) name t -> (forall k, s k = t) ->
  Streams (GFallback c w) s.
Proof.
  intros c w name t s H1 H2 Ht Hs.
  assert (Hn : exists n, forall m r, n <= m ->
      match w with WCmd _ => pep479 G (sample_path G E (next m) m c w r) | WStr x => OVal x r end = OVal name r).
  { destruct w as [x|cmd].
    - exists 0. intros m r _. now rewrite (H1 x eq_refl).
    - destruct (H2 cmd eq_refl) as (n & Hn). exists n. intros m r Hm. rewrite Hn by lia. reflexivity. }
  destruct Hn as (n & Hn). apply (Streams_via _ (GRepeat t) _ n); [|now apply GRepeat_Streams].
  intros m r Hm. unfold_next G E. rewrite Hn by lia. cbn [obind].
  rewrite (Wrapped_to_wildcard _ _ _ Ht). reflexivity.
Qed.

Lemma GRWrap_Streams : forall c wrapper inner sw si s, SGives c wrapper sw -> SGives c inner si ->
  (forall k, exists before after, CutAtMarker (sw k) before after /\ s k = before ++ si k ++ after) ->
  Streams (GRWrapStart c wrapper inner) s.
Proof.
  intros c wrapper inner sw si s (n1 & g1 & Hg1 & gs1 & k1 & <- & Hf1) (n2 & g2 & Hg2 & gs2 & k2 & <- & Hf2) Hs.
  apply (Streams_via _ (GRWrapLoop (gs1 0) (gs2 0)) _ (n1 + n2)).
  { intros m r Hm. unfold_next G E. rewrite Hg1 by lia. cbn [lift_mk obind]. rewrite Hg2 by lia. reflexivity. }
  exists (fun k => GRWrapLoop (gs1 k) (gs2 k)), (S (k1 + k2)). split; [reflexivity|].
  intros k [|m] r Hm; [lia|]. unfold_next G E. rewrite Hf1 by lia. cbn [obind]. rewrite Hf2 by lia. cbn [obind].
  destruct (Hs k) as (bf & af & Hcut & ->). now rewrite (wrapped_fun _ (si k) _ _ Hcut).
Qed.

Theorem cyc_gives :
  (forall c cmd s, Cyc E c cmd s -> forall d, Same c d -> SGives d cmd s) /\
  (forall c cmds ss, CycAll E c cmds ss -> forall d, Same c d -> Forall2 (SGives d) cmds ss) /\
  (forall c sels sss, CycSels E c sels sss -> forall d, Same c d -> Forall2 (Forall2 (SGives d)) sels sss) /\
  (forall c vals ss, CycTexts E c vals ss -> forall d, Same c d -> Forall2 (fun v => PSGives d (WStr v)) vals ss) /\
  (forall c need, CycFirsts E c need -> forall d, Same c d -> Forall (fun vt => Firsts G E d (fst vt) (snd vt)) need) /\
  (forall c w path, CycPath E c w path -> forall d, Same c d -> Names G E d w path).
Proof.
  apply (Cyc_mutind E); try (intros; constructor; auto; fail).
  - (* literal *)
    intros c t m s Hm Hs d Hd. exists 1, (GRepeat t). split; [|now apply GRepeat_Streams].
    intros [|k] Hk; [lia|]. cbn [mk]. rewrite chosen_method_resolve. cbn [mark_of].
    destruct Hd as (-> & _). destruct Hm as [-> | ->]; reflexivity.
  - (* sequence *)
    intros c tokens sep m m' bs need c' toks ss s Hm He Ha _ IHf Hx Hp _ IH Hs d Hd.
    pose proof (Same_method m' _ _ Hd) as Hd'.
    destruct (assigned_run G E _ _ _ _ _ _ _ Hd' Ha Hp Hx (IHf _ Hd')) as (n & d' & Hsd & Hrun).
    exists 1, (GSeqStart (with_method m' d) tokens sep). split.
    + intros [|k] Hk; [lia|]. cbn [mk]. rewrite chosen_method_resolve. cbn [mark_of].
      destruct Hd as (-> & _). rewrite <- Hm. destruct He as [-> | ->]; reflexivity.
    + eapply GSeq_Streams; [exact Hrun|exact (IH _ Hsd)|exact Hs].
  - (* variant *)
    intros c opts lo hi sep m sels sss s Hm Ho Hw Hsel Hne _ IH Hs d Hd.
    exists 1, (GYVarStart (with_method Cyclical d) opts lo hi sep). split.
    + intros [|k] Hk; [lia|]. cbn [mk]. rewrite chosen_method_resolve. cbn [mark_of].
      destruct Hd as (-> & _). now rewrite Hm.
    + apply (Streams_via _ (GYVarLoop (with_method Cyclical d) sep
                 (map (fun bc => YCStart (snd bc)) (bound_combos opts lo hi))) _ 0).
      * intros k r _. unfold_next G E. destruct opts as [|o opts]; [congruence|].
        destruct (single_wildcard (o :: opts)) as [w|] eqn:Hx; [|reflexivity].
        exfalso. apply Hw. destruct (single_wildcard_spec _ _ Hx) as (mw & vs & q & Hq).
        unfold lone_wildcard. eauto.
      * rewrite <- (map_map snd YCStart), (Selections_combos _ _ _ _ Hsel).
        eapply GYVarLoop_Streams; [assumption|exact (IH _ (Same_method Cyclical _ _ Hd))|assumption].
  - (* one option *)
    intros c v q lo hi sep m s Hm Hw _ IH d Hd.
    destruct (IH _ (Same_method Random _ _ Hd)) as (n & g & Hg & Hst).
    exists 1, (GRVarStart (with_method Random d) [(v, q)] lo hi sep). split.
    + intros [|k] Hk; [lia|]. cbn [mk]. rewrite chosen_method_resolve. cbn [mark_of].
      destruct Hd as (-> & _). now rewrite Hm.
    + apply (Streams_via _ g _ n); [|assumption]. intros k r Hk. unfold_next G E.
      destruct (single_wildcard [(v, q)]) as [w|] eqn:Hx.
      * exfalso. apply Hw. destruct (single_wildcard_spec _ _ Hx) as (mw & vs & q' & Hq). unfold lone_wildcard. eauto.
      * rewrite Hg by lia. reflexivity.
  - (* lone wildcard *)
    intros c w path mw vars q lo hi sep m m' opts n s Hm He _ IHp Ho Hn _ IH d Hd.
    destruct (IH _ Hd) as (n1 & g1 & Hg1 & Hs1).
    destruct (to_variant G E _ w path opts lo hi n (IHp _ (Same_method m' _ _ Hd)) Ho Hn) as (k & Hk).
    specialize (Hg1 (S n1) ltac:(lia)). cbn [mk] in Hg1. rewrite chosen_method_resolve in Hg1. cbn [mark_of] in Hg1.
    pose proof (proj1 Hd) as Hmd. rewrite Hmd, <- Hm in Hg1.
    destruct He as [Hr|Hr]; rewrite Hr in *; injection Hg1 as <-.
    + exists 1, (GRVarStart (with_method Random d) [(Wild w mw vars, q)] lo hi sep). split.
      * intros [|j] Hj; [lia|]. cbn [mk]. rewrite chosen_method_resolve. cbn [mark_of]. now rewrite Hmd, <- Hm.
      * eapply (Streams_via _ _ _ k); [|exact Hs1]. intros j r Hj. unfold_next G E. cbn [single_wildcard].
        rewrite Hk by lia. reflexivity.
    + exists 1, (GYVarStart (with_method Cyclical d) [(Wild w mw vars, q)] lo hi sep). split.
      * intros [|j] Hj; [lia|]. cbn [mk]. rewrite chosen_method_resolve. cbn [mark_of]. now rewrite Hmd, <- Hm.
      * eapply (Streams_via _ _ _ k); [|exact Hs1]. intros j r Hj. unfold_next G E. cbn [single_wildcard].
        rewrite Hk by lia. reflexivity.
  - (* wildcard *)
    intros c w path m vars c' vals ss s Hm _ IHp Hne Hx Hv Hnv _ IH Hs d Hd.
    pose proof (Same_method Cyclical _ _ Hd) as Hd'.
    exists 1, (GYWildStart (with_method Cyclical d) w vars). split.
    + intros [|k] Hk; [lia|]. cbn [mk]. rewrite chosen_method_resolve. cbn [mark_of].
      destruct Hd as (-> & _). now rewrite Hm.
    + pose proof (with_variables_Same _ _ _ _ Hd' Hx) as Hd2.
      assert (Hwm : with_method Cyclical (with_variables vars (with_method Cyclical d)) = with_variables vars (with_method Cyclical d)).
      { destruct vars; reflexivity. }
      destruct (sample_all_Streams _ _ _ (IH _ Hd2)) as (n & gss & Ha & Hf & Hl).
      destruct (IHp _ Hd') as (n2 & Hp).
      apply (Streams_via _ (GYWildLoop (gens_at gss 0)) _ (n2 + n)).
      * intros k r Hk. unfold_next G E. rewrite Hp by lia. cbn [pep479 obind].
        rewrite (Listed_unique _ _ _ Hv (iterate_weighted_Listed (env_lookup E path))) in Ha.
        destruct (env_lookup E path) as [|i is] eqn:Hlk; [congruence|].
        rewrite Hwm, Ha by lia. reflexivity.
      * eapply GYWild_Streams with (n := n); [|exact Hf|rewrite Hl; exact Hs].
        intros ->. cbn in Hl. destruct vals; [congruence|discriminate].
  - (* missing wildcard *)
    intros c w path m m' vars c' name t s Hm He _ IHp Hl Hx H1 _ IH2 Ht Hs d Hd.
    pose proof (Same_method m' _ _ Hd) as Hd'.
    pose proof (with_variables_Same _ _ _ _ Hd' Hx) as Hd2.
    destruct (IHp _ Hd') as (n2 & Hp). pose proof (proj1 Hd) as Hmd.
    assert (Hfb : Streams (GFallback (with_variables vars (with_method m' d)) w) s).
    { eapply fallback_Streams; [exact H1| |exact Ht|exact Hs]. intros cmd Hw. now apply (IH2 cmd Hw). }
    destruct He as [Hr|Hr]; rewrite Hr in *.
    + exists 1, (GRWildStart (with_method Random d) w vars). split.
      * intros [|j] Hj; [lia|]. cbn [mk]. rewrite chosen_method_resolve. cbn [mark_of]. now rewrite Hmd, <- Hm.
      * eapply (Streams_via _ _ _ n2); [|exact Hfb]. intros j r Hj. unfold_next G E.
        rewrite Hp by lia. cbn [pep479 obind]. now rewrite Hl.
    + exists 1, (GYWildStart (with_method Cyclical d) w vars). split.
      * intros [|j] Hj; [lia|]. cbn [mk]. rewrite chosen_method_resolve. cbn [mark_of]. now rewrite Hmd, <- Hm.
      * eapply (Streams_via _ _ _ n2); [|exact Hfb]. intros j r Hj. unfold_next G E.
        rewrite Hp by lia. cbn [pep479 obind]. rewrite Hl.
        replace (with_method Cyclical (with_variables vars (with_method Cyclical d)))
          with (with_variables vars (with_method Cyclical d)); [reflexivity|]. now destruct vars.
  - (* access *)
    intros c x d v s Hr Hb _ IH c2 Hd. destruct (IH _ (Same_inside x _ _ Hd)) as (n & g & Hg & Hst).
    exists (S n), g. split; [|assumption].
    intros [|k] Hk; [lia|]. cbn [mk]. rewrite chosen_method_resolve. cbn [mark_of].
    replace (with_method (resolve (c_method c2) None) c2) with c2.
    2:{ symmetry. apply with_method_same. }
    rewrite (Refers_resolve _ _ _ _ (Same_Refers _ _ _ _ _ Hd Hr)). unfold for_sampling_variable.
    destruct (str_mem x (c_busy c2)) eqn:Hx; [apply str_mem_In in Hx|].
    { destruct Hd as (_ & _ & _ & Hbusy & _). rewrite Hbusy in Hx. contradiction. }
    apply Hg. lia.
  - (* wrap *)
    intros c wrapper inner m sw si s Hm _ IHw _ IHi Hs d Hd.
    pose proof (Same_method Random _ _ Hd) as Hd'.
    exists 1, (GRWrapStart (with_method Random d) wrapper inner). split.
    + intros [|k] Hk; [lia|]. cbn [mk]. rewrite chosen_method_resolve. cbn [mark_of].
      destruct Hd as (-> & _). now rewrite Hm.
    + eapply GRWrap_Streams; [exact (IHw _ Hd')|exact (IHi _ Hd')|assumption].
  - (* wildcard values *)
    intros c v cmd vs s u us Hr _ IH Ht _ IHs d Hd. constructor; [|now apply IHs].
    eapply SGives_prompt; [exact Hr|exact (IH _ Hd)|]. destruct Hd as (_ & -> & _). exact Ht.
  - (* first values *)
    intros c v s need _ IH _ IHs d Hd. constructor; [|now apply IHs]. cbn [fst snd]. apply SGives_Firsts. now apply IH.
  - (* paths *)
    intros c w cmd s u Hr _ IH Hu d Hd. eapply SGives_Names; [exact Hr|exact (IH _ Hd)|].
    destruct Hd as (_ & -> & _). exact Hu.
Qed.

Lemma Streams_collect : forall gs s n, Fam n gs s -> forall k m i r, n <= m ->
  collect G E m k (gs i) r = (map s (seq i k), EndLimit (gs (i + k)), Some r).
Proof.
  intros gs s n H. induction k as [|k IH]; intros m i r Hm; cbn [collect seq map].
  - now rewrite Nat.add_0_r.
  - rewrite H by assumption. rewrite IH by assumption. now rewrite Nat.add_succ_r.
Qed.

Lemma cyc_run : forall c cmd s u, Nonempty cmd -> Cyc E c cmd s -> (forall k, Tidy (c_ignws c) (s k) (u k)) ->
  exists f, forall m, f <= m -> exists g, sample_prompts E m c (WCmd cmd) None = MOk g /\
    forall n r, exists g', collect G E m n g r = (map u (seq 0 n), EndLimit g', Some r).
Proof.
  intros c cmd s u Hne H Hu.
  destruct (SGives_prompt c (WCmd cmd) cmd s u (Reads_command E _ Hne) (proj1 cyc_gives _ _ _ H _ (Same_refl c)) Hu)
    as (n & g & Hg & gs & n' & <- & Hf).
  exists (n + n'). intros m Hm. exists (gs 0). split; [apply Hg; lia|].
  intros k r. rewrite (Streams_collect gs u n' Hf) by lia. eauto.
Qed.
End Cyc.
