(** Combinatorial runs list what [Enum] says, leaving the random generator
    alone. *)
From Coq Require Import String NArith ZArith QArith Qcanon Bool Arith List Permutation Lia.
From Verif.Model Require Import Str Utils Command Rng Values Context Sampler.
From Verif.Spec Require Import Text Comb Items Lang Enum.
From Verif.Proofs Require Import StrFacts UtilsFacts CommandFacts CombFacts ValuesFacts DictFacts
  Soundness FuelFacts RunFacts EnumFacts BindFacts CycleFacts MixedFacts.
Import ListNotations.
Local Open Scope nat_scope.

Section Run.
Variable G : rng_impl.
Variable E : env.
Notation next := (next G E).
Notation next_cp := (next_cp G E).

Lemma Enum_finite : forall c cmd ts, Enum E c cmd ts -> finite_mark cmd.
Proof. intros c cmd ts H. destruct H; try assumption. now left. Qed.

(** An endless option in a selection. *)
Lemma cp_non : forall n gs s, Fam G E n gs s -> forall c st arrs, EmitsCp G E c st arrs -> forall k,
  EmitsCp G E c (CPNon (gs k) st) (map (fun ja => s (fst ja) :: snd ja) (combine (seq k (length arrs)) arrs)).
Proof.
  intros n gs s Hf c st arrs H. induction H as [st [j Hj]|st a st' l [j Hj] _ IH]; intros k; cbn [length seq combine map fst snd].
  - apply Ecp_stop. exists (S j). intros [|m] r Hm; [lia|]. unfold_next G E. now rewrite Hj by lia.
  - eapply Ecp_val; [|exact (IH (S k))]. exists (S (j + n)). intros [|m] r Hm; [lia|]. unfold_next G E.
    rewrite Hj by lia. cbn [obind]. rewrite Hf by lia. reflexivity.
Qed.

Lemma endless_in : forall c cmd, ~ finite_mark cmd -> is_nonfinite (effective_method c cmd) = true.
Proof.
  intros c cmd H. unfold finite_mark in H. rewrite mark_of_sampling_method in H. unfold effective_method.
  destruct (sampling_method cmd) as [[]|]; try reflexivity; tauto.
Qed.

Lemma cp_endless : forall c cmd combo s arrs, SGives G E c cmd s -> ~ finite_mark cmd ->
  EmitsCp G E c (CPStart combo) arrs ->
  EmitsCp G E c (CPStart (cmd :: combo)) (map (fun ja => s (fst ja) :: snd ja) (numbered arrs)).
Proof.
  intros c cmd combo s arrs (n & g & Hg & gs & k & <- & Hf) Hm H.
  eapply EmitsCp_via; [|exact (cp_non _ _ _ Hf _ _ _ H 0)].
  exists n. intros m r Hl. unfold_next G E. rewrite Hg by lia. cbn [lift_mk obind].
  now rewrite (endless_in c cmd Hm).
Qed.

Lemma EnumCombo_length : forall c sel ars, EnumCombo E c sel ars -> Forall (fun a => length a = length sel) ars.
Proof.
  intros c sel. induction sel as [|v sel IH]; intros ars H; inversion H; subst.
  - repeat constructor.
  - match goal with X : EnumCombo E c sel _ |- _ => apply IH in X; rename X into HX end.
    apply Forall_forall. intros a Ha. apply in_flat_map in Ha as (t & _ & Ha). apply in_map_iff in Ha as (b & <- & Hb).
    rewrite Forall_forall in HX. cbn. f_equal. now apply HX.
  - match goal with X : EnumCombo E c sel _ |- _ => apply IH in X; rename X into HX end.
    apply Forall_forall. intros a Ha. apply in_map_iff in Ha as ([j b] & <- & Hb). cbn.
    apply in_combine_r in Hb. rewrite Forall_forall in HX. f_equal. now apply HX.
Qed.

Theorem enum_gives :
  (forall c cmd ts, Enum E c cmd ts -> forall d, Same c d -> c_method c = Combinatorial -> Gives G E d cmd ts) /\
  (forall c stream whole toks ls, TimedParts E c stream whole toks ls -> forall d, Same c d -> c_method c = Combinatorial ->
     GParts G E d stream whole toks ls) /\
  (forall c sels arrs, EnumSels E c sels arrs -> forall d, Same c d -> c_method c = Combinatorial ->
     exists ars, arrs = concat ars /\
       Forall2 (fun sel ar => EmitsCp G E d (CPStart sel) ar /\ Forall (fun a => length a = length sel) ar) sels ars) /\
  (forall c sel ars, EnumCombo E c sel ars -> forall d, Same c d -> c_method c = Combinatorial ->
     EmitsCp G E d (CPStart sel) ars) /\
  (forall c p ts, EnumPrompt E c p ts -> forall d, Same c d -> c_method c = Combinatorial -> PGives G E d p ts) /\
  (forall c ps ls, EnumPrompts E c ps ls -> forall d, Same c d -> c_method c = Combinatorial -> Forall2 (PGives G E d) ps ls) /\
  (forall c need, EnumFirsts E c need -> forall d, Same c d -> c_method c = Combinatorial ->
     Forall (fun vt => Firsts G E d (fst vt) (snd vt)) need) /\
  (forall c w path, EnumPath E c w path -> forall d, Same c d -> c_method c = Combinatorial -> Names G E d w path).
Proof.
  apply (Enum_mutind E).
  - (* literal *)
    intros c s m Hm d Hd Hc. exists 1, (GOnce s). destruct Hd as (Hd & _). rewrite Hc in Hd. split.
    + intros [|k] Hk; [lia|]. cbn [mk]. now rewrite (chosen_comb _ _ Hd Hm).
    + eapply Em_val with (g' := GDone); [exists 1; intros [|k] r Hk; [lia|reflexivity]|].
      apply Em_stop. exists 1; intros [|k] r Hk; [lia|reflexivity].
  - (* sequence *)
    intros c tokens sep m bs need c' toks stream ls Hm Ha _ IHf Hx Hp _ IH d Hd Hc.
    destruct (assigned_run G E _ _ _ _ _ _ _ Hd Ha Hp Hx (IHf _ Hd Hc)) as (n & d' & Hsd & Hrun).
    assert (Hc' : c_method c' = Combinatorial) by (destruct Hx as [[(Hx & _) _] _]; cbn in Hx; congruence).
    assert (Hcd : c_method d' = Combinatorial) by (destruct Hsd as (Hsd & _); congruence).
    eapply mixed_gives; [exact Hcd|exact Hm|destruct Hd as (Hd & _); congruence|exact Hrun|exact (IH _ Hsd Hc')].
  - (* variant *)
    intros c opts lo hi sep m sels arrs k outs ts Hm Ho Hl Hs _ IH Hk Hf Hg d Hd Hc.
    destruct (IH _ Hd Hc) as (ars & -> & Hars).
    rewrite (Forall2_map_fun _ (fun a => joined a sep) _ _ (fun a b => Glued_joined sep a b) Hg).
    eapply var_gives; eauto; [destruct Hd as (Hd & _); congruence|]. eapply kept_spec; eassumption.
  - (* no option *)
    intros c lo hi sep m Hm d Hd Hc. destruct Hd as (Hd & _). rewrite Hc in Hd.
    exists 1, (GCVarStart d [] lo hi sep). split.
    + intros [|k] Hk; [lia|]. cbn [mk]. rewrite (chosen_comb _ _ Hd Hm). now rewrite with_method_comb.
    + apply Em_stop. exists 1; intros [|k] r Hk; [lia|reflexivity].
  - (* lone wildcard *)
    intros c w mw vars q lo hi sep m path opts n ts Hm _ IHp Ho Hn _ IHv d Hd Hc.
    eapply lone_gives; eauto. destruct Hd as (Hd & _); congruence.
  - (* wildcard *)
    intros c w m vars path c' vals lists Hm _ IHp Hne Hx Hv _ IHv d Hd Hc.
    assert (Hcd : c_method d = Combinatorial) by (destruct Hd as (Hd & _); congruence).
    assert (Hc' : c_method c' = Combinatorial) by (destruct Hx as [[(Hx & _) _] _]; cbn in Hx; congruence).
    exists 1, (GCWildStart d w vars). split.
    { intros [|k] Hk; [lia|]. cbn [mk]. rewrite (chosen_comb _ _ Hcd Hm). now rewrite with_method_comb. }
    destruct (IHp _ Hd Hc) as (k & Hk).
    pose proof (with_variables_Same _ _ _ _ Hd Hx) as Hd2.
    eapply Emits_via; [|exact (wild_loop _ _ _ _ _ (IHv _ Hd2 Hc'))]. exists k. intros j r Hj. unfold_next G E.
    rewrite Hk by lia. cbn [pep479 obind].
    rewrite (Listed_unique _ _ _ Hv (iterate_weighted_Listed (env_lookup E path))).
    destruct (env_lookup E path); [congruence|reflexivity].
  - (* access *)
    intros c x def v ts Hr Hb _ IH d Hd Hc. destruct (IH _ (Same_inside x _ _ Hd) Hc) as (n & g & Hg & He).
    assert (Hcd : c_method d = Combinatorial) by (destruct Hd as (Hd & _); congruence).
    exists (S n), g. split; [|exact He]. intros [|k] Hk; [lia|]. cbn [mk].
    rewrite (chosen_comb _ _ Hcd) by now left. rewrite with_method_comb by assumption.
    rewrite (Refers_resolve _ _ _ _ (Same_Refers _ _ _ _ _ Hd Hr)). unfold for_sampling_variable.
    destruct (str_mem x (c_busy d)) eqn:Hx; [apply str_mem_In in Hx|].
    { destruct Hd as (_ & _ & _ & Hbusy & _). rewrite Hbusy in Hx. contradiction. }
    apply Hg. lia.
  - (* wrap *)
    intros c wrapper inner m ws is ts Hm _ IHw _ IHi Hts d Hd Hc.
    assert (Hcd : c_method d = Combinatorial) by (destruct Hd as (Hd & _); congruence).
    exists 1, (GCWrapStart d wrapper inner). split.
    { intros [|k] Hk; [lia|]. cbn [mk]. rewrite (chosen_comb _ _ Hcd Hm). now rewrite with_method_comb. }
    destruct (IHw _ Hd Hc) as (n & gw & Hg & He).
    eapply Emits_via with (g' := GCWrapLoop d inner gw None).
    { exists n. intros k r Hk. unfold_next G E. rewrite Hg by lia. reflexivity. }
    assert (Hw : ts = map (fun wi => as_wrapper (fst wi) (snd wi)) (list_prod ws is)).
    { eapply Forall2_map_fun; [|exact Hts]. cbn. intros a b (bf & af & Hcut & ->). now apply wrapped_fun. }
    rewrite Hw.
    rewrite <- flat_map_list_prod. apply wrap_loop; auto.
  - intros c stream whole d Hd Hc. constructor.
  - intros c stream whole tok toks ts ls He IH Hn _ IHs d Hd Hc.
    constructor; auto. eapply Enum_finite; eassumption.
  - intros c stream whole tok toks dd i ls Hf Hcy Ho Hi _ IHs d Hd Hc.
    apply GP_endless; auto. exact (proj1 (cyc_gives G E) _ _ _ Hcy _ Hd).
  - intros c d Hd Hc. exists []. split; [reflexivity|constructor].
  - intros c sel sels ars arrs Hs IH _ IHs d Hd Hc. destruct (IHs _ Hd Hc) as (arss & -> & H).
    exists (ars :: arss). split; [reflexivity|]. constructor; [|assumption].
    split; [auto|]. eapply EnumCombo_length; eassumption.
  - intros c d Hd Hc. apply cp_nil.
  - intros c v sel ts ars He IH _ IHs d Hd Hc. apply cp_finite; auto.
    apply finite_mark_in; [destruct Hd as (Hd & _); congruence|]. eapply Enum_finite; eassumption.
  - intros c v sel s ars Hf Hcy _ IHs d Hd Hc. apply cp_endless; auto. exact (proj1 (cyc_gives G E) _ _ _ Hcy _ Hd).
  - intros c p cmd ts us Hr _ IH Ht d Hd Hc.
    pose proof (proj1 (proj2 Hd)) as Hw.
    rewrite (Forall2_map_fun _ (fun t => if c_ignws c then squash_whitespace t else t) _ _
               (Tidy_fun (c_ignws c)) Ht).
    replace (map (fun t => if c_ignws c then squash_whitespace t else t) ts)
      with (if c_ignws d then map squash_whitespace ts else ts).
    + eapply prompt_gives; eauto.
    + rewrite Hw. destruct (c_ignws c); [reflexivity|]. now rewrite map_id.
  - intros c d Hd Hc. apply prompt_empty. now left.
  - intros c cmd Hn d Hd Hc. apply prompt_empty. right. eauto.
  - intros c d Hd Hc. constructor.
  - intros c p ps l ls _ IH _ IHs d Hd Hc. constructor; auto.
  - intros c d Hd Hc. constructor.
  - intros c v t ts need _ IH _ IHs d Hd Hc. constructor; [|auto]. cbn [fst snd]. eapply Gives_Firsts; eauto.
  - intros c v s need Hcy _ IHs d Hd Hc. constructor; [|auto]. cbn [fst snd]. apply SGives_Firsts.
    exact (proj1 (cyc_gives G E) _ _ _ Hcy _ Hd).
  - intros c w path rest _ IH d Hd Hc. eapply path_first; eauto.
  - intros c w path Hp d Hd Hc. exact (proj2 (proj2 (proj2 (proj2 (proj2 (cyc_gives G E))))) _ _ _ Hp _ Hd).
Qed.

Lemma enum_prompt : forall c p ts, c_method c = Combinatorial -> EnumPrompt E c p ts -> PGives G E c p ts.
Proof.
  intros c p ts Hc H. exact (proj1 (proj2 (proj2 (proj2 (proj2 enum_gives)))) _ _ _ H _ (Same_refl c) Hc).
Qed.

(** The whole run, whatever the random generator. *)
Lemma enum_run : forall c p ts, c_method c = Combinatorial -> EnumPrompt E c p ts ->
  exists f, forall m, f <= m -> exists g, sample_prompts E m c p None = MOk g /\
    forall n r, (length ts < n -> collect G E m n g r = (ts, EndStop, Some r)) /\
                (n <= length ts -> exists g', collect G E m n g r = (firstn n ts, EndLimit g', Some r)).
Proof.
  intros c p ts Hc H. destruct (enum_prompt c p ts Hc H) as (n & g & Hg & He).
  destruct (Emits_collect G E _ _ He) as (f & Hf). exists (Nat.max n f). intros m Hm.
  exists g. split; [apply Hg; lia|]. intros k r. apply Hf. lia.
Qed.
End Run.

(** * Sequences of finite parts *)
Lemma parts_const : forall (lists : list (list text)),
  map (fun ja => at_time (snd ja) (fst ja)) (numbered (product (map (map (fun t (_ : nat) => t)) lists))) = product lists.
Proof.
  intros lists.
  assert (Hp : product (map (map (fun t (_ : nat) => t)) lists) = map (map (fun t _ => t)) (product lists)).
  { induction lists as [|l lists IH]; [reflexivity|]. cbn [product map]. rewrite IH. clear IH.
    induction l as [|x l IH]; [reflexivity|]. cbn [flat_map map]. rewrite map_app, IH. f_equal.
    rewrite !map_map. reflexivity. }
  rewrite Hp. clear Hp. unfold numbered. generalize 0 as k. induction (product lists) as [|a l IH]; intros k; [reflexivity|].
  cbn [map length seq combine fst snd]. f_equal; [|apply IH]. unfold at_time. rewrite map_map. apply map_id.
Qed.

Lemma Enum_parts : forall E c stream whole tokens lists, EnumAll E c tokens lists ->
  Forall2 (fun tok l => mark_of tok = None -> l <> []) tokens lists ->
  TimedParts E c stream whole tokens (map (map (fun t _ => t)) lists).
Proof.
  intros E c stream whole tokens lists H. induction H as [|tok l tokens lists He _ IH]; intros Hn; cbn [map].
  - constructor.
  - inversion Hn; subst. constructor; auto.
Qed.

(** The product of the lists of the parts. *)
Lemma Enum_product : forall E c tokens sep m lists, finite_mark (Seq tokens sep m) ->
  Forall (fun tok => ~ is_assign tok) tokens -> EnumAll E c tokens lists ->
  Forall2 (fun tok l => mark_of tok = None -> l <> []) tokens lists ->
  Enum E c (Seq tokens sep m) (map (interleave sep) (product lists)).
Proof.
  intros E c tokens sep m lists Hm Ha Hl Hn. rewrite <- (parts_const lists), map_map.
  eapply En_seq with (stream := fun _ _ => []); [exact Hm|now apply Assigned_plain|constructor|apply Extends_nil|
    now apply Plain_plain|now apply Enum_parts].
Qed.

Lemma Enum_combo : forall E c sel lists, EnumAll E c sel lists -> EnumCombo E c sel (product lists).
Proof. intros E c sel lists H. induction H; cbn [product]; constructor; auto. Qed.

(** * Sequences with endless parts *)
Lemma numbered_tidy : forall b sep l k us, length us = length l ->
  (forall j arr, nth_error l j = Some arr ->
     exists u, nth_error us j = Some u /\ Tidy b (interleave sep (at_time arr (k + j))) u) ->
  Forall2 (Tidy b) (map (fun ja => interleave sep (at_time (snd ja) (fst ja))) (combine (seq k (length l)) l)) us.
Proof.
  intros b sep l. induction l as [|a l IH]; intros k [|u us] Hlen H; try discriminate; cbn [length seq combine map fst snd];
    constructor.
  - destruct (H 0 a eq_refl) as (u' & [= <-] & Hu). now rewrite Nat.add_0_r in Hu.
  - apply IH; [now injection Hlen|]. intros j arr Hj. destruct (H (S j) arr Hj) as (u' & Hu' & Hu).
    exists u'. split; [exact Hu'|]. now rewrite Nat.add_succ_comm.
Qed.

Lemma mixed_run : forall G E c c' stream, c_method c = Combinatorial ->
  forall tokens sep bs need toks ls us, tokens <> [] ->
  Assigned (scope_of c) tokens bs need -> EnumFirsts E c need -> Extends c bs c' -> Plain tokens toks ->
  TimedParts E c' stream toks toks ls -> length us = length (product ls) ->
  (forall j arr, nth_error (product ls) j = Some arr ->
     exists u, nth_error us j = Some u /\ Tidy (c_ignws c) (interleave sep (at_time arr j)) u) ->
  exists f, forall m, f <= m ->
    exists g, sample_prompts E m c (WCmd (Seq tokens sep None)) None = MOk g /\
    forall n r, (length us < n -> collect G E m n g r = (us, EndStop, Some r)) /\
      (n <= length us -> exists g', collect G E m n g r = (firstn n us, EndLimit g', Some r)).
Proof.
  intros G E c c' stream Hc tokens sep bs need toks ls us Hne Ha Hf Hx Hp Ht Hlen Hu.
  apply enum_run; [exact Hc|]. eapply EnP_reads.
  - constructor. split; [intros s m [=]; contradiction|discriminate].
  - eapply En_seq; eauto. now left.
  - now apply numbered_tidy.
Qed.

Lemma mixed_run_plain : forall G E c stream, c_method c = Combinatorial ->
  forall tokens sep ls us, tokens <> [] -> Forall (fun tok => ~ is_assign tok) tokens ->
  TimedParts E c stream tokens tokens ls -> length us = length (product ls) ->
  (forall j arr, nth_error (product ls) j = Some arr ->
     exists u, nth_error us j = Some u /\ Tidy (c_ignws c) (interleave sep (at_time arr j)) u) ->
  exists f, forall m, f <= m ->
    exists g, sample_prompts E m c (WCmd (Seq tokens sep None)) None = MOk g /\
    forall n r, (length us < n -> collect G E m n g r = (us, EndStop, Some r)) /\
      (n <= length us -> exists g', collect G E m n g r = (firstn n us, EndLimit g', Some r)).
Proof.
  intros G E c stream Hc tokens sep ls us Hne Ha Ht Hlen Hu.
  eapply mixed_run; eauto; [now apply Assigned_plain|constructor|apply Extends_nil|now apply Plain_plain].
Qed.
