(** Consequences of soundness for whole runs, and facts about single steps. *)
From Coq Require Import String NArith ZArith QArith Qcanon Bool Arith List Lia Permutation.
From Verif.Model Require Import Str Utils Command Rng Values Context Sampler.
From Verif.Spec Require Import Text Comb Items Lang.
From Verif.Proofs Require Import StrFacts UtilsFacts CommandFacts CombFacts RngFacts ValuesFacts DictFacts Soundness FuelFacts.
Import ListNotations.
Local Open Scope nat_scope.

Section Run.
Variable G : rng_impl.
Variable E : env.
Notation R := (rng_state G).
Notation collect := (collect G E).

Lemma next_ok : forall n nf g P V r, inv G E nf g P V -> post G (next G E n g r) (Step G E nf P) V.
Proof. intros n. apply next_sound. Qed.

Lemma collect_inv : forall f n nf g P V r ts e r', inv G E nf g P V ->
  collect f n g r = (ts, e, r') ->
  Forall P ts /\ (e = EndStop -> nf = true -> ts = []) /\
  (forall g', e = EndLimit g' -> exists V', inv G E nf g' P V').
Proof.
  intros f n. induction n as [|n IH]; intros nf g P V r ts e r' Hi H; cbn [Sampler.collect] in H.
  { injection H as <- <- <-. split; [constructor|]. split; [reflexivity|]. intros g' [= <-]. eauto. }
  pose proof (next_ok f nf g P V r Hi) as Hx.
  destruct (next G E f g r) as [[t g'] r1|r1|e1 r1|]; cbn in Hx.
  - destruct Hx as [Ht Hg]. cbn in Ht, Hg.
    destruct (collect f n g' r1) as [[ts1 e1] r2] eqn:Hc. injection H as <- <- <-.
    destruct (IH _ _ _ _ _ _ _ _ Hg Hc) as (Hf & Hs & Hl).
    split; [now constructor|]. split; [|exact Hl].
    intros -> ->. exfalso. pose proof (Hs eq_refl eq_refl) as ->.
    (* the continuation did not stop at once *)
    destruct n as [|n]; cbn [Sampler.collect] in Hc; [discriminate|].
    pose proof (next_ok f true g' P (true = false) r1 Hg) as Hy.
    destruct (next G E f g' r1) as [[t2 g2] r3|r3|e3 r3|]; cbn in Hy; try discriminate.
    destruct (collect f n g2 r3) as [[ts3 e3] r4]. discriminate.
  - injection H as <- <- <-. split; [constructor|]. split; [reflexivity|discriminate].
  - injection H as <- <- <-. split; [constructor|]. split; discriminate.
  - injection H as <- <- <-. split; [constructor|]. split; discriminate.
Qed.

Lemma inv_sample_prompts_nf : forall n c p g, sample_prompts E n c p None = MOk g ->
  is_nonfinite (c_method c) = true -> exists V, inv G E true g (Allowed E c p) V.
Proof.
  intros n c p g H Hm. unfold sample_prompts in H.
  destruct (match p with WStr [] => true | WStr _ => false | WCmd cmd => negb (truthy cmd) end) eqn:Hf.
  { injection H as <-. exists True. now constructor. }
  destruct (match p with WStr s => env_parse E s | WCmd cmd => Ok cmd end) as [cmd|] eqn:Hp; [|discriminate].
  pose proof (Reads_intro _ _ _ Hf Hp) as Hr.
  destruct (mk n c cmd) as [g0|e|] eqn:Hk; try discriminate.
  destruct (inv_mk G E _ _ _ _ Hk) as (nf & V & Hi & Hn).
  destruct Hn as [-> _]; [now apply chosen_nonfinite|].
  injection H as <-. exists V.
  pose proof (squash_Tidy (c_ignws c)) as Ht.
  destruct (c_ignws c) eqn:Hw.
  - econstructor; [exact Hi|auto|]. intros t Hpr. exists cmd, t. rewrite Hw. auto.
  - eapply inv_mono; [exact Hi| |auto]. intros t Hpr. exists cmd, t. rewrite Hw. auto.
Qed.

Lemma collect_length : forall f n g r ts e r', collect f n g r = (ts, e, r') ->
  length ts <= n /\ (forall g', e = EndLimit g' -> length ts = n).
Proof.
  intros f n. induction n as [|n IH]; intros g r ts e r' H; cbn [Sampler.collect] in H.
  { injection H as <- <- <-. cbn. auto. }
  destruct (next G E f g r) as [[t g'] r1|r1|e1 r1|].
  - destruct (collect f n g' r1) as [[ts1 e1] r2] eqn:Hc. injection H as <- <- <-.
    destruct (IH _ _ _ _ _ Hc) as [Hl He]. cbn. split; [lia|]. intros g0 Hg0. f_equal. eauto.
  - injection H as <- <- <-. cbn. split; [lia|discriminate].
  - injection H as <- <- <-. cbn. split; [lia|discriminate].
  - injection H as <- <- <-. cbn. split; [lia|discriminate].
Qed.

(** A longer request starts with the shorter one. *)
Lemma collect_split : forall f n m g r ts e r', collect f n g r = (ts, e, r') ->
  collect f (n + m) g r =
    match e, r' with
    | EndLimit g', Some r1 => let '(us, e', r2) := collect f m g' r1 in (ts ++ us, e', r2)
    | _, _ => (ts, e, r')
    end.
Proof.
  intros f n m. induction n as [|n IH]; intros g r ts e r' H; cbn [Sampler.collect Nat.add] in *.
  { injection H as <- <- <-. destruct (collect f m g r) as [[us e'] r2]. reflexivity. }
  destruct (next G E f g r) as [[t g'] r1|r1|e1 r1|].
  - destruct (collect f n g' r1) as [[ts1 e1] r2] eqn:Hc. injection H as <- <- <-.
    rewrite (IH _ _ _ _ _ Hc). destruct e1; try reflexivity. destruct r2; [|reflexivity].
    destruct (collect f m g0 r0) as [[us e'] r3]. reflexivity.
  - injection H as <- <- <-. reflexivity.
  - injection H as <- <- <-. reflexivity.
  - injection H as <- <- <-. reflexivity.
Qed.

Lemma collect_limit_state : forall f n g r ts g' r', collect f n g r = (ts, EndLimit g', r') ->
  exists r1, r' = Some r1.
Proof.
  intros f n. induction n as [|n IH]; intros g r ts g' r' H; cbn [Sampler.collect] in H.
  { injection H as <- <- <-. eauto. }
  destruct (next G E f g r) as [[t g1] r1|r1|e1 r1|]; try discriminate.
  destruct (collect f n g1 r1) as [[ts1 e1] r2] eqn:Hc. injection H as <- -> <-. eauto.
Qed.

(** [islice]. *)
Lemma collect_slice : forall f n k g r ts e r', collect f (Nat.min n k) g r = (ts, e, r') ->
  collect (S f) n (GSlice k g) r =
    match e with
    | EndLimit g' => (ts, if Nat.leb n k then EndLimit (GSlice (k - n) g') else EndStop, r')
    | _ => (ts, e, r')
    end.
Proof.
  intros f n. induction n as [|n IH]; intros k g r ts e r' H.
  { cbn in H. injection H as <- <- <-. cbn. now rewrite Nat.sub_0_r. }
  destruct k as [|k].
  { cbn in H. injection H as <- <- <-. reflexivity. }
  cbn [Nat.min Sampler.collect] in H. cbn [Sampler.collect]. unfold_next G E.
  destruct (next G E f g r) as [[t g'] r1|r1|e1 r1|]; cbn [obind].
  - destruct (collect f (Nat.min n k) g' r1) as [[ts1 e1] r2] eqn:Hc. injection H as <- <- <-.
    fold (collect (S f) n (GSlice k g') r1).
    rewrite (IH _ _ _ _ _ _ Hc). destruct e1; reflexivity.
  - injection H as <- <- <-. reflexivity.
  - injection H as <- <- <-. reflexivity.
  - injection H as <- <- <-. reflexivity.
Qed.

Lemma with_method_same : forall c, with_method (c_method c) c = c.
Proof. intros []. reflexivity. Qed.

Lemma with_method_twice : forall m m' c, with_method m (with_method m' c) = with_method m c.
Proof. reflexivity. Qed.

Lemma mk_resolved : forall n c cmd,
  mk n c cmd = mk n (with_method (resolve (c_method c) (mark_of cmd)) c) (with_mark cmd None).
Proof.
  intros [|n] c cmd; [reflexivity|]. cbn [mk]. rewrite chosen_method_resolve.
  assert (H : chosen_method (with_method (resolve (c_method c) (mark_of cmd)) c) (with_mark cmd None)
    = resolve (c_method c) (mark_of cmd)).
  { rewrite chosen_method_resolve. destruct cmd; reflexivity. }
  rewrite H. destruct cmd; reflexivity.
Qed.

(** Accesses. *)
Lemma Refers_resolve : forall c x d v, Refers (scope_of c) x d v -> resolve_access c x d = Some v.
Proof.
  intros c x d v H. unfold resolve_access.
  destruct H as [v Hv Hn|v Hv Hd Hn|v u Hv Hn Hu|u Hv Hn Hu]; cbn in Hv; rewrite Hv.
  - apply truthy_Nonempty in Hn. now rewrite Hn.
  - subst d. apply truthy_Nonempty in Hn. now rewrite Hn.
  - rewrite <- truthy_Nonempty in Hn. apply not_true_is_false in Hn. now rewrite Hn.
  - destruct d as [v|]; [|assumption]. specialize (Hn v eq_refl).
    rewrite <- truthy_Nonempty in Hn. apply not_true_is_false in Hn. now rewrite Hn.
Qed.

Lemma Refers_dec : forall c x d, (exists v, Refers (scope_of c) x d v) \/
  (resolve_access c x d = None /\ forall v, ~ Refers (scope_of c) x d v).
Proof.
  intros c x d. destruct (resolve_access c x d) as [v|] eqn:H.
  - left. exists v. now apply resolve_access_Refers.
  - right. split; [reflexivity|]. intros v Hv. apply Refers_resolve in Hv. congruence.
Qed.

(** Termination of accesses. *)
Fixpoint chain (cmd : command) : list str :=
  match cmd with
  | Access x (Some d) => x :: chain d
  | Access x None => [x]
  | _ => []
  end.

Definition universe (c : ctx) (cmd : command) : list str :=
  chain cmd ++ flat_map (fun kv => chain (snd kv)) (c_vars c)
  ++ match c_unknown c with Some u => chain u | None => [] end.

Definition room (c : ctx) (U : list str) : nat :=
  length (filter (fun x => negb (str_mem x (c_busy c))) (nodup (list_eq_dec N.eq_dec) U)).

Lemma filter_lt : forall {A} (f g : A -> bool) l x, In x l ->
  (forall y, g y = true -> f y = true) -> f x = true -> g x = false ->
  length (filter g l) < length (filter f l).
Proof.
  intros A f g l. induction l as [|y l IH]; intros x Hx Hfg Hf Hg; [contradiction|].
  assert (Hle : length (filter g l) <= length (filter f l)).
  { clear - Hfg. induction l as [|z l IH]; cbn; [lia|].
    destruct (g z) eqn:Hz; [rewrite (Hfg z Hz); cbn; lia|]. destruct (f z); cbn; lia. }
  cbn. destruct Hx as [<-|Hx].
  - rewrite Hf, Hg. cbn. lia.
  - specialize (IH x Hx Hfg Hf Hg). destruct (g y) eqn:Hy; [rewrite (Hfg y Hy); cbn; lia|].
    destruct (f y); cbn; lia.
Qed.

Lemma mk_terminates_aux : forall k n U c cmd, incl (universe c cmd) U -> room c U <= k ->
  S k <= n -> mk n c cmd <> MFuel.
Proof.
  induction k as [k IH] using lt_wf_ind. intros n U c cmd Hu Hr Hn.
  destruct n as [|n]; [lia|]. cbn [mk].
  destruct cmd; try discriminate; try (destruct (chosen_method c _); discriminate).
  set (c1 := with_method (chosen_method c (Access name default)) c).
  destruct (resolve_access c1 name default) as [v|] eqn:Hv; [|discriminate].
  destruct (for_sampling_variable name c1) as [c2|] eqn:Hf; [|discriminate].
  unfold for_sampling_variable in Hf. destruct (str_mem name (c_busy c1)) eqn:Hb; [discriminate|].
  injection Hf as <-. cbn [c1 with_method c_method c_ignws c_vars c_unknown c_busy] in *.
  set (c2 := {| c_method := _ |}).
  assert (Hin : In name U).
  { apply Hu. unfold universe. apply in_app_iff. left. destruct default; now left. }
  assert (Hlt : room c2 U < room c U).
  { unfold room. apply filter_lt with (x := name).
    - now apply nodup_In.
    - intros y. cbn [c2 c_busy]. cbn [str_mem existsb]. unfold str_mem. cbn [existsb].
      destruct (str_eqb y name); cbn; [discriminate|auto].
    - now rewrite Hb.
    - cbn [c2 c_busy]. unfold str_mem. cbn [existsb]. now rewrite str_eqb_refl. }
  assert (Hv' : incl (chain v) (universe c (Access name default))).
  { intros y Hy. unfold resolve_access in Hv. cbn [c1 with_method c_vars c_unknown] in Hv.
    unfold universe.
    assert (Hunk : c_unknown c = Some v -> In y (chain (Access name default) ++
       flat_map (fun kv => chain (snd kv)) (c_vars c) ++
       match c_unknown c with Some u => chain u | None => [] end)).
    { intros He. rewrite He. apply in_app_iff. right. apply in_app_iff. now right. }
    destruct (dict_get name (c_vars c)) as [v0|] eqn:Hd.
    - destruct (truthy v0); [|auto]. injection Hv as ->.
      apply in_app_iff. right. apply in_app_iff. left. apply in_flat_map.
      exists (name, v). split; [now apply dict_get_In|assumption].
    - destruct default as [v0|]; [|auto].
      destruct (truthy v0); [|auto]. injection Hv as ->.
      apply in_app_iff. left. right. assumption. }
  eapply (IH (room c2 U)) with (U := U); [lia| |lia|lia].
  intros y Hy. unfold universe in Hy. cbn [c2 c_vars c_unknown] in Hy.
  apply in_app_iff in Hy. destruct Hy as [Hy|Hy].
  - apply Hu, Hv', Hy.
  - apply Hu. unfold universe. apply in_app_iff. now right.
Qed.

Lemma mk_terminates : forall c cmd, exists n0, forall n, n0 <= n -> mk n c cmd <> MFuel.
Proof.
  intros c cmd. exists (S (room c (universe c cmd))). intros n Hn.
  eapply mk_terminates_aux; [apply incl_refl|reflexivity|assumption].
Qed.

Lemma le_mk_eq : forall n m c cmd, n <= m -> mk n c cmd <> MFuel -> mk m c cmd = mk n c cmd.
Proof. intros n m c cmd H Hf. destruct (le_mk n m c cmd H) as [Hx| Hx]; congruence. Qed.

Lemma next_more : forall n m g r, n <= m -> next G E n g r <> OFuel -> next G E m g r = next G E n g r.
Proof.
  intros n m g r H Hf. destruct (next_fuel G E n m H) as [Hx _].
  destruct (Hx g r); congruence.
Qed.

Lemma collect_more : forall n m k g r ts e r', n <= m -> collect n k g r = (ts, e, r') ->
  e <> EndFuel -> collect m k g r = (ts, e, r').
Proof.
  intros n m k g r ts e r' Hnm. revert g r ts e r'.
  induction k as [|k IH]; intros g r ts e r' H He; cbn [Sampler.collect] in *; [exact H|].
  assert (Hn : next G E n g r <> OFuel).
  { intros Hx. rewrite Hx in H. injection H as <- <- <-. congruence. }
  rewrite (next_more _ _ _ _ Hnm Hn).
  destruct (next G E n g r) as [[t g'] r1|r1|e1 r1|]; try exact H.
  destruct (collect n k g' r1) as [[ts1 e1] r2] eqn:Hc. injection H as <- <- <-.
  now rewrite (IH _ _ _ _ _ Hc He).
Qed.
End Run.

Section Limit.
Variable G : rng_impl.
Variable E : env.

Lemma sample_limit : forall f c p k g, sample_prompts E f c p (Some k) = MOk g ->
  exists g0, sample_prompts E f c p None = MOk g0 /\
    forall f' n r ts e r', collect G E f' (Nat.min n k) g0 r = (ts, e, r') -> e <> EndFuel ->
      exists e', collect G E (S f') n g r = (ts, e', r').
Proof.
  intros f c p k g H. unfold sample_prompts in *.
  destruct (match p with WStr [] => true | WStr _ => false | WCmd cmd => negb (truthy cmd) end).
  { injection H as <-. exists GDone. split; [reflexivity|].
    intros f' n r ts e r' Hc He. destruct n as [|n].
    - cbn in Hc. injection Hc as <- <- <-. cbn. eauto.
    - destruct k as [|k].
      + cbn in Hc. injection Hc as <- <- <-. cbn. eauto.
      + cbn [Nat.min collect] in Hc. destruct f' as [|f']; [injection Hc as <- <- <-; congruence|].
        cbn in Hc. injection Hc as <- <- <-. cbn. eauto. }
  destruct (match p with WStr s => env_parse E s | WCmd cmd => Ok cmd end) as [cmd|]; [|discriminate].
  destruct (mk f c cmd) as [g0|e|]; try discriminate. injection H as <-.
  eexists. split; [reflexivity|]. intros f' n r ts e r' Hc He.
  rewrite (collect_slice _ _ _ _ _ _ _ _ _ _ Hc). destruct e; eauto.
Qed.

Lemma collect_prefix : forall f n m g r ts e r' us e' r'', n <= m ->
  collect G E f n g r = (ts, e, r') -> collect G E f m g r = (us, e', r'') ->
  exists vs, us = ts ++ vs.
Proof.
  intros f n m g r ts e r' us e' r'' Hnm H1 H2.
  replace m with (n + (m - n)) in H2 by lia.
  rewrite (collect_split _ _ _ _ _ _ _ _ _ _ H1) in H2.
  destruct e; try (injection H2 as <- <- <-; exists []; now rewrite app_nil_r).
  destruct r' as [r1|]; [|injection H2 as <- <- <-; exists []; now rewrite app_nil_r].
  destruct (collect G E f (m - n) g0 r1) as [[vs e1] r2]. injection H2 as <- <- <-. eauto.
Qed.
End Limit.
