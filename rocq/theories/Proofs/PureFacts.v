(** Combinatorial runs of templates without random or cyclical parts do not
    use the random generator. *)
From Coq Require Import String NArith ZArith QArith Qcanon Bool Arith List Permutation Lia.
From Verif.Model Require Import Str Utils Command Rng Values Context Sampler.
From Verif.Spec Require Import Text Comb Items Lang Enum.
From Verif.Proofs Require Import StrFacts UtilsFacts CommandFacts CombFacts ValuesFacts DictFacts
  Soundness FuelFacts RunFacts EnumFacts.
Import ListNotations.
Local Open Scope nat_scope.

Section Pure.
Variable G : rng_impl.
Variable E : env.
Notation R := (rng_state G).
Notation D := (Deterministic E).
Hypothesis Henv : DetEnv E.

(** Outcome without a random state. *)
Inductive outcome (A : Type) := VVal (a : A) | VStop | VRaise (e : exn) | VFuel.
Arguments VVal {A}. Arguments VStop {A}. Arguments VRaise {A}. Arguments VFuel {A}.
Definition at_ {A} (o : outcome A) (r : R) : ores G A :=
  match o with VVal a => OVal a r | VStop => OStop r | VRaise e => ORaise e r | VFuel => OFuel end.

Definition Indep {A} (f : R -> ores G A) (Q : A -> Prop) : Prop :=
  exists o, (forall r, f r = at_ o r) /\ (forall a, o = VVal a -> Q a).

Lemma Indep_ext : forall A (f f' : R -> ores G A) Q, (forall r, f r = f' r) -> Indep f' Q -> Indep f Q.
Proof. intros A f f' Q H (o & Ho & Hq). exists o. split; [|assumption]. intros r. now rewrite H. Qed.

Lemma Indep_val : forall A (a : A) (Q : A -> Prop), Q a -> Indep (fun r => OVal a r) Q.
Proof. intros A a Q H. exists (VVal a). split; [reflexivity|]. intros b [= <-]. assumption. Qed.
Lemma Indep_stop : forall A (Q : A -> Prop), Indep (fun r => OStop r) Q.
Proof. intros A Q. exists VStop. split; [reflexivity|discriminate]. Qed.
Lemma Indep_raise : forall A e (Q : A -> Prop), Indep (fun r => ORaise e r) Q.
Proof. intros A e Q. exists (VRaise e). split; [reflexivity|discriminate]. Qed.
Lemma Indep_fuel : forall A (Q : A -> Prop), Indep (fun r => OFuel) Q.
Proof. intros A Q. exists VFuel. split; [reflexivity|discriminate]. Qed.

Lemma Indep_bind : forall A B (f : R -> ores G A) (k : A -> R -> ores G B) Q1 Q,
  Indep f Q1 -> (forall a, Q1 a -> Indep (k a) Q) -> Indep (fun r => obind G (f r) k) Q.
Proof.
  intros A B f k Q1 Q (o & Ho & Hq) Hk. destruct o as [a| |e|].
  - destruct (Hk a (Hq a eq_refl)) as (o' & Ho' & Hq'). exists o'. split; [|assumption].
    intros r. rewrite Ho. cbn. apply Ho'.
  - exists VStop. split; [|discriminate]. intros r. now rewrite Ho.
  - exists (VRaise e). split; [|discriminate]. intros r. now rewrite Ho.
  - exists VFuel. split; [|discriminate]. intros r. now rewrite Ho.
Qed.

Lemma Indep_pep : forall A (f : R -> ores G A) Q, Indep f Q -> Indep (fun r => pep479 G (f r)) Q.
Proof.
  intros A f Q (o & Ho & Hq). destruct o as [a| |e|].
  - exists (VVal a). split; [|assumption]. intros r. now rewrite Ho.
  - exists (VRaise ERuntime). split; [|discriminate]. intros r. now rewrite Ho.
  - exists (VRaise e). split; [|discriminate]. intros r. now rewrite Ho.
  - exists VFuel. split; [|discriminate]. intros r. now rewrite Ho.
Qed.

Lemma Indep_mk : forall x (Q : gen -> Prop), (forall g, x = MOk g -> Q g) ->
  Indep (fun r => lift_mk G x r) Q.
Proof.
  intros x Q H. destruct x as [g|e|].
  - apply Indep_val. auto.
  - apply Indep_raise.
  - apply Indep_fuel.
Qed.

(** A branch on all outcomes. *)
Lemma Indep_case : forall A B (f : R -> ores G A) (k : A -> R -> ores G B) (s : R -> ores G B) Q1 Q,
  Indep f Q1 -> (forall a, Q1 a -> Indep (k a) Q) -> Indep s Q ->
  Indep (fun r => match f r with
                  | OVal a r => k a r | OStop r => s r | ORaise e r => ORaise e r | OFuel => OFuel end) Q.
Proof.
  intros A B f k s Q1 Q (o & Ho & Hq) Hk Hs. destruct o as [a| |e|].
  - destruct (Hk a (Hq a eq_refl)) as (o' & Ho' & Hq'). exists o'. split; [|assumption].
    intros r. rewrite Ho. cbn. apply Ho'.
  - destruct Hs as (o' & Ho' & Hq'). exists o'. split; [|assumption]. intros r. rewrite Ho. cbn. apply Ho'.
  - exists (VRaise e). split; [|discriminate]. intros r. now rewrite Ho.
  - exists VFuel. split; [|discriminate]. intros r. now rewrite Ho.
Qed.

(** Generators that occur in such runs. *)
Inductive pure : gen -> Prop :=
| pu_done : pure GDone
| pu_repeat : forall t, pure (GRepeat t)
| pu_once : forall t, pure (GOnce t)
| pu_seq : forall c tokens sep, DetCtx E c -> Forall D tokens -> pure (GCSeqStart c tokens sep)
| pu_seql : forall c sep coll cs, DetCtx E c -> Forall (fun x => pure (snd (fst x))) coll -> pure_cs cs ->
    pure (GCSeqLoop c sep coll cs)
| pu_var : forall c opts lo hi sep, DetCtx E c -> Forall (fun o => D (fst o)) opts ->
    pure (GCVarStart c opts lo hi sep)
| pu_varl : forall c sep todo seen, DetCtx E c -> Forall (fun bc => Forall D (snd bc)) todo ->
    pure (GCVarLoop c sep todo None seen)
| pu_varl' : forall c sep todo b st seen, DetCtx E c -> Forall (fun bc => Forall D (snd bc)) todo ->
    pure_cp st -> pure (GCVarLoop c sep todo (Some (b, st)) seen)
| pu_wild : forall c w m vars, DetCtx E c -> D (Wild w m vars) -> pure (GCWildStart c w vars)
| pu_wildl : forall c vals, DetCtx E c ->
    Forall (fun v => forall cmd, env_parse E v = Ok cmd -> D cmd) vals -> pure (GCWildLoop c vals None)
| pu_wildl' : forall c vals g, DetCtx E c ->
    Forall (fun v => forall cmd, env_parse E v = Ok cmd -> D cmd) vals -> pure g ->
    pure (GCWildLoop c vals (Some g))
| pu_wrap : forall c w i, DetCtx E c -> D w -> D i -> pure (GCWrapStart c w i)
| pu_wrapl : forall c i gw, DetCtx E c -> D i -> pure gw -> pure (GCWrapLoop c i gw None)
| pu_wrapl' : forall c i gw t g, DetCtx E c -> D i -> pure gw -> pure g ->
    pure (GCWrapLoop c i gw (Some (t, g)))
| pu_fallback : forall c w m vars, DetCtx E c -> D (Wild w m vars) -> pure (GFallback c w)
| pu_squash : forall g, pure g -> pure (GSquash g)
| pu_slice : forall n g, pure g -> pure (GSlice n g)
with pure_cs : cseq -> Prop :=
| pcs_start : forall cmds, Forall D cmds -> pure_cs (CSStart cmds)
| pcs_fin : forall g cmds, pure g -> Forall D cmds -> pure_cs (CSFin g cmds)
| pcs_fin2 : forall g cmds t cs, pure g -> Forall D cmds -> pure_cs cs -> pure_cs (CSFin2 g cmds t cs)
| pcs_done : pure_cs CSDone
with pure_cp : cp -> Prop :=
| pcp_start : forall cmds, Forall D cmds -> pure_cp (CPStart cmds)
| pcp_fin : forall g cmds, pure g -> Forall D cmds -> pure_cp (CPFin g cmds)
| pcp_fin2 : forall g cmds t st, pure g -> Forall D cmds -> pure_cp st -> pure_cp (CPFin2 g cmds t st)
| pcp_done : pure_cp CPDone.

Lemma D_finite : forall cmd, D cmd -> finite_mark cmd.
Proof. intros cmd H. destruct H; try assumption; now left. Qed.

Lemma pure_mk : forall n c cmd g, DetCtx E c -> D cmd -> mk n c cmd = MOk g -> pure g.
Proof.
  induction n as [|n IH]; intros c cmd g Hc Hd H; [discriminate|]. cbn [mk] in H.
  rewrite (chosen_comb _ _ (proj1 Hc) (D_finite _ Hd)), with_method_comb in H by exact (proj1 Hc).
  destruct Hd; try (injection H as <-; econstructor; eauto; fail); try discriminate.
  - injection H as <-. econstructor; eauto. constructor; eauto.
  - destruct (resolve_access c x d) as [v|] eqn:Hr; [|discriminate].
    destruct (for_sampling_variable x c) as [c'|] eqn:Hf; [|discriminate].
    eapply (IH c' v); [| |exact H].
    + unfold for_sampling_variable in Hf. destruct (str_mem x (c_busy c)); [discriminate|].
      injection Hf as <-. exact Hc.
    + unfold resolve_access in Hr. destruct Hc as (_ & Hv & Hu).
      destruct (dict_get x (c_vars c)) as [v'|] eqn:Hg.
      * destruct (truthy v'); [|auto]. injection Hr as <-.
        apply dict_get_In in Hg. rewrite Forall_forall in Hv. exact (Hv _ Hg).
      * destruct d as [d|]; [|auto]. destruct (truthy d); [injection Hr as <-|]; auto.
Qed.

Definition Dp (p : wpath) : Prop :=
  (forall cmd, p = WCmd cmd -> D cmd) /\ (forall s cmd, p = WStr s -> env_parse E s = Ok cmd -> D cmd).

Lemma pure_prompts : forall n c p limit g, DetCtx E c -> Dp p ->
  sample_prompts E n c p limit = MOk g -> pure g.
Proof.
  intros n c p limit g Hc [Hp1 Hp2] H. unfold sample_prompts in H.
  destruct (match p with WStr [] => true | WStr _ => false | WCmd cmd => negb (truthy cmd) end);
    [injection H as <-; constructor|].
  destruct (match p with WStr s => env_parse E s | WCmd cmd => Ok cmd end) as [cmd|] eqn:Hcmd; [|discriminate].
  assert (Hd : D cmd) by (destruct p; [eapply Hp2; eauto|injection Hcmd as <-; auto]).
  destruct (mk n c cmd) as [g0| |] eqn:Hm; try discriminate. injection H as <-.
  apply pure_mk in Hm; auto. destruct limit, (c_ignws c); repeat constructor; assumption.
Qed.

Lemma dict_set_Forall : forall (P : command -> Prop) k v d, P v ->
  Forall (fun kv => P (snd kv)) d -> Forall (fun kv => P (snd kv)) (dict_set k v d).
Proof.
  intros P k v d Hv Hd. induction Hd as [|[k' v'] d Hv' Hd IHd]; cbn; [constructor; auto|].
  destruct (str_eqb k k'); [constructor; auto|]. destruct (str_leb k k'); repeat (constructor; auto).
Qed.

Lemma with_variables_Det : forall c vars, DetCtx E c -> Forall (fun kv => D (snd kv)) vars ->
  DetCtx E (with_variables vars c).
Proof.
  intros c vars (H1 & H2 & H3) Hv. unfold with_variables. destruct vars as [|kv vars]; [repeat split; auto|].
  split; [assumption|]. split; [|assumption]. cbn [c_vars]. unfold dict_update.
  revert Hv H2. generalize (kv :: vars) as l. generalize (c_vars c) as d. clear.
  intros d l. revert d. induction l as [|[k v] l IH]; intros d Hl Hd; cbn; [assumption|].
  inversion Hl; subst. apply IH; [assumption|]. now apply dict_set_Forall.
Qed.

Section Step.
Variable n : nat.
Notation nx := (next G E n).
Definition PStep (x : str * gen) : Prop := pure (snd x).
Hypothesis Hnx : forall g, pure g -> Indep (nx g) PStep.

Lemma pure_first : forall x, (forall g, x = MOk g -> pure g) ->
  Indep (first_of G nx n x) (fun _ => True).
Proof.
  intros x H. unfold first_of. eapply Indep_bind; [apply Indep_mk; exact H|].
  intros g Hg. eapply Indep_bind; [apply Hnx, Hg|]. intros [t g'] _. now apply Indep_val.
Qed.

Lemma pure_path : forall c w, DetCtx E c -> Dp w -> Indep (sample_path G E nx n c w) (fun _ => True).
Proof. intros c w Hc Hw. apply pure_first. intros g Hg. eapply pure_prompts; eassumption. Qed.

Lemma pure_mk_all : forall c cmds, DetCtx E c -> Forall D cmds ->
  Indep (mk_all G n c cmds) (Forall pure).
Proof.
  intros c cmds Hc H. induction H as [|cmd cmds Hd _ IH]; cbn [mk_all].
  - apply Indep_val. constructor.
  - eapply Indep_bind; [apply Indep_mk; intros g Hg; exact (pure_mk _ _ _ _ Hc Hd Hg)|].
    intros g Hg. eapply Indep_bind; [exact IH|]. intros gs Hgs. apply Indep_val. now constructor.
Qed.

Lemma pure_assign : forall c x v imm ovr, DetCtx E c -> D v ->
  Indep (process_variable_assignment G nx n c x v imm ovr) D.
Proof.
  intros c x v imm ovr Hc Hv. unfold process_variable_assignment.
  destruct (if ovr then None else dict_get x (c_vars c)) as [v0|] eqn:H0.
  - apply Indep_val. destruct ovr; [discriminate|]. apply dict_get_In in H0.
    destruct Hc as (_ & Hvs & _). rewrite Forall_forall in Hvs. exact (Hvs _ H0).
  - destruct imm; [|now apply Indep_val].
    assert (Hg : Indep (fun r => obind G (first_of G nx n (mk n c v) r) (fun t r => OVal (Lit t None) r)) D).
    { eapply Indep_bind; [apply pure_first; intros g Hg; exact (pure_mk _ _ _ _ Hc Hv Hg)|].
      intros t _. apply Indep_val. constructor. now left. }
    destruct v; try exact Hg. now apply Indep_val.
Qed.

Lemma pure_assigns : forall c cmds nv, DetCtx E c -> Forall D cmds -> Forall (fun kv => D (snd kv)) nv ->
  Indep (assignments_loop G nx n c cmds nv)
    (fun x => Forall D (fst x) /\ Forall (fun kv => D (snd kv)) (snd x)).
Proof.
  intros c cmds nv Hc H. revert nv. induction H as [|cmd cmds Hd Hds IH]; intros nv Hnv.
  - apply Indep_val. split; [constructor|assumption].
  - assert (Hother : Indep (fun r => obind G (assignments_loop G nx n c cmds nv r)
                 (fun '(rest, vs) r => OVal (cmd :: rest, vs) r))
               (fun x => Forall D (fst x) /\ Forall (fun kv => D (snd kv)) (snd x))).
    { eapply Indep_bind; [apply IH; assumption|]. intros [rest vs] [H1 H2]. apply Indep_val.
      split; [constructor|]; assumption. }
    destruct cmd; try exact Hother. clear Hother. cbn [assignments_loop].
    inversion Hd; subst. eapply Indep_bind; [apply pure_assign; eassumption|].
    intros v Hv. apply IH. now apply dict_set_Forall.
Qed.

Lemma pure_assignments : forall c cmds, DetCtx E c -> Forall D cmds ->
  Indep (process_variable_assignments G nx n c cmds) (fun x => Forall D (fst x) /\ DetCtx E (snd x)).
Proof.
  intros c cmds Hc H. unfold process_variable_assignments.
  eapply Indep_bind; [apply pure_assigns; auto; constructor|]. intros [rest vs] [H1 H2].
  apply Indep_val. split; [assumption|]. now apply with_variables_Det.
Qed.

Lemma pure_advance : forall gens, Forall pure gens ->
  Indep (advance_all G nx gens) (Forall (fun x => pure (fst x))).
Proof.
  intros gens H. induction H as [|g gens Hg _ IH]; cbn [advance_all].
  - apply Indep_val. constructor.
  - eapply Indep_bind; [apply Hnx, Hg|]. intros [t g'] Hg'. eapply Indep_bind; [exact IH|].
    intros rest Hr. apply Indep_val. now constructor.
Qed.

Lemma pure_collection : forall c cmds, DetCtx E c -> Forall D cmds ->
  Indep (new_collection G nx n c cmds) (Forall (fun x => pure (snd (fst x)))).
Proof.
  intros c cmds Hc H. unfold new_collection. eapply Indep_bind; [apply pure_mk_all; assumption|].
  intros gens Hg. eapply Indep_bind; [apply pure_advance, Hg|]. intros gvs Hgv. apply Indep_val.
  clear -Hgv. revert cmds. induction Hgv as [|x gvs Hx _ IH]; intros [|cmd cmds]; cbn; constructor; auto.
Qed.

Lemma listed_values : forall path v cmd, In v (iterate_weighted (env_lookup E path)) ->
  env_parse E v = Ok cmd -> D cmd.
Proof.
  intros path v cmd Hin Hp. apply iterate_weighted_In in Hin.
  destruct Hin as (i & Hi & <- & _). eapply Henv; eassumption.
Qed.

Lemma pure_to_variant : forall c w lo hi, DetCtx E c -> Dp w ->
  Indep (wildcard_to_variant G E nx n c w lo hi) (fun x => Forall (fun o => D (fst o)) (fst x)).
Proof.
  intros c w lo hi Hc Hw. unfold wildcard_to_variant. eapply Indep_bind; [apply pure_path; assumption|].
  intros path _. cbn zeta.
  destruct (parse_all E (iterate_weighted (env_lookup E path))) as [cmds|e] eqn:Hp; [|apply Indep_raise].
  apply Indep_val. cbn [fst]. apply Forall_forall. intros o Ho. apply in_map_iff in Ho.
  destruct Ho as (cmd & <- & Hcmd). cbn. apply parse_all_ok in Hp.
  assert (Hv : exists v, In v (iterate_weighted (env_lookup E path)) /\ env_parse E v = Ok cmd).
  { clear -Hp Hcmd. induction Hp as [|v cm vs cms H _ IH]; [destruct Hcmd|].
    destruct Hcmd as [->|Hcmd]; [exists v; split; [now left|assumption]|].
    destruct (IH Hcmd) as (v' & H1 & H2). exists v'. split; [now right|assumption]. }
  destruct Hv as (v & Hv & Hpv). eapply listed_values; eassumption.
Qed.
End Step.

Lemma combos_D : forall opts lo hi, Forall (fun o => D (fst o)) opts ->
  Forall (fun bc => Forall D (snd bc)) (bound_combos opts lo hi).
Proof.
  intros opts lo hi H. apply Forall_forall. intros [b combo] Hin. cbn.
  destruct (bound_combos_In _ _ _ _ _ Hin) as (_ & _ & Hi & _). apply Forall_forall. intros cmd Hc.
  apply Hi in Hc. apply in_map_iff in Hc. destruct Hc as (o & <- & Ho).
  rewrite Forall_forall in H. auto.
Qed.

Lemma non_combo_D : forall tokens, Forall D tokens -> Forall D (non_combo tokens).
Proof. intros tokens H. unfold non_combo. apply Forall_forall. intros x Hx. apply filter_In in Hx.
  rewrite Forall_forall in H. now apply H. Qed.

Lemma augmented_D : forall tokens, Forall D tokens -> Forall D (augmented tokens).
Proof.
  intros tokens H. assert (Hl : D (Lit [] (Some Combinatorial))) by (constructor; now right).
  unfold augmented. constructor; [exact Hl|]. apply Forall_app. split; [assumption|]. now constructor.
Qed.

Lemma D_wild_path : forall w m vars, D (Wild w m vars) -> Dp w /\ Forall (fun kv => D (snd kv)) vars.
Proof. intros w m vars H. inversion H; subst. split; [split|]; assumption. Qed.

Theorem next_pure : forall n,
  (forall g, pure g -> Indep (next G E n g) PStep) /\
  (forall c coll cs, DetCtx E c -> Forall (fun x => pure (snd (fst x))) coll -> pure_cs cs ->
     Indep (next_cs G E n c coll cs)
       (fun x => Forall (fun y => pure (snd (fst y))) (snd x) /\
                 forall a cs', fst x = Some (a, cs') -> pure_cs cs')) /\
  (forall c st, DetCtx E c -> pure_cp st -> Indep (next_cp G E n c st) (fun x => pure_cp (snd x))).
Proof.
  induction n as [|n (IHg & IHcs & IHcp)]; [repeat split; intros; apply Indep_fuel|]. split; [|split].
  - intros g Hg. destruct Hg; unfold_next G E.
    + apply Indep_stop.
    + apply Indep_val. constructor.
    + apply Indep_val. constructor.
    + (* GCSeqStart *)
      eapply Indep_bind.
      * apply Indep_pep. eapply Indep_bind; [apply pure_assignments; eassumption|].
        intros [tokens' c'] [K1 K2]. cbn [fst snd] in *.
        eapply Indep_bind; [apply pure_collection; [assumption|exact K2|apply non_combo_D; exact K1]|].
        intros coll Hcoll. apply Indep_val with (Q := fun x => Forall (fun y => pure (snd (fst y))) (fst x) /\
           Forall D (fst (snd x)) /\ DetCtx E (snd (snd x))). auto.
      * intros [coll [tokens' c']] (K1 & K2 & K3). cbn [fst snd] in *. apply IHg. constructor; auto.
        constructor. now apply augmented_D.
    + (* GCSeqLoop *)
      eapply Indep_bind; [apply IHcs; assumption|]. intros [[[a cs']|] coll'] [K1 K2]; cbn [fst snd] in *.
      * apply Indep_val. constructor; eauto.
      * apply Indep_stop.
    + (* GCVarStart *)
      destruct opts as [|o opts]; [apply Indep_stop|].
      destruct (single_wildcard (o :: opts)) as [w|] eqn:Hw.
      * destruct (single_wildcard_spec _ _ Hw) as (m & vars & q & Ho). rewrite Ho in *.
        match goal with H : Forall _ _ |- _ => inversion H as [|? ? Hd _]; subst end. cbn [fst] in Hd.
        destruct (D_wild_path _ _ _ Hd) as [Hdp _].
        eapply Indep_bind; [apply Indep_pep; apply pure_to_variant; eassumption|].
        intros [vs [lo' hi']] Hvs. apply IHg. constructor; assumption.
      * apply IHg. constructor; [assumption|]. now apply combos_D.
    + (* GCVarLoop None *)
      destruct todo as [|[b combo] todo]; [apply Indep_stop|].
      match goal with H : Forall _ (_ :: _) |- _ => inversion H as [|? ? Hd Hds]; subst end.
      apply IHg. constructor; auto. now constructor.
    + (* GCVarLoop Some *)
      eapply Indep_case with (k := fun x r => let '(arr, st') := x in
            let d := dedupe arr in
            if Z.eqb (Z.of_nat (length d)) b && negb (existsb (arr_eqb d) seen)
            then OVal (joined d sep, GCVarLoop c sep todo (Some (b, st')) (d :: seen)) r
            else next G E n (GCVarLoop c sep todo (Some (b, st')) seen) r) (s := fun r => next G E n (GCVarLoop c sep todo None seen) r).
      * apply IHcp; assumption.
      * intros [arr st'] Hst. cbn [snd] in Hst. cbn zeta.
        match goal with |- Indep (fun r => if ?b then _ else _) _ => destruct b end.
        -- apply Indep_val. constructor; assumption.
        -- apply IHg. constructor; assumption.
      * apply IHg. constructor; assumption.
    + (* GCWildStart *)
      match goal with H : D _ |- _ => pose proof H as Hd; destruct (D_wild_path _ _ _ H) as [Hdp Hvars] end.
      eapply Indep_bind; [apply Indep_pep; apply pure_path; eassumption|]. intros path _. cbn zeta.
      assert (Hc' : DetCtx E (with_variables vars c)) by now apply with_variables_Det.
      destruct (env_lookup E path) as [|i items] eqn:Hl.
      * apply IHg. econstructor; eassumption.
      * apply IHg. rewrite <- Hl. constructor; [assumption|]. apply Forall_forall. intros v Hv cmd Hp.
        eapply listed_values; eassumption.
    + (* GCWildLoop None *)
      destruct vals as [|v vals]; [apply Indep_stop|].
      match goal with H : Forall _ (_ :: _) |- _ => inversion H as [|? ? Hd Hds]; subst end.
      eapply Indep_bind.
      * apply Indep_mk. intros g Hg. eapply pure_prompts; [| |exact Hg]; [eassumption|].
        split; [discriminate|]. intros s cmd [= <-]. apply Hd.
      * intros g Hg. apply IHg. constructor; assumption.
    + (* GCWildLoop Some *)
      eapply Indep_case with (k := fun x r => let '(t, g') := x in OVal (t, GCWildLoop c vals (Some g')) r)
        (s := fun r => next G E n (GCWildLoop c vals None) r).
      * apply IHg. assumption.
      * intros [t g'] Hg'. apply Indep_val. constructor; assumption.
      * apply IHg. constructor; assumption.
    + (* GCWrapStart *)
      eapply Indep_bind.
      * apply Indep_mk. intros g' Hg'. eapply pure_prompts; [| |exact Hg']; [eassumption|].
        split; [intros cmd [= <-]; assumption|discriminate].
      * intros g' Hg'. apply IHg. constructor; assumption.
    + eapply Indep_bind; [apply IHg; assumption|]. intros [tw gw'] Hgw.
      eapply Indep_bind.
      * apply Indep_mk. intros g' Hg'. eapply pure_prompts; [| |exact Hg']; [eassumption|].
        split; [intros cmd [= <-]; assumption|discriminate].
      * intros g' Hg'. apply IHg. constructor; assumption.
    + eapply Indep_case with (k := fun x r => let '(ti, gi') := x in
            OVal (as_wrapper t ti, GCWrapLoop c i gw (Some (t, gi'))) r)
        (s := fun r => next G E n (GCWrapLoop c i gw None) r).
      * apply IHg. assumption.
      * intros [ti gi'] Hgi. apply Indep_val. constructor; assumption.
      * apply IHg. constructor; assumption.
    + (* GFallback *)
      match goal with H : D _ |- _ => destruct (D_wild_path _ _ _ H) as [Hdp _] end.
      eapply Indep_bind with (Q1 := fun _ => True).
      * destruct w; [now apply Indep_val|]. apply Indep_pep. now apply pure_path.
      * intros name _. apply IHg. constructor.
    + eapply Indep_bind; [apply IHg; assumption|]. intros [t g'] Hg'. apply Indep_val. now constructor.
    + destruct n0; [apply Indep_stop|].
      eapply Indep_bind; [apply IHg; assumption|]. intros [t g'] Hg'. apply Indep_val. now constructor.
  - intros c coll cs Hc Hcoll Hcs. destruct Hcs as [cmds Hd|g cmds Hg Hd|g cmds t cs Hg Hd Hcs|]; unfold_next G E.
    + destruct cmds as [|cmd cmds].
      * apply Indep_val. split; [assumption|]. intros a cs' [= <- <-]. constructor.
      * inversion Hd as [|? ? Hcmd Hcmds]; subst.
        pose proof (finite_mark_in _ _ (proj1 Hc) (D_finite _ Hcmd)) as Hf. unfold finite_in in Hf. rewrite Hf.
        eapply Indep_bind; [apply Indep_mk; intros g Hg; exact (pure_mk _ _ _ _ Hc Hcmd Hg)|].
        intros g Hg. apply IHcs; auto. now constructor.
    + eapply Indep_case with (k := fun x r => let '(t, g') := x in
            next_cs G E n c coll (CSFin2 g' cmds t (CSStart cmds)) r) (s := fun r => OVal (None, coll) r).
      * apply IHg. assumption.
      * intros [t g'] Hg'. apply IHcs; auto. constructor; auto. now constructor.
      * apply Indep_val. split; [assumption|discriminate].
    + eapply Indep_bind; [apply IHcs; assumption|]. intros [[[a cs']|] coll'] [K1 K2]; cbn [fst snd] in *.
      * apply Indep_val. split; [assumption|]. intros a' cs'' [= <- <-]. constructor; eauto.
      * apply IHcs; auto. now constructor.
    + apply Indep_val. split; [assumption|discriminate].
  - intros c st Hc Hst. destruct Hst as [cmds Hd|g cmds Hg Hd|g cmds t cs Hg Hd Hcs|]; unfold_next G E.
    + destruct cmds as [|cmd cmds].
      * apply Indep_val. constructor.
      * inversion Hd as [|? ? Hcmd Hcmds]; subst.
        eapply Indep_bind; [apply Indep_mk; intros g Hg; exact (pure_mk _ _ _ _ Hc Hcmd Hg)|].
        intros g Hg. pose proof (finite_mark_in _ _ (proj1 Hc) (D_finite _ Hcmd)) as Hf. unfold finite_in in Hf.
        rewrite Hf. apply IHcp; auto. now constructor.
    + eapply Indep_bind; [apply IHg; assumption|]. intros [t g'] Hg'. apply IHcp; auto. constructor; auto. now constructor.
    + eapply Indep_case with (k := fun x r => let '(arr, rest') := x in OVal (t :: arr, CPFin2 g cmds t rest') r)
        (s := fun r => next_cp G E n c (CPFin g cmds) r).
      * apply IHcp; assumption.
      * intros [a st'] Hst'. apply Indep_val. constructor; assumption.
      * apply IHcp; auto. now constructor.
    + apply Indep_stop.
Qed.

Lemma collect_pure : forall f n g, pure g -> exists ts e, forall r,
  collect G E f n g r = (ts, e, match e with EndFuel => None | _ => Some r end).
Proof.
  intros f n. induction n as [|n IH]; intros g Hg; cbn [collect].
  - exists [], (EndLimit g). reflexivity.
  - destruct (proj1 (next_pure f) g Hg) as (o & Ho & Hq). destruct o as [[t g']| |e|].
    + destruct (IH g' (Hq _ eq_refl)) as (ts & e & H). exists (t :: ts), e. intros r. rewrite Ho. cbn.
      now rewrite H.
    + exists [], EndStop. intros r. now rewrite Ho.
    + exists [], (EndRaise e). intros r. now rewrite Ho.
    + exists [], EndFuel. intros r. now rewrite Ho.
Qed.
End Pure.

Lemma run_pure : forall G E c p limit fuel g f n, DetEnv E -> DetCtx E c ->
  (forall cmd, p = WCmd cmd -> Deterministic E cmd) ->
  (forall s cmd, p = WStr s -> env_parse E s = Ok cmd -> Deterministic E cmd) ->
  sample_prompts E fuel c p limit = MOk g ->
  exists ts e, forall r, collect G E f n g r = (ts, e, match e with EndFuel => None | _ => Some r end).
Proof.
  intros G E c p limit fuel g f n He Hc H1 H2 H. apply collect_pure; [assumption|].
  eapply pure_prompts; eauto. split; assumption.
Qed.
