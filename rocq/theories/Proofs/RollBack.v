(** What the random sampler does is described by Spec/Rolls.v. *)
From Coq Require Import String NArith ZArith QArith Qcanon Bool Arith List Permutation Lia.
From Verif.Model Require Import Str Float Utils Command Rng Values Context Sampler.
From Verif.Spec Require Import Text Comb Items Lang Draws Rolls.
From Verif.Proofs Require Import StrFacts UtilsFacts CommandFacts CombFacts FloatFacts RngFacts ValuesFacts DictFacts
  Soundness FuelFacts RunFacts EnumFacts WildRun LiveFacts DrawFacts ShareFacts ReachFacts RollFacts.
Import ListNotations.
Local Open Scope nat_scope.

Section Back.
Variable G : rng_impl.
Variable E : env.
Hypothesis Hvals : AllRandomValues E.
Notation R := (rng_state G).
Notation next := (next G E).
Notation ores := (ores G).
Notation AllRand := (AllRandom E).
Notation RandScope := (AllRandomScope E).

(** * Templates that stay random *)
Lemma enter_none : forall sc cmd, mark_of cmd = None -> enter sc cmd = sc.
Proof. intros [m s v u] cmd H. unfold enter. rewrite H. reflexivity. Qed.

Lemma AllRandom_mark : forall cmd, AllRand cmd -> mark_of cmd <> Some Cyclical.
Proof. intros cmd H. destruct H; cbn; try assumption; discriminate. Qed.

Lemma RandScope_enter : forall sc cmd, RandScope sc -> AllRand cmd -> RandScope (enter sc cmd).
Proof.
  intros sc cmd (Hm & Hv & Hu) Hc. apply AllRandom_mark in Hc. split; [|split; assumption].
  cbn. rewrite Hm. destruct (mark_of cmd) as [[]|]; try reflexivity. congruence.
Qed.

Lemma RandScope_Extended : forall sc vars sc', RandScope sc -> Forall (fun kv => AllRand (snd kv)) vars ->
  Extended sc vars sc' -> RandScope sc'.
Proof.
  intros sc vars sc' (Hm & Hv & Hu) Hvs [(H1 & H2 & H3) Hx]. split; [congruence|]. split.
  - intros x v Hxv. destruct (Hx x) as [(pre & v' & post & -> & _ & H)|[_ H]].
    + rewrite H in Hxv. injection Hxv as <-. rewrite Forall_forall in Hvs.
      apply (Hvs (x, v')). apply in_or_app. right. now left.
    + rewrite H in Hxv. eauto.
  - rewrite H3. assumption.
Qed.

Lemma RandScope_Refers : forall sc x d v, RandScope sc -> AllRand (Access x d) -> Refers sc x d v -> AllRand v.
Proof.
  intros sc x d v (Hm & Hv & Hu) Hc H. inversion Hc; subst. destruct H; eauto.
Qed.

Lemma Refers_Agrees : forall c sc x d v, Agrees c sc -> Refers (scope_of c) x d v -> Refers sc x d v.
Proof.
  intros c sc x d v (_ & _ & Hu & Hv) H. destruct H as [v H1 H2|v H1 H2 H3|v u H1 H2 H3|u H1 H2 H3]; cbn in *.
  - apply Refers_var; [now rewrite <- Hv|assumption].
  - apply Refers_default; [now rewrite <- Hv|assumption|assumption].
  - eapply Refers_unknown_var; [rewrite <- Hv; exact H1|assumption|congruence].
  - apply Refers_unknown; [now rewrite <- Hv|assumption|congruence].
Qed.

Lemma options_AllRandom : forall path vals cmds, Listed (pairs (env_lookup E path)) vals ->
  Forall2 (fun v c => env_parse E v = Ok c) vals cmds ->
  Forall (fun o => AllRand (fst o) /\ (0 <= snd o)%Qc) (map (fun c => (c, 1%Qc)) cmds).
Proof.
  intros path vals cmds Hl Hf.
  assert (Hin : forall v, In v vals -> exists q, In (v, q) (pairs (env_lookup E path))).
  { clear Hf. induction Hl as [|t w n rest out _ _ IH]; intros v Hv; [destruct Hv|].
    apply in_app_or in Hv as [Hv|Hv].
    - apply repeat_spec in Hv. subst. exists w. now left.
    - destruct (IH v Hv) as [q Hq]. exists q. now right. }
  clear Hl. induction Hf as [|v c vals cmds Hv _ IH]; cbn; constructor.
  - split; [|discriminate]. destruct (Hin v) as [q Hq]; [now left|]. destruct (Hvals _ _ _ Hq) as [_ H]. now apply H.
  - apply IH. intros v' Hv'. apply Hin. now right.
Qed.

(** * Answers *)
Definition Ans {A} (x : ores A) (QV : A -> R -> Prop) (QS : R -> Prop) : Prop :=
  match x with OVal a r => QV a r | OStop r => QS r | _ => True end.

Lemma Ans_bind : forall A B (x : ores A) (f : A -> R -> ores B) QV QV' QS,
  Ans x QV QS -> (forall a r, QV a r -> Ans (f a r) QV' QS) -> Ans (obind G x f) QV' QS.
Proof. intros A B [a r|r|e r|] f QV QV' QS H Hf; cbn in *; auto. Qed.

Lemma Ans_impl : forall A (x : ores A) (QV QV' : A -> R -> Prop) (QS QS' : R -> Prop), Ans x QV QS ->
  (forall a r, QV a r -> QV' a r) -> (forall r, QS r -> QS' r) -> Ans x QV' QS'.
Proof. intros A [a r|r|e r|] QV QV' QS QS' H H1 H2; cbn in *; auto. Qed.

Lemma Ans_pep : forall A (x : ores A) (QV : A -> R -> Prop) QS, Ans x QV (fun _ => True) -> Ans (pep479 G x) QV QS.
Proof. intros A [a r|r|e r|] QV QS H; cbn in *; auto. Qed.

Definition Back (n : nat) : Prop := forall k c sc cmd g r,
  Agrees c sc -> RandScope sc -> AllRand cmd -> mk k c cmd = MOk g ->
  Ans (next n g r) (fun x r' => Rolls G E sc (c_busy c) cmd r (fst x) r')
                   (fun r' => Halts G E sc (c_busy c) cmd r r').
Definition BackUpTo (n : nat) : Prop := forall m, m <= n -> Back m.

Lemma mk_all_ok : forall k c cmds r gs r1, mk_all G k c cmds r = OVal gs r1 ->
  r1 = r /\ Forall2 (fun cmd g => mk k c cmd = MOk g) cmds gs.
Proof.
  intros k c cmds. induction cmds as [|cmd cmds IH]; intros r gs r1 H; cbn [mk_all] in H.
  - injection H as <- <-. auto.
  - destruct (mk k c cmd) as [g| |] eqn:Hg; cbn [lift_mk obind] in H; try discriminate.
    destruct (mk_all G k c cmds r) as [gs' r'|r'|e r'|] eqn:Hm; cbn [obind] in H; try discriminate.
    injection H as <- <-. destruct (IH _ _ _ Hm) as [-> Hf]. split; [reflexivity|]. now constructor.
Qed.

Lemma mk_all_Ans : forall k c cmds r,
  Ans (mk_all G k c cmds r) (fun gs r' => r' = r /\ Forall2 (fun cmd g => mk k c cmd = MOk g) cmds gs) (fun _ => False).
Proof.
  intros k c cmds r. unfold Ans. destruct (mk_all G k c cmds r) as [gs r'|r'|e r'|] eqn:H; [now apply mk_all_ok|exfalso|exact I..].
  revert r' H. induction cmds as [|cmd cmds IH]; intros r' H; cbn [mk_all] in H; [discriminate|].
  destruct (mk k c cmd) as [g| |]; cbn [lift_mk obind] in H; try discriminate.
  destruct (mk_all G k c cmds r) as [gs r1|r1|e r1|]; cbn [obind] in H; try discriminate. eauto.
Qed.

Lemma rotate_Ans : forall n k c sc cmds gs r, Back n -> Agrees c sc -> RandScope sc -> Forall AllRand cmds ->
  Forall2 (fun cmd g => mk k c cmd = MOk g) cmds gs ->
  Ans (rotate_all G (next n) gs r) (fun x r' => RollsAll G E sc (c_busy c) cmds r (fst x) r') (fun _ => True).
Proof.
  intros n k c sc cmds gs r Hn Ha Hs Hc Hf. revert r.
  induction Hf as [|cmd g cmds gs Hg _ IH]; intros r; cbn [rotate_all].
  - cbn. constructor.
  - inversion Hc; subst. eapply Ans_bind.
    + eapply Ans_impl; [eapply Hn; eassumption|intros a r' Hr; exact Hr|trivial].
    + intros [t g'] r1 Ht. cbn beta iota. cbn [fst] in Ht. eapply Ans_bind; [now apply IH|].
      intros [ts gs'] r2 Hts. cbn [fst] in Hts. cbn. econstructor; eassumption.
Qed.

Definition PromptOf (p : wpath) : Prop := forall c, Reads E p c -> AllRand c.

Lemma prompt_Ans : forall n k c sc p g r, BackUpTo n -> Agrees c sc -> RandScope sc -> PromptOf p ->
  sample_prompts E k c p (Some 1) = MOk g ->
  Ans (next n g r) (fun x r' => RollsPath G E sc (c_busy c) p r (fst x) r')
                   (fun r' => HaltsPath G E sc (c_busy c) p r r').
Proof.
  intros n k c sc p g r Hn Ha Hs Hp H. destruct n as [|n]; [exact I|].
  unfold sample_prompts in H.
  destruct (match p with WStr [] => true | WStr _ => false | WCmd cmd => negb (truthy cmd) end) eqn:Hf.
  { injection H as <-. cbn. destruct p as [[|ch s]|cmd]; [constructor|discriminate|].
    apply HaP_bare. intros Ht. apply truthy_Nonempty in Ht. rewrite Ht in Hf. discriminate. }
  destruct (match p with WStr s => env_parse E s | WCmd cmd => Ok cmd end) as [cmd|e] eqn:Hc; [|discriminate].
  assert (Hr : Reads E p cmd).
  { destruct p as [s|cmd0]; [constructor; [destruct s; discriminate|assumption]|]. injection Hc as ->.
    constructor. apply truthy_Nonempty. now destruct (truthy cmd). }
  destruct (mk k c cmd) as [g0| |] eqn:Hg; try discriminate. injection H as <-.
  destruct Ha as (A1 & A2 & A3 & A4). assert (Ha : Agrees c sc) by (repeat split; assumption).
  unfold_next G E. eapply Ans_bind with (QV := fun x r' => RollsPath G E sc (c_busy c) p r (fst x) r').
  2:{ intros [t g'] r' Ht. exact Ht. }
  assert (Hgo : forall m, m <= n -> Ans (next m g0 r)
      (fun x r' => exists t, fst x = t /\ Rolls G E sc (c_busy c) cmd r t r') (fun r' => HaltsPath G E sc (c_busy c) p r r')).
  { intros m Hm. eapply Ans_impl; [eapply (Hn m ltac:(lia)); [exact Ha|exact Hs|apply Hp, Hr|exact Hg]| |].
    - intros [t g'] r' Ht. eexists. split; [reflexivity|exact Ht].
    - intros r' Hh. eapply HaP_end; eassumption. }
  destruct (c_ignws c) eqn:Hi.
  - destruct n as [|n]; [exact I|]. unfold_next G E. eapply Ans_bind; [apply Hgo; lia|].
    intros [t g'] r' (t0 & <- & Ht). cbn. econstructor; [exact Hr|exact Ht|]. rewrite <- A2. apply squash_Tidy.
  - eapply Ans_impl; [apply Hgo; lia| |auto]. intros [t g'] r' (t0 & <- & Ht).
    econstructor; [exact Hr|exact Ht|]. rewrite <- A2. reflexivity.
Qed.

Lemma path_Ans : forall n k c sc w r, BackUpTo n -> Agrees c sc -> RandScope sc -> PromptOf w ->
  Ans (sample_path G E (next n) k c w r) (fun u r' => RollsPath G E sc (c_busy c) w r u r') (fun _ => True).
Proof.
  intros n k c sc w r Hn Ha Hs Hp. unfold sample_path, first_of.
  destruct (sample_prompts E k c w (Some 1)) as [g| |] eqn:Hg; [|exact I..]. cbn [lift_mk obind].
  eapply Ans_bind; [eapply Ans_impl; [eapply prompt_Ans; eassumption|intros a r' H; exact H|trivial]|].
  intros [t g'] r' Ht. exact Ht.
Qed.

Lemma assign_Ans : forall n k c sc tokens nv r, Back n -> Agrees c sc -> RandScope sc -> Forall AllRand tokens ->
  Ans (assignments_loop G (next n) k c tokens nv r)
    (fun x r' => exists bs, RollsBinds G E sc (c_busy c) tokens r bs r' /\ Plain tokens (fst x) /\
       snd x = dict_update nv bs /\ Forall (fun kv => AllRand (snd kv)) bs) (fun _ => True).
Proof.
  intros n k c sc tokens nv r Hn Ha Hs Hc. revert nv r.
  induction Hc as [|tok tokens Ht Hts IH]; intros nv r; cbn [assignments_loop].
  - cbn. exists []. repeat split; constructor.
  - assert (Hkeep : ~ is_assign tok ->
      Ans (obind G (assignments_loop G (next n) k c tokens nv r) (fun '(rest, vs) r => OVal (tok :: rest, vs) r))
        (fun x r' => exists bs, RollsBinds G E sc (c_busy c) (tok :: tokens) r bs r' /\ Plain (tok :: tokens) (fst x) /\
           snd x = dict_update nv bs /\ Forall (fun kv => AllRand (snd kv)) bs) (fun _ => True)).
    { intros Hna. eapply Ans_bind; [apply IH|]. intros [rest vs] r' (bs & H1 & H2 & H3 & H4). cbn in *.
      exists bs. repeat split; [now constructor|now constructor|assumption|assumption]. }
    destruct tok as [s m|ts sep m|vs lo hi sep m|w m vars|x v imm ovr|x d|w i m];
      try (apply Hkeep; intros (x0 & v0 & i0 & o0 & [=])).
    clear Hkeep. inversion Ht; subst. destruct Hs as (S1 & S2 & S3). destruct Ha as (A1 & A2 & A3 & A4).
    assert (Hv : Ans (process_variable_assignment G (next n) k c x v imm ovr r)
      (fun y r' => AllRand y /\ forall bs r2, RollsBinds G E sc (c_busy c) tokens r' bs r2 ->
         RollsBinds G E sc (c_busy c) (Assign x v imm ovr :: tokens) r ((x, y) :: bs) r2) (fun _ => True)).
    { unfold process_variable_assignment.
      destruct (if ovr then None else dict_get x (c_vars c)) as [v0|] eqn:Hd.
      { destruct ovr; [discriminate|]. rewrite A4 in Hd. cbn. split; [eauto|]. intros bs r2 Hb. now constructor. }
      assert (Ho : ovr = false -> sc_var sc x = None) by (intros ->; now rewrite <- A4).
      destruct imm; [|cbn; split; [assumption|]; intros bs r2 Hb; now constructor].
      assert (Hdraw : (forall s m, v <> Lit s m) ->
        Ans (obind G (first_of G (next n) k (mk k c v) r) (fun t r => OVal (Lit t None) r))
          (fun y r' => AllRand y /\ forall bs r2, RollsBinds G E sc (c_busy c) tokens r' bs r2 ->
            RollsBinds G E sc (c_busy c) (Assign x v true ovr :: tokens) r ((x, y) :: bs) r2) (fun _ => True)).
      { intros Hnl. unfold first_of. destruct (mk k c v) as [g| |] eqn:Hg; [|exact I..]. cbn [lift_mk obind].
        eapply Ans_bind with (QV := fun t r' => Rolls G E sc (c_busy c) v r t r').
        - eapply Ans_bind.
          + eapply Ans_impl; [eapply Hn; [| | |exact Hg]; [repeat split; eassumption|repeat split; eassumption|assumption]
                             |intros a r' H; exact H|trivial].
          + intros [t g'] r' Hr. exact Hr.
        - intros t r' Hr. cbn. split; [constructor; discriminate|]. intros bs r2 Hb. eapply RoB_now; eassumption. }
      destruct v; try (apply Hdraw; intros; discriminate). cbn. split; [assumption|]. intros bs r2 Hb. now constructor. }
    eapply Ans_bind; [exact Hv|]. intros y r1 [Hy Hb].
    eapply Ans_impl; [apply IH| |trivial]. intros [rest vs] r2 (bs & H2 & H3 & H4 & H5). cbn in *.
    exists ((x, y) :: bs). repeat split; [now apply Hb|now constructor|exact H4|now constructor].
Qed.

Definition Known (path : text) (t : text) : Prop := exists q, In (t, q) (pairs (env_lookup E path)).

Lemma Supplied_Known : forall path buffer r v buffer' r', Supplied G (env_lookup E path) buffer r v buffer' r' ->
  Forall (Known path) buffer -> Known path v /\ Forall (Known path) buffer'.
Proof.
  intros path buffer r v buffer' r' H Hb. destruct H as [buffer r x r' v q _ _ Hn|v buffer r _|r is r' v buffer _ _ Hf].
  - split; [|assumption]. exists q. eapply nth_error_In, Hn.
  - inversion Hb; auto.
  - assert (Hk : Forall (Known path) (v :: buffer)).
    { remember (v :: buffer) as vs eqn:Hvs. clear Hvs. induction Hf as [|i t is ts [q Hq] _ IH]; constructor; [|assumption].
      exists q. eapply nth_error_In, Hq. }
    inversion Hk; auto.
Qed.

Lemma value_Ans : forall n c sc path buffer r, BackUpTo n -> Agrees c sc -> RandScope sc -> env_lookup E path <> [] ->
  Forall (Known path) buffer -> forall m, m <= n ->
  Ans (next m (GRWildLoop c (supply G (env_lookup E path) buffer) None) r)
    (fun x r' => RollsValue G E sc (c_busy c) (env_lookup E path) buffer r (fst x) r') (fun _ => False).
Proof.
  intros n c sc path buffer r Hn Ha Hs Hne Hb m. revert buffer r Hb.
  induction m as [m IH] using lt_wf_ind. intros buffer r Hb Hm. destruct m as [|m]; [exact I|].
  unfold_next G E. destruct (next_wgen G (supply G (env_lookup E path) buffer) r) as [[v wg] r1|e r1] eqn:Hw; [|exact I].
  cbn [lift_rres obind].
  assert (Hnn : Forall (fun w => 0 <= w)%Qc (map snd (pairs (env_lookup E path)))).
  { apply Forall_forall. intros w Hin. apply in_map_iff in Hin as ([t q] & <- & Hin). now apply (Hvals path t q). }
  destruct (next_Supplied G _ _ _ _ _ _ Hne Hnn Hw) as (buffer' & -> & Hsup).
  destruct (Supplied_Known _ _ _ _ _ _ Hsup Hb) as [[q Hin] Hb'].
  assert (Hp : PromptOf (WStr v)).
  { intros cmd Hr. inversion Hr as [s c0 Hse Hpa|]; subst. destruct (Hvals _ _ _ Hin) as [_ Hx]. now apply Hx. }
  destruct (sample_prompts E m c (WStr v) (Some 1)) as [g| |] eqn:Hg; [|exact I..]. cbn [lift_mk obind].
  destruct m as [|m]; [exact I|]. unfold_next G E.
  pose proof (prompt_Ans m (S m) c sc (WStr v) g r1 (fun k Hk => Hn k ltac:(lia)) Ha Hs Hp Hg) as Hx.
  destruct (next m g r1) as [[t g'] r2|r2|e r2|]; cbn in Hx; [|idtac|exact I..].
  - cbn. eapply RoV_taken; eassumption.
  - eapply Ans_impl; [apply (IH m ltac:(lia) buffer' r2 Hb' ltac:(lia))| |auto].
    intros x r3 H. eapply RoV_passed; eassumption.
Qed.

Lemma path_of : forall w m vars, AllRand (Wild w m vars) -> PromptOf w.
Proof.
  intros w m vars H c Hr. inversion H; subst; inversion Hr; subst; auto.
Qed.

Lemma vars_of : forall w m vars, AllRand (Wild w m vars) -> Forall (fun kv => AllRand (snd kv)) vars.
Proof. intros w m vars H. inversion H; subst; assumption. Qed.

Lemma with_variables_busy : forall vars c, c_busy (with_variables vars c) = c_busy c.
Proof. now intros [|kv vars] c. Qed.

(** A scope that agrees with the context extended by variables. *)
Lemma extend_scope : forall c sc vars, Agrees c sc -> exists sc', Extended sc vars sc' /\
  Agrees (with_variables vars c) sc' /\ Agrees (with_variables (dict_update [] vars) c) sc'.
Proof.
  intros c sc vars Ha.
  set (sc' := {| sc_method := sc_method sc; sc_squash := sc_squash sc;
                 sc_var := sc_var (scope_of (with_variables vars c)); sc_unknown := sc_unknown sc |}).
  assert (Hx : Extended sc vars sc').
  { destruct (with_variables_Extended vars c) as [_ Hv]. split; [repeat split|]. intros x.
    destruct (Hv x) as [H|[H1 H2]]; [left; exact H|right]. split; [assumption|].
    destruct Ha as (_ & _ & _ & A4). unfold sc'. cbn [sc_var]. rewrite H2. cbn. apply A4. }
  exists sc'. split; [assumption|]. split; [eapply Agrees_extended|eapply Agrees_collected]; eassumption.
Qed.

Lemma Rolls_none : forall sc busy cmd r t r', mark_of cmd = None -> Rolls G E sc busy cmd r t r' ->
  RollsBody G E sc busy cmd r t r'.
Proof. intros sc busy cmd r t r' Hm H. inversion H; subst. rewrite enter_none in * by assumption. assumption. Qed.
Lemma Halts_none : forall sc busy cmd r r', mark_of cmd = None -> Halts G E sc busy cmd r r' ->
  HaltsBody G E sc busy cmd r r'.
Proof. intros sc busy cmd r r' Hm H. inversion H; subst. rewrite enter_none in * by assumption. assumption. Qed.

Definition BackBody (c : ctx) (sc : scope) (cmd : command) (r : R) (x : ores (str * gen)) : Prop :=
  Ans x (fun x r' => RollsBody G E sc (c_busy c) cmd r (fst x) r') (fun r' => HaltsBody G E sc (c_busy c) cmd r r').

Section Step.
Variable n : nat.
Hypothesis IH : BackUpTo n.

Lemma IH_less : forall m, m <= n -> BackUpTo m.
Proof. intros m Hm k Hk. apply IH. lia. Qed.

Lemma back_seq : forall c sc tokens sep m r, Agrees c sc -> RandScope sc -> Forall AllRand tokens ->
  BackBody c sc (Seq tokens sep m) r (next (S n) (GSeqStart c tokens sep) r).
Proof.
  intros c sc tokens sep m r Ha Hs Ht. unfold BackBody. unfold_next G E. apply Ans_pep.
  unfold process_variable_assignments.
  eapply Ans_bind with (QV := fun x r1 => exists bs sc', RollsBinds G E sc (c_busy c) tokens r bs r1 /\
    Plain tokens (fst x) /\ Extended sc bs sc' /\ Agrees (snd x) sc' /\ RandScope sc' /\ c_busy (snd x) = c_busy c).
  - eapply Ans_bind; [apply (assign_Ans n n c sc tokens [] r (IH n (le_n _)) Ha Hs Ht)|].
    intros [rest vs] r1 (bs & H1 & H2 & H3 & H4). cbn in H2, H3. subst vs. cbn.
    destruct (extend_scope c sc bs Ha) as (sc' & Hx & _ & Hag).
    exists bs, sc'. rewrite with_variables_busy. repeat split; try assumption; try apply Hx; try apply Hag.
    all: destruct (RandScope_Extended _ _ _ Hs H4 Hx) as (K1 & K2 & K3); assumption.
  - intros [toks c'] r1 (bs & sc' & H1 & H2 & H3 & H4 & H5 & H6). cbn [fst snd] in *.
    eapply Ans_bind; [eapply Ans_impl; [apply mk_all_Ans|intros a r' H; exact H|intros r' []]|].
    intros gs r2 [-> Hgs]. destruct n as [|k]; [exact I|]. unfold_next G E. apply Ans_pep.
    assert (Htk : Forall AllRand toks).
    { clear - H2 Ht. induction H2; inversion Ht; subst; auto. }
    eapply Ans_bind; [eapply rotate_Ans; [apply IH; lia|exact H4|exact H5|exact Htk|exact Hgs]|].
    intros [ts gs'] r2 Hts. cbn [fst] in Hts. cbn. rewrite H6 in Hts.
    eapply Ro_seq; [eassumption..|]. apply joined_Glued.
Qed.

Lemma back_choice : forall c sc opts lo hi sep m r k, Agrees c sc -> RandScope sc -> S k <= n -> 2 <= length opts ->
  Forall (fun o => AllRand (fst o) /\ (0 <= snd o)%Qc) opts ->
  BackBody c sc (Var opts lo hi sep m) r (next (S k) (GRVarLoop c opts lo hi sep) r).
Proof.
  intros c sc opts lo hi sep m r k Ha Hs Hk H2 Ho. unfold BackBody. unfold_next G E. rewrite adjust_range_clamp.
  set (lo' := clamp (length opts) (Z.min lo hi)). set (hi' := Z.min (Z.max lo hi) (Z.of_nat (length opts))).
  destruct (randint G lo' hi' r) as [[k0 r1]|] eqn:Hr; [|exact I].
  apply Counted_randint in Hr. pose proof (Counted_range _ _ _ _ _ _ Hr) as Hrange.
  cbn zeta. rewrite Z.min_r by lia. apply Ans_pep.
  assert (Hw : Forall (fun w => 0 <= w)%Qc (map snd opts)).
  { apply Forall_forall. intros w Hin. apply in_map_iff in Hin as (o & <- & Hin). rewrite Forall_forall in Ho. now apply Ho. }
  assert (Hv : Forall AllRand (map fst opts)).
  { apply Forall_forall. intros v Hin. apply in_map_iff in Hin as (o & <- & Hin). rewrite Forall_forall in Ho. now apply Ho. }
  eapply Ans_bind with (QV := fun sel r2 => Chosen G (map fst opts) (map snd opts) (Z.to_nat k0) r1 sel r2 /\ Forall AllRand sel).
  - unfold choose_without_replacement, values, weights. rewrite map_length.
    destruct (Z.ltb_spec (Z.of_nat (length opts)) k0) as [Hx|_]; [exact I|].
    destruct opts as [|o1 [|o2 opts]]; cbn [length] in H2; try lia. set (os := o1 :: o2 :: opts) in *.
    assert (Hne : forall X (x y : X), match map snd os with [] => x | _ => y end = y) by reflexivity.
    rewrite Hne, map_length, Nat.eqb_refl. cbn [negb].
    assert (Hne2 : forall X (x : X) (y : command -> X) z,
      match map fst os with [] => x | [v] => y v | _ => z end = z) by reflexivity.
    rewrite Hne2.
    destruct (cwr_loop G cmd_eqb (Z.to_nat k0) (map fst os) (map snd os) r1) as [sel r2|e r2] eqn:Hc; [|exact I].
    cbn [lift_rres Ans]. split.
    + apply loop_Chosen; [now rewrite !map_length|assumption|exact Hc].
    + apply (cwr_loop_ok G cmd_eqb cmd_eqb_spec) in Hc; [|now rewrite !map_length]. destruct Hc as (_ & rest & Hp).
      eapply Permutation_Forall in Hv; [|exact Hp]. now apply Forall_app in Hv.
  - intros sel r2 [Hch Hsel].
    eapply Ans_bind; [eapply Ans_impl; [apply mk_all_Ans|intros a r' H; exact H|intros r' []]|].
    intros gs r3 [-> Hgs]. destruct gs as [|g gs].
    + inversion Hgs; subst. cbn. eapply Ro_choice; [assumption|exact Hr|exact Hch|constructor|].
      rewrite <- (joined_nil sep). apply joined_Glued.
    + eapply Ans_bind; [eapply rotate_Ans; [apply IH; lia|exact Ha|exact Hs|exact Hsel|exact Hgs]|].
      intros [ts gs'] r3 Hts. cbn [fst] in Hts. cbn.
      eapply Ro_choice; [assumption|exact Hr|exact Hch|exact Hts|apply joined_Glued].
Qed.

Lemma back_var : forall c sc opts lo hi sep m r, Agrees c sc -> RandScope sc -> 
  Forall (fun o => AllRand (fst o) /\ (0 <= snd o)%Qc) opts ->
  BackBody c sc (Var opts lo hi sep m) r (next (S n) (GRVarStart c opts lo hi sep) r).
Proof.
  intros c sc opts lo hi sep m r Ha Hs Ho. destruct opts as [|[v q] [|o2 opts]].
  - cbn. constructor.
  - unfold BackBody. unfold_next G E. inversion Ho as [|? ? [Hv Hq] _]; subst. cbn [fst snd] in *.
    destruct (single_wildcard [(v, q)]) as [w|] eqn:Hx.
    + destruct (single_wildcard_spec _ _ Hx) as (mw & vs & q' & [= -> <-]). clear Hx.
      eapply Ans_bind with (QV := fun x r1 => exists path, RollsPath G E sc (c_busy c) w r path r1 /\
        OptionsOf E path (fst x) /\ Forall (fun o => AllRand (fst o) /\ (0 <= snd o)%Qc) (fst x) /\
        let n := Z.of_nat (length (env_lookup E path)) in
        snd x = (Z.max 0 (Z.min (Z.min lo hi) n), Z.min (Z.max lo hi) n)).
      * apply Ans_pep. unfold wildcard_to_variant. eapply Ans_bind; [apply path_Ans; [apply IH_less; lia|eassumption..|eapply path_of, Hv]|].
        intros path r1 Hp. cbn zeta. destruct (parse_all E (iterate_weighted (env_lookup E path))) as [cmds|e] eqn:Hpa; [|exact I].
        apply parse_all_ok in Hpa. cbn. exists path. split; [assumption|].
        pose proof (iterate_weighted_Listed (env_lookup E path)) as Hl.
        split; [exists (iterate_weighted (env_lookup E path)), cmds; auto|]. split; [eapply options_AllRandom; eassumption|].
        unfold post_init_bounds. match goal with |- context [Z.leb ?a ?b] => destruct (Z.leb_spec a b) end; f_equal; lia.
      * intros [opts' [lo' hi']] r1 (path & Hp & Hop & Har & Hb). cbn [fst snd] in *. injection Hb as -> ->.
        set (nn := Z.of_nat (length (env_lookup E path))) in *.
        set (lo' := Z.max 0 (Z.min (Z.min lo hi) nn)). set (hi' := Z.min (Z.max lo hi) nn).
        assert (Hmk : mk 1 c (Var opts' lo' hi' sep None) = MOk (GRVarStart c opts' lo' hi' sep)).
        { rewrite mk_none by reflexivity. destruct Ha as (A1 & _). rewrite A1, (proj1 Hs). reflexivity. }
        assert (Hall : AllRand (Var opts' lo' hi' sep None)) by (constructor; [discriminate|assumption]).
        eapply Ans_impl; [eapply (IH n (le_n _)); [exact Ha|exact Hs|exact Hall|exact Hmk]| |].
        -- intros [t g'] r2 Ht. eapply Ro_lone; [exact Hp|exact Hop|reflexivity|]. now apply Rolls_none in Ht.
        -- intros r2 Hh. eapply Ha_lone; [exact Hp|exact Hop|reflexivity|]. now apply Halts_none in Hh.
    + assert (Hnl : ~ lone_wildcard [(v, q)]).
      { intros (w & mw & vs & q' & [= -> ->]). discriminate. }
      destruct (mk n c v) as [g| |] eqn:Hg; [|exact I..]. cbn [lift_mk obind].
      eapply Ans_impl; [eapply (IH n (le_n _)); eassumption| |].
      * intros x r' H. now constructor.
      * intros r' H. now constructor.
  - assert (Hstep : next (S n) (GRVarStart c ((v, q) :: o2 :: opts) lo hi sep) r
        = next n (GRVarLoop c ((v, q) :: o2 :: opts) lo hi sep) r) by reflexivity.
    rewrite Hstep. clear Hstep.
    assert (Hgen : forall k, k <= n -> BackBody c sc (Var ((v, q) :: o2 :: opts) lo hi sep m) r
        (next k (GRVarLoop c ((v, q) :: o2 :: opts) lo hi sep) r)).
    { intros [|k] Hk; [exact I|]. apply back_choice; try assumption. cbn. lia. }
    now apply Hgen.
Qed.

Lemma back_wild : forall c sc w m vars r, Agrees c sc -> RandScope sc -> AllRand (Wild w m vars) ->
  BackBody c sc (Wild w m vars) r (next (S n) (GRWildStart c w vars) r).
Proof.
  intros c sc w m vars r Ha Hs Hw. unfold BackBody. unfold_next G E.
  eapply Ans_bind; [apply Ans_pep, path_Ans; [apply IH_less; lia|exact Ha|exact Hs|eapply path_of, Hw]|].
  intros path r1 Hp. cbn zeta. destruct (extend_scope c sc vars Ha) as (sc' & Hx & Hag & _).
  pose proof (RandScope_Extended _ _ _ Hs (vars_of _ _ _ Hw) Hx) as Hs'.
  destruct (env_lookup E path) as [|it items] eqn:Hlk.
  - pose proof IH_less as Hless. destruct n as [|k]; [exact I|]. unfold_next G E. destruct w as [s|cmd].
    + cbn [obind]. destruct k as [|k]; [exact I|]. cbn. eapply Ro_missing; [exact Hp|assumption|apply to_wildcard_Wrapped].
    + eapply Ans_bind; [apply Ans_pep, path_Ans; [apply Hless; lia|exact Hag|exact Hs'|eapply path_of, Hw]|].
      intros name r2 Hnm. destruct k as [|k]; [exact I|]. cbn. rewrite with_variables_busy in Hnm.
      eapply Ro_missing_command; [exact Hp|assumption|exact Hx|exact Hnm|apply to_wildcard_Wrapped].
  - assert (Hne : env_lookup E path <> []) by congruence.
    pose proof (value_Ans n (with_variables vars c) sc' path [] r1 IH Hag Hs' Hne (Forall_nil _) n (le_n _)) as Hv.
    rewrite <- supply_start, Hlk in Hv. eapply Ans_impl; [exact Hv| |intros r' []].
    intros x r2 H. rewrite with_variables_busy in H. rewrite <- Hlk in H. eapply Ro_wild; eassumption.
Qed.

Lemma mk_Starts : forall k c sc cmd g, Agrees c sc -> RandScope sc -> AllRand cmd -> mk k c cmd = MOk g ->
  Starts sc (c_busy c) cmd.
Proof.
  induction k as [|k IHk]; intros c sc cmd g Ha Hs Hc Hg; [discriminate|].
  assert (Hm : sc_method (enter sc cmd) = Random) by now apply RandScope_enter.
  destruct cmd as [s m|ts sep m|vs lo hi sep m|w m vars|x v imm ovr|x d|w i m];
    try (constructor; [assumption|intros (x0 & v0 & i0 & o0 & [=])|discriminate]).
  - discriminate Hg.
  - rewrite mk_none in Hg by reflexivity.
    destruct (resolve_access c x d) as [v|] eqn:Hr; [|discriminate]. apply resolve_access_Refers in Hr.
    apply (Refers_Agrees c sc) in Hr; [|assumption].
    unfold for_sampling_variable in Hg. destruct (str_mem x (c_busy c)) eqn:Hb; [discriminate|].
    eapply St_access; [apply Hs|exact Hr| |].
    + intros Hin. apply str_mem_In in Hin. congruence.
    + eapply (IHk _ sc) in Hg; [exact Hg|now apply Agrees_busy|assumption|]. eapply RandScope_Refers; eassumption.
Qed.

Lemma back_wrap : forall c sc w i m r, Agrees c sc -> RandScope sc -> AllRand w -> AllRand i ->
  BackBody c sc (Wrap w i m) r (next (S n) (GRWrapStart c w i) r).
Proof.
  intros c sc w i m r Ha Hs Hw Hi. unfold BackBody. unfold_next G E.
  destruct (mk n c w) as [gw| |] eqn:Hgw; [|exact I..]. cbn [lift_mk obind].
  destruct (mk n c i) as [gi| |] eqn:Hgi; [|exact I..]. cbn [lift_mk obind].
  pose proof (mk_Starts _ _ _ _ _ Ha Hs Hi Hgi) as Hst. revert Hgw Hgi. generalize n at 1 2 as j. pose proof IH as IH'. clear IH.
  destruct n as [|k]; intros j Hgw Hgi; [exact I|]. unfold_next G E.
  pose proof (IH' k ltac:(lia) _ c sc w gw r Ha Hs Hw Hgw) as Hx.
  destruct (next k gw r) as [[tw gw'] r1|r1|e r1|]; cbn in Hx; cbn [obind]; [|cbn; now apply Ha_wrapper|exact I..].
  pose proof (IH' k ltac:(lia) _ c sc i gi r1 Ha Hs Hi Hgi) as Hy.
  destruct (next k gi r1) as [[ti gi'] r2|r2|e r2|]; cbn in Hy; cbn [obind]; [|cbn; eapply Ha_inner; eassumption|exact I..].
  cbn. destruct (as_wrapper_cut tw ti) as (before & after & Hcut & ->). eapply Ro_wrap; eassumption.
Qed.

Lemma back_step : Back (S n).
Proof.
  intros k. induction k as [|k IHk]; intros c sc cmd g r Ha Hs Hc Hg; [discriminate|].
  pose proof (RandScope_enter _ _ Hs Hc) as Hs'. pose proof (Agrees_enter c sc cmd Ha) as Ha'.
  assert (Hm : chosen_method c cmd = Random) by (destruct Ha' as (Hx & _); cbn in Hx; rewrite Hx; apply Hs').
  assert (Hgo : BackBody (with_method (chosen_method c cmd) c) (enter sc cmd) cmd r (next (S n) g r) ->
    Ans (next (S n) g r) (fun x r' => Rolls G E sc (c_busy c) cmd r (fst x) r')
                         (fun r' => Halts G E sc (c_busy c) cmd r r')).
  { intros H. eapply Ans_impl; [exact H| |].
    - intros x r' Hx. constructor; [apply Hs'|exact Hx].
    - intros r' Hx. constructor; [apply Hs'|exact Hx]. }
  destruct cmd as [s m|ts sep m|vs lo hi sep m|w m vars|x v imm ovr|x d|w i m]; cbn [mk] in Hg;
    try (rewrite Hm in Hg, Ha', Hgo; injection Hg as <-; apply Hgo; inversion Hc; subst).
  - unfold BackBody. unfold_next G E. cbn. constructor.
  - now apply back_seq.
  - now apply back_var.
  - now apply back_wild.
  - now apply back_wild.
  - discriminate.
  - apply Hgo. rewrite Hm in *.
    destruct (resolve_access (with_method Random c) x d) as [v|] eqn:Hr; [|discriminate].
    apply resolve_access_Refers in Hr. apply (Refers_Agrees _ _ _ _ _ Ha') in Hr.
    unfold for_sampling_variable in Hg. destruct (str_mem x (c_busy (with_method Random c))) eqn:Hb; [discriminate|].
    assert (Hnb : ~ In x (c_busy c)) by (intros Hin; apply str_mem_In in Hin; cbn in Hb; congruence).
    unfold BackBody. eapply Ans_impl.
    + eapply IHk with (sc := enter sc (Access x d)); [|exact Hs'| |exact Hg].
      * now apply Agrees_busy.
      * eapply RandScope_Refers; [exact Hs'|exact Hc|exact Hr].
    + intros y r' Hy. eapply Ro_access; [exact Hr|exact Hnb|exact Hy].
    + intros r' Hy. eapply Ha_access; [exact Hr|exact Hnb|exact Hy].
  - now apply back_wrap.
Qed.
End Step.

Theorem back_all : forall n, BackUpTo n.
Proof.
  induction n as [|n IH]; intros m Hm.
  - assert (m = 0) by lia. subst. intros k c sc cmd g r _ _ _ _. exact I.
  - destruct (Nat.eq_dec m (S n)) as [->|Hne]; [now apply back_step|apply IH; lia].
Qed.
End Back.
