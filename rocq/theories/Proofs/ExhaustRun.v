(** Combinatorial runs that end have given every allowed prompt. *)
From Coq Require Import String NArith ZArith QArith Qcanon Bool Arith List Permutation Lia.
From Verif.Model Require Import Str Utils Command Rng Values Context Sampler.
From Verif.Spec Require Import Text Comb Items Lang Enum Exhaust.
From Verif.Proofs Require Import StrFacts UtilsFacts CommandFacts CombFacts ValuesFacts DictFacts Soundness FuelFacts RunFacts
  EnumFacts BindFacts EnumRun CombRun LiveFacts ReachFacts FairFacts ExhaustFacts.
Import ListNotations.
Local Open Scope nat_scope.

Section Drain.
Variable G : rng_impl.
Variable E : env.
Notation R := (rng_state G).
Notation next := (next G E).
Notation next_cp := (next_cp G E).
Notation next_cs := (next_cs G E).

(** * Runs that end *)
(** Asking until the generator stops gives [ts]; in between anything may happen
    to the random generator.  The number bounds the fuel used in all. *)
Inductive Drain : nat -> gen -> list text -> Prop :=
| Dr_stop : forall n k g r r', next n g r = OStop r' -> Drain (n + k) g []
| Dr_val : forall n k g r t g' r1 ts, next n g r = OVal (t, g') r1 -> Drain k g' ts ->
    Drain (n + k) g (t :: ts).
Definition Drained g ts := exists k, Drain k g ts.

Definition Cont (k : nat) (o : ores G (str * gen)) (ts : list text) : Prop :=
  match o with
  | OStop _ => ts = []
  | OVal (t, g') _ => exists ts', ts = t :: ts' /\ Drain k g' ts'
  | _ => False
  end.

Lemma Drain_inv : forall K g ts, Drain K g ts -> exists n k r, K = n + k /\ Cont k (next n g r) ts.
Proof.
  intros K g ts H. destruct H as [n k g r r' H|n k g r t g' r1 ts H H']; exists n, k, r; (split; [reflexivity|]); rewrite H; cbn; eauto.
Qed.
Lemma Drain_cont : forall n k g r ts, Cont k (next n g r) ts -> Drain (n + k) g ts.
Proof.
  intros n k g r ts H. destruct (next n g r) as [[t g'] r1|r1|e r1|] eqn:Hn; cbn in H; try contradiction.
  - destruct H as (ts' & -> & H). eapply Dr_val; eassumption.
  - subst. eapply Dr_stop; eassumption.
Qed.
Lemma Drain_big : forall K g ts, Drain K g ts -> forall N, exists n k r, N <= n /\ Cont k (next n g r) ts.
Proof.
  intros K g ts H N. destruct (Drain_inv _ _ _ H) as (n & k & r & _ & Hc). exists (N + n), k, r. split; [lia|].
  rewrite (next_more G E n) by (try lia; intros He; rewrite He in Hc; exact Hc). exact Hc.
Qed.

(** Selections likewise. *)
Inductive DrainCp (c : ctx) : nat -> cp -> list (list text) -> Prop :=
| DrCp_stop : forall n k st r r', next_cp n c st r = OStop r' -> DrainCp c (n + k) st []
| DrCp_val : forall n k st r a st' r1 arrs, next_cp n c st r = OVal (a, st') r1 -> DrainCp c k st' arrs ->
    DrainCp c (n + k) st (a :: arrs).
Definition DrainedCp c st arrs := exists k, DrainCp c k st arrs.
Definition ContCp c (k : nat) (o : ores G (list str * cp)) (arrs : list (list text)) : Prop :=
  match o with
  | OStop _ => arrs = []
  | OVal (a, st') _ => exists arrs', arrs = a :: arrs' /\ DrainCp c k st' arrs'
  | _ => False
  end.
Lemma DrainCp_inv : forall c K st arrs, DrainCp c K st arrs -> exists n k r, K = n + k /\ ContCp c k (next_cp n c st r) arrs.
Proof.
  intros c K st arrs H. destruct H as [n k st r r' H|n k st r a st' r1 arrs H H']; exists n, k, r; (split; [reflexivity|]); rewrite H; cbn; eauto.
Qed.
Lemma DrainCp_cont : forall c n k st r arrs, ContCp c k (next_cp n c st r) arrs -> DrainCp c (n + k) st arrs.
Proof.
  intros c n k st r arrs H. destruct (next_cp n c st r) as [[a st'] r1|r1|e r1|] eqn:Hn; cbn in H; try contradiction.
  - destruct H as (arrs' & -> & H). eapply DrCp_val; eassumption.
  - subst. eapply DrCp_stop; eassumption.
Qed.

(** Sequences likewise; anything may happen to the shared collection. *)
Notation coll_t := (list (command * gen * option str)).
Inductive DrainCs (c : ctx) : nat -> cseq -> list (list text) -> Prop :=
| DrCs_stop : forall n k coll cs r coll' r', next_cs n c coll cs r = OVal (None, coll') r' -> DrainCs c (n + k) cs []
| DrCs_val : forall n k coll cs r a cs' coll' r1 arrs, next_cs n c coll cs r = OVal (Some (a, cs'), coll') r1 ->
    DrainCs c k cs' arrs -> DrainCs c (n + k) cs (a :: arrs).
Definition DrainedCs c cs arrs := exists k, DrainCs c k cs arrs.
Definition ContCs c (k : nat) (o : ores G (option (list str * cseq) * coll_t)) (arrs : list (list text)) : Prop :=
  match o with
  | OVal (None, _) _ => arrs = []
  | OVal (Some (a, cs'), _) _ => exists arrs', arrs = a :: arrs' /\ DrainCs c k cs' arrs'
  | _ => False
  end.
Lemma DrainCs_inv : forall c K cs arrs, DrainCs c K cs arrs ->
  exists n k coll r, K = n + k /\ ContCs c k (next_cs n c coll cs r) arrs.
Proof.
  intros c K cs arrs H. destruct H as [n k coll cs r coll' r' H|n k coll cs r a cs' coll' r1 arrs H H']; exists n, k, coll, r;
    (split; [reflexivity|]); rewrite H; cbn; eauto.
Qed.
Lemma DrainCs_cont : forall c n k coll cs r arrs, ContCs c k (next_cs n c coll cs r) arrs -> DrainCs c (n + k) cs arrs.
Proof.
  intros c n k coll cs r arrs H. destruct (next_cs n c coll cs r) as [[[[a cs']|] coll'] r1|r1|e r1|] eqn:Hn; cbn in H; try contradiction.
  - destruct H as (arrs' & -> & H). eapply DrCs_val; eassumption.
  - subst. eapply DrCs_stop; eassumption.
Qed.

Lemma collect_drained : forall f n g r ts r', collect G E f n g r = (ts, EndStop, r') -> Drained g ts.
Proof.
  intros f n. induction n as [|n IH]; intros g r ts r' H; cbn [collect] in H; [discriminate|].
  destruct (next f g r) as [[t g'] r1|r1|e r1|] eqn:Hn; try discriminate.
  - destruct (collect G E f n g' r1) as [[ts' e] r2] eqn:Hc. injection H as <- -> <-.
    destruct (IH _ _ _ _ Hc) as [k Hk]. exists (f + k). eapply Dr_val; eassumption.
  - injection H as <- _. exists (f + 0). eapply Dr_stop; eassumption.
Qed.

(** * One generator after the other *)
Lemma drained_once : forall t ts, Drained (GOnce t) ts -> In t ts.
Proof.
  intros t ts [k H]. destruct (Drain_inv _ _ _ H) as ([|n] & k' & r & _ & Hc); cbn in Hc; [contradiction|].
  destruct Hc as (ts' & -> & _). now left.
Qed.

Lemma drained_squash : forall g us, Drained (GSquash g) us -> exists ts, Drained g ts /\ us = map squash_whitespace ts.
Proof.
  intros g us [K H]. revert g us H. induction K as [K IH] using lt_wf_ind. intros g us H.
  destruct (Drain_inv _ _ _ H) as ([|n] & k & r & -> & Hc); [contradiction|]. revert Hc. unfold_next G E.
  destruct (next n g r) as [[t g'] r1|r1|e r1|] eqn:Hn; cbn; try contradiction.
  - intros (us' & -> & H'). destruct (IH k ltac:(lia) _ _ H') as (ts & [k1 Ht] & ->).
    exists (t :: ts). split; [exists (n + k1); eapply Dr_val; eassumption|reflexivity].
  - intros ->. exists []. split; [exists (n + 0); eapply Dr_stop; eassumption|reflexivity].
Qed.

Lemma drained_repeat : forall t ts, ~ Drained (GRepeat t) ts.
Proof.
  intros t ts [K H]. revert ts H. induction K as [K IH] using lt_wf_ind. intros ts H.
  destruct (Drain_inv _ _ _ H) as ([|n] & k & r & -> & Hc); cbn in Hc; [contradiction|].
  destruct Hc as (ts' & -> & H'). eapply (IH k); [lia|exact H'].
Qed.

Definition ListsPrompt (c : ctx) (p : wpath) (ts : list text) : Prop :=
  exists n g us, sample_prompts E n c p None = MOk g /\ Drained g us /\ incl us ts.

Lemma drained_wild : forall c vals cur ts, Drained (GCWildLoop c vals cur) ts ->
  (forall g, cur = Some g -> exists us, Drained g us /\ incl us ts) /\
  (forall v, In v vals -> ListsPrompt c (WStr v) ts).
Proof.
  intros c vals cur ts [K H]. revert vals cur ts H. induction K as [K IH] using lt_wf_ind. intros vals cur ts H.
  destruct (Drain_inv _ _ _ H) as ([|n] & k & r & -> & Hc); [contradiction|]. revert Hc. unfold_next G E.
  destruct cur as [g|].
  - destruct (next n g r) as [[t g'] r1|r1|e r1|] eqn:Hn; cbn [Cont]; try contradiction.
    + intros (ts' & -> & H'). destruct (IH k ltac:(lia) _ _ _ H') as [H1 H2]. split.
      * intros g0 [= <-]. destruct (H1 g' eq_refl) as (us & [k1 Hu] & Hi). exists (t :: us).
        split; [exists (n + k1); eapply Dr_val; eassumption|]. intros x [->|Hx]; [now left|right; auto].
      * intros v Hv. destruct (H2 v Hv) as (n1 & g1 & us & E1 & E2 & Hi). exists n1, g1, us.
        split; [assumption|]. split; [assumption|]. intros x Hx. right. auto.
    + intros Hc. apply Drain_cont in Hc. destruct (IH (n + k) ltac:(lia) _ _ _ Hc) as [_ H2]. split; [|assumption].
      intros g0 [= <-]. exists []. split; [exists (n + 0); eapply Dr_stop; eassumption|intros x []].
  - destruct vals as [|v vals]; cbn [Cont].
    + intros ->. split; [discriminate|intros v []].
    + destruct (sample_prompts E n c (WStr v) None) as [g|e|] eqn:Hg; cbn [lift_mk obind Cont]; try contradiction.
      intros Hc. apply Drain_cont in Hc. destruct (IH (n + k) ltac:(lia) _ _ _ Hc) as [H1 H2]. split; [discriminate|].
      intros v' [<-|Hv]; [|auto]. destruct (H1 g eq_refl) as (us & Hu & Hi). exists n, g, us. auto.
Qed.

Lemma drained_wrap : forall c inner gw cur ts, Drained (GCWrapLoop c inner gw cur) ts ->
  (forall tw gi, cur = Some (tw, gi) -> exists l, Drained gi l /\ incl (map (as_wrapper tw) l) ts) /\
  (exists ws, Drained gw ws /\ forall tw, In tw ws ->
     exists n gi l, sample_prompts E n c (WCmd inner) None = MOk gi /\ Drained gi l /\ incl (map (as_wrapper tw) l) ts).
Proof.
  intros c inner gw cur ts [K H]. revert gw cur ts H. induction K as [K IH] using lt_wf_ind. intros gw cur ts H.
  destruct (Drain_inv _ _ _ H) as ([|n] & k & r & -> & Hc); [contradiction|]. revert Hc. unfold_next G E.
  destruct cur as [[tw gi]|].
  - destruct (next n gi r) as [[t g'] r1|r1|e r1|] eqn:Hn; cbn [Cont]; try contradiction.
    + intros (ts' & -> & H'). destruct (IH k ltac:(lia) _ _ _ H') as [H1 (ws & Hw & H2)]. split.
      * intros tw0 gi0 [= <- <-]. destruct (H1 tw g' eq_refl) as (l & [k1 Hl] & Hi). exists (t :: l).
        split; [exists (n + k1); eapply Dr_val; eassumption|]. intros x [<-|Hx]; [now left|right; auto].
      * exists ws. split; [assumption|]. intros tw0 Hin. destruct (H2 tw0 Hin) as (n1 & g1 & l & E1 & E2 & Hi).
        exists n1, g1, l. split; [assumption|]. split; [assumption|]. intros x Hx. right. auto.
    + intros Hc. apply Drain_cont in Hc. destruct (IH (n + k) ltac:(lia) _ _ _ Hc) as [_ H2]. split; [|assumption].
      intros tw0 gi0 [= <- <-]. exists []. split; [exists (n + 0); eapply Dr_stop; eassumption|intros x []].
  - destruct (next n gw r) as [[tw gw'] r1|r1|e r1|] eqn:Hn; cbn [obind Cont]; try contradiction.
    + destruct (sample_prompts E n c (WCmd inner) None) as [gi|e|] eqn:Hg; cbn [lift_mk obind Cont]; try contradiction.
      intros Hc. apply Drain_cont in Hc. destruct (IH (n + k) ltac:(lia) _ _ _ Hc) as [H1 (ws & [k1 Hw] & H2)].
      split; [discriminate|]. exists (tw :: ws). split; [exists (n + k1); eapply Dr_val; eassumption|].
      intros tw0 [<-|Hin]; [|auto]. destruct (H1 tw gi eq_refl) as (l & Hl & Hi). exists n, gi, l. auto.
    + intros ->. split; [discriminate|]. exists []. split; [exists (n + 0); eapply Dr_stop; eassumption|intros tw []].
Qed.

(** * Products *)
(** Every choice of values, one for each command, is among the arrays. *)
Inductive Product (c : ctx) : list command -> list (list text) -> Prop :=
| Pr_nil : forall arrs, In [] arrs -> Product c [] arrs
| Pr_cons : forall cmd cmds arrs n g ts, mk n c cmd = MOk g -> Drained g ts ->
    (forall t, In t ts -> exists sub, Product c cmds sub /\ incl (map (cons t) sub) arrs) ->
    Product c (cmd :: cmds) arrs.

Lemma drained_cp : forall c combo, Forall (fun cmd => is_nonfinite (effective_method c cmd) = false) combo ->
  forall arrs, DrainedCp c (CPStart combo) arrs -> Product c combo arrs.
Proof.
  intros c combo Hf. induction Hf as [|cmd combo Hm _ IHc]; intros arrs [K H].
  - destruct (DrainCp_inv _ _ _ _ H) as ([|n] & k & r & -> & Hc); [contradiction|]. cbn in Hc.
    destruct Hc as (arrs' & -> & _). constructor. now left.
  - assert (Hloop : forall K st g arrs, DrainCp c K st arrs ->
      (st = CPFin g combo -> exists ts, Drained g ts /\ forall t, In t ts ->
         exists sub, Product c combo sub /\ incl (map (cons t) sub) arrs) /\
      (forall t rest, st = CPFin2 g combo t rest ->
         (exists sub, DrainedCp c rest sub /\ incl (map (cons t) sub) arrs) /\
         exists ts, Drained g ts /\ forall t, In t ts ->
         exists sub, Product c combo sub /\ incl (map (cons t) sub) arrs)).
    { clear arrs K H. induction K as [K IH] using lt_wf_ind. intros st g arrs H.
      destruct (DrainCp_inv _ _ _ _ H) as ([|n] & k & r & -> & Hc); [contradiction|]. split.
      - intros ->. revert Hc. unfold_next G E.
        destruct (next n g r) as [[t g'] r1|r1|e r1|] eqn:Hn; cbn [obind ContCp]; try contradiction.
        + intros Hc. apply DrainCp_cont in Hc. destruct (IH (n + k) ltac:(lia) _ g' _ Hc) as [_ H2].
          destruct (H2 _ _ eq_refl) as [(sub & Hs & Hi) (ts & [k1 Ht] & Hall)].
          exists (t :: ts). split; [exists (n + k1); eapply Dr_val; eassumption|].
          intros t0 [<-|Hin]; [|auto]. exists sub. split; [now apply IHc|assumption].
        + intros ->. exists []. split; [exists (n + 0); eapply Dr_stop; eassumption|intros t []].
      - intros t rest ->. revert Hc. unfold_next G E.
        destruct (next_cp n c rest r) as [[a rest'] r1|r1|e r1|] eqn:Hn; cbn [ContCp]; try contradiction.
        + intros (arrs' & -> & H'). destruct (IH k ltac:(lia) _ g _ H') as [_ H2].
          destruct (H2 _ _ eq_refl) as [(sub & [k1 Hs] & Hi) (ts & Ht & Hall)]. split.
          * exists (a :: sub). split; [exists (n + k1); eapply DrCp_val; eassumption|].
            intros x [<-|Hx]; [now left|right; auto].
          * exists ts. split; [assumption|]. intros t0 Hin. destruct (Hall t0 Hin) as (sub0 & Hp & Hi0).
            exists sub0. split; [assumption|]. intros x Hx. right. auto.
        + intros Hc. apply DrainCp_cont in Hc. destruct (IH (n + k) ltac:(lia) _ g _ Hc) as [H1 _].
          split; [|now apply H1]. exists []. split; [exists (n + 0); eapply DrCp_stop; eassumption|intros x []]. }
    destruct (DrainCp_inv _ _ _ _ H) as ([|n] & k & r & -> & Hc); [contradiction|]. revert Hc. unfold_next G E.
    destruct (mk n c cmd) as [g|e|] eqn:Hg; cbn [lift_mk obind ContCp]; try contradiction. rewrite Hm.
    intros Hc. apply DrainCp_cont in Hc. destruct (Hloop _ _ g _ Hc) as [H1 _]. destruct (H1 eq_refl) as (ts & Ht & Hall).
    eapply Pr_cons; eassumption.
Qed.

Lemma drained_cs : forall c combo, Forall (fun cmd => is_nonfinite (effective_method c cmd) = false) combo ->
  forall arrs, DrainedCs c (CSStart combo) arrs -> Product c combo arrs.
Proof.
  intros c combo Hf. induction Hf as [|cmd combo Hm _ IHc]; intros arrs [K H].
  - destruct (DrainCs_inv _ _ _ _ H) as ([|n] & k & coll & r & -> & Hc); [contradiction|]. cbn in Hc.
    destruct Hc as (arrs' & -> & _). constructor. now left.
  - assert (Hloop : forall K st g arrs, DrainCs c K st arrs ->
      (st = CSFin g combo -> exists ts, Drained g ts /\ forall t, In t ts ->
         exists sub, Product c combo sub /\ incl (map (cons t) sub) arrs) /\
      (forall t rest, st = CSFin2 g combo t rest ->
         (exists sub, DrainedCs c rest sub /\ incl (map (cons t) sub) arrs) /\
         exists ts, Drained g ts /\ forall t, In t ts ->
         exists sub, Product c combo sub /\ incl (map (cons t) sub) arrs)).
    { clear arrs K H. induction K as [K IH] using lt_wf_ind. intros st g arrs H.
      destruct (DrainCs_inv _ _ _ _ H) as ([|n] & k & coll & r & -> & Hc); [contradiction|]. split.
      - intros ->. revert Hc. unfold_next G E.
        destruct (next n g r) as [[t g'] r1|r1|e r1|] eqn:Hn; cbn [ContCs]; try contradiction.
        + intros Hc. apply DrainCs_cont in Hc. destruct (IH (n + k) ltac:(lia) _ g' _ Hc) as [_ H2].
          destruct (H2 _ _ eq_refl) as [(sub & Hs & Hi) (ts & [k1 Ht] & Hall)].
          exists (t :: ts). split; [exists (n + k1); eapply Dr_val; eassumption|].
          intros t0 [<-|Hin]; [|auto]. exists sub. split; [now apply IHc|assumption].
        + intros ->. exists []. split; [exists (n + 0); eapply Dr_stop; eassumption|intros t []].
      - intros t rest ->. revert Hc. unfold_next G E.
        destruct (next_cs n c coll rest r) as [[[[a rest']|] coll'] r1|r1|e r1|] eqn:Hn; cbn [obind ContCs]; try contradiction.
        + intros (arrs' & -> & H'). destruct (IH k ltac:(lia) _ g _ H') as [_ H2].
          destruct (H2 _ _ eq_refl) as [(sub & [k1 Hs] & Hi) (ts & Ht & Hall)]. split.
          * exists (a :: sub). split; [exists (n + k1); eapply DrCs_val; eassumption|].
            intros x [<-|Hx]; [now left|right; auto].
          * exists ts. split; [assumption|]. intros t0 Hin. destruct (Hall t0 Hin) as (sub0 & Hp & Hi0).
            exists sub0. split; [assumption|]. intros x Hx. right. auto.
        + intros Hc. apply DrainCs_cont in Hc. destruct (IH (n + k) ltac:(lia) _ g _ Hc) as [H1 _].
          split; [|now apply H1]. exists []. split; [exists (n + 0); eapply DrCs_stop; eassumption|intros x []]. }
    destruct (DrainCs_inv _ _ _ _ H) as ([|n] & k & coll & r & -> & Hc); [contradiction|]. revert Hc. unfold_next G E.
    rewrite Hm. destruct (mk n c cmd) as [g|e|] eqn:Hg; cbn [lift_mk obind ContCs]; try contradiction.
    intros Hc. apply DrainCs_cont in Hc. destruct (Hloop _ _ g _ Hc) as [H1 _]. destruct (H1 eq_refl) as (ts & Ht & Hall).
    eapply Pr_cons; eassumption.
Qed.

Lemma get_value_no_stop : forall nx cmd coll r r', get_value G nx cmd coll r <> OStop r'.
Proof.
  intros nx cmd coll. induction coll as [|[[cmd' g] v] coll IH]; intros r r'; cbn [get_value]; [discriminate|].
  destruct (cmd_eqb cmd' cmd); [destruct (nx g r) as [[]| | |]; discriminate|].
  specialize (IH r). destruct (get_value G nx cmd coll r) as [[]| | |]; cbn; try discriminate. now destruct (IH r0).
Qed.
Lemma next_cs_no_stop : forall n c coll cs r r', next_cs n c coll cs r <> OStop r'.
Proof.
  induction n as [|n IH]; intros c coll cs r r'; [discriminate|]. unfold_next G E.
  destruct cs as [[|cmd rest]|cmd rest|g rest|g rest t cs|].
  - discriminate.
  - destruct (is_nonfinite _); [apply IH|]. destruct (mk n c cmd); cbn [lift_mk obind]; try discriminate. apply IH.
  - specialize (IH c coll rest r). destruct (next_cs n c coll rest r) as [[[[a cs']|] coll'] r1|r1|e r1|]; cbn [obind]; try discriminate.
    + pose proof (get_value_no_stop (next n) cmd coll' r1) as Hg.
      destruct (get_value G (next n) cmd coll' r1) as [[[]] | | |]; cbn [obind]; try discriminate. now destruct (Hg r0).
    + now destruct (IH r1).
  - destruct (next n g r) as [[]| | |]; try discriminate. apply IH.
  - pose proof (IH c coll cs r) as Hs. destruct (next_cs n c coll cs r) as [[[[a cs']|] coll'] r1|r1|e r1|]; cbn [obind]; try discriminate.
    + apply IH.
    + now destruct (Hs r1).
  - discriminate.
Qed.

Lemma drained_seq : forall c sep coll cs ts, Drained (GCSeqLoop c sep coll cs) ts ->
  exists arrs, DrainedCs c cs arrs /\ ts = map (fun a => joined a sep) arrs.
Proof.
  intros c sep coll cs ts [K H]. revert coll cs ts H. induction K as [K IH] using lt_wf_ind. intros coll cs ts H.
  destruct (Drain_inv _ _ _ H) as ([|n] & k & r & -> & Hc); [contradiction|]. revert Hc. unfold_next G E.
  destruct (next_cs n c coll cs r) as [[[[a cs']|] coll'] r1|r1|e r1|] eqn:Hn; cbn [obind Cont]; try contradiction.
  - intros (ts' & -> & H'). destruct (IH k ltac:(lia) _ _ _ H') as (arrs & [k1 Ha] & ->).
    exists (a :: arrs). split; [exists (n + k1); eapply DrCs_val; eassumption|reflexivity].
  - intros ->. exists []. split; [exists (n + 0); eapply DrCs_stop; eassumption|reflexivity].
  - exfalso. eapply next_cs_no_stop; eassumption.
Qed.

Lemma drained_var : forall c sep todo cur seen ts, Drained (GCVarLoop c sep todo cur seen) ts ->
  (forall b st, cur = Some (b, st) -> exists arrs, DrainedCp c st arrs /\
     forall a, In a arrs -> NoDup a -> Z.of_nat (length a) = b -> In a seen \/ In (joined a sep) ts) /\
  (forall b combo, In (b, combo) todo -> exists arrs, DrainedCp c (CPStart combo) arrs /\
     forall a, In a arrs -> NoDup a -> Z.of_nat (length a) = b -> In a seen \/ In (joined a sep) ts).
Proof.
  intros c sep todo cur seen ts [K H]. revert todo cur seen ts H. induction K as [K IH] using lt_wf_ind.
  intros todo cur seen ts H.
  destruct (Drain_inv _ _ _ H) as ([|n] & k & r & -> & Hc); [contradiction|]. revert Hc. unfold_next G E.
  destruct cur as [[b st]|].
  - destruct (next_cp n c st r) as [[a st'] r1|r1|e r1|] eqn:Hn; cbn [Cont]; try contradiction.
    + cbn zeta. destruct (Z.eqb (Z.of_nat (length (dedupe a))) b && negb (existsb (arr_eqb (dedupe a)) seen)) eqn:Hk; cbn [Cont].
      * intros (ts' & -> & H'). destruct (IH k ltac:(lia) _ _ _ _ H') as [H1 H2].
        assert (Hstep : forall a0, In a0 (dedupe a :: seen) \/ In (joined a0 sep) ts' ->
                  In a0 seen \/ In (joined a0 sep) (joined (dedupe a) sep :: ts')).
        { intros a0 [[<-|Hs]|Ht]; [right; now left|now left|right; now right]. }
        split.
        -- intros b0 st0 [= <- <-]. destruct (H1 b st' eq_refl) as (arrs & [k1 Ha] & Hall).
           exists (a :: arrs). split; [exists (n + k1); eapply DrCp_val; eassumption|].
           intros a0 [<-|Hin] Hnd Hl; [|now apply Hstep, Hall].
           rewrite (dedupe_id a Hnd). right. now left.
        -- intros b0 combo Hin. destruct (H2 b0 combo Hin) as (arrs & Ha & Hall). exists arrs. split; [assumption|].
           intros a0 Hi Hnd Hl. now apply Hstep, Hall.
      * intros Hc. apply Drain_cont in Hc. destruct (IH (n + k) ltac:(lia) _ _ _ _ Hc) as [H1 H2]. split; [|assumption].
        intros b0 st0 [= <- <-]. destruct (H1 b st' eq_refl) as (arrs & [k1 Ha] & Hall).
        exists (a :: arrs). split; [exists (n + k1); eapply DrCp_val; eassumption|].
        intros a0 [<-|Hin] Hnd Hl; [|now apply Hall]. left. rewrite (dedupe_id a Hnd) in Hk.
        rewrite Hl, Z.eqb_refl in Hk. cbn in Hk. apply negb_false_iff in Hk. now apply existsb_arr in Hk.
    + intros Hc. apply Drain_cont in Hc. destruct (IH (n + k) ltac:(lia) _ _ _ _ Hc) as [_ H2]. split; [|assumption].
      intros b0 st0 [= <- <-]. exists []. split; [exists (n + 0); eapply DrCp_stop; eassumption|intros a []].
  - destruct todo as [|[b combo] todo]; cbn [Cont].
    + intros ->. split; [discriminate|intros b combo []].
    + intros Hc. apply Drain_cont in Hc. destruct (IH (n + k) ltac:(lia) _ _ _ _ Hc) as [H1 H2]. split; [discriminate|].
      intros b0 combo0 [[= <- <-]|Hin]; [exact (H1 b (CPStart combo) eq_refl)|auto].
Qed.

(** * Names *)
Lemma one_name : forall c sc w path, Agrees c sc -> OneName E w -> Path E sc w path -> Names G E c w path.
Proof.
  intros c sc w path (_ & Hi & _) Hone H. inversion H as [? ? cmd t u Hr Hp Ht]; subst.
  destruct (Hone _ Hr) as (s & m & ->). inversion Hp as [? ? ? Hb]; subst. inversion Hb; subst.
  apply Tidy_fun in Ht. exists 4. intros n r Hn. unfold sample_path, first_of.
  assert (Hg : sample_prompts E n c w (Some 1) =
    MOk (GSlice 1 (let g := match chosen_method c (Lit t m) with Combinatorial => GOnce t | _ => GRepeat t end in
                   if c_ignws c then GSquash g else g))).
  { unfold sample_prompts. destruct n as [|n]; [lia|].
    inversion Hr as [s' cmd Hne Hpa|cmd Hne]; subst; cbn [truthy negb].
    - destruct s' as [|x s']; [congruence|]. rewrite Hpa. cbn [mk]. destruct (chosen_method c (Lit t m)); reflexivity.
    - cbn [mk]. destruct (chosen_method c (Lit t m)); reflexivity. }
  rewrite Hg. cbn [lift_mk obind]. rewrite <- Hi in Ht. subst path. clear -Hn.
  destruct n as [|[|[|n]]]; try lia. all: unfold_next G E; destruct (c_ignws c), (chosen_method c (Lit t m)); reflexivity.
Qed.

(** * Completeness *)
Section Complete.
Hypothesis Hvals : ExhaustiveValues E.
Notation Ex := (Exhaustive E).
Notation ExScope := (ExhaustiveScope E).

Definition Complete (sc : scope) (cmd : command) (t : text) : Prop :=
  forall c n g ts, Agrees c sc -> ExScope sc -> Ex cmd -> mk n c cmd = MOk g -> Drained g ts -> In t ts.

Lemma start : forall n c cmd g, c_method c = Combinatorial -> Ex cmd -> mk n c cmd = MOk g ->
  match cmd with
  | Lit s _ => g = GOnce s
  | Seq tokens sep _ => g = GCSeqStart c tokens sep
  | Var opts lo hi sep _ => g = GCVarStart c opts lo hi sep
  | Wild w _ vars => g = GCWildStart c w vars
  | Wrap w i _ => g = GCWrapStart c w i
  | Assign _ _ _ _ => False
  | Access x d => exists n' v, resolve_access c x d = Some v /\ mk n' (inside x c) v = MOk g
  end.
Proof.
  intros [|n] c cmd g Hc Hx H; [discriminate|]. cbn [mk] in H.
  rewrite (chosen_comb _ _ Hc (Ex_finite _ _ Hx)), (with_method_comb _ Hc) in H.
  destruct cmd; try (injection H as <-; reflexivity); [discriminate|].
  destruct (resolve_access c name default) as [v|]; [|discriminate].
  unfold for_sampling_variable in H. destruct (str_mem name (c_busy c)); [discriminate|]. exists n, v. now split.
Qed.

Lemma scope_method : forall c sc, Agrees c sc -> ExScope sc -> c_method c = Combinatorial.
Proof. intros c sc (H & _) (Hm & _). congruence. Qed.

Lemma effective_finite : forall c cmd, c_method c = Combinatorial -> Ex cmd -> is_nonfinite (effective_method c cmd) = false.
Proof. intros c cmd Hc Hx. exact (finite_mark_in c cmd Hc (Ex_finite _ _ Hx)). Qed.

Lemma product_complete : forall sc c cmds parts, Agrees c sc -> ExScope sc -> Forall Ex cmds ->
  Forall2 (Complete sc) cmds parts -> forall arrs, Product c cmds arrs -> In parts arrs.
Proof.
  intros sc c cmds parts Ha Hs Hf H. revert Hf. induction H as [|cmd t cmds parts Ht H IH]; intros Hf arrs Hp.
  - inversion Hp; subst. assumption.
  - inversion Hf; subst. inversion Hp as [|? ? ? n g ts Hg Hd Hall]; subst.
    destruct (Hall t) as (sub & Hsub & Hi); [eapply Ht; eassumption|].
    apply Hi, in_map. now apply IH.
Qed.

Lemma sampled_prompt : forall c p cmd n g us, Reads E p cmd -> sample_prompts E n c p None = MOk g -> Drained g us ->
  exists g' ts, mk n c cmd = MOk g' /\ Drained g' ts /\ us = map (fun t => if c_ignws c then squash_whitespace t else t) ts.
Proof.
  intros c p cmd n g us Hr Hg Hd. unfold sample_prompts in Hg.
  assert (Hf : match p with WStr [] => true | WStr _ => false | WCmd cmd => negb (truthy cmd) end = false /\
               match p with WStr s => env_parse E s | WCmd cmd => Ok cmd end = Ok cmd).
  { inversion Hr as [s cmd' Hne Hpa|cmd' Hne]; subst.
    - destruct s; [congruence|]. now split.
    - apply truthy_Nonempty in Hne. now rewrite Hne. }
  destruct Hf as [Hf Hp]. rewrite Hf, Hp in Hg. destruct (mk n c cmd) as [g'|e|]; try discriminate. injection Hg as <-.
  destruct (c_ignws c).
  - destruct (drained_squash _ _ Hd) as (ts & Ht & ->). now exists g', ts.
  - exists g', us. split; [reflexivity|]. split; [assumption|]. symmetry. apply map_id.
Qed.

Lemma prompt_complete : forall sc c p cmd t u ts, Agrees c sc -> ExScope sc -> Ex cmd -> Reads E p cmd -> Complete sc cmd t ->
  Tidy (sc_squash sc) t u -> ListsPrompt c p ts -> In u ts.
Proof.
  intros sc c p cmd t u ts Ha Hs Hx Hr Hc Ht (n & g & us & Hg & Hd & Hi).
  destruct (sampled_prompt _ _ _ _ _ _ Hr Hg Hd) as (g' & l & Hg' & Hd' & ->). apply Hi.
  apply in_map_iff. exists t. split; [|eapply Hc; eassumption].
  destruct Ha as (_ & Hw & _). rewrite Hw. symmetry. now apply Tidy_fun.
Qed.

Theorem runs_are_complete :
  (forall sc cmd t, Produces E sc cmd t -> Complete sc cmd t) /\
  (forall sc cmd t, Body E sc cmd t -> Complete sc cmd t) /\
  (forall sc cmds ts, ProducesAll E sc cmds ts -> Forall2 (Complete sc) cmds ts) /\
  (forall sc w path, Path E sc w path -> True) /\
  (forall sc ts x o, Bound E sc ts x o -> True) /\
  (forall sc cmd, Void E sc cmd -> True) /\
  (forall sc cmd, VoidBody E sc cmd -> True).
Proof.
  apply Produces_mutind; try (intros; exact I).
  - intros sc cmd t _ IH c n g ts Ha Hs Hx. rewrite (enter_same E) in IH by assumption. now apply IH.
  - intros sc s m c n g ts Ha Hs Hx Hg Hd. apply start in Hg; [|eapply scope_method; eassumption|assumption].
    subst g. now apply drained_once.
  - (* sequence *)
    intros sc tokens sep m sc' toks parts t Hsb Hbd _ Hpl _ IH Hcomb _ c n g ts Ha Hs Hx Hg Hd.
    apply start in Hg; [|eapply scope_method; eassumption|assumption]. subst g. inversion Hx as [|? ? ? _ Hf| | | | | | |]; subst.
    destruct (ex_assigned E (scope_of c) tokens Hf) as (bs & Hbs).
    destruct (Extends_exists c bs) as (c1 & Hc1).
    destruct (assigned_run G E c c tokens bs [] toks c1 (Same_refl c) Hbs Hpl Hc1 ltac:(constructor)) as (N & d & Hsd & Hrun).
    assert (Ha' : Agrees d sc').
    { assert (H1 : Agrees c1 sc') by (eapply bound_agrees; eassumption).
      destruct Hsd as (S1 & S2 & S3 & _ & S5), H1 as (A1 & A2 & A3 & A4).
      split; [congruence|]. split; [congruence|]. split; [congruence|]. intros x. now rewrite S5. }
    assert (Hs' : ExScope sc') by (eapply ExScope_bound; eassumption).
    assert (Hft : Forall Ex toks) by (eapply Plain_Forall; eassumption).
    destruct Hd as [K Hd]. destruct (Drain_big _ _ _ Hd (S N)) as ([|n'] & k & r & Hn & Hc); [lia|].
    revert Hc. unfold_next G E. rewrite Hrun by lia. cbn [obind].
    destruct (new_collection G (next n') n' d (non_combo toks) r) as [coll r1|r1|e r1|]; cbn [obind pep479 Cont]; try contradiction.
    intros Hc. apply Drain_cont in Hc. destruct (drained_seq _ _ _ _ _ (ex_intro _ _ Hc)) as (arrs & Harr & ->).
    assert (Hfa : Forall Ex (augmented toks)).
    { constructor; [constructor; now right|]. apply Forall_app. split; [assumption|]. constructor; [constructor; now right|constructor]. }
    assert (Hmd : c_method d = Combinatorial) by (eapply scope_method; eassumption).
    apply drained_cs in Harr; [|eapply Forall_impl; [|exact Hfa]; intros cmd; now apply effective_finite].
    assert (Hin : In ([] :: parts ++ [[]]) arrs).
    { eapply (product_complete sc' d (augmented toks)); try eassumption.
      assert (Hlit : Complete sc' (Lit [] (Some Combinatorial)) []).
      { intros c0 n0 g0 ts0 Ha0 Hs0 Hx0 Hg0 Hd0. apply start in Hg0; [|eapply scope_method; eassumption|assumption].
        subst g0. now apply drained_once. }
      constructor; [exact Hlit|]. apply Forall2_app; [exact IH|]. constructor; [exact Hlit|constructor]. }
    apply in_map_iff. exists ([] :: parts ++ [[]]). split; [|assumption].
    rewrite joined_sentinels. symmetry. apply Hcomb, Hs.
  - (* choice *)
    intros sc opts lo hi sep m sel rest parts t Hl Ho _ Hperm Hsize _ _ IH Hnd Hgl c n g ts Ha Hs Hx Hg Hd.
    assert (Hm : c_method c = Combinatorial) by (eapply scope_method; eassumption).
    apply start in Hg; [|assumption|assumption]. subst g.
    inversion Hx as [| |? ? ? ? ? _ _ Hopts H0 Hsep|? ? ? ? ? ? ? ? _| | | | |]; subst; [|exfalso; apply Hl; repeat eexists].
    destruct Hd as [K Hd]. destruct (Drain_inv _ _ _ Hd) as ([|n'] & k & r & -> & Hc); [contradiction|].
    revert Hc. unfold_next G E. destruct (single_wildcard opts) as [w|] eqn:Hw.
    { exfalso. apply Hl. destruct (single_wildcard_spec _ _ Hw) as (mm & vars & q & ->). do 4 eexists. reflexivity. }
    replace (match opts with [] => OStop r | _ :: _ => next n' (GCVarLoop c sep (bound_combos opts lo hi) None []) r end)
      with (next n' (GCVarLoop c sep (bound_combos opts lo hi) None []) r) by (destruct opts; [congruence|reflexivity]).
    intros Hc. apply Drain_cont in Hc. destruct (drained_var _ _ _ _ _ _ (ex_intro _ _ Hc)) as [_ Hall].
    assert (Hin : In sel (map snd (bound_combos opts lo hi))).
    { eapply in_selections; [apply combos_Selections|now apply in_sizes| |].
      - destruct Hsep as [Hone|Hnod].
        + assert (Hlen : length sel <= 1) by (unfold clamp in Hsize; lia).
          destruct sel as [|a [|b sel]]; [constructor|constructor; [intros []|constructor]|cbn in Hlen; lia].
        + eapply Permutation_NoDup in Hnod; [|exact Hperm]. clear -Hnod.
          induction sel as [|a sel IH]; [constructor|]. inversion Hnod; subst. constructor; [|auto].
          intros Hx. apply H1. apply in_or_app. now left.
      - intros x Hxin. eapply Permutation_in; [apply Permutation_sym, Hperm|]. apply in_or_app. now left. }
    apply in_map_iff in Hin. destruct Hin as ([b combo] & Hcb & Hin). cbn in Hcb. subst combo.
    destruct (bound_combos_In _ _ _ _ _ Hin) as (Hb & _ & Hincl & _).
    destruct (Hall b sel Hin) as (arrs & Harr & Hout).
    assert (Hfs : Forall Ex sel).
    { apply Forall_forall. intros x Hxin. apply Hincl in Hxin. apply in_map_iff in Hxin. destruct Hxin as (o & <- & Hoo).
      rewrite Forall_forall in Hopts. now apply Hopts. }
    apply drained_cp in Harr; [|eapply Forall_impl; [|exact Hfs]; intros cmd; now apply effective_finite].
    assert (Hp : In parts arrs) by (eapply (product_complete sc c sel); eassumption).
    destruct (Hout parts Hp) as [[]|Ht]; [apply Hnd, Hs| |].
    + rewrite Hb. f_equal. symmetry. eapply Forall2_len; exact IH.
    + apply Glued_joined in Hgl. now subst t.
  - (* cut *) intros sc opts lo hi sep m sel v sel' rest parts t _ Hc _ _ _ _ _ _ _ c n g ts Ha Hs. destruct Hs as [Hs _]. congruence.
  - (* single *) intros sc v q lo hi sep m t Hc _ _ _ c n g ts Ha Hs. destruct Hs as [Hs _]. congruence.
  - (* lone wildcard *)
    intros sc w mw vars q lo hi sep m path opts t k0 Hpath _ Ho -> _ IH c n g ts Ha Hs Hx Hg Hd.
    assert (Hm : c_method c = Combinatorial) by (eapply scope_method; eassumption).
    apply start in Hg; [|assumption|assumption]. subst g.
    inversion Hx as [| |? ? ? ? ? _ Hnl|? ? ? ? ? ? ? ? _ Hone Hsep| | | | |]; subst; [exfalso; apply Hnl; repeat eexists|].
    pose proof (one_name _ _ _ _ Ha Hone Hpath) as Hname.
    destruct (to_variant G E c w path opts lo hi _ Hname Ho eq_refl) as (N & HN).
    destruct (Hsep _ _ Ho) as [Hnl Hse].
    set (k := Z.of_nat (length (env_lookup E path))) in *.
    assert (Hex : Ex (Var opts (Z.max 0 (Z.min (Z.min lo hi) k)) (Z.min (Z.max lo hi) k) sep None)).
    { constructor; [now left|assumption| |lia|].
      - destruct Ho as (vals & cmds & Hv & Hcm & ->). apply Forall_forall. intros o Hoo.
        apply in_map_iff in Hoo. destruct Hoo as (cmd & <- & Hcmd). cbn [fst].
        assert (Hval : exists v, In v vals /\ env_parse E v = Ok cmd).
        { clear -Hcm Hcmd. induction Hcm as [|v c0 vs cs Hv Hcm IH]; [contradiction|].
          destruct Hcmd as [->|Hcmd]; [exists v; split; [now left|assumption]|].
          destruct (IH Hcmd) as (v' & H1 & H2). exists v'. split; [now right|assumption]. }
        destruct Hval as (v & Hvin & Hvp). destruct (Listed_In _ _ Hv v Hvin) as [q' Hq'].
        eapply Hvals; eassumption.
      - destruct Hse as [Hse|Hse]; [left; lia|now right]. }
    eapply (IH c 1); [assumption|assumption|exact Hex| |].
    + cbn [mk]. rewrite (chosen_comb _ _ Hm) by now left. rewrite (with_method_comb _ Hm). reflexivity.
    + destruct Hd as [K Hd]. destruct (Drain_big _ _ _ Hd (S N)) as ([|n'] & j & r & Hn & Hc); [lia|].
      revert Hc. unfold_next G E. cbn [single_wildcard]. rewrite HN by lia. cbn [pep479 obind].
      intros Hc. eexists. eapply Drain_cont, Hc.
  - (* wildcard *)
    intros sc w m vars path sc' v cmd t u Hpath _ Hne Hx' Hdr Hr _ IH Htd c n g ts Ha Hs Hx Hg Hd.
    assert (Hm : c_method c = Combinatorial) by (eapply scope_method; eassumption).
    apply start in Hg; [|assumption|assumption]. subst g.
    inversion Hx as [| | | |? ? ? _ Hone Hvars| | | |]; subst.
    destruct (one_name _ _ _ _ Ha Hone Hpath) as (N & HN).
    destruct Hd as [K Hd]. destruct (Drain_big _ _ _ Hd (S N)) as ([|n'] & j & r & Hn & Hc); [lia|].
    revert Hc. unfold_next G E. rewrite HN by lia. cbn [pep479 obind].
    destruct (env_lookup E path) as [|i items] eqn:Hi; [congruence|]. intros Hc. apply Drain_cont in Hc.
    destruct (drained_wild _ _ _ _ (ex_intro _ _ Hc)) as [_ Hall].
    assert (Ha' : Agrees (with_variables vars c) sc').
    { eapply extended_agrees; [exact Ha| |exact Hx']. split; [apply with_variables_Extended|now destruct vars]. }
    assert (Hs' : ExScope sc') by (eapply ExScope_Extended; eassumption).
    assert (Hms : sc_method sc = Combinatorial) by apply Hs. rewrite Hms in Hdr. destruct Hdr as (q & Hin & Hq).
    eapply (prompt_complete sc' (with_variables vars c) (WStr v)); [exact Ha'|exact Hs'| |exact Hr|exact IH| |].
    + inversion Hr; subst. eapply (Hvals path); [rewrite Hi|]; eassumption.
    + destruct Hx' as [(_ & -> & _) _]. assumption.
    + apply Hall. eapply listed_drawable; [|eassumption|eassumption]. apply iterate_weighted_Listed.
  - (* missing *)
    intros sc w m vars path sc' name t Hpath _ Hmiss _ _ _ _ _ c n g ts Ha Hs Hx Hg Hd. exfalso.
    assert (Hm : c_method c = Combinatorial) by (eapply scope_method; eassumption).
    apply start in Hg; [|assumption|assumption]. subst g.
    inversion Hx as [| | | |? ? ? _ Hone Hvars| | | |]; subst.
    destruct (one_name _ _ _ _ Ha Hone Hpath) as (N & HN).
    destruct Hd as [K Hd]. destruct (Drain_big _ _ _ Hd (S N)) as ([|n'] & j & r & Hn & Hc); [lia|].
    revert Hc. unfold_next G E. rewrite HN by lia. cbn [pep479 obind]. rewrite Hmiss.
    destruct n' as [|n']; [intros []|]. unfold_next G E.
    destruct w as [s|cmd]; cbn [obind].
    + intros Hc. apply Drain_cont in Hc. eapply drained_repeat. eexists. exact Hc.
    + destruct (sample_path G E (next n') n' (with_variables vars c) (WCmd cmd) r) as [p r1|r1|e r1|]; cbn [pep479 obind Cont]; try contradiction.
      intros Hc. apply Drain_cont in Hc. eapply drained_repeat. eexists. exact Hc.
  - (* access *)
    intros sc x d cmd t Hr _ IH c n g ts Ha Hs Hx Hg Hd.
    assert (Hm : c_method c = Combinatorial) by (eapply scope_method; eassumption).
    assert (Hc : Ex cmd) by (eapply Ex_Refers; eassumption).
    apply start in Hg; [|assumption|assumption]. destruct Hg as (n' & v & Hv & Hg).
    assert (Hr' : Refers (scope_of c) x d cmd) by (eapply Agrees_Refers; eassumption).
    rewrite (Refers_resolve _ _ _ _ Hr') in Hv. injection Hv as <-.
    eapply (IH (inside x c)); [exact Ha|assumption|assumption|exact Hg|exact Hd].
  - (* wrap *)
    intros sc wrapper inner m tw ti uw ui before after _ _ IHw _ IHi Htw Hti Hcut c n g ts Ha Hs Hx Hg Hd.
    assert (Hm : c_method c = Combinatorial) by (eapply scope_method; eassumption).
    apply start in Hg; [|assumption|assumption]. subst g.
    inversion Hx as [| | | | | | | |? ? ? _ Hnw Hni Hew Hei]; subst.
    assert (Hms : sc_method sc = Combinatorial) by apply Hs. rewrite Hms in Htw, Hti. cbn in Htw, Hti. rewrite andb_true_r in *.
    destruct Hd as [K Hd]. destruct (Drain_inv _ _ _ Hd) as ([|n'] & k & r & -> & Hc); [contradiction|].
    revert Hc. unfold_next G E.
    destruct (sample_prompts E n' c (WCmd wrapper) None) as [gw|e|] eqn:Hgw; cbn [lift_mk obind Cont]; try contradiction.
    intros Hc. apply Drain_cont in Hc. destruct (drained_wrap _ _ _ _ _ (ex_intro _ _ Hc)) as [_ (ws & Hw & Hall)].
    assert (Hwin : In uw ws).
    { eapply (prompt_complete sc c (WCmd wrapper)); [exact Ha|exact Hs|exact Hew|now constructor|exact IHw|exact Htw|].
      exists n', gw, ws. split; [assumption|]. split; [assumption|apply incl_refl]. }
    destruct (Hall uw Hwin) as (n1 & gi & l & Hgi & Hl & Hi).
    assert (Hiin : In ui l).
    { eapply (prompt_complete sc c (WCmd inner)); [exact Ha|exact Hs|exact Hei|now constructor|exact IHi|exact Hti|].
      exists n1, gi, l. split; [assumption|]. split; [assumption|apply incl_refl]. }
    rewrite (wrapped_fun _ ui _ _ Hcut). now apply Hi, in_map.
  - constructor.
  - intros sc cmd cmds t ts _ IH1 _ IH2. now constructor.
Qed.

Theorem run_complete : forall c p n g f k r us r' u, ExScope (scope_of c) -> ExhaustivePrompt E p ->
  sample_prompts E n c p None = MOk g -> collect G E f k g r = (us, EndStop, r') ->
  Allowed E c p u -> In u us.
Proof.
  intros c p n g f k r us r' u Hs Hp Hg Hc (cmd & t & Hr & Ht & Htd). apply collect_drained in Hc.
  eapply (prompt_complete (scope_of c) c p cmd t); [repeat split|assumption|now apply Hp|assumption| |exact Htd|].
  - now apply (proj1 runs_are_complete).
  - exists n, g, us. split; [assumption|]. split; [assumption|apply incl_refl].
Qed.
End Complete.
End Drain.
