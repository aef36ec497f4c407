(** A variable against its value written out. *)
From Coq Require Import String NArith ZArith QArith Qcanon Bool Arith List Permutation Lia.
From Verif.Model Require Import Str Utils Command Rng Values Context Sampler.
From Verif.Spec Require Import Text Comb Items Lang Mention Inline.
From Verif.Proofs Require Import StrFacts UtilsFacts CommandFacts RngFacts CombFacts ValuesFacts DictFacts Soundness
  FuelFacts MentionFacts.
Import ListNotations.
Local Open Scope nat_scope.

Section Inline.
Variable G : rng_impl.
Variable E : env.
Variable W : text -> Prop.
Variables (x : text) (val : command).
Notation R := (rng_state G).
Notation NV := (fun y : text => y <> x).
Notation In_ := (Within E NV W).
Notation Ag := (AlikeIn E NV W).
Notation tw := (MentionFacts.tw G E NV W).
Notation twin := (MentionFacts.twin G).
Hypothesis HV : ValuesWithin E NV W.
Hypothesis Hval : In_ val.
Hypothesis Htrue : Nonempty val.
Hypothesis Hno : forall y v i o, val <> Assign y v i o.

Lemma alike_self : AlikeOn W E E. Proof. repeat split. Qed.

(** [b]: the left run has the same fuel, and may be out of fuel; otherwise it
    has one more, and the right run may be out of fuel. *)
Variable b : bool.
Definition fuels (n m : nat) : Prop := if b then n = m else n = S m.
Definition tle {A B} (p : ores G A) (q : ores G B) (Q : A -> B -> Prop) : Prop :=
  (if b then p = OFuel else q = OFuel) \/ twin p q Q.
Definition tlm (p q : mkres) : Prop :=
  (if b then p = MFuel else q = MFuel) \/ twin_mk G E NV W p q.

Lemma tle_bind : forall A B A' B' (p : ores G A) (q : ores G A') (f : A -> R -> ores G B) (g : A' -> R -> ores G B') Q1 Q,
  tle p q Q1 -> (forall a a' r, Q1 a a' -> tle (f a r) (g a' r) Q) -> tle (obind G p f) (obind G q g) Q.
Proof.
  intros A B A' B' p q f g Q1 Q [H|H] Hf.
  - left. destruct b; rewrite H; reflexivity.
  - destruct p as [a r|r|e r|], q as [a' s|s|e' s|]; cbn in H; try contradiction.
    + destruct H as [-> H]. apply Hf, H.
    + right. exact H.
    + right. exact H.
    + right. exact I.
Qed.
Lemma tle_pep : forall A B (p : ores G A) (q : ores G B) Q, tle p q Q -> tle (pep479 G p) (pep479 G q) Q.
Proof.
  intros A B p q Q [H|H]; [left; destruct b; rewrite H; reflexivity|right; now apply twin_pep].
Qed.
Lemma tle_case : forall B B' (p q : ores G (str * gen)) (f : str -> gen -> R -> ores G B) (g : str -> gen -> R -> ores G B')
    s1 s2 Q1 Q,
  tle p q Q1 -> (forall t g1 t' h1 r, Q1 (t, g1) (t', h1) -> tle (f t g1 r) (g t' h1 r) Q) -> (forall r, tle (s1 r) (s2 r) Q) ->
  tle (match p with OVal (t, g1) r => f t g1 r | OStop r => s1 r | ORaise e r => ORaise e r | OFuel => OFuel end)
      (match q with OVal (t, g1) r => g t g1 r | OStop r => s2 r | ORaise e r => ORaise e r | OFuel => OFuel end) Q.
Proof.
  intros B B' p q f g s1 s2 Q1 Q [H|H] Hf Hs.
  - left. destruct b; rewrite H; reflexivity.
  - destruct p as [[t g1] r|r|e r|], q as [[t' h1] s|s|e' s|]; cbn in H; try contradiction.
    + destruct H as [-> H]. apply Hf, H.
    + subst. apply Hs.
    + right. exact H.
    + right. exact I.
Qed.
Lemma tle_val : forall A B (a : A) (a' : B) r (Q : A -> B -> Prop), Q a a' -> tle (OVal a r) (OVal a' r) Q.
Proof. intros. right. cbn. auto. Qed.
Lemma tle_lift : forall p q r, tlm p q -> tle (lift_mk G p r) (lift_mk G q r) tw.
Proof.
  intros p q r [H|H]; [left; destruct b; rewrite H; reflexivity|right; now apply twin_lift].
Qed.
(** More fuel on the left changes nothing but exhaustion. *)
Lemma tle_mono : forall A B (p p' : ores G A) (q q' : ores G B) Q,
  twin p' q Q -> le_o G p' p -> (if b then p' = p /\ q = q' else q = q') -> tle p q' Q.
Proof.
  intros A B p p' q q' Q H Hle Hb. unfold tle. destruct b.
  - destruct Hb as [-> ->]. right. exact H.
  - subst q'. destruct Hle as [->| ->]; [|right; exact H]. left. destruct q; cbn in H; try contradiction; cbn; reflexivity.
Qed.

Lemma mk_keep : forall n m c d t, fuels n m -> Ag c d -> In_ t -> tlm (mk n c t) (mk m d t).
Proof.
  intros n m c d t Hf Hc Ht. unfold tlm. pose proof (twin_mks G E NV W m c d t Hc Ht) as HT. unfold fuels in Hf. destruct b.
  - subst m. right. exact HT.
  - subst n. destruct (le_mk m (S m) c t (Nat.le_succ_diag_r m)) as [Hl|Hl].
    + left. rewrite Hl in HT. destruct (mk m d t); cbn in HT; try contradiction; cbn; reflexivity.
    + right. rewrite <- Hl. exact HT.
Qed.

(** A context in which [x] has the value, against one that agrees elsewhere. *)
Definition Held (c d : ctx) : Prop :=
  Ag c d /\ dict_get x (c_vars c) = Some val /\ ~ In x (c_busy c).
Lemma mk_use : forall n m c d df, fuels n m -> Held c d -> tlm (mk n c (Access x df)) (mk m d val).
Proof.
  intros n m c d df Hf (Hc & Hx & Hb). 
  assert (HS : forall k, twin_mk G E NV W (mk (S k) c (Access x df)) (mk k d val)).
  { intros k. cbn [mk]. unfold resolve_access, for_sampling_variable. cbn [with_method c_vars c_unknown c_busy c_ignws].
    rewrite Hx. rewrite (proj2 (truthy_Nonempty _) Htrue).
    destruct (str_mem x (c_busy c)) eqn:Em; [apply str_mem_In in Em; contradiction|].
    apply twin_mks; [|exact Hval]. destruct Hc as (H1 & H2 & H3 & H4 & H5 & H6). 
    assert (Hm : chosen_method c (Access x df) = c_method c).
    { unfold chosen_method. cbn [sampling_method]. destruct (c_method c); reflexivity. }
    rewrite Hm. split; [exact H1|]. split; [exact H2|]. split; [exact H3|]. split; [|split; [exact H5|exact H6]].
    intros y Hy. cbn [c_busy In]. rewrite (H4 y Hy). split; [|auto]. intros [->|K]; [congruence|exact K]. }
  unfold tlm, fuels in *. destruct b.
  - subst m. destruct n as [|k]; [left; cbn; reflexivity|]. specialize (HS k).
    destruct (le_mk k (S k) d val (Nat.le_succ_diag_r k)) as [Hl|Hl].
    + left. rewrite Hl in HS. destruct (mk (S k) c (Access x df)); cbn in HS; try contradiction; cbn; reflexivity.
    + right. rewrite <- Hl. exact HS.
  - subst n. right. apply HS.
Qed.
Inductive T : command -> command -> Prop :=
| T_use : forall df, T (Access x df) val
| T_keep : forall t, In_ t -> T t t.
Lemma mk_T : forall n m c d t u, fuels n m -> Held c d -> T t u -> tlm (mk n c t) (mk m d u).
Proof.
  intros n m c d t u Hf Hc [df|t' Ht]; [now apply mk_use|]. apply mk_keep; [exact Hf|exact (proj1 Hc)|exact Ht].
Qed.

Notation tstep := (MentionFacts.tstep G E NV W).
Lemma next_tw : forall n m g h r, fuels n m -> tw g h -> tle (next G E n g r) (next G E m h r) tstep.
Proof.
  intros n m g h r Hf Hg. pose proof (proj1 (next_twin G E E NV W alike_self HV m) g h r Hg) as HT.
  unfold fuels in Hf. eapply tle_mono; [exact HT| |].
  - apply (next_fuel G E m n). destruct b; lia.
  - destruct b; [subst; auto|reflexivity].
Qed.

(** Assignments: the left side has those of [x] in addition. *)
Definition Grown (nv nw : list (str * command)) : Prop :=
  dict_sorted nv /\ dict_sorted nw /\
  (forall y, y <> x -> dict_get y nv = dict_get y nw) /\
  (forall y v, y <> x -> dict_get y nw = Some v -> In_ v) /\ (dict_get x nv = None \/ dict_get x nv = Some val) .
Lemma assign_same : forall n m c y v imm ovr r, fuels n m -> Ag c c -> y <> x -> In_ v ->
  tle (process_variable_assignment G (next G E n) n c y v imm ovr r)
      (process_variable_assignment G (next G E m) m c y v imm ovr r) (fun p q => p = q /\ In_ p).
Proof.
  intros n m c y v imm ovr r Hf Hc Hy Hv.
  pose proof (twin_assign G E E NV W m (fun g h r => proj1 (next_twin G E E NV W alike_self HV m) g h r)
    c c y v imm ovr r Hc Hy Hv) as HT.
  unfold fuels in Hf. eapply tle_mono; [exact HT| |].
  - apply le_assignment; [|destruct b; lia]. intros g s. apply (next_fuel G E m n). destruct b; lia.
  - destruct b; [subst; auto|reflexivity].
Qed.

Lemma grown_nil : Grown [] [].
Proof.
  split; [constructor|]. split; [constructor|]. split; [reflexivity|]. split; [discriminate|now left].
Qed.
Lemma grown_set : forall nv nw y v, Grown nv nw -> y <> x -> In_ v -> Grown (dict_set y v nv) (dict_set y v nw).
Proof.
  intros nv nw y v (S1 & S2 & HG & HI & HX) Hy Hv.
  split; [now apply dict_set_sorted|]. split; [now apply dict_set_sorted|]. split; [|split].
  - intros z Hz. rewrite !dict_get_set. destruct (str_eqb z y); [reflexivity|auto].
  - intros z w Hz. rewrite dict_get_set. destruct (str_eqb z y); [intros [= <-]; exact Hv|eauto].
  - rewrite dict_get_set. destruct (str_eqb x y) eqn:Exy; [apply str_eqb_eq in Exy; congruence|exact HX].
Qed.
Lemma grown_val : forall nv nw, Grown nv nw ->
  Grown (dict_set x val nv) nw /\ dict_get x (dict_set x val nv) = Some val.
Proof.
  intros nv nw (S1 & S2 & HG & HI & HX). rewrite dict_get_set, str_eqb_refl.
  split; [|reflexivity]. split; [now apply dict_set_sorted|]. split; [exact S2|]. split; [|split; [exact HI|]].
  - intros y Hy. rewrite dict_get_set. destruct (str_eqb y x) eqn:Eyx; [apply str_eqb_eq in Eyx; congruence|auto].
  - right. now rewrite dict_get_set, str_eqb_refl.
Qed.
Notation Inl := (Inlined E W x val).
Notation asg := (Assign x val false true).
Lemma loop_grown : forall n m c ts us, fuels n m -> Ag c c -> Inl ts us -> forall nv nw r, Grown nv nw ->
  In asg ts \/ dict_get x nv = Some val ->
  tle (assignments_loop G (next G E n) n c ts nv r) (assignments_loop G (next G E m) m c us nw r)
    (fun p q => Forall2 T (fst p) (fst q) /\ Grown (snd p) (snd q) /\ dict_get x (snd p) = Some val).
Proof.
  intros n m c ts us Hf Hc H. induction H as [|ts us H IH|df ts us H IH|t ts us Ht H IH]; intros nv nw r HG HX.
  - apply tle_val. cbn. destruct HX as [[]|HX]. auto.
  - cbn [assignments_loop process_variable_assignment obind]. apply IH; [apply grown_val, HG|].
    right. exact (proj2 (grown_val _ _ HG)).
  - assert (HX' : In asg ts \/ dict_get x nv = Some val).
    { destruct HX as [[K|K]|K]; [discriminate|auto|auto]. }
    assert (HR : assignments_loop G (next G E m) m c (val :: us) nw r =
        obind G (assignments_loop G (next G E m) m c us nw r) (fun '(rest, vs) r => OVal (val :: rest, vs) r)).
    { destruct val; try reflexivity. exfalso. eapply Hno; reflexivity. }
    rewrite HR. cbn [assignments_loop]. eapply tle_bind; [apply IH; eassumption|].
    intros [rest vs] [rest' vs'] r' (K1 & K2 & K3). apply tle_val. cbn [fst snd] in *.
    split; [constructor; [constructor|exact K1]|]. split; [exact K2|exact K3].
  - assert (HX' : t = asg \/ In asg ts \/ dict_get x nv = Some val).
    { destruct HX as [[K|K]|K]; auto. }
    destruct HX' as [->|HX'].
    { exfalso. inversion Ht; subst. congruence. }
    assert (Hother : tle (obind G (assignments_loop G (next G E n) n c ts nv r) (fun '(rest, vs) r => OVal (t :: rest, vs) r))
        (obind G (assignments_loop G (next G E m) m c us nw r) (fun '(rest, vs) r => OVal (t :: rest, vs) r))
        (fun p q => Forall2 T (fst p) (fst q) /\ Grown (snd p) (snd q) /\ dict_get x (snd p) = Some val)).
    { eapply tle_bind; [apply IH; eassumption|]. intros [rest vs] [rest' vs'] r' (K1 & K2 & K3).
      apply tle_val. cbn [fst snd] in *. split; [constructor; [now constructor|exact K1]|]. split; [exact K2|exact K3]. }
    destruct t as [ | | | |y v i o| | ]; try exact Hother. clear Hother. inversion Ht; subst. cbn [assignments_loop].
    eapply tle_bind; [apply assign_same; eassumption|]. intros v1 v2 r' [<- Hv].
    apply IH; [now apply grown_set|]. destruct HX' as [K|K]; [now left|right].
    rewrite dict_get_set. destruct (str_eqb x y) eqn:Exy; [apply str_eqb_eq in Exy; congruence|exact K].
Qed.
Lemma processed : forall n m c ts us r, fuels n m -> Ag c c -> ~ In x (c_busy c) -> Inl ts us -> In asg ts ->
  tle (process_variable_assignments G (next G E n) n c ts r) (process_variable_assignments G (next G E m) m c us r)
    (fun p q => Forall2 T (fst p) (fst q) /\ Held (snd p) (snd q) /\ c_method (snd p) = c_method c /\
       c_method (snd q) = c_method c).
Proof.
  intros n m c ts us r Hf Hc Hb H Hin. unfold process_variable_assignments.
  eapply tle_bind; [apply loop_grown; [exact Hf|exact Hc|exact H|exact grown_nil|now left]|].
  intros [rest vs] [rest' vs'] r' (K1 & (S1 & S2 & HG & HI & _) & K3). apply tle_val. cbn [fst snd] in *.
  split; [exact K1|]. destruct Hc as (H1 & H2 & H3 & H4 & H5 & H6).
  assert (HD : forall nv c0 y, dict_sorted nv ->
    dict_get y (c_vars (with_variables nv c0)) = match dict_get y nv with Some v => Some v | None => dict_get y (c_vars c0) end).
  { intros [|kv nv] c0 y Hs; [reflexivity|]. unfold with_variables. cbn [c_vars].
    apply dict_get_update_nodup, dict_sorted_NoDup, Hs. }
  assert (HF : forall nv, c_method (with_variables nv c) = c_method c /\ c_ignws (with_variables nv c) = c_ignws c /\
     c_unknown (with_variables nv c) = c_unknown c /\ c_busy (with_variables nv c) = c_busy c) by (intros [|kv nv]; auto).
  destruct (HF vs) as (F1 & F2 & F3 & F4), (HF vs') as (F1' & F2' & F3' & F4').
  split; [|auto]. split; [|split].
  - split; [congruence|]. split; [congruence|]. split; [congruence|]. split; [rewrite F4, F4'; reflexivity|].
    split; [rewrite F3; exact H5|]. intros y Hy. cbn [scope_of sc_var]. rewrite !HD by assumption. rewrite (HG y Hy).
    destruct (dict_get y vs') as [v|] eqn:Ev; [split; [reflexivity|]|split; [reflexivity|apply (H6 y Hy)]].
    intros v' [= <-]. eapply HI; eassumption.
  - rewrite HD by assumption. now rewrite K3.
  - rewrite F4. exact Hb.
Qed.

(** Parts made and run. *)
Lemma made_all : forall n m c d ts us r, fuels n m -> Held c d -> Forall2 T ts us ->
  tle (mk_all G n c ts r) (mk_all G m d us r) (Forall2 tw).
Proof.
  intros n m c d ts us r Hf Hc H. revert r. induction H as [|t u ts us Ht _ IH]; intros r; cbn [mk_all].
  - apply tle_val. constructor.
  - eapply tle_bind; [apply tle_lift, mk_T; eassumption|]. intros g h r' Hg.
    eapply tle_bind; [apply IH|]. intros gs hs r'' Hgs. apply tle_val. constructor; assumption.
Qed.
Lemma advanced_all : forall n m gs hs r, fuels n m -> Forall2 tw gs hs ->
  tle (advance_all G (next G E n) gs r) (advance_all G (next G E m) hs r)
    (Forall2 (fun p q => tw (fst p) (fst q) /\ snd p = snd q)).
Proof.
  intros n m gs hs r Hf H. revert r. induction H as [|g h gs hs Hg _ IH]; intros r; cbn [advance_all].
  - apply tle_val. constructor.
  - eapply tle_bind; [apply next_tw; eassumption|]. intros [t g'] [u h'] r' [E' Hg']. cbn in E', Hg'. subst u.
    eapply tle_bind; [apply IH|]. intros ps qs r'' Hps. apply tle_val. constructor; auto.
Qed.

(** Combinatorial sequences. *)
Section Comb.
Hypothesis Hmark : sampling_method val = None.
Inductive en : command * gen * option str -> command * gen * option str -> Prop :=
| en_one : forall t u g h v, T t u -> tw g h -> en (t, g, v) (u, h, v).
Inductive ics : cseq -> cseq -> Prop :=
| ics_start : forall ts us, Forall2 T ts us -> ics (CSStart ts) (CSStart us)
| ics_non : forall t cs ds, sampling_method t <> None -> ics cs ds -> ics (CSNon t cs) (CSNon t ds)
| ics_fin : forall g h ts us, tw g h -> Forall2 T ts us -> ics (CSFin g ts) (CSFin h us)
| ics_fin2 : forall g h ts us t cs ds, tw g h -> Forall2 T ts us -> ics cs ds ->
    ics (CSFin2 g ts t cs) (CSFin2 h us t ds)
| ics_done : ics CSDone CSDone.
Lemma same_match : forall t u cmd, T t u -> sampling_method cmd <> None -> cmd_eqb t cmd = cmd_eqb u cmd.
Proof.
  intros t u cmd [df|t' _] Hc; [|reflexivity].
  destruct (cmd_eqb_spec (Access x df) cmd) as [<-|_]; [exfalso; now apply Hc|].
  destruct (cmd_eqb_spec val cmd) as [<-|_]; [exfalso; now apply Hc|reflexivity].
Qed.
Lemma collected : forall n m c d ts us r, fuels n m -> Held c d -> Forall2 T ts us ->
  tle (new_collection G (next G E n) n c ts r) (new_collection G (next G E m) m d us r) (Forall2 en).
Proof.
  intros n m c d ts us r Hf Hc H. unfold new_collection. eapply tle_bind; [apply made_all; eassumption|].
  intros gs hs r' Hg. eapply tle_bind; [apply advanced_all; eassumption|]. intros ps qs r'' Hps. apply tle_val.
  clear - Hps H. revert ts us H. induction Hps as [|[g v] [h u] ps qs [Hx Hv] _ IH]; intros ts us H;
    destruct H as [|t t' ts us Ht H]; cbn; constructor; auto.
  cbn in Hx, Hv. subst u. constructor; assumption.
Qed.
Lemma got_value : forall n m cmd k l r, fuels n m -> sampling_method cmd <> None -> Forall2 en k l ->
  tle (get_value G (next G E n) cmd k r) (get_value G (next G E m) cmd l r)
    (fun p q => fst p = fst q /\ Forall2 en (snd p) (snd q)).
Proof.
  intros n m cmd k l r Hf Hm H. revert r. induction H as [|p q k l Hp Hk IH]; intros r; cbn [get_value]; [right; cbn; auto|].
  destruct Hp as [t u g h v Ht Hg]. rewrite <- (same_match t u cmd Ht Hm). destruct (cmd_eqb t cmd).
  - apply (tle_case _ _ (next G E n g r) (next G E m h r)
      (fun t0 g' r => OVal (v, (t, g', Some t0) :: k) r) (fun t0 g' r => OVal (v, (u, g', Some t0) :: l) r)
      (fun r => OVal (v, (t, GDone, None) :: k) r) (fun r => OVal (v, (u, GDone, None) :: l) r) tstep).
    + now apply next_tw.
    + intros t0 g' t1 h' r' [E' Hg']. cbn in E', Hg'. subst t1. apply tle_val. split; [reflexivity|].
      constructor; [constructor; assumption|exact Hk].
    + intros r'. apply tle_val. split; [reflexivity|]. constructor; [constructor; [assumption|constructor]|exact Hk].
  - eapply tle_bind; [apply IH|]. intros [v' k'] [v'' l'] r' [E' Hk']. cbn in E', Hk'. subst v''. apply tle_val.
    split; [reflexivity|]. constructor; [constructor; assumption|exact Hk'].
Qed.
Definition ics_res (p q : option (list str * cseq) * list (command * gen * option str)) : Prop :=
  Forall2 en (snd p) (snd q) /\
  match fst p, fst q with
  | Some (a, cs'), Some (a', ds') => a = a' /\ ics cs' ds'
  | None, None => True
  | _, _ => False
  end.
Lemma next_ics : forall m n c d k l cs ds r, fuels n m -> Held c d -> c_method c = Combinatorial ->
  Forall2 en k l -> ics cs ds -> tle (next_cs G E n c k cs r) (next_cs G E m d l ds r) ics_res.
Proof.
  induction m as [|m IH]; intros n c d k l cs ds r Hf Hc HC Hk Hcs.
  { unfold fuels in Hf. unfold tle. destruct b; [subst n|]; left; reflexivity. }
  assert (Hn : exists n', n = S n' /\ fuels n' m) by (unfold fuels in *; destruct b; [exists m|exists (S m)]; subst; auto).
  destruct Hn as (n' & -> & Hf'). clear Hf. rename n' into n.
  destruct Hcs as [ts us H|t cs ds Ht Hcs|g h ts us Hg H|g h ts us t cs ds Hg H Hcs|]; unfold_next G E.
  - destruct H as [|t u ts us Ht H].
    + apply tle_val. split; [exact Hk|]. split; [reflexivity|constructor].
    + assert (Hd : c_method d = Combinatorial) by (rewrite <- HC; symmetry; apply (proj1 Hc)).
      destruct Ht as [df|t Ht].
      * unfold effective_method. cbn [sampling_method]. rewrite Hmark, HC, Hd. cbn [is_nonfinite].
        eapply tle_bind; [apply tle_lift, mk_use; eassumption|]. intros g h r' Hg. apply IH; auto. constructor; assumption.
      * rewrite (effective_alike E NV W c d t (proj1 Hc)). destruct (is_nonfinite (effective_method d t)) eqn:Ei.
        -- apply IH; auto. constructor; [|constructor; exact H]. intros K. unfold effective_method in Ei. rewrite K, Hd in Ei. discriminate.
        -- eapply tle_bind; [apply tle_lift, mk_keep; [eassumption|exact (proj1 Hc)|exact Ht]|].
           intros g h r' Hg. apply IH; auto. constructor; assumption.
  - eapply tle_bind; [apply IH; eassumption|]. intros [p k'] [q l'] r' [K1 K2]. cbn [fst snd] in *.
    destruct p as [[a cs']|], q as [[a' ds']|]; try contradiction; [|apply tle_val; split; [exact K1|exact I]].
    destruct K2 as [<- K2]. eapply tle_bind; [apply got_value; eassumption|].
    intros [v k2] [u l2] r'' [E' K3]. cbn in E', K3. subst u.
    destruct v; apply tle_val; (split; [exact K3|]); (split; [reflexivity|]); constructor; assumption.
  - apply (tle_case _ _ (next G E n g r) (next G E m h r)
      (fun t g' r => next_cs G E n c k (CSFin2 g' ts t (CSStart ts)) r)
      (fun t g' r => next_cs G E m d l (CSFin2 g' us t (CSStart us)) r)
      (fun r => OVal (None, k) r) (fun r => OVal (None, l) r) tstep).
    + now apply next_tw.
    + intros t g' t' h' r' [E' Hg']. cbn in E', Hg'. subst t'. apply IH; auto. constructor; auto. constructor. exact H.
    + intros r'. apply tle_val. split; [exact Hk|exact I].
  - eapply tle_bind; [apply IH; eassumption|]. intros [p k'] [q l'] r' [K1 K2]. cbn [fst snd] in *.
    destruct p as [[a cs']|], q as [[a' ds']|]; try contradiction.
    + destruct K2 as [<- K2]. apply tle_val. split; [exact K1|]. split; [reflexivity|]. constructor; assumption.
    + apply IH; auto. constructor; assumption.
  - apply tle_val. split; [exact Hk|exact I].
Qed.
End Comb.

Inductive inl : gen -> gen -> Prop :=
| inl_start : forall c ts us sep, Ag c c -> ~ In x (c_busy c) -> Inl ts us -> In asg ts ->
    inl (GSeqStart c ts sep) (GSeqStart c us sep)
| inl_cstart : forall c ts us sep, sampling_method val = None -> c_method c = Combinatorial ->
    Ag c c -> ~ In x (c_busy c) -> Inl ts us -> In asg ts ->
    inl (GCSeqStart c ts sep) (GCSeqStart c us sep)
| inl_cloop : forall c d sep k l cs ds, sampling_method val = None -> c_method c = Combinatorial ->
    Held c d -> Forall2 en k l -> ics cs ds -> inl (GCSeqLoop c sep k cs) (GCSeqLoop d sep l ds)
| inl_tw : forall g h, tw g h -> inl g h
| inl_squash : forall g h, inl g h -> inl (GSquash g) (GSquash h)
| inl_slice : forall n g h, inl g h -> inl (GSlice n g) (GSlice n h).
Definition istep (p q : str * gen) : Prop := fst p = fst q /\ inl (snd p) (snd q).
Lemma istep_tw : forall A B (p : ores G A) (q : ores G B) (Q Q' : A -> B -> Prop),
  tle p q Q -> (forall a a', Q a a' -> Q' a a') -> tle p q Q'.
Proof. intros A B p q Q Q' [H|H] HQ; [now left|right]. eapply twin_impl; eassumption. Qed.
Lemma T_filter : forall f ts us, Forall2 T ts us -> (forall t u, T t u -> f t = f u) ->
  Forall2 T (filter f ts) (filter f us).
Proof.
  intros f ts us H Hf. induction H as [|t u ts us Ht _ IH]; cbn; [constructor|]. rewrite (Hf t u Ht).
  destruct (f u); [constructor; assumption|exact IH].
Qed.
Lemma next_inl : forall m n g h r, fuels n m -> inl g h -> tle (next G E n g r) (next G E m h r) istep.
Proof.
  induction m as [|m IH]; intros n g h r Hf Hg.
  { unfold fuels in Hf. unfold tle. destruct b; [subst n|]; left; reflexivity. }
  assert (Hn : exists n', n = S n' /\ fuels n' m) by (unfold fuels in *; destruct b; [exists m|exists (S m)]; subst; auto).
  destruct Hg as [c ts us sep Hc Hb Hi Ha|c ts us sep Hm HC Hc Hb Hi Ha|c d sep k l cs ds Hm HC Hc Hk Hcs|g h Hg|g h Hg|j g h Hg].
  4: { eapply istep_tw; [apply next_tw; eassumption|]. intros p q [H1 H2]. split; [exact H1|now apply inl_tw]. }
  all: destruct Hn as (n' & -> & Hf'); clear Hf; rename n' into n; unfold_next G E.
  - apply tle_pep. eapply tle_bind; [apply processed; eassumption|].
    intros [tk c'] [tk' d'] r' (K1 & K2 & _). cbn [fst snd] in *.
    eapply tle_bind; [apply made_all; eassumption|]. intros gs hs r'' Hgs. apply IH; [exact Hf'|].
    apply inl_tw. constructor. exact Hgs.
  - eapply tle_bind with (Q1 := fun p q => Forall2 en (fst p) (fst q) /\ Forall2 T (fst (snd p)) (fst (snd q)) /\
         Held (snd (snd p)) (snd (snd q)) /\ c_method (snd (snd p)) = Combinatorial).
    + apply tle_pep. eapply tle_bind; [apply processed; eassumption|].
      intros [tk c'] [tk' d'] r' (K1 & K2 & K3 & _). cbn [fst snd] in *.
      eapply tle_bind; [apply collected; [exact Hf'|exact K2|]|].
      * unfold non_combo. apply T_filter; [exact K1|]. intros t u [df|t' _]; [|reflexivity].
        rewrite Hm. reflexivity.
      * intros k l r'' Hk. apply tle_val. cbn [fst snd]. rewrite <- HC. auto.
    + intros [k [tk c']] [l [tk' d']] r' (K1 & K2 & K3 & K4). cbn [fst snd] in *.
      apply IH; [exact Hf'|]. apply inl_cloop; auto. constructor. unfold augmented.
      constructor; [constructor; constructor|]. apply Forall2_app; [exact K2|]. repeat constructor.
  - eapply tle_bind; [apply next_ics; eassumption|]. intros [p k'] [q l'] r' [K1 K2]. cbn [fst snd] in *.
    destruct p as [[a cs']|], q as [[a' ds']|]; try contradiction; [|right; reflexivity].
    destruct K2 as [<- K2]. apply tle_val. split; [reflexivity|]. apply inl_cloop; assumption.
  - eapply tle_bind; [apply IH; eassumption|]. intros [t g'] [u h'] r' [E' K]. cbn in E', K. subst u.
    apply tle_val. split; [reflexivity|]. apply inl_squash. exact K.
  - destruct j; [right; reflexivity|].
    eapply tle_bind; [apply IH; eassumption|]. intros [t g'] [u h'] r' [E' K]. cbn in E', K. subst u.
    apply tle_val. split; [reflexivity|]. apply inl_slice. exact K.
Qed.

(** How runs end. *)
Definition same_end (e e' : run_end) : Prop :=
  match e, e' with
  | EndLimit _, EndLimit _ | EndStop, EndStop | EndFuel, EndFuel => True
  | EndRaise p, EndRaise q => p = q
  | _, _ => False
  end.
Lemma collect_inl : forall n f f' g h r, fuels f f' -> inl g h ->
  let '(ts, e, s) := collect G E f n g r in
  let '(us, e', s') := collect G E f' n h r in
  (if b then s = None else s' = None) \/ (ts = us /\ s = s' /\ same_end e e').
Proof.
  induction n as [|n IH]; intros f f' g h r Hf Hg; cbn [collect]; [right; cbn; auto|].
  destruct (next_inl f' f g h r Hf Hg) as [HT|HT].
  - destruct (match next G E f g r with OVal _ _ => _ | _ => _ end) as [[ts e] s] eqn:E1.
    destruct (match next G E f' h r with OVal _ _ => _ | _ => _ end) as [[us e'] s'] eqn:E2.
    left. destruct b; rewrite HT in *; congruence.
  - destruct (next G E f g r) as [[t g'] r1|r1|e r1|], (next G E f' h r) as [[t' h'] r2|r2|e' r2|]; cbn in HT; try contradiction.
    + destruct HT as [-> [E' Hg']]. cbn in E', Hg'. subst t'. specialize (IH f f' g' h' r2 Hf Hg').
      destruct (collect G E f n g' r2) as [[ts e] s], (collect G E f' n h' r2) as [[us e'] s'].
      destruct IH as [K|(-> & -> & K)]; [now left|right]. auto.
    + subst. right. cbn. auto.
    + destruct HT as [-> ->]. right. cbn. auto.
    + right. cbn. auto.
Qed.
End Inline.
