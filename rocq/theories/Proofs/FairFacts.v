(** Fair templates: every allowed prompt can be drawn. *)
From Coq Require Import String NArith ZArith QArith Qcanon Bool Arith List Permutation Lia.
From Verif.Model Require Import Str Utils Command Rng Values Context Sampler.
From Verif.Spec Require Import Text Comb Items Lang StreamRng Draws.
From Verif.Proofs Require Import StrFacts UtilsFacts CommandFacts CombFacts RngFacts ValuesFacts DictFacts
  Soundness FuelFacts RunFacts EnumFacts WildRun LiveFacts ReachFacts.
Import ListNotations.
Local Open Scope nat_scope.

Scheme Produces_mind := Minimality for Produces Sort Prop
  with Body_mind := Minimality for Body Sort Prop
  with ProducesAll_mind := Minimality for ProducesAll Sort Prop
  with Path_mind := Minimality for Path Sort Prop
  with Bound_mind := Minimality for Bound Sort Prop
  with Void_mind := Minimality for Void Sort Prop
  with VoidBody_mind := Minimality for VoidBody Sort Prop.
Combined Scheme Produces_mutind from Produces_mind, Body_mind, ProducesAll_mind, Path_mind,
  Bound_mind, Void_mind, VoidBody_mind.

Lemma Listed_In : forall l out, Listed l out -> forall v, In v out -> exists q, In (v, q) l.
Proof.
  intros l out H. induction H as [|t w n rest out _ _ IH]; intros v Hv; [destruct Hv|].
  apply in_app_or in Hv as [Hv|Hv].
  - apply repeat_spec in Hv. subst. exists w. now left.
  - destruct (IH v Hv) as (q & Hq). exists q. now right.
Qed.

Lemma total_ones : forall n, total (repeat 1%Qc n) = Q2Qc (inject_Z (Z.of_nat n)).
Proof.
  induction n as [|n IH]; [reflexivity|]. cbn [repeat total fold_right]. fold (total (repeat 1%Qc n)). rewrite IH.
  rewrite Nat2Z.inj_succ. apply Qc_is_canon. unfold Z.succ. cbn [this Q2Qc Qcplus]. rewrite !Qred_correct.
  rewrite inject_Z_plus. change (inject_Z 1) with 1%Q. ring.
Qed.

Lemma Wide_ones : forall n, (Z.of_nat n <= 140737488355328)%Z -> Wide 1%Qc (repeat 1%Qc n).
Proof.
  intros n H. split; [reflexivity|]. rewrite total_ones, Qcmult_1_l. unfold grain, Qcle.
  cbn [this Q2Qc]. rewrite !Qred_correct. rewrite <- Zle_Qle. exact H.
Qed.

Section Fairness.
Variable E : env.

Lemma Fair_enter : forall sc cmd, Fair E cmd -> sc_method sc = Random -> sc_method (enter sc cmd) = Random.
Proof.
  intros sc cmd H Hm. destruct H; cbn; rewrite Hm; destruct m as [[]|]; cbn; congruence.
Qed.

Lemma Fair_not_assign : forall cmd, Fair E cmd -> ~ is_assign cmd.
Proof. intros cmd H (n & v & i & o & ->). inversion H. Qed.

Lemma Plain_fair : forall tokens toks, Forall (Fair E) tokens -> Plain tokens toks -> toks = tokens.
Proof.
  intros tokens toks H Hp. induction Hp as [|n v i o ts ps _ IH|c ts ps Hc _ IH]; [reflexivity| |].
  - inversion H as [|? ? Hf]; subst. inversion Hf.
  - inversion H; subst. f_equal. auto.
Qed.

Lemma Binds_fair : forall sc busy tokens, Forall (Fair E) tokens -> Binds E sc busy tokens [].
Proof.
  intros sc busy tokens H. induction H as [|c tokens Hc _ IH]; constructor; [now apply Fair_not_assign|assumption].
Qed.

Hypothesis fair_values : FairValues E.

Lemma Fair_options : forall path opts, OptionsOf E path opts ->
  Forall (fun o => Fair E (fst o) /\ Wide (snd o) (map snd opts)) opts.
Proof.
  intros path opts Ho. destruct (fair_values path) as (_ & Hf & Hn). specialize (Hn _ Ho).
  destruct Ho as (vals & cmds & Hl & Hp & ->). rewrite map_length in Hn. rewrite map_map. cbn [snd].
  assert (Hones : map (fun _ : command => 1%Qc) cmds = repeat 1%Qc (length cmds)).
  { clear. induction cmds as [|c cmds IH]; cbn; [reflexivity|now rewrite IH]. }
  rewrite Hones. apply Forall_forall. intros o Ho. apply in_map_iff in Ho as (c & <- & Hc). cbn [fst snd].
  split; [|now apply Wide_ones].
  assert (Hv : forall v, In v vals -> exists q, In (v, q) (pairs (env_lookup E path))) by now apply Listed_In.
  clear Hl Hn Hones. induction Hp as [|v c' vals cmds Hvc _ IH]; [destruct Hc|].
  destruct Hc as [->|Hc].
  - destruct (Hv v) as (q & Hq); [now left|]. eapply Hf; eassumption.
  - apply IH; [assumption|]. intros v' Hv'. apply Hv. now right.
Qed.

Theorem fair_draws :
  (forall sc cmd t, Produces E sc cmd t -> Fair E cmd -> sc_method sc = Random ->
     forall busy, Draws E sc busy cmd t) /\
  (forall sc cmd t, Body E sc cmd t -> Fair E cmd -> sc_method sc = Random ->
     forall busy, DrawsBody E sc busy cmd t) /\
  (forall sc cmds ts, ProducesAll E sc cmds ts -> Forall (Fair E) cmds -> sc_method sc = Random ->
     forall busy, DrawsAll E sc busy cmds ts) /\
  (forall sc w u, Path E sc w u -> (forall c, Reads E w c -> Fair E c) -> sc_method sc = Random ->
     forall busy, DrawsPath E sc busy w u) /\
  (forall sc ts x v, Bound E sc ts x v -> NoAssign x ts -> v = sc_var sc x) /\
  (forall sc cmd, Void E sc cmd -> True) /\
  (forall sc cmd, VoidBody E sc cmd -> True).
Proof.
  apply (Produces_mutind E); try (intros; exact I).
  - intros sc cmd t _ IH Hf Hm busy. constructor; [now apply Fair_enter|]. apply IH; [assumption|now apply Fair_enter].
  - intros sc s m _ _ busy. constructor.
  - intros sc tokens sep m sc' toks parts t Hsb _ IHb Hp _ IHa _ Hgl Hf Hm busy.
    inversion Hf as [|tk sp mk Hmk Htk| | | | ]; subst. pose proof (Plain_fair _ _ Htk Hp) as ->.
    assert (Hm' : sc_method sc' = Random) by (destruct Hsb as (-> & _); assumption).
    eapply Dr_seq with (bs := []); [now apply Binds_fair| |exact Hp|now apply IHa|].
    + split; [exact Hsb|]. intros x. right. split; [tauto|]. apply IHb.
      intros v i o Hin. rewrite Forall_forall in Htk. apply Htk in Hin. inversion Hin.
    + apply Hgl. now rewrite Hm.
  - intros sc opts lo hi sep m sel rest parts t Hnl Hne H1 Hp Hk _ _ IHa _ Hgl Hf Hm busy.
    inversion Hf as [| |os l h sp mk Hmk Hb Hos| | | ]; subst.
    eapply Dr_choice; [| | |exact Hp|exact Hk| |exact Hgl].
    + specialize (H1 Hm). destruct opts as [|a [|b opts]]; cbn in *; [congruence|congruence|lia].
    + assumption.
    + eapply Forall_impl; [|exact Hos]. intros o [_ Ho]. exact Ho.
    + apply IHa; [|assumption]. apply Forall_forall. intros c Hc.
      assert (Hin : In c (map fst opts)) by (eapply Permutation_in; [symmetry; exact Hp|]; apply in_or_app; now left).
      apply in_map_iff in Hin as (o & <- & Ho). rewrite Forall_forall in Hos. now apply Hos.
  - intros sc opts lo hi sep m sel v sel' rest parts t _ Hc _ _ _ _ _ _ _ _ Hm. congruence.
  - intros sc v q lo hi sep m t _ Hnl _ IH Hf Hm busy.
    inversion Hf as [| |os l h sp mk Hmk Hb Hos| | | ]; subst. inversion Hos as [|? ? [Hv _] _]; subst.
    apply Dr_single; [assumption|now apply IH].
  - intros sc w mw vars q lo hi sep m path opts t n _ IHp Ho Hn _ IHb Hf Hm busy.
    inversion Hf as [| |os l h sp mk Hmk Hb Hos| | | ]; subst. inversion Hos as [|? ? [Hv _] _]; subst. cbn [fst] in Hv.
    eapply Dr_lone; [|exact Ho|reflexivity|].
    + apply IHp; [|assumption]. intros c Hc. inversion Hc; subst; inversion Hv; subst; auto.
    + apply IHb; [|assumption]. constructor; [discriminate|lia|now apply Fair_options with path].
  - intros sc w m vars path sc' v c t u _ IHp Hlk Hx Hd Hr _ IH Ht Hf Hm busy.
    rewrite Hm in Hd. destruct Hd as (q & Hin & _).
    assert (Hm' : sc_method sc' = Random) by (destruct Hx as ((-> & _) & _); assumption).
    destruct (fair_values path) as (Hw & Hfv & _).
    eapply Dr_wild; [|exact Hx|exact Hin| |exact Hr| |exact Ht].
    + apply IHp; [|assumption]. intros c' Hc. inversion Hc; subst; inversion Hf; subst; auto.
    + destruct Hw as [Hw|Hw]; [now left|right]. split.
      * eapply Forall_impl; [|exact Hw]. intros x [Hx0 _]. now apply Qclt_le_weak.
      * rewrite Forall_forall in Hw. apply Hw. change q with (snd (v, q)). now apply in_map.
    + apply IH; [|assumption]. inversion Hr; subst. eapply Hfv; eassumption.
  - intros sc w m vars path sc' name t _ IHp Hlk Hx Hs _ IHc Ht Hf Hm busy.
    assert (Hm' : sc_method sc' = Random) by (destruct Hx as ((-> & _) & _); assumption).
    assert (Hp : DrawsPath E sc busy w path).
    { apply IHp; [|assumption]. intros c' Hc. inversion Hc; subst; inversion Hf; subst; auto. }
    destruct w as [s|cmd].
    + rewrite (Hs s eq_refl) in *. eapply Dr_missing; eassumption.
    + eapply Dr_missing_command; [exact Hp|exact Hlk|exact Hx| |exact Ht].
      eapply IHc; [reflexivity| |assumption]. intros c' Hc. inversion Hc; subst; inversion Hf; subst; auto.
  - intros sc x d c t _ _ _ Hf. inversion Hf.
  - intros sc wrapper inner m tw ti uw ui before after _ _ IHw _ IHi Htw Hti Hcut Hf Hm busy.
    rewrite Hm in Htw, Hti. cbn [method_eqb] in Htw, Hti. rewrite andb_false_r in Htw, Hti. cbn in Htw, Hti. subst uw ui.
    inversion Hf; subst. eapply Dr_wrap; [now apply IHw|now apply IHi|exact Hcut].
  - intros sc _ _ busy. constructor.
  - intros sc c cs t ts _ IH _ IHs Hf Hm busy. inversion Hf; subst. constructor; auto.
  - intros sc w c t u Hr _ IH Ht Hf Hm busy. econstructor; [exact Hr| |exact Ht]. apply IH; auto.
  - reflexivity.
  - intros sc ts x v imm v0 (pre & post & -> & _) _ Hn. exfalso. eapply Hn. apply in_or_app. right. now left.
  - intros sc ts x v ovr (pre & post & -> & _) _ Hn. exfalso. eapply Hn. apply in_or_app. right. now left.
  - intros sc ts x s m ovr (pre & post & -> & _) _ Hn. exfalso. eapply Hn. apply in_or_app. right. now left.
  - intros sc ts x v ovr t (pre & post & -> & _) _ _ _ _ Hn. exfalso. eapply Hn. apply in_or_app. right. now left.
Qed.

Lemma fair_allowed_drawn : forall c p u, c_method c = Random ->
  (forall cmd, Reads E p cmd -> Fair E cmd) -> Allowed E c p u -> Drawn E c p u.
Proof.
  intros c p u Hm Hf (cmd & t & Hr & Ht & Hu). econstructor; [exact Hr| |exact Hu].
  apply (proj1 fair_draws); auto.
Qed.
End Fairness.
