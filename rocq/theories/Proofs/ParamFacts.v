(** A value passed to a wildcard against an assignment. *)
From Coq Require Import String NArith ZArith QArith Qcanon Bool Arith List Permutation Lia.
From Verif.Model Require Import Str Utils Command Rng Values Context Sampler.
From Verif.Spec Require Import Text Comb Items Lang Mention Param.
From Verif.Proofs Require Import StrFacts UtilsFacts CommandFacts RngFacts CombFacts ValuesFacts DictFacts Soundness
  MentionFacts.
Import ListNotations.
Local Open Scope nat_scope.

Lemma Within_more : forall E (V V' W W' : text -> Prop), (forall y, V y -> V' y) -> (forall y, W y -> W' y) ->
  forall cmd, Within E V W cmd -> Within E V' W' cmd.
Proof.
  intros E V V' W W' HVV HWW. fix IH 2. intros cmd H. destruct H.
  - constructor.
  - constructor. revert cs H. fix IHl 2. intros cs H. destruct H; constructor; [apply IH; assumption|apply IHl; assumption].
  - constructor. revert os H. fix IHl 2. intros os H. destruct H; constructor; [apply IH; assumption|apply IHl; assumption].
  - constructor.
    + intros c Hr. apply IH. auto.
    + intros sc name Hp. apply HWW. eauto.
    + revert vars H1. fix IHl 2. intros vars H1. destruct H1; constructor; [apply IH; assumption|apply IHl; assumption].
  - constructor; [auto|apply IH; assumption].
  - constructor; [auto|]. intros c Hc. apply IH. auto.
  - constructor; apply IH; assumption.
Qed.

Section Param.
Variable G : rng_impl.
Variable E : env.
Variables W0 W1 : text -> Prop.
Variables (x : text) (val : command).
Variables (w : wpath) (wm : option method) (before after : list (str * command)).
Notation R := (rng_state G).
Notation NV := (fun y : text => y <> x).
Notation TV := (fun _ : text => True).
Notation vars := (before ++ after).
Notation vars' := (before ++ (x, val) :: after).
Notation bare := (Wild w wm vars).
Notation given := (Wild w wm vars').
Notation In0 := (Within E NV W0).
Notation In1 := (Within E TV W1).
Notation Ag0 := (AlikeIn E NV W0).
Notation Ag1 := (AlikeIn E TV W1).
Notation tw0 := (MentionFacts.tw G E NV W0).
Notation tw1 := (MentionFacts.tw G E TV W1).
Notation twin := (MentionFacts.twin G).
Hypothesis HV0 : ValuesWithin E NV W0.
Hypothesis HV1 : ValuesWithin E TV W1.
Hypothesis HW : forall y, W0 y -> W1 y.
Hypothesis Hval : In1 val.
Hypothesis Hvars : Forall (fun kv => In1 (snd kv)) vars.
Hypothesis Hreads : forall cmd, Reads E w cmd -> In0 cmd.
Hypothesis Hpath : forall sc name, Path E sc w name -> W1 name.
Hypothesis Hx : ~ In x (map fst vars).

Lemma alike0 : AlikeOn W0 E E. Proof. repeat split. Qed.
Lemma alike1 : AlikeOn W1 E E. Proof. repeat split. Qed.
Lemma more : forall cmd, In0 cmd -> In1 cmd.
Proof. intros cmd. apply Within_more; auto. Qed.
Lemma bare_within : In1 bare.
Proof.
  constructor; [|exact Hpath|exact Hvars]. intros c Hr. apply more, Hreads, Hr.
Qed.

Definition Linked (c d : ctx) : Prop :=
  Ag0 c d /\ c_busy c = c_busy d /\ dict_get x (c_vars c) = Some val.
Lemma Linked_method : forall m c d, Linked c d -> Linked (with_method m c) (with_method m d).
Proof. intros m c d (H1 & H2 & H3). split; [now apply Ag_method|]. auto. Qed.
Lemma get_fold : forall (l d1 d2 : list (str * command)) y, (dict_get y d1 = dict_get y d2 \/ In y (map fst l)) ->
  dict_get y (dict_update d1 l) = dict_get y (dict_update d2 l).
Proof.
  unfold dict_update. induction l as [|[k u] l IH]; intros d1 d2 y H; cbn [fold_left].
  - destruct H as [H|[]]. exact H.
  - apply IH. cbn [map In fst snd] in *. rewrite !dict_get_set. destruct (str_eqb_spec y k) as [->|Hne]; [now left|].
    destruct H as [H|[H|H]]; [now left|congruence|now right].
Qed.
Lemma with_get : forall l c y, dict_get y (c_vars (with_variables l c)) = dict_get y (dict_update (c_vars c) l).
Proof. intros [|kv l] c y; reflexivity. Qed.
Lemma Linked_full : forall c d, Linked c d -> Ag1 (with_variables vars c) (with_variables vars' d).
Proof.
  intros c d ((H1 & H2 & H3 & H4 & H5 & H6) & Hb & Hg).
  assert (HF : forall l c, c_method (with_variables l c) = c_method c /\ c_ignws (with_variables l c) = c_ignws c /\
     c_unknown (with_variables l c) = c_unknown c /\ c_busy (with_variables l c) = c_busy c) by (intros [|kv l] c0; auto).
  destruct (HF vars c) as (F1 & F2 & F3 & F4), (HF vars' d) as (F1' & F2' & F3' & F4').
  split; [congruence|]. split; [congruence|]. split; [congruence|].
  split; [intros y _; rewrite F4, F4', Hb; reflexivity|]. split; [rewrite F3; intros u Hu; apply more, H5, Hu|].
  intros y _. cbn [scope_of sc_var]. rewrite !with_get.
  assert (HE : dict_get y (dict_update (c_vars c) vars) = dict_get y (dict_update (c_vars d) vars')).
  { rewrite map_app in Hx. unfold dict_update. rewrite !fold_left_app. cbn [fold_left fst snd].
    apply (get_fold after). rewrite dict_get_set. destruct (str_eqb_spec y x) as [->|Hne].
    - left. destruct (dict_get_update before (c_vars c) x) as [(pre & u & post & -> & _)|[_ K]].
      + exfalso. apply Hx. apply in_or_app. left. rewrite map_app. apply in_or_app. right. now left.
      + unfold dict_update in K. rewrite K. exact Hg.
    - left. apply (get_fold before). left. apply (H6 y Hne). }
  split; [exact HE|]. intros u Hu.
  destruct (dict_get_update vars (c_vars c) y) as [(pre & u' & post & El & _ & K)|[_ K]].
  - rewrite K in Hu. injection Hu as ->. rewrite Forall_forall in Hvars. apply (Hvars (y, u)). rewrite El.
    apply in_or_app. right. now left.
  - rewrite K in Hu. destruct (str_eqb_spec y x) as [->|Hne]; [rewrite Hg in Hu; injection Hu as <-; exact Hval|].
    apply more. apply (H6 y Hne). exact Hu.
Qed.

Inductive T : command -> command -> Prop :=
| T_use : T bare given
| T_keep : forall t, In0 t -> t <> bare -> t <> given -> T t t.
Lemma T_match : forall t1 u1 t2 u2, T t1 u1 -> T t2 u2 -> cmd_eqb t1 t2 = cmd_eqb u1 u2.
Proof.
  intros t1 u1 t2 u2 H1 H2. destruct (cmd_eqb_spec t1 t2) as [E1|E1], (cmd_eqb_spec u1 u2) as [E2|E2]; auto; exfalso;
    destruct H1, H2; subst; congruence.
Qed.

Inductive par : gen -> gen -> Prop :=
| par_0 : forall g h, tw0 g h -> par g h
| par_1 : forall g h, tw1 g h -> par g h
| par_rwild : forall c d, Linked c d -> par (GRWildStart c w vars) (GRWildStart d w vars')
| par_cwild : forall c d, Linked c d -> par (GCWildStart c w vars) (GCWildStart d w vars')
| par_ywild : forall c d, Linked c d -> par (GYWildStart c w vars) (GYWildStart d w vars')
| par_seq : forall c ts us sep, Ag0 c c -> Passed E W0 x val bare given ts us ->
    In (Assign x val false true) ts -> par (GSeqStart c ts sep) (GSeqStart c us sep)
| par_seql : forall gs hs sep, Forall2 par gs hs -> par (GSeqLoop gs sep) (GSeqLoop hs sep)
| par_cseq : forall c ts us sep, Ag0 c c -> Passed E W0 x val bare given ts us ->
    In (Assign x val false true) ts -> par (GCSeqStart c ts sep) (GCSeqStart c us sep)
| par_cseql : forall c d sep k l cs ds, Linked c d -> Forall2 pen k l -> pcs cs ds ->
    par (GCSeqLoop c sep k cs) (GCSeqLoop d sep l ds)
| par_squash : forall g h, par g h -> par (GSquash g) (GSquash h)
| par_slice : forall n g h, par g h -> par (GSlice n g) (GSlice n h)
with pen : command * gen * option str -> command * gen * option str -> Prop :=
| pen_one : forall t u g h v, T t u -> par g h -> pen (t, g, v) (u, h, v)
with pcs : cseq -> cseq -> Prop :=
| pcs_start : forall ts us, Forall2 T ts us -> pcs (CSStart ts) (CSStart us)
| pcs_non : forall t u cs ds, T t u -> pcs cs ds -> pcs (CSNon t cs) (CSNon u ds)
| pcs_fin : forall g h ts us, par g h -> Forall2 T ts us -> pcs (CSFin g ts) (CSFin h us)
| pcs_fin2 : forall g h ts us t cs ds, par g h -> Forall2 T ts us -> pcs cs ds ->
    pcs (CSFin2 g ts t cs) (CSFin2 h us t ds)
| pcs_done : pcs CSDone CSDone.

Definition twin_p (p q : mkres) : Prop :=
  match p, q with
  | MOk g, MOk h => par g h
  | MErr e, MErr f => e = f
  | MFuel, MFuel => True
  | _, _ => False
  end.
Lemma lift_p : forall p q r, twin_p p q -> twin (lift_mk G p r) (lift_mk G q r) par.
Proof. intros [g|e|] [h|f|] r H; cbn in *; try contradiction; auto. Qed.
Lemma mk_p : forall n c d t u, Linked c d -> T t u -> twin_p (mk n c t) (mk n d u).
Proof.
  intros n c d t u Hc Ht. destruct Ht as [|t Ht _ _].
  - destruct n as [|n]; [exact I|]. cbn [mk].
    assert (Hm : chosen_method d given = chosen_method c bare)
      by (unfold chosen_method; cbn [sampling_method]; now rewrite (proj1 (proj1 Hc))).
    rewrite Hm. destruct (chosen_method c bare) eqn:Em; cbn; constructor; rewrite <- ?Em; now apply Linked_method.
  - pose proof (twin_mks G E NV W0 n c d t (proj1 Hc) Ht) as H.
    destruct (mk n c t), (mk n d t); cbn in *; try contradiction; auto. now apply par_0.
Qed.

Definition pstep (p q : str * gen) : Prop := fst p = fst q /\ par (snd p) (snd q).
Section Step.
Variable n : nat.
Notation nx := (next G E n).
Hypothesis Hnx : forall g h r, par g h -> twin (nx g r) (nx h r) pstep.
Lemma p_rotate : forall gs hs r, Forall2 par gs hs ->
  twin (rotate_all G nx gs r) (rotate_all G nx hs r) (fun p q => fst p = fst q /\ Forall2 par (snd p) (snd q)).
Proof.
  intros gs hs r H. revert r. induction H as [|g h gs hs Hg _ IH]; intros r; cbn [rotate_all].
  - cbn. auto.
  - eapply twin_bind; [apply Hnx, Hg|]. intros [t g'] [u h'] r' [E' Hg']. cbn in E', Hg'. subst u.
    eapply twin_bind; [apply IH|]. intros [ts gs'] [us hs'] r'' [E'' Hgs]. cbn in E'', Hgs. subst us.
    cbn. auto.
Qed.
Lemma p_mk_all : forall c d ts us r, Linked c d -> Forall2 T ts us ->
  twin (mk_all G n c ts r) (mk_all G n d us r) (Forall2 par).
Proof.
  intros c d ts us r Hc H. revert r. induction H as [|t u ts us Ht _ IH]; intros r; cbn [mk_all].
  - cbn. auto.
  - eapply twin_bind; [apply lift_p, mk_p; eassumption|]. intros g h r' Hg.
    eapply twin_bind; [apply IH|]. intros gs hs r'' Hgs. cbn. auto.
Qed.
Lemma p_advance : forall gs hs r, Forall2 par gs hs ->
  twin (advance_all G nx gs r) (advance_all G nx hs r) (Forall2 (fun p q => par (fst p) (fst q) /\ snd p = snd q)).
Proof.
  intros gs hs r H. revert r. induction H as [|g h gs hs Hg _ IH]; intros r; cbn [advance_all].
  - cbn. auto.
  - eapply twin_bind; [apply Hnx, Hg|]. intros [t g'] [u h'] r' [E' Hg']. cbn in E', Hg'. subst u.
    eapply twin_bind; [apply IH|]. intros ps qs r'' Hps. cbn. auto.
Qed.
Lemma p_collection : forall c d ts us r, Linked c d -> Forall2 T ts us ->
  twin (new_collection G nx n c ts r) (new_collection G nx n d us r) (Forall2 pen).
Proof.
  intros c d ts us r Hc H. unfold new_collection. eapply twin_bind; [apply p_mk_all; eassumption|].
  intros gs hs r' Hg. eapply twin_bind; [apply p_advance, Hg|]. intros ps qs r'' Hps. cbn. split; [reflexivity|].
  clear - Hps H. revert ts us H. induction Hps as [|[g v] [h u] ps qs [Hp Hv] _ IH]; intros ts us H;
    destruct H as [|t t' ts us Ht H]; cbn; constructor; auto.
  cbn in Hp, Hv. subst u. constructor; assumption.
Qed.
Lemma p_get_value : forall t u k l r, T t u -> Forall2 pen k l ->
  twin (get_value G nx t k r) (get_value G nx u l r) (fun p q => fst p = fst q /\ Forall2 pen (snd p) (snd q)).
Proof.
  intros t u k l r Ht H. revert r. induction H as [|p q k l Hp Hk IH]; intros r; cbn [get_value]; [cbn; auto|].
  destruct Hp as [t1 u1 g h v Ht1 Hg]. rewrite (T_match t1 u1 t u Ht1 Ht). destruct (cmd_eqb u1 u).
  - pose proof (Hnx g h r Hg) as HT. destruct (nx g r) as [[t0 g'] r1|r1|e r1|], (nx h r) as [[t' h'] r2|r2|e' r2|];
      cbn in HT |- *; try contradiction; auto.
    + destruct HT as [-> [E' Hg']]. cbn in E'. subst t'. split; [reflexivity|]. split; [reflexivity|].
      constructor; [constructor; assumption|exact Hk].
    + subst r2. split; [reflexivity|]. split; [reflexivity|].
      constructor; [constructor; [assumption|apply par_0; constructor]|exact Hk].
  - eapply twin_bind; [apply IH|]. intros [v' k'] [v'' l'] r' [E' Hk']. cbn in E', Hk' |- *. subst v''.
    split; [reflexivity|]. split; [reflexivity|]. constructor; [constructor; assumption|exact Hk'].
Qed.
End Step.

Lemma next0 : forall n g h r, tw0 g h -> twin (next G E n g r) (next G E n h r) pstep.
Proof.
  intros n g h r H. eapply twin_impl; [apply (proj1 (next_twin G E E NV W0 alike0 HV0 n)), H|].
  intros p q [H1 H2]. split; [exact H1|now apply par_0].
Qed.
Lemma next1 : forall n g h r, tw1 g h -> twin (next G E n g r) (next G E n h r) pstep.
Proof.
  intros n g h r H. eapply twin_impl; [apply (proj1 (next_twin G E E TV W1 alike1 HV1 n)), H|].
  intros p q [H1 H2]. split; [exact H1|now apply par_1].
Qed.
Lemma p_path : forall n c d r, Linked c d ->
  twin (pep479 G (sample_path G E (next G E n) n c w r)) (pep479 G (sample_path G E (next G E n) n d w r))
    (fun p q => p = q /\ W1 p).
Proof.
  intros n c d r Hc. apply twin_pep. eapply twin_impl.
  - eapply twin_post with (P := Path E (scope_of c) w) (S := True).
    + apply (twin_first G E E NV W0 n (proj1 (next_twin G E E NV W0 alike0 HV0 n))).
      apply twin_prompts; [exact alike0|exact (proj1 Hc)|exact Hreads].
    + apply sample_path_ok. exact (proj1 (next_sound G E n)).
  - cbn. intros p q [-> H]. split; [reflexivity|]. eapply Hpath, H.
Qed.

(** Assignments. *)
Definition Grown (nv nw : list (str * command)) : Prop :=
  dict_sorted nv /\ dict_sorted nw /\
  (forall y, y <> x -> dict_get y nv = dict_get y nw) /\
  (forall y u, y <> x -> dict_get y nw = Some u -> In0 u).
Notation asg := (Assign x val false true).
Lemma p_loop : forall n c ts us, Ag0 c c -> Passed E W0 x val bare given ts us -> forall nv nw r, Grown nv nw ->
  In asg ts \/ dict_get x nv = Some val ->
  twin (assignments_loop G (next G E n) n c ts nv r) (assignments_loop G (next G E n) n c us nw r)
    (fun p q => Forall2 T (fst p) (fst q) /\ Grown (snd p) (snd q) /\ dict_get x (snd p) = Some val).
Proof.
  intros n c ts us Hc H. induction H as [|ts us H IH|ts us H IH|t ts us Ht N1 N2 H IH]; intros nv nw r HG HX.
  - cbn. destruct HX as [[]|HX]. auto.
  - cbn [assignments_loop process_variable_assignment obind]. destruct HG as (S1 & S2 & G1 & G2). apply IH.
    + split; [now apply dict_set_sorted|]. split; [exact S2|]. split; [|exact G2].
      intros y Hy. rewrite dict_get_set. destruct (str_eqb_spec y x); [congruence|auto].
    + right. now rewrite dict_get_set, str_eqb_refl.
  - cbn [assignments_loop]. eapply twin_bind; [apply IH; [exact HG|]|].
    + destruct HX as [[K|K]|K]; [discriminate|auto|auto].
    + intros [rest vs] [rest' vs'] r' (K1 & K2 & K3). cbn [fst snd] in *. cbn. split; [reflexivity|].
      split; [constructor; [constructor|exact K1]|]. split; [exact K2|exact K3].
  - assert (HX' : t = asg \/ In asg ts \/ dict_get x nv = Some val) by (destruct HX as [[K|K]|K]; auto).
    destruct HX' as [->|HX']; [exfalso; inversion Ht; subst; congruence|].
    assert (Hother : twin (obind G (assignments_loop G (next G E n) n c ts nv r) (fun '(rest, vs) r => OVal (t :: rest, vs) r))
        (obind G (assignments_loop G (next G E n) n c us nw r) (fun '(rest, vs) r => OVal (t :: rest, vs) r))
        (fun p q => Forall2 T (fst p) (fst q) /\ Grown (snd p) (snd q) /\ dict_get x (snd p) = Some val)).
    { eapply twin_bind; [apply IH; eassumption|]. intros [rest vs] [rest' vs'] r' (K1 & K2 & K3).
      cbn [fst snd] in *. cbn. split; [reflexivity|]. split; [constructor; [now constructor|exact K1]|]. split; [exact K2|exact K3]. }
    destruct t as [ | | | |y u i o| | ]; try exact Hother. clear Hother. inversion Ht; subst. cbn [assignments_loop].
    eapply twin_bind; [apply (twin_assign G E E NV W0 n (proj1 (next_twin G E E NV W0 alike0 HV0 n))); eassumption|].
    intros v1 v2 r' [<- Hu]. destruct HG as (S1 & S2 & G1 & G2). apply IH.
    + split; [now apply dict_set_sorted|]. split; [now apply dict_set_sorted|]. split.
      * intros z Hz. rewrite !dict_get_set. destruct (str_eqb z y); auto.
      * intros z u' Hz. rewrite dict_get_set. destruct (str_eqb z y); [intros [= <-]; exact Hu|eauto].
    + destruct HX' as [K|K]; [now left|right]. rewrite dict_get_set. destruct (str_eqb_spec x y); [congruence|exact K].
Qed.
Lemma p_assignments : forall n c ts us r, Ag0 c c -> Passed E W0 x val bare given ts us -> In asg ts ->
  twin (process_variable_assignments G (next G E n) n c ts r) (process_variable_assignments G (next G E n) n c us r)
    (fun p q => Forall2 T (fst p) (fst q) /\ Linked (snd p) (snd q)).
Proof.
  intros n c ts us r Hc H Hin. unfold process_variable_assignments.
  eapply twin_bind; [apply p_loop; [exact Hc|exact H| |now left]|].
  { split; [constructor|]. split; [constructor|]. split; [reflexivity|discriminate]. }
  intros [rest vs] [rest' vs'] r' (K1 & (S1 & S2 & HG & HI) & K3). cbn [fst snd] in *. cbn. split; [reflexivity|].
  split; [exact K1|]. destruct Hc as (H1 & H2 & H3 & H4 & H5 & H6).
  assert (HD : forall nv c0 y, dict_sorted nv ->
    dict_get y (c_vars (with_variables nv c0)) = match dict_get y nv with Some v => Some v | None => dict_get y (c_vars c0) end).
  { intros nv c0 y Hs. rewrite with_get. apply dict_get_update_nodup, dict_sorted_NoDup, Hs. }
  assert (HF : forall nv, c_method (with_variables nv c) = c_method c /\ c_ignws (with_variables nv c) = c_ignws c /\
     c_unknown (with_variables nv c) = c_unknown c /\ c_busy (with_variables nv c) = c_busy c) by (intros [|kv nv]; auto).
  destruct (HF vs) as (F1 & F2 & F3 & F4), (HF vs') as (F1' & F2' & F3' & F4').
  split; [|split; [congruence|rewrite HD by assumption; now rewrite K3]].
  split; [congruence|]. split; [congruence|]. split; [congruence|]. split; [rewrite F4, F4'; reflexivity|].
  split; [rewrite F3; exact H5|]. intros y Hy. cbn [scope_of sc_var]. rewrite !HD by assumption. rewrite (HG y Hy).
  destruct (dict_get y vs') as [u|] eqn:Ev; [split; [reflexivity|]|split; [reflexivity|apply (H6 y Hy)]].
  intros u' [= <-]. eapply HI; eassumption.
Qed.
Lemma T_filter : forall f ts us, Forall2 T ts us -> (forall t u, T t u -> f t = f u) ->
  Forall2 T (filter f ts) (filter f us).
Proof.
  intros f ts us H Hf. induction H as [|t u ts us Ht _ IH]; cbn; [constructor|]. rewrite (Hf t u Ht).
  destruct (f u); [constructor; assumption|exact IH].
Qed.
Lemma T_effective : forall c d t u, Linked c d -> T t u -> effective_method c t = effective_method d u.
Proof.
  intros c d t u Hc [|t' _ _ _]; unfold effective_method; cbn [sampling_method]; now rewrite (proj1 (proj1 Hc)).
Qed.
Lemma lit_T : forall m, T (Lit [] m) (Lit [] m).
Proof. intros m. constructor; [constructor|discriminate|discriminate]. Qed.

Theorem next_par : forall n,
  (forall g h r, par g h -> twin (next G E n g r) (next G E n h r) pstep) /\
  (forall c d k l cs ds r, Linked c d -> Forall2 pen k l -> pcs cs ds ->
     twin (next_cs G E n c k cs r) (next_cs G E n d l ds r)
       (fun p q => Forall2 pen (snd p) (snd q) /\
          match fst p, fst q with
          | Some (a, cs'), Some (b, ds') => a = b /\ pcs cs' ds'
          | None, None => True
          | _, _ => False
          end)).
Proof.
  induction n as [|n (IHg & IHcs)]; [split; intros; exact I|]. split.
  - intros g h r Hg.
    destruct Hg as [g h Hg|g h Hg|c d Hc|c d Hc|c d Hc|c ts us sep Hc HP Hi|gs hs sep Hgs|c ts us sep Hc HP Hi
      |c d sep k l cs ds Hc Hk Hcs|g h Hg|j g h Hg].
    1: now apply next0. 1: now apply next1.
    all: unfold_next G E.
    + eapply twin_bind; [apply p_path, Hc|]. intros path path' r' [<- Hp]. cbn zeta. pose proof (Linked_full c d Hc) as HA.
      destruct (env_lookup E path) as [|i items] eqn:Hl; apply next1.
      * eapply tw_fallback; [exact HA|exact bare_within].
      * eapply tw_rwildl; [exact HA|exact Hp|]. rewrite Hl. apply wgen_of_start.
    + eapply twin_bind; [apply p_path, Hc|]. intros path path' r' [<- Hp]. cbn zeta. pose proof (Linked_full c d Hc) as HA.
      destruct (env_lookup E path) as [|i items] eqn:Hl; apply next1.
      * eapply tw_fallback; [exact HA|exact bare_within].
      * constructor; [exact HA|]. apply Forall_forall. intros v Hv cmd Hpv. rewrite <- Hl in Hv.
        eapply (value_within E TV W1 HV1); eassumption.
    + eapply twin_bind; [apply p_path, Hc|]. intros path path' r' [<- Hp]. cbn zeta.
      assert (HA : Ag1 (with_method Cyclical (with_variables vars c)) (with_method Cyclical (with_variables vars' d)))
        by (apply Ag_method, Linked_full, Hc).
      destruct (env_lookup E path) as [|i items] eqn:Hl.
      * apply next1. eapply tw_fallback; [exact HA|exact bare_within].
      * eapply twin_bind; [apply (twin_sample_all G E E TV W1 alike1 n); [exact HA|]|].
        -- apply Forall_forall. intros v Hv cmd Hpv. rewrite <- Hl in Hv. eapply (value_within E TV W1 HV1); eassumption.
        -- intros gs hs r'' Hgs. apply next1. constructor. exact Hgs.
    + apply twin_pep. eapply twin_bind; [apply p_assignments; eassumption|].
      intros [tk c'] [tk' d'] r' (K1 & K2). cbn [fst snd] in *.
      eapply twin_bind; [apply p_mk_all; eassumption|]. intros gs hs r'' Hgs. apply IHg. apply par_seql. exact Hgs.
    + apply twin_pep. eapply twin_bind; [apply p_rotate; eassumption|].
      intros [ts gs'] [us hs'] r' [E' Hgs']. cbn in E', Hgs'. subst us. split; [reflexivity|]. split; [reflexivity|].
      apply par_seql. exact Hgs'.
    + eapply twin_bind with (Q1 := fun p q => Forall2 pen (fst p) (fst q) /\ Forall2 T (fst (snd p)) (fst (snd q)) /\
           Linked (snd (snd p)) (snd (snd q))).
      * apply twin_pep. eapply twin_bind; [apply p_assignments; eassumption|].
        intros [tk c'] [tk' d'] r' (K1 & K2). cbn [fst snd] in *.
        eapply twin_bind; [apply p_collection; [exact IHg|exact K2|]|].
        -- unfold non_combo. apply T_filter; [exact K1|]. intros t u [|t' _ _ _]; reflexivity.
        -- intros k l r'' Hk. cbn. auto.
      * intros [k [tk c']] [l [tk' d']] r' (K1 & K2 & K3). cbn [fst snd] in *.
        apply IHg. apply par_cseql; [exact K3|exact K1|]. constructor. unfold augmented.
        constructor; [apply lit_T|]. apply Forall2_app; [exact K2|]. constructor; [apply lit_T|constructor].
    + eapply twin_bind; [apply IHcs; eassumption|]. intros [p k'] [q l'] r' [K1 K2]. cbn [fst snd] in *.
      destruct p as [[a cs']|], q as [[b ds']|]; try contradiction; [|reflexivity].
      destruct K2 as [<- K2]. split; [reflexivity|]. split; [reflexivity|]. apply par_cseql; assumption.
    + eapply twin_bind; [apply IHg; eassumption|]. intros [t g'] [u h'] r' [E' K]. cbn in E', K. subst u.
      split; [reflexivity|]. split; [reflexivity|]. apply par_squash. exact K.
    + destruct j; [reflexivity|].
      eapply twin_bind; [apply IHg; eassumption|]. intros [t g'] [u h'] r' [E' K]. cbn in E', K. subst u.
      split; [reflexivity|]. split; [reflexivity|]. apply par_slice. exact K.
  - intros c d k l cs ds r Hc Hk Hcs.
    destruct Hcs as [ts us H|t u cs ds Ht Hcs|g h ts us Hg H|g h ts us t cs ds Hg H Hcs|]; unfold_next G E.
    + destruct H as [|t u ts us Ht H].
      * cbn. split; [reflexivity|]. split; [exact Hk|]. split; [reflexivity|constructor].
      * rewrite (T_effective c d t u Hc Ht). destruct (is_nonfinite (effective_method d u)).
        -- apply IHcs; auto. constructor; [exact Ht|constructor; exact H].
        -- eapply twin_bind; [apply lift_p, mk_p; eassumption|]. intros g h r' Hg. apply IHcs; auto. constructor; assumption.
    + eapply twin_bind; [apply IHcs; eassumption|]. intros [p k'] [q l'] r' [K1 K2]. cbn [fst snd] in *.
      destruct p as [[a cs']|], q as [[b ds']|]; try contradiction; [|cbn; auto]. destruct K2 as [<- K2].
      eapply twin_bind; [apply p_get_value; [exact IHg|exact Ht|exact K1]|]. intros [v k2] [v' l2] r'' [E' K3]. cbn in E', K3. subst v'.
      destruct v; cbn; (split; [reflexivity|]); (split; [exact K3|]); (split; [reflexivity|]); constructor; assumption.
    + pose proof (IHg g h r Hg) as HT.
      destruct (next G E n g r) as [[t g'] r1|r1|e r1|], (next G E n h r) as [[t' h'] r2|r2|e' r2|]; cbn in HT |- *; try contradiction; auto.
      destruct HT as [-> [E' Hg']]. cbn in E'. subst t'. apply IHcs; auto. constructor; auto. constructor. exact H.
    + eapply twin_bind; [apply IHcs; eassumption|]. intros [p k'] [q l'] r' [K1 K2]. cbn [fst snd] in *.
      destruct p as [[a cs']|], q as [[b ds']|]; try contradiction.
      * destruct K2 as [<- K2]. cbn. split; [reflexivity|]. split; [exact K1|]. split; [reflexivity|]. constructor; assumption.
      * apply IHcs; auto. constructor; assumption.
    + cbn. auto.
Qed.

Lemma collect_par : forall f n g h r, par g h ->
  let '(ts, e, s) := collect G E f n g r in
  let '(us, e', s') := collect G E f n h r in
  ts = us /\ s = s' /\ (e = EndStop <-> e' = EndStop) /\ forall y, e = EndRaise y <-> e' = EndRaise y.
Proof.
  intros f n. induction n as [|n IH]; intros g h r Hg; cbn [collect].
  - split; [reflexivity|]. split; [reflexivity|]. split; [split; discriminate|intros y; split; discriminate].
  - pose proof (proj1 (next_par f) g h r Hg) as HT.
    destruct (next G E f g r) as [[t g'] r1|r1|e r1|], (next G E f h r) as [[t' h'] r2|r2|e' r2|]; cbn in HT; try contradiction.
    + destruct HT as [-> [E' Hg']]. cbn in E', Hg'. subst t'. specialize (IH g' h' r2 Hg').
      destruct (collect G E f n g' r2) as [[ts e] s], (collect G E f n h' r2) as [[us e'] s'].
      destruct IH as (-> & -> & H). auto.
    + subst. repeat split; auto.
    + destruct HT as [-> ->]. repeat split; auto.
    + repeat split; auto.
Qed.
End Param.
