(** Runs in contexts and environments that agree on what is mentioned. *)
From Coq Require Import String NArith ZArith QArith Qcanon Bool Arith List Permutation Lia.
From Verif.Model Require Import Str Utils Command Rng Values Context Sampler.
From Verif.Spec Require Import Text Comb Items Lang Mention.
From Verif.Proofs Require Import StrFacts UtilsFacts CommandFacts RngFacts CombFacts ValuesFacts DictFacts Soundness.
Import ListNotations.
Local Open Scope nat_scope.

Section Mention.
Variable G : rng_impl.
Variables E1 E2 : env.
Variables V W : text -> Prop.
Notation R := (rng_state G).
Notation In_ := (Within E1 V W).
Notation Ag := (AlikeIn E1 V W).
Hypothesis HE : AlikeOn W E1 E2.
Hypothesis HV : ValuesWithin E1 V W.

(** The same outcome, with related values. *)
Definition twin {A B} (x : ores G A) (y : ores G B) (Q : A -> B -> Prop) : Prop :=
  match x, y with
  | OVal a r, OVal b s => r = s /\ Q a b
  | OStop r, OStop s => r = s
  | ORaise e r, ORaise f s => e = f /\ r = s
  | OFuel, OFuel => True
  | _, _ => False
  end.

Lemma twin_bind : forall A B A' B' (x : ores G A) (y : ores G A') (f : A -> R -> ores G B) (g : A' -> R -> ores G B') Q1 Q,
  twin x y Q1 -> (forall a b r, Q1 a b -> twin (f a r) (g b r) Q) -> twin (obind G x f) (obind G y g) Q.
Proof.
  intros A B A' B' [a r|r|e r|] [b s|s|e' s|] f g Q1 Q H Hf; cbn in *; try contradiction; auto.
  destruct H as [-> H]. auto.
Qed.
Lemma twin_pep : forall A B (x : ores G A) (y : ores G B) Q, twin x y Q -> twin (pep479 G x) (pep479 G y) Q.
Proof. intros A B [a r|r|e r|] [b s|s|e' s|] Q H; cbn in *; try contradiction; auto. Qed.
Lemma twin_impl : forall A B (x : ores G A) (y : ores G B) (Q Q' : A -> B -> Prop),
  twin x y Q -> (forall a b, Q a b -> Q' a b) -> twin x y Q'.
Proof. intros A B [a r|r|e r|] [b s|s|e' s|] Q Q' H HQ; cbn in *; try contradiction; auto. destruct H; auto. Qed.
(** A property of the left values can be added. *)
Lemma twin_post : forall A B (x : ores G A) (y : ores G B) (Q : A -> B -> Prop) (P : A -> Prop) S,
  twin x y Q -> post G x P S -> twin x y (fun a b => Q a b /\ P a).
Proof. intros A B [a r|r|e r|] [b s|s|e' s|] Q P S H HP; cbn in *; try contradiction; auto. destruct H; auto. Qed.
Lemma twin_same : forall A (x : ores G A) (P : A -> Prop) S, post G x P S -> twin x x (fun a b => a = b /\ P a).
Proof. intros A [a r|r|e r|] P S H; cbn in *; auto. Qed.

Inductive tw : gen -> gen -> Prop :=
| tw_done : tw GDone GDone
| tw_repeat : forall t, tw (GRepeat t) (GRepeat t)
| tw_once : forall t, tw (GOnce t) (GOnce t)
| tw_seq : forall c d tokens sep, Ag c d -> Forall In_ tokens -> tw (GSeqStart c tokens sep) (GSeqStart d tokens sep)
| tw_seql : forall gs hs sep, Forall2 tw gs hs -> tw (GSeqLoop gs sep) (GSeqLoop hs sep)
| tw_rvar : forall c d os lo hi sep, Ag c d -> Forall (fun o => In_ (fst o)) os ->
    tw (GRVarStart c os lo hi sep) (GRVarStart d os lo hi sep)
| tw_rvarl : forall c d os lo hi sep, Ag c d -> Forall (fun o => In_ (fst o)) os ->
    tw (GRVarLoop c os lo hi sep) (GRVarLoop d os lo hi sep)
| tw_rwild : forall c d w m vars, Ag c d -> In_ (Wild w m vars) -> tw (GRWildStart c w vars) (GRWildStart d w vars)
| tw_rwildl : forall c d name wg, Ag c d -> W name -> wgen_of G (env_lookup E1 name) wg ->
    tw (GRWildLoop c wg None) (GRWildLoop d wg None)
| tw_rwildl' : forall c d name wg g h, Ag c d -> W name -> wgen_of G (env_lookup E1 name) wg -> tw g h ->
    tw (GRWildLoop c wg (Some g)) (GRWildLoop d wg (Some h))
| tw_rwrap : forall c d w i, Ag c d -> In_ w -> In_ i -> tw (GRWrapStart c w i) (GRWrapStart d w i)
| tw_rwrapl : forall gw gi hw hi, tw gw hw -> tw gi hi -> tw (GRWrapLoop gw gi) (GRWrapLoop hw hi)
| tw_cseq : forall c d tokens sep, Ag c d -> Forall In_ tokens -> tw (GCSeqStart c tokens sep) (GCSeqStart d tokens sep)
| tw_cseql : forall c d sep k l cs ds, Ag c d -> Forall2 tw_entry k l -> tw_cs cs ds ->
    tw (GCSeqLoop c sep k cs) (GCSeqLoop d sep l ds)
| tw_cvar : forall c d os lo hi sep, Ag c d -> Forall (fun o => In_ (fst o)) os ->
    tw (GCVarStart c os lo hi sep) (GCVarStart d os lo hi sep)
| tw_cvarl : forall c d sep todo seen, Ag c d -> Forall (fun bc => Forall In_ (snd bc)) todo ->
    tw (GCVarLoop c sep todo None seen) (GCVarLoop d sep todo None seen)
| tw_cvarl' : forall c d sep todo b st su seen, Ag c d -> Forall (fun bc => Forall In_ (snd bc)) todo -> tw_cp st su ->
    tw (GCVarLoop c sep todo (Some (b, st)) seen) (GCVarLoop d sep todo (Some (b, su)) seen)
| tw_cwild : forall c d w m vars, Ag c d -> In_ (Wild w m vars) -> tw (GCWildStart c w vars) (GCWildStart d w vars)
| tw_cwildl : forall c d vals, Ag c d -> Forall (fun v => forall cmd, env_parse E1 v = Ok cmd -> In_ cmd) vals ->
    tw (GCWildLoop c vals None) (GCWildLoop d vals None)
| tw_cwildl' : forall c d vals g h, Ag c d -> Forall (fun v => forall cmd, env_parse E1 v = Ok cmd -> In_ cmd) vals ->
    tw g h -> tw (GCWildLoop c vals (Some g)) (GCWildLoop d vals (Some h))
| tw_cwrap : forall c d w i, Ag c d -> In_ w -> In_ i -> tw (GCWrapStart c w i) (GCWrapStart d w i)
| tw_cwrapl : forall c d i gw hw, Ag c d -> In_ i -> tw gw hw -> tw (GCWrapLoop c i gw None) (GCWrapLoop d i hw None)
| tw_cwrapl' : forall c d i gw hw t g h, Ag c d -> In_ i -> tw gw hw -> tw g h ->
    tw (GCWrapLoop c i gw (Some (t, g))) (GCWrapLoop d i hw (Some (t, h)))
| tw_yvar : forall c d os lo hi sep, Ag c d -> Forall (fun o => In_ (fst o)) os ->
    tw (GYVarStart c os lo hi sep) (GYVarStart d os lo hi sep)
| tw_yvarl : forall c d sep ys zs, Ag c d -> Forall2 tw_yc ys zs -> tw (GYVarLoop c sep ys) (GYVarLoop d sep zs)
| tw_ywild : forall c d w m vars, Ag c d -> In_ (Wild w m vars) -> tw (GYWildStart c w vars) (GYWildStart d w vars)
| tw_ywildl : forall gs hs, Forall2 tw gs hs -> tw (GYWildLoop gs) (GYWildLoop hs)
| tw_fallback : forall c d w m vars, Ag c d -> In_ (Wild w m vars) -> tw (GFallback c w) (GFallback d w)
| tw_squash : forall g h, tw g h -> tw (GSquash g) (GSquash h)
| tw_slice : forall n g h, tw g h -> tw (GSlice n g) (GSlice n h)
with tw_entry : command * gen * option str -> command * gen * option str -> Prop :=
| tw_one : forall cmd g h v, tw g h -> tw_entry (cmd, g, v) (cmd, h, v)
with tw_cs : cseq -> cseq -> Prop :=
| tcs_start : forall cmds, Forall In_ cmds -> tw_cs (CSStart cmds) (CSStart cmds)
| tcs_non : forall cmd cs ds, tw_cs cs ds -> tw_cs (CSNon cmd cs) (CSNon cmd ds)
| tcs_fin : forall g h cmds, tw g h -> Forall In_ cmds -> tw_cs (CSFin g cmds) (CSFin h cmds)
| tcs_fin2 : forall g h cmds t cs ds, tw g h -> Forall In_ cmds -> tw_cs cs ds ->
    tw_cs (CSFin2 g cmds t cs) (CSFin2 h cmds t ds)
| tcs_done : tw_cs CSDone CSDone
with tw_cp : cp -> cp -> Prop :=
| tcp_start : forall cmds, Forall In_ cmds -> tw_cp (CPStart cmds) (CPStart cmds)
| tcp_non : forall g h st su, tw g h -> tw_cp st su -> tw_cp (CPNon g st) (CPNon h su)
| tcp_fin : forall g h cmds, tw g h -> Forall In_ cmds -> tw_cp (CPFin g cmds) (CPFin h cmds)
| tcp_fin2 : forall g h cmds t st su, tw g h -> Forall In_ cmds -> tw_cp st su ->
    tw_cp (CPFin2 g cmds t st) (CPFin2 h cmds t su)
| tcp_done : tw_cp CPDone CPDone
with tw_yc : yc -> yc -> Prop :=
| tyc_start : forall cmds, Forall In_ cmds -> tw_yc (YCStart cmds) (YCStart cmds)
| tyc_empty : tw_yc YCEmpty YCEmpty
| tyc_loop : forall g h y z, tw g h -> tw_yc y z -> tw_yc (YCLoop g y) (YCLoop h z)
| tyc_done : tw_yc YCDone YCDone.

Definition twin_mk (x y : mkres) : Prop :=
  match x, y with
  | MOk g, MOk h => tw g h
  | MErr e, MErr f => e = f
  | MFuel, MFuel => True
  | _, _ => False
  end.
Lemma twin_lift : forall x y r, twin_mk x y -> twin (lift_mk G x r) (lift_mk G y r) tw.
Proof. intros [g|e|] [h|f|] r H; cbn in *; try contradiction; auto. Qed.
Lemma twin_rres : forall A (x : rres G A), twin (lift_rres G x) (lift_rres G x) eq.
Proof. intros A [a r|e r]; cbn; auto. Qed.

Lemma Ag_method : forall c d m, Ag c d -> Ag (with_method m c) (with_method m d).
Proof.
  intros c d m (H1 & H2 & H3 & H4 & H5 & H6). split; [reflexivity|]. split; [exact H2|]. split; [exact H3|].
  split; [exact H4|]. split; [exact H5|exact H6].
Qed.
Lemma Ag_vars : forall c d vars, Ag c d -> Forall (fun kv => In_ (snd kv)) vars ->
  Ag (with_variables vars c) (with_variables vars d).
Proof.
  intros c d vars (H1 & H2 & H3 & H4 & H5 & H6) Hv. unfold with_variables.
  destruct vars as [|kv vars].
  { split; [exact H1|]. split; [exact H2|]. split; [exact H3|]. split; [exact H4|]. split; [exact H5|exact H6]. }
  set (l := kv :: vars) in *.
  assert (HG : forall x, V x -> dict_get x (dict_update (c_vars c) l) = dict_get x (dict_update (c_vars d) l) /\
            forall v, dict_get x (dict_update (c_vars c) l) = Some v -> In_ v).
  { clear - Hv H6. unfold dict_update.
    assert (HQ : forall x, V x -> dict_get x (c_vars c) = dict_get x (c_vars d) /\
       forall v, dict_get x (c_vars c) = Some v -> In_ v) by exact H6. clear H6.
    revert HQ. generalize (c_vars c) (c_vars d). induction Hv as [|[k v] l Hk Hl IH]; intros a b HQ; cbn [fold_left fst snd]; [exact HQ|].
    apply IH. intros x Hx. rewrite !dict_get_set. destruct (str_eqb x k); [|apply HQ, Hx].
    split; [reflexivity|]. intros v' [= <-]. exact Hk. }
  split; [exact H1|]. split; [exact H2|]. split; [exact H3|]. split; [exact H4|]. split; [exact H5|exact HG].
Qed.

Lemma twin_mks : forall n c d cmd, Ag c d -> In_ cmd -> twin_mk (mk n c cmd) (mk n d cmd).
Proof.
  induction n as [|n IH]; intros c d cmd Hc Hi; [exact I|]. cbn [mk].
  assert (Hm : chosen_method c cmd = chosen_method d cmd) by (unfold chosen_method; now rewrite (proj1 Hc)).
  rewrite Hm. set (m := chosen_method d cmd). clearbody m. clear Hm.
  pose proof (Ag_method c d m Hc) as Hc'. set (c' := with_method m c) in *. set (d' := with_method m d) in *.
  clearbody c' d'. clear Hc. inversion Hi; subst; try (destruct m; cbn; econstructor; eauto; fail).
  - rename d0 into df. destruct Hc' as (H1 & H2 & H3 & H4 & H5 & H6).
    destruct (H6 x) as [Hx Hvx]; [assumption|]. cbn [scope_of sc_var] in Hx, Hvx. unfold resolve_access, for_sampling_variable.
    assert (Hb : str_mem x (c_busy d') = str_mem x (c_busy c')).
    { apply eq_true_iff_eq. rewrite !str_mem_In. symmetry. apply H4. assumption. }
    rewrite <- Hx, <- H3, Hb.
    assert (HA : Ag {| c_method := c_method c'; c_ignws := c_ignws c'; c_vars := c_vars c'; c_unknown := c_unknown c'; c_busy := x :: c_busy c' |}
                    {| c_method := c_method d'; c_ignws := c_ignws d'; c_vars := c_vars d'; c_unknown := c_unknown c'; c_busy := x :: c_busy d' |}).
    { split; [exact H1|]. split; [exact H2|]. split; [reflexivity|].
      split; [|split; [exact H5|exact H6]].
      intros y Hy. cbn [c_busy In]. rewrite (H4 y Hy). reflexivity. }
    assert (HU : match c_unknown c' with
        | Some t => twin_mk (mk n {| c_method := c_method c'; c_ignws := c_ignws c'; c_vars := c_vars c'; c_unknown := c_unknown c'; c_busy := x :: c_busy c' |} t)
              (mk n {| c_method := c_method d'; c_ignws := c_ignws d'; c_vars := c_vars d'; c_unknown := c_unknown c'; c_busy := x :: c_busy d' |} t)
        | None => True end).
    { destruct (c_unknown c') as [u|] eqn:Eu; [|exact I]. apply IH; [exact HA|]. apply H5. reflexivity. }
    destruct (dict_get x (c_vars c')) as [v|] eqn:Ev.
    + destruct (truthy v).
      * destruct (str_mem x (c_busy c')); [reflexivity|]. apply IH; [exact HA|]. apply Hvx. reflexivity.
      * destruct (c_unknown c') as [u|]; [|reflexivity]. destruct (str_mem x (c_busy c')); [reflexivity|exact HU].
    + destruct df as [v|].
      * destruct (truthy v).
        -- destruct (str_mem x (c_busy c')); [reflexivity|]. apply IH; [exact HA|]. auto.
        -- destruct (c_unknown c') as [u|]; [|reflexivity]. destruct (str_mem x (c_busy c')); [reflexivity|exact HU].
      * destruct (c_unknown c') as [u|]; [|reflexivity]. destruct (str_mem x (c_busy c')); [reflexivity|exact HU].
Qed.

Definition Inp (p : wpath) : Prop := forall cmd, Reads E1 p cmd -> In_ cmd.
Lemma twin_prompts : forall n c d p limit, Ag c d -> Inp p ->
  twin_mk (sample_prompts E1 n c p limit) (sample_prompts E2 n d p limit).
Proof.
  intros n c d p limit Hc Hp. unfold sample_prompts. destruct HE as (_ & HP & _).
  destruct (match p with WStr [] => true | WStr _ => false | WCmd cmd => negb (truthy cmd) end) eqn:Ef; [constructor|].
  assert (Hcmd : match p with WStr s => env_parse E2 s | WCmd cmd => Ok cmd end
               = match p with WStr s => env_parse E1 s | WCmd cmd => Ok cmd end) by (destruct p; [rewrite HP|]; reflexivity).
  rewrite Hcmd. destruct (match p with WStr s => env_parse E1 s | WCmd cmd => Ok cmd end) as [cmd|] eqn:Ec; [|reflexivity].
  assert (Hi : In_ cmd).
  { apply Hp. destruct p as [s|cm].
    - constructor; [|exact Ec]. intros ->. discriminate Ef.
    - injection Ec as ->. constructor. apply truthy_Nonempty. now apply negb_false_iff. }
  pose proof (twin_mks n c d cmd Hc Hi) as HM. rewrite <- (proj1 (proj2 Hc)).
  destruct (mk n c cmd) as [g|e|], (mk n d cmd) as [h|f|]; cbn in HM |- *; try contradiction; auto.
  destruct limit, (c_ignws c); repeat constructor; exact HM.
Qed.

Section Step.
Variable n : nat.
Notation nx1 := (next G E1 n).
Notation nx2 := (next G E2 n).
Definition tstep (x y : str * gen) : Prop := fst x = fst y /\ tw (snd x) (snd y).
Hypothesis Hnx : forall g h r, tw g h -> twin (nx1 g r) (nx2 h r) tstep.

Lemma twin_rotate : forall gs hs r, Forall2 tw gs hs ->
  twin (rotate_all G nx1 gs r) (rotate_all G nx2 hs r) (fun x y => fst x = fst y /\ Forall2 tw (snd x) (snd y)).
Proof.
  intros gs hs r H. revert r. induction H as [|g h gs hs Hg _ IH]; intros r; cbn [rotate_all].
  - cbn. auto.
  - eapply twin_bind; [apply Hnx, Hg|]. intros [t g'] [u h'] r' [E' Hg']. cbn in E', Hg'. subst u.
    eapply twin_bind; [apply IH|]. intros [ts gs'] [us hs'] r'' [E'' Hgs]. cbn in E'', Hgs. subst us.
    cbn. auto.
Qed.
Lemma twin_first : forall x y r, twin_mk x y -> twin (first_of G nx1 n x r) (first_of G nx2 n y r) eq.
Proof.
  intros x y r H. unfold first_of. eapply twin_bind; [apply twin_lift, H|]. intros g h r' Hg.
  eapply twin_bind; [apply Hnx, Hg|]. intros [t g'] [u h'] r'' [E' _]. cbn in E' |- *. auto.
Qed.
Lemma twin_path : forall c d w m vars r, Ag c d -> In_ (Wild w m vars) ->
  twin (sample_path G E1 nx1 n c w r) (sample_path G E2 nx2 n d w r) (fun a b => a = b /\ W a).
Proof.
  intros c d w m vars r Hc Hw. inversion Hw as [| | |? ? ? Hr Hp Hv| | |]; subst.
  eapply twin_impl; [eapply twin_post with (P := Path E1 (scope_of c) w) (S := True)|].
  - apply twin_first. apply twin_prompts; assumption.
  - apply sample_path_ok. exact (proj1 (next_sound G E1 n)).
  - cbn. intros a b [-> Ha]. split; [reflexivity|]. eapply Hp, Ha.
Qed.
Lemma twin_mk_all : forall c d cmds r, Ag c d -> Forall In_ cmds ->
  twin (mk_all G n c cmds r) (mk_all G n d cmds r) (Forall2 tw).
Proof.
  intros c d cmds r Hc H. revert r. induction H as [|cmd cmds Hd _ IH]; intros r; cbn [mk_all].
  - cbn. auto.
  - eapply twin_bind; [apply twin_lift, twin_mks; assumption|]. intros g h r' Hg.
    eapply twin_bind; [apply IH|]. intros gs hs r'' Hgs. cbn. auto.
Qed.
Lemma twin_assign : forall c d x v imm ovr r, Ag c d -> V x -> In_ v ->
  twin (process_variable_assignment G nx1 n c x v imm ovr r) (process_variable_assignment G nx2 n d x v imm ovr r)
    (fun a b => a = b /\ In_ a).
Proof.
  intros c d x v imm ovr r Hc Hx Hv. unfold process_variable_assignment.
  destruct (proj2 (proj2 (proj2 (proj2 (proj2 Hc)))) x Hx) as [Hg Hgv]. cbn [scope_of sc_var] in Hg, Hgv. rewrite <- Hg.
  destruct (if ovr then None else dict_get x (c_vars c)) as [v0|] eqn:H0.
  - cbn. split; [reflexivity|]. split; [reflexivity|]. destruct ovr; [discriminate|]. auto.
  - destruct imm; [|cbn; auto].
    assert (HT : twin (obind G (first_of G nx1 n (mk n c v) r) (fun t r => OVal (Lit t None) r))
                      (obind G (first_of G nx2 n (mk n d v) r) (fun t r => OVal (Lit t None) r)) (fun a b => a = b /\ In_ a)).
    { eapply twin_bind; [apply twin_first, twin_mks; assumption|]. intros t u r' ->. cbn. repeat split. constructor. }
    destruct v; try exact HT. cbn. repeat split. constructor.
Qed.
Lemma twin_assigns : forall c d cmds nv r, Ag c d -> Forall In_ cmds -> Forall (fun kv => In_ (snd kv)) nv ->
  twin (assignments_loop G nx1 n c cmds nv r) (assignments_loop G nx2 n d cmds nv r)
    (fun a b => a = b /\ Forall In_ (fst a) /\ Forall (fun kv => In_ (snd kv)) (snd a)).
Proof.
  intros c d cmds nv r Hc H. revert nv r. induction H as [|cmd cmds Hd Hds IH]; intros nv r Hnv.
  - cbn. auto.
  - assert (Hother : twin (obind G (assignments_loop G nx1 n c cmds nv r) (fun '(rest, vs) r => OVal (cmd :: rest, vs) r))
        (obind G (assignments_loop G nx2 n d cmds nv r) (fun '(rest, vs) r => OVal (cmd :: rest, vs) r))
        (fun a b => a = b /\ Forall In_ (fst a) /\ Forall (fun kv => In_ (snd kv)) (snd a))).
    { eapply twin_bind; [apply IH; assumption|]. intros [rest vs] [rest' vs'] r' (E' & H1 & H2).
      injection E' as <- <-. cbn in *. repeat split; auto. }
    destruct cmd; try exact Hother. clear Hother. cbn [assignments_loop]. inversion Hd; subst.
    eapply twin_bind; [apply twin_assign; assumption|]. intros v v' r' [<- Hv]. apply IH.
    clear - Hv Hnv. induction Hnv as [|[k' v'] nv Hk Hn IHn]; cbn; [constructor; auto|].
    destruct (str_eqb name k'); [constructor; auto|]. destruct (str_leb name k'); repeat (constructor; auto).
Qed.
Lemma twin_assignments : forall c d cmds r, Ag c d -> Forall In_ cmds ->
  twin (process_variable_assignments G nx1 n c cmds r) (process_variable_assignments G nx2 n d cmds r)
    (fun a b => fst a = fst b /\ Forall In_ (fst a) /\ Ag (snd a) (snd b)).
Proof.
  intros c d cmds r Hc H. unfold process_variable_assignments.
  eapply twin_bind; [apply twin_assigns; auto|]. intros [rest vs] [rest' vs'] r' (E' & H1 & H2).
  injection E' as <- <-. cbn in *. split; [reflexivity|]. split; [reflexivity|]. split; [exact H1|]. now apply Ag_vars.
Qed.
Lemma twin_advance : forall gs hs r, Forall2 tw gs hs ->
  twin (advance_all G nx1 gs r) (advance_all G nx2 hs r) (Forall2 (fun x y => tw (fst x) (fst y) /\ snd x = snd y)).
Proof.
  intros gs hs r H. revert r. induction H as [|g h gs hs Hg _ IH]; intros r; cbn [advance_all].
  - cbn. auto.
  - eapply twin_bind; [apply Hnx, Hg|]. intros [t g'] [u h'] r' [E' Hg']. cbn in E', Hg'. subst u.
    eapply twin_bind; [apply IH|]. intros xs ys r'' Hxs. cbn. auto.
Qed.
Lemma twin_collection : forall c d cmds r, Ag c d -> Forall In_ cmds ->
  twin (new_collection G nx1 n c cmds r) (new_collection G nx2 n d cmds r) (Forall2 tw_entry).
Proof.
  intros c d cmds r Hc H. unfold new_collection. eapply twin_bind; [apply twin_mk_all; eassumption|].
  intros gs hs r' Hg. eapply twin_bind; [apply twin_advance, Hg|]. intros xs ys r'' Hxs. cbn. split; [reflexivity|].
  clear - Hxs. revert cmds. induction Hxs as [|[g v] [h u] xs ys [Hx Hv] _ IH]; intros [|cmd cmds]; cbn; constructor; auto.
  cbn in Hx, Hv. subst u. constructor. exact Hx.
Qed.
Lemma twin_get_value : forall cmd k l r, Forall2 tw_entry k l ->
  twin (get_value G nx1 cmd k r) (get_value G nx2 cmd l r) (fun x y => fst x = fst y /\ Forall2 tw_entry (snd x) (snd y)).
Proof.
  intros cmd k l r H. revert r. induction H as [|x y k l Hx Hk IH]; intros r; cbn [get_value]; [cbn; auto|].
  destruct Hx as [cm g h v Hg]. destruct (cmd_eqb cm cmd).
  - pose proof (Hnx g h r Hg) as HT. destruct (nx1 g r) as [[t g']|r1|e r1|], (nx2 h r) as [[t' h']|r2|e' r2|]; cbn in HT |- *; try contradiction; auto.
    + destruct HT as [-> [E' Hg']]. cbn in E'. subst t'. repeat split. constructor; [constructor; exact Hg'|exact Hk].
    + subst r2. repeat split. constructor; [constructor; constructor|exact Hk].
  - eapply twin_bind; [apply IH|]. intros [v' k'] [v'' l'] r' [E' Hk']. cbn in E', Hk' |- *. subst v''.
    repeat split. constructor; [constructor; exact Hg|exact Hk'].
Qed.
Lemma value_within : forall name v cmd, W name -> In v (iterate_weighted (env_lookup E1 name)) ->
  env_parse E1 v = Ok cmd -> In_ cmd.
Proof.
  intros name v cmd Hn Hin Hp. apply iterate_weighted_In in Hin. destruct Hin as (i & Hi & <- & _).
  eapply HV; eassumption.
Qed.
Lemma parse_all_alike : forall vals, parse_all E2 vals = parse_all E1 vals.
Proof. destruct HE as (_ & HP & _). induction vals as [|v vals IH]; cbn; [reflexivity|]. now rewrite <- HP, IH. Qed.
Lemma twin_to_variant : forall c d w m vars lo hi r, Ag c d -> In_ (Wild w m vars) ->
  twin (wildcard_to_variant G E1 nx1 n c w lo hi r) (wildcard_to_variant G E2 nx2 n d w lo hi r)
    (fun a b => a = b /\ Forall (fun o => In_ (fst o)) (fst a)).
Proof.
  intros c d w m vars lo hi r Hc Hw. unfold wildcard_to_variant. eapply twin_bind; [eapply twin_path; eassumption|].
  intros path path' r' [<- Hp]. cbn zeta. rewrite parse_all_alike. destruct HE as (_ & HP & HL). rewrite <- (HL path Hp).
  destruct (parse_all E1 (iterate_weighted (env_lookup E1 path))) as [cmds|e] eqn:Ea; [|cbn; auto].
  cbn. repeat split. apply Forall_forall. intros o Ho. apply in_map_iff in Ho. destruct Ho as (cmd & <- & Hcmd). cbn.
  apply parse_all_ok in Ea.
  assert (Hv : exists v, In v (iterate_weighted (env_lookup E1 path)) /\ env_parse E1 v = Ok cmd).
  { clear -Ea Hcmd. induction Ea as [|v cm vs cms H _ IH]; [destruct Hcmd|].
    destruct Hcmd as [->|Hcmd]; [exists v; split; [now left|assumption]|].
    destruct (IH Hcmd) as (v' & H1 & H2). exists v'. split; [now right|assumption]. }
  destruct Hv as (v & Hv & Hpv). eapply value_within; eassumption.
Qed.
Lemma twin_sample_all : forall c d vals r, Ag c d -> Forall (fun v => forall cmd, env_parse E1 v = Ok cmd -> In_ cmd) vals ->
  twin (sample_all G E1 n c vals r) (sample_all G E2 n d vals r) (Forall2 tw).
Proof.
  intros c d vals r Hc H. revert r. induction H as [|v vals Hv _ IH]; intros r; cbn [sample_all]; [cbn; auto|].
  eapply twin_bind; [apply twin_lift, twin_prompts; [exact Hc|]|].
  - intros cmd Hr. inversion Hr; subst. auto.
  - intros g h r' Hg. eapply twin_bind; [apply IH|]. intros gs hs r'' Hgs. cbn. auto.
Qed.
End Step.

Lemma combos_within : forall opts lo hi, Forall (fun o => In_ (fst o)) opts ->
  Forall (fun bc => Forall In_ (snd bc)) (bound_combos opts lo hi).
Proof.
  intros opts lo hi H. apply Forall_forall. intros [b combo] Hin. cbn.
  destruct (bound_combos_In _ _ _ _ _ Hin) as (_ & _ & Hi & _). apply Forall_forall. intros cmd Hc.
  apply Hi in Hc. apply in_map_iff in Hc. destruct Hc as (o & <- & Ho).
  rewrite Forall_forall in H. auto.
Qed.
Lemma non_combo_within : forall tokens, Forall In_ tokens -> Forall In_ (non_combo tokens).
Proof.
  intros tokens H. unfold non_combo. apply Forall_forall. intros x Hx. apply filter_In in Hx.
  rewrite Forall_forall in H. now apply H.
Qed.
Lemma augmented_within : forall tokens, Forall In_ tokens -> Forall In_ (augmented tokens).
Proof.
  intros tokens H. unfold augmented. constructor; [constructor|]. apply Forall_app. split; [assumption|].
  constructor; [constructor|constructor].
Qed.
Lemma effective_alike : forall c d cmd, Ag c d -> effective_method c cmd = effective_method d cmd.
Proof. intros c d cmd H. unfold effective_method. now rewrite (proj1 H). Qed.

(** A branch on all outcomes. *)
Lemma twin_case : forall A B A' B' (x : ores G A) (y : ores G A') (f : A -> R -> ores G B) (g : A' -> R -> ores G B') s1 s2 Q1 Q,
  twin x y Q1 -> (forall a b r, Q1 a b -> twin (f a r) (g b r) Q) -> (forall r, twin (s1 r) (s2 r) Q) ->
  twin (match x with OVal a r => f a r | OStop r => s1 r | ORaise e r => ORaise e r | OFuel => OFuel end)
       (match y with OVal a r => g a r | OStop r => s2 r | ORaise e r => ORaise e r | OFuel => OFuel end) Q.
Proof.
  intros A B A' B' [a r|r|e r|] [b s|s|e' s|] f g s1 s2 Q1 Q H Hf Hs; cbn in *; try contradiction; auto.
  - destruct H as [-> H]. auto.
  - subst. auto.
Qed.

Theorem next_twin : forall n,
  (forall g h r, tw g h -> twin (next G E1 n g r) (next G E2 n h r) tstep) /\
  (forall c d k l cs ds r, Ag c d -> Forall2 tw_entry k l -> tw_cs cs ds ->
     twin (next_cs G E1 n c k cs r) (next_cs G E2 n d l ds r)
       (fun x y => Forall2 tw_entry (snd x) (snd y) /\
          match fst x, fst y with
          | Some (a, cs'), Some (b, ds') => a = b /\ tw_cs cs' ds'
          | None, None => True
          | _, _ => False
          end)) /\
  (forall c d st su r, Ag c d -> tw_cp st su ->
     twin (next_cp G E1 n c st r) (next_cp G E2 n d su r) (fun x y => fst x = fst y /\ tw_cp (snd x) (snd y))) /\
  (forall c d st su r, Ag c d -> tw_yc st su ->
     twin (next_yc G E1 n c st r) (next_yc G E2 n d su r) (fun x y => fst x = fst y /\ tw_yc (snd x) (snd y))).
Proof.
  destruct HE as (HW & HP & HL).
  induction n as [|n (IHg & IHcs & IHcp & IHyc)]; [repeat split; intros; exact I|]. split; [|split; [|split]].
  - intros g h r Hg. destruct Hg; unfold_next G E1; unfold_next G E2.
    + reflexivity.
    + repeat split; constructor.
    + repeat split; constructor.
    + (* GSeqStart *)
      apply twin_pep. eapply twin_bind; [apply twin_assignments; eassumption|].
      intros [tk c'] [tk' d'] r' (E' & K1 & K2). cbn [fst snd] in *. subst tk'.
      eapply twin_bind; [apply twin_mk_all; eassumption|]. intros gs hs r'' Hgs. apply IHg. constructor. exact Hgs.
    + apply twin_pep. eapply twin_bind; [apply twin_rotate; eassumption|].
      intros [ts gs'] [us hs'] r' [E' Hgs]. cbn in E', Hgs. subst us. repeat split. constructor. exact Hgs.
    + (* GRVarStart *)
      destruct os as [|[v q] os]; [reflexivity|]. destruct os as [|o os].
      * match goal with H : Forall _ _ |- _ => inversion H as [|? ? Hd _]; subst end. cbn [fst] in Hd.
        destruct (single_wildcard [(v, q)]) as [w|] eqn:Hw.
        -- destruct (single_wildcard_spec _ _ Hw) as (m & vars & q' & Ho). injection Ho as -> ->.
           eapply twin_bind; [apply twin_pep; eapply twin_to_variant; eassumption|].
           intros [vs [lo' hi']] b r' [<- Hvs]. apply IHg. constructor; assumption.
        -- eapply twin_bind; [apply twin_lift, twin_mks; eassumption|]. intros g h r' Hg. apply IHg, Hg.
      * apply IHg. constructor; assumption.
    + (* GRVarLoop *)
      destruct (adjust_range (length os) lo hi) as [lo' hi']. destruct (randint G lo' hi' r) as [[k r']|]; [|cbn; auto].
      apply twin_pep. eapply twin_bind with (Q1 := fun a b => a = b /\ Forall In_ a).
      * destruct (choose_without_replacement G cmd_eqb (values os) (weights os) (Z.min hi' k) r') as [sel r2|e r2] eqn:Ec; cbn; auto.
        repeat split. destruct (cwr_ok G cmd_eqb cmd_eqb_spec _ _ _ _ _ _ Ec) as [(rest & Hr) _].
        apply Forall_forall. intros x Hx. assert (Hx' : In x (values os)) by (eapply Permutation_in; [symmetry; exact Hr|apply in_or_app; now left]).
        clear Hx. rename Hx' into Hx.
        unfold values in Hx. apply in_map_iff in Hx. destruct Hx as (o & <- & Ho).
        match goal with H : Forall _ os |- _ => rewrite Forall_forall in H; exact (H o Ho) end.
      * intros sel sel' r2 [<- Hs]. eapply twin_bind; [apply twin_mk_all; eassumption|].
        intros gs hs r3 Hgs. destruct Hgs as [|g h gs hs Hg Hgs]; [repeat split; constructor; assumption|].
        eapply twin_bind; [apply twin_rotate; [eassumption|constructor; eassumption]|].
        intros [ts gs'] [us hs'] r4 [E' _]. cbn in E'. subst us. repeat split. constructor; assumption.
    + (* GRWildStart *)
      eapply twin_bind; [apply twin_pep; eapply twin_path; eassumption|]. intros path path' r' [<- Hp]. cbn zeta.
      rewrite <- (HL path Hp).
      assert (Hc' : Ag (with_variables vars c) (with_variables vars d)).
      { apply Ag_vars; [assumption|]. match goal with H : In_ (Wild _ _ _) |- _ => inversion H; subst; assumption end. }
      destruct (env_lookup E1 path) as [|i items] eqn:Hl.
      * apply IHg. econstructor; eassumption.
      * apply IHg. econstructor; [exact Hc'|exact Hp|]. rewrite Hl. apply wgen_of_start.
    + (* GRWildLoop None *)
      eapply twin_bind with (Q1 := fun a b => a = b /\ wgen_of G (env_lookup E1 name) (snd a) /\
            exists i, In i (env_lookup E1 name) /\ w_content i = fst a).
      * destruct (next_wgen G wg r) as [[v wg'] r'|e r'] eqn:Ew; cbn; auto.
        destruct (next_wgen_spec G _ _ _ _ _ _ H1 Ew) as (K1 & i & K2 & K3 & _). repeat split; eauto.
      * intros [v wg'] b r' (<- & K1 & i & K2 & K3). cbn [fst snd] in *.
        eapply twin_bind; [apply twin_lift, twin_prompts; [eassumption|]|].
        -- intros cmd Hr. inversion Hr; subst. eapply HV; eassumption.
        -- intros g h r'' Hg. apply IHg. econstructor; eassumption.
    + (* GRWildLoop Some *)
      pose proof (IHg g h r Hg) as HT.
      destruct (next G E1 n g r) as [[t g'] r1|r1|e r1|], (next G E2 n h r) as [[t' h'] r2|r2|e' r2|]; cbn in HT |- *; try contradiction; auto.
      * destruct HT as [-> [E' Hg']]. cbn in E'. subst t'. repeat split. cbn. econstructor; eassumption.
      * subst r2. apply IHg. econstructor; eassumption.
    + (* GRWrap *)
      eapply twin_bind; [apply twin_lift, twin_mks; eassumption|]. intros gw hw r' Hgw.
      eapply twin_bind; [apply twin_lift, twin_mks; eassumption|]. intros gi hi r'' Hgi. apply IHg. constructor; assumption.
    + eapply twin_bind; [apply IHg; eassumption|]. intros [t g'] [u h'] r' [E' K]. cbn in E', K. subst u.
      eapply twin_bind; [apply IHg; eassumption|]. intros [t2 g2] [u2 h2] r'' [E' K2]. cbn in E', K2. subst u2.
      repeat split. constructor; assumption.
    + (* GCSeqStart *)
      eapply twin_bind with (Q1 := fun x y => Forall2 tw_entry (fst x) (fst y) /\ fst (snd x) = fst (snd y) /\
           Forall In_ (fst (snd x)) /\ Ag (snd (snd x)) (snd (snd y))).
      * apply twin_pep. eapply twin_bind; [apply twin_assignments; eassumption|].
        intros [tk c'] [tk' d'] r' (E' & K1 & K2). cbn [fst snd] in *. subst tk'.
        eapply twin_bind; [apply twin_collection; [eassumption|exact K2|apply non_combo_within, K1]|].
        intros k l r'' Hk. cbn. auto.
      * intros [k [tk c']] [l [tk' d']] r' (K1 & K2 & K3 & K4). cbn [fst snd] in *. subst tk'.
        apply IHg. constructor; [exact K4|exact K1|]. constructor. apply augmented_within, K3.
    + (* GCSeqLoop *)
      eapply twin_bind; [apply IHcs; eassumption|]. intros [x k'] [y l'] r' [K1 K2]. cbn [fst snd] in *.
      destruct x as [[a cs']|], y as [[b ds']|]; try contradiction; [|reflexivity].
      destruct K2 as [<- K2]. repeat split. constructor; assumption.
    + (* GCVarStart *)
      destruct os as [|o os]; [reflexivity|]. destruct (single_wildcard (o :: os)) as [w|] eqn:Hw.
      * destruct (single_wildcard_spec _ _ Hw) as (m & vars & q' & Ho). rewrite Ho in *.
        match goal with H : Forall _ _ |- _ => inversion H as [|? ? Hd _]; subst end. cbn [fst] in Hd.
        eapply twin_bind; [apply twin_pep; eapply twin_to_variant; eassumption|].
        intros [vs [lo' hi']] b r' [<- Hvs]. apply IHg. constructor; assumption.
      * apply IHg. constructor; [assumption|]. apply combos_within. assumption.
    + destruct todo as [|[b combo] todo]; [reflexivity|].
      match goal with H : Forall _ (_ :: _) |- _ => inversion H as [|? ? Hd Hds]; subst end.
      apply IHg. constructor; auto. now constructor.
    + match goal with H : tw_cp ?x ?y |- _ => pose proof (IHcp c d x y r ltac:(assumption) H) as HT end.
      destruct (next_cp G E1 n c st r) as [[a st'] r1|r1|e r1|], (next_cp G E2 n d su r) as [[a' su'] r2|r2|e' r2|]; cbn in HT |- *; try contradiction; auto.
      * destruct HT as [-> [E' Hst]]. cbn in E'. subst a'.
        match goal with |- context [if ?b then _ else _] => destruct b end.
        -- repeat split. cbn. constructor; assumption.
        -- apply IHg. constructor; assumption.
      * subst r2. apply IHg. constructor; assumption.
    + (* GCWildStart *)
      eapply twin_bind; [apply twin_pep; eapply twin_path; eassumption|]. intros path path' r' [<- Hp]. cbn zeta.
      rewrite <- (HL path Hp).
      assert (Hc' : Ag (with_variables vars c) (with_variables vars d)).
      { apply Ag_vars; [assumption|]. match goal with H : In_ (Wild _ _ _) |- _ => inversion H; subst; assumption end. }
      destruct (env_lookup E1 path) as [|i items] eqn:Hl.
      * apply IHg. econstructor; eassumption.
      * apply IHg. constructor; [exact Hc'|]. apply Forall_forall. intros v Hv cmd Hpv. rewrite <- Hl in Hv.
        eapply value_within; eassumption.
    + destruct vals as [|v vals]; [reflexivity|].
      match goal with H : Forall _ (_ :: _) |- _ => inversion H as [|? ? Hd Hds]; subst end.
      eapply twin_bind; [apply twin_lift, twin_prompts; [eassumption|]|].
      * intros cmd Hr. inversion Hr; subst. auto.
      * intros g h r' Hg. apply IHg. constructor; assumption.
    + pose proof (IHg g h r Hg) as HT.
      destruct (next G E1 n g r) as [[t g'] r1|r1|e r1|], (next G E2 n h r) as [[t' h'] r2|r2|e' r2|]; cbn in HT |- *; try contradiction; auto.
      * destruct HT as [-> [E' Hg']]. cbn in E'. subst t'. repeat split. cbn. constructor; assumption.
      * subst r2. apply IHg. constructor; assumption.
    + (* GCWrap *)
      eapply twin_bind; [apply twin_lift, twin_prompts; [eassumption|]|].
      * intros cmd Hr. inversion Hr; subst. assumption.
      * intros g h r' Hg. apply IHg. constructor; assumption.
    + eapply twin_bind; [apply IHg; eassumption|]. intros [t g'] [u h'] r' [E' K]. cbn in E', K. subst u.
      eapply twin_bind; [apply twin_lift, twin_prompts; [eassumption|]|].
      * intros cmd Hr. inversion Hr; subst. assumption.
      * intros g h r'' Hg2. apply IHg. constructor; assumption.
    + pose proof (IHg g h r ltac:(assumption)) as HT.
      destruct (next G E1 n g r) as [[t2 g'] r1|r1|e r1|], (next G E2 n h r) as [[t' h'] r2|r2|e' r2|]; cbn in HT |- *; try contradiction; auto.
      * destruct HT as [-> [E' Hg']]. cbn in E'. subst t'. repeat split. cbn. constructor; assumption.
      * subst r2. apply IHg. constructor; assumption.
    + (* GYVarStart *)
      destruct os as [|o os]; [reflexivity|]. destruct (single_wildcard (o :: os)) as [w|] eqn:Hw.
      * destruct (single_wildcard_spec _ _ Hw) as (m & vars & q' & Ho). rewrite Ho in *.
        match goal with H : Forall _ _ |- _ => inversion H as [|? ? Hd _]; subst end. cbn [fst] in Hd.
        eapply twin_bind; [apply twin_pep; eapply twin_to_variant; eassumption|].
        intros [vs [lo' hi']] b r' [<- Hvs]. apply IHg. constructor; assumption.
      * apply IHg. constructor; [assumption|].
        assert (HB : Forall (fun bc => Forall In_ (snd bc)) (bound_combos (o :: os) lo hi)) by (apply combos_within; assumption).
        clear - HB. induction HB as [|[b cmds] l Hb _ IH]; cbn; constructor; auto. constructor. exact Hb.
    + match goal with H : Forall2 tw_yc _ _ |- _ => destruct H as [|y z ys zs Hy Hys] end.
      * apply IHg. constructor; [assumption|constructor].
      * eapply twin_bind; [apply twin_pep, IHyc; eassumption|]. intros [a y'] [b z'] r' [E' K]. cbn in E', K. subst b.
        repeat split. constructor; [assumption|]. apply Forall2_app; [exact Hys|constructor; [exact K|constructor]].
    + (* GYWildStart *)
      eapply twin_bind; [apply twin_pep; eapply twin_path; eassumption|]. intros path path' r' [<- Hp]. cbn zeta.
      rewrite <- (HL path Hp).
      assert (Hc' : Ag (with_method Cyclical (with_variables vars c)) (with_method Cyclical (with_variables vars d))).
      { apply Ag_method, Ag_vars; [assumption|]. match goal with H : In_ (Wild _ _ _) |- _ => inversion H; subst; assumption end. }
      destruct (env_lookup E1 path) as [|i items] eqn:Hl.
      * apply IHg. econstructor; eassumption.
      * eapply twin_bind; [apply twin_sample_all; [exact Hc'|]|].
        -- apply Forall_forall. intros v Hv cmd Hpv. rewrite <- Hl in Hv. eapply value_within; eassumption.
        -- intros gs hs r'' Hgs. apply IHg. constructor. exact Hgs.
    + match goal with H : Forall2 tw _ _ |- _ => destruct H as [|g h gs hs Hg Hgs] end; [reflexivity|].
      eapply twin_bind; [apply twin_pep, IHg; eassumption|]. intros [t g'] [u h'] r' [E' K]. cbn in E', K. subst u.
      repeat split. constructor. apply Forall2_app; [exact Hgs|constructor; [exact K|constructor]].
    + (* GFallback *)
      eapply twin_bind with (Q1 := eq).
      * destruct w; [cbn; auto|]. apply twin_pep. eapply twin_impl; [eapply twin_path; eassumption|]. intros a b [-> _]. reflexivity.
      * intros name name' r' <-. rewrite HW. apply IHg. constructor.
    + eapply twin_bind; [apply IHg; eassumption|]. intros [t g'] [u h'] r' [E' K]. cbn in E', K. subst u.
      repeat split. constructor. exact K.
    + destruct n0; [reflexivity|].
      eapply twin_bind; [apply IHg; eassumption|]. intros [t g'] [u h'] r' [E' K]. cbn in E', K. subst u.
      repeat split. constructor. exact K.
  - intros c d k l cs ds r Hc Hk Hcs. destruct Hcs as [cmds Hd|cmd cs ds Hcs|g h cmds Hg Hd|g h cmds t cs ds Hg Hd Hcs|];
      unfold_next G E1; unfold_next G E2.
    + destruct cmds as [|cmd cmds].
      * cbn. repeat split; auto. constructor.
      * inversion Hd as [|? ? Hcmd Hcmds]; subst. rewrite (effective_alike c d cmd Hc).
        destruct (is_nonfinite (effective_method d cmd)).
        -- apply IHcs; auto. constructor. constructor. exact Hcmds.
        -- eapply twin_bind; [apply twin_lift, twin_mks; eassumption|]. intros g h r' Hg. apply IHcs; auto. constructor; assumption.
    + eapply twin_bind; [apply IHcs; eassumption|]. intros [x k'] [y l'] r' [K1 K2]. cbn [fst snd] in *.
      destruct x as [[a cs']|], y as [[b ds']|]; try contradiction; [|cbn; auto]. destruct K2 as [<- K2].
      eapply twin_bind; [apply twin_get_value; [eassumption|exact K1]|]. intros [v k2] [u l2] r'' [E' K3]. cbn in E', K3. subst u.
      destruct v; cbn; repeat split; auto; constructor; exact K2.
    + pose proof (IHg g h r Hg) as HT.
      destruct (next G E1 n g r) as [[t g'] r1|r1|e r1|], (next G E2 n h r) as [[t' h'] r2|r2|e' r2|]; cbn in HT |- *; try contradiction; auto.
      destruct HT as [-> [E' Hg']]. cbn in E'. subst t'. apply IHcs; auto. constructor; auto. constructor. exact Hd.
    + eapply twin_bind; [apply IHcs; eassumption|]. intros [x k'] [y l'] r' [K1 K2]. cbn [fst snd] in *.
      destruct x as [[a cs']|], y as [[b ds']|]; try contradiction.
      * destruct K2 as [<- K2]. cbn. repeat split; auto. constructor; assumption.
      * apply IHcs; auto. constructor; assumption.
    + cbn. auto.
  - intros c d st su r Hc Hst. destruct Hst as [cmds Hd|g h st su Hg Hst|g h cmds Hg Hd|g h cmds t st su Hg Hd Hst|];
      unfold_next G E1; unfold_next G E2.
    + destruct cmds as [|cmd cmds].
      * cbn. repeat split; constructor.
      * inversion Hd as [|? ? Hcmd Hcmds]; subst. rewrite (effective_alike c d cmd Hc).
        eapply twin_bind; [apply twin_lift, twin_mks; eassumption|]. intros g h r' Hg.
        destruct (is_nonfinite (effective_method d cmd)); apply IHcp; auto; constructor; auto. constructor. exact Hcmds.
    + eapply twin_bind; [apply IHcp; eassumption|]. intros [a st'] [b su'] r' [E' K]. cbn in E', K. subst b.
      eapply twin_bind; [apply twin_pep, IHg; eassumption|]. intros [t g'] [u h'] r'' [E' K2]. cbn in E', K2. subst u.
      cbn. repeat split. constructor; assumption.
    + eapply twin_bind; [apply IHg; eassumption|]. intros [t g'] [u h'] r' [E' K]. cbn in E', K. subst u.
      apply IHcp; auto. constructor; auto. constructor. exact Hd.
    + pose proof (IHcp c d st su r Hc Hst) as HT.
      destruct (next_cp G E1 n c st r) as [[a st'] r1|r1|e r1|], (next_cp G E2 n d su r) as [[a' su'] r2|r2|e' r2|]; cbn in HT |- *; try contradiction; auto.
      * destruct HT as [-> [E' Hst']]. cbn in E'. subst a'. repeat split. constructor; assumption.
      * subst r2. apply IHcp; auto. constructor; assumption.
    + reflexivity.
  - intros c d st su r Hc Hst. destruct Hst as [cmds Hd| |g h y z Hg Hy|]; unfold_next G E1; unfold_next G E2.
    + destruct cmds as [|cmd cmds].
      * apply IHyc; auto. constructor.
      * inversion Hd as [|? ? Hcmd Hcmds]; subst.
        eapply twin_bind; [apply twin_lift, twin_mks; eassumption|]. intros g h r' Hg. apply IHyc; auto.
        constructor; [exact Hg|]. constructor. exact Hcmds.
    + cbn. repeat split. constructor.
    + eapply twin_bind; [apply IHyc; eassumption|]. intros [a st'] [b su'] r' [E' K]. cbn in E', K. subst b.
      pose proof (IHg g h r' Hg) as HT.
      destruct (next G E1 n g r') as [[t g'] r1|r1|e r1|], (next G E2 n h r') as [[t' h'] r2|r2|e' r2|]; cbn in HT |- *; try contradiction; auto.
      * destruct HT as [-> [E' Hg']]. cbn in E'. subst t'. repeat split. constructor; assumption.
      * subst r2. repeat split. constructor.
    + reflexivity.
Qed.

(** How a run ended, without the suspended generator. *)
Lemma collect_twin : forall f n g h r, tw g h ->
  let '(ts, e, s) := collect G E1 f n g r in
  let '(us, e', s') := collect G E2 f n h r in
  ts = us /\ s = s' /\
  match e, e' with
  | EndLimit g', EndLimit h' => tw g' h'
  | EndStop, EndStop | EndFuel, EndFuel => True
  | EndRaise x, EndRaise y => x = y
  | _, _ => False
  end.
Proof.
  intros f n. induction n as [|n IH]; intros g h r Hg; cbn [collect]; [auto|].
  pose proof (proj1 (next_twin f) g h r Hg) as HT.
  destruct (next G E1 f g r) as [[t g'] r1|r1|e r1|], (next G E2 f h r) as [[t' h'] r2|r2|e' r2|]; cbn in HT; try contradiction.
  - destruct HT as [-> [E' Hg']]. cbn in E', Hg'. subst t'. specialize (IH g' h' r2 Hg').
    destruct (collect G E1 f n g' r2) as [[ts e] s], (collect G E2 f n h' r2) as [[us e'] s'].
    destruct IH as (-> & -> & H). auto.
  - subst. auto.
  - destruct HT as [-> ->]. auto.
  - auto.
Qed.
End Mention.
