(** Runs of templates that differ in the weights of their options. *)
From Coq Require Import String NArith ZArith QArith Qcanon Bool Arith List Permutation Lia.
From Verif.Model Require Import Str Utils Command Rng Values Context Sampler.
From Verif.Spec Require Import Text Comb Items Lang Weights.
From Verif.Proofs Require Import StrFacts UtilsFacts CommandFacts RngFacts CombFacts ValuesFacts DictFacts Soundness MentionFacts.
Import ListNotations.
Local Open Scope nat_scope.

(** * Lists of pairs *)
(** Equal on the left exactly when equal on the right. *)
Definition Match (zs : list (command * command)) : Prop :=
  forall a b, In a zs -> In b zs -> (fst a = fst b <-> snd a = snd b).
Lemma match_eqb : forall zs a b, Match zs -> In a zs -> In b zs -> cmd_eqb (snd a) (snd b) = cmd_eqb (fst a) (fst b).
Proof.
  intros zs a b H Ha Hb. specialize (H a b Ha Hb).
  destruct (cmd_eqb_spec (fst a) (fst b)), (cmd_eqb_spec (snd a) (snd b)); tauto.
Qed.
Lemma match_sub : forall zs ys, Match zs -> incl ys zs -> Match ys.
Proof. intros zs ys H Hi a b Ha Hb. apply H; auto. Qed.
Lemma pairs_of : forall (P : command -> command -> Prop) l l', Forall2 P l l' -> SameRepeats l l' ->
  exists zs, Match zs /\ Forall (fun z => P (fst z) (snd z)) zs /\ l = map fst zs /\ l' = map snd zs.
Proof.
  intros P l l' H HS. exists (combine l l').
  assert (HL : length l = length l') by (clear HS; induction H; cbn; congruence).
  assert (HN : forall a, In a (combine l l') -> exists i, nth_error l i = Some (fst a) /\ nth_error l' i = Some (snd a)).
  { clear. revert l'. induction l as [|x l IH]; intros [|y l'] a Ha; cbn in Ha; try contradiction. destruct Ha as [Ha|Ha].
    - subst a. exists 0. auto.
    - destruct (IH l' a Ha) as (i & H1 & H2). exists (S i). auto. }
  split; [|split; [|split]].
  - intros a b Ha Hb. destruct (HN a Ha) as (i & Hi & Hi'), (HN b Hb) as (j & Hj & Hj').
    specialize (HS i j). rewrite Hi, Hj, Hi', Hj' in HS. split; intros K; [|].
    + destruct HS as [HS _]. rewrite K in HS. specialize (HS eq_refl). congruence.
    + destruct HS as [_ HS]. rewrite K in HS. specialize (HS eq_refl). congruence.
  - clear HS HL HN. induction H; cbn; constructor; auto.
  - clear - HL. revert l' HL. induction l as [|x l IH]; intros [|y l'] HL; cbn in *; try discriminate; [reflexivity|]. f_equal. apply IH. congruence.
  - clear - HL. revert l' HL. induction l as [|x l IH]; intros [|y l'] HL; cbn in *; try discriminate; [reflexivity|]. f_equal. apply IH. congruence.
Qed.

(** The choices of several options, in step. *)
Fixpoint pcombos (k : nat) (zs : list (command * command)) : list (list (command * command)) :=
  match k with
  | O => [[]]
  | S k' => flat_map (fun z => map (cons z) (pcombos k' (filter (fun y => negb (cmd_eqb (fst y) (fst z))) zs))) zs
  end.
Lemma flat_map_map : forall A B C (g : A -> B) (f : B -> list C) l, flat_map f (map g l) = flat_map (fun x => f (g x)) l.
Proof. intros A B C g f l. induction l as [|x l IH]; cbn; [reflexivity|]. now rewrite IH. Qed.
Lemma map_flat_map' : forall A B C (g : B -> C) (f : A -> list B) l, map g (flat_map f l) = flat_map (fun x => map g (f x)) l.
Proof. intros A B C g f l. induction l as [|x l IH]; cbn; [reflexivity|]. now rewrite map_app, IH. Qed.
Lemma flat_map_ext_in : forall A B (f g : A -> list B) l, (forall x, In x l -> f x = g x) -> flat_map f l = flat_map g l.
Proof.
  intros A B f g l H. induction l as [|x l IH]; cbn; [reflexivity|]. rewrite H by now left. f_equal. apply IH. intros y Hy. apply H. now right.
Qed.
Lemma filter_map' : forall A B (g : A -> B) p l, filter p (map g l) = map g (filter (fun x => p (g x)) l).
Proof. intros A B g p l. induction l as [|x l IH]; cbn; [reflexivity|]. destruct (p (g x)); cbn; now rewrite IH. Qed.
Lemma filter_ext_in' : forall A (p q : A -> bool) l, (forall x, In x l -> p x = q x) -> filter p l = filter q l.
Proof.
  intros A p q l H. induction l as [|x l IH]; cbn; [reflexivity|]. rewrite H by now left.
  rewrite IH; [reflexivity|]. intros y Hy. apply H. now right.
Qed.
Lemma pcombos_fst : forall k zs, get_value_combinations k (map fst zs) = map (map fst) (pcombos k zs).
Proof.
  induction k as [|k IH]; intros zs; cbn [get_value_combinations pcombos]; [reflexivity|].
  rewrite flat_map_map, map_flat_map'. apply flat_map_ext_in. intros z Hz. cbn zeta.
  rewrite filter_map', IH, !map_map. reflexivity.
Qed.
Lemma pcombos_snd : forall k zs, Match zs -> get_value_combinations k (map snd zs) = map (map snd) (pcombos k zs).
Proof.
  induction k as [|k IH]; intros zs H; cbn [get_value_combinations pcombos]; [reflexivity|].
  rewrite flat_map_map, map_flat_map'. apply flat_map_ext_in. intros z Hz. cbn zeta.
  rewrite filter_map'.
  rewrite (filter_ext_in' _ (fun x => negb (cmd_eqb (snd x) (snd z))) (fun y => negb (cmd_eqb (fst y) (fst z)))).
  - rewrite IH, !map_map; [reflexivity|]. eapply match_sub; [exact H|]. intros y Hy. apply filter_In in Hy. tauto.
  - intros y Hy. f_equal. now apply (match_eqb zs).
Qed.
Lemma pcombos_in : forall k zs t, In t (pcombos k zs) -> incl t zs.
Proof.
  induction k as [|k IH]; intros zs t H; cbn [pcombos] in H.
  - destruct H as [<-|[]]. intros x [].
  - apply in_flat_map in H. destruct H as (z & Hz & H). apply in_map_iff in H. destruct H as (u & <- & Hu).
    apply IH in Hu. intros x [<-|Hx]; [exact Hz|]. apply Hu in Hx. apply filter_In in Hx. tauto.
Qed.

Section Weigh.
Variable G : rng_impl.
Variable E : env.
Variable texts : text -> Prop.
Variable methods : method -> Prop.
Variable instead : list Qc -> list Qc -> Prop.
Notation R := (rng_state G).
Notation Like := (Reweighed texts methods instead).
Notation Ag := (ReweighedContext texts methods instead).
Notation Pr := (ReweighedPrompt E texts methods instead).
Notation twin := (twin G).
Hypothesis HT : Readable E texts methods instead.
Hypothesis Hrefl : forall ws, instead ws ws.

Definition Kin (zs : list (command * command)) : Prop := Match zs /\ Forall (fun z => Like (fst z) (snd z)) zs.
Definition Opts (os os' : list (command * Qc)) : Prop :=
  exists zs, Kin zs /\ map fst os = map fst zs /\ map fst os' = map snd zs /\ instead (map snd os) (map snd os').
(** Choosing among options is in step, where it is done. *)
Hypothesis HR : methods Random -> forall os os' k r, Opts os os' ->
  twin (lift_rres G (choose_without_replacement G cmd_eqb (values os) (weights os) k r))
       (lift_rres G (choose_without_replacement G cmd_eqb (values os') (weights os') k r)) (Forall2 Like).

Lemma kin_sub : forall zs ys, Kin zs -> incl ys zs -> Kin ys.
Proof.
  intros zs ys [H1 H2] Hi. split; [eapply match_sub; eassumption|]. apply Forall_forall. intros z Hz.
  rewrite Forall_forall in H2. auto.
Qed.
Lemma kin_like : forall zs a b, Kin zs -> In (a, b) zs -> Like a b.
Proof. intros zs a b [_ H] Hi. rewrite Forall_forall in H. exact (H (a, b) Hi). Qed.
Lemma like_mark : forall a b, Like a b -> sampling_method a = sampling_method b.
Proof. intros a b H. destruct H; reflexivity. Qed.
Lemma like_marked : forall a b, Like a b -> Mark methods (sampling_method a).
Proof. intros a b H. destruct H; try assumption; intros y Hy; discriminate. Qed.
Lemma like_truthy : forall a b, Like a b -> truthy a = truthy b.
Proof.
  intros a b H. destruct H as [| ? ? ? ? ? H|? ? ? ? ? ? ? H| | | | | |]; try reflexivity; destruct H; reflexivity.
Qed.
Lemma forall2_fst : forall (P : command -> command -> Prop) (os os' : list (command * Qc)),
  Forall2 (fun o o' => P (fst o) (fst o')) os os' -> Forall2 P (map fst os) (map fst os').
Proof. intros P os os' H. induction H; cbn; constructor; auto. Qed.
Lemma opts_of : forall os os', Forall2 (fun o o' => Like (fst o) (fst o')) os os' ->
  SameRepeats (map fst os) (map fst os') -> instead (map snd os) (map snd os') -> Opts os os'.
Proof.
  intros os os' H HS HI. apply forall2_fst in H. destruct (pairs_of _ _ _ H HS) as (zs & K1 & K2 & K3 & K4).
  exists zs. split; [split; assumption|auto].
Qed.
Lemma opts_length : forall os os', Opts os os' -> length os = length os'.
Proof.
  intros os os' (zs & _ & H1 & H2 & _). rewrite <- (map_length fst os), <- (map_length fst os'), H1, H2, !map_length. reflexivity.
Qed.
Definition AgVars (vs us : list (str * command)) : Prop :=
  Forall2 (fun a b => fst a = fst b /\ Like (snd a) (snd b)) vs us.

Inductive tw : gen -> gen -> Prop :=
| tw_done : tw GDone GDone
| tw_repeat : forall t, tw (GRepeat t) (GRepeat t)
| tw_once : forall t, tw (GOnce t) (GOnce t)
| tw_seq : forall c d zs sep, Ag c d -> Kin zs -> tw (GSeqStart c (map fst zs) sep) (GSeqStart d (map snd zs) sep)
| tw_seql : forall gs hs sep, Forall2 tw gs hs -> tw (GSeqLoop gs sep) (GSeqLoop hs sep)
| tw_rvar : forall c d os os' lo hi sep, Ag c d -> methods Random -> Opts os os' ->
    tw (GRVarStart c os lo hi sep) (GRVarStart d os' lo hi sep)
| tw_rvarl : forall c d os os' lo hi sep, Ag c d -> methods Random -> Opts os os' ->
    tw (GRVarLoop c os lo hi sep) (GRVarLoop d os' lo hi sep)
| tw_rwild : forall c d w w' m vars vars', Ag c d -> Like (Wild w m vars) (Wild w' m vars') ->
    tw (GRWildStart c w vars) (GRWildStart d w' vars')
| tw_rwildl : forall c d name wg, Ag c d -> wgen_of G (env_lookup E name) wg ->
    tw (GRWildLoop c wg None) (GRWildLoop d wg None)
| tw_rwildl' : forall c d name wg g h, Ag c d -> wgen_of G (env_lookup E name) wg -> tw g h ->
    tw (GRWildLoop c wg (Some g)) (GRWildLoop d wg (Some h))
| tw_rwrap : forall c d w i w' i', Ag c d -> Like w w' -> Like i i' -> tw (GRWrapStart c w i) (GRWrapStart d w' i')
| tw_rwrapl : forall gw gi hw hi, tw gw hw -> tw gi hi -> tw (GRWrapLoop gw gi) (GRWrapLoop hw hi)
| tw_cseq : forall c d zs sep, Ag c d -> methods Combinatorial -> Kin zs -> tw (GCSeqStart c (map fst zs) sep) (GCSeqStart d (map snd zs) sep)
| tw_cseql : forall zs c d sep k l cs ds, Ag c d -> Kin zs -> Forall2 (tw_entry zs) k l -> tw_cs zs cs ds ->
    tw (GCSeqLoop c sep k cs) (GCSeqLoop d sep l ds)
| tw_cvar : forall c d os os' lo hi sep, Ag c d -> Opts os os' ->
    tw (GCVarStart c os lo hi sep) (GCVarStart d os' lo hi sep)
| tw_cvarl : forall c d sep todo todo' seen, Ag c d ->
    Forall2 (fun x y => fst x = fst y /\ Forall2 Like (snd x) (snd y)) todo todo' ->
    tw (GCVarLoop c sep todo None seen) (GCVarLoop d sep todo' None seen)
| tw_cvarl' : forall c d sep todo todo' b st su seen, Ag c d ->
    Forall2 (fun x y => fst x = fst y /\ Forall2 Like (snd x) (snd y)) todo todo' -> tw_cp st su ->
    tw (GCVarLoop c sep todo (Some (b, st)) seen) (GCVarLoop d sep todo' (Some (b, su)) seen)
| tw_cwild : forall c d w w' m vars vars', Ag c d -> Like (Wild w m vars) (Wild w' m vars') ->
    tw (GCWildStart c w vars) (GCWildStart d w' vars')
| tw_cwildl : forall c d vals, Ag c d -> Forall texts vals ->
    tw (GCWildLoop c vals None) (GCWildLoop d vals None)
| tw_cwildl' : forall c d vals g h, Ag c d -> Forall texts vals ->
    tw g h -> tw (GCWildLoop c vals (Some g)) (GCWildLoop d vals (Some h))
| tw_cwrap : forall c d w i w' i', Ag c d -> Like w w' -> Like i i' -> tw (GCWrapStart c w i) (GCWrapStart d w' i')
| tw_cwrapl : forall c d i i' gw hw, Ag c d -> Like i i' -> tw gw hw -> tw (GCWrapLoop c i gw None) (GCWrapLoop d i' hw None)
| tw_cwrapl' : forall c d i i' gw hw t g h, Ag c d -> Like i i' -> tw gw hw -> tw g h ->
    tw (GCWrapLoop c i gw (Some (t, g))) (GCWrapLoop d i' hw (Some (t, h)))
| tw_yvar : forall c d os os' lo hi sep, Ag c d -> Opts os os' ->
    tw (GYVarStart c os lo hi sep) (GYVarStart d os' lo hi sep)
| tw_yvarl : forall c d sep ys zs, Ag c d -> Forall2 tw_yc ys zs -> tw (GYVarLoop c sep ys) (GYVarLoop d sep zs)
| tw_ywild : forall c d w w' m vars vars', Ag c d -> methods Cyclical -> Like (Wild w m vars) (Wild w' m vars') ->
    tw (GYWildStart c w vars) (GYWildStart d w' vars')
| tw_ywildl : forall gs hs, Forall2 tw gs hs -> tw (GYWildLoop gs) (GYWildLoop hs)
| tw_fallback : forall c d w w' m vars vars', Ag c d -> Like (Wild w m vars) (Wild w' m vars') ->
    tw (GFallback c w) (GFallback d w')
| tw_squash : forall g h, tw g h -> tw (GSquash g) (GSquash h)
| tw_slice : forall n g h, tw g h -> tw (GSlice n g) (GSlice n h)
with tw_entry : list (command * command) -> command * gen * option str -> command * gen * option str -> Prop :=
| tw_one : forall zs a b g h v, In (a, b) zs -> tw g h -> tw_entry zs (a, g, v) (b, h, v)
with tw_cs : list (command * command) -> cseq -> cseq -> Prop :=
| tcs_start : forall zs ys, incl ys zs -> tw_cs zs (CSStart (map fst ys)) (CSStart (map snd ys))
| tcs_non : forall zs a b cs ds, In (a, b) zs -> tw_cs zs cs ds -> tw_cs zs (CSNon a cs) (CSNon b ds)
| tcs_fin : forall zs g h ys, tw g h -> incl ys zs -> tw_cs zs (CSFin g (map fst ys)) (CSFin h (map snd ys))
| tcs_fin2 : forall zs g h ys t cs ds, tw g h -> incl ys zs -> tw_cs zs cs ds ->
    tw_cs zs (CSFin2 g (map fst ys) t cs) (CSFin2 h (map snd ys) t ds)
| tcs_done : forall zs, tw_cs zs CSDone CSDone
with tw_cp : cp -> cp -> Prop :=
| tcp_start : forall cmds cmds', Forall2 Like cmds cmds' -> tw_cp (CPStart cmds) (CPStart cmds')
| tcp_non : forall g h st su, tw g h -> tw_cp st su -> tw_cp (CPNon g st) (CPNon h su)
| tcp_fin : forall g h cmds cmds', tw g h -> Forall2 Like cmds cmds' -> tw_cp (CPFin g cmds) (CPFin h cmds')
| tcp_fin2 : forall g h cmds cmds' t st su, tw g h -> Forall2 Like cmds cmds' -> tw_cp st su ->
    tw_cp (CPFin2 g cmds t st) (CPFin2 h cmds' t su)
| tcp_done : tw_cp CPDone CPDone
with tw_yc : yc -> yc -> Prop :=
| tyc_start : forall cmds cmds', Forall2 Like cmds cmds' -> tw_yc (YCStart cmds) (YCStart cmds')
| tyc_empty : tw_yc YCEmpty YCEmpty
| tyc_loop : forall g h y z, tw g h -> tw_yc y z -> tw_yc (YCLoop g y) (YCLoop h z)
| tyc_done : tw_yc YCDone YCDone.

Definition twin_mk (x y : mkres) : Prop :=
  match x, y with
  | MOk g, MOk h => tw g h
  | MErr e, MErr f => e = f
  | MFuel, MFuel => True
  | _, _ => False
  end.
Lemma twin_lift : forall x y r, twin_mk x y -> twin (lift_mk G x r) (lift_mk G y r) tw.
Proof. intros [g|e|] [h|f|] r H; cbn in *; try contradiction; auto. Qed.

Lemma Ag_method : forall c d m, Ag c d -> methods m -> Ag (with_method m c) (with_method m d).
Proof.
  intros c d m (H1 & H2 & H3 & H4 & H5 & H6) Hm. split; [reflexivity|]. split; [exact Hm|]. split; [exact H3|].
  split; [exact H4|]. split; [exact H5|exact H6].
Qed.
Notation Opt := (ReweighedOption texts methods instead).
Lemma Ag_vars : forall c d vars vars', Ag c d -> AgVars vars vars' ->
  Ag (with_variables vars c) (with_variables vars' d).
Proof.
  intros c d vars vars' (H1 & H2 & H3 & H4 & H5 & H6) Hv.
  assert (HG : forall x, Opt (dict_get x (dict_update (c_vars c) vars)) (dict_get x (dict_update (c_vars d) vars'))).
  { clear - Hv H6. unfold dict_update.
    assert (HQ : forall x, Opt (dict_get x (c_vars c)) (dict_get x (c_vars d))) by exact H6. clear H6.
    revert HQ. generalize (c_vars c) (c_vars d). induction Hv as [|[k v] [k' v'] l l' [Hk Hl'] Hl IH]; intros a b HQ; cbn [fold_left fst snd]; [exact HQ|].
    cbn in Hk, Hl'. subst k'.
    apply IH. intros x. rewrite !dict_get_set. destruct (str_eqb x k); [exact Hl'|apply HQ]. }
  unfold with_variables. destruct Hv as [|kv kv' vars vars' Hkv Hv].
  - split; [exact H1|]. split; [exact H2|]. split; [exact H3|]. split; [exact H4|]. split; [exact H5|exact H6].
  - split; [exact H1|]. split; [exact H2|]. split; [exact H3|]. split; [exact H4|]. split; [exact H5|exact HG].
Qed.
Lemma like_vars : forall w w' m vars vars', Like (Wild w m vars) (Wild w' m vars') -> AgVars vars vars'.
Proof. intros w w' m vars vars' H. inversion H; subst; assumption. Qed.
Lemma chosen_ok : forall c d a b, Ag c d -> Like a b -> methods (chosen_method c a).
Proof.
  intros c d a b Hc H. pose proof (like_marked _ _ H) as Hm. destruct Hc as (_ & H2 & _). unfold chosen_method.
  destruct (sampling_method a) as [x|]; [specialize (Hm x eq_refl)|];
    repeat match goal with |- context [if ?b then _ else _] => destruct b end; assumption.
Qed.

Lemma twin_mks : forall n c d a b, Ag c d -> Like a b -> twin_mk (mk n c a) (mk n d b).
Proof.
  induction n as [|n IH]; intros c d a b Hc Hi; [exact I|]. cbn [mk].
  assert (Hm : chosen_method d b = chosen_method c a).
  { unfold chosen_method. now rewrite (like_mark _ _ Hi), (proj1 Hc). }
  rewrite Hm. pose proof (chosen_ok _ _ _ _ Hc Hi) as Hok. set (m := chosen_method c a) in *. clearbody m. clear Hm.
  pose proof (Ag_method c d m Hc Hok) as Hc'. set (c' := with_method m c) in *. set (d' := with_method m d) in *.
  clearbody c' d'. clear Hc.
  assert (HX : forall x df df', Opt df df' ->
     twin_mk (match resolve_access c' x df with None => MErr EKey | Some target =>
                match for_sampling_variable x c' with Err e => MErr e | Ok c'' => mk n c'' target end end)
             (match resolve_access d' x df' with None => MErr EKey | Some target =>
                match for_sampling_variable x d' with Err e => MErr e | Ok c'' => mk n c'' target end end)).
  { intros x df df' Hdf. destruct Hc' as (H1 & H2 & H3 & H4 & H5 & H6). pose proof (H6 x) as Hx. cbn [scope_of sc_var] in Hx.
    unfold resolve_access, for_sampling_variable. rewrite <- H4.
    assert (HA : Ag {| c_method := c_method c'; c_ignws := c_ignws c'; c_vars := c_vars c'; c_unknown := c_unknown c'; c_busy := x :: c_busy c' |}
                    {| c_method := c_method d'; c_ignws := c_ignws d'; c_vars := c_vars d'; c_unknown := c_unknown d'; c_busy := x :: c_busy c' |}).
    { split; [exact H1|]. split; [exact H2|]. split; [exact H3|]. split; [reflexivity|]. split; [exact H5|exact H6]. }
    assert (HF : forall f f', Opt f f' ->
      twin_mk (match match f with Some v => if truthy v then Some v else c_unknown c' | None => c_unknown c' end with
               | None => MErr EKey | Some target => match (if str_mem x (c_busy c') then Err ERecursion else
                     Ok {| c_method := c_method c'; c_ignws := c_ignws c'; c_vars := c_vars c'; c_unknown := c_unknown c'; c_busy := x :: c_busy c' |})
                 with Err e => MErr e | Ok c'' => mk n c'' target end end)
              (match match f' with Some v => if truthy v then Some v else c_unknown d' | None => c_unknown d' end with
               | None => MErr EKey | Some target => match (if str_mem x (c_busy c') then Err ERecursion else
                     Ok {| c_method := c_method d'; c_ignws := c_ignws d'; c_vars := c_vars d'; c_unknown := c_unknown d'; c_busy := x :: c_busy c' |})
                 with Err e => MErr e | Ok c'' => mk n c'' target end end)).
    { assert (HO : forall f f', Opt f f' ->
        twin_mk (match f with None => MErr EKey | Some target => match (if str_mem x (c_busy c') then Err ERecursion else
                     Ok {| c_method := c_method c'; c_ignws := c_ignws c'; c_vars := c_vars c'; c_unknown := c_unknown c'; c_busy := x :: c_busy c' |})
                 with Err e => MErr e | Ok c'' => mk n c'' target end end)
                (match f' with None => MErr EKey | Some target => match (if str_mem x (c_busy c') then Err ERecursion else
                     Ok {| c_method := c_method d'; c_ignws := c_ignws d'; c_vars := c_vars d'; c_unknown := c_unknown d'; c_busy := x :: c_busy c' |})
                 with Err e => MErr e | Ok c'' => mk n c'' target end end)).
      { intros [f|] [f'|] Hf; cbn in Hf; try contradiction; [|reflexivity].
        destruct (str_mem x (c_busy c')); [reflexivity|]. now apply IH. }
      intros [f|] [f'|] Hf; cbn in Hf; try contradiction; [|apply HO, H5].
      rewrite <- (like_truthy _ _ Hf). destruct (truthy f); [apply (HO (Some f) (Some f')), Hf|apply HO, H5]. }
    apply HF. destruct (dict_get x (c_vars c')), (dict_get x (c_vars d')); cbn in Hx; try contradiction; assumption. }
  destruct Hi as [t mm Hm|cs cs' sep mm Hm H2 HS|os os' lo hi sep mm Hm H2 HS HI|t mm vars vars' Hm Ht Hv|p p' mm vars vars' Hm Hp Hv|x v v' i o Hv|x|x v v' Hv|w w' i i' mm Hm Hw Hi].
  - destruct m; constructor.
  - destruct (pairs_of _ _ _ H2 HS) as (zs & K1 & K2 & -> & ->).
    destruct m; cbn; constructor; try exact Hc'; try exact Hok; split; assumption.
  - pose proof (opts_of _ _ H2 HS HI) as HO. destruct m; cbn; constructor; assumption.
  - destruct m; cbn; econstructor; eauto; constructor; eassumption.
  - destruct m; cbn; econstructor; eauto; constructor; eassumption.
  - reflexivity.
  - exact (HX x None None I).
  - exact (HX x (Some v) (Some v') Hv).
  - destruct m; cbn; try reflexivity; constructor; assumption.
Qed.

Lemma twin_prompts : forall n c d p p' limit, Ag c d -> Pr p p' ->
  twin_mk (sample_prompts E n c p limit) (sample_prompts E n d p' limit).
Proof.
  intros n c d p p' limit Hc Hp.
  assert (HF : forall cmd cmd', Like cmd cmd' ->
    twin_mk (match mk n c cmd with MOk g => MOk (match limit with None => if c_ignws c then GSquash g else g | Some k => GSlice k (if c_ignws c then GSquash g else g) end) | x => x end)
            (match mk n d cmd' with MOk g => MOk (match limit with None => if c_ignws d then GSquash g else g | Some k => GSlice k (if c_ignws d then GSquash g else g) end) | x => x end)).
  { intros cmd cmd' Hl. pose proof (twin_mks n c d cmd cmd' Hc Hl) as HM. rewrite <- (proj1 (proj2 (proj2 Hc))).
    destruct (mk n c cmd) as [g|e|], (mk n d cmd') as [h|f|]; cbn in HM |- *; try contradiction; auto.
    destruct limit, (c_ignws c); repeat constructor; exact HM. }
  assert (Hread : forall q cmd, Reads E q cmd -> forall c, sample_prompts E n c q limit =
     match mk n c cmd with MOk g => MOk (match limit with None => if c_ignws c then GSquash g else g | Some k => GSlice k (if c_ignws c then GSquash g else g) end) | x => x end).
  { intros q cmd Hq c0. unfold sample_prompts. inversion Hq as [s ? Hs Hc0|? Hn]; subst.
    - destruct s as [|ch s]; [contradiction|]. rewrite Hc0. reflexivity.
    - apply truthy_Nonempty in Hn. rewrite Hn. reflexivity. }
  destruct Hp as [[<- Hp]|(cmd & cmd' & H1 & H2 & Hl)].
  - unfold sample_prompts.
    destruct (match p with WStr [] => true | WStr _ => false | WCmd cmd => negb (truthy cmd) end) eqn:Ef; [constructor|].
    destruct (match p with WStr s => env_parse E s | WCmd cmd => Ok cmd end) as [cmd|] eqn:Ec; [|reflexivity].
    apply HF. apply Hp. destruct p as [s|cm].
    + constructor; [|exact Ec]. intros ->. discriminate Ef.
    + injection Ec as ->. constructor. apply truthy_Nonempty. now apply negb_false_iff.
  - rewrite (Hread _ _ H1), (Hread _ _ H2). now apply HF.
Qed.
Lemma text_prompt : forall t, texts t -> Pr (WStr t) (WStr t).
Proof. intros t Ht. left. split; [reflexivity|]. intros c Hr. inversion Hr; subst. eapply (proj1 HT); eassumption. Qed.
Lemma prompt_twin : forall n c d a b limit, Ag c d -> Like a b ->
  twin_mk (sample_prompts E n c (WCmd a) limit) (sample_prompts E n d (WCmd b) limit).
Proof.
  intros n c d a b limit Hc Hl. pose proof (like_truthy _ _ Hl) as Ht. destruct (truthy a) eqn:Ea.
  - apply twin_prompts; [exact Hc|]. right. exists a, b. repeat split; [| |exact Hl]; constructor; apply truthy_Nonempty; congruence.
  - unfold sample_prompts. rewrite <- Ht, Ea. cbn. constructor.
Qed.

Section Step.
Variable n : nat.
Notation nx := (next G E n).
Definition tstep (x y : str * gen) : Prop := fst x = fst y /\ tw (snd x) (snd y).
Hypothesis Hnx : forall g h r, tw g h -> twin (nx g r) (nx h r) tstep.

Lemma twin_rotate : forall gs hs r, Forall2 tw gs hs ->
  twin (rotate_all G nx gs r) (rotate_all G nx hs r) (fun x y => fst x = fst y /\ Forall2 tw (snd x) (snd y)).
Proof.
  intros gs hs r H. revert r. induction H as [|g h gs hs Hg _ IH]; intros r; cbn [rotate_all].
  - cbn. auto.
  - eapply twin_bind; [apply Hnx, Hg|]. intros [t g'] [u h'] r' [E' Hg']. cbn in E', Hg'. subst u.
    eapply twin_bind; [apply IH|]. intros [ts gs'] [us hs'] r'' [E'' Hgs]. cbn in E'', Hgs. subst us.
    cbn. auto.
Qed.
Lemma twin_first : forall x y r, twin_mk x y -> twin (first_of G nx n x r) (first_of G nx n y r) eq.
Proof.
  intros x y r H. unfold first_of. eapply twin_bind; [apply twin_lift, H|]. intros g h r' Hg.
  eapply twin_bind; [apply Hnx, Hg|]. intros [t g'] [u h'] r'' [E' _]. cbn in E' |- *. auto.
Qed.
Lemma twin_path : forall c d w w' m vars vars' r, Ag c d -> Like (Wild w m vars) (Wild w' m vars') ->
  twin (sample_path G E nx n c w r) (sample_path G E nx n d w' r) eq.
Proof.
  intros c d w w' m vars vars' r Hc Hw. apply twin_first. inversion Hw; subst.
  - apply twin_prompts; [exact Hc|]. now apply text_prompt.
  - now apply prompt_twin.
Qed.
Lemma twin_mk_all : forall c d cmds cmds' r, Ag c d -> Forall2 Like cmds cmds' ->
  twin (mk_all G n c cmds r) (mk_all G n d cmds' r) (Forall2 tw).
Proof.
  intros c d cmds cmds' r Hc H. revert r. induction H as [|a b cmds cmds' Hd _ IH]; intros r; cbn [mk_all].
  - cbn. auto.
  - eapply twin_bind; [apply twin_lift, twin_mks; eassumption|]. intros g h r' Hg.
    eapply twin_bind; [apply IH|]. intros gs hs r'' Hgs. cbn. auto.
Qed.
Lemma kin_forall2 : forall zs, Kin zs -> Forall2 Like (map fst zs) (map snd zs).
Proof. intros zs [_ H]. induction H; cbn; constructor; auto. Qed.
Lemma lit_like : forall t, Like (Lit t None) (Lit t None).
Proof. intros t. constructor. intros x Hx. discriminate. Qed.
Lemma twin_assign : forall c d x v v' imm ovr r, Ag c d -> Like v v' ->
  twin (process_variable_assignment G nx n c x v imm ovr r) (process_variable_assignment G nx n d x v' imm ovr r) Like.
Proof.
  intros c d x v v' imm ovr r Hc Hv. unfold process_variable_assignment.
  pose proof (proj2 (proj2 (proj2 (proj2 (proj2 Hc)))) x) as Hg. cbn [scope_of sc_var] in Hg.
  assert (HX : twin (if imm then match v with Lit _ _ => OVal v r | _ => obind G (first_of G nx n (mk n c v) r) (fun t r => OVal (Lit t None) r) end else OVal v r)
                    (if imm then match v' with Lit _ _ => OVal v' r | _ => obind G (first_of G nx n (mk n d v') r) (fun t r => OVal (Lit t None) r) end else OVal v' r) Like).
  { destruct imm; [|cbn; auto].
    assert (HTT : twin (obind G (first_of G nx n (mk n c v) r) (fun t r => OVal (Lit t None) r))
                      (obind G (first_of G nx n (mk n d v') r) (fun t r => OVal (Lit t None) r)) Like).
    { eapply twin_bind; [apply twin_first, twin_mks; eassumption|]. intros t u r' ->. cbn. split; [reflexivity|apply lit_like]. }
    destruct Hv; try exact HTT. cbn. split; [reflexivity|]. constructor. assumption. }
  destruct ovr; [exact HX|].
  destruct (dict_get x (c_vars c)), (dict_get x (c_vars d)); cbn in Hg; try contradiction; [|exact HX].
  cbn. auto.
Qed.
Lemma AgVars_set : forall x v v' l l', Like v v' -> AgVars l l' -> AgVars (dict_set x v l) (dict_set x v' l').
Proof.
  intros x v v' l l' Hv H. induction H as [|[k a] [k' b] l l' [Hk Hab] Hl IH]; cbn; [repeat constructor; assumption|].
  cbn in Hk, Hab. subst k'. destruct (str_eqb x k); [constructor; [split; [reflexivity|exact Hv]|exact Hl]|].
  destruct (str_leb x k); constructor; cbn; auto.
Qed.
Lemma twin_assigns : forall c d zs nv nv' r, Ag c d -> Kin zs -> AgVars nv nv' ->
  twin (assignments_loop G nx n c (map fst zs) nv r) (assignments_loop G nx n d (map snd zs) nv' r)
    (fun a b => (exists ys, incl ys zs /\ fst a = map fst ys /\ fst b = map snd ys) /\ AgVars (snd a) (snd b)).
Proof.
  intros c d zs nv nv' r Hc [_ HK]. revert nv nv' r. induction HK as [|[a b] zs Hd Hds IH]; intros nv nv' r Hnv.
  - cbn. split; [reflexivity|]. split; [|exact Hnv]. exists []. repeat split. intros x [].
  - cbn [map fst snd] in *.
    assert (Hother : twin (obind G (assignments_loop G nx n c (map fst zs) nv r) (fun '(rest, vs) r => OVal (a :: rest, vs) r))
        (obind G (assignments_loop G nx n d (map snd zs) nv' r) (fun '(rest, vs) r => OVal (b :: rest, vs) r))
        (fun x y => (exists ys, incl ys ((a, b) :: zs) /\ fst x = map fst ys /\ fst y = map snd ys) /\ AgVars (snd x) (snd y))).
    { eapply twin_bind; [apply IH; assumption|]. intros [rest vs] [rest' vs'] r' ((ys & H1 & H2 & H3) & H4). cbn in *. subst.
      split; [reflexivity|]. split; [|exact H4]. exists ((a, b) :: ys). repeat split. intros x [<-|Hx]; [now left|right; auto]. }
    destruct Hd; try exact Hother. clear Hother. cbn [assignments_loop].
    eapply twin_bind; [apply twin_assign; eassumption|]. intros v v' r' Hv.
    eapply twin_impl; [apply IH, AgVars_set; assumption|]. cbn beta.
    intros x' y' ((ys & H1 & H2) & H3). split; [|exact H3]. exists ys. split; [|exact H2]. intros z Hz. right. auto.
Qed.
Lemma twin_assignments : forall c d zs r, Ag c d -> Kin zs ->
  twin (process_variable_assignments G nx n c (map fst zs) r) (process_variable_assignments G nx n d (map snd zs) r)
    (fun a b => (exists ys, Kin ys /\ fst a = map fst ys /\ fst b = map snd ys) /\ Ag (snd a) (snd b)).
Proof.
  intros c d zs r Hc H. unfold process_variable_assignments.
  eapply twin_bind; [apply twin_assigns; [exact Hc|exact H|constructor]|]. intros [rest vs] [rest' vs'] r' ((ys & H1 & H2) & H3).
  cbn in *. split; [reflexivity|]. split; [|now apply Ag_vars]. exists ys. split; [eapply kin_sub; eassumption|exact H2].
Qed.
Lemma twin_advance : forall gs hs r, Forall2 tw gs hs ->
  twin (advance_all G nx gs r) (advance_all G nx hs r) (Forall2 (fun x y => tw (fst x) (fst y) /\ snd x = snd y)).
Proof.
  intros gs hs r H. revert r. induction H as [|g h gs hs Hg _ IH]; intros r; cbn [advance_all].
  - cbn. auto.
  - eapply twin_bind; [apply Hnx, Hg|]. intros [t g'] [u h'] r' [E' Hg']. cbn in E', Hg'. subst u.
    eapply twin_bind; [apply IH|]. intros xs ys r'' Hxs. cbn. auto.
Qed.
Lemma twin_collection : forall c d zs ys r, Ag c d -> Kin zs -> incl ys zs ->
  twin (new_collection G nx n c (map fst ys) r) (new_collection G nx n d (map snd ys) r) (Forall2 (tw_entry zs)).
Proof.
  intros c d zs ys r Hc HK Hi. unfold new_collection.
  eapply twin_bind; [apply twin_mk_all; [eassumption|apply kin_forall2; eapply kin_sub; eassumption]|].
  intros gs hs r' Hg. eapply twin_bind; [apply twin_advance, Hg|]. intros xs ys' r'' Hxs. cbn. split; [reflexivity|].
  clear - Hxs Hi. revert ys Hi. induction Hxs as [|[g v] [h u] xs ys' [Hx Hv] _ IH]; intros [|[a b] ys] Hi; cbn; constructor; auto.
  - cbn in Hx, Hv. subst u. constructor; [|exact Hx]. apply Hi. now left.
  - apply IH. intros z Hz. apply Hi. now right.
Qed.
Lemma twin_get_value : forall zs a b k l r, Match zs -> In (a, b) zs -> Forall2 (tw_entry zs) k l ->
  twin (get_value G nx a k r) (get_value G nx b l r) (fun x y => fst x = fst y /\ Forall2 (tw_entry zs) (snd x) (snd y)).
Proof.
  intros zs a b k l r HM Hab H. revert r. induction H as [|x y k l Hx Hk IH]; intros r; cbn [get_value]; [cbn; auto|].
  inversion Hx as [? a' b' g h v Hin Hg]; subst.
  rewrite (match_eqb zs (a', b') (a, b) HM Hin Hab : cmd_eqb b' b = cmd_eqb a' a). destruct (cmd_eqb a' a).
  - pose proof (Hnx g h r Hg) as HTT. destruct (nx g r) as [[t g']|r1|e r1|], (nx h r) as [[t' h']|r2|e' r2|]; cbn in HTT |- *; try contradiction; auto.
    + destruct HTT as [-> [E' Hg']]. cbn in E'. subst t'. repeat split. constructor; [constructor; assumption|exact Hk].
    + subst r2. repeat split. constructor; [constructor; [exact Hin|constructor]|exact Hk].
  - eapply twin_bind; [apply IH|]. intros [v' k'] [v'' l'] r' [E' Hk']. cbn in E', Hk' |- *. subst v''.
    repeat split. constructor; [constructor; assumption|exact Hk'].
Qed.
Lemma value_texts : forall name v, In v (iterate_weighted (env_lookup E name)) -> texts v.
Proof.
  intros name v Hin. apply iterate_weighted_In in Hin. destruct Hin as (i & Hi & <- & _). eapply (proj2 HT), Hi.
Qed.
Lemma twin_to_variant : forall c d w w' m vars vars' lo hi r, Ag c d -> Like (Wild w m vars) (Wild w' m vars') ->
  twin (wildcard_to_variant G E nx n c w lo hi r) (wildcard_to_variant G E nx n d w' lo hi r)
    (fun a b => a = b /\ Opts (fst a) (fst a)).
Proof.
  intros c d w w' m vars vars' lo hi r Hc Hw. unfold wildcard_to_variant. eapply twin_bind; [eapply twin_path; eassumption|].
  intros path path' r' <-. cbn zeta.
  destruct (parse_all E (iterate_weighted (env_lookup E path))) as [cmds|e] eqn:Ea; [|cbn; auto].
  cbn. repeat split. apply parse_all_ok in Ea.
  assert (Hv : Forall (fun cmd => Like cmd cmd) cmds).
  { assert (Ht : Forall texts (iterate_weighted (env_lookup E path))) by (apply Forall_forall; intros v Hv; eapply value_texts, Hv).
    clear - Ea Ht HT. induction Ea as [|v cm vs cms H _ IH]; inversion Ht; subst; constructor; auto. eapply (proj1 HT); eassumption. }
  clear - Hv Hrefl. exists (map (fun c => (c, c)) cmds). split; [split|split; [|split]].
  - intros a b Ha Hb. apply in_map_iff in Ha, Hb. destruct Ha as (x & <- & _), Hb as (y & <- & _). reflexivity.
  - rewrite Forall_map. exact Hv.
  - now rewrite !map_map.
  - now rewrite !map_map.
  - apply Hrefl.
Qed.
Lemma twin_sample_all : forall c d vals r, Ag c d -> Forall texts vals ->
  twin (sample_all G E n c vals r) (sample_all G E n d vals r) (Forall2 tw).
Proof.
  intros c d vals r Hc H. revert r. induction H as [|v vals Hv _ IH]; intros r; cbn [sample_all]; [cbn; auto|].
  eapply twin_bind; [apply twin_lift, twin_prompts; [exact Hc|now apply text_prompt]|].
  intros g h r' Hg. eapply twin_bind; [apply IH|]. intros gs hs r'' Hgs. cbn. auto.
Qed.
End Step.

Lemma combos_twin : forall os os' lo hi, Opts os os' ->
  Forall2 (fun x y => fst x = fst y /\ Forall2 Like (snd x) (snd y)) (bound_combos os lo hi) (bound_combos os' lo hi).
Proof.
  intros os os' lo hi H. unfold bound_combos. rewrite <- (opts_length _ _ H).
  destruct (adjust_range (length os) lo hi) as [lo' hi']. destruct H as (zs & HK & H1 & H2 & _).
  unfold values. rewrite H1, H2. induction (zrange lo' hi') as [|b bs IH]; cbn [flat_map]; [constructor|].
  apply Forall2_app; [|exact IH]. rewrite pcombos_fst, pcombos_snd by apply HK.
  pose proof (pcombos_in (Z.to_nat b) zs) as Hin. induction (pcombos (Z.to_nat b) zs) as [|t ts IHt]; cbn; constructor.
  - cbn. split; [reflexivity|]. apply kin_forall2. eapply kin_sub; [exact HK|]. apply Hin. now left.
  - apply IHt. intros u Hu. apply Hin. now right.
Qed.
Lemma effective_alike : forall c d a b, Ag c d -> Like a b -> effective_method c a = effective_method d b.
Proof. intros c d a b H Hl. unfold effective_method. now rewrite (proj1 H), (like_mark _ _ Hl). Qed.
Definition edge : command := Lit [] (Some Combinatorial).
Lemma kin_augmented : forall zs, methods Combinatorial -> Kin zs -> Kin ((edge, edge) :: zs ++ [(edge, edge)]).
Proof.
  intros zs Hm [HM HF]. assert (Hedge : Like edge edge) by (constructor; intros x [= <-]; exact Hm).
  assert (HL : forall a b, Like a b -> (edge = a <-> edge = b)).
  { intros a b H. split; intros <-; inversion H; reflexivity. }
  assert (Hin : forall z, In z ((edge, edge) :: zs ++ [(edge, edge)]) -> z = (edge, edge) \/ In z zs).
  { intros z [<-|Hz]; [now left|]. apply in_app_or in Hz. destruct Hz as [Hz|[<-|[]]]; auto. }
  rewrite Forall_forall in HF. split.
  - intros a b Ha Hb. apply Hin in Ha, Hb. destruct Ha as [->|Ha], Hb as [->|Hb]; cbn [fst snd].
    + tauto.
    + apply HL, HF, Hb.
    + pose proof (HL _ _ (HF _ Ha)) as H. split; intros K; symmetry; apply H; auto.
    + now apply HM.
  - apply Forall_forall. intros z Hz. apply Hin in Hz. destruct Hz as [->|Hz]; [exact Hedge|now apply HF].
Qed.
Lemma augmented_pairs : forall zs, augmented (map fst zs) = map fst ((edge, edge) :: zs ++ [(edge, edge)]) /\
  augmented (map snd zs) = map snd ((edge, edge) :: zs ++ [(edge, edge)]).
Proof. intros zs. unfold augmented. cbn. now rewrite !map_app. Qed.
Lemma non_combo_pairs : forall zs, Kin zs -> exists ys, incl ys zs /\
  non_combo (map fst zs) = map fst ys /\ non_combo (map snd zs) = map snd ys.
Proof.
  intros zs [_ HF]. exists (filter (fun z => negb (option_eqb method_eqb (sampling_method (fst z)) (Some Combinatorial))) zs).
  split; [intros z Hz; apply filter_In in Hz; tauto|]. unfold non_combo. rewrite !filter_map'. split; [reflexivity|].
  f_equal. apply filter_ext_in'. intros z Hz. rewrite Forall_forall in HF. now rewrite (like_mark _ _ (HF z Hz)).
Qed.

Theorem next_twin : forall n,
  (forall g h r, tw g h -> twin (next G E n g r) (next G E n h r) tstep) /\
  (forall zs c d k l cs ds r, Ag c d -> Kin zs -> Forall2 (tw_entry zs) k l -> tw_cs zs cs ds ->
     twin (next_cs G E n c k cs r) (next_cs G E n d l ds r)
       (fun x y => Forall2 (tw_entry zs) (snd x) (snd y) /\
          match fst x, fst y with
          | Some (a, cs'), Some (b, ds') => a = b /\ tw_cs zs cs' ds'
          | None, None => True
          | _, _ => False
          end)) /\
  (forall c d st su r, Ag c d -> tw_cp st su ->
     twin (next_cp G E n c st r) (next_cp G E n d su r) (fun x y => fst x = fst y /\ tw_cp (snd x) (snd y))) /\
  (forall c d st su r, Ag c d -> tw_yc st su ->
     twin (next_yc G E n c st r) (next_yc G E n d su r) (fun x y => fst x = fst y /\ tw_yc (snd x) (snd y))).
Proof.
  induction n as [|n (IHg & IHcs & IHcp & IHyc)]; [repeat split; intros; exact I|]. split; [|split; [|split]].
  - intros g h r Hg. destruct Hg as
      [|t|t|c d zs sep Hc HK|gs hs sep Hgs|c d os os' lo hi sep Hc Hm HO|c d os os' lo hi sep Hc Hm HO|c d w w' m vars vars' Hc Hw
      |c d name wg Hc Hwg|c d name wg g h Hc Hwg Hg|c d w i w' i' Hc Hw Hi|gw gi hw hi Hgw Hgi|c d zs sep Hc Hm HK
      |zs c d sep k l cs ds Hc HK Hkl Hcs|c d os os' lo hi sep Hc HO|c d sep todo todo' seen Hc Htodo
      |c d sep todo todo' b st su seen Hc Htodo Hst|c d w w' m vars vars' Hc Hw|c d vals Hc Hvals|c d vals g h Hc Hvals Hg
      |c d w i w' i' Hc Hw Hi|c d i i' gw hw Hc Hi Hgw|c d i i' gw hw t g h Hc Hi Hgw Hg|c d os os' lo hi sep Hc HO|c d sep ys zs Hc Hys
      |c d w w' m vars vars' Hc Hm Hw|gs hs Hgs|c d w w' m vars vars' Hc Hw|g h Hg|n0 g h Hg]; unfold_next G E.
    + reflexivity.
    + repeat split; constructor.
    + repeat split; constructor.
    + (* GSeqStart *)
      apply twin_pep. eapply twin_bind; [apply twin_assignments; eassumption|].
      intros [tk c'] [tk' d'] r' ((ys & K0 & K1 & K1') & K2). cbn [fst snd] in *. subst tk tk'.
      eapply twin_bind; [apply twin_mk_all; [exact K2|apply kin_forall2, K0]|]. intros gs hs r'' Hgs. apply IHg. constructor. exact Hgs.
    + apply twin_pep. eapply twin_bind; [apply twin_rotate; eassumption|].
      intros [ts gs'] [us hs'] r' [E' Hgs']. cbn in E', Hgs'. subst us. repeat split. constructor. exact Hgs'.
    + (* GRVarStart *)
      assert (HO' := HO). destruct HO' as (zs & HK & K1 & K2 & K3).
      destruct os as [|[v q] os]; destruct zs as [|[a b] zs]; try discriminate K1; destruct os' as [|[v' q'] os']; try discriminate K2; [reflexivity|].
      cbn in K1, K2. injection K1 as -> K1. injection K2 as -> K2.
      pose proof (kin_like _ a b HK (or_introl eq_refl)) as Hab.
      destruct os as [|o os]; destruct zs as [|z zs]; try discriminate K1; destruct os' as [|o' os']; try discriminate K2.
      * destruct (single_wildcard [(a, q)]) as [w|] eqn:Hw.
        -- destruct (single_wildcard_spec _ _ Hw) as (m & vars & q0 & Ho). injection Ho as -> ->.
           assert (exists w' vars', b = Wild w' m vars') as (w' & vars' & ->) by (inversion Hab; eauto).
           cbn [single_wildcard].
           eapply twin_bind; [apply twin_pep; eapply twin_to_variant; eassumption|].
           intros [vs [lo' hi']] b r' [<- Hvs]. apply IHg. constructor; assumption.
        -- assert (Hw' : single_wildcard [(b, q')] = None) by (destruct Hab; cbn in Hw |- *; congruence).
           rewrite Hw'. eapply twin_bind; [apply twin_lift, twin_mks; eassumption|]. intros g h r' Hg. apply IHg, Hg.
      * apply IHg. constructor; assumption.
    + (* GRVarLoop *)
      rewrite <- (opts_length _ _ HO).
      destruct (adjust_range (length os) lo hi) as [lo' hi']. destruct (randint G lo' hi' r) as [[k r']|]; [|cbn; auto].
      apply twin_pep. eapply twin_bind; [apply HR; assumption|].
      intros sel sel' r2 Hs. eapply twin_bind; [apply twin_mk_all; eassumption|].
      intros gs hs r3 Hgs. destruct Hgs as [|g h gs hs Hg Hgs]; [repeat split; constructor; assumption|].
      eapply twin_bind; [apply twin_rotate; [eassumption|constructor; eassumption]|].
      intros [ts gs'] [us hs'] r4 [E' _]. cbn in E'. subst us. repeat split. constructor; assumption.
    + (* GRWildStart *)
      eapply twin_bind; [apply twin_pep; eapply twin_path; eassumption|]. intros path path' r' <-. cbn zeta.
      assert (Hc' : Ag (with_variables vars c) (with_variables vars' d)) by (apply Ag_vars; [assumption|eapply like_vars; eassumption]).
      destruct (env_lookup E path) as [|i items] eqn:Hl.
      * apply IHg. econstructor; eassumption.
      * apply IHg. apply tw_rwildl with (name := path); [exact Hc'|]. rewrite Hl. apply wgen_of_start.
    + (* GRWildLoop None *)
      eapply twin_bind with (Q1 := fun a b => a = b /\ wgen_of G (env_lookup E name) (snd a) /\
            exists i, In i (env_lookup E name) /\ w_content i = fst a).
      * destruct (next_wgen G wg r) as [[v wg'] r'|e r'] eqn:Ew; cbn; auto.
        destruct (next_wgen_spec G _ _ _ _ _ _ Hwg Ew) as (K1 & i & K2 & K3 & _). repeat split; eauto.
      * intros [v wg'] b r' (<- & K1 & i & K2 & K3). cbn [fst snd] in *.
        eapply twin_bind; [apply twin_lift, twin_prompts; [eassumption|]|].
        -- apply text_prompt. subst v. eapply (proj2 HT), K2.
        -- intros g h r'' Hg. apply IHg. econstructor; eassumption.
    + (* GRWildLoop Some *)
      pose proof (IHg g h r Hg) as HTT.
      destruct (next G E n g r) as [[t g'] r1|r1|e r1|], (next G E n h r) as [[t' h'] r2|r2|e' r2|]; cbn in HTT |- *; try contradiction; auto.
      * destruct HTT as [-> [E' Hg']]. cbn in E'. subst t'. repeat split. cbn. econstructor; eassumption.
      * subst r2. apply IHg. econstructor; eassumption.
    + (* GRWrap *)
      eapply twin_bind; [apply twin_lift, twin_mks; eassumption|]. intros gw hw r' Hgw.
      eapply twin_bind; [apply twin_lift, twin_mks; eassumption|]. intros gi hi r'' Hgi. apply IHg. constructor; assumption.
    + eapply twin_bind; [apply IHg; eassumption|]. intros [t g'] [u h'] r' [E' K]. cbn in E', K. subst u.
      eapply twin_bind; [apply IHg; eassumption|]. intros [t2 g2] [u2 h2] r'' [E' K2]. cbn in E', K2. subst u2.
      repeat split. constructor; assumption.
    + (* GCSeqStart *)
      eapply twin_bind with (Q1 := fun x y => exists ys, Kin ys /\ fst (snd x) = map fst ys /\ fst (snd y) = map snd ys /\
           Forall2 (tw_entry ((edge, edge) :: ys ++ [(edge, edge)])) (fst x) (fst y) /\ Ag (snd (snd x)) (snd (snd y))).
      * apply twin_pep. eapply twin_bind; [apply twin_assignments; eassumption|].
        intros [tk c'] [tk' d'] r' ((ys & K0 & K1 & K1') & K2). cbn [fst snd] in *. subst tk tk'.
        destruct (non_combo_pairs ys K0) as (xs & N1 & N2 & N3). rewrite N2, N3.
        eapply twin_bind; [apply twin_collection with (zs := (edge, edge) :: ys ++ [(edge, edge)]);
          [eassumption|exact K2|apply kin_augmented; assumption|]|].
        -- intros z Hz. right. apply in_or_app. left. apply N1, Hz.
        -- intros k l r'' Hk. cbn. split; [reflexivity|]. exists ys. auto.
      * intros [k [tk c']] [l [tk' d']] r' (ys & K0 & K1 & K2 & K3 & K4). cbn [fst snd] in *. subst tk tk'.
        destruct (augmented_pairs ys) as [A1 A2]. rewrite A1, A2.
        apply IHg. apply tw_cseql with (zs := (edge, edge) :: ys ++ [(edge, edge)]); [exact K4|apply kin_augmented; assumption|exact K3|].
        constructor. apply incl_refl.
    + (* GCSeqLoop *)
      eapply twin_bind; [eapply IHcs; eassumption|]. intros [x k'] [y l'] r' [K1 K2]. cbn [fst snd] in *.
      destruct x as [[a cs']|], y as [[b ds']|]; try contradiction; [|reflexivity].
      destruct K2 as [<- K2]. repeat split. cbn. econstructor; eassumption.
    + (* GCVarStart *)
      assert (HO' := HO). destruct HO' as (zs & HK & K1 & K2 & K3).
      destruct os as [|[v q] os]; destruct zs as [|[a b] zs]; try discriminate K1; destruct os' as [|[v' q'] os']; try discriminate K2; [reflexivity|].
      cbn in K1, K2. injection K1 as -> K1. injection K2 as -> K2.
      pose proof (kin_like _ a b HK (or_introl eq_refl)) as Hab.
      destruct (single_wildcard ((a, q) :: os)) as [w|] eqn:Hw.
      * destruct (single_wildcard_spec _ _ Hw) as (m & vars & q0 & Ho). injection Ho as -> -> ->.
        destruct zs; [|discriminate K1]. destruct os'; [|discriminate K2].
        assert (exists w' vars', b = Wild w' m vars') as (w' & vars' & ->) by (inversion Hab; eauto).
        cbn [single_wildcard].
        eapply twin_bind; [apply twin_pep; eapply twin_to_variant; eassumption|].
        intros [vs [lo' hi']] b r' [<- Hvs]. apply IHg. constructor; assumption.
      * assert (Hw' : single_wildcard ((b, q') :: os') = None).
        { destruct Hab; try reflexivity; cbn in Hw |- *; destruct os; try congruence; destruct zs; try discriminate K1;
            destruct os'; try discriminate K2; reflexivity. }
        rewrite Hw'. apply IHg. constructor; [assumption|]. apply combos_twin. assumption.
    + destruct Htodo as [|[b combo] [b' combo'] todo todo' [Hb Hcm] Htodo]; [reflexivity|]. cbn in Hb, Hcm. subst b'.
      apply IHg. constructor; auto. now constructor.
    + pose proof (IHcp c d st su r Hc Hst) as HTT.
      destruct (next_cp G E n c st r) as [[a st'] r1|r1|e r1|], (next_cp G E n d su r) as [[a' su'] r2|r2|e' r2|]; cbn in HTT |- *; try contradiction; auto.
      * destruct HTT as [-> [E' Hst']]. cbn in E'. subst a'.
        match goal with |- context [if ?b then _ else _] => destruct b end.
        -- repeat split. cbn. constructor; assumption.
        -- apply IHg. constructor; assumption.
      * subst r2. apply IHg. constructor; assumption.
    + (* GCWildStart *)
      eapply twin_bind; [apply twin_pep; eapply twin_path; eassumption|]. intros path path' r' <-. cbn zeta.
      assert (Hc' : Ag (with_variables vars c) (with_variables vars' d)) by (apply Ag_vars; [assumption|eapply like_vars; eassumption]).
      destruct (env_lookup E path) as [|i items] eqn:Hl.
      * apply IHg. econstructor; eassumption.
      * apply IHg. constructor; [exact Hc'|]. apply Forall_forall. intros v Hv. rewrite <- Hl in Hv.
        eapply value_texts; eassumption.
    + destruct Hvals as [|v vals Hd Hds]; [reflexivity|].
      eapply twin_bind; [apply twin_lift, twin_prompts; [eassumption|now apply text_prompt]|].
      intros g h r' Hg. apply IHg. constructor; assumption.
    + pose proof (IHg g h r Hg) as HTT.
      destruct (next G E n g r) as [[t g'] r1|r1|e r1|], (next G E n h r) as [[t' h'] r2|r2|e' r2|]; cbn in HTT |- *; try contradiction; auto.
      * destruct HTT as [-> [E' Hg']]. cbn in E'. subst t'. repeat split. cbn. constructor; assumption.
      * subst r2. apply IHg. constructor; assumption.
    + (* GCWrap *)
      eapply twin_bind; [apply twin_lift, prompt_twin; eassumption|].
      intros g h r' Hg. apply IHg. constructor; assumption.
    + eapply twin_bind; [apply IHg; eassumption|]. intros [t g'] [u h'] r' [E' K]. cbn in E', K. subst u.
      eapply twin_bind; [apply twin_lift, prompt_twin; eassumption|].
      intros g h r'' Hg2. apply IHg. constructor; assumption.
    + pose proof (IHg g h r Hg) as HTT.
      destruct (next G E n g r) as [[t2 g'] r1|r1|e r1|], (next G E n h r) as [[t' h'] r2|r2|e' r2|]; cbn in HTT |- *; try contradiction; auto.
      * destruct HTT as [-> [E' Hg']]. cbn in E'. subst t'. repeat split. cbn. constructor; assumption.
      * subst r2. apply IHg. constructor; assumption.
    + (* GYVarStart *)
      assert (HO' := HO). destruct HO' as (zs & HK & K1 & K2 & K3).
      destruct os as [|[v q] os]; destruct zs as [|[a b] zs]; try discriminate K1; destruct os' as [|[v' q'] os']; try discriminate K2; [reflexivity|].
      cbn in K1, K2. injection K1 as -> K1. injection K2 as -> K2.
      pose proof (kin_like _ a b HK (or_introl eq_refl)) as Hab.
      destruct (single_wildcard ((a, q) :: os)) as [w|] eqn:Hw.
      * destruct (single_wildcard_spec _ _ Hw) as (m & vars & q0 & Ho). injection Ho as -> -> ->.
        destruct zs; [|discriminate K1]. destruct os'; [|discriminate K2].
        assert (exists w' vars', b = Wild w' m vars') as (w' & vars' & ->) by (inversion Hab; eauto).
        cbn [single_wildcard].
        eapply twin_bind; [apply twin_pep; eapply twin_to_variant; eassumption|].
        intros [vs [lo' hi']] b r' [<- Hvs]. apply IHg. constructor; assumption.
      * assert (Hw' : single_wildcard ((b, q') :: os') = None).
        { destruct Hab; try reflexivity; cbn in Hw |- *; destruct os; try congruence; destruct zs; try discriminate K1;
            destruct os'; try discriminate K2; reflexivity. }
        rewrite Hw'. apply IHg. constructor; [assumption|].
        pose proof (combos_twin _ _ lo hi HO) as HB.
        clear - HB. induction HB as [|x y l l' [_ Hb] _ IH]; cbn; constructor; auto. constructor. exact Hb.
    + destruct Hys as [|y z ys zs Hy Hys].
      * apply IHg. constructor; [assumption|constructor].
      * eapply twin_bind; [apply twin_pep, IHyc; eassumption|]. intros [a y'] [b z'] r' [E' K]. cbn in E', K. subst b.
        repeat split. constructor; [assumption|]. apply Forall2_app; [exact Hys|constructor; [exact K|constructor]].
    + (* GYWildStart *)
      eapply twin_bind; [apply twin_pep; eapply twin_path; eassumption|]. intros path path' r' <-. cbn zeta.
      assert (Hc' : Ag (with_method Cyclical (with_variables vars c)) (with_method Cyclical (with_variables vars' d))).
      { apply Ag_method; [|exact Hm]. apply Ag_vars; [assumption|eapply like_vars; eassumption]. }
      destruct (env_lookup E path) as [|i items] eqn:Hl.
      * apply IHg. econstructor; eassumption.
      * eapply twin_bind; [apply twin_sample_all; [exact Hc'|]|].
        -- apply Forall_forall. intros v Hv. rewrite <- Hl in Hv. eapply value_texts; eassumption.
        -- intros gs hs r'' Hgs. apply IHg. constructor. exact Hgs.
    + destruct Hgs as [|g h gs hs Hg Hgs]; [reflexivity|].
      eapply twin_bind; [apply twin_pep, IHg; eassumption|]. intros [t g'] [u h'] r' [E' K]. cbn in E', K. subst u.
      repeat split. constructor. apply Forall2_app; [exact Hgs|constructor; [exact K|constructor]].
    + (* GFallback *)
      eapply twin_bind with (Q1 := eq).
      * inversion Hw; subst; [cbn; auto|]. apply twin_pep. eapply twin_path; eassumption.
      * intros name name' r' <-. apply IHg. constructor.
    + eapply twin_bind; [apply IHg; eassumption|]. intros [t g'] [u h'] r' [E' K]. cbn in E', K. subst u.
      repeat split. constructor. exact K.
    + destruct n0; [reflexivity|].
      eapply twin_bind; [apply IHg; eassumption|]. intros [t g'] [u h'] r' [E' K]. cbn in E', K. subst u.
      repeat split. constructor. exact K.
  - intros zs c d k l cs ds r Hc HK Hk Hcs. destruct Hcs as [zs ys Hd|zs a0 b0 cs ds Hab Hcs|zs g h ys Hg Hd|zs g h ys t cs ds Hg Hd Hcs|zs];
      unfold_next G E.
    + destruct ys as [|[a b] ys].
      * cbn. repeat split; auto. constructor.
      * cbn [map fst snd]. assert (Hin : In (a, b) zs) by (apply Hd; now left).
        pose proof (kin_like _ _ _ HK Hin) as Hab. rewrite (effective_alike c d a b Hc Hab).
        assert (Hd' : incl ys zs) by (intros z Hz; apply Hd; now right).
        destruct (is_nonfinite (effective_method d b)).
        -- apply IHcs; auto. constructor; [exact Hin|]. constructor. exact Hd'.
        -- eapply twin_bind; [apply twin_lift, twin_mks; eassumption|]. intros g h r' Hg. apply IHcs; auto. constructor; assumption.
    + eapply twin_bind; [apply IHcs; eassumption|]. intros [x k'] [y l'] r' [K1 K2]. cbn [fst snd] in *.
      destruct x as [[a cs']|], y as [[b ds']|]; try contradiction; [|cbn; auto]. destruct K2 as [<- K2].
      eapply twin_bind; [eapply twin_get_value; [eassumption|exact (proj1 HK)|exact Hab|exact K1]|]. intros [v k2] [u l2] r'' [E' K3]. cbn in E', K3. subst u.
      destruct v; cbn; repeat split; auto; constructor; assumption.
    + pose proof (IHg g h r Hg) as HTT.
      destruct (next G E n g r) as [[t g'] r1|r1|e r1|], (next G E n h r) as [[t' h'] r2|r2|e' r2|]; cbn in HTT |- *; try contradiction; auto.
      destruct HTT as [-> [E' Hg']]. cbn in E'. subst t'. apply IHcs; auto. constructor; auto. constructor. exact Hd.
    + eapply twin_bind; [apply IHcs; eassumption|]. intros [x k'] [y l'] r' [K1 K2]. cbn [fst snd] in *.
      destruct x as [[a cs']|], y as [[b ds']|]; try contradiction.
      * destruct K2 as [<- K2]. cbn. repeat split; auto. constructor; assumption.
      * apply IHcs; auto. constructor; assumption.
    + cbn. auto.
  - intros c d st su r Hc Hst. destruct Hst as [cmds cmds' Hd|g h st su Hg Hst|g h cmds cmds' Hg Hd|g h cmds cmds' t st su Hg Hd Hst|];
      unfold_next G E.
    + destruct Hd as [|a b cmds cmds' Hab Hd].
      * cbn. repeat split; constructor.
      * rewrite (effective_alike c d a b Hc Hab).
        eapply twin_bind; [apply twin_lift, twin_mks; eassumption|]. intros g h r' Hg.
        destruct (is_nonfinite (effective_method d b)); apply IHcp; auto; constructor; auto. constructor. exact Hd.
    + eapply twin_bind; [apply IHcp; eassumption|]. intros [a st'] [b su'] r' [E' K]. cbn in E', K. subst b.
      eapply twin_bind; [apply twin_pep, IHg; eassumption|]. intros [t g'] [u h'] r'' [E' K2]. cbn in E', K2. subst u.
      cbn. repeat split. constructor; assumption.
    + eapply twin_bind; [apply IHg; eassumption|]. intros [t g'] [u h'] r' [E' K]. cbn in E', K. subst u.
      apply IHcp; auto. constructor; auto. constructor. exact Hd.
    + pose proof (IHcp c d st su r Hc Hst) as HTT.
      destruct (next_cp G E n c st r) as [[a st'] r1|r1|e r1|], (next_cp G E n d su r) as [[a' su'] r2|r2|e' r2|]; cbn in HTT |- *; try contradiction; auto.
      * destruct HTT as [-> [E' Hst']]. cbn in E'. subst a'. repeat split. constructor; assumption.
      * subst r2. apply IHcp; auto. constructor; assumption.
    + reflexivity.
  - intros c d st su r Hc Hst. destruct Hst as [cmds cmds' Hd| |g h y z Hg Hy|]; unfold_next G E.
    + destruct Hd as [|a b cmds cmds' Hab Hd].
      * apply IHyc; auto. constructor.
      * eapply twin_bind; [apply twin_lift, twin_mks; eassumption|]. intros g h r' Hg. apply IHyc; auto.
        constructor; [exact Hg|]. constructor. exact Hd.
    + cbn. repeat split. constructor.
    + eapply twin_bind; [apply IHyc; eassumption|]. intros [a st'] [b su'] r' [E' K]. cbn in E', K. subst b.
      pose proof (IHg g h r' Hg) as HTT.
      destruct (next G E n g r') as [[t g'] r1|r1|e r1|], (next G E n h r') as [[t' h'] r2|r2|e' r2|]; cbn in HTT |- *; try contradiction; auto.
      * destruct HTT as [-> [E' Hg']]. cbn in E'. subst t'. repeat split. constructor; assumption.
      * subst r2. repeat split. constructor.
    + reflexivity.
Qed.

Lemma collect_twin : forall f n g h r, tw g h ->
  let '(ts, e, s) := collect G E f n g r in
  let '(us, e', s') := collect G E f n h r in
  ts = us /\ s = s' /\
  match e, e' with
  | EndLimit g', EndLimit h' => tw g' h'
  | EndStop, EndStop | EndFuel, EndFuel => True
  | EndRaise x, EndRaise y => x = y
  | _, _ => False
  end.
Proof.
  intros f n. induction n as [|n IH]; intros g h r Hg; cbn [collect]; [auto|].
  pose proof (proj1 (next_twin f) g h r Hg) as HTT.
  destruct (next G E f g r) as [[t g'] r1|r1|e r1|], (next G E f h r) as [[t' h'] r2|r2|e' r2|]; cbn in HTT; try contradiction.
  - destruct HTT as [-> [E' Hg']]. cbn in E', Hg'. subst t'. specialize (IH g' h' r2 Hg').
    destruct (collect G E f n g' r2) as [[ts e] s], (collect G E f n h' r2) as [[us e'] s'].
    destruct IH as (-> & -> & H). auto.
  - subst. auto.
  - destruct HTT as [-> ->]. auto.
  - auto.
Qed.
End Weigh.
