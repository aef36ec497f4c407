(** Runs raise only the exceptions that the template allows. *)
From Coq Require Import String NArith ZArith QArith Qcanon Bool Arith List Permutation Lia.
From Verif.Model Require Import Str Utils Command Rng Values Context Sampler.
From Verif.Spec Require Import Text Comb Items Lang Causes.
From Verif.Proofs Require Import StrFacts UtilsFacts CommandFacts RngFacts CombFacts ValuesFacts DictFacts Soundness AttentionFacts.
Import ListNotations.
Local Open Scope nat_scope.

Section Causes.
Variable G : rng_impl.
Notation R := (rng_state G).
Variable E : env.
Variable raises : exn -> Prop.
Variable fallback : Prop.
Variable layer : text -> nat.
Variable needs : text -> list text.
Variable modes : text -> method -> Prop.
Variables texts wilds : nat -> list text -> (method -> Prop) -> text -> Prop.
Notation Cau := (Cautious E raises fallback layer needs modes texts wilds).
Notation Par := (Part E raises fallback layer needs modes texts wilds).
Notation Rdy := (Ready E raises fallback layer needs modes texts wilds).
Notation Dfd := (Defined raises fallback).
Notation Crf := (Careful E raises fallback layer needs modes texts wilds).
Hypothesis HT : TextsCautious E raises fallback layer needs modes texts wilds.
Hypothesis HW : WildsCautious E raises fallback layer needs modes texts wilds.

Definition may (e : exn) : Prop := raises e \/ e = ERuntime.
Definition safe {A} (x : ores G A) (Q : A -> Prop) : Prop :=
  match x with
  | OVal a _ => Q a
  | ORaise e _ => may e
  | _ => True
  end.
Lemma safe_bind : forall A B (x : ores G A) (f : A -> R -> ores G B) Q1 Q,
  safe x Q1 -> (forall a r, Q1 a -> safe (f a r) Q) -> safe (obind G x f) Q.
Proof. intros A B [a r|r|e r|] f Q1 Q H Hf; cbn in *; auto. Qed.
Lemma safe_pep : forall A (x : ores G A) Q, safe x Q -> safe (pep479 G x) Q.
Proof. intros A [a r|r|e r|] Q H; cbn in *; auto. now right. Qed.
Lemma safe_impl : forall A (x : ores G A) (Q Q' : A -> Prop), safe x Q -> (forall a, Q a -> Q' a) -> safe x Q'.
Proof. intros A [a r|r|e r|] Q Q' H HQ; cbn in *; auto. Qed.
Lemma safe_post : forall A (x : ores G A) (Q P : A -> Prop) S, safe x Q -> post G x P S -> safe x (fun a => Q a /\ P a).
Proof. intros A [a r|r|e r|] Q P S H HP; cbn in *; auto. Qed.

(** The options of a variant. *)
Definition Opts (n : nat) (K : list text) (M : method -> Prop) (os : list (command * Qc)) (lo hi : Z) : Prop :=
  Forall (fun o => Cau n K M (fst o)) os /\
  (M Random -> raises EValue \/ (0 <= Z.max lo hi)%Z) /\
  (M Random -> raises EValue \/ length os <= 1 \/ forall v q, In (v, q) os -> (0 < q)%Qc) /\
  (forall w mw vars q, os = [(Wild w mw vars, q)] -> Crf n K M w /\ forall sc name, Path E sc w name -> wilds n K M name).
Definition Wld (n : nat) (K : list text) (M : method -> Prop) (w : wpath) (vars : list (str * command)) : Prop :=
  Crf n K M w /\
  (forall x v, In (x, v) vars -> Cau (layer x) (needs x) (modes x) v) /\
  (forall x v, In (x, v) vars -> Dfd v /\ incl (needs x) (given vars ++ K)) /\
  (forall sc name, Path E sc w name -> wilds n (given vars ++ K) M name).

Inductive ok : gen -> Prop :=
| ok_done : ok GDone
| ok_repeat : forall t, ok (GRepeat t)
| ok_once : forall t, ok (GOnce t)
| ok_seq : forall n K M c tokens sep, Rdy n K M c -> Forall (Par n K M (assigned tokens ++ K)) tokens -> ok (GSeqStart c tokens sep)
| ok_seql : forall gs sep, Forall ok gs -> ok (GSeqLoop gs sep)
| ok_rvar : forall n K M c os lo hi sep, Rdy n K M c -> c_method c = Random -> Opts n K M os lo hi -> ok (GRVarStart c os lo hi sep)
| ok_rvarl : forall n K M c os lo hi sep, Rdy n K M c -> c_method c = Random -> Opts n K M os lo hi -> 2 <= length os ->
    ok (GRVarLoop c os lo hi sep)
| ok_rwild : forall n K M c w vars, Rdy n K M c -> c_method c = Random -> Wld n K M w vars -> ok (GRWildStart c w vars)
| ok_rwildl : forall n K M c name wg, Rdy n K M c -> c_method c = Random -> wilds n K M name -> env_lookup E name <> [] ->
    wgen_of G (env_lookup E name) wg -> ok (GRWildLoop c wg None)
| ok_rwildl' : forall n K M c name wg g, Rdy n K M c -> c_method c = Random -> wilds n K M name -> env_lookup E name <> [] ->
    wgen_of G (env_lookup E name) wg -> ok g -> ok (GRWildLoop c wg (Some g))
| ok_rwrap : forall n K M c w i, Rdy n K M c -> Cau n K M w -> Cau n K M i -> ok (GRWrapStart c w i)
| ok_rwrapl : forall gw gi, ok gw -> ok gi -> ok (GRWrapLoop gw gi)
| ok_cseq : forall n K M c tokens sep, Rdy n K M c -> c_method c = Combinatorial ->
    Forall (Par n K M (assigned tokens ++ K)) tokens -> ok (GCSeqStart c tokens sep)
| ok_cseql : forall n K M c sep names k cs, Rdy n K M c -> c_method c = Combinatorial -> names = map (fun x => fst (fst x)) k ->
    Forall ok_entry k -> ok_cs n K M names cs -> ok (GCSeqLoop c sep k cs)
| ok_cvar : forall n K M c os lo hi sep, Rdy n K M c -> Opts n K M os lo hi -> ok (GCVarStart c os lo hi sep)
| ok_cvarl : forall n K M c sep todo seen, Rdy n K M c -> Forall (fun bc => Forall (Cau n K M) (snd bc)) todo ->
    ok (GCVarLoop c sep todo None seen)
| ok_cvarl' : forall n K M c sep todo b st seen, Rdy n K M c -> Forall (fun bc => Forall (Cau n K M) (snd bc)) todo -> ok_cp n K M st ->
    ok (GCVarLoop c sep todo (Some (b, st)) seen)
| ok_cwild : forall n K M c w vars, Rdy n K M c -> Wld n K M w vars -> ok (GCWildStart c w vars)
| ok_cwildl : forall n K M c vals, Rdy n K M c -> Forall (texts n K M) vals -> ok (GCWildLoop c vals None)
| ok_cwildl' : forall n K M c vals g, Rdy n K M c -> Forall (texts n K M) vals -> ok g -> ok (GCWildLoop c vals (Some g))
| ok_cwrap : forall n K M c w i, Rdy n K M c -> Cau n K M w -> Cau n K M i -> ok (GCWrapStart c w i)
| ok_cwrapl : forall n K M c i gw, Rdy n K M c -> Cau n K M i -> ok gw -> ok (GCWrapLoop c i gw None)
| ok_cwrapl' : forall n K M c i gw t g, Rdy n K M c -> Cau n K M i -> ok gw -> ok g -> ok (GCWrapLoop c i gw (Some (t, g)))
| ok_yvar : forall n K M c os lo hi sep, Rdy n K M c -> Opts n K M os lo hi -> ok (GYVarStart c os lo hi sep)
| ok_yvarl : forall n K M c sep ys, Rdy n K M c -> Forall (ok_yc n K M) ys -> ok (GYVarLoop c sep ys)
| ok_ywild : forall n K M c w vars, Rdy n K M c -> c_method c = Cyclical -> Wld n K M w vars -> ok (GYWildStart c w vars)
| ok_ywildl : forall gs, Forall ok gs -> ok (GYWildLoop gs)
| ok_fallback : forall n K M c w vars, Rdy n K M c -> Wld n K M w vars -> ok (GFallback c w)
| ok_squash : forall g, ok g -> ok (GSquash g)
| ok_slice : forall n g, ok g -> ok (GSlice n g)
with ok_entry : command * gen * option str -> Prop :=
| ok_one : forall cmd g v, ok g -> ok_entry (cmd, g, v)
with ok_cs : nat -> list text -> (method -> Prop) -> list command -> cseq -> Prop :=
| ocs_start : forall n K M names cmds, Forall (Cau n K M) cmds ->
    (forall cmd, In cmd cmds -> sampling_method cmd = None \/ (exists m, sampling_method cmd = Some m /\ m <> Combinatorial) -> In cmd names) ->
    ok_cs n K M names (CSStart cmds)
| ocs_non : forall n K M names cmd cs, In cmd names -> ok_cs n K M names cs -> ok_cs n K M names (CSNon cmd cs)
| ocs_fin : forall n K M names g cmds, ok g -> ok_cs n K M names (CSStart cmds) -> ok_cs n K M names (CSFin g cmds)
| ocs_fin2 : forall n K M names g cmds t cs, ok g -> ok_cs n K M names (CSStart cmds) -> ok_cs n K M names cs ->
    ok_cs n K M names (CSFin2 g cmds t cs)
| ocs_done : forall n K M names, ok_cs n K M names CSDone
with ok_cp : nat -> list text -> (method -> Prop) -> cp -> Prop :=
| ocp_start : forall n K M cmds, Forall (Cau n K M) cmds -> ok_cp n K M (CPStart cmds)
| ocp_non : forall n K M g st, ok g -> ok_cp n K M st -> ok_cp n K M (CPNon g st)
| ocp_fin : forall n K M g cmds, ok g -> Forall (Cau n K M) cmds -> ok_cp n K M (CPFin g cmds)
| ocp_fin2 : forall n K M g cmds t st, ok g -> Forall (Cau n K M) cmds -> ok_cp n K M st -> ok_cp n K M (CPFin2 g cmds t st)
| ocp_done : forall n K M, ok_cp n K M CPDone
with ok_yc : nat -> list text -> (method -> Prop) -> yc -> Prop :=
| oyc_start : forall n K M cmds, Forall (Cau n K M) cmds -> ok_yc n K M (YCStart cmds)
| oyc_empty : forall n K M, ok_yc n K M YCEmpty
| oyc_loop : forall n K M g y, ok g -> ok_yc n K M y -> ok_yc n K M (YCLoop g y)
| oyc_done : forall n K M, ok_yc n K M YCDone.

(** * Contexts *)
Lemma chosen_in : forall (M M' : method -> Prop) c cmd, M (c_method c) -> Turns M (sampling_method cmd) M' -> M' (chosen_method c cmd).
Proof. intros M M' c cmd Hc Hm. rewrite chosen_method_resolve. now apply Hm. Qed.
Lemma ready_method : forall n K (M M' : method -> Prop) c m, Rdy n K M c -> M' m -> Rdy n K M' (with_method m c).
Proof. intros n K M M' c m (H1 & H2) Hm. split; [exact Hm|exact H2]. Qed.
Lemma ready_less : forall n K M K' c, Rdy n K M c -> incl K' K -> Rdy n K' M c.
Proof. intros n K M K' c (H1 & H2 & H3 & H4 & H5 & H6) Hi. exact (conj H1 (conj H2 (conj H3 (conj H4 (conj (fun x Hx => H5 x (Hi x Hx)) H6))))). Qed.

Lemma update_some : forall (new d : list (str * command)) x, dict_get x d <> None \/ In x (map fst new) ->
  dict_get x (dict_update d new) <> None.
Proof.
  intros new. unfold dict_update. induction new as [|[y v] new IH]; intros d x H; cbn [fold_left map fst snd] in *.
  - destruct H as [H|[]]. exact H.
  - apply IH. rewrite dict_get_set. destruct H as [H|[H|H]].
    + left. destruct (str_eqb x y); [discriminate|assumption].
    + subst y. left. rewrite str_eqb_refl. discriminate.
    + now right.
Qed.
Lemma update_from : forall (new d : list (str * command)) x v, dict_get x (dict_update d new) = Some v ->
  dict_get x d = Some v \/ In (x, v) new.
Proof.
  intros new. unfold dict_update. induction new as [|[y u] new IH]; intros d x v H; cbn [fold_left map fst snd] in *.
  - now left.
  - apply IH in H as [H|H]; [|right; now right]. rewrite dict_get_set in H. destruct (str_eqb x y) eqn:Exy; [|now left].
    apply str_eqb_eq in Exy. subst y. injection H as ->. right. now left.
Qed.
Lemma vars_with : forall vars c, c_vars (with_variables vars c) = dict_update (c_vars c) vars.
Proof. intros [|kv vars] c; reflexivity. Qed.
Lemma ready_with : forall n K M K' (M' : method -> Prop) c, Rdy n K M c -> M' (c_method c) -> (forall x, In x K' -> dict_get x (c_vars c) <> None) -> Rdy n K' M' c.
Proof. intros n K M K' M' c (H1 & H2 & H3 & H4 & H5 & H6) Hm Hi. exact (conj Hm (conj H2 (conj H3 (conj H4 (conj Hi H6))))). Qed.
Lemma ready_vars : forall n K M c vars, Rdy n K M c ->
  (forall x v, In (x, v) vars -> Cau (layer x) (needs x) (modes x) v /\ Dfd v /\
     forall y, In y (needs x) -> In y (given vars ++ K) \/ dict_get y (c_vars c) <> None) ->
  Rdy n (given vars ++ K) M (with_variables vars c).
Proof.
  intros n K M c vars (H1 & H2 & H3 & H4 & H5 & H6) Hv.
  assert (HK : forall x, In x (given vars ++ K) -> dict_get x (c_vars (with_variables vars c)) <> None).
  { intros x Hx. rewrite vars_with. apply update_some. apply in_app_or in Hx as [Hx|Hx]; [now right|left; exact (H5 x Hx)]. }
  split; [destruct vars; exact H1|]. split; [destruct vars; exact H2|]. split; [destruct vars; exact H3|].
  split; [destruct vars; exact H4|]. split; [exact HK|].
  intros x v Hx. cbn [scope_of sc_var] in Hx |- *. rewrite vars_with in Hx. apply update_from in Hx as [Hx|Hx].
  - destruct (H6 x v Hx) as (K1 & K2 & K3). split; [exact K1|]. split; [exact K2|].
    intros y Hy. rewrite vars_with. apply update_some. left. exact (K3 y Hy).
  - destruct (Hv x v Hx) as (K1 & K2 & K3). split; [exact K1|]. split; [exact K2|]. intros y Hy.
    destruct (K3 y Hy) as [Hin|Hin]; [apply HK, Hin|]. rewrite vars_with. apply update_some. now left.
Qed.

(** * Making generators *)
Definition made (x : mkres) : Prop :=
  match x with MOk g => ok g | MErr e => raises e | MFuel => True end.
Lemma mk_made : forall f n K M c cmd, Rdy n K M c -> Cau n K M cmd -> made (mk f c cmd).
Proof.
  induction f as [|f IH]; intros n K M c cmd Hc Hd; [exact I|]. cbn [mk].
  assert (HC : forall M', Turns M (sampling_method cmd) M' -> Rdy n K M' (with_method (chosen_method c cmd) c)).
  { intros M' HM. eapply ready_method; [exact Hc|]. eapply chosen_in; [apply Hc|exact HM]. }
  destruct Hd as [n K M t mk|n K M M' cs sep mk Hk Hp|n K M M' os lo hi sep mk Hk Ho Hlo Hw Ht Hd Hl|n K M M' w mk vars Hk Ht Hr Hv Hv' Hp
    |n K M x v i o He|n K M x d He Hr Hmo Hd Hd'|n K M M' w i mk Hk He Hw Hi]; cbn [sampling_method] in HC;
    try (specialize (HC _ Hk); rename HC into Hc').
  - destruct (chosen_method _ _); constructor.
  - destruct (chosen_method _ _); econstructor; eauto.
  - assert (HO : Opts n K M' os lo hi).
    { split; [exact Ho|]. split; [exact Hlo|]. split; [exact Hw|]. intros w mw vars q Hos. split; [|intros sc name; eapply Hl, Hos].
      destruct w; cbn; [eapply Ht, Hos|eapply Hd, Hos]. }
    destruct (chosen_method _ _); econstructor; eauto.
  - assert (HO : Wld n K M' w vars).
    { split; [destruct w; cbn; auto|]. split; [exact Hv|]. split; [exact Hv'|exact Hp]. }
    destruct (chosen_method _ _); econstructor; eauto.
  - exact He.
  - (* a variable *)
    assert (Hc' : Rdy n K M (with_method (chosen_method c (Access x d)) c)).
    { apply HC. intros k Hk. exact Hk. }
    remember (chosen_method c (Access x d)) as m eqn:Em. clear Em HC.
    assert (Hres : match resolve_access (with_method m c) x d with
                   | None => raises EKey
                   | Some v => exists K' M', Cau (layer x) K' M' v /\ Rdy n K' M' (with_method m c)
                   end).
    { assert (Hc2 := Hc'). destruct Hc2 as (C1 & C2 & C3 & C4 & C5 & C6).
      assert (Hu : fallback \/ raises EKey -> match c_unknown (with_method m c) with
                   | None => raises EKey
                   | Some v => exists K' M', Cau (layer x) K' M' v /\ Rdy n K' M' (with_method m c) end).
      { intros HF. destruct (c_unknown (with_method m c)) as [u|] eqn:Eu.
        - exists [], M. split; [now apply C4|]. eapply ready_less; [exact Hc'|intros y []].
        - destruct HF as [HF|HF]; [|assumption]. now apply C3 in HF. }
      unfold resolve_access. cbn [scope_of sc_var] in C5, C6.
      destruct (dict_get x (c_vars (with_method m c))) as [v|] eqn:Ex.
      - destruct (C6 x v Ex) as (K1 & K2 & K3). destruct (truthy v) eqn:Et.
        + exists (needs x), (modes x). split; [exact K1|]. eapply ready_with; [exact Hc'|apply Hmo, C1|exact K3].
        + apply Hu. destruct K2 as [K2|K2]; [|exact K2]. apply truthy_Nonempty in K2. congruence.
      - destruct d as [v|].
        + destruct (truthy v) eqn:Et.
          * exists K, M. split; [apply Hd; reflexivity|exact Hc'].
          * apply Hu. destruct (Hd' v eq_refl) as [K2|K2]; [|exact K2]. apply truthy_Nonempty in K2. congruence.
        + apply Hu. destruct He as [He|[He|He]]; [|congruence|exact He]. now apply C5 in He. }
    destruct (resolve_access (with_method m c) x d) as [v|]; [|exact Hres].
    destruct Hres as (K' & M' & Hv & (C1 & C2 & C3 & C4 & C5 & C6)).
    unfold for_sampling_variable. destruct (str_mem x (c_busy (with_method m c))) eqn:Eb.
    + cbn. destruct Hr as [Hr|Hr]; [|exact Hr]. destruct C2 as [C2|C2]; [exact C2|].
      apply str_mem_In in Eb. apply C2 in Eb. lia.
    + apply (IH (layer x) K' M'); [|exact Hv]. split; [exact C1|]. split.
      * destruct Hr as [Hr|Hr]; [|now left]. destruct C2 as [C2|C2]; [now left|right]. intros y [<-|Hy]; [lia|]. apply C2 in Hy. lia.
      * repeat (split; [assumption|]). assumption.
  - destruct (chosen_method _ _) eqn:Em; [econstructor; eauto|econstructor; eauto|]. apply He, Hc'.
Qed.
Lemma prompts_made : forall f n K M c p limit, Rdy n K M c -> Crf n K M p -> made (sample_prompts E f c p limit).
Proof.
  intros f n K M c p limit Hc Hp. unfold sample_prompts.
  destruct (match p with WStr [] => true | WStr _ => false | WCmd cmd => negb (truthy cmd) end) eqn:Ef; [constructor|].
  assert (HK : match (match p with WStr s => env_parse E s | WCmd cmd => Ok cmd end) with Ok cmd => Cau n K M cmd | Err e => raises e end).
  { destruct p as [s|cmd]; [|exact Hp]. destruct (HT n K M s Hp) as [H1 H2]. destruct (env_parse E s) as [cmd|e]; auto. }
  destruct (match p with WStr s => env_parse E s | WCmd cmd => Ok cmd end) as [cmd|e]; [|exact HK].
  pose proof (mk_made f n K M c cmd Hc HK) as HM. destruct (mk f c cmd) as [g|e|]; cbn in HM |- *; auto.
  destruct limit; [constructor|]; destruct (c_ignws c); try constructor; assumption.
Qed.
Lemma wld_careful : forall n K M w vars, Wld n K M w vars -> Crf n K M w.
Proof. intros n K M w vars [H _]. exact H. Qed.

(** * Steps *)
Lemma safe_mk : forall x r, made x -> safe (lift_mk G x r) ok.
Proof. intros [g|e|] r H; cbn in *; auto. now left. Qed.
Definition step (x : str * gen) : Prop := ok (snd x).

Lemma wilds_value : forall n K M name t, wilds n K M name -> In t (iterate_weighted (env_lookup E name)) -> texts n K M t.
Proof.
  intros n K M name t H Ht. apply HW in H as (H & _). apply iterate_weighted_In in Ht as (i & Hi & Hc & _). subst t. exact (H i Hi).
Qed.

Section Open.
Variable f : nat.
Notation nx := (next G E f).
Hypothesis nx_safe : forall g r, ok g -> safe (nx g r) step.

Lemma rotate_safe : forall gs r, Forall ok gs -> safe (rotate_all G nx gs r) (fun x => Forall ok (snd x)).
Proof.
  intros gs r H. revert r. induction H as [|g gs Hg _ IH]; intros r; cbn [rotate_all]; [constructor|].
  eapply safe_bind; [apply nx_safe, Hg|]. intros [t g'] r' Hg'. eapply safe_bind; [apply IH|].
  intros [ts gs'] r'' H'. cbn in *. constructor; assumption.
Qed.
Lemma first_safe : forall x r, made x -> safe (first_of G nx f x r) (fun _ => True).
Proof.
  intros x r H. unfold first_of. eapply safe_bind; [apply safe_mk, H|]. intros g r' Hg.
  eapply safe_bind; [apply nx_safe, Hg|]. intros [t g'] r'' _. exact I.
Qed.
Lemma path_safe : forall n K M c w r, Rdy n K M c -> Crf n K M w ->
  safe (sample_path G E nx f c w r) (fun p => True /\ Path E (scope_of c) w p).
Proof.
  intros n K M c w r Hc Hw. eapply safe_post; [apply first_safe; eapply prompts_made; eassumption|].
  apply sample_path_ok. exact (proj1 (next_sound G E f)).
Qed.
Lemma mk_all_safe : forall n K M c cmds r, Rdy n K M c -> Forall (Cau n K M) cmds -> safe (mk_all G f c cmds r) (Forall ok).
Proof.
  intros n K M c cmds r Hc H. revert r. induction H as [|cmd cmds Hd _ IH]; intros r; cbn [mk_all]; [constructor|].
  eapply safe_bind; [apply safe_mk; eapply mk_made; eassumption|]. intros g r' Hg.
  eapply safe_bind; [apply IH|]. intros gs r'' Hgs. cbn. constructor; assumption.
Qed.
Definition Bind (K' : list text) (c : ctx) (x : text) (v : command) : Prop :=
  Cau (layer x) (needs x) (modes x) v /\ Dfd v /\ forall y, In y (needs x) -> In y K' \/ dict_get y (c_vars c) <> None.
Lemma assign_safe : forall n K M K' c x v imm ovr r, Rdy n K M c -> Par n K M K' (Assign x v imm ovr) ->
  safe (process_variable_assignment G nx f c x v imm ovr r) (Bind K' c x).
Proof.
  intros n K M K' c x v imm ovr r Hc HP. unfold process_variable_assignment.
  destruct (if ovr then None else dict_get x (c_vars c)) as [u|] eqn:Eu.
  - cbn. destruct ovr; [discriminate|]. destruct Hc as (C1 & C2 & C3 & C4 & C5 & C6).
    destruct (C6 x u Eu) as (K1 & K2 & K3). split; [exact K1|]. split; [exact K2|]. intros y Hy. right. exact (K3 y Hy).
  - inversion HP as [? ? ? ? ? ? ? Hv Hd Hi|? ? ? ? ? ? ? Hv Hi|? ? ? ? ? Hn]; subst.
    + cbn. split; [exact Hv|]. split; [exact Hd|]. intros y Hy. left. apply Hi, Hy.
    + assert (HL : forall t m, Bind K' c x (Lit t m)).
      { intros t m. split; [constructor|]. split; [left; split; intros; discriminate|]. intros y Hy. left. apply Hi, Hy. }
      assert (HB : safe (obind G (first_of G nx f (mk f c v) r) (fun t r => OVal (Lit t None) r)) (Bind K' c x)).
      { eapply safe_bind; [apply first_safe; eapply mk_made; eassumption|]. intros t r' _. cbn. apply HL. }
      destruct v; try exact HB. cbn. apply HL.
    + exfalso. apply Hn. repeat eexists.
Qed.
Lemma set_In : forall (d : list (str * command)) k u x v, In (x, v) (dict_set k u d) -> (x = k /\ v = u) \/ In (x, v) d.
Proof.
  induction d as [|[k' u'] d IH]; intros k u x v H; cbn [dict_set] in H.
  - destruct H as [[= <- <-]|[]]. now left.
  - destruct (str_eqb k k'); [destruct H as [[= <- <-]|H]; [now left|right; now right]|].
    destruct (str_leb k k'); [destruct H as [[= <- <-]|H]; [now left|now right]|].
    destruct H as [H|H]; [right; now left|]. apply IH in H as [H|H]; [now left|right; now right].
Qed.
Lemma set_keys : forall (d : list (str * command)) k u x, x = k \/ In x (map fst d) -> In x (map fst (dict_set k u d)).
Proof.
  induction d as [|[k' u'] d IH]; intros k u x H; cbn [dict_set map fst In] in *.
  - destruct H as [H|[]]. now left.
  - destruct (str_eqb k k') eqn:Ek.
    + apply str_eqb_eq in Ek. subst k'. cbn. intuition.
    + destruct (str_leb k k'); cbn; [intuition|]. destruct H as [H|[H|H]]; auto.
Qed.
Lemma loop_safe : forall n K M K' c cmds nv r, Rdy n K M c -> Forall (Par n K M K') cmds ->
  (forall x v, In (x, v) nv -> Bind K' c x v) ->
  safe (assignments_loop G nx f c cmds nv r) (fun y => Forall (Cau n K' M) (fst y) /\
     incl (assigned cmds ++ given nv) (given (snd y)) /\ (forall x v, In (x, v) (snd y) -> Bind K' c x v)).
Proof.
  intros n K M K' c cmds nv r Hc H. revert nv r. induction H as [|cmd cmds Hp _ IH]; intros nv r Hnv; cbn [assignments_loop].
  - cbn. split; [constructor|]. split; [apply incl_refl|exact Hnv].
  - assert (HO : ~ is_assign cmd -> safe (obind G (assignments_loop G nx f c cmds nv r)
        (fun '(rest, vs) r => OVal (cmd :: rest, vs) r))
      (fun y => Forall (Cau n K' M) (fst y) /\ incl (assigned (cmd :: cmds) ++ given nv) (given (snd y)) /\
         (forall x v, In (x, v) (snd y) -> Bind K' c x v))).
    { intros Hn. eapply safe_bind; [apply IH, Hnv|]. intros [rest vs] r' (K1 & K2 & K3). cbn [safe fst snd] in *.
      split; [constructor; [|exact K1]|split; [|exact K3]].
      - inversion Hp; subst; try assumption; exfalso; apply Hn; repeat eexists.
      - replace (assigned (cmd :: cmds)) with (assigned cmds); [exact K2|].
        destruct cmd; try reflexivity. exfalso; apply Hn; repeat eexists. }
    destruct cmd; try (apply HO; intros (? & ? & ? & ? & Hx); discriminate Hx). clear HO.
    eapply safe_bind; [eapply assign_safe; eassumption|]. intros u r' Hu.
    eapply safe_impl; [apply IH|].
    + intros x w Hx. apply set_In in Hx as [[-> ->]|Hx]; [exact Hu|now apply Hnv].
    + intros [rest vs] (K1 & K2 & K3). cbn [fst snd] in *. split; [exact K1|]. split; [|exact K3].
      intros x Hx. apply K2. cbn in Hx. apply in_or_app.
      destruct Hx as [Hx|Hx]; [right; apply set_keys; now left|]. apply in_app_or in Hx as [Hx|Hx]; [now left|right; apply set_keys; now right].
Qed.
Lemma assignments_safe : forall n K M c cmds r, Rdy n K M c -> Forall (Par n K M (assigned cmds ++ K)) cmds ->
  safe (process_variable_assignments G nx f c cmds r)
    (fun y => Forall (Cau n (assigned cmds ++ K) M) (fst y) /\ Rdy n (assigned cmds ++ K) M (snd y) /\ c_method (snd y) = c_method c).
Proof.
  intros n K M c cmds r Hc H. unfold process_variable_assignments.
  eapply safe_bind; [eapply loop_safe; [eassumption|eassumption|intros x v []]|].
  intros [rest vs] r' (K1 & K2 & K3). cbn [safe fst snd] in *. split; [exact K1|]. split; [|destruct vs; reflexivity].
  assert (HI : incl (assigned cmds ++ K) (given vs ++ K)).
  { intros x Hx. apply in_or_app. apply in_app_or in Hx as [Hx|Hx]; [left; apply K2; apply in_or_app; now left|now right]. }
  eapply ready_less; [apply ready_vars; [exact Hc|]|exact HI].
  intros x v Hx. destruct (K3 x v Hx) as (L1 & L2 & L3). split; [exact L1|]. split; [exact L2|].
  intros y Hy. destruct (L3 y Hy) as [L|L]; [left; apply HI, L|now right].
Qed.
Lemma advance_safe : forall gs r, Forall ok gs -> safe (advance_all G nx gs r) (fun x => Forall (fun y => ok (fst y)) x /\ length x = length gs).
Proof.
  intros gs r H. revert r. induction H as [|g gs Hg _ IH]; intros r; cbn [advance_all]; [split; constructor|].
  eapply safe_bind; [apply nx_safe, Hg|]. intros [t g'] r' Hg'. eapply safe_bind; [apply IH|].
  intros rest r'' [H1 H2]. cbn. split; [constructor; assumption|congruence].
Qed.
Lemma mk_all_length : forall c cmds r gs r', mk_all G f c cmds r = OVal gs r' -> length gs = length cmds.
Proof.
  intros c cmds. induction cmds as [|cmd cmds IH]; intros r gs r' H; cbn [mk_all] in H; [injection H as <- _; reflexivity|].
  destruct (mk f c cmd) as [g|e|]; cbn [lift_mk obind] in H; try discriminate H.
  destruct (mk_all G f c cmds r) as [gs0 r0|r0|e r0|] eqn:Em; cbn in H; try discriminate H.
  injection H as <- _. cbn. f_equal. eapply IH, Em.
Qed.
Lemma collection_safe : forall n K M c cmds r, Rdy n K M c -> Forall (Cau n K M) cmds ->
  safe (new_collection G nx f c cmds r) (fun k => Forall ok_entry k /\ map (fun x => fst (fst x)) k = cmds).
Proof.
  intros n K M c cmds r Hc H. unfold new_collection.
  eapply safe_bind with (Q1 := fun gs => Forall ok gs /\ length gs = length cmds).
  - pose proof (mk_all_safe n K M c cmds r Hc H) as HM. pose proof (mk_all_length c cmds r) as HL.
    destruct (mk_all G f c cmds r) as [gs r0|r0|e r0|]; cbn in *; auto. split; [exact HM|]. eapply HL; reflexivity.
  - intros gs r' [Hgs Hl]. eapply safe_bind; [apply advance_safe, Hgs|]. intros gvs r'' [Hg Hl2]. cbn.
    assert (HL : length cmds = length gvs) by congruence. clear - Hg HL. revert gvs Hg HL.
    induction cmds as [|cmd cmds IH]; intros [|[g v] gvs] Hg HL; try discriminate HL; cbn; [split; constructor|].
    inversion Hg; subst. injection HL as HL. destruct (IH gvs) as [K1 K2]; auto. split; [constructor; [constructor; assumption|exact K1]|]. now rewrite K2.
Qed.
Lemma get_value_safe : forall cmd k r, Forall ok_entry k -> In cmd (map (fun x => fst (fst x)) k) ->
  safe (get_value G nx cmd k r) (fun x => Forall ok_entry (snd x) /\ map (fun x => fst (fst x)) (snd x) = map (fun x => fst (fst x)) k).
Proof.
  intros cmd k r H. revert r. induction H as [|[[c' g] v] k He Hk IH]; intros r Hin; cbn [get_value]; [destruct Hin|].
  inversion He; subst. destruct (cmd_eqb_spec c' cmd) as [->|Hn].
  - pose proof (nx_safe g r ltac:(assumption)) as HN. destruct (nx g r) as [[t g'] r'|r'|e r'|]; cbn in *; auto.
    + split; [constructor; [now constructor|exact Hk]|reflexivity].
    + split; [constructor; [repeat constructor|exact Hk]|reflexivity].
  - eapply safe_bind; [apply IH|].
    + destruct Hin as [Hin|Hin]; [contradiction|exact Hin].
    + intros [v' k'] r' [K1 K2]. cbn in *. split; [constructor; assumption|now rewrite K2].
Qed.
Lemma sample_all_safe : forall n K M c vals r, Rdy n K M c -> Forall (texts n K M) vals -> safe (sample_all G E f c vals r) (Forall ok).
Proof.
  intros n K M c vals r Hc H. revert r. induction H as [|v vals Hv _ IH]; intros r; cbn [sample_all]; [constructor|].
  eapply safe_bind; [apply safe_mk; eapply prompts_made; [eassumption|exact Hv]|]. intros g r' Hg.
  eapply safe_bind; [apply IH|]. intros gs r'' Hgs. cbn. constructor; assumption.
Qed.
Lemma parse_all_err : forall vals e, parse_all E vals = Err e -> exists v, In v vals /\ env_parse E v = Err e.
Proof.
  induction vals as [|v vals IH]; intros e H; cbn in H; [discriminate|].
  destruct (env_parse E v) as [c|e'] eqn:Ev.
  - destruct (parse_all E vals) as [cs|e']; [discriminate|]. injection H as ->. destruct (IH e eq_refl) as (u & Hu & Hp). exists u. split; [now right|exact Hp].
  - injection H as ->. exists v. split; [now left|exact Ev].
Qed.
Lemma to_variant_safe : forall n K M c w mw vars q lo hi r, Rdy n K M c -> Opts n K M [(Wild w mw vars, q)] lo hi ->
  safe (wildcard_to_variant G E nx f c w lo hi r) (fun x => Opts n K M (fst x) (fst (snd x)) (snd (snd x))).
Proof.
  intros n K M c w mw vars q lo hi r Hc HO. destruct HO as (Hos & Hlo & Hw & Hl).
  unfold wildcard_to_variant. eapply safe_bind; [eapply path_safe; [exact Hc|]|].
  - exact (proj1 (Hl _ _ _ _ eq_refl)).
  - intros path r' [_ Hp]. cbn zeta. pose proof (proj2 (Hl w mw vars q eq_refl) _ _ Hp) as HWn.
    destruct (parse_all E (iterate_weighted (env_lookup E path))) as [cmds|e] eqn:Ea.
    + cbn [safe fst snd]. assert (HOp : OptionsOf E path (map (fun cmd => (cmd, 1%Qc)) cmds)).
      { exists (iterate_weighted (env_lookup E path)), cmds. split; [rewrite pairs_item_pairs; apply iterate_weighted_Listed|].
        split; [now apply parse_all_ok|reflexivity]. }
      apply parse_all_ok in Ea.
      assert (HC : forall cmd, In cmd cmds -> Cau n K M cmd).
      { intros cmd Hcmd. assert (Hv : exists v, In v (iterate_weighted (env_lookup E path)) /\ env_parse E v = Ok cmd).
        { clear -Ea Hcmd. induction Ea as [|v cm vs cms H _ IH]; [destruct Hcmd|].
          destruct Hcmd as [->|Hcmd]; [exists v; split; [now left|assumption]|].
          destruct (IH Hcmd) as (v' & H1 & H2). exists v'. split; [now right|assumption]. }
        destruct Hv as (v & Hv & Hpv). eapply wilds_value in Hv; [|exact HWn]. now apply (HT _ _ _ _ Hv). }
      split; [|split; [|split]].
      * apply Forall_forall. intros o Ho. apply in_map_iff in Ho as (cmd & <- & Hcmd). cbn. now apply HC.
      * intros HR. destruct (Hlo HR) as [K1|K1]; [now left|right]. unfold post_init_bounds.
        destruct (Z.min lo _ <=? Z.min hi _)%Z eqn:El; cbn; lia.
      * intros HR. right. right. intros v q' Hvq. apply in_map_iff in Hvq as (cmd & [= <- <-] & _). reflexivity.
      * intros w' mw' vars' q' Hone. rewrite Hone in HOp. pose proof (proj1 (proj2 (HW _ _ _ _ HWn))) as H2. split.
        -- eapply (H2 w' mw' vars' q' (scope_of c) path HOp).
        -- intros sc name. eapply (H2 w' mw' vars' q' sc name HOp).
    + cbn. left. apply parse_all_err in Ea as (v & Hv & He). eapply wilds_value in Hv; [|exact HWn]. now apply (HT _ _ _ _ Hv).
Qed.
End Open.

(** * Variants and wildcards at random *)
Lemma draw_safe : forall n K M c os lo hi r, Rdy n K M c -> c_method c = Random -> Opts n K M os lo hi -> 2 <= length os ->
  match randint G (fst (adjust_range (length os) lo hi)) (snd (adjust_range (length os) lo hi)) r with
  | None => raises EValue
  | Some (k, r') => safe (lift_rres G (choose_without_replacement G cmd_eqb (values os) (weights os)
        (Z.min (snd (adjust_range (length os) lo hi)) k) r')) (Forall (Cau n K M))
  end.
Proof.
  intros n K M c os lo hi r Hc Hr (Hos & Hlo & Hw & Hl) H2.
  assert (HR : M Random) by (rewrite <- Hr; apply Hc).
  rewrite adjust_range_clamp. cbn [fst snd]. unfold randint.
  destruct (Z.leb_spec (clamp (length os) (Z.min lo hi)) (Z.min (Z.max lo hi) (Z.of_nat (length os)))) as [Hle|Hgt].
  - destruct (randbelow _ _ _) as [x r'].
    destruct (choose_without_replacement _ _ _ _ _ _) as [sel r2|e r2] eqn:Ec; cbn.
    + destruct (cwr_ok G cmd_eqb cmd_eqb_spec _ _ _ _ _ _ Ec) as [(rest & Hp) _].
      apply Forall_forall. intros v Hv. assert (Hv' : In v (values os)) by (eapply Permutation_in; [symmetry; exact Hp|apply in_or_app; now left]).
      unfold values in Hv'. apply in_map_iff in Hv' as (o & <- & Ho). rewrite Forall_forall in Hos. now apply Hos.
    + destruct (Hw HR) as [K1|[K1|K1]]; [|lia|].
      * left. apply cwr_err in Ec as [-> _]; [exact K1|apply cmd_eqb_spec].
      * exfalso. edestruct (cwr_succeeds G cmd_eqb cmd_eqb_spec (values os) (weights os)) as (sel & r3 & Hs); [| | |rewrite Hs in Ec; discriminate Ec].
        -- unfold values, weights. now rewrite !map_length.
        -- apply Forall_forall. intros q Hq. unfold weights in Hq. apply in_map_iff in Hq as ([v q'] & <- & Ho). eapply K1, Ho.
        -- unfold values. rewrite map_length. lia.
  - destruct (Hlo HR) as [K1|K1]; [exact K1|]. exfalso. unfold clamp in Hgt. lia.
Qed.
Lemma wgen_safe : forall n K M c name wg r, Rdy n K M c -> c_method c = Random -> wilds n K M name -> env_lookup E name <> [] ->
  wgen_of G (env_lookup E name) wg ->
  safe (lift_rres G (next_wgen G wg r)) (fun x => texts n K M (fst x) /\ wgen_of G (env_lookup E name) (snd x)).
Proof.
  intros n K M c name wg r Hc Hr HWn Hne Hwg. destruct (HW _ _ _ _ HWn) as (H1 & _ & H3).
  destruct (next_wgen G wg r) as [[v wg'] r'|e r'] eqn:Ew; cbn.
  - destruct (next_wgen_spec G _ _ _ _ _ _ Hwg Ew) as (K1 & i & K2 & K3 & _). split; [|exact K1]. subst v. exact (H1 i K2).
  - assert (HR : M Random) by (rewrite <- Hr; apply Hc).
    assert (He : e = EValue).
    { unfold wgen_of in Hwg. destruct (has_varied_weights (env_lookup E name)).
      - destruct Hwg as (buffer & -> & _). destruct buffer as [|v buffer]; cbn [next_wgen] in Ew; [|discriminate Ew].
        destruct (choices G _ batch_size r) as [is r1|e1 r1] eqn:Ec.
        + unfold cum_weight_values in Ec. apply choices_ok in Ec as (_ & Hl & _). destruct is; [discriminate Hl|discriminate Ew].
        + injection Ew as -> _. unfold cum_weight_values in Ec. apply choices_err in Ec as [[Hn _]|(_ & He & _)]; [|exact He].
          destruct (env_lookup E name); [contradiction|discriminate Hn].
      - subst wg. cbn [next_wgen] in Ew. unfold choice in Ew. unfold string_values in Ew. rewrite map_length in Ew.
        destruct (env_lookup E name) as [|i items]; [contradiction|]. cbn [length] in Ew. destruct (randbelow G _ r). discriminate Ew. }
    subst e. left. destruct (H3 HR) as [K1|[K1 K2]]; [exact K1|]. exfalso.
    destruct (next_wgen_err G _ _ _ _ _ Hwg Ew) as [K3|[_ K3]]; [contradiction|].
    destruct (K2 Hne) as (t & q & Hq & Hpos). apply (Qcle_not_lt _ _ K3). apply float_sum_positive.
    + apply Forall_forall. intros w Hw. apply in_map_iff in Hw as (i & <- & Hi). apply (K1 (w_content i)).
      rewrite pairs_item_pairs. unfold item_pairs. apply in_map_iff. exists i. split; [reflexivity|exact Hi].
    + apply Exists_exists. rewrite pairs_item_pairs in Hq. unfold item_pairs in Hq. apply in_map_iff in Hq as (i & [= <- <-] & Hi).
      exists (w_weight i). split; [now apply in_map|exact Hpos].
Qed.
Lemma combos_ok : forall n K M os lo hi, Opts n K M os lo hi -> Forall (fun bc => Forall (Cau n K M) (snd bc)) (bound_combos os lo hi).
Proof.
  intros n K M os lo hi (Hos & _).
  apply Forall_forall. intros [b combo] Hb. cbn. apply Forall_forall. intros cmd Hcmd.
  destruct (bound_combos_In _ _ _ _ _ Hb) as (_ & _ & Hi & _).
  apply Hi in Hcmd. unfold values in Hcmd. apply in_map_iff in Hcmd as (o & <- & Ho). rewrite Forall_forall in Hos. now apply Hos.
Qed.
Lemma ready_wild : forall n K M c w vars, Rdy n K M c -> Wld n K M w vars -> Rdy n (given vars ++ K) M (with_variables vars c).
Proof.
  intros n K M c w vars Hc (Ht & Hv & Hv' & Hp).
  apply ready_vars; [exact Hc|]. intros x v Hx. destruct (Hv' x v Hx) as [K1 K2].
  split; [now apply Hv|]. split; [exact K1|]. intros y Hy. left. apply K2, Hy.
Qed.
Lemma wild_path : forall n K M sc w vars path, Wld n K M w vars -> Path E sc w path -> wilds n (given vars ++ K) M path.
Proof. intros n K M sc w vars path (Ht & Hv & Hv' & Hw) Hp. eapply Hw, Hp. Qed.
Lemma single_opt : forall n K M v q lo hi, Opts n K M [(v, q)] lo hi -> Cau n K M v.
Proof. intros n K M v q lo hi (Hos & _). inversion Hos; subst. assumption. Qed.
Lemma opts_adjust : forall n K M os lo hi, Opts n K M os lo hi ->
  Opts n K M os (fst (adjust_range (length os) lo hi)) (snd (adjust_range (length os) lo hi)).
Proof.
  intros n K M os lo hi (Hos & Hlo & Hw & Hl).
  split; [exact Hos|]. split; [|split; [exact Hw|exact Hl]]. intros HR. destruct (Hlo HR) as [K1|K1]; [now left|right].
  rewrite adjust_range_clamp. cbn. unfold clamp. lia.
Qed.

Theorem next_safe : forall f,
  (forall g r, ok g -> safe (next G E f g r) step) /\
  (forall n K M c k cs r, Rdy n K M c -> c_method c = Combinatorial -> Forall ok_entry k -> ok_cs n K M (map (fun x => fst (fst x)) k) cs ->
     safe (next_cs G E f c k cs r)
       (fun x => Forall ok_entry (snd x) /\ map (fun x => fst (fst x)) (snd x) = map (fun x => fst (fst x)) k /\
          forall a cs', fst x = Some (a, cs') -> ok_cs n K M (map (fun x => fst (fst x)) k) cs')) /\
  (forall n K M c st r, Rdy n K M c -> ok_cp n K M st -> safe (next_cp G E f c st r) (fun x => ok_cp n K M (snd x))) /\
  (forall n K M c st r, Rdy n K M c -> ok_yc n K M st -> safe (next_yc G E f c st r) (fun x => ok_yc n K M (snd x))).
Proof.
  induction f as [|f (IHg & IHcs & IHcp & IHyc)]; [repeat split; intros; exact I|]. split; [|split; [|split]].
  - intros g r Hg. destruct Hg as
      [|t|t|n K M c tokens sep Hc Hp|gs sep Hgs|n K M c os lo hi sep Hc Hm HO|n K M c os lo hi sep Hc Hm HO H2|n K M c w vars Hc Hm Hw
      |n K M c name wg Hc Hm Hn Hne Hwg|n K M c name wg g Hc Hm Hn Hne Hwg Hg|n K M c w i Hc Hw Hi|gw gi Hgw Hgi|n K M c tokens sep Hc Hm Hp
      |n K M c sep names k cs Hc Hm Hnm Hk Hcs|n K M c os lo hi sep Hc HO|n K M c sep todo seen Hc Htodo
      |n K M c sep todo b st seen Hc Htodo Hst|n K M c w vars Hc Hw|n K M c vals Hc Hvals|n K M c vals g Hc Hvals Hg
      |n K M c w i Hc Hw Hi|n K M c i gw Hc Hi Hgw|n K M c i gw t g Hc Hi Hgw Hg|n K M c os lo hi sep Hc HO|n K M c sep ys Hc Hys
      |n K M c w vars Hc Hm Hw|gs Hgs|n K M c w vars Hc Hw|g Hg|n0 g Hg]; unfold_next G E.
    + exact I.
    + constructor.
    + constructor.
    + (* GSeqStart *)
      apply safe_pep. eapply safe_bind; [eapply assignments_safe; eassumption|].
      intros [tk c'] r' (K1 & K2 & _). cbn [fst snd] in *.
      eapply safe_bind; [eapply mk_all_safe; eassumption|]. intros gs r'' Hgs. apply IHg. constructor. exact Hgs.
    + apply safe_pep. eapply safe_bind; [apply rotate_safe; eassumption|].
      intros [ts gs'] r' Hgs'. constructor. exact Hgs'.
    + (* GRVarStart *)
      destruct os as [|[v q] [|o os]]; [exact I| |].
      * destruct (single_wildcard [(v, q)]) as [w|] eqn:Hw.
        -- destruct (single_wildcard_spec _ _ Hw) as (m & vars & q0 & Ho). injection Ho as -> ->.
           eapply safe_bind; [apply safe_pep; eapply to_variant_safe; eassumption|].
           intros [vs [lo' hi']] r' Hvs. apply IHg. econstructor; eassumption.
        -- eapply safe_bind; [apply safe_mk; eapply mk_made; [eassumption|eapply single_opt, HO]|]. intros g r' Hg. apply IHg, Hg.
      * apply IHg. econstructor; try eassumption. cbn. lia.
    + (* GRVarLoop *)
      pose proof (draw_safe n K M c os lo hi r Hc Hm HO H2) as HD. pose proof (opts_adjust _ _ _ _ _ _ HO) as HA.
      destruct (adjust_range (length os) lo hi) as [lo' hi']. cbn [fst snd] in HD, HA.
      destruct (randint G lo' hi' r) as [[k r']|]; [|left; exact HD].
      apply safe_pep. eapply safe_bind; [exact HD|].
      intros sel r2 Hs. eapply safe_bind; [eapply mk_all_safe; eassumption|].
      intros gs r3 Hgs. assert (HL : ok (GRVarLoop c os lo' hi' sep)) by (econstructor; eassumption).
      destruct Hgs as [|g gs Hg Hgs]; [exact HL|].
      eapply safe_bind; [apply rotate_safe; [eassumption|constructor; eassumption]|]. intros [ts gs'] r4 _. exact HL.
    + (* GRWildStart *)
      eapply safe_bind; [apply safe_pep; eapply path_safe; [eassumption|eassumption|eapply wld_careful; eassumption]|]. intros path r' [_ Hp]. cbn zeta.
      pose proof (ready_wild _ _ _ _ _ _ Hc Hw) as Hc'. pose proof (wild_path _ _ _ _ _ _ _ Hw Hp) as Hn.
      destruct (env_lookup E path) as [|i items] eqn:Hl.
      * apply IHg. apply ok_fallback with n K M vars; [|exact Hw]. eapply ready_less; [exact Hc'|apply incl_appr, incl_refl].
      * apply IHg. apply ok_rwildl with n (given vars ++ K) M path; [exact Hc'|destruct vars; exact Hm|exact Hn|congruence|].
        rewrite Hl. apply wgen_of_start.
    + (* GRWildLoop None *)
      eapply safe_bind; [eapply wgen_safe; eassumption|]. intros [v wg'] r' [K1 K2]. cbn [fst snd] in *.
      eapply safe_bind; [apply safe_mk; eapply prompts_made; [eassumption|exact K1]|].
      intros g r'' Hg. apply IHg. econstructor; eassumption.
    + (* GRWildLoop Some *)
      pose proof (IHg g r Hg) as HTT.
      destruct (next G E f g r) as [[t g'] r1|r1|e r1|]; cbn in HTT |- *; auto.
      * econstructor; eassumption.
      * apply IHg. econstructor; eassumption.
    + eapply safe_bind; [apply safe_mk; eapply mk_made; eassumption|]. intros gw r' Hgw.
      eapply safe_bind; [apply safe_mk; eapply mk_made; eassumption|]. intros gi r'' Hgi. apply IHg. constructor; assumption.
    + eapply safe_bind; [apply IHg; eassumption|]. intros [t g'] r' K1.
      eapply safe_bind; [apply IHg; eassumption|]. intros [t2 g2] r'' K2. constructor; assumption.
    + (* GCSeqStart *)
      eapply safe_bind with (Q1 := fun x => Forall (Cau n (assigned tokens ++ K) M) (fst (snd x)) /\
         Rdy n (assigned tokens ++ K) M (snd (snd x)) /\ c_method (snd (snd x)) = Combinatorial /\
         Forall ok_entry (fst x) /\ map (fun y => fst (fst y)) (fst x) = non_combo (fst (snd x))).
      * apply safe_pep. eapply safe_bind; [eapply assignments_safe; eassumption|].
        intros [tk c'] r' (K1 & K2 & K3). cbn [fst snd] in *.
        eapply safe_bind; [eapply collection_safe; [eassumption|exact K2|]|].
        -- apply Forall_forall. intros cmd Hcmd. unfold non_combo in Hcmd. apply filter_In in Hcmd as [Hcmd _].
           rewrite Forall_forall in K1. now apply K1.
        -- intros k r'' [Hk Hk']. cbn. split; [exact K1|]. split; [exact K2|]. split; [congruence|]. split; assumption.
      * intros [k [tk c']] r' (K1 & K2 & K3 & K4 & K5). cbn [fst snd] in *. apply IHg.
        eapply ok_cseql; [exact K2|exact K3|reflexivity|exact K4|]. rewrite K5. constructor.
        -- unfold augmented. constructor; [constructor|apply Forall_app; split; [exact K1|constructor; [constructor|constructor]]].
        -- intros cmd Hcmd Hmark. unfold augmented in Hcmd. cbn in Hcmd.
           assert (Hin : In cmd tk).
           { destruct Hcmd as [<-|Hcmd]; [|apply in_app_or in Hcmd as [Hcmd|[<-|[]]]; [exact Hcmd|]];
               cbn in Hmark; destruct Hmark as [Hk|(m & [= <-] & Hk)]; try discriminate Hk; congruence. }
           unfold non_combo. apply filter_In. split; [exact Hin|].
           destruct Hmark as [->|(m & -> & Hk)]; [reflexivity|]. destruct m; [reflexivity|congruence|reflexivity].
    + (* GCSeqLoop *)
      subst names. eapply safe_bind; [eapply IHcs; eassumption|]. intros [x k'] r' (K1 & K2 & K3). cbn [fst snd] in *.
      destruct x as [[a cs']|]; [|exact I]. cbn. eapply ok_cseql; [exact Hc|exact Hm|reflexivity|exact K1|]. rewrite K2. eapply K3. reflexivity.
    + (* GCVarStart *)
      destruct os as [|o os]; [exact I|].
      destruct (single_wildcard (o :: os)) as [w|] eqn:Hw.
      * destruct (single_wildcard_spec _ _ Hw) as (m & vars & q0 & Ho). injection Ho as -> ->.
        eapply safe_bind; [apply safe_pep; eapply to_variant_safe; eassumption|].
        intros [vs [lo' hi']] r' Hvs. apply IHg. econstructor; eassumption.
      * apply IHg. econstructor; [eassumption|]. apply combos_ok. assumption.
    + destruct Htodo as [|[b combo] todo Hb Htodo]; [exact I|].
      apply IHg. econstructor; eauto. constructor. exact Hb.
    + pose proof (IHcp n K M c st r Hc Hst) as HTT.
      destruct (next_cp G E f c st r) as [[a st'] r1|r1|e r1|]; cbn in HTT |- *; auto.
      * match goal with |- context [if ?b then _ else _] => destruct b end.
        -- econstructor; eassumption.
        -- apply IHg. econstructor; eassumption.
      * apply IHg. econstructor; eassumption.
    + (* GCWildStart *)
      eapply safe_bind; [apply safe_pep; eapply path_safe; [eassumption|eassumption|eapply wld_careful; eassumption]|]. intros path r' [_ Hp]. cbn zeta.
      pose proof (ready_wild _ _ _ _ _ _ Hc Hw) as Hc'. pose proof (wild_path _ _ _ _ _ _ _ Hw Hp) as Hn.
      destruct (env_lookup E path) as [|i items] eqn:Hl.
      * apply IHg. apply ok_fallback with n K M vars; [|exact Hw]. eapply ready_less; [exact Hc'|apply incl_appr, incl_refl].
      * apply IHg. econstructor; [exact Hc'|]. apply Forall_forall. intros v Hv. rewrite <- Hl in Hv. eapply wilds_value; eassumption.
    + destruct Hvals as [|v vals Hd Hds]; [exact I|].
      eapply safe_bind; [apply safe_mk; eapply prompts_made; [eassumption|exact Hd]|].
      intros g r' Hg. apply IHg. econstructor; eassumption.
    + pose proof (IHg g r Hg) as HTT.
      destruct (next G E f g r) as [[t g'] r1|r1|e r1|]; cbn in HTT |- *; auto.
      * econstructor; eassumption.
      * apply IHg. econstructor; eassumption.
    + eapply safe_bind; [apply safe_mk; eapply prompts_made; [eassumption|eassumption]|].
      intros g r' Hg. apply IHg. econstructor; eassumption.
    + eapply safe_bind; [apply IHg; eassumption|]. intros [t g'] r' K1.
      eapply safe_bind; [apply safe_mk; eapply prompts_made; [eassumption|eassumption]|].
      intros g r'' Hg2. apply IHg. econstructor; eassumption.
    + pose proof (IHg g r Hg) as HTT.
      destruct (next G E f g r) as [[t2 g'] r1|r1|e r1|]; cbn in HTT |- *; auto.
      * econstructor; eassumption.
      * apply IHg. econstructor; eassumption.
    + (* GYVarStart *)
      destruct os as [|o os]; [exact I|].
      destruct (single_wildcard (o :: os)) as [w|] eqn:Hw.
      * destruct (single_wildcard_spec _ _ Hw) as (m & vars & q0 & Ho). injection Ho as -> ->.
        eapply safe_bind; [apply safe_pep; eapply to_variant_safe; eassumption|].
        intros [vs [lo' hi']] r' Hvs. apply IHg. econstructor; eassumption.
      * apply IHg. econstructor; [eassumption|]. pose proof (combos_ok _ _ _ _ _ _ HO) as HB.
        clear - HB. induction HB as [|x l Hb _ IH]; cbn; constructor; auto. constructor. exact Hb.
    + destruct Hys as [|y ys Hy Hys].
      * apply IHg. econstructor; [eassumption|constructor].
      * eapply safe_bind; [apply safe_pep; eapply IHyc; eassumption|]. intros [a y'] r' K1.
        econstructor; [eassumption|]. apply Forall_app. split; [exact Hys|constructor; [exact K1|constructor]].
    + (* GYWildStart *)
      eapply safe_bind; [apply safe_pep; eapply path_safe; [eassumption|eassumption|eapply wld_careful; eassumption]|]. intros path r' [_ Hp]. cbn zeta.
      assert (Hc' : Rdy n (given vars ++ K) M (with_method Cyclical (with_variables vars c))).
      { apply ready_method with M; [eapply ready_wild; eassumption|]. rewrite <- Hm. apply Hc. }
      pose proof (wild_path _ _ _ _ _ _ _ Hw Hp) as Hn.
      destruct (env_lookup E path) as [|i items] eqn:Hl.
      * apply IHg. apply ok_fallback with n K M vars; [|exact Hw]. eapply ready_less; [exact Hc'|apply incl_appr, incl_refl].
      * eapply safe_bind; [eapply sample_all_safe; [exact Hc'|]|].
        -- apply Forall_forall. intros v Hv. rewrite <- Hl in Hv. eapply wilds_value; eassumption.
        -- intros gs r'' Hgs. apply IHg. constructor. exact Hgs.
    + destruct Hgs as [|g gs Hg Hgs]; [exact I|].
      eapply safe_bind; [apply safe_pep, IHg; eassumption|]. intros [t g'] r' K1.
      constructor. apply Forall_app. split; [exact Hgs|constructor; [exact K1|constructor]].
    + (* GFallback *)
      eapply safe_bind with (Q1 := fun _ => True).
      * destruct w; [exact I|]. apply safe_pep. eapply safe_impl; [eapply path_safe; [eassumption|eassumption|eapply wld_careful; eassumption]|]. auto.
      * intros name r' _. apply IHg. constructor.
    + eapply safe_bind; [apply IHg; eassumption|]. intros [t g'] r' K1. constructor. exact K1.
    + destruct n0; [exact I|].
      eapply safe_bind; [apply IHg; eassumption|]. intros [t g'] r' K1. constructor. exact K1.
  - intros n K M c k cs r Hc Hm Hk Hcs. remember (map (fun x => fst (fst x)) k) as names eqn:En.
    destruct Hcs as [n K M names cmds Hd Hin|n K M names cmd cs Hin Hcs|n K M names g cmds Hg Hd|n K M names g cmds t cs Hg Hd Hcs|n K M names];
      unfold_next G E.
    + destruct cmds as [|cmd cmds].
      * cbn. split; [exact Hk|]. split; [congruence|]. intros a cs' [= <- <-]. constructor.
      * inversion Hd as [|? ? Hd1 Hd2]; subst.
        assert (HS : ok_cs n K M (map (fun x => fst (fst x)) k) (CSStart cmds)) by (constructor; [exact Hd2|intros; apply Hin; [now right|assumption]]).
        destruct (is_nonfinite (effective_method c cmd)) eqn:En.
        -- apply IHcs; auto. constructor; [|exact HS]. apply Hin; [now left|].
           unfold effective_method in En. destruct (sampling_method cmd) as [m|]; [right; exists m; split; [reflexivity|intros ->; discriminate En]|now left].
        -- eapply safe_bind; [apply safe_mk; eapply mk_made; eassumption|]. intros g r' Hg. apply IHcs; auto. constructor; assumption.
    + subst names. eapply safe_bind; [apply IHcs; eassumption|]. intros [x k'] r' (K1 & K2 & K3). cbn [fst snd] in *.
      destruct x as [[a cs']|]; [|cbn; split; [exact K1|split; [exact K2|discriminate]]].
      eapply safe_bind; [eapply get_value_safe; [eassumption|exact K1|rewrite K2; exact Hin]|]. intros [v k2] r'' [K4 K5]. cbn [fst snd] in *.
      destruct v; cbn; (split; [exact K4|]); (split; [congruence|]); intros a' cs'' [= <- <-]; constructor; auto; eapply K3; reflexivity.
    + subst names. pose proof (IHg g r Hg) as HTT.
      destruct (next G E f g r) as [[t g'] r1|r1|e r1|]; cbn in HTT |- *; auto.
      * apply IHcs; auto. constructor; assumption.
      * split; [exact Hk|]. split; [reflexivity|discriminate].
    + subst names. eapply safe_bind; [apply IHcs; eassumption|]. intros [x k'] r' (K1 & K2 & K3). cbn [fst snd] in *.
      destruct x as [[a cs']|].
      * cbn. split; [exact K1|]. split; [exact K2|]. intros a' cs'' [= <- <-]. constructor; auto. eapply K3; reflexivity.
      * eapply safe_impl; [apply IHcs; [eassumption|assumption|exact K1|rewrite K2; constructor; eassumption]|].
        intros [y k2] (L1 & L2 & L3). cbn [fst snd] in *. split; [exact L1|]. split; [congruence|]. rewrite K2 in L3. exact L3.
    + cbn. split; [exact Hk|]. split; [congruence|discriminate].
  - intros n K M c st r Hc Hst. destruct Hst as [n K M cmds Hd|n K M g st Hg Hst|n K M g cmds Hg Hd|n K M g cmds t st Hg Hd Hst|n K M];
      unfold_next G E.
    + destruct Hd as [|cmd cmds Hcmd Hd]; [constructor|].
      eapply safe_bind; [apply safe_mk; eapply mk_made; eassumption|]. intros g r' Hg.
      destruct (is_nonfinite (effective_method c cmd)); apply IHcp; auto; constructor; auto. constructor. exact Hd.
    + eapply safe_bind; [apply IHcp; eassumption|]. intros [a st'] r' K1.
      eapply safe_bind; [apply safe_pep, IHg; eassumption|]. intros [t g'] r'' K2. constructor; assumption.
    + eapply safe_bind; [apply IHg; eassumption|]. intros [t g'] r' K1.
      apply IHcp; auto. constructor; auto. constructor. exact Hd.
    + pose proof (IHcp n K M c st r Hc Hst) as HTT.
      destruct (next_cp G E f c st r) as [[a st'] r1|r1|e r1|]; cbn in HTT |- *; auto.
      * constructor; assumption.
      * apply IHcp; auto. constructor; assumption.
    + exact I.
  - intros n K M c st r Hc Hst. destruct Hst as [n K M cmds Hd|n K M|n K M g y Hg Hy|n K M]; unfold_next G E.
    + destruct Hd as [|cmd cmds Hcmd Hd].
      * apply IHyc; auto. constructor.
      * eapply safe_bind; [apply safe_mk; eapply mk_made; eassumption|]. intros g r' Hg. apply IHyc; auto.
        constructor; [exact Hg|]. constructor. exact Hd.
    + constructor.
    + eapply safe_bind; [apply IHyc; eassumption|]. intros [a st'] r' K1.
      pose proof (IHg g r' Hg) as HTT.
      destruct (next G E f g r') as [[t g'] r1|r1|e r1|]; cbn in HTT |- *; auto; constructor; assumption.
    + exact I.
Qed.

Lemma collect_safe : forall f n g r e, ok g -> snd (fst (collect G E f n g r)) = EndRaise e -> may e.
Proof.
  intros f n. induction n as [|n IH]; intros g r e Hg H; cbn [collect] in H; [discriminate H|].
  pose proof (proj1 (next_safe f) g r Hg) as HTT.
  destruct (next G E f g r) as [[t g'] r1|r1|e1 r1|]; cbn in HTT; try discriminate H.
  - specialize (IH g' r1 e HTT). destruct (collect G E f n g' r1) as [[ts e'] s]. cbn in H, IH. auto.
  - cbn in H. injection H as ->. exact HTT.
Qed.
End Causes.
