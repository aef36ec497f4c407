(** Choices with weights multiplied by a power of two, and commands with all
    weights changed. *)
From Coq Require Import String NArith ZArith QArith Qcanon Bool Arith List Permutation Lia.
From Verif.Model Require Import Str Float Utils Command Rng Values Context Sampler.
From Verif.Spec Require Import Text Comb Items Lang Weights.
From Verif.Proofs Require Import StrFacts UtilsFacts CommandFacts RngFacts CombFacts FloatFacts FloatScale Soundness MentionFacts WeightsFacts.
Import ListNotations.
Local Open Scope nat_scope.

(** * Choosing *)
Section Choose.
Variable G : rng_impl.
Variable k : Qc.
Hypothesis Hk : (0 < k)%Qc.
Hypothesis Hfl : forall q, fl G (k * q)%Qc = (k * fl G q)%Qc.
Notation up := (map (Qcmult k)).

Lemma up_accumulate_from : forall ws a, accumulate_from G (k * a)%Qc (up ws) = up (accumulate_from G a ws).
Proof.
  induction ws as [|w ws IH]; intros a; cbn [accumulate_from map]; [reflexivity|]. cbn zeta.
  rewrite Hfl, <- Qcmult_plus_distr_r, Hfl, IH. reflexivity.
Qed.
Lemma up_accumulate : forall ws, accumulate G (up ws) = up (accumulate G ws).
Proof. intros [|w ws]; cbn [accumulate map]; [reflexivity|]. now rewrite Hfl, up_accumulate_from. Qed.
Lemma up_last : forall l, last (up l) 0%Qc = (k * last l 0)%Qc.
Proof.
  induction l as [|x l IH]; [cbn; ring|]. destruct l as [|y l]; [reflexivity|].
  change (last (up (x :: y :: l)) 0%Qc) with (last (up (y :: l)) 0%Qc). rewrite IH. reflexivity.
Qed.
Lemma up_nth : forall l i, nth i (up l) 0%Qc = (k * nth i l 0)%Qc.
Proof. induction l as [|x l IH]; intros [|i]; cbn; try ring; auto. Qed.
Lemma up_leb : forall a b, Qc_leb (k * a) (k * b) = Qc_leb a b.
Proof.
  intros a b. unfold Qc_leb. apply eq_true_iff_eq. rewrite !Qle_bool_iff. change ((k * a <= k * b)%Qc <-> (a <= b)%Qc). split; intros H.
  - destruct (Qclt_le_dec b a) as [Hlt|]; [exfalso|assumption].
    assert (Hm : (b * k < a * k)%Qc) by (apply Qcmult_lt_compat_r; assumption).
    rewrite !(Qcmult_comm _ k) in Hm. exact (Qclt_not_le _ _ Hm H).
  - rewrite !(Qcmult_comm k). apply Qcmult_le_compat_r; [exact H|]. now apply Qclt_le_weak.
Qed.
Lemma up_ltb : forall a b, Qc_ltb (k * a) (k * b) = Qc_ltb a b.
Proof. intros a b. unfold Qc_ltb. f_equal. apply up_leb. Qed.
Lemma up_inj : forall a b, (k * a)%Qc = (k * b)%Qc -> a = b.
Proof.
  intros a b H. assert (H' : (/ k * (k * a))%Qc = (/ k * (k * b))%Qc) by now rewrite H.
  rewrite !Qcmult_assoc, (Qcmult_comm (/ k)), Qcmult_inv_r, !Qcmult_1_l in H'; [exact H'|].
  intros ->. exact (Qclt_not_eq _ _ Hk eq_refl).
Qed.
Lemma up_eqb : forall a b, Qc_eq_bool (k * a) (k * b) = Qc_eq_bool a b.
Proof.
  intros a b. apply eq_true_iff_eq.
  destruct (Qc_eq_bool_spec (k * a)%Qc (k * b)%Qc) as [H1|H1], (Qc_eq_bool_spec a b) as [H2|H2]; try tauto.
  - apply up_inj in H1. tauto.
  - subst b. tauto.
Qed.
Lemma up_bisect : forall f a x lo hi, bisect_right f (up a) (k * x)%Qc lo hi = bisect_right f a x lo hi.
Proof.
  induction f as [|f IH]; intros a x lo hi; cbn [bisect_right]; [reflexivity|]. destruct (Nat.ltb lo hi); [|reflexivity]. cbn zeta.
  rewrite up_nth, up_ltb, !IH. reflexivity.
Qed.
Lemma up_choices : forall cum n r, choices G (up cum) n r = choices G cum n r.
Proof.
  intros cum n r. unfold choices. destruct cum as [|x cum]; [reflexivity|]. set (l := x :: cum).
  change (match up l with [] => RErr EIndex r | _ :: _ => if Qc_leb (last (up l) 0%Qc) 0 then RErr EValue r
            else let (is, r') := draw_indices G (up l) n r in ROk is r' end = (if Qc_leb (last l 0%Qc) 0 then RErr EValue r
            else let (is, r') := draw_indices G l n r in ROk is r')).
  assert (HU : up l <> []) by discriminate. destruct (up l) eqn:El; [contradiction|]. rewrite <- El. clear HU El.
  rewrite up_last. replace 0%Qc with (k * 0)%Qc at 2 by ring. rewrite up_leb. destruct (Qc_leb (last l 0%Qc) 0); [reflexivity|].
  assert (HD : forall m s, draw_indices G (up l) m s = draw_indices G l m s).
  { assert (H1 : forall s, draw_index G (up l) s = draw_index G l s).
    { intros s. unfold draw_index. destruct (random01 G s) as [u s']. rewrite map_length, up_last.
      replace (u * (k * last l 0))%Qc with (k * (u * last l 0))%Qc by ring. rewrite Hfl, up_bisect. reflexivity. }
    induction m as [|m IH]; intros s; cbn [draw_indices]; [reflexivity|]. rewrite H1. destruct (draw_index G l s) as [i s']. now rewrite IH. }
  now rewrite HD.
Qed.
Lemma up_remove : forall x ws, remove_first Qc_eq_bool (k * x)%Qc (up ws) = up (remove_first Qc_eq_bool x ws).
Proof.
  intros x ws. induction ws as [|w ws IH]; cbn; [reflexivity|]. rewrite up_eqb. destruct (Qc_eq_bool w x); [reflexivity|].
  cbn. now rewrite IH.
Qed.

Fixpoint premove (z : command * command) (zs : list (command * command)) : list (command * command) :=
  match zs with [] => [] | y :: zs' => if cmd_eqb (fst y) (fst z) then zs' else y :: premove z zs' end.
Lemma premove_fst : forall z zs, remove_first cmd_eqb (fst z) (map fst zs) = map fst (premove z zs).
Proof. intros z zs. induction zs as [|y zs IH]; cbn; [reflexivity|]. destruct (cmd_eqb (fst y) (fst z)); cbn; now rewrite ?IH. Qed.
Lemma premove_snd : forall z zs all, Match all -> In z all -> incl zs all ->
  remove_first cmd_eqb (snd z) (map snd zs) = map snd (premove z zs) /\
  index_of cmd_eqb (snd z) (map snd zs) = index_of cmd_eqb (fst z) (map fst zs).
Proof.
  intros z zs all HM Hz. induction zs as [|y zs IH]; intros Hi; cbn; [auto|].
  rewrite (match_eqb all y z HM) by (try exact Hz; apply Hi; now left).
  destruct IH as [IH1 IH2]; [intros x Hx; apply Hi; now right|].
  destruct (cmd_eqb (fst y) (fst z)); cbn; [auto|]. now rewrite IH1, IH2.
Qed.
Lemma premove_incl : forall z zs, incl (premove z zs) zs.
Proof.
  intros z zs. induction zs as [|y zs IH]; cbn; [intros x []|]. destruct (cmd_eqb (fst y) (fst z)); intros x Hx; [now right|].
  destruct Hx as [<-|Hx]; [now left|right; auto].
Qed.

Definition picked (all : list (command * command)) (a b : rres G (list command)) : Prop :=
  match a, b with
  | ROk x s, ROk y s' => s = s' /\ exists ys, incl ys all /\ x = map fst ys /\ y = map snd ys
  | RErr e s, RErr e' s' => e = e' /\ s = s'
  | _, _ => False
  end.
Lemma cwr_loop_twin : forall all n zs ws r, Match all -> incl zs all ->
  picked all (cwr_loop G cmd_eqb n (map fst zs) ws r) (cwr_loop G cmd_eqb n (map snd zs) (up ws) r).
Proof.
  intros all. induction n as [|n IH]; intros zs ws r HM Hi; cbn [cwr_loop].
  - cbn. split; [reflexivity|]. exists []. repeat split. intros x [].
  - rewrite up_accumulate, up_choices. destruct (choices G (accumulate G ws) 1 r) as [is r'|e r']; [|cbn; auto].
    destruct is as [|i is]; [cbn; auto|]. rewrite !nth_error_map. destruct (nth_error zs i) as [z|] eqn:Ez; cbn [option_map]; [|cbn; auto].
    apply nth_error_In in Ez. assert (Hz : In z all) by (apply Hi, Ez). unfold cwr_remaining.
    destruct (premove_snd z zs all HM Hz Hi) as [P1 P2]. rewrite P1, P2, premove_fst, up_nth, up_remove.
    set (j := match index_of cmd_eqb (fst z) (map fst zs) with Some j => j | None => 0 end).
    assert (Hi' : incl (premove z zs) all) by (intros x Hx; apply Hi; eapply premove_incl, Hx).
    specialize (IH (premove z zs) (remove_first Qc_eq_bool (nth j ws 0%Qc) ws) r' HM Hi').
    destruct (cwr_loop G cmd_eqb n (map fst (premove z zs)) (remove_first Qc_eq_bool (nth j ws 0%Qc) ws) r') as [a s|e s],
      (cwr_loop G cmd_eqb n (map snd (premove z zs)) (up (remove_first Qc_eq_bool (nth j ws 0%Qc) ws)) r') as [b s'|e' s'];
      cbn in IH |- *; try contradiction; auto.
    destruct IH as [-> (ys & Y1 & -> & ->)]. split; [reflexivity|]. exists (z :: ys). repeat split. intros x [<-|Hx]; auto.
Qed.
Lemma choose_twin : forall zs ws n r, Match zs -> length ws = length zs ->
  picked zs (choose_without_replacement G cmd_eqb (map fst zs) ws n r) (choose_without_replacement G cmd_eqb (map snd zs) (up ws) n r).
Proof.
  intros zs ws n r HM HL. unfold choose_without_replacement. rewrite !map_length.
  destruct (Z.ltb (Z.of_nat (length zs)) n); [cbn; auto|].
  assert (HW : forall ws, picked zs
      (if negb (Nat.eqb (length zs) (length ws)) then RErr EValue r else
        match map fst zs with [] => ROk [] r | [v] => ROk [v] r | _ => cwr_loop G cmd_eqb (Z.to_nat n) (map fst zs) ws r end)
      (if negb (Nat.eqb (length zs) (length ws)) then RErr EValue r else
        match map snd zs with [] => ROk [] r | [v] => ROk [v] r | _ => cwr_loop G cmd_eqb (Z.to_nat n) (map snd zs) (up ws) r end)).
  { intros us. destruct (negb (Nat.eqb (length zs) (length us))); [cbn; auto|].
    destruct zs as [|z [|y zs]].
    - cbn. split; [reflexivity|]. exists []. repeat split. apply incl_refl.
    - cbn. split; [reflexivity|]. exists [z]. repeat split. apply incl_refl.
    - apply (cwr_loop_twin (z :: y :: zs)); [exact HM|apply incl_refl]. }
  destruct ws as [|w ws].
  - destruct zs as [|z zs]; [|discriminate HL]. cbn. split; [reflexivity|]. exists []. repeat split. apply incl_refl.
  - cbn [map]. specialize (HW (w :: ws)). cbn [map] in HW. rewrite ?map_length in *. cbn [length] in *. rewrite map_length. exact HW.
Qed.
End Choose.

Lemma pow2_above : forall e, (0 < pow2 e)%Qc.
Proof. intros e. unfold pow2, Qclt. cbn. rewrite Qred_correct. apply pow2_pos. Qed.

Lemma choose_doubled : forall G, (forall q, fl G q = ieee_round q) ->
  all_methods Random -> forall os os' k r, Opts all_texts all_methods Doubled os os' ->
  twin G (lift_rres G (choose_without_replacement G cmd_eqb (values os) (weights os) k r))
         (lift_rres G (choose_without_replacement G cmd_eqb (values os') (weights os') k r))
         (Forall2 (Reweighed all_texts all_methods Doubled)).
Proof.
  intros G HG _ os os' k r (zs & HK & H1 & H2 & e & He). unfold values, weights. rewrite H1, H2, He.
  assert (Hfl : forall q, fl G (pow2 e * q)%Qc = (pow2 e * fl G q)%Qc) by (intros q; rewrite !HG; apply ieee_scale).
  assert (HL : length (map snd os) = length zs) by (rewrite map_length, <- (map_length fst os), H1, map_length; reflexivity).
  pose proof (choose_twin G (pow2 e) (pow2_above e) Hfl zs (map snd os) k r (proj1 HK) HL) as HP.
  destruct (choose_without_replacement G cmd_eqb (map fst zs) (map snd os) k r) as [a s|x s],
    (choose_without_replacement G cmd_eqb (map snd zs) (map (Qcmult (pow2 e)) (map snd os)) k r) as [b s'|x' s'];
    cbn in HP |- *; try contradiction; auto.
  destruct HP as [-> (ys & Y1 & -> & ->)]. split; [reflexivity|]. eapply kin_forall2, kin_sub; eassumption.
Qed.
Lemma doubled_refl : forall ws, Doubled ws ws.
Proof.
  intros ws. exists 0%Z. rewrite <- (map_id ws) at 1. apply map_ext. intros w. unfold pow2. change (Q2Qc (2 ^ 0)) with 1%Qc. ring.
Qed.

(** * Commands *)
Lemma repeats_refl : forall l, SameRepeats l l.
Proof. intros l i j. tauto. Qed.
Lemma repeats_map : forall (f : command -> command) l, (forall a b, In a l -> In b l -> f a = f b -> a = b) -> SameRepeats l (map f l).
Proof.
  intros f l Hf i j. rewrite !nth_error_map. split; [intros ->; reflexivity|].
  destruct (nth_error l i) as [a|] eqn:Ea, (nth_error l j) as [b|] eqn:Eb; cbn; try discriminate; [|reflexivity].
  intros [= H]. f_equal. apply Hf; [eapply nth_error_In, Ea|eapply nth_error_In, Eb|exact H].
Qed.
Section Inj.
Variable f : Qc -> Qc.
Hypothesis Hf : forall a b, f a = f b -> a = b.
Lemma map_inj_in : forall A B (g : A -> B) l l', (forall a b, In a l -> g a = g b -> a = b) -> map g l = map g l' -> l = l'.
Proof.
  intros A B g l. induction l as [|x l IH]; intros [|y l'] H E; cbn in E; try discriminate; [reflexivity|].
  injection E as E1 E2. f_equal; [apply H; [now left|exact E1]|]. apply IH; [|exact E2]. intros a b Ha. apply H. now right.
Qed.
Lemma reweigh_inj : forall a b, reweigh f a = reweigh f b -> a = b.
Proof.
  induction a as [s m|ts sep m IH|vs lo hi sep m IH|w m vs IHw IHv|x v i o IH|x d IH|w i m IHw IHi] using command_ind'; intros b H.
  - destruct b as [| | |[] | | |]; try discriminate H. exact H.
  - destruct b as [| | |[] | | |]; try discriminate H. cbn in H. injection H as H1 -> ->. f_equal. rewrite Forall_forall in IH.
    eapply map_inj_in; [|exact H1]. intros a1 b1 Ha. apply IH, Ha.
  - destruct b as [| | |[] | | |]; try discriminate H. cbn in H. injection H as H1 -> -> -> ->. f_equal. rewrite Forall_forall in IH.
    eapply map_inj_in; [|exact H1]. intros [a1 q] [b1 q'] Ha [= E1 E2]. apply Hf in E2. specialize (IH _ Ha b1 E1). cbn in IH. congruence.
  - assert (HV : forall vs', map (fun kv : str * command => (fst kv, reweigh f (snd kv))) vs = map (fun kv => (fst kv, reweigh f (snd kv))) vs' -> vs = vs').
    { intros vs' E. rewrite Forall_forall in IHv. eapply map_inj_in; [|exact E]. intros [k a1] [k' b1] Ha [= -> E1].
      specialize (IHv _ Ha b1 E1). cbn in IHv. congruence. }
    destruct w as [t|c]; destruct b as [| | |[t'|c'] | | |]; try discriminate H; cbn in H.
    + injection H as -> -> E. apply HV in E. congruence.
    + injection H as E1 -> E. apply HV in E. apply (IHw c eq_refl) in E1. congruence.
  - destruct b as [| | |[] | | |]; try discriminate H. cbn in H. injection H as -> E -> ->. apply IH in E. congruence.
  - destruct b as [| | |[] | | |]; try discriminate H. cbn in H. injection H as -> E. destruct d as [d|], default as [d'|]; try discriminate E; [|reflexivity].
    injection E as E. apply (IH d eq_refl) in E. congruence.
  - destruct b as [| | |[] | | |]; try discriminate H. cbn in H. injection H as E1 E2 ->. apply IHw in E1. apply IHi in E2. congruence.
Qed.
Variables (texts : text -> Prop) (methods : method -> Prop) (instead : list Qc -> list Qc -> Prop).
Hypothesis Hi : forall ws, instead ws (map f ws).
Lemma reweigh_ok : forall c, Asks texts methods c -> Reweighed texts methods instead c (reweigh f c).
Proof.
  assert (HF : forall A (g : A -> command) l, Forall (fun x => Asks texts methods (g x) -> Reweighed texts methods instead (g x) (reweigh f (g x))) l ->
     Forall (fun x => Asks texts methods (g x)) l -> Forall (fun x => Reweighed texts methods instead (g x) (reweigh f (g x))) l).
  { intros A g l H1 H2. rewrite Forall_forall in *. auto. }
  induction c as [s m|ts sep m IH|vs lo hi sep m IH|w m vs IHw IHv|x v i o IH|x d IH|w i m IHw IHi] using command_ind'; intros HA.
  - inversion HA; subst. constructor. assumption.
  - inversion HA as [|? ? ? Hm H| | | | | | |]; subst. cbn [reweigh]. constructor; [exact Hm| |].
    + specialize (HF _ (fun x => x) ts IH H). clear -HF. induction HF; cbn; constructor; auto.
    + apply repeats_map. intros a b _ _. apply reweigh_inj.
  - inversion HA as [| |? ? ? ? ? Hm H| | | | | |]; subst. cbn [reweigh]. constructor; [exact Hm| | |].
    + specialize (HF _ (@fst command Qc) vs IH H). clear -HF. induction HF; cbn; constructor; auto.
    + rewrite map_map. cbn [fst]. rewrite <- (map_map fst (reweigh f)). apply repeats_map. intros a b _ _. apply reweigh_inj.
    + rewrite map_map. cbn [snd]. rewrite <- (map_map snd f). apply Hi.
  - assert (HV : Forall (fun kv => Asks texts methods (snd kv)) vs ->
      Forall2 (fun a b => fst a = fst b /\ Reweighed texts methods instead (snd a) (snd b)) vs (map (fun kv => (fst kv, reweigh f (snd kv))) vs)).
    { intros H. specialize (HF _ (@snd str command) vs IHv H). clear -HF. induction HF; cbn; constructor; auto. }
    inversion HA; subst; cbn [reweigh]; constructor; auto.
  - inversion HA; subst. constructor. auto.
  - inversion HA; subst; constructor. auto.
  - inversion HA; subst; constructor; auto.
Qed.
End Inj.
Lemma reweighed_refl : forall texts methods (instead : list Qc -> list Qc -> Prop), (forall ws, instead ws ws) -> forall c, Asks texts methods c -> Reweighed texts methods instead c c.
Proof.
  intros texts methods instead Hi c H.
  assert (E : reweigh (fun w => w) c = c).
  { clear. assert (HM : forall A (g : A -> A) l, Forall (fun x => g x = x) l -> map g l = l) by (intros A g l H; induction H; cbn; congruence).
    induction c as [s m|ts sep m IH|vs lo hi sep m IH|w m vs IHw IHv|x v i o IH|x d IH|w i m IHw IHi] using command_ind'; cbn [reweigh].
    - reflexivity.
    - now rewrite (HM _ _ _ IH).
    - rewrite (HM _ (fun v => (reweigh (fun w => w) (fst v), snd v))); [reflexivity|]. eapply Forall_impl; [|exact IH]. intros [a q]; cbn. congruence.
    - assert (HV : map (fun kv : str * command => (fst kv, reweigh (fun w => w) (snd kv))) vs = vs).
      { apply HM. eapply Forall_impl; [|exact IHv]. intros [a q]; cbn. congruence. }
      destruct w as [t|c]; rewrite HV; [reflexivity|]. now rewrite (IHw c eq_refl).
    - now rewrite IH.
    - destruct d as [d|]; [|reflexivity]. now rewrite (IH d eq_refl).
    - now rewrite IHw, IHi. }
  rewrite <- E at 2. apply reweigh_ok; auto. intros ws. rewrite map_id. apply Hi.
Qed.
Lemma asks_all : forall c, Asks all_texts all_methods c.
Proof.
  assert (HM : forall m, Mark all_methods m) by (intros m x _; exact I).
  induction c as [s m|ts sep m IH|vs lo hi sep m IH|w m vs IHw IHv|x v i o IH|x d IH|w i m IHw IHi] using command_ind'.
  - constructor. apply HM.
  - constructor; auto.
  - constructor; auto.
  - destruct w as [t|c]; constructor; auto. exact I.
  - constructor; auto.
  - destruct d as [d|]; constructor. auto.
  - constructor; auto.
Qed.
Lemma readable_all : forall E, Readable E all_texts all_methods Doubled.
Proof.
  intros E. split; [|intros; exact I]. intros t c _ _. apply reweighed_refl; [exact doubled_refl|apply asks_all].
Qed.
Lemma readable_asks : forall E (texts : text -> Prop) (methods : method -> Prop),
  (forall t c, texts t -> env_parse E t = Ok c -> Asks texts methods c) ->
  (forall name i, In i (env_lookup E name) -> texts (w_content i)) -> Readable E texts methods AnyWeights.
Proof.
  intros E texts methods H1 H2. split; [|exact H2]. intros t c Ht Hc. apply reweighed_refl; [intros; exact I|eauto].
Qed.

