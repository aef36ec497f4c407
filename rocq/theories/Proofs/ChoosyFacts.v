(** The random sampler draws what the combinatorial sampler lists. *)
From Coq Require Import NArith ZArith QArith Qcanon Bool Arith List Permutation Lia.
From Verif.Model Require Import Command Values Context.
From Verif.Spec Require Import Text Comb Items Lang Enum Choices Draws Choosy.
From Verif.Proofs Require Import EndFacts.
Import ListNotations.
Local Open Scope nat_scope.

Lemma in_firsts : forall t l, In t (firsts l) <-> In t l.
Proof.
  intros t l. induction l as [|u l IH]; [reflexivity|]. cbn. rewrite filter_In, IH.
  destruct (list_eq_dec N.eq_dec t u) as [->|H]; [tauto|]. split; [tauto|]. intros [->|K]; auto.
Qed.
Lemma in_products : forall (A : Type) (ls : list (list A)) x, In x (product ls) <-> Forall2 (@In A) x ls.
Proof.
  intros A ls. induction ls as [|l ls IH]; intros x; cbn.
  - split; [intros [<-|[]]; constructor|intros H; inversion H; now left].
  - rewrite in_flat_map. split.
    + intros (a & Ha & K). apply in_map_iff in K as (y & <- & Hy). constructor; [exact Ha|]. now apply IH.
    + intros H. inversion H as [|a ? y ? Ha Hy]; subst. exists a. split; [exact Ha|]. apply in_map. now apply IH.
Qed.
Lemma interleave_none : forall ts, interleave [] ts = concat ts.
Proof. intros [|t ts]; reflexivity. Qed.
Lemma glued_none : forall ts t, Glued [] ts t -> t = concat ts.
Proof. intros ts t H. inversion H; subst; [cbn; now rewrite app_nil_r|reflexivity|congruence]. Qed.
Lemma glued_single : forall sep u t, Glued sep [u] t -> t = u.
Proof. intros sep u t H. inversion H; subst; [reflexivity|cbn; now rewrite app_nil_r|cbn in *; congruence]. Qed.
Lemma clamp_one : forall n, 1 <= n -> clamp n 1 = 1%Z.
Proof. intros n H. unfold clamp. lia. Qed.

Lemma no_void : forall E sc cmd, OneChoice cmd -> ~ Void E sc cmd.
Proof.
  intros E sc cmd H. revert sc. revert cmd H. apply (one_choice_depth (fun cmd => forall sc, ~ Void E sc cmd)).
  - intros s sc K. inversion K as [? ? B]; subst. inversion B.
  - intros ts _ sc K. inversion K as [? ? B]; subst. inversion B.
  - intros os sep m _ Hn Ho H sc K. inversion K as [? ? B]; subst. inversion B; subst; [congruence| |].
    + inversion H as [|? ? Hx _]; subst. eapply Hx. eassumption.
    + inversion Ho as [|? ? Hx _]; subst. inversion Hx.
Qed.

Lemma allowed_choices : forall E cmd, OneChoice cmd -> forall sc t, Produces E sc cmd t -> In t (choices cmd).
Proof.
  intros E cmd H. cut (OneChoice cmd /\ forall sc t, Produces E sc cmd t -> In t (choices cmd)); [tauto|].
  revert cmd H. apply one_choice_depth.
  - intros s. split; [constructor|]. intros sc t K. inversion K as [? ? ? B]; subst. inversion B; subst. now left.
  - intros ts H. split; [constructor; eapply Forall_impl; [|exact H]; cbn; tauto|].
    intros sc t K. inversion K as [? ? ? B]; subst. inversion B as [|? ? ? ? sc' toks parts ? _ _ Hp Ha Hc Hg| | | | | | | |]; subst.
    cbn [choices]. apply in_map_iff. exists parts. split.
    { rewrite interleave_none. destruct (sc_method (enter sc (Seq ts [] None))) eqn:Hm;
        try (symmetry; apply glued_none, Hg; discriminate). rewrite Hc by reflexivity. symmetry. apply interleave_none. }
    apply in_products. clear B K Hc Hg. revert toks parts Hp Ha.
    induction H as [|c ts [Hc1 Hc2] _ IH]; intros toks parts Hp Ha; inversion Hp; subst.
    + inversion Ha; subst. constructor.
    + exfalso. inversion Hc1.
    + inversion Ha; subst. cbn. constructor; eauto.
  - intros os sep m Hm Hn Ho H. split; [now constructor|]. intros sc t K. inversion K as [? ? ? B]; subst.
    assert (Hl : 1 <= length os) by (destruct os; [congruence|cbn; lia]).
    cbn [choices]. apply in_firsts, in_flat_map. rewrite Forall_forall in H, Ho.
    assert (Hv : forall v u sc1, In v (map fst os) -> Produces E sc1 v u -> exists o, In o os /\ In u (choices (fst o))).
    { intros v u sc1 Hin Hp. apply in_map_iff in Hin as (o & <- & Hin). exists o. split; [exact Hin|]. apply (proj2 (H o Hin) sc1 u Hp). }
    inversion B; subst.
    + match goal with P : Permutation _ _, L : (_ <= Z.of_nat (length sel) <= _)%Z |- _ =>
        rewrite Z.min_id, Z.max_id, (clamp_one _ Hl) in L; destruct sel as [|v [|w sel]]; cbn in L; try lia;
        assert (Hin : In v (map fst os)) by (apply Permutation_sym in P; apply (Permutation_in _ P); now left) end.
      match goal with A : ProducesAll _ _ [v] _ |- _ => inversion A as [|? ? ? u us Hp Hps]; subst; inversion Hps; subst end.
      match goal with Gl : Glued _ _ t |- _ => apply glued_single in Gl; subst t end. eauto.
    + match goal with P : Permutation _ _, L : (_ <= Z.of_nat _ <= _)%Z |- _ =>
        rewrite Z.min_id, Z.max_id, (clamp_one _ Hl) in L; rewrite app_length in L; cbn in L; 
        assert (Hin : In v (map fst os)) by (apply Permutation_sym in P; apply (Permutation_in _ P); rewrite !in_app_iff; cbn; tauto) end.
      exfalso. apply in_map_iff in Hin as (o & <- & Hin). eapply no_void; [exact (Ho o Hin)|eassumption].
    + eapply Hv; [now left|eassumption].
    + exfalso. specialize (Ho _ (or_introl eq_refl)). inversion Ho.
Qed.

Lemma choosy_depth : forall (P : command -> Prop),
  (forall s, P (Lit s None)) ->
  (forall tokens, Forall Choosy tokens -> Forall P tokens -> P (Seq tokens [] None)) ->
  (forall opts sep, opts <> [] -> Forall (fun o => Choosy (fst o)) opts -> Forall (fun o => Wide (snd o) (map snd opts)) opts ->
     Forall (fun o => P (fst o)) opts -> P (Var opts 1 1 sep None)) ->
  forall cmd, Choosy cmd -> P cmd.
Proof.
  intros P Hl Hs Hv. fix IH 2. intros cmd [s|tokens Ht|opts sep Hn Ho Hw].
  - apply Hl.
  - apply Hs; [exact Ht|]. induction Ht as [|x l Hx _ IHl]; constructor; [apply IH, Hx|exact IHl].
  - apply Hv; [exact Hn|exact Ho|exact Hw|]. clear Hn Hw. induction Ho as [|x l Hx _ IHl]; constructor; [apply IH, Hx|exact IHl].
Qed.
Lemma choosy_one : forall cmd, Choosy cmd -> OneChoice cmd.
Proof.
  apply choosy_depth; [constructor|intros; now constructor|]. intros os sep Hn _ _ H. constructor; auto.
Qed.
Lemma choosy_plain : forall ts, Forall Choosy ts -> Plain ts ts /\ Forall (fun t => ~ is_assign t) ts.
Proof.
  intros ts H. assert (Ha : Forall (fun t => ~ is_assign t) ts).
  { eapply Forall_impl; [|exact H]. intros c Hc. apply one_choice_mark, choosy_one, Hc. }
  split; [|exact Ha]. clear H. induction Ha; constructor; auto.
Qed.

Lemma choices_drawn : forall E cmd, Choosy cmd -> forall sc busy t, sc_method sc = Random -> In t (choices cmd) -> Draws E sc busy cmd t.
Proof.
  intros E. apply (choosy_depth (fun cmd => forall sc busy t, sc_method sc = Random -> In t (choices cmd) -> Draws E sc busy cmd t)).
  - intros s sc busy t Hm [<-|[]]. apply Dr_enter; [exact Hm|constructor].
  - intros ts Hc H sc busy t Hm Hin. cbn [choices] in Hin. apply in_map_iff in Hin as (parts & <- & Hin). apply in_products in Hin.
    destruct (choosy_plain ts Hc) as [Hp Ha].
    apply Dr_enter; [exact Hm|]. apply Dr_seq with (bs := []) (sc' := enter sc (Seq ts [] None)) (toks := ts) (parts := parts).
    + clear - Ha. induction Ha; constructor; auto.
    + split; [split; auto|]. intros x. right. split; [intros []|reflexivity].
    + exact Hp.
    + assert (Hm' : sc_method (enter sc (Seq ts [] None)) = Random) by exact Hm.
      revert Hm'. generalize (enter sc (Seq ts [] None)). intros sc1 Hm1. clear - Hin H Hm1. revert parts Hin.
      induction H as [|c ts H _ IH]; intros parts Hin; inversion Hin; subst; constructor; auto.
    + rewrite interleave_none. now apply Glued_plain.
  - intros os sep Hn Hc Hw H sc busy t Hm Hin. cbn [choices] in Hin. apply (proj1 (in_firsts _ _)), in_flat_map in Hin. destruct Hin as (o & Ho & Ht).
    rewrite Forall_forall in H. apply Dr_enter; [exact Hm|].
    assert (Hd : Draws E (enter sc (Var os 1 1 sep None)) busy (fst o) t) by (apply (H o Ho); [exact Hm|exact Ht]).
    destruct os as [|o1 [|o2 os]]; [congruence| |].
    + destruct Ho as [->|[]]. destruct o as [v q]. apply Dr_single; [|exact Hd].
      intros (w & mw & vs & q' & K). injection K as -> _. inversion Hc as [|? ? Hx _]; subst. inversion Hx.
    + apply in_split in Ho as (pre & post & Eo). rewrite Eo in *.
      apply Dr_choice with (sel := [fst o]) (rest := map fst (pre ++ post)) (parts := [t]).
      * rewrite <- Eo. cbn. lia.
      * cbn. lia.
      * exact Hw.
      * rewrite !map_app. cbn. apply Permutation_sym, Permutation_middle.
      * rewrite Z.min_id, Z.max_id, clamp_one by (rewrite app_length; cbn; lia). cbn. lia.
      * constructor; [exact Hd|constructor].
      * constructor.
Qed.
