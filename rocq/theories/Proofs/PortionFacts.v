(** Requests for several prompts, portion by portion. *)
From Coq Require Import String NArith ZArith QArith Qcanon Bool Arith List Permutation Lia.
From Verif.Model Require Import Str Float Utils Command Rng Values Context Sampler Generators.
From Verif.Spec Require Import Text Comb Items Lang Draws Seeds Sure Rolls Reseed.
From Verif.Proofs Require Import RollFacts RollRun ReseedFacts.
Import ListNotations.
Local Open Scope nat_scope.

Section Portion.
Variable G : rng_impl.
Variable E : env.
Notation R := (rng_state G).

Lemma many_app : forall c p r us vs r', RolledMany G E c p r (us ++ vs) r' <->
  exists r1, RolledMany G E c p r us r1 /\ RolledMany G E c p r1 vs r'.
Proof.
  intros c p r us vs r'. revert r. induction us as [|u us IH]; intros r; cbn [app].
  - split; [intros H; exists r; split; [constructor|exact H]|]. intros (r1 & H1 & H2). now inversion H1; subst.
  - split.
    + intros H. inversion H as [|? ? r1 ? ? H1 H2]; subst. apply IH in H2. destruct H2 as (r2 & H2 & H3).
      exists r2. split; [|exact H3]. now apply RM_cons with (r1 := r1).
    + intros (r2 & H & H3). inversion H as [|? ? r1 ? ? H1 H2]; subst. apply RM_cons with (r1 := r1); [exact H1|]. apply IH. now exists r2.
Qed.
Lemma seeds_app : forall c p r k l us vs r', length us = length k -> (RolledSeeds G E c p r (k ++ l) (us ++ vs) r' <->
  exists r1, RolledSeeds G E c p r k us r1 /\ RolledSeeds G E c p r1 l vs r').
Proof.
  intros c p r k l us vs r'. revert r us. induction k as [|z k IH]; intros r us Hl; destruct us as [|u us]; try discriminate; cbn [app].
  - split; [intros H; exists r; split; [constructor|exact H]|]. intros (r1 & H1 & H2). now inversion H1; subst.
  - injection Hl as Hl. split.
    + intros H. inversion H as [|? ? ? r1 ? ? ? H1 H2]; subst. apply IH in H2; [|exact Hl]. destruct H2 as (r2 & H2 & H3).
      exists r2. split; [|exact H3]. now apply RS_cons with (r1 := r1).
    + intros (r2 & H & H3). inversion H as [|? ? ? r1 ? ? ? H1 H2]; subst. apply RS_cons with (r1 := r1); [exact H1|].
      apply IH; [exact Hl|]. now exists r2.
Qed.
Lemma seeds_length : forall c p r l us r', RolledSeeds G E c p r l us r' -> length us = length l.
Proof. intros c p r l us r' H. induction H; cbn; congruence. Qed.

(** Requests without seeds and with a list of seeds. *)
Lemma plain_answer : forall c p num r us r', Answer G E c p num SNone r us r' <-> length us = num /\ RolledMany G E c p r us r'.
Proof.
  intros c p num r us r'. split; [|intros [H1 H2]; apply An_plain; auto; constructor].
  intros [D L H|l D H]; [now split|inversion D].
Qed.
Lemma list_answer : forall c p l r us r', Answer G E c p (length l) (SList l) r us r' <-> RolledSeeds G E c p r l us r'.
Proof.
  intros c p l r us r'. split.
  - intros [D L H|l' D H].
    + inversion D; subst. destruct us; [|discriminate]. inversion H; subst. constructor.
    + apply dealt_iff in D. destruct l as [|z [|z' l]]; cbn in D; [discriminate| |].
      * injection D as <-. exact H.
      * rewrite Nat.eqb_refl in D. injection D as <-. exact H.
  - intros H. destruct l as [|z [|z' l]].
    + inversion H; subst. apply An_plain; constructor.
    + apply An_seeded with (l := [z]); [|exact H]. apply De_one; [reflexivity|]. intros y [<-|[]]. reflexivity.
    + apply An_seeded with (l := z :: z' :: l); [|exact H]. apply De_each; [cbn; lia|reflexivity].
Qed.
Lemma split_length : forall {A} a b (us : list A), length us = a + b -> exists u v, us = u ++ v /\ length u = a /\ length v = b.
Proof.
  intros A a b us H. exists (firstn a us), (skipn a us). split; [now rewrite firstn_skipn|]. split; [apply firstn_length_le; lia|].
  rewrite skipn_length. lia.
Qed.
Lemma answer_plain_split : forall c p a b r us r', Answer G E c p (a + b) SNone r us r' <->
  exists u v r1, us = u ++ v /\ Answer G E c p a SNone r u r1 /\ Answer G E c p b SNone r1 v r'.
Proof.
  intros c p a b r us r'. rewrite plain_answer. split.
  - intros [Hl H]. destruct (split_length _ _ _ Hl) as (u & v & -> & Hu & Hv). apply many_app in H. destruct H as (r1 & H1 & H2).
    exists u, v, r1. split; [reflexivity|]. split; apply plain_answer; now split.
  - intros (u & v & r1 & -> & H1 & H2). apply plain_answer in H1, H2. destruct H1 as [L1 H1], H2 as [L2 H2].
    split; [rewrite app_length; lia|]. apply many_app. now exists r1.
Qed.
Lemma answer_list_split : forall c p k l r us r', Answer G E c p (length (k ++ l)) (SList (k ++ l)) r us r' <->
  exists u v r1, us = u ++ v /\ Answer G E c p (length k) (SList k) r u r1 /\ Answer G E c p (length l) (SList l) r1 v r'.
Proof.
  intros c p k l r us r'. rewrite list_answer. split.
  - intros H. pose proof (seeds_length _ _ _ _ _ _ H) as Hl. rewrite app_length in Hl.
    destruct (split_length _ _ _ Hl) as (u & v & -> & Hu & Hv). apply seeds_app in H; [|exact Hu]. destruct H as (r1 & H1 & H2).
    exists u, v, r1. split; [reflexivity|]. split; now apply list_answer.
  - intros (u & v & r1 & -> & H1 & H2). apply list_answer in H1, H2. apply seeds_app; [now apply (seeds_length _ _ _ _ _ _ H1)|]. now exists r1.
Qed.
Lemma seeds_same : forall c p r l us r' z, RolledSeeds G E c p r l us r' -> (forall y, In y l -> y = z) ->
  exists u, forall v, In v us -> v = u.
Proof.
  intros c p r l us r' z H Hz. destruct H as [r|r y u r1 ys us r2 H1 H2]; [exists []; intros v []|].
  exists u. intros v [<-|Hv]; [reflexivity|]. rewrite (Hz y (or_introl eq_refl)) in H1.
  assert (Hys : forall y', In y' ys -> y' = z) by (intros; apply Hz; now right). clear Hz.
  induction H2 as [r3|r3 y' u' r4 ys us r5 K1 K2 IH]; [destruct Hv|]. rewrite (Hys y' (or_introl eq_refl)) in K1.
  destruct (rolled_det _ _ _ _ _ _ _ _ _ K1 H1) as [-> ->].
  destruct Hv as [<-|Hv]; [reflexivity|]. apply IH; [exact H1|exact Hv|intros; apply Hys; now right].
Qed.
Lemma answer_one_seed : forall c p num z r us r', z <> 0%Z -> Answer G E c p num (SInt z) r us r' ->
  length us = num /\ exists u, forall v, In v us -> v = u.
Proof.
  intros c p num z r us r' Hz [D L H|l D H]; inversion D; subst; [now destruct Hz|].
  split; [now apply (seeds_length _ _ _ _ _ _ H)|]. eapply seeds_same; eassumption.
Qed.
End Portion.
