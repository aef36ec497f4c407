(** Induction over commands, correctness of [==] on commands. *)
From Coq Require Import String NArith ZArith QArith Qcanon Bool Arith List Lia Permutation.
From Verif.Model Require Import Str Command.
From Verif.Proofs Require Import StrFacts.
Import ListNotations.
Local Open Scope nat_scope.

Section CmdInd.
Variable P : command -> Prop.
Hypothesis HLit : forall s m, P (Lit s m).
Hypothesis HSeq : forall ts sep m, Forall P ts -> P (Seq ts sep m).
Hypothesis HVar : forall vs lo hi sep m, Forall (fun v => P (fst v)) vs -> P (Var vs lo hi sep m).
Hypothesis HWild : forall w m vs,
  (forall c, w = WCmd c -> P c) -> Forall (fun v => P (snd v)) vs -> P (Wild w m vs).
Hypothesis HAssign : forall n v i o, P v -> P (Assign n v i o).
Hypothesis HAccess : forall n d, (forall c, d = Some c -> P c) -> P (Access n d).
Hypothesis HWrap : forall w i m, P w -> P i -> P (Wrap w i m).

Fixpoint command_ind' (c : command) : P c.
Proof.
  destruct c.
  - apply HLit.
  - apply HSeq. induction tokens as [|t ts IH]; constructor; [apply command_ind'|exact IH].
  - apply HVar. induction variants as [|[v w] vs IH]; constructor; [apply command_ind'|exact IH].
  - apply HWild.
    + destruct wildcard as [s|c].
      * intros c H; discriminate.
      * intros c' H. injection H as <-. apply command_ind'.
    + induction variables as [|[k v] vs IH]; constructor; [apply command_ind'|exact IH].
  - apply HAssign. apply command_ind'.
  - apply HAccess. destruct default as [c|].
    + intros c' H. injection H as <-. apply command_ind'.
    + intros c' H; discriminate.
  - apply HWrap; apply command_ind'.
Qed.
End CmdInd.

Lemma method_eqb_spec : forall a b, reflect (a = b) (method_eqb a b).
Proof. destruct a, b; constructor; congruence. Qed.

Lemma omethod_eqb_spec : forall a b, reflect (a = b) (option_eqb method_eqb a b).
Proof.
  intros [a|] [b|]; cbn; try (constructor; congruence).
  destruct (method_eqb_spec a b); constructor; congruence.
Qed.

Lemma Qc_eq_bool_spec : forall a b, reflect (a = b) (Qc_eq_bool a b).
Proof.
  intros a b. unfold Qc_eq_bool. destruct (Qc_eq_dec a b); constructor; assumption.
Qed.

Ltac t_refl :=
  repeat match goal with
  | H : andb _ _ = true |- _ => apply andb_true_iff in H as [? H]
  | H : str_eqb _ _ = true |- _ => apply str_eqb_eq in H; subst
  | H : option_eqb method_eqb ?a ?b = true |- _ =>
      destruct (omethod_eqb_spec a b); [subst; clear H|discriminate H]
  | H : Qc_eq_bool ?a ?b = true |- _ =>
      destruct (Qc_eq_bool_spec a b); [subst; clear H|discriminate H]
  | H : Z.eqb _ _ = true |- _ => apply Z.eqb_eq in H; subst
  | H : Bool.eqb _ _ = true |- _ => apply Bool.eqb_prop in H; subst
  end.

Lemma cmd_eqb_true : forall a b, cmd_eqb a b = true -> a = b.
Proof.
  induction a as [s m|ts sep m IH|vs lo hi sep m IH|w m vs IHw IH|n v i o IH|n d IH|w i m IHw IHi]
    using command_ind'; intros b H; destruct b; cbn in H; try discriminate.
  - t_refl. congruence.
  - apply andb_true_iff in H as [H1 H]. apply andb_true_iff in H1 as [H0 H1].
    t_refl. f_equal.
    revert tokens H0. induction IH as [|t ts Ht Hts IH]; intros [|u us]; try discriminate; [reflexivity|].
    intros E1. apply andb_true_iff in E1 as [E1 E2]. f_equal; auto.
  - apply andb_true_iff in H as [H H5]. apply andb_true_iff in H as [H H4].
    apply andb_true_iff in H as [H H3]. apply andb_true_iff in H as [H H2].
    t_refl. f_equal.
    revert variants H. induction IH as [|[t q] ts Ht Hts IH]; intros [|[u p] us]; try discriminate; [reflexivity|].
    intros E1. apply andb_true_iff in E1 as [E1 E2]. apply andb_true_iff in E1 as [E1 E3].
    t_refl. f_equal; auto. f_equal. apply Ht; assumption.
  - apply andb_true_iff in H as [H1 H]. apply andb_true_iff in H1 as [H0 H1].
    assert (Hw : w = wildcard).
    { destruct w as [s|c], wildcard as [s'|c']; try discriminate; [t_refl; reflexivity|].
      f_equal. eapply IHw; eauto. }
    assert (Hm : m = m0) by (destruct (omethod_eqb_spec m m0); [assumption|discriminate]).
    subst. f_equal. clear - H IH.
    revert variables H. induction IH as [|[k t] ts Ht Hts IH]; intros [|[k' u] us]; try discriminate; [reflexivity|].
    intros E1. apply andb_true_iff in E1 as [E1 E2]. apply andb_true_iff in E1 as [E1 E3].
    t_refl. f_equal; auto. f_equal. apply Ht; assumption.
  - apply andb_true_iff in H as [H H4].
    apply andb_true_iff in H as [H H3]. apply andb_true_iff in H as [H H2].
    t_refl. f_equal; auto.
  - apply andb_true_iff in H as [H H2]. t_refl. f_equal.
    destruct d as [c|], default as [c'|]; try discriminate; [|reflexivity].
    f_equal. eapply IH; eauto.
  - apply andb_true_iff in H as [H H3]. apply andb_true_iff in H as [H H2].
    t_refl. f_equal; auto.
Qed.

Lemma omethod_eqb_refl : forall m, option_eqb method_eqb m m = true.
Proof. intros m. destruct (omethod_eqb_spec m m); congruence. Qed.

Lemma Qc_eq_bool_refl : forall q, Qc_eq_bool q q = true.
Proof. intros q. destruct (Qc_eq_bool_spec q q); congruence. Qed.

Lemma cmd_eqb_refl : forall a, cmd_eqb a a = true.
Proof.
  induction a as [s m|ts sep m IH|vs lo hi sep m IH|w m vs IHw IH|n v i o IH|n d IH|w i m IHw IHi]
    using command_ind'; cbn;
    rewrite ?str_eqb_refl, ?omethod_eqb_refl, ?Z.eqb_refl, ?Bool.eqb_reflx, ?andb_true_r.
  - reflexivity.
  - induction IH as [|t ts Ht Hts IH]; [reflexivity|]. now rewrite Ht, IH.
  - induction IH as [|[t q] ts Ht Hts IH]; [reflexivity|].
    cbn in Ht. now rewrite Ht, Qc_eq_bool_refl, IH.
  - apply andb_true_iff. split.
    + destruct w; [apply str_eqb_refl|]. now apply IHw.
    + induction IH as [|[k t] ts Ht Hts IH]; [reflexivity|].
      cbn in Ht. now rewrite Ht, str_eqb_refl, IH.
  - now rewrite IH.
  - cbn. destruct d; [now apply IH|reflexivity].
  - now rewrite IHw, IHi.
Qed.

Lemma cmd_eqb_spec : forall a b, reflect (a = b) (cmd_eqb a b).
Proof.
  intros a b. destruct (cmd_eqb a b) eqn:H; constructor.
  - now apply cmd_eqb_true.
  - intros ->. rewrite cmd_eqb_refl in H; discriminate.
Qed.

Lemma cmd_eq_dec : forall a b : command, {a = b} + {a <> b}.
Proof.
  intros a b. destruct (cmd_eqb a b) eqn:H.
  - left. now apply cmd_eqb_true.
  - right. intros ->. rewrite cmd_eqb_refl in H; discriminate.
Qed.
