(** Templates whose combinatorial runs are exhaustive: facts about scopes and
    selections. *)
From Coq Require Import String NArith ZArith QArith Qcanon Bool Arith List Permutation Lia.
From Verif.Model Require Import Str Utils Command Rng Values Context Sampler.
From Verif.Spec Require Import Text Comb Items Lang Enum Exhaust.
From Verif.Proofs Require Import StrFacts UtilsFacts CommandFacts ValuesFacts DictFacts Soundness FuelFacts RunFacts SeqFacts
  EnumFacts BindFacts EnumRun CombRun LiveFacts ReachFacts.
Import ListNotations.
Local Open Scope nat_scope.

Section Exhaust.
Variable E : env.
Hypothesis Hvals : ExhaustiveValues E.
Notation Ex := (Exhaustive E).
Notation ExScope := (ExhaustiveScope E).

Lemma Ex_finite : forall cmd, Ex cmd -> finite_mark cmd.
Proof. intros cmd H. destruct H; try assumption; now left. Qed.

Lemma enter_same : forall sc cmd, ExScope sc -> Ex cmd -> enter sc cmd = sc.
Proof.
  intros [m s v u] cmd (Hm & _) H. apply Ex_finite in H. unfold enter. cbn in *. subst m.
  destruct H as [-> | ->]; reflexivity.
Qed.

Lemma produced : forall sc cmd t, ExScope sc -> Ex cmd -> Produces E sc cmd t -> Body E sc cmd t.
Proof. intros sc cmd t Hs Hc H. inversion H; subst. now rewrite enter_same in * by assumption. Qed.

(** * Functions in disguise *)
Lemma Reads_fun : forall w c c', Reads E w c -> Reads E w c' -> c = c'.
Proof. intros w c c' H H'. inversion H; subst; inversion H'; subst; congruence. Qed.
Lemma Tidy_same : forall b t u u', Tidy b t u -> Tidy b t u' -> u = u'.
Proof. intros b t u u' H H'. apply Tidy_fun in H, H'. congruence. Qed.
Lemma Glued_same : forall sep ts t t', Glued sep ts t -> Glued sep ts t' -> t = t'.
Proof. intros sep ts t t' H H'. apply Glued_joined in H, H'. congruence. Qed.
Lemma Refers_fun : forall sc x d v v', Refers sc x d v -> Refers sc x d v' -> v = v'.
Proof.
  intros sc x d v v' H H'. destruct H, H'; try congruence.
  - exfalso. eapply H3; [eassumption|assumption].
  - exfalso. eapply H0; [eassumption|assumption].
Qed.
Lemma Plain_fun : forall ts ps ps', Plain ts ps -> Plain ts ps' -> ps = ps'.
Proof.
  intros ts ps ps' H. revert ps'. induction H as [|n v i o ts ps H IH|c ts ps Hc H IH]; intros ps' H'; inversion H'; subst.
  - reflexivity.
  - auto.
  - exfalso. match goal with H : ~ is_assign _ |- _ => apply H end. now exists n, v, i, o.
  - exfalso. apply Hc. repeat eexists.
  - f_equal. auto.
Qed.

Lemma Plain_Forall : forall (P : command -> Prop) ts ps, Plain ts ps -> Forall P ts -> Forall P ps.
Proof.
  intros P ts ps H. induction H as [|n v i o ts ps H IH|c ts ps Hc H IH]; intros Hf; [constructor| |];
    inversion Hf; subst; auto.
Qed.

(** * Scopes *)
Lemma Agrees_parts : forall c sc, Agrees c sc -> sc_method sc = Combinatorial -> c_method c = Combinatorial.
Proof. intros c sc (H & _) Hm. congruence. Qed.

Lemma Refers_of : forall c sc x d v, Agrees c sc -> Refers (scope_of c) x d v -> Refers sc x d v.
Proof.
  intros c sc x d v (_ & _ & Hu & Hv) H. destruct H as [v H1 H2|v H1 H2 H3|v u H1 H2 H3|u H1 H2 H3]; cbn in *.
  - apply Refers_var; [now rewrite <- Hv|assumption].
  - apply Refers_default; [now rewrite <- Hv|assumption|assumption].
  - eapply Refers_unknown_var; [rewrite <- Hv; exact H1|assumption|congruence].
  - apply Refers_unknown; [now rewrite <- Hv|assumption|congruence].
Qed.

Lemma Ex_Refers : forall sc x d v, ExScope sc -> Ex (Access x d) -> Refers sc x d v -> Ex v.
Proof.
  intros sc x d v (Hm & Hv & Hu) Hc H. inversion Hc; subst. destruct H; eauto.
Qed.

Lemma extended_agrees : forall c sc vars c' sc', Agrees c sc -> Extends c vars c' -> Extended sc vars sc' -> Agrees c' sc'.
Proof.
  intros c sc vars c' sc' (Hm & Hi & Hu & Hv) [[(K1 & K2 & K3) Kx] _] [(H1 & H2 & H3) Hx].
  cbn [scope_of sc_method sc_squash sc_unknown sc_var] in *.
  split; [congruence|]. split; [congruence|]. split; [congruence|].
  intros x. destruct (Hx x) as [(pre & v & post & Hb & Hn & ->)|[Hn ->]], (Kx x) as [(pre' & v' & post' & Kb & Kn & ->)|[Kn ->]].
  - f_equal. eapply ReachFacts.last_unique; eassumption.
  - exfalso. apply Kn. rewrite Hb, map_app. apply in_or_app. right. now left.
  - exfalso. apply Hn. rewrite Kb, map_app. apply in_or_app. right. now left.
  - apply Hv.
Qed.

Lemma ExScope_Extended : forall sc vars sc', ExScope sc -> Forall (fun kv => Ex (snd kv)) vars ->
  Extended sc vars sc' -> ExScope sc'.
Proof.
  intros sc vars sc' (Hm & Hv & Hu) Hvs [(H1 & H2 & H3) Hx]. split; [congruence|]. split.
  - intros x v Hxv. destruct (Hx x) as [(pre & v' & post & -> & _ & H)|[_ H]].
    + rewrite H in Hxv. injection Hxv as <-. rewrite Forall_forall in Hvs.
      apply (Hvs (x, v')). apply in_or_app. right. now left.
    + rewrite H in Hxv. eauto.
  - rewrite H3. assumption.
Qed.

(** The value that an assignment of the class gives. *)
Inductive Gives1 (sc : scope) (x : text) : command -> bool -> bool -> command -> Prop :=
| G1_kept : forall v imm v0, sc_var sc x = Some v0 -> Gives1 sc x v imm false v0
| G1_lazy : forall v ovr, (ovr = false -> sc_var sc x = None) -> Gives1 sc x v false ovr v
| G1_text : forall s m ovr, (ovr = false -> sc_var sc x = None) -> Gives1 sc x (Lit s m) true ovr (Lit s m).

Lemma assigned_last : forall sc tokens bs need, Assigned sc tokens bs need -> Forall Ex tokens ->
  forall x, (NoAssign x tokens /\ ~ In x (map fst bs)) \/
    exists v imm ovr pre v0 post, LastAssign x tokens v imm ovr /\ bs = pre ++ (x, v0) :: post /\
      ~ In x (map fst post) /\ Gives1 sc x v imm ovr v0.
Proof.
  intros sc tokens bs need H. induction H as [|tok toks bs need Hn H IH|y v imm v0 toks bs need Hv H IH
    |y v ovr toks bs need Hv H IH|y s m ovr toks bs need Hv H IH|y v ovr t toks bs need Hv Hl H IH]; intros Hf x.
  - left. split; [intros v i o []|intros []].
  - inversion Hf as [|? ? Hx0 Hf0]; subst. destruct (IH Hf0 x) as [[H1 H2]|(v & imm & ovr & pre & v0 & post & (p1 & p2 & -> & Hp) & H2)].
    + left. split; [|assumption]. intros v i o [->|Hi]; [apply Hn; repeat eexists|now apply (H1 v i o)].
    + right. exists v, imm, ovr, pre, v0, post. split; [|exact H2]. now exists (tok :: p1), p2.
  - inversion Hf as [|? ? Hx0 Hf0]; subst. destruct (IH Hf0 x) as [[H1 H2]|(v1 & imm1 & ovr & pre & v2 & post & (p1 & p2 & -> & Hp) & -> & H2 & H3)].
    + destruct (list_eq_dec N.eq_dec y x) as [->|Hne].
      * right. exists v, imm, false, [], v0, bs. split; [exists [], toks; now split|]. split; [reflexivity|].
        split; [assumption|now constructor].
      * left. split; [intros v1 i o [[= <- _ _ _]|Hi]; [congruence|now apply (H1 v1 i o)]|].
        cbn. intros [<-|Hi]; [congruence|contradiction].
    + right. exists v1, imm1, ovr, ((y, v0) :: pre), v2, post. split; [now exists (Assign y v imm false :: p1), p2|].
      split; [reflexivity|]. now split.
  - inversion Hf as [|? ? Hx0 Hf0]; subst. destruct (IH Hf0 x) as [[H1 H2]|(v1 & imm1 & ovr1 & pre & v2 & post & (p1 & p2 & -> & Hp) & -> & H2 & H3)].
    + destruct (list_eq_dec N.eq_dec y x) as [->|Hne].
      * right. exists v, false, ovr, [], v, bs. split; [exists [], toks; now split|]. split; [reflexivity|].
        split; [assumption|now constructor].
      * left. split; [intros v1 i o [[= <- _ _ _]|Hi]; [congruence|now apply (H1 v1 i o)]|].
        cbn. intros [<-|Hi]; [congruence|contradiction].
    + right. exists v1, imm1, ovr1, ((y, v) :: pre), v2, post. split; [now exists (Assign y v false ovr :: p1), p2|].
      split; [reflexivity|]. now split.
  - inversion Hf as [|? ? Hx0 Hf0]; subst. destruct (IH Hf0 x) as [[H1 H2]|(v1 & imm1 & ovr1 & pre & v2 & post & (p1 & p2 & -> & Hp) & -> & H2 & H3)].
    + destruct (list_eq_dec N.eq_dec y x) as [->|Hne].
      * right. exists (Lit s m), true, ovr, [], (Lit s m), bs. split; [exists [], toks; now split|]. split; [reflexivity|].
        split; [assumption|now constructor].
      * left. split; [intros v1 i o [[= <- _ _ _]|Hi]; [congruence|now apply (H1 v1 i o)]|].
        cbn. intros [<-|Hi]; [congruence|contradiction].
    + right. exists v1, imm1, ovr1, ((y, Lit s m) :: pre), v2, post.
      split; [now exists (Assign y (Lit s m) true ovr :: p1), p2|]. split; [reflexivity|]. now split.
  - exfalso. inversion Hf as [|? ? Hx _]; subst. inversion Hx; subst. eapply Hl; reflexivity.
Qed.

Lemma bound_value : forall sc tokens x o, Forall Ex tokens -> Bound E sc tokens x o ->
  (NoAssign x tokens /\ o = sc_var sc x) \/
  exists v imm ovr v0, LastAssign x tokens v imm ovr /\ Gives1 sc x v imm ovr v0 /\ o = Some v0.
Proof.
  intros sc tokens x o Hf H. destruct H as [sc ts x H|sc ts x v imm v0 H Hv|sc ts x v ovr H Hv|sc ts x s m ovr H Hv|sc ts x v ovr t H Hv Hl Ht].
  - left. now split.
  - right. exists v, imm, false, v0. split; [assumption|]. split; [now constructor|reflexivity].
  - right. exists v, false, ovr, v. split; [assumption|]. split; [now constructor|reflexivity].
  - right. exists (Lit s m), true, ovr, (Lit s m). split; [assumption|]. split; [now constructor|reflexivity].
  - exfalso. destruct H as (p & q & -> & _). apply Forall_app in Hf. destruct Hf as [_ Hf]. inversion Hf as [|? ? Hx _]; subst.
    inversion Hx; subst. eapply Hl; reflexivity.
Qed.

Lemma Gives1_fun : forall sc x v imm ovr a b, Gives1 sc x v imm ovr a -> Gives1 sc x v imm ovr b -> a = b.
Proof.
  intros sc x v imm ovr a b H H'. destruct H; inversion H'; subst; try congruence;
    match goal with H : ?b = ?b -> _ |- _ => specialize (H eq_refl) end; congruence.
Qed.

Lemma bound_agrees : forall c sc tokens bs need c' sc', Agrees c sc -> Forall Ex tokens ->
  Assigned (scope_of c) tokens bs need -> Extends c bs c' -> SameBut sc sc' ->
  (forall x, Bound E sc tokens x (sc_var sc' x)) -> Agrees c' sc'.
Proof.
  intros c sc tokens bs need c' sc' (Hm & Hi & Hu & Hv) Hf Hb [[(K1 & K2 & K3) Kx] _] (H1 & H2 & H3) Hx.
  cbn [scope_of sc_method sc_squash sc_unknown sc_var] in *.
  split; [congruence|]. split; [congruence|]. split; [congruence|]. intros x.
  pose proof (assigned_last _ _ _ _ Hb Hf x) as Ha. pose proof (bound_value _ _ _ _ Hf (Hx x)) as Hbv.
  destruct Ha as [[Hn Hbs]|(v & imm & ovr & pre & v0 & post & Hl & Hbs & Hp & Hg)].
  - destruct Hbv as [[_ ->]|(v & imm & ovr & v0 & Hl & _)].
    + destruct (Kx x) as [(pre & v & post & -> & _)|[_ ->]]; [|apply Hv].
      exfalso. apply Hbs. rewrite map_app. apply in_or_app. right. now left.
    + exfalso. eapply LastAssign_NoAssign; eassumption.
  - destruct Hbv as [[Hn _]|(v' & imm' & ovr' & v0' & Hl' & Hg' & ->)].
    + exfalso. eapply LastAssign_NoAssign; eassumption.
    + destruct (LastAssign_unique _ _ _ _ _ _ _ _ Hl Hl') as (-> & -> & ->).
      assert (Hsame : Gives1 sc x v' imm' ovr' v0).
      { destruct Hg as [w i w0 Hw|w o Hw|s m o Hw]; cbn in Hw;
          [apply G1_kept|apply G1_lazy|apply G1_text]; rewrite <- Hv; exact Hw. }
      rewrite (Gives1_fun _ _ _ _ _ _ _ Hg' Hsame).
      destruct (Kx x) as [(pre' & w & post' & Hb' & Hp' & ->)|[Hn _]].
      * f_equal. eapply ReachFacts.last_unique; eassumption.
      * exfalso. apply Hn. rewrite Hbs, map_app. apply in_or_app. right. now left.
Qed.

Lemma ExScope_bound : forall sc tokens sc', ExScope sc -> Forall Ex tokens -> SameBut sc sc' ->
  (forall x, Bound E sc tokens x (sc_var sc' x)) -> ExScope sc'.
Proof.
  intros sc tokens sc' (Hm & Hv & Hu) Hf (H1 & H2 & H3) Hx. split; [congruence|]. split; [|now rewrite H3].
  intros x v Hxv. specialize (Hx x). rewrite Hxv in Hx.
  destruct (bound_value _ _ _ _ Hf Hx) as [[_ He]|(w & imm & ovr & v0 & (p & q & -> & _) & Hg & [= ->])]; [symmetry in He; now apply Hv in He|].
  apply Forall_app in Hf. destruct Hf as [_ Hf]. inversion Hf as [|? ? Hx' _]; subst.
  destruct Hg as [w i w0 Hw|w o Hw|s m o Hw]; [eapply Hv; exact Hw| |]; inversion Hx'; subst; [assumption|now constructor].
Qed.

Lemma ex_assigned : forall sc tokens, Forall Ex tokens -> exists bs, Assigned sc tokens bs [].
Proof.
  intros sc tokens H. induction H as [|tok tokens Hx H [bs IH]]; [exists []; constructor|].
  destruct tok as [s m|toks sep m|opts lo hi sep m|w m vars|y v imm ovr|y d|w i m];
    try solve [exists bs; constructor; [intros (? & ? & ? & ? & [=])|assumption]].
  destruct ovr, (sc_var sc y) as [v0|] eqn:Hy; inversion Hx; subst;
    first [eexists; apply As_kept; eassumption | eexists; apply As_lazy; [intros; congruence|eassumption]
          | eexists; apply As_literal; [intros; congruence|eassumption]].
Qed.

(** * Selections *)
Lemma in_product : forall {A} (l : list A) sel, (forall x, In x sel -> In x l) -> In sel (product (repeat l (length sel))).
Proof.
  intros A l sel. induction sel as [|x sel IH]; intros H; [now left|]. cbn [length repeat product].
  apply in_flat_map. exists x. split; [apply H; now left|]. apply in_map. apply IH. intros y Hy. apply H. now right.
Qed.

Lemma in_selections : forall opts ks sels sel, Selections opts ks sels -> In (length sel) ks ->
  NoDup sel -> (forall x, In x sel -> In x opts) -> In sel sels.
Proof.
  intros opts ks sels sel (per & Hf & ->) Hk Hn Hi. induction Hf as [|k ss ks per Hs Hf IH]; [contradiction|].
  cbn [concat]. apply in_or_app. destruct Hk as [->|Hk]; [left|right; auto].
  eapply Sift_In; [exact Hs|assumption|]. now apply in_product.
Qed.

Lemma selections_from : forall opts ks sels sel x, Selections opts ks sels -> In sel sels -> In x sel -> In x opts.
Proof.
  intros opts ks sels sel x (per & Hf & ->) Hs Hx. induction Hf as [|k ss ks per H Hf IH]; [contradiction|].
  cbn [concat] in Hs. apply in_app_or in Hs. destruct Hs as [Hs|Hs]; [|auto].
  assert (Hp : In sel (product (repeat opts k))).
  { clear -H Hs. induction H as [|y l out Hy H IH|y l out Hy H IH]; [contradiction| |right; auto].
    destruct Hs as [->|Hs]; [now left|right; auto]. }
  clear -Hp Hx. revert sel Hp Hx. induction k as [|k IH]; intros sel Hp Hx; cbn in Hp.
  - destruct Hp as [<-|[]]. contradiction.
  - apply in_flat_map in Hp. destruct Hp as (y & Hy & Hp). apply in_map_iff in Hp. destruct Hp as (s & <- & Hs).
    destruct Hx as [<-|Hx]; [assumption|eauto].
Qed.

Lemma in_sizes : forall n lo hi k, (clamp n (Z.min lo hi) <= Z.of_nat k <= clamp n (Z.max lo hi))%Z ->
  (0 <= Z.max lo hi)%Z -> In k (sizes n lo hi).
Proof.
  intros n lo hi k H H0. unfold sizes. apply in_seq. unfold clamp in *. lia.
Qed.

Lemma listed_drawable : forall l vals, Listed l vals -> forall t q, In (t, q) l -> (1 <= q)%Qc -> In t vals.
Proof.
  intros l vals H. induction H as [|t0 w n rest out Hw H IH]; intros t q Hin Hq; [contradiction|].
  apply in_or_app. destruct Hin as [[= -> ->]|Hin]; [left|right; eauto].
  destruct n as [|n]; [|now left]. exfalso. destruct Hw as [_ Hw].
  apply (Qclt_not_le _ _ Hw). exact Hq.
Qed.

End Exhaust.
