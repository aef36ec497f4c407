(** The exceptions of whole runs. *)
From Coq Require Import String NArith ZArith QArith Qcanon Bool Arith List Permutation Lia.
From Verif.Model Require Import Str Utils Command Rng Values Context Sampler Generators.
From Verif.Spec Require Import Text Comb Items Lang Causes.
From Verif.Proofs Require Import StrFacts CommandFacts Soundness CausesFacts.
Import ListNotations.
Local Open Scope nat_scope.

Section Run.
Variable G : rng_impl.
Variable E : env.
Variable raises : exn -> Prop.
Variable fallback : Prop.
Variable layer : text -> nat.
Variable needs : text -> list text.
Variable modes : text -> method -> Prop.
Variables texts wilds : nat -> list text -> (method -> Prop) -> text -> Prop.
Hypothesis HT : TextsCautious E raises fallback layer needs modes texts wilds.
Hypothesis HW : WildsCautious E raises fallback layer needs modes texts wilds.

Lemma run_causes : forall n K M c p limit f,
  Ready E raises fallback layer needs modes texts wilds n K M c ->
  Careful E raises fallback layer needs modes texts wilds n K M p ->
  match sample_prompts E f c p limit with
  | MErr e => raises e
  | MOk g => forall f' k r e, snd (fst (collect G E f' k g r)) = EndRaise e -> raises e \/ e = ERuntime
  | MFuel => True
  end.
Proof.
  intros n K M c p limit f Hc Hp.
  pose proof (prompts_made G E raises fallback layer needs modes texts wilds HT f n K M c p limit Hc Hp) as HM.
  destruct (sample_prompts E f c p limit) as [g|e|]; cbn in HM; auto.
  intros f' k r e H. eapply (collect_safe G E raises fallback layer needs modes texts wilds HT HW); eassumption.
Qed.

Lemma drain_causes : forall f k g r e r',
  ok G E raises fallback layer needs modes texts wilds g -> drain G E f k g r = Exn e r' -> raises e \/ e = ERuntime.
Proof.
  intros f k. induction k as [|k IH]; intros g r e r' Hg H; cbn [drain] in H; [discriminate H|].
  pose proof (proj1 (next_safe G E raises fallback layer needs modes texts wilds HT HW f) g r Hg) as HN.
  destruct (next G E f g r) as [[t g'] r1|r1|e1 r1|]; cbn in HN, H; try discriminate H.
  - destruct (drain G E f k g' r1) as [ts r2|e2 r2|] eqn:Ed; try discriminate H. injection H as -> _. eapply IH; eassumption.
  - injection H as -> _. exact HN.
Qed.
Lemma seeded_causes : forall f l g r e r',
  ok G E raises fallback layer needs modes texts wilds g -> seeded_loop G E f l g r = Exn e r' ->
  raises e \/ e = ERuntime \/ e = EStopIteration.
Proof.
  intros f l. induction l as [|z l IH]; intros g r e r' Hg H; cbn [seeded_loop] in H; [discriminate H|].
  pose proof (proj1 (next_safe G E raises fallback layer needs modes texts wilds HT HW f) g (prim_seed G z) Hg) as HN.
  destruct (next G E f g (prim_seed G z)) as [[t g'] r1|r1|e1 r1|]; cbn in HN, H; try discriminate H.
  - destruct (seeded_loop G E f l g' r1) as [ts r2|e2 r2|] eqn:Ed; try discriminate H. injection H as -> _. eapply IH; eassumption.
  - injection H as <- _. auto.
  - injection H as -> _. destruct HN; auto.
Qed.
Lemma combinatorial_causes : forall n K M c template max f steps r e r',
  Ready E raises fallback layer needs modes texts wilds n K M c -> texts n K M template ->
  combinatorial_generate G E f steps c template max r = Exn e r' -> raises e \/ e = ERuntime.
Proof.
  intros n K M c template max f steps r e r' Hc Ht H. unfold combinatorial_generate, drain_mk in H.
  pose proof (prompts_made G E raises fallback layer needs modes texts wilds HT f n K M c (WStr template) max Hc Ht) as HM.
  destruct (sample_prompts E f c (WStr template) max) as [g|e1|]; cbn in HM; try discriminate H.
  - eapply drain_causes; eassumption.
  - injection H as -> _. now left.
Qed.
(** The seeds: too many or too few. *)
Lemma seeds_err : forall seeds num e, effective_seeds seeds num = Some (Err e) ->
  e = EValue /\ exists l, seeds = SList l /\ length l <> num.
Proof.
  intros [|z|[|z [|z' l]]] num e H; cbn [effective_seeds] in H; try discriminate H.
  - destruct (Z.eqb z 0); [discriminate H|]. rewrite repeat_length, Nat.eqb_refl in H. cbn in H. discriminate H.
  - rewrite repeat_length, Nat.eqb_refl in H. cbn in H. discriminate H.
  - destruct (Nat.eqb_spec (length (z :: z' :: l)) num) as [Hl|Hl]; [discriminate H|]. injection H as <-. split; [reflexivity|].
    eexists. split; [reflexivity|exact Hl].
Qed.
Lemma random_causes : forall n K M c template num seeds f r e r',
  Ready E raises fallback layer needs modes texts wilds n K M c -> texts n K M template ->
  random_generate G E f c template num seeds r = Exn e r' ->
  raises e \/ e = ERuntime \/ (e = EStopIteration /\ seeds <> SNone) \/
  (e = EValue /\ exists l, seeds = SList l /\ length l <> num).
Proof.
  intros n K M c template num seeds f r e r' Hc Ht H. unfold random_generate in H.
  pose proof (prompts_made G E raises fallback layer needs modes texts wilds HT f n K M c (WStr template) (Some num) Hc Ht) as HM.
  destruct (effective_seeds seeds num) as [[l|e0]|] eqn:Es.
  - destruct (sample_prompts E f c (WStr template) (Some num)) as [g|e1|]; cbn in HM; try discriminate H.
    + destruct (seeded_causes _ _ _ _ _ _ HM H) as [K1|[K1|K1]]; auto. right. right. left. split; [exact K1|]. intros ->. discriminate Es.
    + injection H as -> _. now left.
  - injection H as -> _. apply seeds_err in Es. auto.
  - unfold drain_mk in H. destruct (sample_prompts E f c (WStr template) (Some num)) as [g|e1|]; cbn in HM; try discriminate H.
    + destruct (drain_causes _ _ _ _ _ _ HM H); auto.
    + injection H as -> _. now left.
Qed.
End Run.

(** Every template is cautious if all these exceptions are allowed. *)
Section All.
Variable E : env.
Variable raises : exn -> Prop.
Variable fallback : Prop.
Hypothesis Hkey : fallback \/ raises EKey.
Hypothesis Hrec : raises ERecursion.
Hypothesis Hni : raises ENotImplemented.
Hypothesis Hval : raises EValue.
Hypothesis Hparse : forall t e, env_parse E t = Err e -> raises e.
Notation any := (fun (_ : nat) (_ : list text) (_ : method -> Prop) (_ : text) => True).
Notation every := (fun _ : method => True).
Notation Cau := (Cautious E raises fallback (fun _ => 0) (fun _ => []) (fun _ => every) any any).

Lemma all_cautious' : forall cmd, (forall n K M, Cau n K M cmd) /\ (forall x v i o, cmd = Assign x v i o -> forall n K M, Cau n K M v) /\
  (forall c m vars, cmd = Wild (WCmd c) m vars -> forall n K M, Cau n K M c).
Proof.
  assert (HM : forall M m, Turns M m every) by (intros M m k _; exact I).
  assert (HD : forall v, Defined raises fallback v) by (intros v; right; exact Hkey).
  induction cmd as [t m|ts sep m IH|os lo hi sep m IH|w m vars IHw IHv|x v i o IH|x d IH|w i m IHw IHi] using command_ind';
    (split; [intros n K M|split; try (intros; discriminate)]).
  - apply Cautious_text.
  - eapply Cautious_sequence; [apply HM|]. apply Forall_forall. intros c Hc. rewrite Forall_forall in IH. destruct (IH c Hc) as (I1 & I2 & _).
    destruct c as [| | | |x v i o| |]; try (apply Part_other; [intros (? & ? & ? & ? & Hx); discriminate Hx|apply I1]).
    destruct i; [apply Part_now|apply Part_lazy; [|apply HD|]]; try (eapply I2; reflexivity); intros y [].
  - eapply Cautious_variants; [apply HM| |auto|auto|auto| |auto].
    + apply Forall_forall. intros o Ho. rewrite Forall_forall in IH. now apply IH.
    + intros c mw vars q ->. inversion IH as [|? ? (_ & _ & I3) _]; subst. eapply I3. reflexivity.
  - eapply Cautious_wildcard; [apply HM|auto|intros c Hc; now apply IHw| |intros x v Hx; split; [apply HD|intros y []]|auto].
    intros x v Hx. rewrite Forall_forall in IHv. apply (IHv (x, v) Hx).
  - intros c m' vars' [= -> _ _]. now apply IHw.
  - now apply Cautious_assign.
  - intros x' v' i' o' [= _ <- _ _]. apply IH.
  - apply Cautious_access; [destruct Hkey; auto|now right|auto|intros c Hc; now apply IH|auto].
  - eapply Cautious_wrap; [apply HM|auto|apply IHw|apply IHi].
Qed.
Lemma all_cautious : forall cmd n K M, Cau n K M cmd.
Proof. intros cmd. apply all_cautious'. Qed.
Lemma all_texts : TextsCautious E raises fallback (fun _ => 0) (fun _ => []) (fun _ => every) any any.
Proof. intros n K M t _. split; [intros c _; apply all_cautious|]. intros e He. eapply Hparse, He. Qed.
Lemma all_wilds : WildsCautious E raises fallback (fun _ => 0) (fun _ => []) (fun _ => every) any any.
Proof. intros n K M name _. split; [auto|]. split; [|auto]. intros w m vars q sc name' _. split; [|auto]. destruct w; cbn; [exact I|apply all_cautious]. Qed.
Lemma all_ready : forall c, (fallback -> c_unknown c <> None) ->
  Ready E raises fallback (fun _ => 0) (fun _ => []) (fun _ => every) any any 0 [] every c.
Proof.
  intros c Hf. split; [exact I|]. split; [now left|]. split; [exact Hf|]. split; [intros; apply all_cautious|].
  split; [intros x []|]. intros x v _. split; [apply all_cautious|]. split; [right; exact Hkey|]. intros y [].
Qed.
Lemma all_careful : forall p, Careful E raises fallback (fun _ => 0) (fun _ => []) (fun _ => every) any any 0 [] every p.
Proof. intros [t|cmd]; [exact I|apply all_cautious]. Qed.
End All.

(** The exceptions of sampling: these four, those of the parser, and RuntimeError. *)
Lemma kinds_of_exceptions : forall G E c p limit f,
  let sampling e := e = EKey \/ e = ERecursion \/ e = ENotImplemented \/ e = EValue \/ exists t, env_parse E t = Err e in
  match sample_prompts E f c p limit with
  | MErr e => sampling e
  | MOk g => forall f' k r e, snd (fst (collect G E f' k g r)) = EndRaise e -> sampling e \/ e = ERuntime
  | MFuel => True
  end.
Proof.
  intros G E c p limit f sampling.
  refine (run_causes G E sampling False (fun _ => 0) (fun _ => []) (fun _ _ => True) (fun _ _ _ _ => True) (fun _ _ _ _ => True) _ _ 0 [] (fun _ => True) c p limit f _ _).
  - apply all_texts; unfold sampling; eauto 7.
  - apply all_wilds; unfold sampling; eauto 7.
  - apply all_ready; unfold sampling; eauto 7.
  - apply all_careful; unfold sampling; eauto 7.
Qed.
Lemma known_unknown : forall G E c p limit f, c_unknown c <> None -> (forall t, env_parse E t <> Err EKey) ->
  match sample_prompts E f c p limit with
  | MErr e => e <> EKey
  | MOk g => forall f' k r e, snd (fst (collect G E f' k g r)) = EndRaise e -> e <> EKey
  | MFuel => True
  end.
Proof.
  intros G E c p limit f Hu Hp.
  assert (HR : match sample_prompts E f c p limit with
    | MErr e => e <> EKey
    | MOk g => forall f' k r e, snd (fst (collect G E f' k g r)) = EndRaise e -> e <> EKey \/ e = ERuntime
    | MFuel => True
    end).
  { assert (Hpe : forall t e, env_parse E t = Err e -> e <> EKey) by (intros t e He ->; exact (Hp t He)).
    refine (run_causes G E (fun e => e <> EKey) True (fun _ => 0) (fun _ => []) (fun _ _ => True) (fun _ _ _ _ => True) (fun _ _ _ _ => True) _ _ 0 [] (fun _ => True) c p limit f _ _).
    - apply all_texts; try discriminate; auto.
    - apply all_wilds; try discriminate; auto.
    - apply all_ready; try discriminate; auto.
    - apply all_careful; try discriminate; auto. }
  destruct (sample_prompts E f c p limit) as [g|e|]; auto. intros f' k r e He. destruct (HR f' k r e He) as [H|H]; [exact H|subst; discriminate].
Qed.
