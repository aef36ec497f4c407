(** Templates in which nothing is left to choose take no random number. *)
From Coq Require Import NArith ZArith QArith Qcanon Bool Arith List Lia.
From Verif.Model Require Import Command Rng Values Context Generators.
From Verif.Spec Require Import Text Comb Items Lang Draws Rolls Sure Reseed Fixed.
From Verif.Proofs Require Import RollFacts RollBack RollRun.
Import ListNotations.
Local Open Scope nat_scope.

Section Facts.
Variable E : env.

Lemma fixed_plain : forall ts ps, Plain ts ps -> Forall (Fixed E) ts -> Forall (Fixed E) ps.
Proof. induction 1; intros K; [constructor| |]; inversion K; subst; auto. Qed.

Lemma fixed_enter : forall sc c, FixedScope E sc -> FixedScope E (enter sc c).
Proof. intros sc c [H1 H2]. split; [intros x v K|intros v K]; [apply (H1 x)|apply H2]; destruct c as [| | |? [] ?| | |]; cbn in K; auto. Qed.

Lemma fixed_extended : forall sc bs sc', FixedScope E sc -> Forall (fun b => Fixed E (snd b)) bs ->
  Extended sc bs sc' -> FixedScope E sc'.
Proof.
  intros sc bs sc' [H1 H2] Hb [(K1 & K2 & K3) Hx]. split.
  - intros x v Hv. destruct (Hx x) as [(pre & w & post & E1 & _ & E2)|[_ E2]].
    + assert (w = v) by congruence. subst. rewrite Forall_forall in Hb. apply (Hb (x, v)). apply in_or_app. right. now left.
    + apply (H1 x). congruence.
  - intros v Hv. apply H2. congruence.
Qed.

Lemma fixed_refers : forall sc x d c, FixedScope E sc -> (forall v, d = Some v -> Fixed E v) -> Refers sc x d c -> Fixed E c.
Proof. intros sc x d c [H1 H2] Hd H. inversion H; subst; eauto. Qed.

Definition fixed_prompt (w : wpath) : Prop := forall c, Reads E w c -> Fixed E c.

Lemma fixed_rolls_all (G1 G2 : rng_impl) :
  (forall sc busy c r t r', Rolls G1 E sc busy c r t r' -> FixedScope E sc -> Fixed E c ->
     r' = r /\ forall s, Rolls G2 E sc busy c s t s) /\
  (forall sc busy c r t r', RollsBody G1 E sc busy c r t r' -> FixedScope E sc -> Fixed E c ->
     r' = r /\ forall s, RollsBody G2 E sc busy c s t s) /\
  (forall sc busy cs r ts r', RollsAll G1 E sc busy cs r ts r' -> FixedScope E sc -> Forall (Fixed E) cs ->
     r' = r /\ forall s, RollsAll G2 E sc busy cs s ts s) /\
  (forall sc busy w r u r', RollsPath G1 E sc busy w r u r' -> FixedScope E sc -> fixed_prompt w ->
     r' = r /\ forall s, RollsPath G2 E sc busy w s u s) /\
  (forall sc busy items b r u r', RollsValue G1 E sc busy items b r u r' -> True) /\
  (forall sc busy ts r bs r', RollsBinds G1 E sc busy ts r bs r' -> FixedScope E sc -> Forall (Fixed E) ts ->
     r' = r /\ Forall (fun b => Fixed E (snd b)) bs /\ forall s, RollsBinds G2 E sc busy ts s bs s) /\
  (forall sc busy c r r', Halts G1 E sc busy c r r' -> True) /\
  (forall sc busy c r r', HaltsBody G1 E sc busy c r r' -> True) /\
  (forall sc busy w r r', HaltsPath G1 E sc busy w r r' -> True).
Proof.
  apply Rolls_mutind; try (intros; exact I).
  - intros sc busy c r t r' Hm _ IH Hs Hc. destruct (IH (fixed_enter _ _ Hs) Hc) as [-> K]. split; [reflexivity|].
    intros s. apply Ro_enter; auto.
  - intros. split; [reflexivity|]. intros. constructor.
  - intros sc busy ts sep m r bs r1 sc1 toks parts r2 t _ IHb He Hp _ IHa Hg Hs Hc. inversion Hc; subst.
    destruct IHb as (-> & Hbs & Kb); auto. destruct IHa as [-> Ka];
      [now apply (fixed_extended sc bs)|now apply (fixed_plain ts)|]. split; [reflexivity|].
    intros s. apply Ro_seq with (bs := bs) (r1 := s) (sc' := sc1) (toks := toks) (parts := parts); auto.
  - intros sc busy os lo hi sep m r k r1 sel r2 parts r3 t Hl _ _ _ _ _ _ Hc. inversion Hc; subst. cbn in Hl. lia.
  - intros sc busy v q lo hi sep m r t r' Hl _ IH Hs Hc. inversion Hc; subst. destruct IH as [-> K]; auto.
    split; [reflexivity|]. intros s. apply Ro_single; auto.
  - intros sc busy w mw vars q lo hi sep m r path r1 os t r2 n _ _ _ _ _ _ _ Hc. inversion Hc; subst.
    exfalso. match goal with H : forall w m' vars, _ <> _ |- _ => now apply (H w mw vars) end.
  - intros sc busy w m vars r path r1 sc1 u r2 Hp _ Hn _ _ _ _ Hc. exfalso. apply Hn. inversion Hc; subst.
    inversion Hp as [? ? ? c ? t ? ? Hr Hro Ht]; subst. inversion Hr; subst.
    match goal with H : forall c, env_parse E s = Ok c -> _ |- _ => destruct (H c) as (t0 & mt & -> & K); [assumption|] end.
    inversion Hro as [? ? ? ? ? ? ? Hbo]; subst. inversion Hbo; subst. now apply (K _ _ Ht).
  - intros sc busy name m vars r path r1 t _ IH Hn Hw Hs Hc. inversion Hc; subst. destruct IH as [-> K]; auto.
    + intros c Hr. inversion Hr; subst.
      match goal with H : forall c, env_parse E name = Ok c -> _ |- _ => destruct (H c) as (t0 & mt & -> & _); [assumption|constructor] end.
    + split; [reflexivity|]. intros s. apply Ro_missing with (path := path); auto.
  - intros sc busy c m vars r path r1 sc1 name r2 t _ _ _ _ _ _ _ _ Hc. inversion Hc.
  - intros sc busy x d c r t r' Hr Hb _ IH Hs Hc. inversion Hc; subst. destruct IH as [-> K]; auto.
    + now apply (fixed_refers sc x d).
    + split; [reflexivity|]. intros s. apply Ro_access with (c := c); auto.
  - intros sc busy w i m r tw r1 ti r2 before after _ IHw _ IHi Hcut Hs Hc. inversion Hc; subst.
    destruct IHw as [-> Kw]; auto. destruct IHi as [-> Ki]; auto. split; [reflexivity|].
    intros s. apply Ro_wrap with (tw := tw) (r1 := s); auto.
  - intros. split; [reflexivity|]. constructor.
  - intros sc busy c cs r t r1 ts r2 _ IH _ IHs Hs Hc. inversion Hc; subst.
    destruct IH as [-> K]; auto. destruct IHs as [-> Ks]; auto. split; [reflexivity|].
    intros s. apply RoA_cons with (r1 := s); auto.
  - intros sc busy w c r t r' u Hr _ IH Ht Hs Hc. destruct IH as [-> K]; auto. split; [reflexivity|].
    intros s. apply RoP with (c := c) (t := t); auto.
  - intros. split; [reflexivity|]. split; constructor.
  - intros sc busy tok toks r bs r' Ha _ IH Hs Hc. inversion Hc; subst. destruct IH as (-> & Hb & K); auto.
    split; [reflexivity|]. split; [exact Hb|]. intros s. apply RoB_plain; auto.
  - intros sc busy x v imm v0 toks r bs r' Hv _ IH Hs Hc. inversion Hc; subst. destruct IH as (-> & Hb & K); auto.
    split; [reflexivity|]. split; [constructor; [apply (proj1 Hs x _ Hv)|exact Hb]|]. intros s. apply RoB_kept; auto.
  - intros sc busy x v ovr toks r bs r' Hv _ IH Hs Hc. inversion Hc as [|? ? Hc1 Hc2]; subst. inversion Hc1; subst.
    destruct IH as (-> & Hb & K); auto.
    split; [reflexivity|]. split; [constructor; auto|]. intros s. apply RoB_lazy; auto.
  - intros sc busy x s0 m ovr toks r bs r' Hv _ IH Hs Hc. inversion Hc; subst. destruct IH as (-> & Hb & K); auto.
    split; [reflexivity|]. split; [constructor; [constructor|exact Hb]|]. intros s. apply RoB_literal; auto.
  - intros sc busy x v ovr t toks r r1 bs r' Hv Hl _ IHv _ IH Hs Hc. inversion Hc as [|? ? Hc1 Hc2]; subst. inversion Hc1; subst.
    destruct IHv as [-> Kv]; auto. destruct IH as (-> & Hb & K); auto.
    split; [reflexivity|]. split; [constructor; [constructor|exact Hb]|]. intros s. apply RoB_now with (r1 := s); auto.
Qed.

Lemma fixed_rolled : forall G1 G2 c p r u r', Rolled G1 E c p r u r' -> FixedScope E (scope_of c) -> fixed_prompt p ->
  r' = r /\ forall s, Rolled G2 E c p s u s.
Proof. intros G1 G2 c p r u r' H Hs Hp. exact (proj1 (proj2 (proj2 (proj2 (fixed_rolls_all G1 G2)))) _ _ _ _ _ _ H Hs Hp). Qed.

Lemma fixed_many : forall G c p r us r', RolledMany G E c p r us r' -> FixedScope E (scope_of c) -> fixed_prompt p ->
  r' = r /\ forall u v, In u us -> In v us -> u = v.
Proof.
  intros G c p r us r' H Hs Hp. induction H as [r|r u r1 us r2 H1 H2 IH]; [split; [reflexivity|intros u v []]|].
  destruct (fixed_rolled G G _ _ _ _ _ H1 Hs Hp) as [-> K]. destruct IH as [-> IH]. split; [reflexivity|].
  assert (Hu : forall v, In v us -> v = u).
  { intros v Hv. destruct us as [|w us]; [destruct Hv|]. inversion H2 as [|? ? ? ? ? Hw _]; subst.
    rewrite (IH v w Hv (or_introl eq_refl)). now destruct (rolled_det _ _ _ _ _ _ _ _ _ Hw H1). }
  intros v w [<-|Hv] [<-|Hw]; auto. symmetry. auto.
Qed.
Lemma fixed_seeds : forall G c p r l us r', RolledSeeds G E c p r l us r' -> FixedScope E (scope_of c) -> fixed_prompt p ->
  forall u v, In u us -> In v us -> u = v.
Proof.
  intros G c p r l us r' H Hs Hp. induction H as [r|r z u r1 zs us r2 H1 H2 IH]; [intros u v []|].
  destruct (fixed_rolled G G _ _ _ _ _ H1 Hs Hp) as [-> K].
  assert (Hu : forall v, In v us -> v = u).
  { intros v Hv. destruct us as [|w us]; [destruct Hv|]. inversion H2 as [|? y ? ? ? ? ? Hw _]; subst.
    rewrite (IH v w Hv (or_introl eq_refl)). now destruct (rolled_det _ _ _ _ _ _ _ _ _ Hw (K (prim_seed G y))). }
  intros v w [<-|Hv] [<-|Hw]; auto. symmetry. auto.
Qed.
Lemma fixed_first : forall G c p num seeds r us r' u, Answer G E c p num seeds r us r' -> In u us ->
  exists s s', Rolled G E c p s u s'.
Proof.
  intros G c p num seeds r us r' u H Hu. destruct H as [_ _ H|l _ H].
  - induction H; [destruct Hu|]. destruct Hu as [<-|Hu]; eauto.
  - induction H; [destruct Hu|]. destruct Hu as [<-|Hu]; eauto.
Qed.
Lemma repeat_many : forall G c p u, (forall s, Rolled G E c p s u s) -> forall n r, RolledMany G E c p r (repeat u n) r.
Proof. intros G c p u H n r. induction n as [|n IH]; cbn; econstructor; eauto. Qed.
Lemma repeat_seeds : forall G c p u, (forall s, Rolled G E c p s u s) -> forall l r, exists r', RolledSeeds G E c p r l (repeat u (length l)) r'.
Proof.
  intros G c p u H l. induction l as [|z l IH]; intros r; cbn; [exists r; constructor|].
  destruct (IH (prim_seed G z)) as [r' K]. exists r'. econstructor; eauto.
Qed.
Lemma usable_dealt : forall num seeds, Usable num seeds -> exists o, Dealt num seeds o.
Proof.
  intros num seeds H. destruct H as [|z| |z|l Hl]; [exists None; constructor| |exists None; constructor| |].
  - destruct (Z.eq_dec z 0) as [->|Hz]; [exists None; constructor|]. exists (Some (repeat z num)).
    constructor; [exact Hz|apply repeat_length|intros y K; now apply repeat_spec in K].
  - exists (Some (repeat z num)). constructor; [apply repeat_length|intros y K; now apply repeat_spec in K].
  - destruct l as [|z [|y l]]; [exists None; constructor| |].
    + exists (Some [z]). apply De_one; [exact Hl|intros w [<-|[]]; reflexivity].
    + exists (Some (z :: y :: l)). apply De_each; [cbn in Hl; lia|exact Hl].
Qed.
Lemma dealt_length : forall num seeds l, Dealt num seeds (Some l) -> length l = num.
Proof. intros num seeds l H. inversion H; auto. Qed.
Lemma fixed_answer : forall G c p u, (forall s, Rolled G E c p s u s) -> forall num seeds r, Usable num seeds ->
  exists r', Answer G E c p num seeds r (repeat u num) r' /\ (seeds = SNone -> r' = r).
Proof.
  intros G c p u H num seeds r Hu. destruct (usable_dealt _ _ Hu) as [[l|] D].
  - destruct (repeat_seeds G c p u H l r) as [r' K]. rewrite (dealt_length _ _ _ D) in K. exists r'.
    split; [now apply (An_seeded _ _ _ _ _ _ _ _ _ l)|]. intros ->. inversion D.
  - exists r. split; [|reflexivity]. apply An_plain; [exact D|apply repeat_length|now apply repeat_many].
Qed.
End Facts.
