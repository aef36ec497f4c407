(** Rewriting a template without changing the chances of its prompts. *)
From Coq Require Import String NArith ZArith QArith Qcanon Qabs Bool Arith List Permutation Lia.
From Verif.Model Require Import Str Float Utils Command Rng Values Context Sampler.
From Verif.Spec Require Import Text Comb Items StreamRng Lang Seeds Sure Share Chance Even.
From Verif.Proofs Require Import StrFacts UtilsFacts CommandFacts FloatFacts EnumFacts ShareFacts ChanceFacts ChanceRun.
Import ListNotations.
Local Open Scope nat_scope.

Local Notation O := (Outcomes ieee_round).
Local Notation OA := (OutcomesAll ieee_round).
Local Notation OO := (OutcomesOf ieee_round).
Local Notation glue sep l := (map (fun o : list text * Qc => (joined (fst o) sep, snd o)) l).

(** * Averages *)
Lemma mean_nil : forall {A} (g : A -> Qc), mean [] g = 0%Qc.
Proof. reflexivity. Qed.
Lemma mean_plus : forall {A} (l : list (A * Qc)) g h, mean l (fun a => g a + h a)%Qc = (mean l g + mean l h)%Qc.
Proof.
  intros A l g h. induction l as [|[a q] l IH]; [reflexivity|]. rewrite !mean_cons, IH. ring.
Qed.
Lemma mean_zero : forall {A} (l : list (A * Qc)), mean l (fun _ => 0%Qc) = 0%Qc.
Proof. intros A l. induction l as [|[a q] l IH]; [reflexivity|]. rewrite mean_cons, IH. ring. Qed.
Lemma mean_glue : forall sep l g, mean (glue sep l) g = mean l (fun ts => g (joined ts sep)).
Proof. intros sep l g. unfold mean. now rewrite map_map. Qed.
Lemma mean_one : forall {A} (a : A) g, mean [(a, 1%Qc)] g = g a.
Proof. intros A a g. rewrite mean_cons, mean_nil. ring. Qed.
(** Equal averages are equal chances. *)
Definition Level {A} (l l' : list (A * Qc)) : Prop := forall g, mean l g = mean l' g.
Lemma level_chance : forall {A} (dec : forall a b : A, {a = b} + {a <> b}) l l' (a : A), Level l l' -> chance dec a l = chance dec a l'.
Proof. intros A dec l l' a H. rewrite <- !mean_chance. apply H. Qed.
Lemma level_repeated : forall k (l l' : list (text * Qc)), Level l l' -> Level (repeated k l) (repeated k l').
Proof.
  intros k l l' H. induction k as [|k IH]; intros g; [reflexivity|]. cbn [repeated]. rewrite !mean_both, H.
  apply mean_ext. intros a. apply IH.
Qed.
Lemma level_tidied : forall b l l' lt lt', Level l l' -> Tidied b l lt -> Tidied b l' lt' -> Level lt lt'.
Proof.
  intros b l l' lt lt' H Ht Ht' g.
  rewrite (mean_renamed (Tidy b) (fun t => if b then squash_whitespace t else t) l lt g); [|apply Tidy_fun|exact Ht].
  rewrite (mean_renamed (Tidy b) (fun t => if b then squash_whitespace t else t) l' lt' g); [|apply Tidy_fun|exact Ht'].
  apply H.
Qed.

Lemma number_inj : forall {A B} (l : list A) (l' : list B), number l = number l' -> length l = length l'.
Proof.
  intros A B l l' H. unfold number in H. apply Q2Qc_eq_iff in H. unfold Qeq in H. cbn in H. lia.
Qed.

(** * Outcomes of the parts of a template *)
Lemma glued_eq : forall sep (l : list (list text * Qc)) l',
  Forall2 (fun o o' => Glued sep (fst o) (fst o') /\ snd o = snd o') l l' -> l' = glue sep l.
Proof.
  intros sep l l' H. induction H as [|[a q] [b q'] l l' [Hg Hq] H IH]; [reflexivity|].
  cbn [fst snd map] in *. apply Glued_joined in Hg. now subst.
Qed.
Lemma parts_iff : forall ts sep m l', O (Seq ts sep m) l' <-> Unmarked m /\ exists l, OA ts l /\ l' = glue sep l.
Proof.
  intros ts sep m l'. split.
  - intros H. inversion H as [|? ? ? l ? Hm Ha Hg| |]; subst. split; [exact Hm|]. exists l. split; [exact Ha|now apply glued_eq].
  - intros (Hm & l & Ha & ->). eapply Out_parts; [exact Hm|exact Ha|apply glued_map].
Qed.
Lemma text_iff : forall s m l, O (Lit s m) l <-> Unmarked m /\ l = [(s, 1%Qc)].
Proof.
  intros s m l. split; [intros H; inversion H; subst; now split|]. intros [Hm ->]. now constructor.
Qed.
Lemma all_nil : forall l, OA [] l -> l = [([], 1%Qc)].
Proof. intros l H. now inversion H. Qed.
Lemma all_cons : forall c cs l, OA (c :: cs) l -> exists lc ls, O c lc /\ OA cs ls /\ l = both lc ls.
Proof. intros c cs l H. inversion H; subst. eauto. Qed.
Lemma all_split : forall a b l, OA (a ++ b) l -> exists la lb, OA a la /\ OA b lb /\
  forall g, mean l g = mean la (fun x => mean lb (fun y => g (x ++ y))).
Proof.
  induction a as [|c a IH]; intros b l H.
  - exists [([], 1%Qc)], l. split; [constructor|]. split; [exact H|]. intros g. now rewrite mean_one.
  - cbn [app] in H. apply all_cons in H. destruct H as (lc & ls & Hc & Hs & ->).
    destruct (IH _ _ Hs) as (la & lb & Ha & Hb & E). exists (both lc la), lb. split; [now constructor|].
    split; [exact Hb|]. intros g. rewrite !mean_both. apply mean_ext. intros t. now rewrite E.
Qed.
Lemma all_join : forall a b la lb, OA a la -> OA b lb -> exists l, OA (a ++ b) l /\
  forall g, mean l g = mean la (fun x => mean lb (fun y => g (x ++ y))).
Proof.
  induction a as [|c a IH]; intros b la lb Ha Hb.
  - apply all_nil in Ha. subst la. exists lb. split; [exact Hb|]. intros g. now rewrite mean_one.
  - apply all_cons in Ha. destruct Ha as (lc & ls & Hc & Hs & ->).
    destruct (IH _ _ _ Hs Hb) as (l & Hl & E). exists (both lc l). split; [now constructor|].
    intros g. rewrite !mean_both. apply mean_ext. intros t. now rewrite E.
Qed.
Lemma all_one : forall c l, OA [c] l -> exists lc, O c lc /\ forall g, mean l g = mean lc (fun t => g [t]).
Proof.
  intros c l H. apply all_cons in H. destruct H as (lc & ls & Hc & Hs & ->). apply all_nil in Hs. subst ls.
  exists lc. split; [exact Hc|]. intros g. rewrite mean_both. apply mean_ext. intros t. now rewrite mean_one.
Qed.
Lemma one_all : forall c lc, O c lc -> exists l, OA [c] l /\ forall g, mean l g = mean lc (fun t => g [t]).
Proof.
  intros c lc H. exists (both lc [([], 1%Qc)]). split; [constructor; [exact H|constructor]|].
  intros g. rewrite mean_both. apply mean_ext. intros t. now rewrite mean_one.
Qed.

(** The outcomes of a template are determined. *)
Lemma outcomes_unique :
  (forall cmd l, O cmd l -> forall l', O cmd l' -> l' = l) /\
  (forall cs l, OA cs l -> forall l', OA cs l' -> l' = l) /\
  (forall cs qs l, OO cs qs l -> forall l', OO cs qs l' -> l' = l).
Proof.
  apply Outcomes_mutind.
  - intros s m Hm l' H. now apply text_iff in H.
  - intros ts sep m l l1 Hm _ IH Hg l' H. apply parts_iff in H. destruct H as (_ & l2 & Ha & ->).
    apply IH in Ha. subst l2. symmetry. now apply glued_eq.
  - intros v q lo hi sep m l Hm _ IH l' H. inversion H as [| | |? ? ? ? ? ? Hlen]; subst; [now apply IH|cbn in Hlen; lia].
  - intros os sep m cuts l Hm Hlen Hw Hst _ IH l' H.
    inversion H as [| | |? ? ? cuts' ? _ _ _ Hst' Ho]; subst; [cbn in Hlen; lia|].
    assert (cuts' = cuts) as -> by (eapply stretches_unique; [|exact Hst'|exact Hst]; now apply Forall_map).
    now apply IH.
  - intros l' H. now apply all_nil in H.
  - intros c cs l l1 _ IH _ IH1 l' H. apply all_cons in H. destruct H as (lc & ls & Hc & Hs & ->).
    apply IH in Hc. apply IH1 in Hs. now subst.
  - intros l' H. now inversion H.
  - intros c cs q qs l l1 _ IH _ IH1 l' H. inversion H as [|? ? ? ? lc ls Hc Hs]; subst.
    apply IH in Hc. apply IH1 in Hs. now subst.
Qed.

(** * Rewriting *)
Definition Follows (x y : command) : Prop := forall l, O x l -> exists l', O y l' /\ Level l l'.
(** The same for the parts of a sequence, of which only the whole text matters. *)
Definition PartsFollow (a b : list command) : Prop := forall l, OA a l -> exists l', OA b l' /\
  forall g : text -> Qc, mean l (fun x => g (concat x)) = mean l' (fun x => g (concat x)).

Lemma swap_parts : forall pre a b post m, PartsFollow a b -> Follows (Seq (pre ++ a ++ post) [] m) (Seq (pre ++ b ++ post) [] m).
Proof.
  intros pre a b post m H l Hl. apply parts_iff in Hl. destruct Hl as (Hm & l0 & Ha & ->).
  apply all_split in Ha. destruct Ha as (lp & lr & Hp & Hr & E1).
  apply all_split in Hr. destruct Hr as (la & lq & Ha & Hq & E2).
  destruct (H la Ha) as (lb & Hb & E).
  destruct (all_join _ _ _ _ Hb Hq) as (lr' & Hr' & E3).
  destruct (all_join _ _ _ _ Hp Hr') as (l1 & H1 & E4).
  exists (glue [] l1). split; [apply parts_iff; eauto|]. intros g. rewrite !mean_glue, E1, E4.
  apply mean_ext. intros x. rewrite E2, E3.
  pose (F := fun t => mean lq (fun z => g (concat x ++ t ++ concat z))).
  transitivity (mean la (fun y => F (concat y))); [|rewrite (E F)];
    apply mean_ext; intros y; apply mean_ext; intros z; now rewrite joined_nil_sep, !concat_app.
Qed.

Lemma part_follows : forall x y pre post sep m, Follows x y -> Follows (Seq (pre ++ x :: post) sep m) (Seq (pre ++ y :: post) sep m).
Proof.
  intros x y pre post sep m H l Hl. apply parts_iff in Hl. destruct Hl as (Hm & l0 & Ha & ->).
  apply all_split in Ha. destruct Ha as (lp & lr & Hp & Hr & E1).
  apply all_cons in Hr. destruct Hr as (lx & lq & Hx & Hq & ->).
  destruct (H lx Hx) as (ly & Hy & E).
  destruct (all_join pre (y :: post) lp (both ly lq) Hp (OutA_cons _ _ _ _ _ Hy Hq)) as (l1 & H1 & E4).
  exists (glue sep l1). split; [apply parts_iff; eauto|]. intros g. rewrite !mean_glue, E1, E4.
  apply mean_ext. intros a. rewrite !mean_both. apply E.
Qed.

Lemma options_follow : forall x y pre post qs l, Follows x y -> OO (pre ++ x :: post) qs l ->
  exists l', OO (pre ++ y :: post) qs l' /\ Level l l'.
Proof.
  intros x y. induction pre as [|c pre IH]; intros post qs l H Ho; cbn [app] in *; inversion Ho as [|? ? q qs' lc ls Hc Hs]; subst.
  - destruct (H lc Hc) as (ly & Hy & E). exists (scaled q ly ++ ls). split; [now constructor|].
    intros g. now rewrite !mean_app, !mean_scaled, E.
  - destruct (IH _ _ _ H Hs) as (l' & Hl' & E). exists (scaled q lc ++ l'). split; [now constructor|].
    intros g. now rewrite !mean_app, E.
Qed.
Lemma option_follows : forall x y q pre post sep m, Follows x y ->
  Follows (Var (pre ++ (x, q) :: post) 1 1 sep m) (Var (pre ++ (y, q) :: post) 1 1 sep m).
Proof.
  intros x y q pre post sep m H l Hl. inversion Hl as [| |v q0 ? ? ? ? ? Hm Hv Eo|? ? ? cuts ? Hm Hlen Hw Hst Ho]; subst.
  - destruct pre as [|o pre]; [|destruct pre; discriminate]. injection Eo as -> -> <-.
    destruct (H l Hv) as (l' & H' & E). exists l'. split; [now constructor|exact E].
  - rewrite map_app in Ho. cbn [map fst] in Ho. destruct (options_follow _ _ _ _ _ _ H Ho) as (l' & Ho' & E).
    exists l'. split; [|exact E]. apply Out_choice with (cuts := cuts); [exact Hm| | | |].
    + rewrite app_length in *. exact Hlen.
    + apply Forall_app in Hw. destruct Hw as [H1 H2]. apply Forall_app. split; [exact H1|].
      inversion H2; subst. constructor; assumption.
    + rewrite map_app in *. exact Hst.
    + rewrite map_app. exact Ho'.
Qed.

(** * A choice taken out of a sequence *)
Section Spread.
Variables pre post : list command.
Local Notation within c := (Seq (pre ++ c :: post) [] None).
Local Notation around lp lq l g :=
  (mean lp (fun a => mean l (fun t => mean lq (fun b => g (concat a ++ t ++ concat b))))).

Lemma within_mean : forall c lp lq l, OA pre lp -> OA post lq -> O c l ->
  exists l', O (within c) l' /\ forall g, mean l' g = around lp lq l g.
Proof.
  intros c lp lq l Hp Hq Hc.
  destruct (all_join pre (c :: post) lp (both l lq) Hp (OutA_cons _ _ _ _ _ Hc Hq)) as (l1 & H1 & E).
  exists (glue [] l1). split; [apply parts_iff; split; [now left|eauto]|].
  intros g. rewrite mean_glue, E. apply mean_ext. intros a. rewrite mean_both. apply mean_ext. intros t.
  apply mean_ext. intros b. now rewrite joined_nil_sep, concat_app.
Qed.
Lemma mean_within : forall c m l', O (Seq (pre ++ c :: post) [] m) l' ->
  exists lp lq l, OA pre lp /\ OA post lq /\ O c l /\ forall g, mean l' g = around lp lq l g.
Proof.
  intros c m l' H. apply parts_iff in H. destruct H as (_ & l1 & H1 & ->).
  apply all_split in H1. destruct H1 as (lp & lr & Hp & Hr & E). apply all_cons in Hr. destruct Hr as (l & lq & Hc & Hq & ->).
  exists lp, lq, l. repeat split; try assumption.
  intros g. rewrite mean_glue, E. apply mean_ext. intros a. rewrite mean_both. apply mean_ext. intros t.
  apply mean_ext. intros b. now rewrite joined_nil_sep, concat_app.
Qed.
Lemma around_nil : forall lp lq (g : text -> Qc), around lp lq ([] : list (text * Qc)) g = 0%Qc.
Proof. intros lp lq g. rewrite (mean_ext lp _ (fun _ => 0%Qc)); [apply mean_zero|reflexivity]. Qed.
Lemma around_app : forall lp lq q (l l' : list (text * Qc)) (g : text -> Qc),
  around lp lq (scaled q l ++ l') g = (q * around lp lq l g + around lp lq l' g)%Qc.
Proof.
  intros lp lq q l l' g. rewrite <- mean_times, <- mean_plus. apply mean_ext. intros a. now rewrite mean_app, mean_scaled.
Qed.
Lemma spread_options : forall cs qs l lp lq, OA pre lp -> OA post lq -> OO cs qs l ->
  exists l', OO (map (fun c => within c) cs) qs l' /\ forall g, mean l' g = around lp lq l g.
Proof.
  intros cs qs l lp lq Hp Hq H. induction H as [|c cs q qs l l2 Hc _ (l3 & H3 & E3)] using OutcomesOf_ind.
  - exists []. split; [constructor|]. intros g. now rewrite around_nil.
  - destruct (within_mean c lp lq l Hp Hq Hc) as (l1 & H1 & E1). exists (scaled q l1 ++ l3). split; [now constructor|].
    intros g. now rewrite mean_app, mean_scaled, around_app, E1, E3.
Qed.
Lemma gather_options : forall cs qs l' lp lq, OA pre lp -> OA post lq -> OO (map (fun c => within c) cs) qs l' ->
  exists l, OO cs qs l /\ forall g, mean l' g = around lp lq l g.
Proof.
  induction cs as [|c cs IH]; intros qs l' lp lq Hp Hq H; cbn [map] in H; inversion H as [|? ? q qs' lc ls Hc Hs]; subst.
  - exists []. split; [constructor|]. intros g. now rewrite around_nil.
  - destruct (IH _ _ _ _ Hp Hq Hs) as (l3 & H3 & E3).
    apply mean_within in Hc. destruct Hc as (lp' & lq' & l1 & Hp' & Hq' & H1 & E1).
    rewrite (proj1 (proj2 outcomes_unique) _ _ Hp _ Hp') in E1. rewrite (proj1 (proj2 outcomes_unique) _ _ Hq _ Hq') in E1.
    exists (scaled q l1 ++ l3). split; [now constructor|].
    intros g. now rewrite mean_app, mean_scaled, around_app, E1, E3.
Qed.

Local Notation spread opts := (map (fun o : command * Qc => (within (fst o), snd o)) opts).
Lemma spread_fst : forall opts, map fst (spread opts) = map (fun c => within c) (map fst opts).
Proof. intros opts. now rewrite !map_map. Qed.
Lemma spread_snd : forall opts, map snd (spread opts) = map snd opts.
Proof. intros opts. now rewrite map_map. Qed.
Lemma spread_weights : forall opts, Forall (fun o => 0 <= snd o)%Qc (spread opts) <-> Forall (fun o => 0 <= snd o)%Qc opts.
Proof. intros opts. rewrite Forall_map. reflexivity. Qed.

Lemma spread_follows : forall opts sep sep' m m', Follows (Seq (pre ++ Var opts 1 1 sep m' :: post) [] m) (Var (spread opts) 1 1 sep' m).
Proof.
  intros opts sep sep' m m' l Hl. assert (Hm : Unmarked m) by now inversion Hl.
  apply mean_within in Hl. destruct Hl as (lp & lq & l1 & Hp & Hq & Hv & E).
  inversion Hv as [| |v q ? ? ? ? ? Hm' Hv' Eo|? ? ? cuts ? Hm' Hlen Hw Hst Ho]; subst.
  - destruct (within_mean v lp lq l1 Hp Hq Hv') as (l' & H' & E'). exists l'. split; [now constructor|].
    intros g. now rewrite E, E'.
  - destruct (spread_options _ _ _ _ _ Hp Hq Ho) as (l' & H' & E'). exists l'. split.
    + apply Out_choice with (cuts := cuts); [exact Hm|now rewrite map_length|now apply spread_weights|now rewrite spread_snd|].
      now rewrite spread_fst.
    + intros g. now rewrite E, E'.
Qed.
Lemma gather_follows : forall opts sep sep' m m', Unmarked m' ->
  Follows (Var (spread opts) 1 1 sep' m) (Seq (pre ++ Var opts 1 1 sep m' :: post) [] m).
Proof.
  intros opts sep sep' m m' Hm' l Hl.
  assert (K : Unmarked m /\ exists lp lq l1, OA pre lp /\ OA post lq /\ O (Var opts 1 1 sep m') l1 /\
    forall g, mean l g = around lp lq l1 g).
  { inversion Hl as [| |v q ? ? ? ? ? Hm Hv' Eo|? ? ? cuts ? Hm Hlen Hw Hst Ho]; subst; (split; [exact Hm|]).
    - destruct opts as [|[c w] [|]]; try discriminate. cbn [map fst snd] in Eo. injection Eo as Ev Eq. subst v q. apply mean_within in Hv'.
      destruct Hv' as (lp & lq & l1 & Hp & Hq & Hc & E). exists lp, lq, l1. repeat split; try assumption. now constructor.
    - rewrite map_length in Hlen. rewrite spread_snd in Hst. apply (proj1 (spread_weights opts)) in Hw.
      assert (K : exists lp lq, OA pre lp /\ OA post lq).
      { destruct opts as [|[c w] opts]; [cbn in Hlen; lia|]. cbn [map fst] in Ho. inversion Ho as [|? ? ? ? lc ls Hc Hs]; subst.
        apply mean_within in Hc. destruct Hc as (lp & lq & l1 & Hp & Hq & _). eauto. }
      destruct K as (lp & lq & Hp & Hq). rewrite spread_fst in Ho.
      destruct (gather_options _ _ _ _ _ Hp Hq Ho) as (l1 & H1 & E). exists lp, lq, l1. repeat split; try assumption.
      apply Out_choice with (cuts := cuts); assumption. }
  destruct K as (Hm & lp & lq & l1 & Hp & Hq & Hv & E).
  destruct (all_join pre (Var opts 1 1 sep m' :: post) lp (both l1 lq) Hp (OutA_cons _ _ _ _ _ Hv Hq)) as (l2 & H2 & E2).
  exists (glue [] l2). split; [apply parts_iff; split; [exact Hm|eauto]|].
  intros g. rewrite E, mean_glue, E2. apply mean_ext. intros a. rewrite mean_both. apply mean_ext. intros t.
  apply mean_ext. intros b. now rewrite joined_nil_sep, concat_app.
Qed.
End Spread.

(** * The rules *)
Lemma group_parts : forall ins m, Unmarked m -> PartsFollow [Seq ins [] m] ins /\ PartsFollow ins [Seq ins [] m].
Proof.
  intros ins m Hm. split; intros l H.
  - apply all_one in H. destruct H as (lc & Hc & E). apply parts_iff in Hc. destruct Hc as (_ & l' & H' & ->).
    exists l'. split; [exact H'|]. intros g. rewrite E, mean_glue. apply mean_ext. intros x. cbn. now rewrite app_nil_r, joined_nil_sep.
  - destruct (one_all (Seq ins [] m) (glue [] l)) as (l' & H' & E); [apply parts_iff; eauto|].
    exists l'. split; [exact H'|]. intros g. rewrite E, mean_glue. apply mean_ext. intros x. cbn. now rewrite app_nil_r, joined_nil_sep.
Qed.
Lemma fixed_parts : forall ss ss', concat ss = concat ss' -> PartsFollow (map (fun s => Lit s None) ss) (map (fun s => Lit s None) ss').
Proof.
  assert (K : forall ss, exists l, OA (map (fun s => Lit s None) ss) l /\ forall g, mean l g = g ss).
  { induction ss as [|s ss (l & H & E)]; [exists [([], 1%Qc)]; split; [constructor|intros g; apply mean_one]|].
    exists (both [(s, 1%Qc)] l). split; [constructor; [constructor; now left|exact H]|]. intros g. now rewrite mean_both, mean_one, E. }
  intros ss ss' Hs l H. destruct (K ss) as (l1 & H1 & E1), (K ss') as (l2 & H2 & E2).
  rewrite (proj1 (proj2 outcomes_unique) _ _ H1 _ H). exists l2. split; [exact H2|]. intros g. now rewrite E1, E2, Hs.
Qed.

Theorem even_both : forall x y, Even x y -> Follows x y /\ Follows y x.
Proof.
  induction 1 as [pre opts post sep sep' m m' Hm Hm' Ho|pre ins post m m' Hm|pre a b post m|pre post m|x sep m Hm|x q lo hi sep m Hm
                 |opts sep sep' m|x|x y _ [H1 H2]|x y z _ [H1 H2] _ [H3 H4]|x y pre post sep m _ [H1 H2]|x y q pre post sep m _ [H1 H2]].
  - split; [apply spread_follows|now apply gather_follows].
  - destruct (group_parts ins m' Hm) as [H1 H2].
    split; [exact (swap_parts pre _ _ post m H1)|exact (swap_parts pre _ _ post m H2)].
  - assert (E : concat [a; b] = concat [a ++ b]) by (cbn; now rewrite !app_nil_r).
    split; [exact (swap_parts pre _ _ post m (fixed_parts [a; b] [a ++ b] E))|exact (swap_parts pre _ _ post m (fixed_parts [a ++ b] [a; b] (eq_sym E)))].
  - split; [exact (swap_parts pre _ _ post m (fixed_parts [[]] [] eq_refl))|exact (swap_parts pre _ _ post m (fixed_parts [] [[]] eq_refl))].
  - split; intros l H.
    + apply parts_iff in H. destruct H as (_ & l' & H' & ->). apply all_one in H'. destruct H' as (lc & Hc & E).
      exists lc. split; [exact Hc|]. intros g. rewrite mean_glue, E. apply mean_ext. intros t. now rewrite joined_single.
    + destruct (one_all x l H) as (l' & H' & E). exists (glue sep l'). split; [apply parts_iff; eauto|].
      intros g. rewrite mean_glue, E. apply mean_ext. intros t. now rewrite joined_single.
  - split; intros l H.
    + inversion H as [| | |? ? ? ? ? ? Hlen]; subst; [|cbn in Hlen; lia]. exists l. split; [assumption|now intros g].
    + exists l. split; [now constructor|now intros g].
  - assert (K : forall s s', Follows (Var opts 1 1 s m) (Var opts 1 1 s' m)); [|split; apply K].
    intros s s' l H. exists l. split; [|now intros g].
    inversion H; subst; [now constructor|eapply Out_choice; eassumption].
  - split; intros l H; exists l; (split; [exact H|now intros g]).
  - now split.
  - split; intros l H.
    + destruct (H1 l H) as (l1 & K1 & E1), (H3 l1 K1) as (l2 & K2 & E2). exists l2. split; [exact K2|]. intros g. now rewrite E1, E2.
    + destruct (H4 l H) as (l1 & K1 & E1), (H2 l1 K1) as (l2 & K2 & E2). exists l2. split; [exact K2|]. intros g. now rewrite E1, E2.
  - split; now apply part_follows.
  - split; now apply option_follows.
Qed.
