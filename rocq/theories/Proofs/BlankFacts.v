(** White space between the parts of a sequence. *)
From Coq Require Import String NArith ZArith QArith Qcanon Bool Arith List Permutation Lia.
From Verif.Model Require Import Str Utils Command Rng Values Context Sampler.
From Verif.Spec Require Import Text Blank.
From Verif.Proofs Require Import StrFacts UtilsFacts CommandFacts RngFacts Soundness MentionFacts.
Import ListNotations.
Local Open Scope nat_scope.

(** Texts. *)
Lemma Respaced_refl : forall s, Respaced s s.
Proof. induction s; constructor; auto. Qed.
Lemma Respaced_app : forall s t s' t', Respaced s t -> Respaced s' t' -> Respaced (s ++ s') (t ++ t').
Proof.
  intros s t s' t' H H'. induction H; cbn [app]; [exact H'|constructor; assumption|].
  rewrite <- !app_assoc. now constructor.
Qed.
Lemma split_run : forall a b s t, Forall Space a -> Forall Space b -> a <> [] -> b <> [] ->
  (forall cur, split_ws_aux cur s = split_ws_aux cur t) ->
  forall cur, split_ws_aux cur (a ++ s) = split_ws_aux cur (b ++ t).
Proof.
  intros a b s t Ha Hb Na Nb H cur. destruct a as [|x a]; [congruence|]. destruct b as [|y b]; [congruence|].
  inversion Ha as [|? ? Hx Ha']; inversion Hb as [|? ? Hy Hb']; subst.
  cbn [app split_ws_aux]. rewrite (proj2 (isspace_Space x) Hx), (proj2 (isspace_Space y) Hy).
  destruct cur; rewrite !split_ws_aux_pad by assumption; now rewrite H.
Qed.
Lemma Respaced_split : forall s t, Respaced s t -> forall cur, split_ws_aux cur s = split_ws_aux cur t.
Proof.
  intros s t H. induction H; intros cur; [reflexivity| |now apply split_run].
  cbn [split_ws_aux]. destruct (isspace c); [destruct cur|]; now rewrite ?IHRespaced.
Qed.
Lemma split_trail : forall s a, Forall Space a -> forall cur, split_ws_aux cur (s ++ a) = split_ws_aux cur s.
Proof.
  induction s as [|c s IH]; intros a Ha cur; cbn [app].
  - destruct Ha as [|x a Hx Ha]; [reflexivity|]. cbn [split_ws_aux]. rewrite (proj2 (isspace_Space x) Hx).
    destruct cur; rewrite split_ws_aux_spaces by assumption; reflexivity.
  - cbn [split_ws_aux]. destruct (isspace c); [destruct cur|]; now rewrite ?IH.
Qed.
Lemma Alike_squash : forall l r s t, AlikeText l r s t -> squash_whitespace s = squash_whitespace t.
Proof.
  intros l r s t (a & s0 & a' & b & t0 & b' & -> & -> & H1 & H2 & H3 & H4 & _ & _ & HR).
  unfold squash_whitespace, split_ws. 
  rewrite (split_ws_aux_pad a), (split_ws_aux_pad b), (split_trail s0 a'), (split_trail t0 b') by assumption.
  now rewrite (Respaced_split _ _ HR).
Qed.
Lemma Alike_refl : forall l r s, AlikeText l r s s.
Proof.
  intros l r s. exists [], s, [], [], s, []. rewrite app_nil_r. repeat split; auto. apply Respaced_refl.
Qed.
Lemma Alike_more : forall l r s t, AlikeText false r s t -> AlikeText l r s t.
Proof.
  intros l r s t (a & s0 & a' & b & t0 & b' & -> & -> & H1 & H2 & H3 & H4 & H5 & H6 & HR).
  destruct (H5 eq_refl) as [-> ->]. exists [], s0, a', [], t0, b'. repeat split; auto; apply H6; assumption.
Qed.
Lemma Alike_right : forall l r s t, AlikeText l r s t -> AlikeText l true s t.
Proof.
  intros l r s t (a & s0 & a' & b & t0 & b' & -> & -> & H1 & H2 & H3 & H4 & H5 & H6 & HR).
  exists a, s0, a', b, t0, b'. repeat split; auto; try discriminate; apply H5; assumption.
Qed.
Lemma Alike_app : forall l s t s' t', AlikeText l false s t -> AlikeText false true s' t' ->
  AlikeText l true (s ++ s') (t ++ t').
Proof.
  intros l s t s' t' (a & s0 & a' & b & t0 & b' & -> & -> & H1 & H2 & _ & _ & H5 & H6 & HR)
    (c & u0 & c' & d & v0 & d' & -> & -> & _ & _ & H3 & H4 & H7 & _ & HR').
  destruct (H6 eq_refl) as [-> ->], (H7 eq_refl) as [-> ->]. rewrite !app_nil_r. cbn [app].
  exists a, (s0 ++ u0), c', b, (t0 ++ v0), d'. rewrite <- !app_assoc. repeat split; auto; try discriminate.
  1, 2: now apply H5. now apply Respaced_app.
Qed.

(** What is said about the texts of the parts: [None] when they are empty. *)
Definition Outs (k : option bool) (ss ts : list str) : Prop :=
  match k with
  | None => concat ss = [] /\ concat ts = []
  | Some l => AlikeText l true (concat ss) (concat ts)
  end.
Definition Step (k k' : option bool) (s t : str) : Prop :=
  (k = k' /\ s = [] /\ t = []) \/
  exists l r, k = Some l /\ k' = (if r : bool then None else Some false) /\ AlikeText l r s t.
Lemma Outs_nil : forall k, Outs k [] [].
Proof. intros [l|]; cbn; [apply Alike_refl|auto]. Qed.
Lemma Outs_cons : forall k k' s t ss ts, Step k k' s t -> Outs k' ss ts -> Outs k (s :: ss) (t :: ts).
Proof.
  intros k k' s t ss ts [(-> & -> & ->)|(l & r & -> & -> & HA)] H.
  - destruct k'; exact H.
  - destruct r; cbn in *.
    + destruct H as [-> ->]. now rewrite !app_nil_r.
    + now apply Alike_app.
Qed.
Lemma Outs_more : forall l ss ts, Outs (Some false) ss ts -> Outs (Some l) ss ts.
Proof. intros l ss ts. cbn. apply Alike_more. Qed.
Lemma Step_same : forall l t, Step (Some l) (Some false) t t.
Proof. intros l t. right. exists l, false. repeat split. apply Alike_refl. Qed.
Lemma joined_concat : forall ts, joined ts [] = concat ts.
Proof.
  assert (H : forall ts, join [] ts = concat ts).
  { induction ts as [|x ts IH]; [reflexivity|]. cbn. destruct ts; [now rewrite app_nil_r|]. now rewrite IH. }
  intros [|x [|y ts]]; cbn [joined]; [reflexivity|cbn; now rewrite app_nil_r|apply H].
Qed.

Section Blank.
Variable G : rng_impl.
Variable E : env.
Notation R := (rng_state G).
Notation twin := (MentionFacts.twin G).
Lemma twin_refl : forall A (x : ores G A) (Q : A -> A -> Prop), (forall a, Q a a) -> twin x x Q.
Proof. intros A [a r|r|e r|] Q H; cbn; auto. Qed.

Notation sentinel := (Lit [] (Some Combinatorial)).
Inductive Sp : option bool -> list command -> list command -> Prop :=
| Sp_end : forall k, Sp k [] []
| Sp_empty : forall k ts us, Sp k ts us -> Sp k (sentinel :: ts) (sentinel :: us)
| Sp_text : forall l r s t ts us, AlikeText l r s t -> Sp (if r then None else Some false) ts us ->
    Sp (Some l) (Lit s None :: ts) (Lit t None :: us)
| Sp_same : forall l t ts us, (forall s, t <> Lit s None) -> Sp (Some false) ts us ->
    Sp (Some l) (t :: ts) (t :: us).

Lemma Sp_more : forall l k ts us, Sp k ts us -> k = Some false -> Sp (Some l) ts us.
Proof.
  intros l k ts us H. induction H as [k|k ts us H IH|l' e s t ts us HA H _|l' t ts us Ht H _]; intros K.
  - constructor.
  - constructor. auto.
  - injection K as ->. eapply Sp_text; [apply Alike_more, HA|exact H].
  - now apply Sp_same.
Qed.

(** Generators of texts, and of parts. *)
Inductive LitGen (s t : str) : gen -> gen -> Prop :=
| LG_repeat : LitGen s t (GRepeat s) (GRepeat t)
| LG_once : LitGen s t (GOnce s) (GOnce t)
| LG_done : LitGen s t GDone GDone.
Definition GP (k k' : option bool) (g h : gen) : Prop :=
  (g = h /\ k' = Some false /\ k <> None) \/ exists s t, Step k k' s t /\ LitGen s t g h.
Lemma next_GP : forall n k k' g h r, GP k k' g h ->
  twin (next G E n g r) (next G E n h r) (fun p q => Step k k' (fst p) (fst q) /\ GP k k' (snd p) (snd q)).
Proof.
  intros n k k' g h r [(<- & -> & Hk)|(s & t & HS & HL)].
  - apply twin_refl. intros [t g']. cbn. destruct k as [l|]; [|congruence]. split; [apply Step_same|]. left. auto.
  - destruct n as [|n]; [exact I|]. destruct HL; cbn; auto; (split; [reflexivity|]); (split; [exact HS|]);
      right; exists s, t; (split; [exact HS|constructor]).
Qed.
Inductive Gs : option bool -> list gen -> list gen -> Prop :=
| Gs_end : forall k, Gs k [] []
| Gs_one : forall k k' g h gs hs, GP k k' g h -> Gs k' gs hs -> Gs k (g :: gs) (h :: hs).
Lemma rotate_Gs : forall n k gs hs r, Gs k gs hs ->
  twin (rotate_all G (next G E n) gs r) (rotate_all G (next G E n) hs r)
    (fun p q => Outs k (fst p) (fst q) /\ Gs k (snd p) (snd q)).
Proof.
  intros n k gs hs r H. revert r. induction H as [k|k k' g h gs hs Hg _ IH]; intros r; cbn [rotate_all].
  - cbn. split; [reflexivity|]. split; [apply Outs_nil|constructor].
  - eapply twin_bind; [apply next_GP, Hg|]. intros [t g'] [u h'] r' [H1 H2]. cbn [fst snd] in *.
    eapply twin_bind; [apply IH|]. intros [ts gs'] [us hs'] r'' [H3 H4]. cbn [fst snd] in *.
    cbn. split; [reflexivity|]. split; [eapply Outs_cons; eassumption|econstructor; eassumption].
Qed.
Lemma mk_text : forall n c s t m r,
  twin (lift_mk G (mk n c (Lit s m)) r) (lift_mk G (mk n c (Lit t m)) r) (LitGen s t).
Proof.
  intros [|n] c s t m r; [exact I|]. cbn [mk].
  change (chosen_method c (Lit t m)) with (chosen_method c (Lit s m)).
  destruct (chosen_method c (Lit s m)); cbn; (split; [reflexivity|constructor]).
Qed.
Definition Alikes (t u : command) : Prop := t = u \/ exists a b, t = Lit a None /\ u = Lit b None.
Lemma Sp_cons : forall k ts us, Sp k ts us ->
  (ts = [] /\ us = []) \/ exists t u ts' us' k', ts = t :: ts' /\ us = u :: us' /\ Sp k' ts' us' /\ Alikes t u /\
     (forall n c r, twin (lift_mk G (mk n c t) r) (lift_mk G (mk n c u) r) (GP k k')).
Proof.
  intros k ts us H. destruct H as [k|k ts us H|l e s t ts us HA H|l t ts us Ht H]; [auto|right..].
  - do 5 eexists. do 2 (split; [reflexivity|]). split; [exact H|]. split; [left; reflexivity|]. intros n c r.
    eapply twin_impl; [apply mk_text|]. intros g h HL. right. exists [], []. split; [left; auto|exact HL].
  - do 5 eexists. do 2 (split; [reflexivity|]). split; [exact H|]. split; [right; eauto|]. intros n c r.
    eapply twin_impl; [apply mk_text|]. intros g h HL. right. exists s, t. split; [right; exists l, e; auto|exact HL].
  - do 5 eexists. do 2 (split; [reflexivity|]). split; [exact H|]. split; [left; reflexivity|]. intros n c r.
    apply twin_refl. intros g. left. split; [reflexivity|]. split; [reflexivity|discriminate].
Qed.
Lemma mk_all_Sp : forall n c ts us k r, Sp k ts us -> twin (mk_all G n c ts r) (mk_all G n c us r) (Gs k).
Proof.
  intros n c ts. induction ts as [|t ts IH]; intros us k r H; destruct (Sp_cons k _ us H)
    as [(E1 & ->)|(t0 & u & ts' & us' & k' & E1 & -> & HS & _ & HM)]; try discriminate.
  - cbn. split; [reflexivity|constructor].
  - injection E1 as <- <-. cbn [mk_all]. eapply twin_bind; [apply HM|]. intros g h r' Hg.
    eapply twin_bind; [apply IH, HS|]. intros gs hs r'' Hgs. cbn. split; [reflexivity|]. econstructor; eassumption.
Qed.

(** The collection: the values of texts are not asked for. *)
Definition En (p q : command * gen * option str) : Prop :=
  p = q \/ exists s t g h v w, p = (Lit s None, g, v) /\ q = (Lit t None, h, w).
Lemma get_value_En : forall n t k l r, (forall s, t <> Lit s None) -> Forall2 En k l ->
  twin (get_value G (next G E n) t k r) (get_value G (next G E n) t l r)
    (fun p q => fst p = fst q /\ Forall2 En (snd p) (snd q)).
Proof.
  intros n t k l r Ht H. revert r. induction H as [|p q k l Hp Hk IH]; intros r; cbn [get_value]; [cbn; auto|].
  assert (HO : twin (obind G (get_value G (next G E n) t k r) (fun '(v', c') r => OVal (v', p :: c') r))
                 (obind G (get_value G (next G E n) t l r) (fun '(v', c') r => OVal (v', q :: c') r))
                 (fun p q => fst p = fst q /\ Forall2 En (snd p) (snd q))).
  { eapply twin_bind; [apply IH|]. intros [v' k'] [v'' l'] r' [E' Hk']. cbn in *. subst. split; [reflexivity|]. split; [reflexivity|]. constructor; assumption. }
  destruct Hp as [<-|(s & s' & g & h & v & w & -> & ->)].
  - destruct p as [[t1 g] v]. destruct (cmd_eqb t1 t); [|exact HO].
    destruct (next G E n g r) as [[u g'] r1|r1|e r1|]; cbn; auto; (split; [reflexivity|]); (split; [reflexivity|]);
      constructor; auto; now left.
  - destruct (cmd_eqb_spec (Lit s None) t) as [K|_]; [exfalso; apply (Ht s); auto|].
    destruct (cmd_eqb_spec (Lit s' None) t) as [K|_]; [exfalso; apply (Ht s'); auto|]. exact HO.
Qed.
Lemma Sp_alikes : forall k ts us, Sp k ts us -> Forall2 Alikes ts us.
Proof. intros k ts us H. induction H; constructor; auto; [left|right|left]; eauto. Qed.
Definition LG (t u : command) (g h : gen) : Prop :=
  (t = u /\ g = h) \/ exists s s', t = Lit s None /\ u = Lit s' None /\ LitGen s s' g h.
Inductive LGs : list command -> list command -> list gen -> list gen -> Prop :=
| LGs_nil : LGs [] [] [] []
| LGs_cons : forall t u g h ts us gs hs, LG t u g h -> LGs ts us gs hs -> LGs (t :: ts) (u :: us) (g :: gs) (h :: hs).
Lemma collection_En : forall n c ts us r, Forall2 Alikes ts us ->
  twin (new_collection G (next G E n) n c ts r) (new_collection G (next G E n) n c us r) (Forall2 En).
Proof.
  intros n c ts us r H. unfold new_collection.
  assert (HM : forall r, twin (mk_all G n c ts r) (mk_all G n c us r) (LGs ts us)).
  { induction H as [|t u ts us Ht _ IH]; intros r0; cbn [mk_all]; [cbn; split; [reflexivity|constructor]|].
    eapply twin_bind with (Q1 := LG t u).
    - destruct Ht as [<-|(a & b & -> & ->)]; [apply twin_refl; left; auto|].
      eapply twin_impl; [apply mk_text|]. intros g h HL. right. eauto 6.
    - intros g h r1 Hg. eapply twin_bind; [apply IH|]. intros gs hs r2 Hgs. cbn. split; [reflexivity|]. constructor; assumption. }
  eapply twin_bind; [apply HM|]. clear HM H r. intros gs hs r H.
  eapply twin_bind with (Q1 := fun ps qs => Forall2 En (map (fun x => (fst x, fst (snd x), snd (snd x))) (combine ts ps))
      (map (fun x => (fst x, fst (snd x), snd (snd x))) (combine us qs))).
  - revert r. induction H as [|t u g h ts us gs hs Hg _ IH]; intros r; cbn [advance_all]; [cbn; split; [reflexivity|constructor]|].
    eapply twin_bind with (Q1 := fun p q => (t = u /\ p = q) \/ exists s s', t = Lit s None /\ u = Lit s' None).
    + destruct Hg as [[<- <-]|(s & s' & -> & -> & HL)]; [apply twin_refl; auto|].
      destruct n as [|n']; [exact I|]. destruct HL; cbn; auto; (split; [reflexivity|]); right; eauto.
    + intros [v g'] [v' h'] r' Hv. eapply twin_bind; [apply IH|]. intros ps qs r'' Hps. cbn. split; [reflexivity|].
      constructor; [|exact Hps]. destruct Hv as [[<- [= <- <-]]|(s & s' & -> & ->)]; [now left|right; eauto 10].
  - intros ps qs r' HE. cbn. auto.
Qed.

Inductive Cs : option bool -> cseq -> cseq -> Prop :=
| Cs_start : forall k ts us, Sp k ts us -> Cs k (CSStart ts) (CSStart us)
| Cs_non : forall l t cs ds, (forall s, t <> Lit s None) -> Cs (Some false) cs ds ->
    Cs (Some l) (CSNon t cs) (CSNon t ds)
| Cs_fin : forall k k' g h ts us, GP k k' g h -> Sp k' ts us -> Cs k (CSFin g ts) (CSFin h us)
| Cs_fin2 : forall k k' g h ts us s t cs ds, GP k k' g h -> Step k k' s t -> Sp k' ts us -> Cs k' cs ds ->
    Cs k (CSFin2 g ts s cs) (CSFin2 h us t ds)
| Cs_done : forall k, Cs k CSDone CSDone.

Lemma next_Cs : forall n c p q k cs ds r, c_method c = Combinatorial -> Forall2 En p q -> Cs k cs ds ->
  twin (next_cs G E n c p cs r) (next_cs G E n c q ds r)
    (fun x y => Forall2 En (snd x) (snd y) /\
       match fst x, fst y with
       | Some (a, cs'), Some (b, ds') => Outs k a b /\ Cs k cs' ds'
       | None, None => True
       | _, _ => False
       end).
Proof.
  induction n as [|n IH]; intros c p q k cs ds r Hc Hpq Hcs; [exact I|].
  destruct Hcs as [k ts us H|l t cs ds Ht Hcs|k k' g h ts us Hg H|k k' g h ts us s t cs ds Hg Hs H Hcs|k]; unfold_next G E.
  - destruct H as [k|k ts us H|l e s t ts us HA H|l t ts us Ht H].
    + cbn. split; [reflexivity|]. split; [exact Hpq|]. split; [apply Outs_nil|constructor].
    + assert (K : is_nonfinite (effective_method c sentinel) = false)
        by (unfold effective_method; cbn [sampling_method]; rewrite ?Hc; reflexivity).
      rewrite K. eapply twin_bind; [apply (mk_text n c [] [])|]. intros g h r' HL. apply IH; auto.
      eapply Cs_fin; [|exact H]. right. exists [], []. split; [left; auto|exact HL].
    + assert (K : forall x, is_nonfinite (effective_method c (Lit x None)) = false)
        by (intros x; unfold effective_method; cbn [sampling_method]; rewrite ?Hc; reflexivity).
      rewrite !K. eapply twin_bind; [apply (mk_text n c s t)|]. intros g h r' HL. apply IH; auto.
      eapply Cs_fin; [|exact H]. right. exists s, t. split; [right; exists l, e; auto|exact HL].
    + destruct (is_nonfinite (effective_method c t)).
      * apply IH; auto. constructor; [exact Ht|]. constructor. exact H.
      * eapply twin_bind with (Q1 := eq); [apply twin_refl; reflexivity|]. intros g h r' <-. apply IH; auto.
        eapply Cs_fin; [|exact H]. left. split; [reflexivity|]. split; [reflexivity|discriminate].
  - eapply twin_bind; [apply IH; eassumption|]. intros [x p'] [y q'] r' [K1 K2]. cbn [fst snd] in *.
    destruct x as [[a cs']|], y as [[b ds']|]; try contradiction; [|cbn; auto]. destruct K2 as [K2 K3].
    eapply twin_bind; [apply get_value_En; eassumption|]. intros [v p2] [v' q2] r'' [E' K4]. cbn in E', K4. subst v'.
    destruct v as [v|]; cbn; (split; [reflexivity|]); (split; [exact K4|]); (split; [|constructor; assumption]).
    + exact (Outs_cons _ _ _ _ _ _ (Step_same l v) K2).
    + now apply Alike_more.
  - pose proof (next_GP n k k' g h r Hg) as HT.
    destruct (next G E n g r) as [[s g'] r1|r1|e r1|], (next G E n h r) as [[t h'] r2|r2|e' r2|]; cbn in HT |- *; try contradiction; auto.
    destruct HT as [-> [K1 K2]]. apply IH; auto. eapply Cs_fin2; eauto. constructor. exact H.
  - eapply twin_bind; [apply IH; eassumption|]. intros [x p'] [y q'] r' [K1 K2]. cbn [fst snd] in *.
    destruct x as [[a cs']|], y as [[b ds']|]; try contradiction.
    + destruct K2 as [K2 K3]. cbn. split; [reflexivity|]. split; [exact K1|]. split; [eapply Outs_cons; eassumption|eapply Cs_fin2; eassumption].
    + apply IH; auto. eapply Cs_fin; eassumption.
  - cbn. auto.
Qed.

(** Assignments. *)
Lemma loop_Sp : forall n c l ts us, Spread l ts us -> forall nv r,
  twin (assignments_loop G (next G E n) n c ts nv r) (assignments_loop G (next G E n) n c us nv r)
    (fun p q => Sp (Some l) (fst p) (fst q) /\ snd p = snd q /\ (Forall Quiet ts -> fst p = [] /\ fst q = [])).
Proof.
  intros n c l ts us H. induction H as [l|l t ts us Ht H IH|l e s t ts us HA He H IH|l t ts us H IH]; intros nv r.
  - cbn. repeat split. constructor.
  - destruct Ht as (x & v & i & o & ->). cbn [assignments_loop].
    eapply twin_bind with (Q1 := eq); [apply twin_refl; reflexivity|]. intros v1 v2 r' <-.
    eapply twin_impl; [apply IH|]. intros p q (K1 & K2 & K3). split; [exact K1|]. split; [exact K2|].
    intros K. inversion K; auto.
  - cbn [assignments_loop]. eapply twin_bind; [apply IH|]. intros [rest vs] [rest' vs'] r' (K1 & K2 & K3). cbn [fst snd] in *.
    cbn. split; [reflexivity|]. split; [|split; [exact K2|]].
    + eapply Sp_text; [exact HA|]. destruct e; [|exact K1]. destruct (K3 (He eq_refl)) as [-> ->]. constructor.
    + intros K. inversion K as [|? ? (x & v & i & o & Kx) _]. discriminate Kx.
  - assert (HO : (forall x v i o, t <> Assign x v i o) ->
      twin (obind G (assignments_loop G (next G E n) n c ts nv r) (fun '(rest, vs) r => OVal (t :: rest, vs) r))
        (obind G (assignments_loop G (next G E n) n c us nv r) (fun '(rest, vs) r => OVal (t :: rest, vs) r))
        (fun p q => Sp (Some l) (fst p) (fst q) /\ snd p = snd q /\ (Forall Quiet (t :: ts) -> fst p = [] /\ fst q = []))).
    { intros Ht. eapply twin_bind; [apply IH|]. intros [rest vs] [rest' vs'] r' (K1 & K2 & K3). cbn [fst snd] in *.
      cbn. split; [reflexivity|]. split; [|split; [exact K2|]].
      - destruct t as [s [m|]| | | | | | ]; try (apply Sp_same; [discriminate|exact K1]).
        eapply (Sp_text l false); [apply Alike_refl|exact K1].
      - intros K. inversion K as [|? ? (x & v & i & o & Kx) _]. exfalso. eapply Ht, Kx. }
    destruct t as [ | | | |x v i o| | ]; try (apply HO; discriminate). cbn [assignments_loop].
    eapply twin_bind with (Q1 := eq); [apply twin_refl; reflexivity|]. intros v1 v2 r' <-.
    eapply twin_impl; [apply IH|]. intros p q (K1 & K2 & K3). split; [|split; [exact K2|]].
    + eapply Sp_more; [exact K1|reflexivity].
    + intros K. inversion K; auto.
Qed.

Lemma Sp_app_sentinel : forall k ts us, Sp k ts us -> Sp k (ts ++ [sentinel]) (us ++ [sentinel]).
Proof.
  intros k ts us H. induction H; cbn [app].
  - constructor. constructor.
  - now constructor.
  - eapply Sp_text; eassumption.
  - now apply Sp_same.
Qed.
Lemma Alikes_filter : forall f ts us, Forall2 Alikes ts us -> (forall t u, Alikes t u -> f t = f u) ->
  Forall2 Alikes (filter f ts) (filter f us).
Proof.
  intros f ts us H Hf. induction H as [|t u ts us Ht _ IH]; cbn; [constructor|]. rewrite (Hf t u Ht).
  destruct (f u); [constructor; assumption|exact IH].
Qed.
Lemma assignments_Sp : forall n c l ts us r, Spread l ts us ->
  twin (process_variable_assignments G (next G E n) n c ts r) (process_variable_assignments G (next G E n) n c us r)
    (fun p q => Sp (Some l) (fst p) (fst q) /\ snd p = snd q /\ c_method (snd p) = c_method c).
Proof.
  intros n c l ts us r H. unfold process_variable_assignments. eapply twin_bind; [apply loop_Sp, H|].
  intros [rest vs] [rest' vs'] r' (K1 & K2 & _). cbn [fst snd] in *. subst vs'. cbn. split; [reflexivity|].
  split; [exact K1|]. split; [reflexivity|]. destruct vs; reflexivity.
Qed.

Inductive bl : gen -> gen -> Prop :=
| bl_text : forall s t g h, AlikeText true true s t -> LitGen s t g h -> bl g h
| bl_seq : forall c ts us, Spread true ts us -> bl (GSeqStart c ts []) (GSeqStart c us [])
| bl_seql : forall gs hs, Gs (Some true) gs hs -> bl (GSeqLoop gs []) (GSeqLoop hs [])
| bl_cseq : forall c ts us, c_method c = Combinatorial -> Spread true ts us -> bl (GCSeqStart c ts []) (GCSeqStart c us [])
| bl_cseql : forall c p q cs ds, c_method c = Combinatorial -> Forall2 En p q -> Cs (Some true) cs ds ->
    bl (GCSeqLoop c [] p cs) (GCSeqLoop c [] q ds).
Lemma next_bl : forall n g h r, bl g h -> twin (next G E n g r) (next G E n h r)
  (fun p q => AlikeText true true (fst p) (fst q) /\ bl (snd p) (snd q)).
Proof.
  induction n as [|n IH]; intros g h r Hg; [exact I|].
  destruct Hg as [s t g h HA HL|c ts us H|gs hs H|c ts us Hc H|c p q cs ds Hc Hp H];
    [|unfold_next G E..].
  - destruct HL; unfold_next G E; [| |reflexivity]; (split; [reflexivity|]); (split; [exact HA|]);
      apply (bl_text s t); [exact HA|constructor|exact HA|constructor].
  - apply twin_pep. eapply twin_bind; [apply assignments_Sp, H|]. intros [ts' c'] [us' d'] r' (K1 & K2 & _).
    cbn [fst snd] in *. subst d'. eapply twin_bind; [apply mk_all_Sp, K1|]. intros gs hs r'' Hgs.
    apply IH. constructor. exact Hgs.
  - apply twin_pep. eapply twin_bind; [apply rotate_Gs, H|]. intros [ts gs'] [us hs'] r' [K1 K2]. cbn [fst snd] in *.
    split; [reflexivity|]. cbn [fst snd]. rewrite !joined_concat. split; [exact K1|]. constructor. exact K2.
  - eapply twin_bind with (Q1 := fun p q => Forall2 En (fst p) (fst q) /\ Sp (Some true) (fst (snd p)) (fst (snd q)) /\
           snd (snd p) = snd (snd q) /\ c_method (snd (snd p)) = Combinatorial).
    + apply twin_pep. eapply twin_bind; [apply assignments_Sp, H|]. intros [ts' c'] [us' d'] r' (K1 & K2 & K3).
      cbn [fst snd] in *. subst d'. eapply twin_bind; [apply collection_En|].
      * unfold non_combo. apply Alikes_filter; [eapply Sp_alikes, K1|]. intros t u [<-|(a & b & -> & ->)]; reflexivity.
      * intros k l r'' Hk. split; [reflexivity|]. cbn [fst snd]. split; [exact Hk|]. split; [exact K1|]. split; [reflexivity|].
        rewrite K3. exact Hc.
    + intros [k [ts' c']] [l [us' d']] r' (K1 & K2 & K3 & K4). cbn [fst snd] in *. subst d'.
      apply IH. constructor; [exact K4|exact K1|]. constructor. unfold augmented. constructor. now apply Sp_app_sentinel.
  - eapply twin_bind; [apply next_Cs; eassumption|]. intros [x p'] [y q'] r' [K1 K2]. cbn [fst snd] in *.
    destruct x as [[a cs']|], y as [[b ds']|]; try contradiction; [|reflexivity].
    destruct K2 as [K2 K3]. split; [reflexivity|]. cbn [fst snd]. rewrite !joined_concat. split; [exact K2|].
    constructor; assumption.
Qed.

Inductive sq : gen -> gen -> Prop :=
| sq_squash : forall g h, bl g h -> sq (GSquash g) (GSquash h)
| sq_slice : forall n g h, sq g h -> sq (GSlice n g) (GSlice n h).
Lemma next_sq : forall n g h r, sq g h -> twin (next G E n g r) (next G E n h r)
  (fun p q => fst p = fst q /\ sq (snd p) (snd q)).
Proof.
  induction n as [|n IH]; intros g h r Hg; [exact I|]. destruct Hg as [g h H|j g h H]; unfold_next G E.
  - eapply twin_bind; [apply next_bl, H|]. intros [t g'] [u h'] r' [K1 K2]. cbn [fst snd] in *.
    split; [reflexivity|]. split; [eapply Alike_squash, K1|]. constructor. exact K2.
  - destruct j; [reflexivity|]. eapply twin_bind; [apply IH, H|]. intros [t g'] [u h'] r' [K1 K2]. cbn [fst snd] in *.
    split; [reflexivity|]. split; [exact K1|]. constructor. exact K2.
Qed.
Lemma collect_sq : forall f n g h r, sq g h ->
  let '(ts, e, s) := collect G E f n g r in
  let '(us, e', s') := collect G E f n h r in
  ts = us /\ s = s' /\ (e = EndStop <-> e' = EndStop) /\ forall y, e = EndRaise y <-> e' = EndRaise y.
Proof.
  intros f n. induction n as [|n IH]; intros g h r Hg; cbn [collect].
  - split; [reflexivity|]. split; [reflexivity|]. split; [split; discriminate|intros y; split; discriminate].
  - pose proof (next_sq f g h r Hg) as HT.
    destruct (next G E f g r) as [[t g'] r1|r1|e r1|], (next G E f h r) as [[t' h'] r2|r2|e' r2|]; cbn in HT; try contradiction.
    + destruct HT as [-> [E' Hg']]. cbn in E', Hg'. subst t'. specialize (IH g' h' r2 Hg').
      destruct (collect G E f n g' r2) as [[ts e] s], (collect G E f n h' r2) as [[us e'] s'].
      destruct IH as (-> & -> & H). auto.
    + subst. repeat split; auto.
    + destruct HT as [-> ->]. repeat split; auto.
    + repeat split; auto.
Qed.
End Blank.
