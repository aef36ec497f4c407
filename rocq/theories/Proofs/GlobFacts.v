From Coq Require Import String NArith Bool Arith List Lia.
From Verif.Model Require Import Str Utils Rng Context Names.
From Verif.Spec Require Import Text Names.
From Verif.Proofs Require Import StrFacts UtilsFacts NamesFacts.
Import ListNotations.
Local Open Scope nat_scope.

Lemma until_close_spec : forall s b r,
  until_close s = Some (b, r) <-> s = b ++ [93%N] ++ r /\ ~ In 93%N b.
Proof.
  induction s as [|c s IH]; intros b r; cbn [until_close].
  - split; [discriminate|]. intros [E _]. destruct b; discriminate.
  - destruct (N.eqb_spec c 93) as [->|Hc].
    + split.
      * intros E. injection E as <- <-. split; [reflexivity|intros []].
      * intros [E Hb]. destruct b as [|d b]; cbn in E.
        -- now injection E as <-.
        -- injection E as E0 E. subst d. exfalso. apply Hb. now left.
    + destruct (until_close s) as [[b' r']|] eqn:Eu.
      * split.
        -- intros E. injection E as <- <-. destruct (proj1 (IH b' r') eq_refl) as [-> Hb].
           split; [reflexivity|]. intros [H|H]; [congruence|tauto].
        -- intros [E Hb]. destruct b as [|d b]; cbn in E; injection E as E0 E; [congruence|].
           subst d. assert (Some (b', r') = Some (b, r)) as E'.
           { apply (proj2 (IH b r)). split; [exact E|]. intros H; apply Hb; now right. }
           now injection E' as -> ->.
      * split; [discriminate|]. intros [E Hb].
        destruct b as [|d b]; cbn in E; injection E as E0 E; [congruence|].
        assert (@None (list N * list N) = Some (b, r)) as E'; [|discriminate].
        apply (proj2 (IH b r)). split; [exact E|]. intros H; apply Hb; now right.
Qed.

Lemma bracket_spec : forall p neg body rest,
  bracket p = Some (neg, body, rest) <-> Bracket p neg body rest.
Proof.
  intros p neg body rest. unfold bracket, Bracket. destruct p as [|c p].
  - split; [discriminate|]. intros (d & b & -> & _ & _ & E). destruct neg; discriminate.
  - destruct (N.eqb_spec c 33) as [->|Hc].
    + destruct p as [|d p].
      * split; [discriminate|]. intros (e & b & -> & _ & Hn & E). destruct neg; cbn in E.
        -- discriminate.
        -- injection E as <- E. exfalso. now apply (Hn eq_refl).
      * destruct (until_close p) as [[b r]|] eqn:Eu.
        -- apply until_close_spec in Eu as [-> Hb]. split.
           ++ intros E. injection E as <- <- <-. exists d, b. split; [reflexivity|].
              split; [assumption|]. split; [discriminate|reflexivity].
           ++ intros (e & b' & -> & Hb' & Hn & E). destruct neg; cbn in E.
              ** injection E as <- E.
                 assert (Some (b, r) = Some (b', rest)) as E'.
                 { transitivity (until_close (b' ++ 93%N :: rest)).
                   - symmetry. apply until_close_spec. now split.
                   - apply until_close_spec. now split. }
                 injection E' as <- <-. reflexivity.
              ** injection E as <- _. exfalso. now apply (Hn eq_refl).
        -- split; [discriminate|]. intros (e & b' & -> & Hb' & Hn & E). destruct neg; cbn in E.
           ++ injection E as <- E.
              assert (until_close p = Some (b', rest)) as E' by (apply until_close_spec; now split).
              congruence.
           ++ injection E as <- _. exfalso. now apply (Hn eq_refl).
    + destruct (until_close p) as [[b r]|] eqn:Eu.
      * apply until_close_spec in Eu as [-> Hb]. split.
        -- intros E. injection E as <- <- <-. exists c, b. split; [reflexivity|].
           split; [assumption|]. split; [auto|reflexivity].
        -- intros (e & b' & -> & Hb' & Hn & E). destruct neg; cbn in E.
           ++ injection E as -> _. congruence.
           ++ injection E as <- E.
              assert (Some (b, r) = Some (b', rest)) as E'.
              { transitivity (until_close (b' ++ 93%N :: rest)).
                - symmetry. apply until_close_spec. now split.
                - apply until_close_spec. now split. }
              injection E' as <- <-. reflexivity.
      * split; [discriminate|]. intros (e & b' & -> & Hb' & Hn & E). destruct neg; cbn in E.
        -- injection E as -> _. congruence.
        -- injection E as <- E.
           assert (until_close p = Some (b', rest)) as E' by (apply until_close_spec; now split).
           congruence.
Qed.

Lemma in_set_spec : forall body x, in_set body x = true <-> InSet body x.
Proof.
  intros body x. remember (length body) as n eqn:Hn. revert body Hn.
  induction n as [n IH] using lt_wf_ind. intros body ->.
  destruct body as [|a rest].
  - cbn. split; [discriminate|]. intros H; inversion H.
  - assert (Hone : (forall b r, rest <> 45%N :: b :: r) ->
       (N.eqb a x || in_set rest x = true <-> InSet (a :: rest) x)).
    { intros Hnr. rewrite orb_true_iff, N.eqb_eq, (IH (length rest)) by (cbn; lia || reflexivity).
      split.
      - intros [->|H]; [now apply InSet_one|now apply InSet_after].
      - intros H. inversion H; subst; try (exfalso; eapply Hnr; reflexivity); auto. }
    destruct rest as [|d [|b rest]].
    + apply Hone. congruence.
    + apply Hone. congruence.
    + change (in_set (a :: d :: b :: rest) x) with
        (if N.eqb d 45 then (N.leb a x && N.leb x b) || in_set rest x
         else N.eqb a x || in_set (d :: b :: rest) x).
      destruct (N.eqb_spec d 45) as [->|Hd].
      * rewrite orb_true_iff, andb_true_iff, !N.leb_le.
        rewrite (IH (length rest)) by (cbn; lia || reflexivity). split.
        -- intros [[H1 H2]|H]; [now apply InSet_range|now apply InSet_after_range].
        -- intros H. inversion H as [| |? ? Hnr|? ? ? Hnr]; subst; auto;
             exfalso; eapply Hnr; reflexivity.
      * apply Hone. intros b' r' E. injection E as -> _ _. congruence.
Qed.

Lemma match_star : forall ts s,
  match_tokens (TStar :: ts) s = true <-> exists pre s', s = pre ++ s' /\ match_tokens ts s' = true.
Proof.
  intros ts s. induction s as [|c s IH].
  - cbn. rewrite orb_false_r. split.
    + intros H. exists [], []. now split.
    + intros (pre & s' & E & H). destruct pre; [|discriminate]. cbn in E. now subst.
  - change (match_tokens (TStar :: ts) (c :: s))
      with (match_tokens ts (c :: s) || match_tokens (TStar :: ts) s).
    rewrite orb_true_iff, IH. split.
    + intros [H|(pre & s' & -> & H)]; [exists [], (c :: s)|exists (c :: pre), s']; now split.
    + intros (pre & s' & E & H). destruct pre as [|d pre]; cbn in E.
      * left. now rewrite E.
      * injection E as <- ->. right. now exists pre, s'.
Qed.

Lemma Bracket_shorter : forall p neg body rest, Bracket p neg body rest -> length rest < length p.
Proof.
  intros p neg body rest (c & b & -> & _ & _ & ->). rewrite !app_length. cbn.
  destruct neg; cbn; lia.
Qed.

Lemma Bracket_unique : forall p neg body rest neg' body' rest',
  Bracket p neg body rest -> Bracket p neg' body' rest' -> neg = neg' /\ body = body' /\ rest = rest'.
Proof.
  intros p neg body rest neg' body' rest' H1 H2. apply bracket_spec in H1, H2.
  rewrite H1 in H2. injection H2 as -> -> ->. auto.
Qed.

Lemma match_tokens_Glob : forall n pat, length pat <= n -> forall s,
  match_tokens (tokens n pat) s = true <-> Glob pat s.
Proof.
  induction n as [|n IH]; intros pat Hn s.
  - destruct pat; [|cbn in Hn; lia]. cbn. destruct s; split; try discriminate; try reflexivity.
    + intros _; constructor.
    + intros H; inversion H.
  - destruct pat as [|c p]; [cbn; destruct s; split; try discriminate; try reflexivity;
      [intros _; constructor|intros H; inversion H]|].
    cbn in Hn. cbn [tokens].
    destruct (N.eqb_spec c 42) as [->|H42].
    { rewrite match_star. split.
      - intros (pre & s' & -> & H). constructor. apply (IH p); [lia|exact H].
      - intros H. inversion H; subst; try congruence.
        exists pre, s0. split; [reflexivity|]. apply (IH p); [lia|assumption]. }
    destruct (N.eqb_spec c 63) as [->|H63].
    { destruct s as [|x s]; cbn [match_tokens].
      - split; [discriminate|]. intros H; inversion H.
      - rewrite (IH p) by lia. split; [apply Glob_any|].
        intros H; inversion H; subst; try congruence. }
    assert (Hlit : c <> 91%N -> forall s, (match s with
        | [] => false | x :: s' => N.eqb c x && match_tokens (tokens n p) s' end) = true <->
        Glob (c :: p) s).
    { intros H91 [|x t].
      - split; [discriminate|]. intros H; inversion H; subst; congruence.
      - rewrite andb_true_iff, N.eqb_eq, (IH p) by lia. split.
        + intros [<- H]. now apply Glob_char.
        + intros H; inversion H; subst; try congruence. now split. }
    destruct (N.eqb_spec c 91) as [->|H91]; [|apply (Hlit H91)].
    destruct (bracket p) as [[[neg body] rest]|] eqn:Eb.
    + apply bracket_spec in Eb. pose proof (Bracket_shorter _ _ _ _ Eb) as Hs.
      cbn [match_tokens]. destruct s as [|x s].
      * split; [discriminate|]. intros H; inversion H.
      * rewrite andb_true_iff, (IH rest) by lia. split.
        -- intros [Hx Hg]. eapply Glob_set; [exact Eb| |exact Hg].
           destruct neg; cbn in Hx.
           ++ intros Hi. apply in_set_spec in Hi. rewrite Hi in Hx. discriminate.
           ++ apply in_set_spec. now destruct (in_set body x).
        -- intros H; inversion H as [| | | |? ? Hno|? ? ? ? ? ? Hb' Hc Hg]; subst; try congruence.
           ++ exfalso. eapply Hno; exact Eb.
           ++ destruct (Bracket_unique _ _ _ _ _ _ _ Eb Hb') as (<- & <- & <-).
              split; [|assumption]. destruct neg; cbn.
              ** destruct (in_set body x) eqn:Ei; [|reflexivity]. apply in_set_spec in Ei. tauto.
              ** apply in_set_spec in Hc. now rewrite Hc.
    + assert (Hno : forall neg body rest, ~ Bracket p neg body rest).
      { intros neg body rest H. apply bracket_spec in H. congruence. }
      cbn [match_tokens]. destruct s as [|x s].
      * split; [discriminate|]. intros H; inversion H.
      * rewrite andb_true_iff, N.eqb_eq, (IH p) by lia. split.
        -- intros [<- H]. now apply Glob_open.
        -- intros H; inversion H as [| | | | |? ? ? ? ? ? Hb']; subst; try congruence.
           ++ now split.
           ++ exfalso. eapply Hno; exact Hb'.
Qed.

Lemma fnmatch_Glob : forall name pat, fnmatch name pat = true <-> Glob pat name.
Proof. intros. unfold fnmatch. now apply match_tokens_Glob. Qed.

Lemma fnmatch_false : forall name pat, fnmatch name pat = false <-> ~ Glob pat name.
Proof. intros. rewrite <- fnmatch_Glob. destruct (fnmatch name pat); intuition congruence. Qed.

Lemma Glob_plain : forall p, NoGlob p -> forall s, Glob p s <-> s = p.
Proof.
  induction p as [|c p IH]; intros H s.
  - split; [intros G; now inversion G|intros ->; constructor].
  - inversion H as [|? ? Hc Hp]; subst. unfold GlobChar in Hc. split.
    + intros G. inversion G; subst; try tauto. f_equal. now apply IH.
    + intros ->. apply Glob_char; try (intros E; subst; tauto). now apply IH.
Qed.

Lemma Glob_star_app : forall p s, Glob (42%N :: p) s <-> exists a b, s = a ++ b /\ Glob p b.
Proof.
  intros p s. split.
  - intros G. inversion G; subst; try congruence. eauto.
  - intros (a & b & -> & G). now constructor.
Qed.

Lemma Glob_lit_app : forall q, NoGlob q -> forall p s,
  Glob (q ++ p) s <-> exists t, s = q ++ t /\ Glob p t.
Proof.
  induction q as [|c q IH]; intros H p s; cbn [app].
  - split; [intros G; exists s; now split|]. now intros (t & -> & G).
  - inversion H as [|? ? Hc Hq]; subst. unfold GlobChar in Hc. split.
    + intros G. inversion G; subst; try tauto. apply (IH Hq) in H6 as (t & -> & G').
      now exists t.
    + intros (t & -> & G). apply Glob_char; try (intros E; subst; tauto).
      apply (IH Hq). now exists t.
Qed.

Lemma Glob_fallback : forall name, NoGlob name -> forall s,
  Glob ([42; 42; 47]%N ++ name) s <-> EndsWith s (47%N :: name).
Proof.
  intros name Hn s. cbn [app].
  assert (Hp : NoGlob (47%N :: name)).
  { constructor; [unfold GlobChar; intuition discriminate|assumption]. }
  rewrite Glob_star_app. split.
  - intros (a & b & -> & G). apply Glob_star_app in G as (a' & b' & -> & G).
    apply (Glob_plain _ Hp) in G. subst. exists (a ++ a'). now rewrite app_assoc.
  - intros (q & ->). exists q, (47%N :: name). split; [reflexivity|].
    apply Glob_star_app. exists [], (47%N :: name). split; [reflexivity|].
    now apply Glob_plain.
Qed.

(** [to_wildcard]. *)
Lemma to_wildcard_wrapped : forall ww n,
  StartsWith (to_wildcard ww n) ww /\ EndsWith (to_wildcard ww n) ww.
Proof.
  intros ww n. unfold to_wildcard.
  assert (H : StartsWith (if startswith n ww then n else ww ++ n) ww).
  { destruct (startswith n ww) eqn:E; [now apply startswith_spec|now exists n]. }
  remember (if startswith n ww then n else ww ++ n) as m.
  destruct (endswith m ww) eqn:E.
  - split; [assumption|now apply endswith_spec].
  - split; [|now exists m]. destruct H as [q ->]. exists (q ++ ww). now rewrite app_assoc.
Qed.

Lemma to_wildcard_fixed : forall ww n, StartsWith n ww -> EndsWith n ww -> to_wildcard ww n = n.
Proof.
  intros ww n Hs He. unfold to_wildcard.
  apply startswith_spec in Hs. rewrite Hs. apply endswith_spec in He. now rewrite He.
Qed.
