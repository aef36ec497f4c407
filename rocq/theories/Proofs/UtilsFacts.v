(** Proofs about Model/Utils.v against Spec/Text.v. *)
From Coq Require Import String NArith Bool Arith List Lia Permutation.
From Verif.Model Require Import Str Utils.
From Verif.Spec Require Import Text.
From Verif.Proofs Require Import StrFacts.
Import ListNotations.
Local Open Scope nat_scope.

(** * [join] and [interleave] *)
Lemma join_interleave : forall sep l, join sep l = interleave sep l.
Proof.
  intros sep l. induction l as [|x l IH]; [reflexivity|].
  destruct l as [|y l]; [cbn; now rewrite app_nil_r|].
  rewrite join_cons2, IH. cbn [interleave flat_map]. now rewrite <- app_assoc.
Qed.

(** * [dedupe] *)
Lemma dedupe_aux_In : forall l seen x,
  In x (dedupe_aux seen l) <-> In x l /\ ~ In x seen.
Proof.
  induction l as [|y l IH]; cbn; intros seen x; [tauto|].
  destruct (str_mem y seen) eqn:Hm.
  - apply str_mem_In in Hm. rewrite IH. intuition; subst; tauto.
  - apply str_mem_false in Hm. cbn. rewrite IH. cbn.
    destruct (list_eq_dec N.eq_dec y x) as [->|Hn]; intuition.
Qed.

Lemma dedupe_aux_NoDup : forall l seen, NoDup (dedupe_aux seen l).
Proof.
  induction l as [|y l IH]; cbn; intros seen; [constructor|].
  destruct (str_mem y seen); [apply IH|]. constructor; [|apply IH].
  rewrite dedupe_aux_In. cbn. tauto.
Qed.

Lemma dedupe_NoDup : forall l, NoDup (dedupe l).
Proof. intros; apply dedupe_aux_NoDup. Qed.

Lemma dedupe_In : forall l x, In x (dedupe l) <-> In x l.
Proof. intros; unfold dedupe; rewrite dedupe_aux_In; cbn; tauto. Qed.

Lemma dedupe_aux_id : forall l seen,
  NoDup l -> (forall x, In x l -> ~ In x seen) -> dedupe_aux seen l = l.
Proof.
  induction l as [|y l IH]; cbn; intros seen Hn Hs; [reflexivity|].
  inversion Hn; subst.
  replace (str_mem y seen) with false
    by (symmetry; apply str_mem_false; apply Hs; now left).
  f_equal. apply IH; [assumption|]. intros x Hx [->|Hx']; [tauto|].
  eapply Hs; eauto.
Qed.

Lemma dedupe_id : forall l, NoDup l -> dedupe l = l.
Proof. intros; apply dedupe_aux_id; [assumption|cbn; tauto]. Qed.

Lemma dedupe_idem : forall l, dedupe (dedupe l) = dedupe l.
Proof. intros; apply dedupe_id, dedupe_NoDup. Qed.

Lemma dedupe_aux_length : forall l seen, length (dedupe_aux seen l) <= length l.
Proof.
  induction l as [|y l IH]; cbn; intros seen; [lia|].
  destruct (str_mem y seen); cbn; [specialize (IH seen)|specialize (IH (y :: seen))]; lia.
Qed.

Lemma dedupe_full : forall l, length (dedupe l) = length l -> dedupe l = l.
Proof.
  unfold dedupe. intros l. generalize (@nil str). induction l as [|y l IH]; cbn; intros seen H; [reflexivity|].
  destruct (str_mem y seen) eqn:Hm.
  - pose proof (dedupe_aux_length l seen). lia.
  - cbn in *. f_equal. apply IH. lia.
Qed.

(** Order of first occurrences. *)
Lemma dedupe_aux_order : forall l seen i j x y a b,
  i < j ->
  nth_error (dedupe_aux seen l) i = Some x -> nth_error (dedupe_aux seen l) j = Some y ->
  FirstAt l x a -> FirstAt l y b -> a < b.
Proof.
  induction l as [|z l IH]; cbn [dedupe_aux]; intros seen i j x y a b Hij Hi Hj Ha Hb.
  - destruct i; discriminate.
  - assert (Hshift : forall w c, FirstAt (z :: l) w c -> w <> z ->
              exists c', c = S c' /\ FirstAt l w c').
    { intros w [|c] [Hc Hf] Hw; cbn in Hc; [congruence|].
      exists c. split; [reflexivity|]. split; [exact Hc|].
      intros k Hk. apply (Hf (S k)). lia. }
    destruct (str_mem z seen) eqn:Hm.
    + assert (Hz : forall w k, nth_error (dedupe_aux seen l) k = Some w -> w <> z).
      { intros w k Hk ->. apply nth_error_In, dedupe_aux_In in Hk.
        apply str_mem_In in Hm. tauto. }
      destruct (Hshift x a Ha (Hz _ _ Hi)) as (a' & -> & Ha').
      destruct (Hshift y b Hb (Hz _ _ Hj)) as (b' & -> & Hb').
      specialize (IH seen i j x y a' b' Hij Hi Hj Ha' Hb'). lia.
    + assert (Hz : forall w k, nth_error (dedupe_aux (z :: seen) l) k = Some w -> w <> z).
      { intros w k Hk ->. apply nth_error_In, dedupe_aux_In in Hk. cbn in Hk. tauto. }
      destruct j as [|j]; [lia|]. cbn in Hj.
      destruct (Hshift y b Hb (Hz _ _ Hj)) as (b' & -> & Hb').
      destruct i as [|i]; cbn in Hi.
      * injection Hi as <-. destruct a as [|a]; [lia|].
        exfalso. destruct Ha as [_ Hf]. apply (Hf 0); [lia|reflexivity].
      * destruct (Hshift x a Ha (Hz _ _ Hi)) as (a' & -> & Ha').
        assert (a' < b') by (eapply (IH (z :: seen) i j); eauto; lia). lia.
Qed.

(** * [joined] *)
Lemma removeprefix_Drop : forall s p, p <> [] -> DropLeading p s (removeprefix s p).
Proof.
  intros s p _. destruct (prefix_dec s p) as [[q ->]|Hn].
  - left. now rewrite removeprefix_app.
  - right. split.
    + intros [q Hq]. exact (Hn q Hq).
    + now apply removeprefix_spec.
Qed.

Lemma removesuffix_Drop : forall s p, p <> [] -> DropTrailing p s (removesuffix s p).
Proof.
  intros s p _. destruct (suffix_dec s p) as [[q ->]|Hn].
  - left. now rewrite removesuffix_app.
  - right. split.
    + intros [q Hq]. exact (Hn q Hq).
    + now apply removesuffix_spec.
Qed.

Lemma joined_single : forall t sep, joined [t] sep = t.
Proof. reflexivity. Qed.

Lemma joined_spec : forall ts sep, length ts <> 1 -> sep <> [] ->
  exists mid, DropLeading sep (interleave sep ts) mid /\ DropTrailing sep mid (joined ts sep).
Proof.
  intros ts sep Hl Hs. exists (removeprefix (interleave sep ts) sep).
  split; [now apply removeprefix_Drop|].
  assert (H : joined ts sep = removesuffix (removeprefix (interleave sep ts) sep) sep).
  { unfold joined. rewrite join_interleave.
    destruct ts as [|x [|y ts]]; cbn in Hl; [|lia|]; destruct sep; congruence. }
  rewrite H. now apply removesuffix_Drop.
Qed.

Lemma joined_nil_sep : forall ts, joined ts [] = concat ts.
Proof.
  intros ts. destruct ts as [|x [|y ts]]; cbn [joined]; try reflexivity.
  - cbn. now rewrite app_nil_r.
  - apply join_nil_sep.
Qed.

(** The prefix of an interleaving is decided by the first text if that is
    longer than the separator or differs from its beginning. *)
Lemma interleave_clean : forall ts sep, ts <> [] -> length ts <> 1 -> sep <> [] ->
  ~ StartsWith (interleave sep ts) sep -> ~ EndsWith (interleave sep ts) sep ->
  joined ts sep = interleave sep ts.
Proof.
  intros ts sep H0 H1 Hs Ha Hb.
  destruct (joined_spec ts sep H1 Hs) as (mid & Hm & Ht).
  destruct Hm as [Hm|[_ ->]].
  - exfalso. apply Ha. exists mid; exact Hm.
  - destruct Ht as [Ht|[_ Ht]]; [|exact Ht].
    exfalso. apply Hb. exists (joined ts sep); exact Ht.
Qed.

Lemma interleave_snoc : forall sep ts x, ts <> [] ->
  interleave sep (ts ++ [x]) = interleave sep ts ++ sep ++ x.
Proof.
  intros sep ts x H. rewrite <- !join_interleave. now apply join_snoc.
Qed.

Lemma StartsWith_long : forall (t rest sep : str), length sep <= length t ->
  StartsWith (t ++ rest) sep -> StartsWith t sep.
Proof.
  intros t rest sep. revert t. induction sep as [|c sep IH]; intros t Hl [q E].
  - now exists t.
  - destruct t as [|d t]; [cbn in Hl; lia|]. injection E as -> E. cbn in Hl.
    destruct (IH t ltac:(lia) (ex_intro _ q E)) as [q' ->]. now exists q'.
Qed.

Lemma StartsWith_rev : forall s p : str, EndsWith s p <-> StartsWith (rev s) (rev p).
Proof.
  intros s p. split.
  - intros [q ->]. exists (rev q). apply rev_app_distr.
  - intros [q E]. exists (rev q). apply (f_equal (@rev _)) in E.
    rewrite rev_app_distr, !rev_involutive in E. exact E.
Qed.

Lemma EndsWith_long : forall (t rest sep : str), length sep <= length t ->
  EndsWith (rest ++ t) sep -> EndsWith t sep.
Proof.
  intros t rest sep Hl H. rewrite StartsWith_rev in *. rewrite rev_app_distr in H.
  eapply StartsWith_long; [|exact H]. now rewrite !rev_length.
Qed.

Lemma joined_exact_long : forall a ts b sep,
  sep <> [] ->
  length sep <= length a -> ~ StartsWith a sep ->
  length sep <= length b -> ~ EndsWith b sep ->
  joined (a :: ts ++ [b]) sep = interleave sep (a :: ts ++ [b]).
Proof.
  intros a ts b sep Hs La Ha Lb Hb. apply interleave_clean; [discriminate| |assumption| |].
  - cbn. rewrite app_length. cbn. lia.
  - cbn [interleave]. intros H. apply Ha. eapply StartsWith_long; eauto.
  - change (a :: ts ++ [b]) with ((a :: ts) ++ [b]). rewrite interleave_snoc by discriminate.
    intros H. apply Hb. eapply EndsWith_long; [exact Lb|].
    rewrite app_assoc in H. exact H.
Qed.

(** A sequence with the two empty sentinels (combinatorial sampler) joins to
    the plain interleaving. *)
Lemma joined_sentinels : forall ts sep,
  joined ([] :: ts ++ [[]]) sep = interleave sep ts.
Proof.
  intros ts sep. unfold joined.
  destruct (ts ++ [[]]) as [|y l] eqn:E.
  { destruct ts; discriminate. }
  rewrite <- E. rewrite join_interleave.
  destruct ts as [|t ts].
  - cbn. destruct sep as [|c sep]; [reflexivity|].
    rewrite !app_nil_r.
    replace (removeprefix (c :: sep) (c :: sep)) with (@nil N)
      by (symmetry; rewrite <- (app_nil_r (c :: sep)) at 1; apply removeprefix_app).
    unfold removesuffix. destruct (endswith [] (c :: sep)) eqn:Hn; reflexivity.
  - assert (Hi : interleave sep ([] :: (t :: ts) ++ [[]])
                 = sep ++ interleave sep (t :: ts) ++ sep).
    { change ([] :: (t :: ts) ++ [[]]) with (([] :: t :: ts) ++ [[]]).
      rewrite interleave_snoc by discriminate. rewrite app_nil_r.
      cbn. now rewrite <- !app_assoc. }
    rewrite Hi. destruct sep as [|c sep].
    + cbn [app]. now rewrite app_nil_r.
    + rewrite removeprefix_app, removesuffix_app. reflexivity.
Qed.

(** * Whitespace *)
Lemma isspace_Space : forall c, isspace c = true <-> Space c.
Proof.
  intros c. unfold isspace, Space. rewrite !orb_true_iff, !andb_true_iff, !N.leb_le, !N.eqb_eq.
  split.
  - intros H.
    assert (Hc : (c = 9 \/ c = 10 \/ c = 11 \/ c = 12 \/ c = 13 \/ c = 28 \/ c = 29 \/ c = 30
            \/ c = 31 \/ c = 32 \/ c = 133 \/ c = 160 \/ c = 5760 \/ c = 8192 \/ c = 8193
            \/ c = 8194 \/ c = 8195 \/ c = 8196 \/ c = 8197 \/ c = 8198 \/ c = 8199 \/ c = 8200
            \/ c = 8201 \/ c = 8202 \/ c = 8232 \/ c = 8233 \/ c = 8239 \/ c = 8287
            \/ c = 12288)%N) by lia.
    cbn. repeat (destruct Hc as [->|Hc]; [tauto|]). subst; tauto.
  - cbn. intros H. repeat (destruct H as [<-|H]; [lia|]). tauto.
Qed.

Lemma isspace_false : forall c, isspace c = false <-> ~ Space c.
Proof. intros c. rewrite <- isspace_Space. destruct (isspace c); intuition congruence. Qed.

Lemma Forall_isspace : forall s, Forall Space s <-> forallb isspace s = true.
Proof.
  intros s. rewrite forallb_forall, Forall_forall.
  split; intros H x Hx; apply isspace_Space; auto.
Qed.

Lemma split_ws_aux_spaces : forall s, Forall Space s -> split_ws_aux [] s = [].
Proof.
  induction s as [|c s IH]; cbn; intros H; [reflexivity|].
  inversion H; subst. apply isspace_Space in H2. rewrite H2. auto.
Qed.

Lemma split_ws_aux_pad : forall pad s, Forall Space pad ->
  split_ws_aux [] (pad ++ s) = split_ws_aux [] s.
Proof.
  induction pad as [|c pad IH]; cbn; intros s H; [reflexivity|].
  inversion H; subst. apply isspace_Space in H2. rewrite H2. auto.
Qed.

Lemma split_ws_aux_word : forall w cur s, Forall (fun c => ~ Space c) w ->
  split_ws_aux cur (w ++ s) = split_ws_aux (rev w ++ cur) s.
Proof.
  induction w as [|c w IH]; cbn; intros cur s H; [reflexivity|].
  inversion H; subst. apply isspace_false in H2. rewrite H2.
  rewrite IH by assumption. now rewrite <- app_assoc.
Qed.

Lemma Words_split : forall s ws, Words s ws -> split_ws s = ws.
Proof.
  intros s ws H. unfold split_ws. induction H as [s Hs|pad w rest ws Hp [Hw0 Hw] Hr Hws IH].
  - now apply split_ws_aux_spaces.
  - rewrite split_ws_aux_pad, split_ws_aux_word by assumption. rewrite app_nil_r.
    assert (Hrw : rev w <> []).
    { intros E. apply (f_equal (@rev _)) in E. rewrite rev_involutive in E. cbn in E. tauto. }
    destruct Hr as [->|(c & rest' & -> & Hc)].
    + inversion Hws; subst.
      * cbn. destruct (rev w) eqn:E; [congruence|]. rewrite <- E. now rewrite rev_involutive.
      * match goal with H : _ ++ _ ++ _ = [] |- _ => apply app_eq_nil in H as [_ H]; apply app_eq_nil in H as [H _]; subst end.
        match goal with H : Word [] |- _ => destruct H; congruence end.
    + cbn. apply isspace_Space in Hc. rewrite Hc.
      destruct (rev w) eqn:E; [congruence|]. rewrite <- E, rev_involutive. f_equal.
      cbn in IH. rewrite Hc in IH. exact IH.
Qed.

Lemma drop_while_length : forall f s, length (drop_while f s) <= length s.
Proof. induction s as [|c s IH]; cbn; [lia|]. destruct (f c); cbn; lia. Qed.

Lemma Words_total : forall s, exists ws, Words s ws.
Proof.
  intros s. remember (length s) as n eqn:Hn. revert s Hn.
  induction n as [n IH] using lt_wf_ind. intros s ->.
  pose (pad := take_while isspace s). pose (s1 := drop_while isspace s).
  pose (nsp := fun c => negb (isspace c)).
  destruct s1 as [|c s1'] eqn:E1; subst s1.
  - exists []. constructor. rewrite <- (take_drop_while isspace s), E1, app_nil_r.
    apply Forall_isspace, take_while_all.
  - pose (w := take_while nsp (c :: s1')). pose (rest := drop_while nsp (c :: s1')).
    pose proof (drop_while_head _ _ _ _ E1) as Hc.
    assert (Hlen : length rest < length s).
    { assert (Er : rest = drop_while nsp s1').
      { subst rest. cbn [drop_while]. unfold nsp at 1. now rewrite Hc. }
      rewrite Er. pose proof (drop_while_length nsp s1') as L1.
      pose proof (drop_while_length isspace s) as L2.
      rewrite E1 in L2. cbn [length] in L2. lia. }
    destruct (IH (length rest) Hlen rest eq_refl) as [ws Hws].
    exists (w :: ws).
    rewrite <- (take_drop_while isspace s), E1.
    rewrite <- (take_drop_while nsp (c :: s1')).
    apply Words_cons.
    + apply Forall_isspace, take_while_all.
    + split.
      * cbn. unfold nsp. rewrite Hc. cbn. discriminate.
      * pose proof (take_while_all nsp (c :: s1')) as Hall. rewrite forallb_forall in Hall.
        apply Forall_forall. intros x Hx. apply isspace_false.
        specialize (Hall x Hx). unfold nsp in Hall. now apply negb_true_iff in Hall.
    + destruct (drop_while nsp (c :: s1')) as [|d rest'] eqn:Er; [now left|].
      right. exists d, rest'. split; [reflexivity|].
      apply drop_while_head in Er. unfold nsp in Er. apply negb_false_iff in Er.
      now apply isspace_Space.
    + exact Hws.
Qed.

Lemma Words_words : forall s ws, Words s ws -> Forall Word ws.
Proof. induction 1; constructor; auto. Qed.

Lemma squash_words : forall s ws, Words s ws -> squash_whitespace s = interleave [32%N] ws.
Proof.
  intros s ws H. unfold squash_whitespace. rewrite (Words_split _ _ H).
  apply join_interleave.
Qed.

Lemma squash_Squashed : forall s, Squashed (squash_whitespace s).
Proof.
  intros s. destruct (Words_total s) as [ws H]. exists ws.
  split; [eapply Words_words; eauto|now apply squash_words].
Qed.

Lemma Words_interleave : forall ws, Forall Word ws -> Words (interleave [32%N] ws) ws.
Proof.
  assert (S32 : Space 32) by (apply isspace_Space; reflexivity).
  intros ws H.
  assert (Hg : forall ws, Forall Word ws ->
     Words (flat_map (fun y => [32%N] ++ y) ws) ws).
  { clear - S32. induction 1 as [|w ws Hw Hws IH]; [cbn; constructor; constructor|].
    cbn [flat_map]. rewrite <- app_assoc. apply Words_cons; auto.
    destruct ws as [|w' ws]; [now left|right]. exists 32%N. eexists. split; [reflexivity|assumption]. }
  destruct H as [|w ws Hw Hws]; [cbn; constructor; constructor|].
  cbn [interleave]. change (w ++ flat_map (fun y : list N => [32%N] ++ y) ws)
    with ([] ++ w ++ flat_map (fun y : list N => [32%N] ++ y) ws).
  apply Words_cons; auto.
  destruct ws as [|w' ws]; [now left|right]. exists 32%N. eexists. split; [reflexivity|assumption].
Qed.

Lemma squash_of_Squashed : forall t, Squashed t -> squash_whitespace t = t.
Proof.
  intros t (ws & H & ->). apply squash_words. now apply Words_interleave.
Qed.

Lemma squash_idem : forall s, squash_whitespace (squash_whitespace s) = squash_whitespace s.
Proof. intros; apply squash_of_Squashed, squash_Squashed. Qed.

Lemma Squashed_shape : forall t, Squashed t ->
  (forall c t', t = c :: t' -> ~ Space c) /\
  (forall c t', t = t' ++ [c] -> ~ Space c) /\
  (forall c, In c t -> Space c -> c = 32%N) /\
  (forall a c d b, t = a ++ c :: d :: b -> Space c -> ~ Space d).
Proof.
  intros t (ws & H & ->).
  assert (S32 : Space 32) by (apply isspace_Space; reflexivity).
  destruct H as [|w ws [Hw0 Hw] Hws].
  { repeat split; cbn; intros; try discriminate; try tauto;
    repeat match goal with H : [] = _ ++ _ |- _ => destruct (app_cons_not_nil _ _ _ H) end. }
  cbn [interleave].
  assert (Hgen : forall ws pre, pre <> [] -> Forall (fun c => ~ Space c) pre -> Forall Word ws ->
     let t := pre ++ flat_map (fun y => [32%N] ++ y) ws in
     (forall c t', t = c :: t' -> ~ Space c) /\
     (forall c t', t = t' ++ [c] -> ~ Space c) /\
     (forall c, In c t -> Space c -> c = 32%N) /\
     (forall a c d b, t = a ++ c :: d :: b -> Space c -> ~ Space d)).
  { clear - S32. induction ws as [|w ws IH]; intros pre Hp0 Hp Hws; cbn zeta.
    - cbn. rewrite app_nil_r. rewrite Forall_forall in Hp. repeat split.
      + intros c t' ->. apply Hp; now left.
      + intros c t' ->. apply Hp. apply in_or_app; right; now left.
      + intros c Hc Hs. destruct (Hp c Hc Hs).
      + intros a c d b ->. intros Hs. exfalso. apply (Hp c); [|assumption].
        apply in_or_app; right; now left.
    - inversion Hws as [|? ? [Hw0 Hw] Hws']; subst.
      specialize (IH w Hw0 Hw Hws'). cbn zeta in IH. destruct IH as (I1 & I2 & I3 & I4).
      cbn [flat_map]. cbn [app]. repeat split.
      + intros c t' E. destruct pre as [|p pre]; [congruence|].
        injection E as -> _. inversion Hp; assumption.
      + intros c t' E.
        assert (Hne : exists l x, w ++ flat_map (fun y => 32%N :: y) ws = l ++ [x]).
        { destruct (@exists_last _ (w ++ flat_map (fun y => 32%N :: y) ws)) as (l & x & El).
          - destruct w; [congruence|discriminate].
          - eauto. }
        destruct Hne as (l & x & El). rewrite El in E.
        replace (pre ++ 32%N :: l ++ [x]) with ((pre ++ 32%N :: l) ++ [x]) in E
          by (rewrite <- app_assoc; reflexivity).
        apply app_inj_tail in E as [_ <-]. eapply I2; exact El.
      + intros c Hc Hs. apply in_app_or in Hc as [Hc|[<-|Hc]].
        * rewrite Forall_forall in Hp. destruct (Hp c Hc Hs).
        * reflexivity.
        * now apply I3.
      + intros a c d b E Hs.
        (* position of the pair *)
        assert (Hcase : (exists a', a = pre ++ a' ) \/ (exists p', pre = a ++ p' /\ p' <> [])).
        { clear - E. revert a E. induction pre as [|p pre IH]; intros a E.
          - left. exists a. reflexivity.
          - destruct a as [|x a].
            + right. exists (p :: pre). split; [reflexivity|discriminate].
            + injection E as -> E. destruct (IH a E) as [(a' & ->)|(p' & -> & H)].
              * left; exists a'; reflexivity.
              * right; exists p'; split; [reflexivity|assumption]. }
        destruct Hcase as [(a' & ->)|(p' & -> & Hp')].
        * rewrite <- app_assoc in E. apply app_inv_head in E.
          destruct a' as [|x a']; cbn in E.
          -- injection E as _ E. eapply I1. exact E.
          -- injection E as _ E. eapply I4; [exact E|assumption].
        * rewrite <- app_assoc in E. apply app_inv_head in E.
          destruct p' as [|x p']; [congruence|]. cbn in E. injection E as -> _.
          exfalso. rewrite Forall_forall in Hp. apply (Hp c); [|assumption].
          apply in_or_app; right; now left. }
  apply Hgen; assumption.
Qed.

(** * Wrap markers *)
Lemma wrap_marker_char_spec : forall c, wrap_marker_char c = true <-> EllipsisChar c.
Proof.
  intros c. unfold wrap_marker_char, EllipsisChar. rewrite existsb_exists. split.
  - intros (x & Hx & E). apply N.eqb_eq in E. now subst.
  - intros H. exists c. split; [assumption|apply N.eqb_refl].
Qed.

Lemma is_dot_spec : forall c, is_dot c = true <-> c = 46%N.
Proof. intros; apply N.eqb_eq. Qed.

Lemma Forall_forallb : forall {A} (P : A -> Prop) (f : A -> bool) l,
  (forall x, f x = true <-> P x) -> (forallb f l = true <-> Forall P l).
Proof.
  intros A P f l H. rewrite forallb_forall, Forall_forall.
  split; intros Hl x Hx; apply H; auto.
Qed.

Lemma dot_not_ellipsis : ~ EllipsisChar 46%N.
Proof. unfold EllipsisChar; cbn; intuition discriminate. Qed.

(** A marker at the head of [s] is detected. *)
Lemma match_wrap_marker_complete : forall m b, Marker m ->
  match_wrap_marker (m ++ b) <> None.
Proof.
  intros m b [[Hn Hm]|[Hl Hm]] H.
  - unfold match_wrap_marker in H.
    rewrite take_while_app_all in H
      by (apply (Forall_forallb EllipsisChar); [apply wrap_marker_char_spec|assumption]).
    destruct m; [congruence|discriminate].
  - unfold match_wrap_marker in H.
    destruct (take_while wrap_marker_char (m ++ b)); [|discriminate].
    rewrite (take_while_app_all is_dot) in H
      by (apply (Forall_forallb (fun c => c = 46%N)); [apply is_dot_spec|assumption]).
    assert (Hb : Nat.leb 3 (length (m ++ take_while is_dot b)) = true).
    { apply Nat.leb_le. rewrite app_length. lia. }
    rewrite Hb in H. discriminate.
Qed.

Lemma match_wrap_marker_sound : forall s rest, match_wrap_marker s = Some rest ->
  exists m, s = m ++ rest /\ Marker m /\ (forall c r', rest = c :: r' -> ~ Marker (m ++ [c])).
Proof.
  intros s rest H. unfold match_wrap_marker in H.
  destruct (take_while wrap_marker_char s) as [|c l] eqn:Et.
  - destruct (3 <=? length (take_while is_dot s)) eqn:Hl; [|discriminate].
    injection H as <-. exists (take_while is_dot s).
    apply Nat.leb_le in Hl. split; [symmetry; apply take_drop_while|]. split.
    + right. split; [assumption|].
      apply (Forall_forallb _ is_dot); [apply is_dot_spec|apply take_while_all].
    + intros c r' E [[_ Hm]|[_ Hm]].
      * destruct (take_while is_dot s) as [|d l] eqn:Ed; [cbn in Hl; lia|].
        inversion Hm; subst. pose proof (take_while_all is_dot s) as Ha. rewrite Ed in Ha.
        cbn in Ha. apply andb_true_iff in Ha as [Ha _]. apply is_dot_spec in Ha; subst.
        now apply dot_not_ellipsis.
      * apply drop_while_head in E. apply Forall_app in Hm as [_ Hm]. inversion Hm; subst.
        cbn in E. discriminate.
  - injection H as <-. exists (c :: l). rewrite <- Et.
    split; [symmetry; apply take_drop_while|]. split.
    + left. split; [rewrite Et; discriminate|].
      apply (Forall_forallb _ wrap_marker_char); [apply wrap_marker_char_spec|apply take_while_all].
    + intros d r' E Hm.
      pose proof (take_while_all wrap_marker_char s) as Ha. rewrite Et in Ha. cbn in Ha.
      apply andb_true_iff in Ha as [Ha _]. apply wrap_marker_char_spec in Ha.
      rewrite Et in Hm. destruct Hm as [[_ Hm]|[_ Hm]].
      * apply Forall_app in Hm as [_ Hm]. inversion Hm; subst.
        apply drop_while_head in E. apply wrap_marker_char_spec in H1. congruence.
      * inversion Hm; subst. now apply dot_not_ellipsis.
Qed.

Lemma search_wrap_marker_spec : forall s,
  match search_wrap_marker s with
  | Some (p, q) => CutAtMarker s p q /\ exists m, s = p ++ m ++ q /\ Marker m
  | None => forall a m b, s = a ++ m ++ b -> ~ Marker m
  end.
Proof.
  assert (Hne : forall m, Marker m -> m <> []).
  { intros m [[H _]|[H _]]; [assumption|]. intros ->. cbn in H; lia. }
  induction s as [|c s IH].
  - cbn. intros a m b E Hm. symmetry in E. apply app_eq_nil in E as [_ E].
    apply app_eq_nil in E as [E _]. eapply Hne; eauto.
  - cbn [search_wrap_marker].
    destruct (match_wrap_marker (c :: s)) as [rest|] eqn:Hm.
    + destruct (match_wrap_marker_sound _ _ Hm) as (m & E & HM & Hmax).
      split.
      * right. exists m. split; [exact E|]. split; [assumption|]. split; [|assumption].
        intros; cbn; lia.
      * exists m; split; [exact E|assumption].
    + destruct (search_wrap_marker s) as [[p q]|].
      * destruct IH as [IH (m & E & HM)]. split.
        -- right. destruct IH as [(Hno & _)|(m' & E' & HM' & Hleft & Hmax)].
           { exfalso. eapply Hno; eauto. }
           exists m'. split; [cbn; now rewrite <- E'|]. split; [assumption|]. split; [|assumption].
           intros a m'' b Ea HM''. destruct a as [|x a].
           { exfalso. cbn in Ea. eapply match_wrap_marker_complete; [exact HM''|].
             rewrite <- Ea. exact Hm. }
           injection Ea as -> Ea. cbn. specialize (Hleft a m'' b Ea HM''). lia.
        -- exists m. split; [cbn; now rewrite <- E|assumption].
      * intros a m b Ea HM. destruct a as [|x a].
        -- cbn in Ea. eapply match_wrap_marker_complete; [exact HM|]. rewrite <- Ea. exact Hm.
        -- injection Ea as -> Ea. eapply IH; eauto.
Qed.

Lemma split_wrapper_cut : forall s,
  CutAtMarker s (fst (split_wrapper_string s)) (snd (split_wrapper_string s)).
Proof.
  intros s. unfold split_wrapper_string. pose proof (search_wrap_marker_spec s) as H.
  destruct (search_wrap_marker s) as [[p q]|]; cbn.
  - tauto.
  - left. auto.
Qed.

Lemma as_wrapper_cut : forall wrapper inner, exists before after,
  CutAtMarker wrapper before after /\ as_wrapper wrapper inner = before ++ inner ++ after.
Proof.
  intros w i. exists (fst (split_wrapper_string w)), (snd (split_wrapper_string w)).
  split; [apply split_wrapper_cut|]. unfold as_wrapper.
  destruct (split_wrapper_string w) as [p q]. cbn [fst snd].
  rewrite joined_nil_sep. cbn. now rewrite app_nil_r.
Qed.

Lemma CutAtMarker_unique : forall s p q p' q',
  CutAtMarker s p q -> CutAtMarker s p' q' -> p = p' /\ q = q'.
Proof.
  intros s p q p' q' [(Hno & -> & ->)|(m & E & HM & Hleft & Hmax)]
                     [(Hno' & -> & ->)|(m' & E' & HM' & Hleft' & Hmax')].
  - auto.
  - exfalso; eapply Hno; eauto.
  - exfalso; eapply Hno'; eauto.
  - assert (Hl : length p = length p').
    { pose proof (Hleft _ _ _ E' HM'). pose proof (Hleft' _ _ _ E HM). lia. }
    assert (Hp : p = p').
    { apply (f_equal (firstn (length p))) in E. apply (f_equal (firstn (length p))) in E'.
      rewrite firstn_app, Nat.sub_diag, firstn_all, app_nil_r in E.
      rewrite Hl in E' at 2. rewrite firstn_app, Nat.sub_diag, firstn_all, app_nil_r in E'.
      congruence. }
    subst p'. split; [reflexivity|].
    rewrite E in E'. apply app_inv_head in E'. clear - E' HM HM' Hmax Hmax'.
    (* two maximal markers at the same place *)
    assert (Hsym : forall m q m' q', m ++ q = m' ++ q' -> Marker m -> Marker m' ->
              (forall c r, q = c :: r -> ~ Marker (m ++ [c])) -> length m < length m' -> False).
    { clear. intros m q m' q' E HM HM' Hmax Hlt.
      assert (exists c l, m' = m ++ c :: l) as (c & l & ->).
      { clear - E Hlt. revert m' E Hlt. induction m as [|x m IH]; intros m' E Hlt.
        - destruct m' as [|c l]; [cbn in Hlt; lia|]. exists c, l. reflexivity.
        - destruct m' as [|y m']; [cbn in Hlt; lia|]. injection E as -> E.
          cbn in Hlt. destruct (IH m' E ltac:(lia)) as (c & l & ->). exists c, l. reflexivity. }
      rewrite <- app_assoc in E. apply app_inv_head in E. cbn in E.
      apply (Hmax c (l ++ q')); [exact E|].
      destruct HM as [[Hn Hm]|[Hn Hm]], HM' as [[Hn' Hm']|[Hn' Hm']];
        apply Forall_app in Hm' as [Hm1 Hm2]; inversion Hm2; subst.
      - left. split; [destruct m; discriminate|]. apply Forall_app; split; [assumption|]. now constructor.
      - exfalso. destruct m; [congruence|]. inversion Hm; inversion Hm1; subst. now apply dot_not_ellipsis.
      - exfalso. destruct m; [cbn in Hn; lia|]. inversion Hm; inversion Hm1; subst. now apply dot_not_ellipsis.
      - right. split; [rewrite app_length; lia|]. apply Forall_app; split; [assumption|]. now constructor. }
    destruct (Nat.lt_trichotomy (length m) (length m')) as [Hlt|[Heq|Hlt]].
    + exfalso. eapply (Hsym m q m' q'); eauto.
    + assert (m = m').
      { clear - E' Heq. revert m' E' Heq. induction m as [|x m IH]; destruct m' as [|y m']; cbn; intros E Hl; try lia; [reflexivity|].
        injection E as -> E. f_equal. apply IH; [exact E|lia]. }
      subst. now apply app_inv_head in E'.
    + exfalso. eapply (Hsym m' q' m q); eauto.
Qed.
