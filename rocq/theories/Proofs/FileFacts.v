From Coq Require Import String NArith ZArith QArith Qcanon Bool Arith List Lia.
From Verif.Model Require Import Str Utils Rng Values Context Names Structured TextFile.
From Verif.Spec Require Import Text Names Files.
From Verif.Proofs Require Import StrFacts UtilsFacts NamesFacts.
Import ListNotations.
Local Open Scope nat_scope.

(** * Text files *)

Lemma universal_app : forall l r, Forall (fun c => ~ NewlineChar c) l ->
  universal_newlines (l ++ r) = l ++ universal_newlines r.
Proof.
  induction l as [|c l IH]; intros r H; [reflexivity|].
  inversion H as [|? ? Hc Hl]; subst. cbn.
  destruct (N.eqb_spec c 13) as [->|_]; [exfalso; apply Hc; now right|].
  f_equal. auto.
Qed.

Lemma universal_break : forall nl r, LineBreak nl r ->
  universal_newlines (nl ++ r) = 10%N :: universal_newlines r.
Proof.
  intros nl r [->|[->|[-> H]]]; try reflexivity.
  cbn. destruct r as [|c r]; [reflexivity|].
  destruct (N.eqb_spec c 10) as [->|_]; [exfalso; now apply (H r)|reflexivity].
Qed.

Lemma file_lines_aux_app : forall l cur r, Forall (fun c => ~ NewlineChar c) l ->
  file_lines_aux cur (l ++ r) = file_lines_aux (rev l ++ cur) r.
Proof.
  induction l as [|c l IH]; intros cur r H; [reflexivity|].
  inversion H as [|? ? Hc Hl]; subst. cbn.
  destruct (N.eqb_spec c 10) as [->|_]; [exfalso; apply Hc; now left|].
  rewrite IH by assumption. now rewrite <- app_assoc.
Qed.

(** The lines that iteration yields: the lines of the content, with a final
    newline except possibly the last. *)
Lemma file_lines_spec : forall content ls, Lines content ls ->
  Forall2 (fun raw l => raw = l \/ raw = l ++ [10%N]) (file_lines content) ls.
Proof.
  unfold file_lines. induction 1 as [|l H0 Hl|l nl rest ls Hl Hb H IH].
  - constructor.
  - rewrite <- (app_nil_r l) at 1. rewrite universal_app by assumption. cbn [universal_newlines].
    rewrite file_lines_aux_app by assumption. cbn. rewrite app_nil_r.
    destruct (rev l) as [|c r] eqn:E.
    + apply (f_equal (@rev _)) in E. rewrite rev_involutive in E. cbn in E. congruence.
    + constructor; [|constructor]. left. rewrite <- E. apply rev_involutive.
  - rewrite universal_app by assumption. rewrite universal_break by assumption.
    rewrite file_lines_aux_app by assumption. cbn. constructor; [|exact IH].
    right. now rewrite app_nil_r, rev_involutive.
Qed.

Lemma Lines_total : forall content, exists ls, Lines content ls.
Proof.
  intros s. remember (length s) as n eqn:Hn. revert s Hn.
  induction n as [n IH] using lt_wf_ind. intros s ->.
  pose (f := fun c => negb (N.eqb c 10 || N.eqb c 13)).
  pose proof (take_drop_while f s) as E.
  assert (A : Forall (fun c => ~ NewlineChar c) (take_while f s)).
  { apply Forall_forall. intros c Hc. pose proof (take_while_all f s) as A.
    rewrite forallb_forall in A. specialize (A c Hc). unfold f in A.
    apply negb_true_iff, orb_false_iff in A as [A1 A2]. apply N.eqb_neq in A1, A2.
    intros [->| ->]; congruence. }
  remember (take_while f s) as l eqn:El. clear El.
  destruct (drop_while f s) as [|c r] eqn:Ed.
  - rewrite app_nil_r in E. rewrite E in A. destruct s as [|d s].
    + exists []. constructor.
    + exists [d :: s]. constructor; [congruence|assumption].
  - assert (Hc : c = 10%N \/ c = 13%N).
    { apply drop_while_head in Ed. unfold f in Ed. apply negb_false_iff, orb_true_iff in Ed.
      rewrite !N.eqb_eq in Ed. exact Ed. }
    assert (Hlen : length r < length s).
    { rewrite <- E, app_length. cbn. lia. }
    destruct Hc as [->| ->].
    + destruct (IH (length r) Hlen r eq_refl) as [ls Hls].
      exists (l :: ls). rewrite <- E.
      change (10%N :: r) with ([10%N] ++ r). constructor; auto. now left.
    + destruct r as [|d r'].
      * exists [l]. rewrite <- E.
        change [13%N] with ([13%N] ++ @nil N). constructor; auto; [|constructor].
        right; right. split; [reflexivity|congruence].
      * destruct (N.eq_dec d 10) as [->|Hd].
        -- destruct (IH (length r')) with (s := r') as [ls Hls]; [cbn in Hlen; lia|reflexivity|].
           exists (l :: ls). rewrite <- E.
           change (13%N :: 10%N :: r') with ([13; 10]%N ++ r'). constructor; auto.
           right; now left.
        -- destruct (IH (length (d :: r')) Hlen (d :: r') eq_refl) as [ls Hls].
           exists (l :: ls). rewrite <- E.
           change (13%N :: d :: r') with ([13%N] ++ (d :: r')). constructor; auto.
           right; right. split; [reflexivity|]. intros r E'. congruence.
Qed.

Lemma strip_Trimmed : forall s, Trimmed s (strip s).
Proof.
  intros s. unfold strip. destruct (strip_by_split isspace s) as (a & b & E & Ha & Hb).
  exists a, b. split; [exact E|]. split; [now apply Forall_isspace|].
  split; [now apply Forall_isspace|]. split; intros c t' H; apply isspace_false.
  - eapply strip_by_head; exact H.
  - eapply strip_by_last; exact H.
Qed.

Lemma Trimmed_strip : forall s t, Trimmed s t -> strip s = t.
Proof.
  intros s t (a & b & -> & Ha & Hb & Hh & Hl). unfold strip. apply strip_edges.
  - eapply Forall_impl; [|exact Ha]. intros c; apply isspace_Space.
  - eapply Forall_impl; [|exact Hb]. intros c; apply isspace_Space.
  - intros c t' E. apply isspace_false. eauto.
  - intros c t' E. apply isspace_false. eauto.
Qed.

Lemma strip_newline : forall l, strip (l ++ [10%N]) = strip l.
Proof.
  intros l. apply Trimmed_strip. destruct (strip_Trimmed l) as (a & b & E & Ha & Hb & Hh & Hl).
  exists a, (b ++ [10%N]). split; [rewrite E at 1; now rewrite <- !app_assoc|].
  repeat split; auto. apply Forall_app. split; [assumption|].
  constructor; [|constructor]. apply isspace_Space. reflexivity.
Qed.

Lemma is_empty_Ignored : forall l, is_empty_line l = true <-> Ignored (strip l).
Proof.
  intros l. unfold is_empty_line, Ignored. rewrite orb_true_iff, str_eqb_eq, startswith_spec.
  reflexivity.
Qed.

Lemma Kept_det : forall ls vs, Kept ls vs -> forall raws,
  Forall2 (fun raw l => raw = l \/ raw = l ++ [10%N]) raws ls ->
  flat_map (fun line => if is_empty_line line then [] else [strip line]) raws = vs.
Proof.
  induction 1 as [|l t ls vs Ht Hi H IH|l t ls vs Ht Hi H IH]; intros raws F;
    inversion F as [|raw ? raws' ? Hr F']; subst; [reflexivity| |].
  - assert (Es : strip raw = t).
    { rewrite <- (Trimmed_strip _ _ Ht). destruct Hr as [->| ->]; [reflexivity|apply strip_newline]. }
    cbn [flat_map]. assert (E : is_empty_line raw = true) by (apply is_empty_Ignored; now rewrite Es).
    rewrite E. now apply IH.
  - assert (Es : strip raw = t).
    { rewrite <- (Trimmed_strip _ _ Ht). destruct Hr as [->| ->]; [reflexivity|apply strip_newline]. }
    cbn [flat_map]. destruct (is_empty_line raw) eqn:E.
    + apply is_empty_Ignored in E. rewrite Es in E. tauto.
    + cbn. rewrite Es. f_equal. now apply IH.
Qed.

Lemma Kept_total : forall ls, exists vs, Kept ls vs.
Proof.
  induction ls as [|l ls [vs IH]]; [exists []; constructor|].
  destruct (is_empty_line l) eqn:E.
  - exists vs. apply (Kept_skip l (strip l)); [apply strip_Trimmed|now apply is_empty_Ignored|assumption].
  - exists (strip l :: vs). apply (Kept_keep l (strip l)); [apply strip_Trimmed| |assumption].
    intros Hi. apply is_empty_Ignored in Hi. congruence.
Qed.

Lemma text_values_iff : forall content vs, FileValues content vs <-> text_values content = vs.
Proof.
  intros content vs. split.
  - intros (ls & Hl & Hk). unfold text_values. eapply Kept_det; [exact Hk|].
    now apply file_lines_spec.
  - intros <-. destruct (Lines_total content) as [ls Hl]. destruct (Kept_total ls) as [vs Hk].
    exists ls. split; [assumption|]. replace (text_values content) with vs; [assumption|].
    symmetry. unfold text_values. eapply Kept_det; [exact Hk|]. now apply file_lines_spec.
Qed.

(** * Structured files *)

Lemma Qc_eqb_iff : forall a b : Qc, Qc_eq_bool a b = true <-> a = b.
Proof.
  intros a b. split; [apply Qc_eq_bool_correct|].
  intros ->. unfold Qc_eq_bool. now destruct (Qc_eq_dec b b).
Qed.

Lemma jtruthy_Falsy : forall v, jtruthy v = false <-> Falsy v.
Proof.
  intros v. unfold Falsy. destruct v as [|b|q|s|l|d|n]; cbn.
  - split; auto.
  - destruct b; split; intros H; try discriminate; auto;
      repeat (destruct H as [H|H]; [discriminate|]); discriminate.
  - rewrite negb_false_iff, Qc_eqb_iff. split.
    + intros ->. auto.
    + intros [H|[H|[H|[H|[H|H]]]]]; try discriminate. now injection H as ->.
  - destruct s; split; intros H; try discriminate; auto 6;
      repeat (destruct H as [H|H]; [discriminate|]); discriminate.
  - destruct l; split; intros H; try discriminate; auto 7;
      repeat (destruct H as [H|H]; [discriminate|]); discriminate.
  - destruct d; split; intros H; try discriminate; auto 8;
      repeat (destruct H as [H|H]; [discriminate|]); discriminate.
  - split; [discriminate|].
    intros H; repeat (destruct H as [H|H]; [discriminate|]); discriminate.
Qed.

Lemma jtruthy_not_Falsy : forall v, jtruthy v = true <-> ~ Falsy v.
Proof. intros v. rewrite <- jtruthy_Falsy. destruct (jtruthy v); intuition congruence. Qed.

Lemma rpartition_spec : forall s, match rpartition_colons s with
  | Some (a, b) => s = a ++ [58; 58]%N ++ b /\ ~ Contains (58%N :: b) [58; 58]%N
  | None => ~ Contains s [58; 58]%N
  end.
Proof.
  induction s as [|c s IH]; cbn [rpartition_colons].
  - intros (a & b & E). destruct a; discriminate.
  - destruct (rpartition_colons s) as [[a b]|] eqn:Er.
    + destruct IH as [-> H]. split; [reflexivity|assumption].
    + destruct (startswith (c :: s) $"::") eqn:Es.
      * apply startswith_spec in Es as [q Eq]. injection Eq as -> ->. split; [reflexivity|].
        exact IH.
      * intros (a & b & E). destruct a as [|d a]; cbn in E.
        -- rewrite E in Es. cbn in Es. destruct b; discriminate.
        -- injection E as -> E. apply IH. now exists a, b.
Qed.

Lemma last_colons_unique : forall a b a' b',
  a ++ [58; 58]%N ++ b = a' ++ [58; 58]%N ++ b' ->
  ~ Contains (58%N :: b) [58; 58]%N -> ~ Contains (58%N :: b') [58; 58]%N -> a = a' /\ b = b'.
Proof.
  induction a as [|c a IH]; intros b a' b' E H H'.
  - destruct a' as [|d a'].
    + cbn in E. now injection E as ->.
    + exfalso. cbn in E. injection E as _ E. apply H. exists a', b'. exact E.
  - destruct a' as [|d a'].
    + exfalso. cbn in E. injection E as _ E. apply H'. exists a, b. symmetry. exact E.
    + cbn in E. injection E as -> E. destruct (IH _ _ _ E H H') as [-> ->]. now split.
Qed.

Section P.
Variable P : pylib.

Lemma parse_string_item_spec : forall s, s <> [] ->
  EntryOf P (JStr s) (Some (parse_string_item P s)).
Proof.
  intros s Hs. destruct s as [|c r]; [congruence|]. unfold parse_string_item.
  assert (Hplain : (forall q content, ~ WeightedText P (c :: r) q content) ->
    EntryOf P (JStr (c :: r)) (Some {| w_content := c :: r; w_weight_opt := None |})).
  { intros H. apply EntryOf_text; [congruence|exact H]. }
  destruct (py_isdigit P c) eqn:Ed.
  2:{ apply Hplain. intros q content (d & r' & wt & E & Hd & _). injection E as <- _. congruence. }
  pose proof (rpartition_spec (c :: r)) as Hr.
  destruct (rpartition_colons (c :: r)) as [[wt content]|].
  - destruct Hr as [E Hn]. destruct (py_float P wt) as [q|] eqn:Ef.
    + apply EntryOf_weighted. exists c, r, wt. auto.
    + apply Hplain. intros q content' (d & r' & wt' & _ & _ & E' & Hn' & Hf').
      rewrite E in E'. destruct (last_colons_unique _ _ _ _ E' Hn Hn') as [-> _]. congruence.
  - apply Hplain. intros q content (d & r' & wt & _ & _ & E & _). apply Hr. now exists wt, content.
Qed.

Lemma jget_spec : forall key d, match jget key d with
  | None => forall v, ~ In (Some key, v) d
  | Some v => exists d1 d2, d = d1 ++ (Some key, v) :: d2 /\ forall v', ~ In (Some key, v') d1
  end.
Proof.
  intros key d. induction d as [|[[k|] v] d IH]; cbn [jget].
  - intros v [].
  - destruct (str_eqb_spec k key) as [->|Hk].
    + exists [], d. split; [reflexivity|]. intros v' [].
    + destruct (jget key d) as [w|].
      * destruct IH as (d1 & d2 & -> & H). exists ((Some k, v) :: d1), d2.
        split; [reflexivity|]. intros v' [E|Hin]; [congruence|eapply H; exact Hin].
      * intros v' [E|Hin]; [congruence|eapply IH; exact Hin].
  - destruct (jget key d) as [w|].
    + destruct IH as (d1 & d2 & -> & H). exists ((None, v) :: d1), d2.
      split; [reflexivity|]. intros v' [E|Hin]; [congruence|eapply H; exact Hin].
    + intros v' [E|Hin]; [congruence|eapply IH; exact Hin].
Qed.

Lemma jget_KeyVal : forall key d, KeyVal key d (default_jval (jget key d) JNull).
Proof.
  intros key d. pose proof (jget_spec key d) as H. destruct (jget key d) as [v|]; cbn.
  - destruct H as (d1 & d2 & -> & H). now constructor.
  - now constructor.
Qed.

Lemma first_unique : forall key (d1 : list (option text * jval)) v d2 d1' v' d2',
  d1 ++ (Some key, v) :: d2 = d1' ++ (Some key, v') :: d2' ->
  (forall w, ~ In (Some key, w) d1) -> (forall w, ~ In (Some key, w) d1') -> v = v'.
Proof.
  induction d1 as [|x d1 IH]; intros v d2 d1' v' d2' E H H'; destruct d1' as [|y d1']; cbn in E.
  - now injection E as ->.
  - injection E as <- _. exfalso. eapply H'. now left.
  - injection E as -> _. exfalso. eapply H. now left.
  - injection E as -> E. eapply IH; [exact E| |]; intros w Hin; [eapply H|eapply H']; right; exact Hin.
Qed.

Lemma KeyVal_jget : forall key d v, KeyVal key d v -> default_jval (jget key d) JNull = v.
Proof.
  intros key d v H. pose proof (jget_spec key d) as J. destruct (jget key d) as [w|] eqn:E; cbn.
  - destruct J as (d1 & d2 & -> & Hd). inversion H as [? Hno|d1' ? d2' Hd' E']; subst.
    + exfalso. eapply Hno. apply in_app_iff. right. now left.
    + symmetry. eapply first_unique; [exact E'|exact Hd'|exact Hd].
  - inversion H as [? Hno|d1' ? d2' Hd' E']; subst; [reflexivity|].
    exfalso. eapply J. apply in_app_iff. right. now left.
Qed.

Lemma WeightIs_jfloat : forall d q, WeightIs P d q ->
  jfloat P (default_jval (jget k_weight d) (JNum 1)) = Ok q.
Proof.
  intros d q H. pose proof (jget_spec k_weight d) as J.
  destruct (jget k_weight d) as [w|] eqn:E; cbn.
  - destruct J as (d1 & d2 & -> & Hd).
    inversion H as [? Hno|d1' d2' ? Hd' E'|d1' d2' b Hd' E'|d1' d2' s ? Hd' Hf E']; subst.
    + exfalso. eapply Hno. apply in_app_iff. right. now left.
    + rewrite <- (first_unique _ _ _ _ _ _ _ E' Hd' Hd). reflexivity.
    + rewrite <- (first_unique _ _ _ _ _ _ _ E' Hd' Hd). cbn. now destruct b.
    + rewrite <- (first_unique _ _ _ _ _ _ _ E' Hd' Hd). cbn. now rewrite Hf.
  - inversion H as [? Hno|d1' d2' ? Hd' E'|d1' d2' b Hd' E'|d1' d2' s ? Hd' Hf E']; subst;
      [reflexivity| | |]; exfalso; eapply J; apply in_app_iff; right; now left.
Qed.

Lemma jfloat_WeightIs : forall d q,
  jfloat P (default_jval (jget k_weight d) (JNum 1)) = Ok q -> WeightIs P d q.
Proof.
  intros d q H. pose proof (jget_spec k_weight d) as J.
  destruct (jget k_weight d) as [w|] eqn:E; cbn in H.
  - destruct J as (d1 & d2 & -> & Hd). destruct w as [|b|r|s|l|d'|n]; cbn in H; try discriminate.
    + destruct b; injection H as <-.
      * now apply (WeightIs_bool P d1 d2 true).
      * now apply (WeightIs_bool P d1 d2 false).
    + injection H as <-. now constructor.
    + destruct (py_float P s) as [r|] eqn:Ef; [|discriminate]. injection H as <-.
      now apply WeightIs_text with (s := s).
  - injection H as <-. now constructor.
Qed.

(** The value chosen by [item.get("text") or item.get("content") or ""]. *)
Definition chosen_content (d : list (option str * jval)) : jval :=
  let text := default_jval (jget k_text d) JNull in
  if jtruthy text then text
  else let c := default_jval (jget k_content d) JNull in
       if jtruthy c then c else JStr [].

Lemma chosen_content_truthy : forall d v, ContentIs d v -> ~ Falsy v -> chosen_content d = v.
Proof.
  intros d v [[Hk Hf]|(t & Ht & Hf & Hk)] Hv; unfold chosen_content.
  - rewrite (KeyVal_jget _ _ _ Hk). now rewrite (proj2 (jtruthy_not_Falsy v) Hf).
  - rewrite (KeyVal_jget _ _ _ Ht), (proj2 (jtruthy_Falsy t) Hf).
    rewrite (KeyVal_jget _ _ _ Hk). now rewrite (proj2 (jtruthy_not_Falsy v) Hv).
Qed.

Lemma chosen_content_falsy : forall d v, ContentIs d v -> Falsy v -> jtruthy (chosen_content d) = false.
Proof.
  intros d v [[Hk Hf]|(t & Ht & Hf & Hk)] Hv; unfold chosen_content; [tauto|].
  rewrite (KeyVal_jget _ _ _ Ht), (proj2 (jtruthy_Falsy t) Hf).
  rewrite (KeyVal_jget _ _ _ Hk). now rewrite (proj2 (jtruthy_Falsy v) Hv).
Qed.

Lemma ContentIs_total : forall d, exists v, ContentIs d v.
Proof.
  intros d. destruct (jtruthy (default_jval (jget k_text d) JNull)) eqn:E.
  - eexists. left. split; [apply jget_KeyVal|]. now apply jtruthy_not_Falsy.
  - eexists. right. eexists. split; [apply jget_KeyVal|]. split; [now apply jtruthy_Falsy|].
    apply jget_KeyVal.
Qed.

Lemma content_text_TextOf : forall v t, TextOf P v t <-> content_text P v = t.
Proof.
  intros v t. unfold TextOf. split.
  - intros [->|[Hn ->]]; [reflexivity|]. destruct v; try reflexivity. exfalso; eapply Hn; reflexivity.
  - intros <-. destruct v as [| | |s| | |]; try (right; split; [congruence|reflexivity]).
    now left.
Qed.

Lemma parse_list_item_dict : forall d, jtruthy (JDict d) = true ->
  parse_list_item P (JDict d) =
  match jfloat P (default_jval (jget k_weight d) (JNum 1)) with
  | Err e => Err e
  | Ok weight =>
      if jtruthy (chosen_content d) then
        if Qc_eq_bool weight 1
        then Ok (Some {| w_content := content_text P (chosen_content d); w_weight_opt := None |})
        else Ok (Some {| w_content := content_text P (chosen_content d); w_weight_opt := Some weight |})
      else Ok None
  end.
Proof. intros d H. unfold parse_list_item. rewrite H. reflexivity. Qed.

Lemma Qc_eqb_false : forall a b : Qc, Qc_eq_bool a b = false <-> a <> b.
Proof. intros a b. rewrite <- Qc_eqb_iff. destruct (Qc_eq_bool a b); intuition congruence. Qed.

Lemma parse_list_item_spec : forall v o, parse_list_item P v = Ok o <-> EntryOf P v o.
Proof.
  intros v o. split.
  - unfold parse_list_item. destruct (jtruthy v) eqn:Et; cbn [negb].
    2:{ intros H; injection H as <-. apply EntryOf_falsy. now apply jtruthy_Falsy. }
    pose proof (proj1 (jtruthy_not_Falsy v) Et) as Hnf.
    destruct v as [|b|q|s|l|d|n]; intros H;
      try (injection H as <-; apply EntryOf_other; [assumption|congruence|congruence]).
    + injection H as <-. apply parse_string_item_spec. intros ->. discriminate.
    + assert (H' : parse_list_item P (JDict d) = Ok o).
      { unfold parse_list_item. rewrite Et. exact H. }
      rewrite parse_list_item_dict in H' by exact Et. clear H.
      destruct (jfloat P (default_jval (jget k_weight d) (JNum 1))) as [q|e] eqn:Ef; [|discriminate].
      apply jfloat_WeightIs in Ef. destruct (ContentIs_total d) as [v Hv].
      destruct (jtruthy (chosen_content d)) eqn:Ec.
      * assert (Hvf : ~ Falsy v).
        { intros F. rewrite (chosen_content_falsy _ _ Hv F) in Ec. discriminate. }
        rewrite (chosen_content_truthy _ _ Hv Hvf) in H'.
        destruct (Qc_eq_bool q 1) eqn:Eq; injection H' as <-.
        -- apply Qc_eqb_iff in Eq. subst q. eapply EntryOf_dict_one; eauto.
           now apply content_text_TextOf.
        -- apply Qc_eqb_false in Eq. eapply EntryOf_dict; eauto. now apply content_text_TextOf.
      * injection H' as <-. eapply EntryOf_dict_empty; eauto.
        -- intros ->. discriminate.
        -- destruct (jtruthy v) eqn:Ev; [|now apply jtruthy_Falsy].
           apply jtruthy_not_Falsy in Ev. rewrite (chosen_content_truthy _ _ Hv Ev) in Ec.
           apply jtruthy_not_Falsy in Ev. congruence.
  - intros H. destruct H as [v F|s q content W|s Hs Hn|d v t Hw Hc Hf Ht|d q v t Hw Hq Hc Hf Ht
                            |d q v Hd Hw Hc Hf|v Hf Hs Hd].
    + unfold parse_list_item. apply jtruthy_Falsy in F. now rewrite F.
    + destruct W as (c & r & wt & -> & Hd & E & Hn & Hf). unfold parse_list_item. cbn [jtruthy negb].
      unfold parse_string_item. rewrite Hd. pose proof (rpartition_spec (c :: r)) as Hr.
      destruct (rpartition_colons (c :: r)) as [[a b]|].
      * destruct Hr as [E' Hn']. rewrite E in E'.
        destruct (last_colons_unique _ _ _ _ E' Hn Hn') as [<- <-]. now rewrite Hf.
      * exfalso. apply Hr. rewrite E. now exists wt, content.
    + pose proof (parse_string_item_spec s Hs) as H. unfold parse_list_item.
      destruct s as [|c r]; [congruence|]. cbn [jtruthy negb].
      remember (parse_string_item P (c :: r)) as i eqn:Ei. clear Ei.
      inversion H as [|? ? ? W| | | | |]; subst; [|reflexivity].
      exfalso. eapply Hn; exact W.
    + assert (Et : jtruthy (JDict d) = true).
      { destruct d; [|reflexivity]. exfalso. destruct Hc as [[Hk _]|(t' & _ & _ & Hk)].
        - apply KeyVal_jget in Hk. cbn in Hk. subst. apply Hf. now left.
        - apply KeyVal_jget in Hk. cbn in Hk. subst. apply Hf. now left. }
      rewrite parse_list_item_dict by exact Et. rewrite (WeightIs_jfloat _ _ Hw).
      rewrite (chosen_content_truthy _ _ Hc Hf), (proj2 (jtruthy_not_Falsy v) Hf).
      apply content_text_TextOf in Ht. rewrite Ht. reflexivity.
    + assert (Et : jtruthy (JDict d) = true).
      { destruct d; [|reflexivity]. exfalso. destruct Hc as [[Hk _]|(t' & _ & _ & Hk)].
        - apply KeyVal_jget in Hk. cbn in Hk. subst. apply Hf. now left.
        - apply KeyVal_jget in Hk. cbn in Hk. subst. apply Hf. now left. }
      rewrite parse_list_item_dict by exact Et. rewrite (WeightIs_jfloat _ _ Hw).
      rewrite (chosen_content_truthy _ _ Hc Hf), (proj2 (jtruthy_not_Falsy v) Hf).
      apply content_text_TextOf in Ht. rewrite Ht, (proj2 (Qc_eqb_false _ _) Hq). reflexivity.
    + assert (Et : jtruthy (JDict d) = true) by (destruct d; [congruence|reflexivity]).
      rewrite parse_list_item_dict by exact Et. rewrite (WeightIs_jfloat _ _ Hw).
      now rewrite (chosen_content_falsy _ _ Hc Hf).
    + unfold parse_list_item. rewrite (proj2 (jtruthy_not_Falsy v) Hf). cbn [negb].
      destruct v; try reflexivity; exfalso; [eapply Hs|eapply Hd]; reflexivity.
Qed.

Lemma parse_list_spec : forall l is, parse_list P l = Ok is <-> EntriesOf P l is.
Proof.
  induction l as [|v l IH]; intros is; cbn [parse_list].
  - split; [intros H; injection H as <-; constructor|]. intros H; now inversion H.
  - split.
    + destruct (parse_list_item P v) as [o|e] eqn:Ei; [|discriminate].
      destruct (parse_list P l) as [js|e] eqn:El; [|discriminate].
      intros H; injection H as <-. apply parse_list_item_spec in Ei.
      destruct o; constructor; auto; now apply IH.
    + intros H. inversion H as [|? ? ? He Hl|? ? i js He Hl]; subst;
        apply parse_list_item_spec in He; rewrite He; apply IH in Hl; now rewrite Hl.
Qed.

(** Recursion over JSON-like values. *)
Lemma parse_value_dict : forall pre d, jtruthy (JDict d) = true ->
  parse_value P pre (JDict d) = parse_dict P pre d.
Proof.
  intros pre d H. cbn [parse_value]. rewrite H. cbn [negb]. unfold parse_dict. clear H.
  induction d as [|[[k|] v] d IH]; cbn; [reflexivity| |exact IH]. now rewrite IH.
Qed.

Fixpoint jsize (v : jval) : nat :=
  match v with
  | JDict d => S ((fix go (d : list (option str * jval)) : nat :=
                     match d with [] => O | (_, v) :: d' => jsize v + go d' end) d)
  | _ => 1
  end.

Lemma jsize_pos : forall v, 1 <= jsize v.
Proof. destruct v; cbn; lia. Qed.

Lemma jsize_in : forall d k v, In (k, v) d -> jsize v < jsize (JDict d).
Proof.
  intros d k v H. cbn. induction d as [|[k' v'] d IH]; [destruct H|].
  destruct H as [E|H]; [injection E as -> ->; lia|]. specialize (IH H). lia.
Qed.

(** What one value contributes below [pre]. *)
Lemma parse_value_spec : forall v pre name items,
  In (name, items) (parse_value P pre v) <->
  ((exists l, Leaf v l /\ EntriesOf P l items /\ name = interleave [slash] pre) \/
   (exists d path w l, v = JDict d /\ Leads d path w /\ Leaf w l /\ EntriesOf P l items /\
      name = interleave [slash] (pre ++ path))).
Proof.
  intros v. remember (jsize v) as n eqn:Hn. revert v Hn.
  induction n as [n IH] using lt_wf_ind. intros v -> pre name items.
  assert (Hemit : forall l, In (name, items)
     (match parse_list P l with Ok es => [(join $"/" pre, es)] | Err _ => [] end) <->
     EntriesOf P l items /\ name = interleave [slash] pre).
  { intros l. destruct (parse_list P l) as [es|e] eqn:E.
    - apply parse_list_spec in E. split.
      + intros [H|[]]. injection H as <- <-. split; [assumption|]. apply join_interleave.
      + intros [He ->]. left. f_equal; [apply join_interleave|].
        apply parse_list_spec in E, He. congruence.
    - split; [intros []|]. intros [He _]. apply parse_list_spec in He. congruence. }
  destruct (jtruthy v) eqn:Et.
  2:{ assert (E0 : parse_value P pre v = []) by (destruct v; cbn [parse_value]; now rewrite Et).
      rewrite E0. split; [intros []|]. apply jtruthy_Falsy in Et.
      intros [(l & Hl & _)|(d & path & w & l & -> & Hp & _)].
      - destruct Hl as [[-> Hne]|(s & -> & Hne & _)]; apply jtruthy_Falsy in Et; cbn in Et.
        + destruct l; [congruence|discriminate].
        + destruct s; [congruence|discriminate].
      - apply jtruthy_Falsy in Et. destruct d; [|discriminate].
        inversion Hp as [? ? ? H|? ? ? ? ? H]; destruct H. }
  destruct v as [|b|q|s|l|d|m]; cbn [parse_value]; rewrite ?Et; cbn [negb].
  - discriminate.
  - split; [intros []|]. intros [(l & [[H _]|(s & H & _)] & _)|(d & path & w & l & H & _)]; discriminate.
  - split; [intros []|]. intros [(l & [[H _]|(s & H & _)] & _)|(d & path & w & l & H & _)]; discriminate.
  - rewrite Hemit. split.
    + intros [He Hname]. left. exists [JStr s]. split; [|auto]. right. exists s.
      split; [reflexivity|]. split; [|reflexivity]. intros ->. discriminate.
    + intros [(l & [[H _]|(s' & H & _ & ->)] & He & Hname)|(d & path & w & l & H & _)]; try discriminate.
      auto.
  - rewrite Hemit. split.
    + intros [He Hname]. left. exists l. split; [|auto]. left. split; [reflexivity|].
      intros ->. discriminate.
    + intros [(l' & [[H _]|(s' & H & _)] & He & Hname)|(d & path & w & l' & H & _)]; try discriminate.
      injection H as <-. auto.
  - assert (E1 : (fix go (d : list (option str * jval)) : list (str * list witem) :=
           match d with
           | [] => []
           | (Some name, v) :: d' => parse_value P (pre ++ [name]) v ++ go d'
           | (None, _) :: d' => go d'
           end) d = parse_dict P pre d).
    { rewrite <- parse_value_dict by exact Et. cbn [parse_value]. now rewrite Et. }
    rewrite E1. clear E1. unfold parse_dict. rewrite in_flat_map. split.
    + intros ([[k|] v] & Hin & H); [|destruct H].
      pose proof (jsize_in _ _ _ Hin) as Hlt.
      apply (IH _ Hlt v eq_refl) in H. right.
      destruct H as [(l & Hl & He & Hname)|(d' & path & w & l & -> & Hp & Hl & He & Hname)].
      * exists d, [k], v, l. repeat split; auto. now constructor.
      * exists d, (k :: path), w, l. repeat split; auto.
        -- eapply Leads_down; eauto.
        -- rewrite Hname. now rewrite <- app_assoc.
    + intros [(l & [[H _]|(s' & H & _)] & _)|(d' & path & w & l & E & Hp & Hl & He & Hname)];
        try discriminate.
      injection E as <-. inversion Hp as [? k ? Hin|? k d'' path' ? Hin Hp']; subst.
      * exists (Some k, w). split; [assumption|].
        apply (IH _ (jsize_in _ _ _ Hin) w eq_refl). left. exists l. auto.
      * exists (Some k, JDict d''). split; [assumption|].
        apply (IH _ (jsize_in _ _ _ Hin) _ eq_refl). right.
        exists d'', path', w, l. repeat split; auto. now rewrite <- app_assoc.
  - split; [intros []|]. intros [(l & [[H _]|(s & H & _)] & _)|(d & path & w & l & H & _)]; discriminate.
Qed.

Lemma parse_dict_spec : forall d name items,
  In (name, items) (parse_dict P [] d) <-> FileCollection P d name items.
Proof.
  intros d name items. destruct d as [|e d0].
  - split; [intros []|]. intros (path & v & l & Hp & _).
    inversion Hp as [? ? ? H|? ? ? ? ? H]; destruct H.
  - rewrite <- parse_value_dict by reflexivity. rewrite parse_value_spec. split.
    + intros [(l & [[H _]|(s' & H & _)] & _)|(d' & path & w & l & E & Hp & Hl & He & Hname)];
        try discriminate.
      injection E as <-. exists path, w, l. auto.
    + intros (path & v & l & Hp & Hl & He & Hname). right. exists (e :: d0), path, v, l. auto 6.
Qed.
End P.
