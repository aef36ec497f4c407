(** The clean-up of magic prompts against the patterns of Spec/CleanUp.v. *)
From Coq Require Import String NArith Bool Arith List Lia.
From Verif.Model Require Import Str Generators.
From Verif.Spec Require Import Text Regex CleanUp.
From Verif.Proofs Require Import StrFacts UtilsFacts.
Import ListNotations.
Local Open Scope nat_scope.

Section Reads.
Variable word : N -> Prop.

Lemma reads_nil_inv : forall b s x, Reads word [] b s x -> x = [].
Proof. intros b s x H. now inversion H. Qed.
Lemma reads_one_inv : forall P p b s x, Reads word (One P :: p) b s x ->
  exists c s' x', s = c :: s' /\ x = c :: x' /\ P c /\ Reads word p (b ++ [c]) s' x'.
Proof. intros P p b s x H. inversion H; subst. eauto 10. Qed.
Lemma reads_plus_inv : forall P p b s x, Reads word (Plus P :: p) b s x ->
  exists w s' x', s = w ++ s' /\ x = w ++ x' /\ w <> [] /\ Forall P w /\ Reads word p (b ++ w) s' x'.
Proof. intros P p b s x H. inversion H; subst. eauto 10. Qed.
Lemma reads_star_inv : forall P p b s x, Reads word (Star P :: p) b s x ->
  exists w s' x', s = w ++ s' /\ x = w ++ x' /\ Forall P w /\ Reads word p (b ++ w) s' x'.
Proof. intros P p b s x H. inversion H; subst. eauto 10. Qed.
Lemma reads_edge_inv : forall p b s x, Reads word (Edge :: p) b s x ->
  AtEdge word b s /\ Reads word p b s x.
Proof. intros p b s x H. inversion H; subst. auto. Qed.
Lemma reads_ahead_inv : forall P p b s x, Reads word (Ahead P :: p) b s x ->
  exists c s', s = c :: s' /\ P c /\ Reads word p b s x.
Proof. intros P p b s x H. inversion H; subst. eauto 10. Qed.

(** A class of characters and its test. *)
Definition Tests (f : N -> bool) (P : N -> Prop) : Prop := forall c, f c = true <-> P c.

Lemma tests_Forall : forall f P w, Tests f P -> (Forall P w <-> forallb f w = true).
Proof.
  intros f P w HT. rewrite forallb_forall, Forall_forall. split; intros H c Hc; apply HT; auto.
Qed.

Lemma taken : forall f w s, forallb f w = true -> head_is f s = false ->
  take_while f (w ++ s) = w /\ drop_while f (w ++ s) = s.
Proof.
  intros f w s Hw Hs. rewrite take_while_app_all, drop_while_app_all by assumption.
  destruct s as [|c s]; cbn in *; [now rewrite app_nil_r|].
  rewrite Hs. now rewrite app_nil_r.
Qed.

Lemma head_of_app : forall f w s, w <> [] -> forallb f w = true -> head_is f (w ++ s) = true.
Proof.
  intros f w s Hne Hw. destruct w as [|c w]; [congruence|]. cbn in *.
  now apply andb_true_iff in Hw as [-> _].
Qed.

Lemma forced_plus : forall f P p b s x, Tests f P ->
  (forall w s x, w <> [] -> Forall P w -> Reads word p (b ++ w) s x -> head_is f s = false) ->
  Reads word (Plus P :: p) b s x ->
  head_is f s = true /\
  exists x', x = take_while f s ++ x' /\ Reads word p (b ++ take_while f s) (drop_while f s) x'.
Proof.
  intros f P p b s x HT Hend H. apply reads_plus_inv in H as (w & s' & x' & -> & -> & Hne & Hw & H).
  pose proof (Hend _ _ _ Hne Hw H) as Hs. apply (tests_Forall f P w HT) in Hw.
  split; [now apply head_of_app|].
  destruct (taken f w s' Hw Hs) as [-> ->]. eauto.
Qed.

Lemma forced_star : forall f P p b s x, Tests f P ->
  (forall w s x, Forall P w -> Reads word p (b ++ w) s x -> head_is f s = false) ->
  Reads word (Star P :: p) b s x ->
  exists x', x = take_while f s ++ x' /\ Reads word p (b ++ take_while f s) (drop_while f s) x'.
Proof.
  intros f P p b s x HT Hend H. apply reads_star_inv in H as (w & s' & x' & -> & -> & Hw & H).
  pose proof (Hend _ _ _ Hw H) as Hs. apply (tests_Forall f P w HT) in Hw.
  destruct (taken f w s' Hw Hs) as [-> ->]. eauto.
Qed.

Lemma take_while_prefix : forall f w s, forallb f w = true ->
  length w <= length (take_while f (w ++ s)).
Proof. intros f w s Hw. rewrite take_while_app_all by assumption. rewrite app_length. lia. Qed.

Lemma last_plus : forall f P b s x, Tests f P -> Reads word [Plus P] b s x ->
  head_is f s = true /\ length x <= length (take_while f s).
Proof.
  intros f P b s x HT H. apply reads_plus_inv in H as (w & s' & x' & -> & -> & Hne & Hw & H).
  apply reads_nil_inv in H as ->. rewrite app_nil_r. apply (tests_Forall f P w HT) in Hw.
  split; [now apply head_of_app | now apply take_while_prefix].
Qed.

(** Reading as much as there is. *)
Lemma read_plus : forall f P p b s x, Tests f P -> head_is f s = true ->
  Reads word p (b ++ take_while f s) (drop_while f s) x ->
  Reads word (Plus P :: p) b s (take_while f s ++ x).
Proof.
  intros f P p b s x HT Hs H. rewrite <- (take_drop_while f s) at 1. constructor.
  - destruct s as [|c s]; cbn in *; [discriminate|]. now rewrite Hs.
  - apply (tests_Forall f P _ HT), take_while_all.
  - exact H.
Qed.
Lemma read_star : forall f P p b s x, Tests f P ->
  Reads word p (b ++ take_while f s) (drop_while f s) x ->
  Reads word (Star P :: p) b s (take_while f s ++ x).
Proof.
  intros f P p b s x HT H. rewrite <- (take_drop_while f s) at 1. constructor.
  - apply (tests_Forall f P _ HT), take_while_all.
  - exact H.
Qed.
End Reads.

(** Replacing a text everywhere. *)
Lemma reads_exactly : forall word x b s y, Reads word (exactly x) b s y <-> y = x /\ exists r, s = x ++ r.
Proof.
  intros word x. induction x as [|c x IH]; intros b s y; cbn [exactly map]; split.
  - intros H. apply reads_nil_inv in H. split; [exact H|]. exists s. reflexivity.
  - intros [-> _]. constructor.
  - intros H. apply reads_one_inv in H as (d & s' & x' & -> & -> & Hd & H). unfold is in Hd. subst d.
    apply IH in H as [-> [r ->]]. split; [reflexivity|]. exists r. reflexivity.
  - intros [-> [r ->]]. cbn [app]. apply Reads_one; [reflexivity|]. apply IH. eauto.
Qed.

Lemma replace_skip : forall old new x r,
  replace_aux old new (length x) (x ++ r) = replace_aux old new 0 r.
Proof. intros old new x r. induction x as [|c x IH]; [reflexivity|]. exact IH. Qed.

Lemma replace_subst : forall word old new, old <> [] -> forall s b,
  Subst word (exactly old) new b s (replace s old new).
Proof.
  intros word old new Hne s b.
  assert (Hrep : replace s old new = replace_aux old new 0 s) by (unfold replace; now destruct old).
  rewrite Hrep. clear Hrep. remember (length s) as n eqn:Hn. revert s Hn b.
  induction n as [n IH] using lt_wf_ind. intros s Hn b. destruct s as [|c s]; [constructor|].
  cbn [replace_aux]. destruct (startswith (c :: s) old) eqn:E.
  - apply startswith_spec in E as [r Hr]. rewrite Hr. destruct old as [|d old]; [congruence|].
    injection Hr as <- ->. cbn [length pred]. rewrite replace_skip.
    apply (Subst_match word (exactly (c :: old)) new b (c :: old) r).
    + split; [discriminate|]. split; [apply reads_exactly; eauto|].
      intros y Hy. apply reads_exactly in Hy as [-> _]. reflexivity.
    + eapply IH; [|reflexivity]. subst n. cbn. rewrite app_length. lia.
  - constructor.
    + intros x Hx. apply reads_exactly in Hx as [-> [r Hr]]. rewrite Hr, startswith_app in E. discriminate.
    + eapply IH; [|reflexivity]. subst n. cbn. lia.
Qed.

(** Every text has one result. *)
Section One_result.
Variable word : N -> Prop.

Lemma reads_prefix : forall p b s x, Reads word p b s x -> exists r, s = x ++ r.
Proof.
  intros p b s x H. induction H; try (destruct IHReads as [r ->]).
  - exists s. reflexivity.
  - exists r. reflexivity.
  - exists r. now rewrite <- app_assoc.
  - exists r. now rewrite <- app_assoc.
  - exists r. reflexivity.
  - exists r. reflexivity.
Qed.

Lemma longest_one : forall p b s x y, Longest word p b s x -> Longest word p b s y -> x = y.
Proof.
  intros p b s x y (_ & Hx & Mx) (_ & Hy & My).
  assert (Hl : length x = length y) by (apply Nat.le_antisymm; [now apply My|now apply Mx]).
  apply reads_prefix in Hx as [r ->]. apply reads_prefix in Hy as [r' Hy].
  clear Mx My. revert y Hl Hy. induction x as [|c x IH]; intros [|d y] Hl Hy; try discriminate; [reflexivity|].
  injection Hy as -> Hy. f_equal. apply IH; [now injection Hl|exact Hy].
Qed.

Lemma longest_reads : forall p b s x, Longest word p b s x -> Reads word p b s x.
Proof. intros p b s x (_ & H & _). exact H. Qed.

Lemma subst_one : forall p new b s t, Subst word p new b s t ->
  forall u, Subst word p new b s u -> t = u.
Proof.
  intros p new b s t H. induction H as [b|b x s t HL H IH|b c s t Hno H IH]; intros u Hu.
  - inversion Hu as [|? x s' t' HL|]; [reflexivity|]. subst. destruct x; [|discriminate].
    destruct HL as [HL _]. congruence.
  - remember (x ++ s) as q eqn:Hq. destruct Hu as [b|b y s' u HL' Hu|b c s' u Hno Hu].
    + destruct HL as [HL _]. destruct x; [congruence|discriminate].
    + assert (x = y) by now apply (longest_one p b (y ++ s')). subst y.
      apply app_inv_head in Hq. subst s'. f_equal. now apply IH.
    + exfalso. apply (Hno x). now apply longest_reads.
  - remember (c :: s) as q eqn:Hq. destruct Hu as [b|b y s' u HL' Hu|b d s' u Hno' Hu].
    + discriminate.
    + exfalso. apply (Hno y). now apply longest_reads.
    + injection Hq as -> ->. f_equal. now apply IH.
Qed.

Lemma find_one : forall p b s t, FindAll word p b s t -> forall u, FindAll word p b s u -> t = u.
Proof.
  intros p b s t H. induction H as [b|b x s t HL H IH|b c s t Hno H IH]; intros u Hu.
  - inversion Hu as [|? x s' t' HL|]; [reflexivity|]. subst. destruct x; [|discriminate].
    destruct HL as [HL _]. congruence.
  - remember (x ++ s) as q eqn:Hq. destruct Hu as [b|b y s' u HL' Hu|b c s' u Hno Hu].
    + destruct HL as [HL _]. destruct x; [congruence|discriminate].
    + assert (x = y) by now apply (longest_one p b (y ++ s')). subst y.
      apply app_inv_head in Hq. subst s'. f_equal. now apply IH.
    + exfalso. apply (Hno x). now apply longest_reads.
  - remember (c :: s) as q eqn:Hq. destruct Hu as [b|b y s' u HL' Hu|b d s' u Hno' Hu].
    + discriminate.
    + exfalso. apply (Hno y). now apply longest_reads.
    + injection Hq as -> ->. now apply IH.
Qed.

Lemma phrase_one : forall (p q : text) m n, p ++ repeat 33%N m = q ++ repeat 33%N n ->
  ~ In 33%N p -> ~ In 33%N q -> p = q /\ m = n.
Proof.
  induction p as [|c p IH]; intros [|d q] m n H Hp Hq.
  - split; [reflexivity|]. apply (f_equal (@length _)) in H. cbn in H. now rewrite !repeat_length in H.
  - exfalso. cbn in H. destruct m; [discriminate|]. injection H as <- _. apply Hq. now left.
  - exfalso. cbn in H. destruct n; [discriminate|]. injection H as -> _. apply Hp. now left.
  - injection H as <- H. destruct (IH q m n H) as [-> ->].
    + intros Hin. apply Hp. now right.
    + intros Hin. apply Hq. now right.
    + split; reflexivity.
Qed.

Lemma all_replaced_one : forall bw l s t, AllReplaced word bw l s t ->
  forall u, AllReplaced word bw l s u -> t = u.
Proof.
  intros bw l s t H. induction H as [s|x new l s t u HW HS H IH]; intros v Hv; inversion Hv; subst.
  - reflexivity.
  - apply IH. destruct HW as (ph & n & -> & Hph & ->).
    match goal with HW : Weighted _ _ _ |- _ => destruct HW as (ph' & n' & He & Hph' & ->) end.
    destruct (phrase_one _ _ _ _ He Hph Hph') as [-> ->].
    match goal with HS' : Subst _ _ _ _ s ?t' |- _ => now rewrite (subst_one _ _ _ _ _ HS _ HS') end.
Qed.

Lemma parenthesised_one : forall s t u, Parenthesised s t -> Parenthesised s u -> t = u.
Proof.
  intros s t u H. revert u. induction H as [|c d s t Hc H IH]; intros u Hu; inversion Hu; subst; [reflexivity|].
  f_equal; [|now apply IH]. intuition congruence.
Qed.

Lemma word_to_word_one : forall f s d, Tests f (fun c => ~ word c) ->
  WordToWord word s d -> d = strip_by f s.
Proof.
  intros f s d HT (a & b & -> & Ha & Hb & Hh & Hl).
  assert (Hno : forall c, word c -> f c = false).
  { intros c Hc. destruct (f c) eqn:E; [apply HT in E; contradiction|reflexivity]. }
  apply (tests_Forall f _ a HT) in Ha. apply (tests_Forall f _ b HT) in Hb.
  unfold strip_by. rewrite drop_while_app_all by exact Ha. destruct d as [|c d].
  - cbn [app]. rewrite <- (app_nil_r b), drop_while_app_all by exact Hb. reflexivity.
  - cbn [app drop_while]. rewrite (Hno c (Hh c d eq_refl)).
    change (c :: d ++ b) with ((c :: d) ++ b). rewrite rev_app_distr, drop_while_app_all
      by (now rewrite forallb_rev).
    rewrite drop_while_nonhead; [now rewrite rev_involutive|].
    intros e s' He. apply Hno, (Hl e (rev s')). apply (f_equal (@rev _)) in He.
    rewrite rev_involutive in He. exact He.
Qed.
End One_result.

Lemma tests_space : Tests isspace Space.
Proof. intros c. apply isspace_Space. Qed.
Lemma tests_ch : forall n, Tests (ch n) (is n).
Proof. intros n c. unfold ch, is. apply N.eqb_eq. Qed.
Lemma tests_stop : Tests is_stop Punctuation.
Proof.
  intros c. unfold is_stop, Punctuation, ch. rewrite !orb_true_iff, !N.eqb_eq. cbn.
  intuition congruence.
Qed.
Lemma tests_letter : Tests (fun c => is_ascii_letter c || ch 40 c) LetterOrOpen.
Proof.
  intros c. unfold is_ascii_letter, ch, LetterOrOpen.
  rewrite !orb_true_iff, !andb_true_iff, !N.leb_le, N.eqb_eq. intuition.
Qed.

Lemma tests_false : forall f P c, Tests f P -> ~ P c -> f c = false.
Proof. intros f P c HT H. destruct (f c) eqn:E; [apply HT in E; contradiction|reflexivity]. Qed.

Section CleanUp.
Variable alnum : char -> bool.
Notation wordb := (is_word alnum).
Variable word : N -> Prop.
Hypothesis Hword : forall c, wordb c = true <-> word c.
Hypothesis Hplain : PlainWords word.

Lemma tests_word : Tests wordb word.
Proof. exact Hword. Qed.

Definition lastw (b : str) : bool := match rev b with c :: _ => wordb c | [] => false end.

Lemma lastw_snoc : forall b c, lastw (b ++ [c]) = wordb c.
Proof. intros b c. unfold lastw. now rewrite rev_app_distr. Qed.

Lemma ends_lastw : forall b, EndsInWord word b <-> lastw b = true.
Proof.
  intros b. split.
  - intros (c & r & -> & Hc). rewrite lastw_snoc. now apply Hword.
  - destruct b as [|c b _] using rev_ind; [discriminate|]. rewrite lastw_snoc. intros H.
    exists c, b. split; [reflexivity|]. now apply Hword.
Qed.

Lemma begins_head : forall s, BeginsWithWord word s <-> head_is wordb s = true.
Proof.
  intros [|c s]; cbn; split.
  - intros (c & r & H & _). discriminate.
  - discriminate.
  - intros (d & r & [= -> ->] & H). now apply Hword.
  - intros H. exists c, s. split; [reflexivity|]. now apply Hword.
Qed.

Lemma edge_xor : forall b s, AtEdge word b s <-> xorb (lastw b) (head_is wordb s) = true.
Proof.
  intros b s. unfold AtEdge. rewrite ends_lastw, begins_head.
  destruct (lastw b), (head_is wordb s); cbn; intuition congruence.
Qed.

Lemma space_not_word : forall c, isspace c = true -> wordb c = false.
Proof.
  intros c Hc. destruct (wordb c) eqn:E; [|reflexivity].
  apply isspace_Space in Hc. apply Hword in E. destruct (Hplain c E) as [H _]. contradiction.
Qed.
Lemma word_not_space : forall c, wordb c = true -> isspace c = false.
Proof.
  intros c Hc. destruct (isspace c) eqn:E; [|reflexivity].
  apply space_not_word in E. congruence.
Qed.
Lemma mark_not_word : forall c, In c $",;.()-!" -> wordb c = false.
Proof.
  intros c Hc. destruct (wordb c) eqn:E; [|reflexivity].
  apply Hword in E. destruct (Hplain c E) as [_ H]. contradiction.
Qed.

Lemma lastw_spaces : forall b w, lastw b = false -> Forall Space w -> lastw (b ++ w) = false.
Proof.
  intros b w Hb Hw. destruct w as [|c w _] using rev_ind; [now rewrite app_nil_r|].
  rewrite app_assoc, lastw_snoc. apply Forall_app in Hw as [_ Hc]. inversion Hc; subst.
  now apply space_not_word, isspace_Space.
Qed.
Lemma lastw_some_spaces : forall b w, w <> [] -> Forall Space w -> lastw (b ++ w) = false.
Proof.
  intros b w Hne Hw. destruct w as [|c w _] using rev_ind; [congruence|].
  rewrite app_assoc, lastw_snoc. apply Forall_app in Hw as [_ Hc]. inversion Hc; subst.
  now apply space_not_word, isspace_Space.
Qed.

(** A function that tries to match at a place does what the pattern says. *)
Definition Correct (m : bool -> str -> option (str * nat)) (p : list item) (new : text) : Prop :=
  forall b s,
    match m (lastw b) s with
    | Some (rep, k) => rep = new /\ exists x r, s = x ++ r /\ length x = S k /\ Longest word p b s x
    | None => forall x, ~ Reads word p b s x
    end.

Lemma resub_skip : forall m b x r,
  resub_aux wordb m (lastw b) (length x) (x ++ r) = resub_aux wordb m (lastw (b ++ x)) 0 r.
Proof.
  intros m b x r. revert b. induction x as [|c x IH]; intros b; [now rewrite app_nil_r|].
  cbn [length app resub_aux]. rewrite <- (lastw_snoc b c), IH, <- app_assoc. reflexivity.
Qed.

Lemma resub_subst : forall m p new, Correct m p new ->
  forall s b, Subst word p new b s (resub_aux wordb m (lastw b) 0 s).
Proof.
  intros m p new HC s. remember (length s) as n eqn:Hn. revert s Hn.
  induction n as [n IH] using lt_wf_ind. intros s Hn b.
  destruct s as [|c s]; [constructor|]. pose proof (HC b (c :: s)) as H.
  cbn [resub_aux]. destruct (m (lastw b) (c :: s)) as [[rep k]|].
  - destruct H as (-> & x & r & Hs & Hk & HL).
    destruct x as [|d x]; [discriminate|]. injection Hs as <- ->. cbn in Hk. injection Hk as <-.
    rewrite <- (lastw_snoc b c), resub_skip, <- app_assoc. change (c :: x ++ r) with ((c :: x) ++ r).
    constructor; [exact HL|]. eapply IH; [|reflexivity]. subst n. cbn. rewrite app_length. lia.
  - constructor; [exact H|]. rewrite <- (lastw_snoc b c). eapply IH; [|reflexivity].
    subst n. cbn. lia.
Qed.

Ltac bools :=
  repeat match goal with
  | H : _ && _ = true |- _ => apply andb_true_iff in H as [? ?]
  end.

Lemma head_split : forall f s, head_is f s = true -> exists c r, s = c :: r /\ f c = true.
Proof. intros f [|c r] H; [discriminate|]. eauto. Qed.

Lemma one_not : forall f (P : N -> Prop) p b s x, (forall c, P c -> f c = false) ->
  Reads word (One P :: p) b s x -> head_is f s = false.
Proof.
  intros f P p b s x Hf H. apply reads_one_inv in H as (c & s' & x' & -> & _ & Hc & _). cbn. auto.
Qed.
Lemma plus_not : forall f (P : N -> Prop) p b s x, (forall c, P c -> f c = false) ->
  Reads word (Plus P :: p) b s x -> head_is f s = false.
Proof.
  intros f P p b s x Hf H. apply reads_plus_inv in H as (w & s' & x' & -> & _ & Hne & Hw & _).
  destruct w as [|c w]; [congruence|]. inversion Hw; subst. cbn. auto.
Qed.
Lemma ahead_not : forall f (P : N -> Prop) p b s x, (forall c, P c -> f c = false) ->
  Reads word (Ahead P :: p) b s x -> head_is f s = false.
Proof.
  intros f P p b s x Hf H. apply reads_ahead_inv in H as (c & s' & -> & Hc & _). cbn. auto.
Qed.

Lemma is_not_space : forall n c, isspace n = false -> is n c -> isspace c = false.
Proof. intros n c H ->. exact H. Qed.
Lemma stop_not_space : forall c, Punctuation c -> isspace c = false.
Proof. intros c H. cbn in H. repeat destruct H as [<-|H]; try reflexivity. contradiction. Qed.
Lemma letter_not_space : forall c, LetterOrOpen c -> isspace c = false.
Proof.
  intros c H. destruct (isspace c) eqn:E; [|reflexivity]. exfalso. revert E. unfold isspace.
  rewrite !orb_true_iff, !andb_true_iff, !N.leb_le, !N.eqb_eq. unfold LetterOrOpen in H. lia.
Qed.
Lemma letter_not_stop : forall c, LetterOrOpen c -> is_stop c = false.
Proof.
  intros c H. destruct (is_stop c) eqn:E; [|reflexivity]. exfalso. apply tests_stop in E.
  cbn in E. unfold LetterOrOpen in H. lia.
Qed.
Lemma space_not_stop : forall c, Space c -> is_stop c = false.
Proof.
  intros c H. destruct (is_stop c) eqn:E; [|reflexivity]. exfalso. apply tests_stop in E.
  apply stop_not_space in E. apply isspace_Space in H. congruence.
Qed.

(** [\(\s+] *)
Lemma open_ok : Correct m_open open_pattern $"(".
Proof.
  intros b s. unfold m_open. destruct (head_is (ch 40) s && head_is isspace (tl s)) eqn:E; bools.
  - apply head_split in H as (c & r & -> & Hc). apply tests_ch in Hc. cbn [tl] in *.
    split; [reflexivity|]. exists (c :: take_while isspace r), (drop_while isspace r).
    split; [cbn; now rewrite take_drop_while|]. split; [reflexivity|].
    split; [discriminate|]. split.
    + apply Reads_one; [exact Hc|]. rewrite <- (app_nil_r (take_while isspace r)).
      apply read_plus; [exact tests_space|assumption|constructor].
    + intros y Hy. apply reads_one_inv in Hy as (d & s' & x' & [= <- <-] & -> & _ & Hy).
      apply (last_plus _ _ _ _ _ _ tests_space) in Hy as [_ Hy]. cbn. lia.
  - intros x Hx. apply reads_one_inv in Hx as (d & s' & x' & -> & -> & Hd & Hx).
    apply (last_plus _ _ _ _ _ _ tests_space) in Hx as [Hx _]. cbn in E. apply tests_ch in Hd.
    rewrite Hd, Hx in E. discriminate.
Qed.

(** [\s+\)] *)
Lemma close_reads : forall b s x, Reads word close_pattern b s x ->
  head_is isspace s = true /\ head_is (ch 41) (drop_while isspace s) = true /\
  length x = S (run isspace s).
Proof.
  intros b s x H. apply (forced_plus _ _ _ _ _ _ _ tests_space) in H as (Hs & x' & -> & H).
  - apply reads_one_inv in H as (c & r & y & Er & -> & Hc & H). apply reads_nil_inv in H as ->.
    rewrite Er. apply tests_ch in Hc. split; [exact Hs|]. split; [exact Hc|].
    rewrite app_length. cbn. unfold run. lia.
  - intros w s' y _ _. apply one_not. intros c. now apply is_not_space.
Qed.
Lemma close_ok : Correct m_close close_pattern $")".
Proof.
  intros b s. unfold m_close.
  destruct (head_is isspace s && head_is (ch 41) (drop_while isspace s)) eqn:E; bools.
  - split; [reflexivity|]. apply head_split in H0 as (c & r & Er & Hc).
    exists (take_while isspace s ++ [c]), r.
    split; [rewrite <- app_assoc; cbn; rewrite <- Er; now rewrite take_drop_while|].
    split; [rewrite app_length; cbn; unfold run; lia|].
    split; [now destruct (take_while isspace s)|]. split.
    + apply read_plus; [exact tests_space|assumption|]. rewrite Er.
      apply Reads_one; [now apply tests_ch|constructor].
    + intros y Hy. apply close_reads in Hy as (_ & _ & ->). rewrite app_length. cbn. unfold run. lia.
  - intros x Hx. apply close_reads in Hx as (H1 & H2 & _). rewrite H1, H2 in E. discriminate.
Qed.

Lemma edge_then_word : forall b s x, lastw b = false -> Reads word [Edge] b s x ->
  head_is wordb s = true /\ x = [].
Proof.
  intros b s x Hb H. apply reads_edge_inv in H as [He H]. apply reads_nil_inv in H.
  apply edge_xor in He. rewrite Hb, xorb_false_l in He. auto.
Qed.

Lemma word_head_not_space : forall s, head_is wordb s = true -> head_is isspace s = false.
Proof. intros [|c s] H; [discriminate|]. cbn in *. now apply word_not_space. Qed.
Lemma space_head_not_word : forall s, head_is isspace s = true -> head_is wordb s = false.
Proof. intros [|c s] H; [discriminate|]. cbn in *. now apply space_not_word. Qed.

(** [\b\s+\-\s+\b] *)
Lemma hyphen_reads : forall b s x, Reads word hyphen_pattern b s x ->
  let s1 := drop_while isspace s in
  let s2 := drop_while isspace (tl s1) in
  lastw b && head_is isspace s && head_is (ch 45) s1 && head_is isspace (tl s1)
     && head_is wordb s2 = true /\
  length x = S (run isspace s + run isspace (tl s1)).
Proof.
  intros b s x H s1 s2. apply reads_edge_inv in H as [He H].
  apply (forced_plus _ _ _ _ _ _ _ tests_space) in H as (Hs & x' & -> & H).
  2:{ intros w s' y _ _. apply one_not. intros c. now apply is_not_space. }
  fold s1 in H. apply reads_one_inv in H as (c & r & y & Er & -> & Hc & H).
  apply tests_ch in Hc. unfold s2. clear s2. rewrite Er. cbn [tl head_is].
  apply (forced_plus _ _ _ _ _ _ _ tests_space) in H as (Hr & z & -> & H).
  2:{ intros w s' q Hne Hw Hq. apply edge_then_word in Hq as [Hq _]; [now apply word_head_not_space|].
      now apply lastw_some_spaces. }
  apply edge_then_word in H as [Hw ->].
  2:{ apply lastw_some_spaces; [|apply Forall_isspace, take_while_all].
      destruct r as [|d r]; [discriminate|]. cbn in *. now rewrite Hr. }
  apply edge_xor in He. rewrite (space_head_not_word _ Hs), xorb_false_r in He.
  rewrite He, Hs, Hc, Hr, Hw. split; [reflexivity|].
  rewrite app_length. cbn. rewrite app_nil_r. unfold run. lia.
Qed.
Lemma hyphen_ok : Correct (m_hyphen alnum) hyphen_pattern $"-".
Proof.
  intros b s. unfold m_hyphen.
  match goal with |- match (if ?t then _ else _) with _ => _ end => destruct t eqn:E end.
  - split; [reflexivity|].
    assert (Hlen : forall y, Reads word hyphen_pattern b s y ->
      length y = S (run isspace s + run isspace (tl (drop_while isspace s)))).
    { intros y Hy. now apply hyphen_reads in Hy. }
    bools. destruct (head_split _ _ H2) as (c & r & Er & Hc). rewrite Er in *. cbn [tl] in *.
    exists (take_while isspace s ++ c :: take_while isspace r), (drop_while isspace r).
    split; [rewrite <- app_assoc; cbn [app]; rewrite take_drop_while, <- Er; now rewrite take_drop_while|].
    split; [rewrite app_length; cbn; unfold run; lia|].
    split; [now destruct (take_while isspace s)|]. split.
    + apply Reads_edge; [apply edge_xor; now rewrite H, space_head_not_word|].
      apply read_plus; [exact tests_space|assumption|]. rewrite Er.
      apply Reads_one; [now apply tests_ch|]. rewrite <- (app_nil_r (take_while isspace r)).
      apply read_plus; [exact tests_space|assumption|]. apply Reads_edge; [|constructor].
      apply edge_xor. rewrite H0, lastw_some_spaces; [reflexivity| |apply Forall_isspace, take_while_all].
      destruct (head_split _ _ H1) as (d & r' & -> & Hd). cbn. now rewrite Hd.
    + intros y Hy. rewrite (Hlen y Hy), app_length. cbn. unfold run. lia.
  - intros x Hx. apply hyphen_reads in Hx as [Hx _]. cbv zeta in Hx. congruence.
Qed.

(** [\s*[,;\.]+\s*(?=[a-zA-Z(])] *)
Lemma stop_reads : forall b s x, Reads word stop_pattern b s x ->
  let s1 := drop_while isspace s in
  let s2 := drop_while is_stop s1 in
  let s3 := drop_while isspace s2 in
  head_is is_stop s1 && head_is (fun c => is_ascii_letter c || ch 40 c) s3 = true /\
  length x = run isspace s + run is_stop s1 + run isspace s2.
Proof.
  intros b s x H s1 s2 s3.
  apply (forced_star _ _ _ _ _ _ _ tests_space) in H as (x1 & -> & H).
  2:{ intros w s' y _. apply plus_not. exact stop_not_space. }
  fold s1 in H. apply (forced_plus _ _ _ _ _ _ _ tests_stop) in H as (Hs1 & x2 & -> & H).
  2:{ intros w s' y _ _ Hy. apply reads_star_inv in Hy as (w' & s'' & x' & -> & -> & Hw' & Hy).
      destruct w' as [|c w']; [cbn in *; revert Hy; apply ahead_not; exact letter_not_stop|].
      inversion Hw'; subst. cbn. now apply space_not_stop. }
  fold s2 in H. apply (forced_star _ _ _ _ _ _ _ tests_space) in H as (x3 & -> & H).
  2:{ intros w s' y _. apply ahead_not. exact letter_not_space. }
  fold s3 in H. apply reads_ahead_inv in H as (c & s' & E & Hc & H). apply reads_nil_inv in H as ->.
  rewrite Hs1, E. apply tests_letter in Hc. cbn [head_is]. rewrite Hc. split; [reflexivity|].
  rewrite !app_length. cbn. unfold run. lia.
Qed.
Lemma stop_ok : Correct m_stop stop_pattern $", ".
Proof.
  intros b s. unfold m_stop.
  set (s1 := drop_while isspace s). set (s2 := drop_while is_stop s1). set (s3 := drop_while isspace s2).
  destruct (head_is is_stop s1 && head_is (fun c => is_ascii_letter c || ch 40 c) s3) eqn:E.
  - split; [reflexivity|].
    assert (Hlen : forall y, Reads word stop_pattern b s y ->
      length y = run isspace s + run is_stop s1 + run isspace s2).
    { intros y Hy. now apply stop_reads in Hy. }
    bools.
    assert (Hpos : 0 < length (take_while is_stop s1)).
    { destruct (head_split _ _ H) as (c & r & -> & Hc). cbn. rewrite Hc. cbn. lia. }
    exists (take_while isspace s ++ take_while is_stop s1 ++ take_while isspace s2 ++ []), s3.
    split.
    { rewrite app_nil_r, <- !app_assoc. unfold s3. rewrite take_drop_while. unfold s2.
      rewrite take_drop_while. unfold s1. now rewrite take_drop_while. }
    split; [rewrite !app_length; cbn; unfold run; lia|].
    split; [intros Hx; apply (f_equal (@length _)) in Hx; rewrite !app_length in Hx; cbn in Hx; lia|].
    split.
    + apply read_star; [exact tests_space|]. fold s1.
      apply read_plus; [exact tests_stop|assumption|]. fold s2.
      apply read_star; [exact tests_space|]. fold s3.
      destruct (head_split _ _ H0) as (c & r & -> & Hc). apply Reads_ahead; [now apply tests_letter|].
      constructor.
    + intros y Hy. rewrite (Hlen y Hy), !app_length. cbn. unfold run. lia.
  - intros x Hx. apply stop_reads in Hx as [Hx _]. cbv zeta in Hx. fold s1 s2 in Hx. fold s3 in Hx. congruence.
Qed.

(** [\s+_+\s+] *)
Lemma space_not_is : forall n c, isspace n = false -> Space c -> ch n c = false.
Proof.
  intros n c Hn Hc. unfold ch. apply N.eqb_neq. intros ->. apply isspace_Space in Hc. congruence.
Qed.
Lemma under_reads : forall b s x, Reads word underscore_pattern b s x ->
  let s1 := drop_while isspace s in
  let s2 := drop_while (ch 95) s1 in
  head_is isspace s && head_is (ch 95) s1 && head_is isspace s2 = true /\
  length x <= run isspace s + run (ch 95) s1 + run isspace s2.
Proof.
  intros b s x H s1 s2.
  apply (forced_plus _ _ _ _ _ _ _ tests_space) in H as (Hs & x1 & -> & H).
  2:{ intros w s' y _ _. apply plus_not. intros c. now apply is_not_space. }
  fold s1 in H. apply (forced_plus _ _ _ _ _ _ _ (tests_ch 95)) in H as (Hs1 & x2 & -> & H).
  2:{ intros w s' y _ _. apply plus_not. intros c. now apply space_not_is. }
  fold s2 in H. apply (last_plus _ _ _ _ _ _ tests_space) in H as [Hs2 Hl].
  rewrite Hs, Hs1, Hs2. split; [reflexivity|]. rewrite !app_length. unfold run. lia.
Qed.
Lemma under_ok : Correct m_under underscore_pattern $" ".
Proof.
  intros b s. unfold m_under.
  set (s1 := drop_while isspace s). set (s2 := drop_while (ch 95) s1).
  destruct (head_is isspace s && head_is (ch 95) s1 && head_is isspace s2) eqn:E.
  - split; [reflexivity|].
    assert (Hlen : forall y, Reads word underscore_pattern b s y ->
      length y <= run isspace s + run (ch 95) s1 + run isspace s2).
    { intros y Hy. now apply under_reads in Hy. }
    bools.
    assert (Hpos : 0 < length (take_while isspace s)).
    { destruct (head_split _ _ H) as (c & r & -> & Hc). cbn. rewrite Hc. cbn. lia. }
    exists (take_while isspace s ++ take_while (ch 95) s1 ++ take_while isspace s2 ++ []), (drop_while isspace s2).
    split.
    { rewrite app_nil_r, <- !app_assoc. rewrite take_drop_while. unfold s2.
      rewrite take_drop_while. unfold s1. now rewrite take_drop_while. }
    split; [rewrite !app_length; cbn; unfold run; lia|].
    split; [intros Hx; apply (f_equal (@length _)) in Hx; rewrite !app_length in Hx; cbn in Hx; lia|].
    split.
    + apply read_plus; [exact tests_space|assumption|]. fold s1.
      apply read_plus; [exact (tests_ch 95)|assumption|]. fold s2.
      apply read_plus; [exact tests_space|assumption|]. constructor.
    + intros y Hy. rewrite (Hlen y Hy), !app_length. cbn. unfold run. lia.
  - intros x Hx. apply under_reads in Hx as [Hx _]. cbv zeta in Hx. fold s1 in Hx. fold s2 in Hx. congruence.
Qed.

(** [\b,\s*,\s*\b] *)
Lemma comma_not_word : wordb 44 = false.
Proof. apply mark_not_word. cbn. auto. Qed.
Lemma empty_reads : forall b s x, Reads word empty_pattern b s x ->
  let s1 := drop_while isspace (tl s) in
  let s2 := drop_while isspace (tl s1) in
  lastw b && head_is (ch 44) s && head_is (ch 44) s1 && head_is wordb s2 = true /\
  length x = S (run isspace (tl s) + 1 + run isspace (tl s1)).
Proof.
  intros b s x H. apply reads_edge_inv in H as [He H].
  apply reads_one_inv in H as (c & r & x1 & -> & -> & Hc & H). cbn [tl].
  apply (forced_star _ _ _ _ _ _ _ tests_space) in H as (x2 & -> & H).
  2:{ intros w s' y _. apply one_not. intros d. now apply is_not_space. }
  apply reads_one_inv in H as (d & r' & x3 & Er & -> & Hd & H).
  rewrite Er. cbn [tl head_is].
  apply (forced_star _ _ _ _ _ _ _ tests_space) in H as (x4 & -> & H).
  2:{ intros w s' q Hw Hq. apply edge_then_word in Hq as [Hq _]; [now apply word_head_not_space|].
      apply lastw_spaces; [|exact Hw]. rewrite lastw_snoc. rewrite Hd. exact comma_not_word. }
  apply edge_then_word in H as [Hw ->].
  2:{ apply lastw_spaces; [|apply Forall_isspace, take_while_all]. rewrite lastw_snoc, Hd.
      exact comma_not_word. }
  apply edge_xor in He. cbn [head_is] in He. rewrite Hc, comma_not_word, xorb_false_r in He.
  rewrite He, Hw. apply tests_ch in Hc, Hd. rewrite Hc, Hd. split; [reflexivity|].
  cbn. rewrite app_length. cbn. rewrite app_length. cbn. unfold run. lia.
Qed.
Lemma empty_ok : Correct (m_empty alnum) empty_pattern $", ".
Proof.
  intros b s. unfold m_empty.
  match goal with |- match (if ?t then _ else _) with _ => _ end => destruct t eqn:E end.
  - split; [reflexivity|].
    assert (Hlen : forall y, Reads word empty_pattern b s y ->
      length y = S (run isspace (tl s) + 1 + run isspace (tl (drop_while isspace (tl s))))).
    { intros y Hy. now apply empty_reads in Hy. }
    bools. destruct (head_split _ _ H2) as (c & r & -> & Hc). cbn [tl] in *.
    destruct (head_split _ _ H1) as (d & r' & Er & Hd). rewrite Er in *. cbn [tl] in *.
    exists (c :: take_while isspace r ++ d :: take_while isspace r' ++ []), (drop_while isspace r').
    split.
    { cbn [app]. f_equal. rewrite app_nil_r, <- app_assoc. cbn [app]. rewrite take_drop_while, <- Er.
      now rewrite take_drop_while. }
    split; [cbn; rewrite app_length; cbn; rewrite app_length; cbn; unfold run; lia|].
    split; [discriminate|]. apply tests_ch in Hc, Hd. split.
    + apply Reads_edge; [apply edge_xor; cbn; now rewrite H, Hc, comma_not_word|].
      apply Reads_one; [exact Hc|]. apply read_star; [exact tests_space|]. rewrite Er.
      apply Reads_one; [exact Hd|]. apply read_star; [exact tests_space|].
      apply Reads_edge; [|constructor].
      apply edge_xor. rewrite H0, lastw_spaces; [reflexivity| |apply Forall_isspace, take_while_all].
      now rewrite lastw_snoc, Hd, comma_not_word.
    + intros y Hy. rewrite (Hlen y Hy). cbn. rewrite app_length. cbn. rewrite app_length. cbn. unfold run. lia.
  - intros x Hx. apply empty_reads in Hx as [Hx _]. cbv zeta in Hx. congruence.
Qed.

(** [\b([\w\s\-]+)(\!+)] *)
Notation phraseb := (phrase_char alnum).
Lemma tests_phrase : Tests phraseb (fun c => word c \/ Space c \/ c = 45%N).
Proof.
  intros c. unfold phrase_char, ch. rewrite !orb_true_iff, isspace_Space, N.eqb_eq, Hword. tauto.
Qed.
Lemma bang_not_phrase : phraseb 33 = false.
Proof.
  unfold phrase_char. rewrite (mark_not_word 33) by (cbn; auto 10). reflexivity.
Qed.
Lemma bang_reads : forall b s x, Reads word (bang_pattern word) b s x ->
  let s1 := drop_while phraseb s in
  xorb (lastw b) (head_is wordb s) && head_is phraseb s && head_is (ch 33) s1 = true /\
  length x <= run phraseb s + run (ch 33) s1.
Proof.
  intros b s x H s1. apply reads_edge_inv in H as [He H]. apply edge_xor in He.
  apply (forced_plus _ _ _ _ _ _ _ tests_phrase) in H as (Hs & x1 & -> & H).
  2:{ intros w s' y _ _. apply plus_not. intros c ->. exact bang_not_phrase. }
  fold s1 in H. apply (last_plus _ _ _ _ _ _ (tests_ch 33)) in H as [Hs1 Hl].
  rewrite He, Hs, Hs1. split; [reflexivity|]. rewrite app_length. unfold run. lia.
Qed.

Lemma take_while_ch : forall n s, take_while (ch n) s = repeat n (run (ch n) s).
Proof.
  intros n s. unfold run. induction s as [|c s IH]; cbn; [reflexivity|].
  destruct (ch n c) eqn:E; cbn; [|reflexivity]. apply tests_ch in E. now rewrite <- IH, E.
Qed.

Lemma find_skip : forall b x r,
  find_bangs alnum (lastw b) (length x) (x ++ r) = find_bangs alnum (lastw (b ++ x)) 0 r.
Proof.
  intros b x r. revert b. induction x as [|c x IH]; intros b; [now rewrite app_nil_r|].
  cbn [length app find_bangs]. rewrite <- (lastw_snoc b c), IH, <- app_assoc. reflexivity.
Qed.

Definition full_match (m : str * nat) : str := fst m ++ repeat 33%N (snd m).

Lemma bangs_found : forall s b,
  FindAll word (bang_pattern word) b s (map full_match (find_bangs alnum (lastw b) 0 s)) /\
  Forall (fun m => ~ In 33%N (fst m) /\ full_match m <> []) (find_bangs alnum (lastw b) 0 s).
Proof.
  intros s. remember (length s) as n eqn:Hn. revert s Hn.
  induction n as [n IH] using lt_wf_ind. intros s Hn b.
  destruct s as [|c s]; [split; constructor|].
  pose proof (bang_reads b (c :: s)) as Hreads. cbn [find_bangs].
  change (head_is wordb (c :: s)) with (wordb c) in Hreads.
  destruct (xorb (lastw b) (wordb c) && head_is phraseb (c :: s)
            && head_is (ch 33) (drop_while phraseb (c :: s))) eqn:E.
  - assert (Hlen : forall y, Reads word (bang_pattern word) b (c :: s) y ->
      length y <= run phraseb (c :: s) + run (ch 33) (drop_while phraseb (c :: s))).
    { intros y Hy. now apply Hreads in Hy. }
    bools.
    set (ph := take_while phraseb (c :: s)) in *. set (s1 := drop_while phraseb (c :: s)) in *.
    set (k := run (ch 33) s1) in *. set (r := drop_while (ch 33) s1).
    assert (Hph : exists ph', ph = c :: ph').
    { unfold ph. cbn in *. rewrite H1. eauto. }
    assert (Hcs : c :: s = (ph ++ repeat 33%N k) ++ r).
    { rewrite <- app_assoc. unfold k, r. rewrite <- take_while_ch, take_drop_while. unfold ph, s1.
      now rewrite take_drop_while. }
    destruct Hph as [ph' Hph].
    assert (Hs : s = (ph' ++ repeat 33%N k) ++ r).
    { rewrite Hph in Hcs. now injection Hcs. }
    assert (Hsk : pred (run phraseb (c :: s) + k) = length (ph' ++ repeat 33%N k)).
    { unfold run. fold ph. rewrite Hph, app_length, repeat_length. cbn. reflexivity. }
    assert (HL : Longest word (bang_pattern word) b (c :: s) (ph ++ repeat 33%N k)).
    { split; [rewrite Hph; discriminate|]. split.
      - apply Reads_edge; [now apply edge_xor|]. apply read_plus; [exact tests_phrase|assumption|].
        fold s1. unfold k. rewrite <- take_while_ch, <- (app_nil_r (take_while (ch 33) s1)).
        apply read_plus; [exact (tests_ch 33)|assumption|constructor].
      - intros y Hy. apply Hlen in Hy. rewrite app_length, repeat_length. exact Hy. }
    assert (Hrest : find_bangs alnum (wordb c) (pred (run phraseb (c :: s) + k)) s
                    = find_bangs alnum (lastw (b ++ ph ++ repeat 33%N k)) 0 r).
    { rewrite Hsk, <- (lastw_snoc b c). rewrite Hs at 1. rewrite find_skip, Hph, <- app_assoc. reflexivity. }
    rewrite Hrest.
    assert (Hr : length r < n).
    { subst n. rewrite Hcs, app_length, app_length, Hph. cbn. lia. }
    destruct (IH (length r) Hr r eq_refl (b ++ ph ++ repeat 33%N k)) as [IH1 IH2].
    split.
    + cbn [map]. unfold full_match at 1. cbn [fst snd]. rewrite Hcs in HL |- *.
      constructor; [exact HL|exact IH1].
    + constructor; [|exact IH2]. unfold full_match. cbn [fst snd]. rewrite Hph. split; [|discriminate].
      rewrite <- Hph. intros Hin. pose proof (take_while_all phraseb (c :: s)) as Ha. fold ph in Ha.
      rewrite forallb_forall in Ha. apply Ha in Hin. rewrite bang_not_phrase in Hin. discriminate.
  - assert (Hno : forall x, ~ Reads word (bang_pattern word) b (c :: s) x).
    { intros x Hx. apply Hreads in Hx as [Hx _]. congruence. }
    assert (Hr : length s < n) by (subst n; cbn; lia).
    destruct (IH (length s) Hr s eq_refl (b ++ [c])) as [IH1 IH2]. rewrite lastw_snoc in IH1, IH2.
    split; [constructor; assumption|exact IH2].
Qed.

Variable bang_weight : nat -> str.
Lemma weights_replaced : forall l s,
  Forall (fun m => ~ In 33%N (fst m) /\ full_match m <> []) l ->
  AllReplaced word bang_weight (map full_match l) s
    (fold_left
      (fun p m => replace p (fst m ++ repeat 33%N (snd m))
                    ($"(" ++ fst m ++ $":" ++ bang_weight (snd m) ++ $")")) l s).
Proof.
  induction l as [|m l IH]; intros s H; [constructor|]. inversion H as [|? ? [Hm Hne] Hl]; subst.
  cbn [map fold_left]. econstructor; [| |apply IH, Hl].
  - exists (fst m), (snd m). split; [reflexivity|]. split; [exact Hm|]. reflexivity.
  - apply replace_subst. exact Hne.
Qed.

Lemma trimmed : forall s, WordToWord word s (trim_nonword alnum (strip s)).
Proof.
  intros s. unfold trim_nonword, strip. set (f := fun c => negb (wordb c)).
  destruct (strip_by_split isspace s) as (a1 & b1 & H1 & Ha1 & Hb1).
  destruct (strip_by_split f (strip_by isspace s)) as (a2 & b2 & H2 & Ha2 & Hb2).
  assert (Hsp : forall w, forallb isspace w = true -> Forall (fun c => ~ word c) w).
  { intros w Hw. rewrite forallb_forall in Hw. apply Forall_forall. intros c Hc.
    apply Hw, space_not_word in Hc. rewrite <- Hword. congruence. }
  assert (Hnw : forall w, forallb f w = true -> Forall (fun c => ~ word c) w).
  { intros w Hw. rewrite forallb_forall in Hw. apply Forall_forall. intros c Hc.
    apply Hw in Hc. unfold f in Hc. apply negb_true_iff in Hc. rewrite <- Hword. congruence. }
  exists (a1 ++ a2), (b2 ++ b1). split; [|split; [|split; [|split]]].
  - rewrite H1 at 1. rewrite H2 at 1. now rewrite <- !app_assoc.
  - apply Forall_app. auto.
  - apply Forall_app. auto.
  - intros c r H. apply strip_by_head in H. unfold f in H. apply Hword. now apply negb_false_iff in H.
  - intros c r H. apply strip_by_last in H. unfold f in H. apply Hword. now apply negb_false_iff in H.
Qed.

Lemma parenthesised : forall s, Parenthesised s (map brace_to_paren s).
Proof.
  induction s as [|c s IH]; cbn; constructor; [|exact IH]. unfold brace_to_paren.
  destruct (N.eqb_spec c 123); [auto|]. destruct (N.eqb_spec c 125); [auto|]. auto 10.
Qed.

Theorem tidy_cleaned : forall s, CleanedUp word bang_weight s (tidy alnum bang_weight s).
Proof.
  intros s. unfold tidy. cbv zeta.
  do 9 eexists. split; [apply parenthesised|]. split; [apply trimmed|].
  split; [apply (resub_subst _ _ _ open_ok _ [])|].
  split; [apply (resub_subst _ _ _ close_ok _ [])|].
  split; [apply (resub_subst _ _ _ hyphen_ok _ [])|].
  split; [apply (resub_subst _ _ _ stop_ok _ [])|].
  split; [apply (resub_subst _ _ _ under_ok _ [])|].
  split; [apply (resub_subst _ _ _ empty_ok _ [])|].
  split; [apply (bangs_found _ [])|]. apply weights_replaced. apply (bangs_found _ []).
Qed.

Theorem cleaned_one : forall s u, CleanedUp word bang_weight s u -> u = tidy alnum bang_weight s.
Proof.
  intros s u (s1 & s2 & s3 & s4 & s5 & s6 & s7 & s8 & found & H1 & H2 & H3 & H4 & H5 & H6 & H7 & H8 & H9 & H10).
  destruct (tidy_cleaned s) as (t1 & t2 & t3 & t4 & t5 & t6 & t7 & t8 & found' &
    K1 & K2 & K3 & K4 & K5 & K6 & K7 & K8 & K9 & K10).
  rewrite <- (parenthesised_one word _ _ _ H1 K1) in *. clear K1.
  assert (HT : Tests (fun c => negb (wordb c)) (fun c => ~ word c)).
  { intros c. rewrite negb_true_iff, <- Hword. destruct (wordb c); intuition congruence. }
  assert (E2 : s2 = t2).
  { rewrite (word_to_word_one word _ _ _ HT H2). now rewrite (word_to_word_one word _ _ _ HT K2). }
  rewrite <- E2 in *. clear K2 E2.
  rewrite <- (subst_one _ _ _ _ _ _ H3 _ K3) in *. clear K3.
  rewrite <- (subst_one _ _ _ _ _ _ H4 _ K4) in *. clear K4.
  rewrite <- (subst_one _ _ _ _ _ _ H5 _ K5) in *. clear K5.
  rewrite <- (subst_one _ _ _ _ _ _ H6 _ K6) in *. clear K6.
  rewrite <- (subst_one _ _ _ _ _ _ H7 _ K7) in *. clear K7.
  rewrite <- (subst_one _ _ _ _ _ _ H8 _ K8) in *. clear K8.
  rewrite <- (find_one _ _ _ _ _ H9 _ K9) in *. clear K9.
  exact (all_replaced_one _ _ _ _ _ H10 _ K10).
Qed.
End CleanUp.
