(** Magic prompts: clean-up and regeneration. *)
From Coq Require Import String NArith ZArith Bool Arith List Lia.
From Verif.Model Require Import Str Utils Generators.
From Verif.Spec Require Import Text Generators.
From Verif.Proofs Require Import StrFacts UtilsFacts.
Import ListNotations.
Local Open Scope nat_scope.

Definition brace_free (s : str) : Prop := Forall (fun c => c <> 123%N /\ c <> 125%N) s.

Section Clean.
Variable alnum : N -> bool.
Variable bang_weight : nat -> str.
Hypothesis Hbang : forall n, brace_free (bang_weight n).
Notation tidy := (tidy alnum bang_weight).

Lemma brace_free_app : forall a b, brace_free (a ++ b) <-> brace_free a /\ brace_free b.
Proof. intros a b. apply Forall_app. Qed.

Lemma ascii_brace_free : forall s, forallb (fun c => negb (N.eqb c 123) && negb (N.eqb c 125)) s = true -> brace_free s.
Proof.
  intros s H. apply Forall_forall. rewrite forallb_forall in H. intros c Hc. specialize (H c Hc).
  apply andb_true_iff in H. destruct H as [H1 H2]. apply negb_true_iff in H1, H2.
  apply N.eqb_neq in H1, H2. now split.
Qed.

Lemma translate_brace_free : forall s, brace_free (map brace_to_paren s).
Proof.
  induction s as [|c s IH]; constructor; [|exact IH]. unfold brace_to_paren.
  destruct (N.eqb_spec c 123); [split; discriminate|]. destruct (N.eqb_spec c 125); [split; discriminate|]. now split.
Qed.

Lemma strip_brace_free : forall f s, brace_free s -> brace_free (strip_by f s).
Proof.
  intros f s H. destruct (strip_by_split f s) as (a & b & Hs & _). rewrite Hs in H.
  apply brace_free_app in H. destruct H as [_ H]. now apply brace_free_app in H.
Qed.

Lemma resub_brace_free : forall w m, (forall p s rep k, m p s = Some (rep, k) -> brace_free rep) ->
  forall s p k, brace_free s -> brace_free (resub_aux w m p k s).
Proof.
  intros w m Hm. induction s as [|c s IH]; intros p k H; cbn [resub_aux]; [constructor|].
  inversion H; subst. destruct k as [|k]; [|now apply IH].
  destruct (m p (c :: s)) as [[rep k]|] eqn:Hms.
  - apply brace_free_app. split; [eapply Hm, Hms|now apply IH].
  - constructor; [assumption|now apply IH].
Qed.

Lemma replace_aux_brace_free : forall old new, brace_free new -> forall s k, brace_free s ->
  brace_free (replace_aux old new k s).
Proof.
  intros old new Hn. induction s as [|c s IH]; intros k H; cbn [replace_aux]; [constructor|].
  inversion H; subst. destruct k as [|k]; [|now apply IH].
  destruct (startswith (c :: s) old).
  - apply brace_free_app. split; [assumption|now apply IH].
  - constructor; [assumption|now apply IH].
Qed.

Lemma replace_brace_free : forall s old new, brace_free s -> brace_free new -> brace_free (replace s old new).
Proof.
  intros s old new Hs Hn. unfold replace. destruct old as [|c old]; [|now apply replace_aux_brace_free].
  apply brace_free_app. split; [|assumption]. induction Hs as [|c s Hc Hs IH]; cbn; [constructor|].
  apply brace_free_app. split; [|exact IH]. apply brace_free_app. split; [assumption|constructor; [assumption|constructor]].
Qed.

Lemma take_while_brace_free : forall f s, brace_free s -> brace_free (take_while f s).
Proof.
  intros f s H. rewrite <- (take_drop_while f s) in H. now apply brace_free_app in H.
Qed.

Lemma find_bangs_brace_free : forall s p k, brace_free s ->
  Forall (fun m => brace_free (fst m)) (find_bangs alnum p k s).
Proof.
  induction s as [|c s IH]; intros p k H; cbn [find_bangs]; [constructor|].
  assert (Hs : brace_free s) by (inversion H; assumption).
  destruct k as [|k]; [|now apply IH].
  destruct (xorb p (is_word alnum c) && head_is (phrase_char alnum) (c :: s) && head_is (ch 33) (drop_while (phrase_char alnum) (c :: s))).
  - constructor; [|now apply IH]. apply (take_while_brace_free _ (c :: s)), H.
  - now apply IH.
Qed.

Lemma bangs_brace_free : forall s, brace_free s -> brace_free (bangs_to_weights alnum bang_weight s).
Proof.
  intros s H. unfold bangs_to_weights.
  pose proof (find_bangs_brace_free s false 0 H) as Hb.
  revert H Hb. generalize (find_bangs alnum false 0 s) as l. intros l. revert s.
  induction l as [|m l IH]; intros s Hs Hb; cbn [fold_left]; [assumption|].
  inversion Hb; subst. apply IH; [|assumption]. apply replace_brace_free; [assumption|].
  repeat (apply brace_free_app; split); try assumption; try apply Hbang; now apply ascii_brace_free.
Qed.

Lemma tidy_brace_free : forall s, brace_free (tidy s).
Proof.
  intros s. unfold tidy, Generators.tidy, resub, trim_nonword, strip.
  apply bangs_brace_free.
  repeat (apply resub_brace_free; [intros p s' rep k H;
    unfold m_open, m_close, m_hyphen, m_stop, m_under, m_empty in H;
    match type of H with (if ?b then _ else _) = _ => destruct b; [|discriminate] end;
    injection H as <- _; now apply ascii_brace_free|]).
  apply strip_brace_free, strip_brace_free, translate_brace_free.
Qed.

Lemma clean_keeps_prompt : forall orig prompt, StartsWith prompt orig ->
  exists rest, clean_up_magic_prompt alnum bang_weight orig prompt = orig ++ 32%N :: rest /\ brace_free rest.
Proof.
  intros orig prompt [q ->]. unfold clean_up_magic_prompt. rewrite startswith_app.
  rewrite skipn_app, skipn_all, Nat.sub_diag. cbn [skipn app].
  exists (tidy q). split; [reflexivity|apply tidy_brace_free].
Qed.

Lemma clean_other : forall orig prompt, ~ StartsWith prompt orig ->
  brace_free (clean_up_magic_prompt alnum bang_weight orig prompt).
Proof.
  intros orig prompt H. unfold clean_up_magic_prompt.
  destruct (startswith prompt orig) eqn:Hs; [|apply tidy_brace_free].
  exfalso. apply H. now apply startswith_spec.
Qed.
End Clean.

Section Magic.
Variable alnum : N -> bool.
Variable bang_weight : nat -> str.
Context {S : Type}.
Variable model : list str -> S -> list str * S.
Variable blocked : str -> bool.
Notation clean := (clean_up_magic_prompt alnum bang_weight).
Notation gmp := (generate_magic_prompts alnum bang_weight model).

(** Every entry is the cleaned answer to the prompt at the same place. *)
Definition Answers (origs magic : list str) : Prop :=
  forall i f, nth_error magic i = Some f -> exists o x, nth_error origs i = Some o /\ f = clean o x.

Lemma gmp_answers : forall origs s l s', gmp origs s = (l, s') -> Answers origs l.
Proof.
  intros origs s l s' H. unfold generate_magic_prompts in H. destruct (model origs s) as [texts s1].
  injection H as <- <-. revert texts. induction origs as [|o origs IH]; intros texts i f Hi.
  - cbn in Hi. destruct i; discriminate.
  - destruct texts as [|x texts]; [destruct i; discriminate|]. destruct i as [|i]; cbn in *.
    + injection Hi as <-. eauto.
    + apply (IH texts i f Hi).
Qed.

Lemma gmp_length : forall origs s l s', gmp origs s = (l, s') ->
  length l = Nat.min (length origs) (length (fst (model origs s))).
Proof.
  intros origs s l s' H. unfold generate_magic_prompts in H. destruct (model origs s) as [texts s1].
  injection H as <- <-. now rewrite map_length, combine_length.
Qed.

Lemma set_nth_length : forall {A} i (x : A) l, length (set_nth i x l) = length l.
Proof. intros A i x l. revert i. induction l as [|y l IH]; intros [|i]; cbn; auto. Qed.
Lemma set_nth_same : forall {A} i (x : A) l, i < length l -> nth_error (set_nth i x l) i = Some x.
Proof. intros A i x l. revert i. induction l as [|y l IH]; intros [|i] H; cbn in *; try lia; auto. apply IH. lia. Qed.
Lemma set_nth_other : forall {A} i j (x : A) l, i <> j -> nth_error (set_nth i x l) j = nth_error l j.
Proof.
  intros A i j x l. revert i j. induction l as [|y l IH]; intros [|i] [|j] H; cbn; auto; try lia.
Qed.

Lemma blocked_from_In : forall ps i j, In j (blocked_from blocked i ps) <->
  i <= j /\ exists p, nth_error ps (j - i) = Some p /\ blocked p = true.
Proof.
  induction ps as [|p ps IH]; intros i j; cbn [blocked_from].
  - split; [contradiction|]. intros [_ (p & Hp & _)]. destruct (j - i); discriminate.
  - assert (Hrest : In j (blocked_from blocked (Datatypes.S i) ps) <->
              i < j /\ exists p0, nth_error (p :: ps) (j - i) = Some p0 /\ blocked p0 = true).
    { rewrite IH. split.
      - intros [Hle Hx]. split; [lia|]. replace (j - i) with (Datatypes.S (j - Datatypes.S i)) by lia. exact Hx.
      - intros [Hle Hx]. split; [lia|]. replace (j - i) with (Datatypes.S (j - Datatypes.S i)) in Hx by lia. exact Hx. }
    destruct (blocked p) eqn:Hb; cbn [In].
    + rewrite Hrest. split.
      * intros [<-|[H1 H2]]; [|split; [lia|assumption]]. split; [lia|]. rewrite Nat.sub_diag. exists p. now split.
      * intros [H1 H2]. destruct (Nat.eq_dec i j); [now left|right; split; [lia|assumption]].
    + rewrite Hrest. split.
      * intros [H1 H2]. split; [lia|assumption].
      * intros [H1 (p0 & H2 & H3)]. destruct (Nat.eq_dec i j) as [<-|].
        -- rewrite Nat.sub_diag in H2. cbn in H2. congruence.
        -- split; [lia|eauto].
Qed.

Lemma blocked_from_nil : forall ps, blocked_from blocked 0 ps = [] -> Forall (fun p => blocked p = false) ps.
Proof.
  intros ps H. apply Forall_forall. intros p Hp. destruct (blocked p) eqn:Hb; [|reflexivity].
  apply In_nth_error in Hp. destruct Hp as [j Hj].
  assert (Hin : In j (blocked_from blocked 0 ps)).
  { apply blocked_from_In. split; [lia|]. rewrite Nat.sub_0_r. eauto. }
  rewrite H in Hin. contradiction.
Qed.

Lemma lookup_all_ok : forall origs idx, (forall i, In i idx -> i < length origs) ->
  exists l, lookup_all origs idx = Some l /\ Forall2 (fun i o => nth_error origs i = Some o) idx l.
Proof.
  intros origs idx H. induction idx as [|i idx IH].
  - exists []. split; [reflexivity|constructor].
  - destruct IH as (l & Hl & Hf); [intros j Hj; apply H; now right|].
    cbn [lookup_all]. destruct (nth_error origs i) as [o|] eqn:Ho.
    + rewrite Hl. exists (o :: l). split; [reflexivity|now constructor].
    + apply nth_error_None in Ho. specialize (H i (or_introl eq_refl)). lia.
Qed.

Definition assign_all (idx : list nat) (new magic : list str) : list str :=
  fold_left (fun acc ip => set_nth (fst ip) (snd ip) acc) (combine idx new) magic.

Lemma assign_length : forall idx new magic, length (assign_all idx new magic) = length magic.
Proof.
  induction idx as [|i idx IH]; intros [|x new] magic; cbn; auto.
  unfold assign_all in IH. rewrite IH. apply set_nth_length.
Qed.
Lemma assign_other : forall idx new magic j, ~ In j idx -> nth_error (assign_all idx new magic) j = nth_error magic j.
Proof.
  induction idx as [|i idx IH]; intros [|x new] magic j H; cbn; auto.
  unfold assign_all in IH. rewrite IH by (intros Hj; apply H; now right).
  apply set_nth_other. intros ->. apply H. now left.
Qed.
Lemma assign_answers : forall origs idx todo new magic,
  Forall2 (fun i o => nth_error origs i = Some o) idx todo -> Answers todo new -> Answers origs magic ->
  Answers origs (assign_all idx new magic).
Proof.
  intros origs idx todo new magic H. revert new magic.
  induction H as [|i o idx todo Ho H IH]; intros new magic Hn Hm; [exact Hm|].
  destruct new as [|x new]; [exact Hm|]. cbn [assign_all combine fold_left fst snd].
  apply IH.
  - intros k f Hk. exact (Hn (Datatypes.S k) f Hk).
  - intros k f Hk. destruct (Nat.eq_dec i k) as [<-|Hne].
    + destruct (Nat.lt_ge_cases i (length magic)) as [Hlt|Hge].
      * rewrite set_nth_same in Hk by assumption. injection Hk as <-.
        destruct (Hn 0 x eq_refl) as (o' & y & Ho' & ->). cbn in Ho'. injection Ho' as <-. eauto.
      * assert (Hnone : nth_error (set_nth i x magic) i = None) by (apply nth_error_None; rewrite set_nth_length; lia).
        congruence.
    + rewrite set_nth_other in Hk by assumption. now apply Hm.
Qed.

Lemma Answers_length : forall origs magic, Answers origs magic -> length magic <= length origs.
Proof.
  intros origs magic H. destruct (Nat.le_gt_cases (length magic) (length origs)) as [Hle|Hgt]; [assumption|].
  destruct (nth_error magic (length origs)) as [f|] eqn:Hf.
  - destruct (H _ _ Hf) as (o & x & Ho & _). assert (Hs : nth_error origs (length origs) <> None) by congruence.
    apply nth_error_Some in Hs. lia.
  - apply nth_error_None in Hf. lia.
Qed.

Lemma regenerate_ok : forall a origs magic s, Answers origs magic ->
  exists final used s', regenerate_loop alnum bang_weight model blocked a origs magic s = Some (final, used, s') /\
    length final = length magic /\ used <= a /\ Answers origs final /\
    (forall i p, nth_error magic i = Some p -> blocked p = false -> nth_error final i = Some p) /\
    (used < a -> Forall (fun p => blocked p = false) final).
Proof.
  induction a as [|a IH]; intros origs magic s Ha; cbn [regenerate_loop].
  - exists magic, 0, s. repeat split; auto. intros; lia.
  - destruct (blocked_from blocked 0 magic) as [|i0 idx0] eqn:Hidx.
    + exists magic, 0, s. repeat split; auto; [lia|]. intros _. now apply blocked_from_nil.
    + set (idx := i0 :: idx0) in *.
      destruct (lookup_all_ok origs idx) as (todo & Ht & Hf).
      { intros i Hi. rewrite <- Hidx in Hi. apply blocked_from_In in Hi. destruct Hi as [_ (p & Hp & _)].
        rewrite Nat.sub_0_r in Hp. assert (Hs : nth_error magic i <> None) by congruence.
        apply nth_error_Some in Hs. pose proof (Answers_length _ _ Ha). lia. }
      rewrite Ht. destruct (gmp todo s) as [new s1] eqn:Hg.
      pose proof (assign_answers origs idx todo new magic Hf (gmp_answers _ _ _ _ Hg) Ha) as Ha'.
      destruct (IH origs _ s1 Ha') as (final & used & s' & Hr & Hl & Hu & Hans & Hkeep & Hclean).
      unfold assign_all in Hr. rewrite Hr. exists final, (Datatypes.S used), s'.
      split; [reflexivity|]. split; [rewrite Hl; apply assign_length|]. split; [lia|]. split; [assumption|]. split.
      * intros i p Hp Hb. apply Hkeep; [|assumption]. rewrite assign_other; [assumption|].
        rewrite <- Hidx. rewrite blocked_from_In. intros [_ (q & Hq & Hbq)]. rewrite Nat.sub_0_r in Hq. congruence.
      * intros Hlt. apply Hclean. lia.
Qed.

Lemma magic_ok : forall hb a prompts s magic s1, gmp prompts s = (magic, s1) ->
  exists final used s', magic_generate alnum bang_weight model blocked hb a prompts s = Some (final, used, s') /\
    length final = length magic /\ used <= a /\
    (forall i f, nth_error final i = Some f -> exists o x, nth_error prompts i = Some o /\ f = clean o x) /\
    (forall i p, nth_error magic i = Some p -> hb = false \/ blocked p = false -> nth_error final i = Some p) /\
    (hb = true -> used < a -> Forall (fun p => blocked p = false) final).
Proof.
  intros hb a prompts s magic s1 Hg. unfold magic_generate. rewrite Hg.
  pose proof (gmp_answers _ _ _ _ Hg) as Ha. destruct hb.
  - destruct (regenerate_ok a prompts magic s1 Ha) as (final & used & s' & H1 & H2 & H3 & H4 & H5 & H6).
    exists final, used, s'. repeat split; auto. intros i p Hp [H|H]; [discriminate|]. now apply H5.
  - exists magic, 0, s1. repeat split; auto; [lia|discriminate].
Qed.
End Magic.
