(** The built-in chunker gives the phrases of Spec/Phrases.v. *)
From Coq Require Import String NArith Bool Arith List Lia.
From Verif.Model Require Import Str Generators.
From Verif.Spec Require Import Text Files Phrases.
From Verif.Proofs Require Import StrFacts UtilsFacts FileFacts CleanUpFacts.
Import ListNotations.
Local Open Scope nat_scope.

Lemma mark_spec : forall c, split_punct c = true <-> Mark c.
Proof.
  intros c. unfold split_punct, Mark. rewrite existsb_exists. split.
  - intros (x & Hx & Hc). apply N.eqb_eq in Hc. now subst x.
  - intros H. exists c. split; [assumption|apply N.eqb_refl].
Qed.
Lemma mark_false : forall c, split_punct c = false <-> ~ Mark c.
Proof. intros c. rewrite <- mark_spec. destruct (split_punct c); split; congruence. Qed.
Lemma space_true : forall c, isspace c = true <-> Space c.
Proof. exact isspace_Space. Qed.
Lemma space_false : forall c, isspace c = false <-> ~ Space c.
Proof. intros c. rewrite <- space_true. destruct (isspace c); split; congruence. Qed.
Lemma mark_not_space : forall c, Mark c -> isspace c = false.
Proof.
  intros c H. cbn in H. repeat (destruct H as [<-|H]; [reflexivity|]). contradiction.
Qed.

Lemma punctuation_spec : forall c, is_punctuation c = true <-> Punctuation c.
Proof.
  intros c. split.
  - intros H. unfold is_punctuation in H.
    assert (Hr : (33 <= c <= 47 \/ 58 <= c <= 64 \/ 91 <= c <= 96 \/ 123 <= c <= 126)%N).
    { rewrite !orb_true_iff, !andb_true_iff, !N.leb_le in H. lia. }
    assert (Hf : forall n, (c = N.of_nat n) -> n < 127 -> is_punctuation (N.of_nat n) = true ->
      existsb (N.eqb (N.of_nat n)) (34%N :: $"!#$%&'()*+,-./:;<=>?@[\]^_`{|}~") = true).
    { intros n _ Hn. revert n Hn.
      assert (Ha : forallb (fun n => implb (is_punctuation (N.of_nat n))
         (existsb (N.eqb (N.of_nat n)) (34%N :: $"!#$%&'()*+,-./:;<=>?@[\]^_`{|}~"))) (seq 0 127) = true)
        by (vm_compute; reflexivity).
      intros n Hn Hp. rewrite forallb_forall in Ha. specialize (Ha n ltac:(apply in_seq; lia)).
      rewrite Hp in Ha. exact Ha. }
    specialize (Hf (N.to_nat c) ltac:(lia) ltac:(lia)). rewrite N2Nat.id in Hf. specialize (Hf H).
    apply existsb_exists in Hf. destruct Hf as (x & Hx & Hc). apply N.eqb_eq in Hc. now subst x.
  - intros H. unfold Punctuation in H. revert H. vm_compute (34%N :: _).
    intros H. repeat (destruct H as [<-|H]; [reflexivity|]). contradiction.
Qed.

(** * Cutting *)
Lemma resplit_skip : forall k s, k <= length s -> resplit [] k s = resplit [] 0 (skipn k s).
Proof.
  induction k as [|k IH]; intros [|c s] H; cbn in H; try lia; try reflexivity.
  cbn [resplit skipn]. now rewrite IH by lia.
Qed.

Lemma no_mark_ahead : forall s, Forall (fun c => ~ Mark c) s -> head_is split_punct (drop_while isspace s) = false.
Proof.
  intros s H. induction H as [|c s Hc H IH]; [reflexivity|]. cbn [drop_while].
  destruct (isspace c); [assumption|]. cbn. now apply mark_false.
Qed.

Lemma resplit_last : forall s cur, Forall (fun c => ~ Mark c) s -> resplit cur 0 s = [rev cur ++ s].
Proof.
  induction s as [|c s IH]; intros cur H; [cbn; now rewrite app_nil_r|].
  cbn [resplit]. rewrite no_mark_ahead by assumption. inversion H; subst. rewrite IH by assumption.
  cbn [rev]. now rewrite <- app_assoc.
Qed.

Lemma inside : forall p s, p <> [] -> Forall (fun c => ~ Mark c) p -> ~ EndsIn Space p ->
  head_is split_punct (drop_while isspace (p ++ s)) = false.
Proof.
  induction p as [|c p IH]; intros s Hn Hm He; [contradiction|]. inversion Hm; subst. cbn [app drop_while].
  destruct (isspace c) eqn:Hc; [|now apply mark_false].
  destruct p as [|d p].
  - exfalso. apply He. exists [], c. split; [reflexivity|]. now apply space_true.
  - apply IH; [discriminate|assumption|]. intros (q & x & Hq & Hx). apply He. exists (c :: q), x.
    split; [now rewrite Hq|assumption].
Qed.

Lemma drop_exact : forall f a b, forallb f a = true -> head_is f b = false -> drop_while f (a ++ b) = b.
Proof.
  intros f a b Ha Hb. rewrite drop_while_app_all by assumption. destruct b as [|c b]; [reflexivity|].
  cbn in *. now rewrite Hb.
Qed.
Lemma run_exact : forall f a b, forallb f a = true -> head_is f b = false -> run f (a ++ b) = length a.
Proof.
  intros f a b Ha Hb. unfold run. induction a as [|x a IH]; cbn in *.
  - destruct b as [|c b]; [reflexivity|]. cbn in *. now rewrite Hb.
  - apply andb_true_iff in Ha. destruct Ha as [Hx Ha]. rewrite Hx. cbn. now rewrite IH.
Qed.

Lemma all_spaces : forall w, Forall Space w -> forallb isspace w = true.
Proof. intros w H. apply forallb_forall. intros c Hc. apply space_true. rewrite Forall_forall in H. now apply H. Qed.
Lemma all_marks : forall w, Forall Mark w -> forallb split_punct w = true.
Proof. intros w H. apply forallb_forall. intros c Hc. apply mark_spec. rewrite Forall_forall in H. now apply H. Qed.

Lemma resplit_cut : forall w1 m w2 rest cur, Forall Space w1 -> m <> [] -> Forall Mark m -> Forall Space w2 ->
  ~ BeginsWith Space rest -> (w2 = [] -> ~ BeginsWith Mark rest) ->
  resplit cur 0 (w1 ++ m ++ w2 ++ rest) = rev cur :: resplit [] 0 rest.
Proof.
  intros w1 m w2 rest cur H1 Hm Hms H2 Hb Hc.
  assert (Hs1 : drop_while isspace (w1 ++ m ++ w2 ++ rest) = m ++ w2 ++ rest /\
                run isspace (w1 ++ m ++ w2 ++ rest) = length w1).
  { assert (Hh : head_is isspace (m ++ w2 ++ rest) = false).
    { destruct m as [|c m]; [contradiction|]. inversion Hms; subst. cbn. now apply mark_not_space. }
    split; [apply drop_exact|apply run_exact]; try assumption; now apply all_spaces. }
  assert (Hs2 : drop_while split_punct (m ++ w2 ++ rest) = w2 ++ rest /\
                run split_punct (m ++ w2 ++ rest) = length m).
  { assert (Hh : head_is split_punct (w2 ++ rest) = false).
    { destruct w2 as [|c w2].
      - destruct rest as [|c rest]; [reflexivity|]. cbn. apply mark_false. intros Hx. apply (Hc eq_refl).
        exists c, rest. now split.
      - inversion H2; subst. cbn. apply mark_false. intros Hx. apply mark_not_space in Hx.
        apply space_true in H3. congruence. }
    split; [apply drop_exact|apply run_exact]; try assumption; now apply all_marks. }
  assert (Hs3 : run isspace (w2 ++ rest) = length w2).
  { apply run_exact; [now apply all_spaces|]. destruct rest as [|c rest]; [reflexivity|]. cbn.
    apply space_false. intros Hx. apply Hb. exists c, rest. now split. }
  assert (Hh : head_is split_punct (m ++ w2 ++ rest) = true).
  { destruct m as [|c m]; [contradiction|]. inversion Hms; subst. cbn. now apply mark_spec. }
  remember (w1 ++ m ++ w2 ++ rest) as s eqn:Hs. destruct s as [|c s].
  { destruct m; [contradiction|]. destruct w1; discriminate. }
  cbn [resplit]. destruct Hs1 as [-> ->]. rewrite Hh. destruct Hs2 as [-> ->]. rewrite Hs3. f_equal.
  assert (Hl : length (c :: s) = length w1 + length m + length w2 + length rest).
  { rewrite Hs, !app_length. lia. }
  assert (Hmn : length m <> 0) by (destruct m; [contradiction|cbn; lia]).
  cbn [length] in Hl. rewrite resplit_skip by lia. f_equal.
  replace (skipn (pred (length w1 + length m + length w2)) s)
    with (skipn (length w1 + length m + length w2) (c :: s))
    by (destruct (length w1 + length m + length w2) eqn:Hx; [lia|reflexivity]).
  rewrite Hs, !app_assoc, <- !app_length, skipn_app, Nat.sub_diag, skipn_all. reflexivity.
Qed.

Lemma resplit_Pieces : forall s ps, Pieces s ps -> forall cur,
  exists p ps', ps = p :: ps' /\ resplit cur 0 s = (rev cur ++ p) :: ps'.
Proof.
  intros s ps H. induction H as [s H|p w1 m w2 rest ps Hp He H1 Hm Hms H2 Hb Hc H IH]; intros cur.
  - exists s, []. split; [reflexivity|now apply resplit_last].
  - exists p, ps. split; [reflexivity|]. revert cur Hp He. induction p as [|c p IHp]; intros cur Hp He.
    + rewrite app_nil_r. cbn [app]. rewrite resplit_cut by assumption. f_equal.
      destruct (IH []) as (p0 & ps0 & -> & ->). reflexivity.
    + change ((c :: p) ++ w1 ++ m ++ w2 ++ rest) with (c :: p ++ w1 ++ m ++ w2 ++ rest). cbn [resplit].
      change (c :: p ++ w1 ++ m ++ w2 ++ rest) with ((c :: p) ++ w1 ++ m ++ w2 ++ rest).
      rewrite inside by (assumption || discriminate). inversion Hp; subst. rewrite IHp.
      * cbn [rev]. now rewrite <- app_assoc.
      * assumption.
      * intros (q & x & -> & Hx). apply He. exists (c :: q), x. now split.
Qed.

Lemma first_mark : forall s, Forall (fun c => ~ Mark c) s \/
  exists a c b, s = a ++ c :: b /\ Forall (fun c => ~ Mark c) a /\ Mark c.
Proof.
  induction s as [|x s [IH|(a & c & b & -> & Ha & Hc)]]; [left; constructor| |].
  - destruct (split_punct x) eqn:Hx.
    + right. exists [], x, s. repeat split; [constructor|now apply mark_spec].
    + left. constructor; [now apply mark_false|assumption].
  - destruct (split_punct x) eqn:Hx.
    + right. exists [], x, (a ++ c :: b). repeat split; [constructor|now apply mark_spec].
    + right. exists (x :: a), c, b. repeat split; [constructor; [now apply mark_false|assumption]|assumption].
Qed.

Lemma Pieces_exist : forall s, exists ps, Pieces s ps.
Proof.
  intros s. remember (length s) as n eqn:Hn. revert s Hn.
  induction n as [n IH] using (well_founded_induction lt_wf). intros s ->.
  destruct (first_mark s) as [H|(a & c & b & -> & Ha & Hc)]; [eexists; now constructor|].
  set (p := rev (drop_while isspace (rev a))). set (w1 := rev (take_while isspace (rev a))).
  assert (Hp : a = p ++ w1).
  { unfold p, w1. rewrite <- rev_app_distr, take_drop_while. now rewrite rev_involutive. }
  set (m := take_while split_punct b). set (b1 := drop_while split_punct b).
  set (w2 := take_while isspace b1). set (rest := drop_while isspace b1).
  assert (Hb : b = m ++ w2 ++ rest) by (unfold m, w2, rest, b1; now rewrite !take_drop_while).
  destruct (IH (length rest)) with (s := rest) as [ps Hps]; [|reflexivity|].
  { rewrite Hb. rewrite app_length. cbn. rewrite !app_length. lia. }
  exists (p :: ps).
  replace (a ++ c :: b) with (p ++ w1 ++ (c :: m) ++ w2 ++ rest)
    by (rewrite Hb, Hp, <- !app_assoc; reflexivity).
  rewrite Hp in Ha. apply Forall_app in Ha. destruct Ha as [Ha Hw]. constructor; try assumption.
  - intros (q & x & Hq & Hx). unfold p in Hq. apply (f_equal (@rev N)) in Hq.
    rewrite rev_involutive, rev_app_distr in Hq. cbn in Hq. apply drop_while_head in Hq.
    apply space_true in Hx. congruence.
  - apply Forall_rev. apply Forall_forall. intros x Hx. apply space_true.
    pose proof (take_while_all isspace (rev a)) as Ht. rewrite forallb_forall in Ht. now apply Ht.
  - discriminate.
  - constructor; [assumption|]. apply Forall_forall. intros x Hx. apply mark_spec.
    pose proof (take_while_all split_punct b) as Ht. rewrite forallb_forall in Ht. now apply Ht.
  - apply Forall_forall. intros x Hx. apply space_true.
    pose proof (take_while_all isspace b1) as Ht. rewrite forallb_forall in Ht. now apply Ht.
  - intros (x & t & Ht & Hx). unfold rest in Ht. apply drop_while_head in Ht. apply space_true in Hx. congruence.
  - intros Hw2 (x & t & Ht & Hx). assert (Hb1 : b1 = x :: t).
    { rewrite <- Ht. unfold rest. rewrite <- (take_drop_while isspace b1) at 1. fold w2. now rewrite Hw2. }
    unfold b1 in Hb1. apply drop_while_head in Hb1. apply mark_spec in Hx. congruence.
Qed.

Lemma resplit_iff : forall s ps, resplit [] 0 s = ps <-> Pieces s ps.
Proof.
  intros s ps. split.
  - intros <-. destruct (Pieces_exist s) as [ps H].
    destruct (resplit_Pieces s ps H []) as (p & ps' & -> & ->). exact H.
  - intros H. destruct (resplit_Pieces s ps H []) as (p & ps' & -> & ->). reflexivity.
Qed.

(** * Selecting *)
Section Chunker.
Variable digit : N -> bool.

Lemma worthy_spec : forall p, is_valid_chunk digit p = true <-> Worthy digit p.
Proof.
  intros p. unfold is_valid_chunk, Worthy. rewrite andb_true_iff, !negb_true_iff.
  assert (H1 : match p with [] => false | _ => forallb digit p end = true <-> p <> [] /\ Forall (fun c => digit c = true) p).
  { destruct p as [|c p]; [split; [discriminate|intros [H _]; contradiction]|].
    rewrite forallb_forall, Forall_forall. split; [intros H; split; [discriminate|assumption]|intros [_ H]; assumption]. }
  assert (H2 : forallb is_punctuation p = true <-> Forall Punctuation p).
  { rewrite forallb_forall, Forall_forall. split; intros H c Hc; apply punctuation_spec; auto. }
  rewrite <- H1, <- H2, !not_true_iff_false. reflexivity.
Qed.

Lemma filter_Selected : forall (A : Type) (f : A -> bool) (P : A -> Prop), (forall x, f x = true <-> P x) ->
  forall l l', filter f l = l' <-> Selected P l l'.
Proof.
  intros A f P Hf l l'. split.
  - intros <-. induction l as [|x l IH]; cbn; [constructor|]. destruct (f x) eqn:Hx.
    + constructor; [now apply Hf|assumption].
    + constructor; [|assumption]. rewrite <- Hf. congruence.
  - intros H. induction H as [|x l l' Hx H IH|x l l' Hx H IH]; cbn; [reflexivity| |].
    + apply Hf in Hx. now rewrite Hx, IH.
    + rewrite <- Hf in Hx. destruct (f x); [contradiction|assumption].
Qed.

Lemma chunker_phrases : forall s ks, cheap_chunker digit s = ks <-> Phrases digit s ks.
Proof.
  intros s ks. unfold cheap_chunker, Phrases. split.
  - intros H. exists (strip s), (resplit [] 0 (strip s)). split; [apply strip_Trimmed|].
    split; [now apply resplit_iff|]. eapply filter_Selected; [apply worthy_spec|assumption].
  - intros (t & ps & Ht & Hp & Hs). apply Trimmed_strip in Ht. subst t. apply resplit_iff in Hp. subst ps.
    eapply filter_Selected; [apply worthy_spec|assumption].
Qed.
End Chunker.

Section Bare.
Variable digit : N -> bool.

Lemma Pieces_bare : forall s ps, Pieces s ps -> ~ EndsIn Space s -> ~ BeginsWith Space s -> forall p, In p ps ->
  Forall (fun c => ~ Mark c) p /\ ~ EndsIn Space p /\ ~ BeginsWith Space p.
Proof.
  intros s ps H. induction H as [s H|p w1 m w2 rest ps Hp He H1 Hm Hms H2 Hb Hc H IH]; intros Hse Hsb k Hk.
  - destruct Hk as [<-|[]]. repeat split; assumption.
  - destruct Hk as [<-|Hk].
    + repeat split; try assumption. intros (c & p' & -> & Hx). apply Hsb. eexists c, _. split; [reflexivity|assumption].
    + apply IH; try assumption. intros (r' & c & -> & Hx). apply Hse. exists (p ++ w1 ++ m ++ w2 ++ r'), c.
      split; [now rewrite <- !app_assoc|assumption].
Qed.

Lemma Selected_In : forall (A : Type) (P : A -> Prop) l l' x, Selected P l l' -> In x l' -> In x l /\ P x.
Proof.
  intros A P l l' x H. induction H as [|y l l' Hy H IH|y l l' Hy H IH]; intros Hx; [contradiction| |].
  - destruct Hx as [<-|Hx]; [split; [now left|assumption]|]. destruct (IH Hx). split; [now right|assumption].
  - destruct (IH Hx). split; [now right|assumption].
Qed.

Lemma phrases_bare : forall s ks k, Phrases digit s ks -> In k ks ->
  k <> [] /\ Forall (fun c => ~ Mark c) k /\ Trimmed k k.
Proof.
  intros s ks k (t & ps & Ht & Hp & Hs) Hk. destruct (Selected_In _ _ _ _ _ Hs Hk) as [Hin [_ Hw]].
  destruct Ht as (a & b & _ & _ & _ & Hb & He).
  destruct (Pieces_bare t ps Hp) with (p := k) as (H1 & H2 & H3).
  - intros (t' & c & -> & Hx). now apply (He c t').
  - intros (c & t' & -> & Hx). now apply (Hb c t').
  - assumption.
  - split; [intros ->; apply Hw; constructor|]. split; [assumption|]. exists [], [].
    split; [now rewrite app_nil_r|]. split; [constructor|]. split; [constructor|]. split.
    + intros c k' -> Hx. apply H3. exists c, k'. now split.
    + intros c k' -> Hx. apply H2. exists k', c. now split.
Qed.
End Bare.
