(** Facts about the string functions of Model/Str.v and Model/Utils.v. *)
From Coq Require Import String NArith Bool Arith List Lia Permutation.
From Verif.Model Require Import Str Utils.
Import ListNotations.
Local Open Scope nat_scope.

Lemma str_eqb_spec : forall a b, reflect (a = b) (str_eqb a b).
Proof.
  induction a as [|x a IH]; destruct b as [|y b]; cbn; try (constructor; congruence).
  destruct (N.eqb_spec x y) as [->|Hn]; cbn.
  - destruct (IH b) as [->|Hn]; constructor; congruence.
  - constructor; congruence.
Qed.

Lemma str_eqb_refl : forall a, str_eqb a a = true.
Proof. intro a; destruct (str_eqb_spec a a); congruence. Qed.

Lemma str_eqb_eq : forall a b, str_eqb a b = true <-> a = b.
Proof. intros; destruct (str_eqb_spec a b); split; congruence. Qed.

Lemma str_mem_In : forall x l, str_mem x l = true <-> In x l.
Proof.
  induction l as [|y l IH]; cbn; [split; [discriminate|tauto]|].
  rewrite orb_true_iff, str_eqb_eq, IH. intuition.
Qed.

Lemma str_mem_false : forall x l, str_mem x l = false <-> ~ In x l.
Proof.
  intros. rewrite <- str_mem_In. destruct (str_mem x l); intuition congruence.
Qed.

Lemma startswith_spec : forall p s, startswith s p = true <-> exists q, s = p ++ q.
Proof.
  induction p as [|x p IH]; cbn; intros s.
  - split; [intros _; exists s; reflexivity|]. destruct s; reflexivity.
  - destruct s as [|y s]; cbn.
    + split; [discriminate|intros [q H]; discriminate].
    + rewrite andb_true_iff, N.eqb_eq, IH. split.
      * intros [-> [q ->]]. exists q; reflexivity.
      * intros [q H]. inversion H; subst. split; [reflexivity|exists q; reflexivity].
Qed.

Lemma startswith_app : forall p q, startswith (p ++ q) p = true.
Proof. intros; apply startswith_spec; eauto. Qed.

Lemma startswith_nil : forall s, startswith s [] = true.
Proof. destruct s; reflexivity. Qed.

Lemma endswith_spec : forall p s, endswith s p = true <-> exists q, s = q ++ p.
Proof.
  intros p s. unfold endswith. rewrite andb_true_iff, Nat.leb_le, str_eqb_eq. split.
  - intros [Hl He]. exists (firstn (length s - length p) s).
    rewrite <- He at 2. now rewrite firstn_skipn.
  - intros [q ->]. rewrite app_length. split; [lia|].
    replace (length q + length p - length p) with (length q) by lia.
    now rewrite skipn_app, skipn_all, Nat.sub_diag.
Qed.

Lemma endswith_app : forall p q, endswith (q ++ p) p = true.
Proof. intros; apply endswith_spec; eauto. Qed.

Lemma contains_spec : forall sub s,
  contains s sub = true <-> exists a b, s = a ++ sub ++ b.
Proof.
  intros sub s; induction s as [|c s IH]; cbn [contains].
  - rewrite orb_false_r, startswith_spec. split.
    + intros [q H]. exists [], q. exact H.
    + intros (a & b & H). destruct a; [|discriminate]. exists b; exact H.
  - rewrite orb_true_iff, startswith_spec, IH. split.
    + intros [[q H]|(a & b & H)].
      * exists [], q; exact H.
      * exists (c :: a), b. cbn; now rewrite H.
    + intros (a & b & H). destruct a as [|x a].
      * left; exists b; exact H.
      * right. inversion H; subst. exists a, b; reflexivity.
Qed.

Lemma removeprefix_nil : forall s, removeprefix s [] = s.
Proof. reflexivity. Qed.

Lemma removeprefix_spec : forall s p,
  (forall q, s = p ++ q -> removeprefix s p = q) /\
  ((forall q, s <> p ++ q) -> removeprefix s p = s).
Proof.
  intros s p. unfold removeprefix. destruct p as [|x p].
  - split; [intros q H; cbn in H; congruence|reflexivity].
  - destruct (startswith s (x :: p)) eqn:Hs.
    + apply startswith_spec in Hs as [q ->]. split.
      * intros q' H. apply app_inv_head in H; subst.
        now rewrite skipn_app, skipn_all, Nat.sub_diag.
      * intros Hn. exfalso; eapply Hn; reflexivity.
    + split; [|reflexivity]. intros q ->. rewrite startswith_app in Hs; discriminate.
Qed.

Lemma removesuffix_spec : forall s p,
  (forall q, s = q ++ p -> removesuffix s p = q) /\
  ((forall q, s <> q ++ p) -> removesuffix s p = s).
Proof.
  intros s p. unfold removesuffix. destruct p as [|x p].
  - split; [intros q H; rewrite app_nil_r in H; congruence|reflexivity].
  - destruct (endswith s (x :: p)) eqn:Hs.
    + apply endswith_spec in Hs as [q ->]. split.
      * intros q' H. apply app_inv_tail in H; subst.
        rewrite app_length.
        replace (length q' + length (x :: p) - length (x :: p)) with (length q') by lia.
        now rewrite firstn_app, Nat.sub_diag, firstn_all, app_nil_r.
      * intros Hn. exfalso; eapply Hn; reflexivity.
    + split; [|reflexivity]. intros q ->. rewrite endswith_app in Hs; discriminate.
Qed.

Lemma removeprefix_app : forall p q, removeprefix (p ++ q) p = q.
Proof. intros; now apply (removeprefix_spec (p ++ q) p). Qed.

Lemma removesuffix_app : forall p q, removesuffix (q ++ p) p = q.
Proof. intros; now apply (removesuffix_spec (q ++ p) p). Qed.

Lemma prefix_dec : forall (s p : str), {q | s = p ++ q} + {forall q, s <> p ++ q}.
Proof.
  intros s p. destruct (startswith s p) eqn:H.
  - left. apply startswith_spec in H. exists (skipn (length p) s).
    destruct H as [q ->]. now rewrite skipn_app, skipn_all, Nat.sub_diag.
  - right. intros q ->. rewrite startswith_app in H; discriminate.
Qed.

Lemma suffix_dec : forall (s p : str), {q | s = q ++ p} + {forall q, s <> q ++ p}.
Proof.
  intros s p. destruct (endswith s p) eqn:H.
  - left. apply endswith_spec in H. exists (firstn (length s - length p) s).
    destruct H as [q ->]. rewrite app_length.
    replace (length q + length p - length p) with (length q) by lia.
    now rewrite firstn_app, Nat.sub_diag, firstn_all, app_nil_r.
  - right. intros q ->. rewrite endswith_app in H; discriminate.
Qed.

(** [take_while]/[drop_while] *)
Lemma take_drop_while : forall f s, take_while f s ++ drop_while f s = s.
Proof.
  induction s as [|c s IH]; cbn; [reflexivity|].
  destruct (f c); cbn; [now rewrite IH|reflexivity].
Qed.

Lemma take_while_all : forall f s, forallb f (take_while f s) = true.
Proof.
  induction s as [|c s IH]; cbn; [reflexivity|].
  destruct (f c) eqn:H; cbn; [now rewrite H|reflexivity].
Qed.

Lemma drop_while_head : forall f s c s', drop_while f s = c :: s' -> f c = false.
Proof.
  induction s as [|x s IH]; cbn; intros c s' H; [discriminate|].
  destruct (f x) eqn:Hx; [eauto|]. inversion H; subst; assumption.
Qed.

Lemma drop_while_app_all : forall f a b,
  forallb f a = true -> drop_while f (a ++ b) = drop_while f b.
Proof.
  induction a as [|x a IH]; cbn; intros b H; [reflexivity|].
  apply andb_true_iff in H as [-> H]. now apply IH.
Qed.

Lemma take_while_app_all : forall f a b,
  forallb f a = true -> take_while f (a ++ b) = a ++ take_while f b.
Proof.
  induction a as [|x a IH]; cbn; intros b H; [reflexivity|].
  apply andb_true_iff in H as [-> H]. cbn. now rewrite IH.
Qed.

Lemma forallb_rev : forall {A} (f : A -> bool) l, forallb f (rev l) = forallb f l.
Proof.
  intros A f l. induction l as [|x l IH]; cbn; [reflexivity|].
  rewrite forallb_app, IH; cbn. rewrite andb_true_r, andb_comm. reflexivity.
Qed.

(** Characterisation of [strip_by]. *)
Lemma strip_by_split : forall f s, exists a b,
  s = a ++ strip_by f s ++ b /\ forallb f a = true /\ forallb f b = true.
Proof.
  intros f s. unfold strip_by.
  exists (take_while f s), (rev (take_while f (rev (drop_while f s)))).
  split; [|split].
  - rewrite <- rev_app_distr, take_drop_while, rev_involutive.
    now rewrite take_drop_while.
  - apply take_while_all.
  - rewrite forallb_rev. apply take_while_all.
Qed.

Lemma drop_while_nonhead : forall f s,
  (forall c s', s = c :: s' -> f c = false) -> drop_while f s = s.
Proof.
  destruct s as [|c s]; cbn; intros H; [reflexivity|].
  now rewrite (H c s eq_refl).
Qed.

Lemma strip_by_head : forall f s c s', strip_by f s = c :: s' -> f c = false.
Proof.
  intros f s c s' H. unfold strip_by in H.
  pose proof (take_drop_while f (rev (drop_while f s))) as Ht.
  apply (f_equal (@rev _)) in Ht. rewrite rev_app_distr, rev_involutive, H in Ht.
  cbn in Ht. symmetry in Ht. eapply drop_while_head; exact Ht.
Qed.

Lemma strip_by_last : forall f s c s', strip_by f s = s' ++ [c] -> f c = false.
Proof.
  intros f s c s' H. unfold strip_by in H.
  apply (f_equal (@rev _)) in H. rewrite rev_involutive, rev_app_distr in H.
  cbn in H. eapply drop_while_head; exact H.
Qed.

Lemma strip_by_fix : forall f s,
  (forall c s', s = c :: s' -> f c = false) ->
  (forall c s', s = s' ++ [c] -> f c = false) -> strip_by f s = s.
Proof.
  intros f s Hh Hl. unfold strip_by. rewrite (drop_while_nonhead f s Hh).
  rewrite drop_while_nonhead; [apply rev_involutive|].
  intros c s' H. apply (Hl c (rev s')). apply (f_equal (@rev _)) in H.
  rewrite rev_involutive in H. exact H.
Qed.

Lemma strip_by_idem : forall f s, strip_by f (strip_by f s) = strip_by f s.
Proof.
  intros. apply strip_by_fix; intros c s' H;
  [eapply strip_by_head|eapply strip_by_last]; exact H.
Qed.

(** [join]. *)
Lemma join_cons2 : forall sep x y l, join sep (x :: y :: l) = x ++ sep ++ join sep (y :: l).
Proof. reflexivity. Qed.

Lemma join_nil_sep : forall l, join [] l = concat l.
Proof.
  induction l as [|x l IH]; [reflexivity|]. destruct l as [|y l].
  - cbn. now rewrite app_nil_r.
  - rewrite join_cons2, IH. reflexivity.
Qed.

Lemma join_snoc : forall sep l x, l <> [] -> join sep (l ++ [x]) = join sep l ++ sep ++ x.
Proof.
  induction l as [|y l IH]; intros x H; [congruence|].
  destruct l as [|z l].
  - reflexivity.
  - change ((y :: z :: l) ++ [x]) with (y :: (z :: l) ++ [x]).
    specialize (IH x). cbn [app] in *. rewrite !join_cons2, IH by discriminate.
    now rewrite <- !app_assoc.
Qed.
