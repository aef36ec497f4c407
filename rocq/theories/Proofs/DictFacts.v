(** Lexicographic order on strings, dictionaries as sorted association lists. *)
From Coq Require Import NArith ZArith QArith Qcanon Bool Arith List Lia Sorted.
From Verif.Model Require Import Str Command Rng Values Context.
From Verif.Proofs Require Import StrFacts.
Import ListNotations.
Local Open Scope nat_scope.

Lemma str_leb_refl : forall a, str_leb a a = true.
Proof. induction a as [|x a IH]; cbn; [reflexivity|]. now rewrite N.eqb_refl. Qed.

Lemma str_leb_antisym : forall a b, str_leb a b = true -> str_leb b a = true -> a = b.
Proof.
  induction a as [|x a IH]; destruct b as [|y b]; cbn; try discriminate; [reflexivity|].
  destruct (N.eqb_spec x y) as [->|Hn].
  - rewrite N.eqb_refl. intros H1 H2. f_equal. now apply IH.
  - destruct (N.eqb_spec y x) as [->|_]; [congruence|].
    rewrite !N.ltb_lt. lia.
Qed.

Lemma str_leb_trans : forall a b c, str_leb a b = true -> str_leb b c = true -> str_leb a c = true.
Proof.
  induction a as [|x a IH]; destruct b as [|y b], c as [|z c]; cbn; try discriminate; auto.
  destruct (N.eqb_spec x y) as [->|Hn].
  - destruct (N.eqb_spec y z) as [->|Hz]; [apply IH|auto].
  - destruct (N.eqb_spec y z) as [->|Hz].
    + destruct (N.eqb_spec x z); [congruence|]. auto.
    + rewrite !N.ltb_lt. intros H1 H2. destruct (N.eqb_spec x z); [lia|].
      apply N.ltb_lt. lia.
Qed.

Lemma str_leb_total : forall a b, str_leb a b = true \/ str_leb b a = true.
Proof.
  induction a as [|x a IH]; destruct b as [|y b]; cbn; auto.
  destruct (N.eqb_spec x y) as [->|Hn].
  - rewrite N.eqb_refl. apply IH.
  - destruct (N.eqb_spec y x); [congruence|]. rewrite !N.ltb_lt. lia.
Qed.

Definition str_lt (a b : str) : Prop := str_leb a b = true /\ a <> b.

Lemma str_lt_trans : forall a b c, str_lt a b -> str_lt b c -> str_lt a c.
Proof.
  intros a b c [H1 N1] [H2 N2]. split; [eapply str_leb_trans; eauto|].
  intros ->. apply N1. now apply str_leb_antisym.
Qed.

Section Dict.
Context {A : Type}.
Implicit Types d : list (str * A).

Lemma dict_get_set : forall d k v x,
  dict_get x (dict_set k v d) = if str_eqb x k then Some v else dict_get x d.
Proof.
  induction d as [|[k' v'] d IH]; intros k v x; cbn; [reflexivity|].
  destruct (str_eqb_spec k k') as [->|Hn].
  - cbn. destruct (str_eqb x k'); reflexivity.
  - destruct (str_leb k k'); cbn.
    + destruct (str_eqb x k); reflexivity.
    + rewrite IH. destruct (str_eqb_spec x k'); [|reflexivity].
      subst. destruct (str_eqb_spec k' k); [congruence|reflexivity].
Qed.

Lemma dict_get_In : forall d k v, dict_get k d = Some v -> In (k, v) d.
Proof.
  induction d as [|[k' v'] d IH]; cbn; intros k v H; [discriminate|].
  destruct (str_eqb_spec k k') as [->|_]; [injection H as ->; now left|right; auto].
Qed.

Lemma dict_get_None : forall d k, dict_get k d = None <-> ~ In k (map fst d).
Proof.
  induction d as [|[k' v'] d IH]; cbn; intros k; [tauto|].
  destruct (str_eqb_spec k k') as [->|Hn].
  - split; [discriminate|]. intros H; exfalso; apply H; now left.
  - rewrite IH. intuition.
Qed.

Definition dict_sorted d : Prop := StronglySorted (fun a b => str_lt (fst a) (fst b)) d.

Lemma dict_set_keys : forall d k v x, In x (map fst (dict_set k v d)) <-> x = k \/ In x (map fst d).
Proof.
  induction d as [|[k' v'] d IH]; cbn; intros k v x; [intuition|].
  destruct (str_eqb_spec k k') as [->|Hn]; cbn; [intuition|].
  destruct (str_leb k k'); cbn; [intuition|]. rewrite IH. intuition.
Qed.

Lemma dict_set_sorted : forall d k v, dict_sorted d -> dict_sorted (dict_set k v d).
Proof.
  induction d as [|[k' v'] d IH]; cbn; intros k v H; [repeat constructor|].
  inversion H as [|? ? Hs Hf]; subst.
  destruct (str_eqb_spec k k') as [->|Hn]; [constructor; assumption|].
  destruct (str_leb k k') eqn:Hle.
  - constructor; [assumption|]. constructor; [split; assumption|].
    rewrite Forall_forall in *. intros y Hy. eapply str_lt_trans; [|apply Hf; exact Hy].
    split; assumption.
  - constructor; [apply IH; assumption|]. rewrite Forall_forall in *. intros y Hy.
    assert (Hk : In (fst y) (map fst (dict_set k v d))) by now apply in_map.
    apply dict_set_keys in Hk as [->|Hk].
    + cbn [fst]. split; [|congruence]. destruct (str_leb_total k' k); congruence.
    + apply in_map_iff in Hk as (z & <- & Hz). now apply Hf.
Qed.

Lemma dict_sorted_NoDup : forall d, dict_sorted d -> NoDup (map fst d).
Proof.
  induction 1 as [|[k v] d Hs IH Hf]; cbn; constructor; [|assumption].
  intros Hin. apply in_map_iff in Hin as (y & E & Hy). rewrite Forall_forall in Hf.
  destruct (Hf y Hy) as [_ Hne]. cbn in Hne. congruence.
Qed.

(** [{**d, **new}] for any [new]: the last binding in [new] wins. *)
Lemma dict_get_update : forall new d x,
  (exists pre v post, new = pre ++ (x, v) :: post /\ ~ In x (map fst post) /\
      dict_get x (dict_update d new) = Some v)
  \/ (~ In x (map fst new) /\ dict_get x (dict_update d new) = dict_get x d).
Proof.
  unfold dict_update. induction new as [|[k v] new IH]; intros d x; cbn [fold_left].
  - right. split; [cbn; tauto|reflexivity].
  - cbn [fst snd]. destruct (IH (dict_set k v d) x) as [(pre & w & post & -> & Hp & Hg)|[Hn Hg]].
    + left. exists ((k, v) :: pre), w, post. auto.
    + rewrite dict_get_set in Hg. destruct (str_eqb_spec x k) as [->|Hne].
      * left. exists [], v, new. auto.
      * right. split; [|exact Hg]. cbn. intuition congruence.
Qed.

Lemma dict_get_update_nodup : forall new d x, NoDup (map fst new) ->
  dict_get x (dict_update d new)
  = match dict_get x new with Some v => Some v | None => dict_get x d end.
Proof.
  intros new d x Hn.
  destruct (dict_get_update new d x) as [(pre & v & post & -> & Hp & Hg)|[Hx Hg]].
  - assert (E : dict_get x (pre ++ (x, v) :: post) = Some v).
    { rewrite map_app in Hn. cbn in Hn. clear Hg. induction pre as [|[k w] pre IH]; cbn.
      - now rewrite str_eqb_refl.
      - cbn in Hn. inversion Hn as [|? ? Hk Hn']; subst.
        destruct (str_eqb_spec x k) as [->|_]; [|auto].
        exfalso. apply Hk. apply in_or_app; right; now left. }
    rewrite E. exact Hg.
  - rewrite Hg. apply dict_get_None in Hx. now rewrite Hx.
Qed.
End Dict.
