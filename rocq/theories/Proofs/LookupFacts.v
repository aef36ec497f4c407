From Coq Require Import String NArith ZArith QArith Qcanon Bool Arith List Permutation Sorted Lia.
From Verif.Model Require Import Str Utils Rng Values Context Names Structured TextFile Tree Manager.
From Verif.Spec Require Import Text Names Files Tree Lookup.
From Verif.Proofs Require Import StrFacts UtilsFacts NamesFacts GlobFacts FileFacts TreeFacts BuildFacts
  RngFacts ManagerFacts.
Import ListNotations.
Local Open Scope nat_scope.

Lemma Gathered_Selected : forall fs pat (pred : text -> Prop) t l,
  (forall n, Glob pat n <-> pred n) -> (Gathered fs pat t l <-> Selected fs pred t l).
Proof.
  intros fs pat pred t l Hp. split; intros H; induction H; try constructor; auto;
    try (now apply Hp); rewrite ?Hp; auto; rewrite <- ?Hp; auto.
Qed.

Lemma Gathered_In : forall fs pat t l, Gathered fs pat t l -> forall v,
  In v l -> exists name c vs, In (name, c) t /\ Glob pat name /\ CollHas fs c vs /\ In v vs.
Proof.
  intros fs pat t l H. induction H as [|name c t vs l Hg Hc Hr IH|name c t l Hg Hr IH]; intros v Hv.
  - destruct Hv.
  - apply in_app_or in Hv as [Hv|Hv].
    + exists name, c, vs. split; [now left|]. auto.
    + destruct (IH v Hv) as (n' & c' & vs' & Hin & H'). exists n', c', vs'. split; [now right|assumption].
  - destruct (IH v Hv) as (n' & c' & vs' & Hin & H'). exists n', c', vs'. split; [now right|assumption].
Qed.

Lemma CollHas_functional : forall fs c vs vs', UniqueNames fs ->
  CollHas fs c vs -> CollHas fs c vs' -> vs = vs'.
Proof.
  intros fs c vs vs' Hu H1 H2. destruct H1 as [entries|path cache content lines Hf Hv].
  - now inversion H2.
  - inversion H2 as [|? ? content' lines' Hf' Hv']; subst.
    apply (fs_get_FileAt _ Hu) in Hf, Hf'. rewrite Hf in Hf'. injection Hf' as <-.
    apply text_values_iff in Hv, Hv'. congruence.
Qed.

Lemma Gathered_complete : forall fs pat t l, UniqueNames fs -> Gathered fs pat t l ->
  forall name c vs v, In (name, c) t -> Glob pat name -> CollHas fs c vs -> In v vs -> In v l.
Proof.
  intros fs pat t l Hu H.
  induction H as [|n0 c0 t vs0 l Hg Hc Hr IH|n0 c0 t l Hg Hr IH]; intros name c vs v Hin HG HC Hv.
  - destruct Hin.
  - apply in_or_app. destruct Hin as [E|Hin].
    + injection E as -> ->. left. now rewrite (CollHas_functional fs c vs0 vs).
    + right. eauto.
  - destruct Hin as [E|Hin]; [injection E as -> ->; tauto|eauto].
Qed.

Section L.
Variable P : pylib.
Variable G : rng_impl.
Variable ww : str.
Variable roots : root_map.

Notation fresh := (fresh G).
Notation run_ops := (run_ops P G ww roots).
Notation lookup := (lookup P G ww roots).

Definition calm_op (o : mop) : Prop := forall b, o = OShuffle b -> b = false.
Definition keeps_files (o : mop) : Prop :=
  (forall n t, o <> OWrite n t) /\ (forall fs, o <> OExternal fs).

Lemma quiet_of : forall (Q : bool -> Prop) o, keeps_files o -> (forall b, o = OShuffle b -> Q b) -> Quiet Q o.
Proof.
  intros Q o [H1 H2] H3. destruct o; cbn; auto.
  - exact (H1 _ _ eq_refl).
  - exact (H2 _ eq_refl).
Qed.

Lemma quiets : forall ops, Forall keeps_files ops -> Forall (Quiet (fun _ => True)) ops.
Proof. intros ops H. eapply Forall_impl; [|exact H]. intros o Ho. now apply quiet_of. Qed.

Lemma quiets_calm : forall ops, Forall keeps_files ops -> Forall calm_op ops ->
  Forall (Quiet (fun b => b = false)) ops.
Proof.
  intros ops H. induction H as [|o ops Ho H IH]; intros Hc; [constructor|].
  inversion Hc as [|? ? Hc1 Hc2]; subst. constructor; [|now apply IH]. now apply quiet_of.
Qed.

Lemma flagged_Answer : forall s d sh (calm : Prop) raw out,
  (calm -> sh = false) -> Permutation (flagged s d sh raw) out ->
  (calm -> flagged s d sh raw = out) -> Answer s d calm raw out.
Proof.
  intros s d sh calm raw out Hc Hp He. unfold flagged in *.
  exists (if d then fromkeys raw else raw). split; [|split; [|split; [|split]]].
  - intros ->. apply fromkeys_dedup.
  - now intros ->.
  - rewrite <- Hp. destruct (s && negb sh); [apply sort_items_perm|reflexivity].
  - intros H ->. specialize (Hc H). subst sh. rewrite <- (He H). cbn. apply sort_items_stable.
  - intros H ->. rewrite <- (He H). reflexivity.
Qed.

Lemma lookup_answer : forall fs s d sh r ops wc,
  UniqueNames fs -> Forall keeps_files ops ->
  let w' := run_ops ops (fresh fs s d sh r) in
  exists raw out, lookup wc w' = Ok out /\
    Found fs ww (build_map P fs roots) wc raw /\
    Answer (m_sort (w_man G w')) (m_dedup (w_man G w'))
           (sh = false /\ Forall calm_op ops) raw out.
Proof.
  intros fs s d sh r ops wc Hu Hops w'.
  destruct (run_Inv P G ww roots (fun _ => True) ops (fresh fs s d sh r) (quiets _ Hops)
              (fresh_Inv P G ww roots _ fs s d sh r I)) as [Ef HI].
  fold w' in Ef, HI. cbn [ManagerFacts.fresh w_fs] in Ef, HI.
  pose proof HI as HI'. rewrite <- Ef in HI' at 1.
  destruct (lookup_ok P G ww roots _ w' wc HI') as (sh' & _ & H). rewrite Ef in H.
  destruct (pure_values_ok P ww roots fs (m_sort (w_man G w')) (m_dedup (w_man G w')) sh' wc Hu) as [l El].
  rewrite El in H. destruct (lookup wc w') as [out|e] eqn:Eout; [|destruct H].
  unfold pure_values in El. destruct (pure_found P ww roots fs wc) as [raw|e] eqn:Er; [|discriminate].
  injection El as El. exists raw, out. split; [reflexivity|].
  split; [now apply pure_found_Found|].
  assert (Hcalm : sh = false /\ Forall calm_op ops ->
     flagged (m_sort (w_man G w')) (m_dedup (w_man G w')) false raw = out).
  { intros [-> Hcalm].
    pose proof (lookup_transparent P G ww roots (fresh fs s d false r) ops wc
                  (fresh_Inv P G ww roots _ fs s d false r eq_refl) (quiets_calm _ Hops Hcalm) r) as Ht.
    cbn zeta in Ht. fold w' in Ht. rewrite Eout, lookup_fresh, Ef in Ht.
    unfold pure_values in Ht. rewrite Er in Ht. now injection Ht as <-. }
  apply (flagged_Answer _ _ false); auto.
  - destruct H as [Hp _]. rewrite <- Hp, <- El. apply flagged_perm.
Qed.

(** Where a value comes from. *)
Lemma Found_In : forall fs t w l v, Found fs ww t w l -> In v l ->
  exists name c vs, In (name, c) t /\ CollHas fs c vs /\ In v vs.
Proof.
  intros fs t w l v H Hv.
  assert (HM : exists w', Matched fs ww t w' l) by (destruct H as [[H _]|(_ & _ & H)]; eauto).
  destruct HM as [w' [[_ ->]|(p & _ & Hg)]]; [destruct Hv|].
  destruct (Gathered_In _ _ _ _ Hg v Hv) as (n & c & vs & H1 & _ & H2 & H3). eauto 7.
Qed.

Lemma Answer_In : forall s d calm raw out, Answer s d calm raw out -> forall v, In v out <-> In v raw.
Proof.
  intros s d calm raw out (mid & Hd & He & Hp & _) v.
  assert (Hm : In v out <-> In v mid).
  { split; apply Permutation_in; [now symmetry|assumption]. }
  rewrite Hm. destruct d; [now destruct (Hd eq_refl) as (_ & H & _)|now rewrite He].
Qed.

(** Plain names at the level of lookups. *)
Lemma SafeName_not_starts : forall n, SafeName n -> NoGlob n -> ~ StartsWith n [42; 42]%N.
Proof.
  intros n _ Hg [q ->]. inversion Hg as [|? ? H]; subst. apply H. now left.
Qed.

Lemma Cleaned_of_safe : forall n, SafeName n -> ~ StartsWith n ww -> ~ EndsWith n ww ->
  forall o, Cleaned ww n o <-> o = Some n.
Proof.
  intros n Hs H1 H2 o. rewrite Cleaned_iff, (clean_of_safe n ww Hs H1 H2).
  destruct o as [p|]; split; congruence.
Qed.

Lemma Contains_cons : forall c (s sub : text), Contains (c :: s) sub ->
  (exists t, c :: s = sub ++ t) \/ Contains s sub.
Proof.
  intros c s sub (a & b & E). destruct a as [|x a]; [left; now exists b|].
  right. injection E as _ ->. now exists a, b.
Qed.

Lemma SafeName_starred : forall n, SafeName n -> n <> [] -> SafeName ([42; 42; 47]%N ++ n).
Proof.
  intros n (H1 & H2 & H3 & H4 & H5) Hne. split; [|split; [|split; [|split]]].
  - cbn. intros [H|[H|[H|H]]]; try discriminate. tauto.
  - intros H. cbn in H. apply Contains_cons in H as [[t H]|H]; [discriminate|].
    apply Contains_cons in H as [[t H]|H]; [discriminate|].
    apply Contains_cons in H as [[t H]|H]; [discriminate|]. tauto.
  - intros H. cbn in H. apply Contains_cons in H as [[t H]|H]; [discriminate|].
    apply Contains_cons in H as [[t H]|H]; [discriminate|].
    apply Contains_cons in H as [[t H]|H]; [|tauto].
    injection H as H. now apply (H4 t).
  - discriminate.
  - intros t E. destruct (exists_last Hne) as (m & x & ->). rewrite app_assoc in E.
    apply app_inj_tail in E as [_ ->]. now apply (H5 m).
Qed.

Lemma Found_plain : forall fs t n l, SafeName n -> n <> [] -> NoGlob n ->
  ~ StartsWith n ww -> ~ EndsWith n ww ->
  ~ StartsWith ([42; 42; 47]%N ++ n) ww -> ~ EndsWith ([42; 42; 47]%N ++ n) ww ->
  (Found fs ww t n l <->
   (Selected fs (eq n) t l /\ l <> []) \/
   (Selected fs (eq n) t [] /\ Selected fs (fun m => EndsWith m (slash :: n)) t l)).
Proof.
  intros fs t n l Hs Hne Hg H1 H2 H3 H4.
  assert (HM : forall x, Matched fs ww t n x <-> Selected fs (eq n) t x).
  { intros x. unfold Matched. rewrite <- (Gathered_Selected fs n (eq n)).
    2:{ intros m. rewrite (Glob_plain n Hg). split; congruence. }
    split.
    - intros [[H _]|(p & H & Hx)]; apply (Cleaned_of_safe n Hs H1 H2) in H; [discriminate|].
      now injection H as ->.
    - intros H. right. exists n. split; [|assumption]. now apply Cleaned_of_safe. }
  assert (HF : forall x, Matched fs ww t ([42; 42; 47]%N ++ n) x
               <-> Selected fs (fun m => EndsWith m (slash :: n)) t x).
  { intros x. unfold Matched.
    rewrite <- (Gathered_Selected fs ([42; 42; 47]%N ++ n) (fun m => EndsWith m (slash :: n))).
    2:{ intros m. apply (Glob_fallback n Hg). }
    pose proof (SafeName_starred n Hs Hne) as Hs'.
    split.
    - intros [[H _]|(p & H & Hx)]; apply (Cleaned_of_safe _ Hs' H3 H4) in H; [discriminate|].
      now injection H as ->.
    - intros H. right. eexists. split; [|exact H]. now apply Cleaned_of_safe. }
  unfold Found. rewrite HM, HF. rewrite HM. split.
  - intros [[H [Hn|Hx]]|(H & _ & H')]; [now left| |now right].
    destruct (SafeName_not_starts n Hs Hg Hx).
  - intros [[H Hn]|[H H']]; [left; auto|right]. split; [assumption|]. split; [|assumption].
    now apply SafeName_not_starts.
Qed.
End L.

(** Wrapping. *)
Lemma clean_to_wildcard : forall ww n, SafeName n ->
  ww = [] \/ (~ StartsWith n ww /\ ~ EndsWith n ww) ->
  clean_wildcard (to_wildcard ww n) ww = Ok n.
Proof.
  intros ww n Hs H.
  assert (Hfix : removesuffix (removeprefix (to_wildcard ww n) ww) ww = n).
  { destruct H as [->|[H1 H2]].
    - rewrite to_wildcard_fixed; [|now exists n|exists n; now rewrite app_nil_r].
      rewrite removeprefix_nil. rewrite <- (app_nil_r n) at 1. apply removesuffix_app.
    - unfold to_wildcard. assert (E1 : startswith n ww = false).
      { destruct (startswith n ww) eqn:E; [|reflexivity]. apply startswith_spec in E. tauto. }
      rewrite E1. assert (Hn : removesuffix n ww = n).
      { apply removesuffix_spec. intros q ->. apply H2. now exists q. }
      destruct (endswith (ww ++ n) ww).
      + now rewrite removeprefix_app.
      + rewrite <- app_assoc, removeprefix_app. apply removesuffix_app. }
  destruct (Pieces_total n) as [ps Hps].
  assert (Hc : forall w', removesuffix (removeprefix w' ww) ww = n -> clean_wildcard w' ww =
            if contains (interleave [slash] ps) $".." then Err EValue else Ok (interleave [slash] ps)).
  { intros w' E. apply clean_pieces. now rewrite E. }
  rewrite (Hc _ Hfix).
  assert (Hn : interleave [slash] ps = n).
  { rewrite <- (normalise n ps Hps). destruct Hs as (S1 & S2 & S3 & S4 & S5).
    rewrite collapse_clean; [|assumption|assumption|discriminate].
    rewrite <- (app_nil_l n) at 1. rewrite <- (app_nil_r n) at 1.
    apply (strip_edges is_slash [] [] n); auto.
    - intros c t ->. destruct (is_slash c) eqn:E; [|reflexivity]. apply is_slash_eq in E. subst.
      now destruct (S4 t).
    - intros c t ->. destruct (is_slash c) eqn:E; [|reflexivity]. apply is_slash_eq in E. subst.
      now destruct (S5 t). }
  rewrite Hn. destruct (contains n $"..") eqn:E; [|reflexivity].
  apply contains_Contains in E. destruct Hs as (_ & Hd & _). tauto.
Qed.

Lemma to_wildcard_adds : forall ww n, exists a z,
  to_wildcard ww n = a ++ n ++ z /\
  (a = if startswith n ww then [] else ww) /\
  ((z = [] /\ EndsWith (a ++ n) ww) \/ (z = ww /\ ~ EndsWith (a ++ n) ww)).
Proof.
  intros ww n. unfold to_wildcard.
  set (a := if startswith n ww then [] else ww).
  assert (Ea : (if startswith n ww then n else ww ++ n) = a ++ n).
  { unfold a. now destruct (startswith n ww). }
  exists a. destruct (endswith (a ++ n) ww) eqn:E.
  - exists []. rewrite Ea, E, app_nil_r. split; [reflexivity|]. split; [reflexivity|].
    left. split; [reflexivity|]. now apply endswith_spec.
  - exists ww. rewrite Ea, E, <- app_assoc. split; [reflexivity|]. split; [reflexivity|].
    right. split; [reflexivity|]. intros H. apply endswith_spec in H. congruence.
Qed.
