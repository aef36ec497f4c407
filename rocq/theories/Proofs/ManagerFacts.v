From Coq Require Import String NArith ZArith QArith Qcanon Bool Arith List Permutation Sorted Lia.
From Verif.Model Require Import Str Utils Rng Values Context Names Structured TextFile Tree Manager.
From Verif.Spec Require Import Text Names Files Tree Lookup.
From Verif.Proofs Require Import StrFacts UtilsFacts NamesFacts GlobFacts FileFacts TreeFacts BuildFacts RngFacts.
Import ListNotations.
Local Open Scope nat_scope.

(** * Cleaning *)
Lemma DropLeading_iff : forall sep s t, DropLeading sep s t <-> removeprefix s sep = t.
Proof.
  intros sep s t. split.
  - intros [->|[Hn ->]].
    + apply removeprefix_app.
    + apply removeprefix_spec. intros q ->. apply Hn. now exists q.
  - intros <-. destruct (prefix_dec s sep) as [[q ->]|Hn].
    + left. now rewrite removeprefix_app.
    + right. split; [intros [q E]; now apply (Hn q)|]. now apply removeprefix_spec.
Qed.

Lemma DropTrailing_iff : forall sep s t, DropTrailing sep s t <-> removesuffix s sep = t.
Proof.
  intros sep s t. split.
  - intros [->|[Hn ->]].
    + apply removesuffix_app.
    + apply removesuffix_spec. intros q ->. apply Hn. now exists q.
  - intros <-. destruct (suffix_dec s sep) as [[q ->]|Hn].
    + left. now rewrite removesuffix_app.
    + right. split; [intros [q E]; now apply (Hn q)|]. now apply removesuffix_spec.
Qed.

Lemma Cleaned_iff : forall ww w o,
  Cleaned ww w o <-> clean_wildcard w ww = match o with Some p => Ok p | None => Err EValue end.
Proof.
  intros ww w o. split.
  - intros (m & raw & ps & Hm & Hr & Hp & Ho). apply DropLeading_iff in Hm.
    apply DropTrailing_iff in Hr. subst. rewrite (clean_pieces _ _ _ Hp).
    change ($"..") with [46; 46]%N.
    destruct (contains (interleave [slash] ps) [46; 46]%N) eqn:E.
    + apply contains_Contains in E. destruct Ho as [[_ ->]|[Hn _]]; [reflexivity|tauto].
    + apply contains_false in E. destruct Ho as [[Hc _]|[_ ->]]; [tauto|reflexivity].
  - intros H. exists (removeprefix w ww), (removesuffix (removeprefix w ww) ww).
    destruct (Pieces_total (removesuffix (removeprefix w ww) ww)) as [ps Hp].
    exists ps. split; [now apply DropLeading_iff|]. split; [now apply DropTrailing_iff|].
    split; [assumption|]. rewrite (clean_pieces _ _ _ Hp) in H.
    change ($"..") with [46; 46]%N in H.
    destruct (contains (interleave [slash] ps) [46; 46]%N) eqn:E.
    + left. split; [now apply contains_Contains|]. destruct o; [discriminate|reflexivity].
    + right. split; [now apply contains_false|]. destruct o; [congruence|discriminate].
Qed.

Lemma clean_cases : forall w ww, (exists p, clean_wildcard w ww = Ok p) \/ clean_wildcard w ww = Err EValue.
Proof.
  intros w ww. unfold clean_wildcard.
  destruct (contains _ $".."); [now right|]. destruct (contains _ [92%N]); [now right|]. left. eauto.
Qed.

(** * Values of collections *)
Definition erase (c : coll) : coll :=
  match c with CList e => CList e | CText path _ => CText path None end.
Definition erase_map (t : list (str * coll)) : list (str * coll) :=
  map (fun nc => (fst nc, erase (snd nc))) t.

(** A filled cache agrees with the file. *)
Definition CacheValid (fs : fsnode) (c : coll) : Prop :=
  match c with
  | CText path (Some l) => exists content, fs_get path fs = Some (FFile content) /\ l = text_values content
  | _ => True
  end.
Definition TreeValid (fs : fsnode) (t : list (str * coll)) : Prop :=
  Forall (fun nc => CacheValid fs (snd nc)) t.

Lemma coll_values_erase : forall fs c, CacheValid fs c ->
  match coll_values fs c, coll_values fs (erase c) with
  | Ok (vs, c'), Ok (vs', _) => vs = vs' /\ erase c' = erase c /\ CacheValid fs c'
  | Err e, Err e' => e = e'
  | _, _ => False
  end.
Proof.
  intros fs [entries|path [l|]] H; cbn in *.
  - auto.
  - destruct H as (content & E & ->). rewrite E. split; [reflexivity|]. split; [reflexivity|].
    now exists content.
  - destruct (fs_get path fs) as [[content|es]|] eqn:E; auto.
    split; [reflexivity|]. split; [reflexivity|]. now exists content.
Qed.

Lemma gather_erase : forall fs pat t, TreeValid fs t ->
  snd (gather fs pat t) = snd (gather fs pat (erase_map t)) /\
  erase_map (fst (gather fs pat t)) = erase_map t /\ TreeValid fs (fst (gather fs pat t)).
Proof.
  intros fs pat t. induction t as [|[name c] t IH]; intros H; [cbn; auto using Forall_nil|].
  inversion H as [|? ? Hc Ht]; subst.
  cbn [gather erase_map map fst snd] in *. destruct (IH Ht) as (IH1 & IH2 & IH3).
  destruct (fnmatch name pat).
  - pose proof (coll_values_erase fs c Hc) as Hv.
    destruct (coll_values fs c) as [[vs c']|e]; destruct (coll_values fs (erase c)) as [[vs' c'']|e'];
      try (now destruct Hv).
    destruct Hv as (<- & He & Hv). fold (erase_map t).
      destruct (gather fs pat t) as [m1 r1]. destruct (gather fs pat (erase_map t)) as [m2 r2].
      cbn [fst snd] in *. subst r2. split; [reflexivity|]. split.
      * cbn. fold (erase_map m1) (erase_map t). rewrite He. unfold erase_map in *. now rewrite IH2.
      * constructor; assumption.
  - fold (erase_map t). destruct (gather fs pat t) as [m1 r1].
    destruct (gather fs pat (erase_map t)) as [m2 r2]. cbn [fst snd] in *.
    split; [assumption|]. split.
    + cbn. unfold erase_map in *. now rewrite IH2.
    + constructor; assumption.
Qed.

(** [gather] and the specification. *)
Lemma coll_values_CollHas : forall fs c vs, UniqueNames fs -> erase c = c ->
  ((exists c', coll_values fs c = Ok (vs, c')) <-> CollHas fs c vs).
Proof.
  intros fs c vs Hu He. destruct c as [entries|path [l|]]; cbn in *; [|discriminate|].
  - split; [intros [c' E]; injection E as <- _; constructor|intros H; inversion H; subst; eauto].
  - split.
    + destruct (fs_get path fs) as [[content|es]|] eqn:E; intros [c' H]; try discriminate.
      injection H as <- _. apply (fs_get_FileAt _ Hu) in E. econstructor; [exact E|].
      now apply text_values_iff.
    + intros H. inversion H as [|? ? content lines Hf Hv]; subst.
      apply (fs_get_FileAt _ Hu) in Hf. rewrite Hf. apply text_values_iff in Hv. rewrite Hv. eauto.
Qed.

Lemma gather_Gathered : forall fs pat t l, UniqueNames fs -> erase_map t = t ->
  (snd (gather fs pat t) = Ok l <-> Gathered fs pat t l).
Proof.
  intros fs pat t l Hu. revert l. induction t as [|[name c] t IH]; intros l He.
  - cbn. split; [intros H; injection H as <-; constructor|intros H; now inversion H].
  - cbn [erase_map map fst snd] in He. injection He as Hc Ht. cbn [gather].
    destruct (fnmatch name pat) eqn:Em.
    + apply fnmatch_Glob in Em. split.
      * destruct (coll_values fs c) as [[vs c']|e] eqn:Ev; [|discriminate].
        destruct (gather fs pat t) as [m1 [l1|e1]] eqn:Eg; [|discriminate].
        cbn. intros H; injection H as <-. constructor; [assumption| |].
        -- apply (coll_values_CollHas fs c vs Hu Hc). eauto.
        -- apply IH; [assumption|reflexivity].
      * intros H. inversion H as [|? ? ? vs l1 Hg Hv Hr|? ? ? ? Hg]; subst; [|tauto].
        apply (coll_values_CollHas fs c vs Hu Hc) in Hv as [c' ->].
        apply IH in Hr; [|assumption]. destruct (gather fs pat t) as [m1 r]. cbn in *. now subst.
    + apply fnmatch_false in Em. split.
      * destruct (gather fs pat t) as [m1 r1] eqn:Eg. cbn. intros ->. constructor; [assumption|].
        now apply IH.
      * intros H. inversion H as [|? ? ? vs l1 Hg|? ? ? ? Hg Hr]; subst; [tauto|].
        apply IH in Hr; [|assumption]. destruct (gather fs pat t) as [m1 r]. exact Hr.
Qed.

Lemma gather_ok : forall fs pat t,
  (forall name path cache, In (name, CText path cache) t -> exists content, fs_get path fs = Some (FFile content)) ->
  exists l, snd (gather fs pat t) = Ok l.
Proof.
  intros fs pat t. induction t as [|[name c] t IH]; intros H; [now exists []|].
  destruct IH as [l Hl]; [intros n p ca Hin; apply (H n p ca); now right|].
  cbn [gather]. destruct (fnmatch name pat).
  - assert (exists vs c', coll_values fs c = Ok (vs, c')) as (vs & c' & ->).
    { destruct c as [e|path [ca|]]; cbn; eauto.
      destruct (H name path None (or_introl eq_refl)) as [content ->]. eauto. }
    destruct (gather fs pat t) as [m1 r]. cbn in *. subst r. eauto.
  - destruct (gather fs pat t) as [m1 r]. cbn in *. eauto.
Qed.

(** * Sorting and de-duplication *)
Lemma str_leb_TextLe : forall a b, str_leb a b = true <-> TextLe a b.
Proof.
  induction a as [|x a IH]; intros b; cbn.
  - split; [constructor|reflexivity].
  - destruct b as [|y b]; [split; [discriminate|intros H; inversion H]|].
    destruct (N.eqb_spec x y) as [->|Hn].
    + rewrite IH. split; [now apply TextLe_eq|]. intros H; inversion H; subst; [lia|assumption].
    + rewrite N.ltb_lt. split; [now apply TextLe_lt|]. intros H; inversion H; subst; congruence.
Qed.

Lemma TextLe_total : forall a b, TextLe a b \/ TextLe b a.
Proof.
  induction a as [|x a IH]; intros b; [left; constructor|].
  destruct b as [|y b]; [right; constructor|].
  destruct (N.lt_trichotomy x y) as [H|[->|H]].
  - left. now constructor.
  - destruct (IH b); [left|right]; now apply TextLe_eq.
  - right. now constructor.
Qed.

Lemma TextLe_trans : forall a b c, TextLe a b -> TextLe b c -> TextLe a c.
Proof.
  intros a b c H. revert c. induction H as [b|x y a b Hl|x a b H IH]; intros c Hc.
  - constructor.
  - inversion Hc; subst; [constructor; lia|now constructor].
  - inversion Hc; subst; [now constructor|]. apply TextLe_eq. auto.
Qed.

Lemma TextLe_antisym : forall a b, TextLe a b -> TextLe b a -> a = b.
Proof.
  intros a b H. induction H as [b|x y a b Hl|x a b H IH]; intros H2.
  - now inversion H2.
  - inversion H2; subst; lia.
  - inversion H2; subst; [lia|]. f_equal; auto.
Qed.

Lemma insert_sorted_perm : forall i l, Permutation (i :: l) (insert_sorted i l).
Proof.
  induction l as [|j l IH]; cbn; [reflexivity|].
  destruct (str_leb (w_str i) (w_str j)); [reflexivity|].
  rewrite perm_swap. now rewrite IH.
Qed.

Lemma sort_items_perm : forall l, Permutation l (sort_items l).
Proof.
  induction l as [|i l IH]; cbn; [reflexivity|]. rewrite <- insert_sorted_perm. now constructor.
Qed.

Lemma insert_sorted_sorted : forall i l, StronglySorted ItemLe l ->
  StronglySorted ItemLe (insert_sorted i l).
Proof.
  intros i l H. induction H as [|j l Hs IH Hj]; cbn; [repeat constructor|].
  destruct (str_leb (w_str i) (w_str j)) eqn:E.
  - apply str_leb_TextLe in E. constructor; [now constructor|].
    constructor; [exact E|]. eapply Forall_impl; [|exact Hj].
    intros k Hk. eapply TextLe_trans; [exact E|exact Hk].
  - constructor; [exact IH|]. eapply Permutation_Forall; [apply insert_sorted_perm|].
    constructor; [|exact Hj]. destruct (TextLe_total (w_content i) (w_content j)) as [H|H]; [|exact H].
    apply str_leb_TextLe in H. unfold w_str in E. congruence.
Qed.

Lemma sort_items_sorted : forall l, StronglySorted ItemLe (sort_items l).
Proof. induction l as [|i l IH]; cbn; [constructor|now apply insert_sorted_sorted]. Qed.

Lemma insert_sorted_filter : forall (same : witem -> bool) t i l,
  (forall k, same k = true <-> w_content k = t) ->
  StronglySorted ItemLe l ->
  filter same (insert_sorted i l) = filter same (i :: l).
Proof.
  intros same t i l Hsame H. induction H as [|j l Hs IH Hj]; [reflexivity|].
  cbn [insert_sorted]. destruct (str_leb (w_str i) (w_str j)) eqn:E; [reflexivity|].
  cbn [filter] in *. rewrite IH. destruct (same i) eqn:Ei; destruct (same j) eqn:Ej; try reflexivity.
  exfalso. apply Hsame in Ei, Ej.
  assert (F : str_leb (w_str i) (w_str j) = true); [|congruence].
  apply str_leb_TextLe. unfold w_str. rewrite Ei, Ej.
  destruct (TextLe_total t t); assumption.
Qed.

Lemma sort_items_stable : forall l, StablySorted l (sort_items l).
Proof.
  intros l. split; [apply sort_items_perm|]. split; [apply sort_items_sorted|].
  intros same t Hsame. induction l as [|i l IH]; [reflexivity|].
  cbn [sort_items]. rewrite (insert_sorted_filter same t) by (assumption || apply sort_items_sorted).
  cbn [filter]. now rewrite IH.
Qed.

Lemma witem_eqb_spec : forall a b, witem_eqb a b = true <-> a = b.
Proof.
  intros [ca wa] [cb wb]. unfold witem_eqb. cbn. rewrite andb_true_iff, str_eqb_eq.
  destruct wa as [x|], wb as [y|]; split; intros H.
  - destruct H as [-> H]. apply Qc_eqb_iff in H. now subst.
  - injection H as -> ->. split; [reflexivity|now apply Qc_eqb_iff].
  - destruct H; discriminate.
  - discriminate.
  - destruct H; discriminate.
  - discriminate.
  - now destruct H as [-> _].
  - injection H as ->. auto.
Qed.

Lemma existsb_witem : forall i l, existsb (witem_eqb i) l = true <-> In i l.
Proof.
  intros i l. rewrite existsb_exists. split.
  - intros (x & Hx & E). apply witem_eqb_spec in E. now subst.
  - intros H. exists i. split; [assumption|]. now apply witem_eqb_spec.
Qed.

Lemma fromkeys_aux_In : forall l seen x, In x (fromkeys_aux seen l) <-> In x l /\ ~ In x seen.
Proof.
  induction l as [|y l IH]; cbn; intros seen x; [tauto|].
  destruct (existsb (witem_eqb y) seen) eqn:E.
  - apply existsb_witem in E. rewrite IH. split; [tauto|].
    intros [[->|H] Hn]; tauto.
  - assert (Hy : ~ In y seen) by (intros H; apply existsb_witem in H; congruence).
    cbn. rewrite IH. cbn. split.
    + intros [->|[H1 H2]]; [tauto|]. tauto.
    + intros [[->|H1] H2]; [now left|].
      destruct (witem_eqb y x) eqn:Ex.
      * apply witem_eqb_spec in Ex. now left.
      * right. split; [assumption|]. intros [->|H3]; [|tauto].
        rewrite (proj2 (witem_eqb_spec x x) eq_refl) in Ex. discriminate.
Qed.

Lemma fromkeys_aux_NoDup : forall l seen, NoDup (fromkeys_aux seen l).
Proof.
  induction l as [|y l IH]; cbn; intros seen; [constructor|].
  destruct (existsb (witem_eqb y) seen); [apply IH|].
  constructor; [|apply IH]. rewrite fromkeys_aux_In. cbn. tauto.
Qed.

Lemma fromkeys_aux_order : forall l seen i j x y a b,
  i < j ->
  nth_error (fromkeys_aux seen l) i = Some x -> nth_error (fromkeys_aux seen l) j = Some y ->
  FirstAt l x a -> FirstAt l y b -> a < b.
Proof.
  induction l as [|z l IH]; cbn [fromkeys_aux]; intros seen i j x y a b Hij Hi Hj Ha Hb.
  - destruct i; discriminate.
  - assert (Hshift : forall w c, FirstAt (z :: l) w c -> w <> z ->
              exists c', c = S c' /\ FirstAt l w c').
    { intros w [|c] [Hc Hf] Hw; cbn in Hc; [congruence|].
      exists c. split; [reflexivity|]. split; [exact Hc|].
      intros k Hk. apply (Hf (S k)). lia. }
    destruct (existsb (witem_eqb z) seen) eqn:Hm.
    + assert (Hz : forall w k, nth_error (fromkeys_aux seen l) k = Some w -> w <> z).
      { intros w k Hk ->. apply nth_error_In, fromkeys_aux_In in Hk.
        apply existsb_witem in Hm. tauto. }
      destruct (Hshift x a Ha (Hz _ _ Hi)) as (a' & -> & Ha').
      destruct (Hshift y b Hb (Hz _ _ Hj)) as (b' & -> & Hb').
      specialize (IH seen i j x y a' b' Hij Hi Hj Ha' Hb'). lia.
    + assert (Hz : forall w k, nth_error (fromkeys_aux (z :: seen) l) k = Some w -> w <> z).
      { intros w k Hk ->. apply nth_error_In, fromkeys_aux_In in Hk. cbn in Hk. tauto. }
      destruct j as [|j]; [lia|]. cbn in Hj.
      destruct (Hshift y b Hb (Hz _ _ Hj)) as (b' & -> & Hb').
      destruct i as [|i]; cbn in Hi.
      * injection Hi as <-. destruct a as [|a]; [lia|].
        exfalso. destruct Ha as [_ Hf]. apply (Hf 0); [lia|reflexivity].
      * destruct (Hshift x a Ha (Hz _ _ Hi)) as (a' & -> & Ha').
        assert (a' < b') by (eapply (IH (z :: seen) i j); eauto; lia). lia.
Qed.

Lemma fromkeys_dedup : forall l, Deduplicated l (fromkeys l).
Proof.
  intros l. split; [apply fromkeys_aux_NoDup|]. split.
  - intros i. unfold fromkeys. rewrite fromkeys_aux_In. cbn. tauto.
  - intros a b i j p q Hi Hj Hab Hp Hq. eapply fromkeys_aux_order; eauto.
Qed.

(** * Shuffling *)
Lemma set_nth_length : forall {A} i (x : A) l, length (set_nth i x l) = length l.
Proof. induction i; destruct l; cbn; auto. Qed.

Lemma nth_error_set_nth : forall {A} i (x : A) l k, i < length l ->
  nth_error (set_nth i x l) k = if Nat.eqb k i then Some x else nth_error l k.
Proof.
  induction i as [|i IH]; intros x l k H; destruct l as [|y l]; cbn in H; try lia.
  - destruct k; reflexivity.
  - destruct k; [reflexivity|]. cbn. apply IH. lia.
Qed.

Lemma set_nth_split : forall {A} (l1 : list A) x y l2,
  set_nth (length l1) y (l1 ++ x :: l2) = l1 ++ y :: l2.
Proof. induction l1 as [|z l1 IH]; intros; cbn; [reflexivity|]. now rewrite IH. Qed.

Lemma swap_lt_perm : forall {A} i j (l : list A), i < j -> Permutation (swap i j l) l.
Proof.
  intros A i j l H. unfold swap.
  destruct (nth_error l i) as [a|] eqn:Ei; [|reflexivity].
  destruct (nth_error l j) as [b|] eqn:Ej; [|reflexivity].
  apply nth_error_split in Ei as (l1 & l2 & -> & <-).
  rewrite nth_error_app2 in Ej by lia.
  destruct (j - length l1) as [|k] eqn:Ek; [lia|]. cbn in Ej.
  apply nth_error_split in Ej as (l3 & l4 & -> & Hk).
  rewrite set_nth_split.
  replace j with (length (l1 ++ b :: l3)) by (rewrite app_length; cbn; lia).
  change (l1 ++ b :: l3 ++ b :: l4) with (l1 ++ (b :: l3) ++ b :: l4). rewrite app_assoc.
  rewrite set_nth_split. rewrite <- app_assoc. apply Permutation_app_head. cbn.
  rewrite <- !Permutation_middle. apply perm_swap.
Qed.

Lemma swap_same : forall {A} i (l : list A), swap i i l = l.
Proof.
  intros A i l. unfold swap. destruct (nth_error l i) as [a|] eqn:E; [|reflexivity].
  apply nth_error_split in E as (l1 & l2 & -> & <-). now rewrite !set_nth_split.
Qed.

Lemma swap_comm : forall {A} i j (l : list A), i <> j -> swap i j l = swap j i l.
Proof.
  intros A i j l H. unfold swap.
  destruct (nth_error l i) as [a|] eqn:Ei; destruct (nth_error l j) as [b|] eqn:Ej; try reflexivity.
  assert (Hi : i < length l) by (apply nth_error_Some; congruence).
  assert (Hj : j < length l) by (apply nth_error_Some; congruence).
  revert i j H Ei Ej Hi Hj. induction l as [|x l IH]; intros i j H Ei Ej Hi Hj; [now destruct i|].
  destruct i as [|i], j as [|j]; cbn in *; try congruence.
  f_equal. apply IH; auto; lia.
Qed.

Lemma swap_perm : forall {A} i j (l : list A), Permutation (swap i j l) l.
Proof.
  intros A i j l. destruct (Nat.lt_trichotomy i j) as [H|[->|H]].
  - now apply swap_lt_perm.
  - now rewrite swap_same.
  - rewrite swap_comm by lia. now apply swap_lt_perm.
Qed.

Lemma shuffle_from_perm : forall G {A} i (l : list A) r, Permutation (fst (shuffle_from G i l r)) l.
Proof.
  intros G A i. induction i as [|i IH]; intros l r; cbn [shuffle_from]; [reflexivity|].
  destruct (randbelow G (S (S i)) r) as [j r']. rewrite IH. apply swap_perm.
Qed.

Lemma shuffled_perm : forall G {A} (l : list A) r, Permutation (fst (shuffled G l r)) l.
Proof. intros. apply shuffle_from_perm. Qed.

(** * The state machine *)
Section M.
Variable P : pylib.
Variable G : rng_impl.
Variable ww : str.
Variable roots : root_map.

Definition pure_match (fs : fsnode) (w : str) : res (list witem) :=
  match clean_wildcard w ww with
  | Err _ => Ok []
  | Ok p => snd (gather fs p (build_map P fs roots))
  end.

Definition pure_found (fs : fsnode) (w : str) : res (list witem) :=
  match pure_match fs w with
  | Err e => Err e
  | Ok [] => if startswith w $"**" then Ok [] else pure_match fs ($"**/" ++ w)
  | Ok l => Ok l
  end.

Definition flagged (sort dedup shuffle : bool) (l : list witem) : list witem :=
  let ws := if dedup then fromkeys l else l in
  if sort && negb shuffle then sort_items ws else ws.

Definition pure_values (sort dedup shuffle : bool) (fs : fsnode) (w : str) : res (list witem) :=
  match pure_found fs w with
  | Ok l => Ok (flagged sort dedup shuffle l)
  | Err e => Err e
  end.

(** The tree of a state is the tree of the files, up to filled caches. *)
Definition TreeOk (fs : fsnode) (st : mstate) : Prop :=
  match m_tree st with
  | None => True
  | Some t => erase_map t = build_map P fs roots /\ TreeValid fs t
  end.

Lemma build_map_erased : forall fs, erase_map (build_map P fs roots) = build_map P fs roots.
Proof.
  intros fs. unfold erase_map. rewrite <- map_id. apply map_ext_in.
  intros [name c] Hin. cbn. f_equal. destruct c as [e|path cache]; [reflexivity|].
  apply build_map_text in Hin as [-> _]. reflexivity.
Qed.

Lemma erased_valid : forall fs t, erase_map t = t -> TreeValid fs t.
Proof.
  intros fs t. induction t as [|[n c] t IH]; cbn; intros H; [constructor|].
  injection H as Hc Ht. constructor; [|now apply IH].
  destruct c as [e|p [l|]]; cbn in *; [exact I|discriminate|exact I].
Qed.

Lemma get_tree_ok : forall fs st, TreeOk fs st ->
  erase_map (get_tree P roots fs st) = build_map P fs roots /\ TreeValid fs (get_tree P roots fs st).
Proof.
  intros fs st H. unfold TreeOk, get_tree in *. destruct (m_tree st) as [t|]; [exact H|].
  split; [apply build_map_erased|]. apply erased_valid, build_map_erased.
Qed.

Definition same_flags (st st' : mstate) : Prop :=
  m_cache st' = m_cache st /\ m_sort st' = m_sort st /\ m_dedup st' = m_dedup st /\
  m_shuffle st' = m_shuffle st.

Lemma matching_values_ok : forall fs w st, TreeOk fs st ->
  let (st', r) := matching_values P ww roots fs w st in
  r = pure_match fs w /\ TreeOk fs st' /\ same_flags st st'.
Proof.
  intros fs w st H. unfold matching_values, pure_match.
  destruct (clean_wildcard w ww) as [p|e].
  - destruct (get_tree_ok fs st H) as [He Hv].
    destruct (gather_erase fs p _ Hv) as (H1 & H2 & H3).
    destruct (gather fs p (get_tree P roots fs st)) as [t r]. cbn [fst snd] in *.
    split; [now rewrite H1, He|]. split.
    + unfold TreeOk. cbn. split; [now rewrite H2|assumption].
    + repeat split.
  - split; [reflexivity|]. split; [assumption|]. repeat split.
Qed.

Lemma finish_values_ok : forall w l st,
  let (st', ws) := finish_values w l st in
  ws = flagged (m_sort st) (m_dedup st) (m_shuffle st) l /\
  m_tree st' = m_tree st /\ m_sort st' = m_sort st /\ m_dedup st' = m_dedup st /\
  m_shuffle st' = m_shuffle st /\
  (m_cache st' = od_set w ws (m_cache st) \/ m_cache st' = [(w, ws)]).
Proof.
  intros w l st. unfold finish_values. cbn [m_tree m_sort m_dedup m_shuffle m_cache].
  repeat (split; [reflexivity|]).
  destruct (cache_limit <? length (m_cache st)); [now right|now left].
Qed.

(** Every entry of the cache was computed with the current flags and some
    value of the shuffle flag allowed by [Q]. *)
Definition CacheOk (Q : bool -> Prop) (fs : fsnode) (st : mstate) : Prop :=
  forall w v, od_get w (m_cache st) = Some v ->
    exists sh, Q sh /\ pure_values (m_sort st) (m_dedup st) sh fs w = Ok v.

Definition Inv (Q : bool -> Prop) (fs : fsnode) (st : mstate) : Prop :=
  TreeOk fs st /\ CacheOk Q fs st /\ Q (m_shuffle st).

Lemma CacheOk_flags : forall Q fs st st', same_flags st st' -> CacheOk Q fs st -> CacheOk Q fs st'.
Proof.
  intros Q fs st st' (E1 & E2 & E3 & E4) H w v Hw. rewrite E1 in Hw. rewrite E2, E3. auto.
Qed.

Lemma finish_Inv : forall Q fs w l st, Inv Q fs st ->
  pure_found fs w = Ok l ->
  let (st', ws) := finish_values w l st in
  Inv Q fs st' /\ same_flags st {| m_tree := m_tree st'; m_cache := m_cache st; m_sort := m_sort st';
                                   m_dedup := m_dedup st'; m_shuffle := m_shuffle st' |} /\
  pure_values (m_sort st) (m_dedup st) (m_shuffle st) fs w = Ok ws.
Proof.
  intros Q fs w l st (Ht & Hc & Hq) Hl. pose proof (finish_values_ok w l st) as H.
  destruct (finish_values w l st) as [st' ws].
  destruct H as (-> & Et & Es & Ed & Eh & Ec).
  assert (Hv : pure_values (m_sort st) (m_dedup st) (m_shuffle st) fs w
               = Ok (flagged (m_sort st) (m_dedup st) (m_shuffle st) l)).
  { unfold pure_values. now rewrite Hl. }
  split; [|split; [repeat split; assumption|assumption]].
  split; [unfold TreeOk; rewrite Et; exact Ht|]. split; [|now rewrite Eh].
  intros w' v Hw. rewrite Es, Ed.
  assert (Hcase : (w' = w /\ v = flagged (m_sort st) (m_dedup st) (m_shuffle st) l) \/
                  od_get w' (m_cache st) = Some v).
  { destruct Ec as [Ec|Ec].
    - rewrite Ec in Hw. destruct (str_eqb_spec w' w) as [->|Hne].
      + rewrite od_get_set_same in Hw. injection Hw as <-. now left.
      + rewrite od_get_set_other in Hw by assumption. now right.
    - rewrite Ec in Hw. cbn in Hw. destruct (str_eqb_spec w' w) as [->|Hne]; [|discriminate].
      injection Hw as <-. now left. }
  destruct Hcase as [[-> ->]|Hw'].
  - exists (m_shuffle st). split; [exact Hq|exact Hv].
  - exact (Hc _ _ Hw').
Qed.

Lemma get_values_cached_ok : forall Q fs w st, Inv Q fs st ->
  let (st', r) := get_values_cached P ww roots fs w st in
  Inv Q fs st' /\ m_sort st' = m_sort st /\ m_dedup st' = m_dedup st /\ m_shuffle st' = m_shuffle st /\
  exists sh, Q sh /\ r = pure_values (m_sort st) (m_dedup st) sh fs w.
Proof.
  intros Q fs w st HI. pose proof HI as (Ht & Hc & Hq). unfold get_values_cached.
  destruct (od_get w (m_cache st)) as [vs|] eqn:Ew.
  - destruct (Hc _ _ Ew) as (sh & Hs & Hv). split; [assumption|]. repeat split. exists sh. auto.
  - pose proof (matching_values_ok fs w st Ht) as Hm.
    destruct (matching_values P ww roots fs w st) as [st1 r1].
    destruct Hm as (Hr1 & Ht1 & Hf1). pose proof Hf1 as (Ec1 & Es1 & Ed1 & Eh1).
    assert (HI1 : Inv Q fs st1).
    { split; [assumption|]. split; [eapply CacheOk_flags; eauto|now rewrite Eh1]. }
    assert (Hfin : forall st2 l, Inv Q fs st2 -> m_sort st2 = m_sort st -> m_dedup st2 = m_dedup st ->
       m_shuffle st2 = m_shuffle st -> pure_found fs w = Ok l ->
       let (st', r) := (let (st', ws) := finish_values w l st2 in (st', Ok ws)) in
       Inv Q fs st' /\ m_sort st' = m_sort st /\ m_dedup st' = m_dedup st /\
       m_shuffle st' = m_shuffle st /\
       exists sh, Q sh /\ r = pure_values (m_sort st) (m_dedup st) sh fs w).
    { intros st2 l HI2 Es2 Ed2 Eh2 Hl. pose proof (finish_Inv Q fs w l st2 HI2 Hl) as Hfin.
      destruct (finish_values w l st2) as [st' ws].
      destruct Hfin as (HI' & (E1 & E2 & E3 & E4) & Hv). cbn in E1, E2, E3, E4.
      split; [assumption|]. split; [congruence|]. split; [congruence|]. split; [congruence|].
      exists (m_shuffle st2). destruct HI2 as (_ & _ & Hq2). split; [assumption|].
      now rewrite <- Hv, Es2, Ed2. }
    destruct r1 as [[|v vs]|e].
    + destruct (startswith w $"**") eqn:Esw.
      * apply Hfin; auto. unfold pure_found. rewrite <- Hr1, Esw. reflexivity.
      * pose proof (matching_values_ok fs ($"**/" ++ w) st1 Ht1) as Hm2.
        destruct (matching_values P ww roots fs ($"**/" ++ w) st1) as [st2 r2].
        destruct Hm2 as (Hr2 & Ht2 & Hf2). pose proof Hf2 as (Ec2 & Es2 & Ed2 & Eh2).
        assert (HI2 : Inv Q fs st2).
        { split; [assumption|]. destruct HI1 as (_ & Hc1 & Hq1).
          split; [eapply CacheOk_flags; eauto|now rewrite Eh2]. }
        assert (Hpf : pure_found fs w = r2).
        { unfold pure_found. rewrite <- Hr1, Esw. now rewrite Hr2. }
        destruct r2 as [l|e].
        -- apply Hfin; auto; congruence.
        -- split; [assumption|]. split; [congruence|]. split; [congruence|]. split; [congruence|].
           exists (m_shuffle st). split; [assumption|]. unfold pure_values. now rewrite Hpf.
    + apply Hfin; auto. unfold pure_found. now rewrite <- Hr1.
    + split; [assumption|]. split; [congruence|]. split; [congruence|]. split; [congruence|].
      exists (m_shuffle st). split; [assumption|]. unfold pure_values, pure_found. now rewrite <- Hr1.
Qed.

Lemma get_values_ok : forall Q fs w st r, Inv Q fs st ->
  match get_values P G ww roots fs w st r with
  | (st', v, _) =>
      Inv Q fs st' /\ m_sort st' = m_sort st /\ m_dedup st' = m_dedup st /\
      m_shuffle st' = m_shuffle st /\
      exists sh, Q sh /\
        match pure_values (m_sort st) (m_dedup st) sh fs w, v with
        | Ok l, Ok l' => Permutation l l' /\ (m_shuffle st = false -> l = l')
        | Err e, Err e' => e = e'
        | _, _ => False
        end
  end.
Proof.
  intros Q fs w st r HI. unfold get_values. pose proof (get_values_cached_ok Q fs w st HI) as H.
  destruct (get_values_cached P ww roots fs w st) as [st' v].
  destruct H as (HI' & Es & Ed & Eh & sh & Hq & Hv).
  destruct v as [l|e].
  - destruct (m_shuffle st') eqn:Esh.
    + pose proof (shuffled_perm G l r) as Hp. destruct (shuffled G l r) as [l' r']. cbn in Hp.
      split; [assumption|]. split; [assumption|]. split; [assumption|]. split; [congruence|].
      exists sh. split; [assumption|]. rewrite <- Hv. split; [now symmetry|]. congruence.
    + split; [assumption|]. split; [assumption|]. split; [assumption|]. split; [congruence|].
      exists sh. split; [assumption|]. rewrite <- Hv. split; reflexivity.
  - split; [assumption|]. split; [assumption|]. split; [assumption|]. split; [assumption|].
    exists sh. split; [assumption|]. now rewrite <- Hv.
Qed.

(** Operations that leave the files alone and set the shuffle flag only as
    [Q] allows. *)
Definition Quiet (Q : bool -> Prop) (o : mop) : Prop :=
  match o with
  | OShuffle b => Q b
  | OWrite _ _ | OExternal _ => False
  | _ => True
  end.

Lemma set_tree_Inv : forall Q fs st t, Inv Q fs st ->
  erase_map t = build_map P fs roots -> TreeValid fs t -> Inv Q fs (set_tree t st).
Proof.
  intros Q fs st t (Ht & Hc & Hq) He Hv. split; [split; assumption|]. split; [exact Hc|exact Hq].
Qed.

Lemma clear_Inv : forall (Q : bool -> Prop) fs st, Q (m_shuffle st) -> Inv Q fs (clear_cache st).
Proof.
  intros Q fs st Hq. split; [exact I|]. split; [intros w v H; discriminate|exact Hq].
Qed.

Lemma step_Inv : forall Q o w, Quiet Q o -> Inv Q (w_fs G w) (w_man G w) ->
  w_fs G (step P G ww roots o w) = w_fs G w /\
  Inv Q (w_fs G w) (w_man G (step P G ww roots o w)).
Proof.
  intros Q o w Ho HI. pose proof HI as (Ht & Hc & Hq).
  destruct o as [wc|name| |b|b|b| |n t|fs']; cbn [step] in *.
  - pose proof (get_values_ok Q (w_fs G w) wc (w_man G w) (w_rng G w) HI) as H.
    destruct (get_values P G ww roots (w_fs G w) wc (w_man G w) (w_rng G w)) as [[st v] r].
    cbn. split; [reflexivity|]. now destruct H.
  - cbn. split; [reflexivity|]. unfold get_file. destruct (clean_wildcard name ww) as [p|e]; [|exact HI].
    cbn [fst]. destruct (get_tree_ok _ _ Ht). now apply set_tree_Inv.
  - cbn. split; [reflexivity|]. unfold get_collection_names. cbn [fst].
    destruct (get_tree_ok _ _ Ht). now apply set_tree_Inv.
  - cbn. split; [reflexivity|]. apply clear_Inv. exact Hq.
  - cbn. split; [reflexivity|]. apply clear_Inv. exact Hq.
  - cbn. split; [reflexivity|]. split; [exact Ht|]. split; [exact Hc|exact Ho].
  - cbn. split; [reflexivity|]. now apply clear_Inv.
  - destruct Ho.
  - destruct Ho.
Qed.

Lemma run_Inv : forall Q ops w, Forall (Quiet Q) ops -> Inv Q (w_fs G w) (w_man G w) ->
  w_fs G (run_ops P G ww roots ops w) = w_fs G w /\
  Inv Q (w_fs G w) (w_man G (run_ops P G ww roots ops w)).
Proof.
  intros Q ops. unfold run_ops. induction ops as [|o ops IH]; intros w H HI; [auto|].
  inversion H as [|? ? Ho Hops]; subst. cbn [fold_left].
  destruct (step_Inv Q o w Ho HI) as [Ef HI']. rewrite <- Ef in HI'.
  destruct (IH (step P G ww roots o w) Hops HI') as [E1 H1]. rewrite Ef in *. auto.
Qed.

(** A manager just made, with given flags. *)
Definition fresh (fs : fsnode) (sort dedup shuffle : bool) (r : rng_state G) : world G :=
  {| w_fs := fs;
     w_man := {| m_tree := None; m_cache := []; m_sort := sort; m_dedup := dedup;
                 m_shuffle := shuffle |};
     w_rng := r |}.

Lemma fresh_Inv : forall (Q : bool -> Prop) fs s d sh r, Q sh -> Inv Q fs (w_man G (fresh fs s d sh r)).
Proof. intros. split; [exact I|]. split; [intros w v E; discriminate|assumption]. Qed.

Lemma lookup_ok : forall Q w wc, Inv Q (w_fs G w) (w_man G w) ->
  exists sh, Q sh /\
  match pure_values (m_sort (w_man G w)) (m_dedup (w_man G w)) sh (w_fs G w) wc,
        lookup P G ww roots wc w with
  | Ok l, Ok l' => Permutation l l' /\ (m_shuffle (w_man G w) = false -> l = l')
  | Err e, Err e' => e = e'
  | _, _ => False
  end.
Proof.
  intros Q w wc HI. unfold lookup.
  pose proof (get_values_ok Q (w_fs G w) wc (w_man G w) (w_rng G w) HI) as H.
  destruct (get_values P G ww roots (w_fs G w) wc (w_man G w) (w_rng G w)) as [[st v] r].
  now destruct H as (_ & _ & _ & _ & H).
Qed.

Lemma lookup_fresh : forall fs s d r wc,
  lookup P G ww roots wc (fresh fs s d false r) = pure_values s d false fs wc.
Proof.
  intros fs s d r wc.
  destruct (lookup_ok (fun b => b = false) (fresh fs s d false r) wc
              (fresh_Inv _ fs s d false r eq_refl)) as (sh & -> & H).
  cbn [fresh w_fs w_man m_sort m_dedup m_shuffle] in H.
  destruct (pure_values s d false fs wc) as [l|e],
           (lookup P G ww roots wc (fresh fs s d false r)) as [l'|e']; try destruct H.
  - now rewrite H0.
  - reflexivity.
Qed.

(** Transparency of the cache. *)
Lemma lookup_transparent : forall w ops wc,
  Inv (fun b => b = false) (w_fs G w) (w_man G w) -> Forall (Quiet (fun b => b = false)) ops ->
  let w' := run_ops P G ww roots ops w in
  forall r, lookup P G ww roots wc w'
  = lookup P G ww roots wc (fresh (w_fs G w') (m_sort (w_man G w')) (m_dedup (w_man G w')) false r).
Proof.
  intros w ops wc HI Hops w' r. destruct (run_Inv _ ops w Hops HI) as [Ef HI'].
  fold w' in Ef, HI'. rewrite lookup_fresh. rewrite <- Ef in HI'.
  destruct (lookup_ok _ w' wc HI') as (sh & -> & H).
  assert (Hsh : m_shuffle (w_man G w') = false) by (now destruct HI' as (_ & _ & H')).
  destruct (pure_values (m_sort (w_man G w')) (m_dedup (w_man G w')) false (w_fs G w') wc) as [l|e],
           (lookup P G ww roots wc w') as [l'|e']; try destruct H.
  - now rewrite H0.
  - reflexivity.
Qed.

Lemma flagged_perm : forall s d sh sh' l, Permutation (flagged s d sh l) (flagged s d sh' l).
Proof.
  intros s d sh sh' l. unfold flagged.
  destruct (s && negb sh), (s && negb sh'); try reflexivity.
  - symmetry. apply sort_items_perm.
  - apply sort_items_perm.
Qed.

(** With shuffling used at any time: the same values in some order. *)
Lemma lookup_same_values : forall w ops wc, Inv (fun _ => True) (w_fs G w) (w_man G w) ->
  Forall (Quiet (fun _ => True)) ops ->
  let w' := run_ops P G ww roots ops w in
  forall r,
  match lookup P G ww roots wc (fresh (w_fs G w') (m_sort (w_man G w')) (m_dedup (w_man G w')) false r),
        lookup P G ww roots wc w' with
  | Ok l, Ok l' => Permutation l l'
  | Err e, Err e' => e = e'
  | _, _ => False
  end.
Proof.
  intros w ops wc HI Hops w' r. destruct (run_Inv _ ops w Hops HI) as [Ef HI'].
  fold w' in Ef, HI'. rewrite lookup_fresh. rewrite <- Ef in HI'.
  destruct (lookup_ok _ w' wc HI') as (sh & _ & H).
  unfold pure_values in *. destruct (pure_found (w_fs G w') wc) as [l|e].
  - destruct (lookup P G ww roots wc w') as [l'|e']; [|exact H]. destruct H as [Hp _].
    rewrite <- Hp. apply flagged_perm.
  - exact H.
Qed.

(** The size of the cache. *)
Definition Small (st : mstate) : Prop := length (m_cache st) <= 101.

Lemma matching_cache : forall fs w st,
  m_cache (fst (matching_values P ww roots fs w st)) = m_cache st.
Proof.
  intros. unfold matching_values. destruct (clean_wildcard w ww); [|reflexivity].
  destruct (gather fs a (get_tree P roots fs st)). reflexivity.
Qed.

Lemma finish_small : forall w l st, Small (fst (finish_values w l st)).
Proof.
  intros w l st. unfold Small, finish_values. cbn [fst m_cache].
  destruct (Nat.ltb_spec cache_limit (length (m_cache st))) as [H|H].
  - cbn. lia.
  - pose proof (od_set_length w (if m_sort st && negb (m_shuffle st)
        then sort_items (if m_dedup st then fromkeys l else l)
        else if m_dedup st then fromkeys l else l) (m_cache st)) as Hl.
    unfold cache_limit in H. lia.
Qed.

Lemma get_values_cached_small : forall fs w st, Small st ->
  Small (fst (get_values_cached P ww roots fs w st)).
Proof.
  intros fs w st H. unfold get_values_cached.
  destruct (od_get w (m_cache st)); [exact H|].
  pose proof (matching_cache fs w st) as Hm.
  destruct (matching_values P ww roots fs w st) as [st1 r1]. cbn [fst] in Hm.
  destruct r1 as [[|v vs]|e].
  - destruct (startswith w $"**").
    + pose proof (finish_small w [] st1). destruct (finish_values w [] st1). assumption.
    + pose proof (matching_cache fs ($"**/" ++ w) st1) as Hm2.
      destruct (matching_values P ww roots fs ($"**/" ++ w) st1) as [st2 r2]. cbn [fst] in Hm2.
      destruct r2 as [l|e].
      * pose proof (finish_small w l st2). destruct (finish_values w l st2). assumption.
      * unfold Small in *. cbn [fst]. congruence.
  - pose proof (finish_small w (v :: vs) st1). destruct (finish_values w (v :: vs) st1). assumption.
  - unfold Small in *. cbn [fst]. congruence.
Qed.

Lemma step_small : forall o w, Small (w_man G w) -> Small (w_man G (step P G ww roots o w)).
Proof.
  intros o w H. destruct o as [wc|name| |b|b|b| |n t|fs']; cbn [step].
  - pose proof (get_values_cached_small (w_fs G w) wc (w_man G w) H) as Hs. unfold get_values.
    destruct (get_values_cached P ww roots (w_fs G w) wc (w_man G w)) as [st v]. cbn [fst] in Hs.
    destruct v as [l|e]; [|exact Hs]. destruct (m_shuffle st); [|exact Hs].
    destruct (shuffled G l (w_rng G w)). exact Hs.
  - cbn. unfold get_file. destruct (clean_wildcard name ww); exact H.
  - exact H.
  - unfold Small. cbn. lia.
  - unfold Small. cbn. lia.
  - exact H.
  - unfold Small. cbn. lia.
  - unfold write_file, get_file. destruct (clean_wildcard n ww); [|exact H].
    destruct (od_get a (get_tree P roots (w_fs G w) (w_man G w))) as [[e|path ca]|]; try exact H.
    destruct (fs_write path t (w_fs G w)); exact H.
  - exact H.
Qed.

Lemma run_small : forall ops w, Small (w_man G w) -> Small (w_man G (run_ops P G ww roots ops w)).
Proof.
  unfold run_ops. induction ops as [|o ops IH]; intros w H; [exact H|].
  cbn [fold_left]. apply IH. now apply step_small.
Qed.

(** Fresh lookups against the specification. *)
Lemma pure_match_Matched : forall fs w l, UniqueNames fs ->
  (pure_match fs w = Ok l <-> Matched fs ww (build_map P fs roots) w l).
Proof.
  intros fs w l Hu. unfold pure_match, Matched. split.
  - destruct (clean_wildcard w ww) as [p|e] eqn:E.
    + intros H. right. exists p. split; [now apply Cleaned_iff|].
      apply gather_Gathered; [assumption|apply build_map_erased|assumption].
    + intros H; injection H as <-. left. split; [|reflexivity]. apply Cleaned_iff.
      destruct (clean_cases w ww) as [[p E']|E']; congruence.
  - intros [[Hc ->]|(p & Hc & Hg)]; apply Cleaned_iff in Hc; rewrite Hc.
    + reflexivity.
    + apply gather_Gathered; [assumption|apply build_map_erased|assumption].
Qed.

Lemma pure_match_ok : forall fs w, UniqueNames fs -> exists l, pure_match fs w = Ok l.
Proof.
  intros fs w Hu. unfold pure_match. destruct (clean_wildcard w ww) as [p|e]; [|eauto].
  apply gather_ok. intros name path cache Hin. eapply build_map_text_exists; eauto.
Qed.

Lemma StartsWith_dec : forall s p : str, StartsWith s p \/ ~ StartsWith s p.
Proof.
  intros s p. destruct (startswith s p) eqn:E; [left; now apply startswith_spec|right].
  intros H. apply startswith_spec in H. congruence.
Qed.

Lemma pure_found_Found : forall fs w l, UniqueNames fs ->
  (pure_found fs w = Ok l <-> Found fs ww (build_map P fs roots) w l).
Proof.
  intros fs w l Hu. unfold pure_found, Found. destruct (pure_match_ok fs w Hu) as [l0 E0].
  rewrite E0. pose proof (proj1 (pure_match_Matched fs w l0 Hu) E0) as HM.
  assert (Huniq : forall l', Matched fs ww (build_map P fs roots) w l' -> l' = l0).
  { intros l' H. apply pure_match_Matched in H; [|assumption]. congruence. }
  change ($"**/") with [42; 42; 47]%N.
  destruct l0 as [|v vs].
  - destruct (startswith w $"**") eqn:Es.
    + apply startswith_spec in Es. split.
      * intros H; injection H as <-. left. split; [assumption|]. now right.
      * intros [[H _]|(_ & Hn & _)]; [|exfalso; apply Hn; exact Es]. apply Huniq in H. now subst.
    + assert (Hn : ~ StartsWith w [42; 42]%N).
      { intros H. apply startswith_spec in H. change ($"**") with [42; 42]%N in Es. congruence. }
      split.
      * intros H. right. split; [assumption|]. split; [assumption|].
        now apply pure_match_Matched.
      * intros [[H [Hne|Hs]]|(_ & _ & H)].
        -- apply Huniq in H. congruence.
        -- tauto.
        -- now apply pure_match_Matched in H.
  - split.
    + intros H; injection H as <-. left. split; [assumption|]. left. congruence.
    + intros [[H _]|(H & _)]; apply Huniq in H; [now subst|congruence].
Qed.

Lemma pure_values_ok : forall fs s d sh w, UniqueNames fs -> exists l, pure_values s d sh fs w = Ok l.
Proof.
  intros fs s d sh w Hu. unfold pure_values, pure_found.
  destruct (pure_match_ok fs w Hu) as [l ->]. destruct l as [|v vs]; [|eauto].
  destruct (startswith w $"**"); [eauto|].
  destruct (pure_match_ok fs ($"**/" ++ w) Hu) as [l ->]. eauto.
Qed.
End M.
