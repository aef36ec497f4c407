(** Emphasised prompts, template functions and looked-up prompts. *)
From Coq Require Import String NArith ZArith QArith Qcanon Qabs Qround Bool Arith List Sorted Permutation Lia Lqa.
From Verif.Model Require Import Str Utils Command Float Rng Context Generators.
From Verif.Spec Require Import Text Comb Generators.
From Verif.Proofs Require Import StrFacts UtilsFacts CombFacts FloatFacts RngFacts.
Import ListNotations.
Local Open Scope nat_scope.

(** * [str.replace] *)
Lemma interleave_cons_char : forall sep c (p : str) ps, interleave sep ((c :: p) :: ps) = c :: interleave sep (p :: ps).
Proof. reflexivity. Qed.

Lemma interleave_nil_cons : forall sep (p : str) ps, interleave sep ([] :: p :: ps) = sep ++ interleave sep (p :: ps).
Proof. intros sep p ps. cbn. now rewrite app_assoc. Qed.

Lemma replace_aux_skip : forall old new s k, replace_aux old new k s = replace_aux old new 0 (skipn k s).
Proof.
  intros old new. induction s as [|c s IH]; intros [|k]; cbn [replace_aux skipn]; auto.
Qed.

Lemma Occurs_nil : forall old, old <> [] -> ~ Occurs old [].
Proof. intros [|c old] H; [congruence|]. intros (a & b & Hab). destruct a; discriminate. Qed.

Lemma replace_Replaced : forall old new, old <> [] -> forall s, Replaced old new s (replace s old new).
Proof.
  intros old new Hne s.
  assert (Hrep : replace s old new = replace_aux old new 0 s) by (unfold replace; now destruct old).
  rewrite Hrep. clear Hrep. remember (length s) as n eqn:Hn. revert s Hn.
  induction n as [n IH] using lt_wf_ind. intros s Hn. destruct s as [|c s].
  - exists [[]]. repeat split; [discriminate|]. constructor; [|constructor]. now apply Occurs_nil.
  - cbn [replace_aux]. destruct (startswith (c :: s) old) eqn:Hs.
    + apply startswith_spec in Hs. destruct Hs as [q Hq].
      rewrite replace_aux_skip.
      assert (Hk : skipn (pred (length old)) s = q).
      { destruct old as [|o old]; [congruence|]. cbn in Hq. injection Hq as _ ->. cbn [length pred].
        now rewrite skipn_app, skipn_all, Nat.sub_diag. }
      rewrite Hk. destruct (IH (length q)) with (s := q) as (ps & Hps & H1 & H2 & H3); [|reflexivity|].
      { rewrite Hn, Hq, app_length. destruct old; [congruence|]. cbn. lia. }
      destruct ps as [|p ps]; [congruence|].
      exists ([] :: p :: ps). split; [discriminate|]. rewrite !interleave_nil_cons, <- H1, <- H2.
      repeat split; [exact Hq|]. constructor; [now apply Occurs_nil|assumption].
    + destruct (IH (length s)) with (s := s) as (ps & Hps & H1 & H2 & H3); [cbn in Hn; lia|reflexivity|].
      destruct ps as [|p ps]; [congruence|].
      exists ((c :: p) :: ps). split; [discriminate|]. rewrite !interleave_cons_char, <- H1, <- H2.
      repeat split. inversion H3; subst. constructor; [|assumption].
      intros (a & b & Hab). destruct a as [|a0 a].
      * cbn [app] in Hab. assert (Ht : startswith (c :: interleave old (p :: ps)) old = true); [|congruence].
        apply startswith_spec. cbn [interleave]. rewrite app_comm_cons, Hab, <- app_assoc. eauto.
      * cbn [app] in Hab. injection Hab as _ Hab. match goal with H : ~ Occurs old p |- _ => apply H end.
        now exists a, b.
Qed.

(** * Rounding *)
Lemma round2_near : forall x, (Q2Qc (-1 # 200) <= round2 x - x)%Qc /\ (round2 x - x <= Q2Qc (1 # 200))%Qc.
Proof.
  intros x. unfold round2, Qcle, Qcminus, Qcplus, Qcopp. cbn [this Q2Qc]. rewrite !Qred_correct.
  set (y := (this x * (100 # 1))%Q). set (f := Qfloor y).
  assert (Hx : (this x == y * (1 # 100))%Q).
  { unfold y. rewrite <- Qmult_assoc. setoid_replace ((100 # 1) * (1 # 100))%Q with 1%Q by reflexivity. now rewrite Qmult_1_r. }
  assert (Hlo : (inject_Z f <= y)%Q) by apply Qfloor_le.
  assert (Hhi : (y < inject_Z (f + 1))%Q) by apply Qlt_floor.
  rewrite inject_Z_plus in Hhi. change (inject_Z 1) with 1%Q in Hhi.
  assert (Hz : forall z : Z, (z # 100 == inject_Z z * (1 # 100))%Q).
  { intros z. unfold Qeq, inject_Z. cbn. lia. }
  rewrite Hz, Hx. destruct (Qcompare (y - inject_Z f) (1 # 2)) eqn:Hc.
  - apply Qeq_alt in Hc. destruct (Z.even f); [|rewrite inject_Z_plus; change (inject_Z 1) with 1%Q]; split; Lqa.lra.
  - apply Qlt_alt in Hc. split; Lqa.lra.
  - apply Qgt_alt in Hc. rewrite inject_Z_plus. change (inject_Z 1) with 1%Q. split; Lqa.lra.
Qed.

Lemma Qc_half_lt : forall a b : Z, (Q2Qc (a # 100) - Q2Qc (1 # 200) <= Q2Qc (b # 100))%Qc -> (a <= b)%Z.
Proof.
  intros a b H. unfold Qcle, Qcminus, Qcplus, Qcopp in H. cbn [this Q2Qc] in H. rewrite !Qred_correct in H.
  unfold Qle in H. cbn in H. lia.
Qed.

Lemma Hundredths_le : forall a b : Z, (a <= b)%Z -> (Q2Qc (a # 100) <= Q2Qc (b # 100))%Qc.
Proof. intros a b H. unfold Qcle. cbn [this Q2Qc]. rewrite !Qred_correct. unfold Qle. cbn. lia. Qed.

Lemma round2_Hundredths : forall x, Hundredths (round2 x).
Proof. intros x. unfold round2. eexists. reflexivity. Qed.

Lemma round2_low : forall lo x, Hundredths lo -> (lo <= x)%Qc -> (lo <= round2 x)%Qc.
Proof.
  intros lo x [k ->] H. destruct (round2_Hundredths x) as [z Hz]. destruct (round2_near x) as [H1 _].
  rewrite Hz in *. apply Hundredths_le, Qc_half_lt.
  apply Qcle_trans with (x - Q2Qc (1 # 200))%Qc.
  - apply Qcplus_le_compat; [assumption|apply Qcle_refl].
  - apply (Qcplus_le_compat _ _ x x) in H1; [|apply Qcle_refl].
    replace (Q2Qc (z # 100) - x + x)%Qc with (Q2Qc (z # 100)) in H1 by ring.
    apply Qcle_trans with (2 := H1). replace (Q2Qc (-1 # 200)) with (- Q2Qc (1 # 200))%Qc.
    + rewrite Qcplus_comm. apply Qcle_refl.
    + apply Qc_is_canon. reflexivity.
Qed.

Lemma round2_high : forall hi x, Hundredths hi -> (x <= hi)%Qc -> (round2 x <= hi)%Qc.
Proof.
  intros hi x [k ->] H. destruct (round2_Hundredths x) as [z Hz]. destruct (round2_near x) as [_ H1].
  rewrite Hz in *. apply Hundredths_le, Qc_half_lt.
  apply (Qcplus_le_compat _ _ (x - Q2Qc (1 # 200)) (x - Q2Qc (1 # 200))) in H1; [|apply Qcle_refl].
  replace (Q2Qc (z # 100) - x + (x - Q2Qc (1 # 200)))%Qc with (Q2Qc (z # 100) - Q2Qc (1 # 200))%Qc in H1 by ring.
  replace (Q2Qc (1 # 200) + (x - Q2Qc (1 # 200)))%Qc with x in H1 by ring.
  now apply Qcle_trans with x.
Qed.

(** * Emphasis *)
Section Attention.
Variable G : rng_impl.
Variable chunks : str -> list str.
Variable show : Qc -> str.

Lemma uniform_range : forall a b r, Double a -> Double b -> (a <= b)%Qc ->
  (a <= fst (uniform G a b r))%Qc /\ (fst (uniform G a b r) <= b)%Qc.
Proof.
  intros a b r Da Db H. unfold uniform.
  set (d := fl G (b - a)%Qc).
  assert (H0 : (0 <= b - a)%Qc) by (rewrite <- (Qcplus_opp_r a); apply Qcplus_le_compat; [assumption|apply Qcle_refl]).
  assert (Hd : (0 <= d)%Qc) by now apply fl_nonneg.
  assert (Hy : (0 <= fl G (fst (random01 G r) * d))%Qc /\ (fl G (fst (random01 G r) * d) <= b - a)%Qc).
  { destruct (Qcle_lt_or_eq _ _ Hd) as [Hp|Hz].
    - pose proof (fl_draw_nonneg G r d Hp) as H1.
      pose proof (fl_draw_below G r d (round_double _ (fl_ok G) _) Hp) as H2.
      split; [assumption|]. set (y := fl G (fst (random01 G r) * d)%Qc) in *.
      assert (Dy : Double y) by apply (round_double _ (fl_ok G)). clearbody y.
      apply Qcnot_lt_le. intros Hlt. pose proof (round_near _ (fl_ok G) (b - a)%Qc y Dy) as Hn. fold d in Hn.
      unfold Qclt in *. rewrite !Qabs_neg in Hn by lra. lra.
    - rewrite <- Hz, Qcmult_0_r. rewrite (round_0 _ (fl_ok G)). split; [apply Qcle_refl|assumption]. }
  destruct (random01 G r) as [u r']. cbn [fst] in *. set (y := fl G (u * d)%Qc) in *. clearbody y. clear Hd. clearbody d.
  destruct Hy as [H1 H2]. split.
  - apply (round_ge _ (fl_ok G) _ a Da). change ((a <= a + y)%Qc). rewrite <- (Qcplus_0_r a) at 1.
    apply Qcplus_le_compat; [apply Qcle_refl|assumption].
  - apply (round_le _ (fl_ok G) _ b Db). change ((a + y <= b)%Qc). replace b with (a + (b - a))%Qc by ring.
    apply Qcplus_le_compat; [apply Qcle_refl|assumption].
Qed.

(** What happens to one prompt. *)
Definition Emphasised (lo hi : Qc) (p q : str) : Prop :=
  (chunks p = [] /\ q = p) \/
  exists k x, In k (chunks p) /\ (lo <= x)%Qc /\ (x <= hi)%Qc /\
    q = replace p k ($"(" ++ k ++ $":" ++ show (round2 x) ++ $")").

Lemma add_emphasis_ok : forall lo hi p r, Double lo -> Double hi -> (lo <= hi)%Qc ->
  exists q r', add_emphasis G chunks show lo hi p r = Ret q r' /\ Emphasised lo hi p q.
Proof.
  intros lo hi p r Dl Dh H. unfold add_emphasis, Emphasised. destruct (chunks p) as [|k0 ks] eqn:Hc.
  - eexists _, _. split; [reflexivity|]. now left.
  - unfold choice. cbn [length]. pose proof (randbelow_lt G (S (length ks)) r ltac:(lia)) as Hi.
    destruct (randbelow G (S (length ks)) r) as [i r1]. cbn [fst] in Hi.
    pose proof (uniform_range lo hi r1 Dl Dh H) as [H1 H2]. destruct (uniform G lo hi r1) as [x r2]. cbn [fst] in *.
    eexists _, _. split; [reflexivity|]. right. exists (nth i (k0 :: ks) []), x.
    repeat split; auto. now apply nth_In.
Qed.

Lemma emphasise_all_ok : forall lo hi ps r, Double lo -> Double hi -> (lo <= hi)%Qc ->
  exists qs r', emphasise_all G chunks show lo hi ps r = Ret qs r' /\ Forall2 (Emphasised lo hi) ps qs.
Proof.
  intros lo hi ps r Dl Dh H. revert r. induction ps as [|p ps IH]; intros r; cbn [emphasise_all].
  - eexists _, _. split; [reflexivity|constructor].
  - destruct (add_emphasis_ok lo hi p r Dl Dh H) as (q & r1 & Hq & He). rewrite Hq. cbn [bind].
    destruct (IH r1) as (qs & r2 & Hqs & Hes). rewrite Hqs. cbn [bind].
    eexists _, _. split; [reflexivity|now constructor].
Qed.

Lemma ordered_spec : forall a b, ordered a b = (a, b) /\ (a <= b)%Qc \/ ordered a b = (b, a) /\ (b <= a)%Qc.
Proof.
  intros a b. unfold ordered. destruct (Qc_ltb b a) eqn:H.
  - right. split; [reflexivity|]. apply Qclt_le_weak. now apply Qc_ltb_spec.
  - left. split; [reflexivity|]. now apply Qc_ltb_false.
Qed.

Lemma attention_ok : forall a b ps r, Double a -> Double b -> exists lo hi qs r',
  ((lo, hi) = (a, b) \/ (lo, hi) = (b, a)) /\ (lo <= hi)%Qc /\
  attention_generate G chunks show a b ps r = Ret qs r' /\ Forall2 (Emphasised lo hi) ps qs.
Proof.
  intros a b ps r Da Db. unfold attention_generate. destruct (ordered_spec a b) as [[-> H]|[-> H]].
  - destruct (emphasise_all_ok a b ps r Da Db H) as (qs & r' & H1 & H2). exists a, b, qs, r'. auto.
  - destruct (emphasise_all_ok b a ps r Db Da H) as (qs & r' & H1 & H2). exists b, a, qs, r'. auto.
Qed.
End Attention.

(** * The built-in chunker *)
Section Chunker.
Variable digit : N -> bool.

Lemma resplit_pieces : forall s cur skip p, skip = 0 \/ cur = [] -> Forall (fun c => split_punct c = false) cur ->
  In p (resplit cur skip s) -> Occurs p (rev cur ++ s) /\ Forall (fun c => split_punct c = false) p.
Proof.
  induction s as [|c s IH]; intros cur skip p Hk Hc Hp.
  - cbn in Hp. destruct Hp as [<-|[]]. split; [exists [], []; now rewrite !app_nil_r|now apply Forall_rev].
  - assert (Hskip : forall k, In p (resplit [] k s) -> Occurs p (rev cur ++ c :: s) /\ Forall (fun c => split_punct c = false) p).
    { intros k Hin. destruct (IH [] k p (or_intror eq_refl) (Forall_nil _) Hin) as [(a & b & Hab) Hf].
      split; [|assumption]. cbn in Hab. exists (rev cur ++ c :: a), b. rewrite Hab, <- app_assoc. reflexivity. }
    cbn [resplit] in Hp. destruct skip as [|k].
    + destruct (head_is split_punct (drop_while isspace (c :: s))) eqn:Hh.
      * destruct Hp as [<-|Hp]; [|now apply Hskip in Hp].
        split; [exists [], (c :: s); reflexivity|now apply Forall_rev].
      * apply IH in Hp; [|now left|].
        -- cbn [rev] in Hp. rewrite <- app_assoc in Hp. exact Hp.
        -- constructor; [|assumption]. destruct (split_punct c) eqn:Hs; [|reflexivity].
           exfalso. cbn [drop_while] in Hh. destruct (isspace c) eqn:Hsp.
           ++ unfold split_punct in Hs. apply existsb_exists in Hs. destruct Hs as (x & Hx & Hcx).
              apply N.eqb_eq in Hcx. subst x. cbn in Hx.
              repeat (destruct Hx as [Hx|Hx]; [subst c; discriminate|]). contradiction.
           ++ cbn [head_is] in Hh. congruence.
    + destruct Hk as [Hk| ->]; [discriminate|]. now apply Hskip in Hp.
Qed.

Lemma chunker_pieces : forall p k, In k (cheap_chunker digit p) ->
  k <> [] /\ Occurs k p /\ Forall (fun c => split_punct c = false) k.
Proof.
  intros p k H. unfold cheap_chunker in H. apply filter_In in H. destruct H as [Hin Hv].
  apply resplit_pieces in Hin; [|now left|constructor]. destruct Hin as [(a & b & Hab) Hf].
  split; [|split; [|assumption]].
  - intros ->. discriminate.
  - cbn in Hab. unfold strip in Hab. destruct (strip_by_split isspace p) as (u & v & Hp & _).
    exists (u ++ a), (b ++ v). rewrite Hp, Hab. now rewrite <- !app_assoc.
Qed.
End Chunker.

(** * Permutations *)
Section Perms.
Lemma picks_spec : forall {A} (after before : list A) y rest, In (y, rest) (picks before after) <->
  exists a b, after = a ++ y :: b /\ rest = rev before ++ a ++ b.
Proof.
  intros A. induction after as [|x after IH]; intros before y rest; cbn [picks].
  - split; [contradiction|]. intros (a & b & H & _). destruct a; discriminate.
  - cbn [In]. rewrite IH. split.
    + intros [H|(a & b & -> & ->)].
      * injection H as <- <-. exists [], after. now split.
      * exists (x :: a), b. split; [reflexivity|]. cbn. now rewrite <- app_assoc.
    + intros (a & b & H & ->). destruct a as [|x' a]; cbn in H; injection H as <- ->.
      * now left.
      * right. exists a, b. split; [reflexivity|]. cbn. now rewrite <- app_assoc.
Qed.

Lemma picks_map : forall {A B} (f : A -> B) after before,
  picks (map f before) (map f after) = map (fun p => (f (fst p), map f (snd p))) (picks before after).
Proof.
  intros A B f. induction after as [|x after IH]; intros before; cbn [picks map]; [reflexivity|].
  f_equal.
  - cbn. now rewrite map_app, map_rev.
  - exact (IH (x :: before)).
Qed.

Lemma permutations_map : forall {A B} (f : A -> B) r items,
  permutations_of r (map f items) = map (map f) (permutations_of r items).
Proof.
  intros A B f. induction r as [|r IH]; intros items; cbn [permutations_of]; [reflexivity|].
  change (@nil B) with (map f []). rewrite (picks_map f items []).
  rewrite flat_map_concat_map, map_map, <- flat_map_concat_map.
  induction (picks [] items) as [|p ps IHp]; [reflexivity|]. cbn [flat_map].
  rewrite map_app, IHp. f_equal. cbn. rewrite IH, !map_map. reflexivity.
Qed.

Lemma permutations_sound : forall r (L l : list nat), NoDup L -> In l (permutations_of r L) ->
  length l = r /\ NoDup l /\ incl l L.
Proof.
  induction r as [|r IH]; intros L l Hnd Hin; cbn [permutations_of] in Hin.
  - destruct Hin as [<-|[]]. repeat split; [constructor|intros x []].
  - apply in_flat_map in Hin. destruct Hin as ([y rest] & Hp & Hl). apply in_map_iff in Hl.
    destruct Hl as (l' & <- & Hl'). cbn [fst snd] in *. apply picks_spec in Hp.
    destruct Hp as (a & b & -> & ->). cbn [rev app] in Hl'.
    pose proof (NoDup_remove _ _ _ Hnd) as [Hnd' Hny].
    destruct (IH _ _ Hnd' Hl') as (H1 & H2 & H3). repeat split.
    + cbn. now rewrite H1.
    + constructor; [|assumption]. intros Hy. apply Hny, H3, Hy.
    + intros x [<-|Hx]; [apply in_or_app; right; now left|]. apply H3 in Hx. apply in_app_or in Hx.
      apply in_or_app. destruct Hx; [now left|right; now right].
Qed.

Lemma permutations_complete : forall (l L : list nat), NoDup l -> incl l L -> In l (permutations_of (length l) L).
Proof.
  induction l as [|y l IH]; intros L Hnd Hin; cbn [permutations_of length]; [now left|].
  inversion Hnd; subst. assert (Hy : In y L) by (apply Hin; now left).
  apply in_split in Hy. destruct Hy as (a & b & ->).
  apply in_flat_map. exists (y, a ++ b). split.
  - apply picks_spec. exists a, b. now split.
  - apply in_map_iff. exists l. split; [reflexivity|]. apply IH; [assumption|].
    intros x Hx. specialize (Hin x (or_intror Hx)). apply in_app_or in Hin. apply in_or_app.
    destruct Hin as [H|[->|H]]; auto. contradiction.
Qed.

Lemma sorted_app_inv : forall {A} (R : A -> A -> Prop) (l1 l2 : list A), StronglySorted R (l1 ++ l2) ->
  StronglySorted R l1 /\ StronglySorted R l2 /\ (forall x y, In x l1 -> In y l2 -> R x y).
Proof.
  intros A R l1 l2. induction l1 as [|x l1 IH]; cbn [app]; intros H.
  - repeat split; [constructor|assumption|intros ? ? []].
  - inversion H as [|? ? Hs Hf]; subst. destruct (IH Hs) as (H1 & H2 & H3). rewrite Forall_app in Hf. destruct Hf as [Hf1 Hf2].
    repeat split; [now constructor|assumption|].
    intros u v [<-|Hu] Hv; [|now apply H3]. rewrite Forall_forall in Hf2. now apply Hf2.
Qed.

Lemma sorted_app : forall {A} (R : A -> A -> Prop) (l1 l2 : list A), StronglySorted R l1 -> StronglySorted R l2 ->
  (forall x y, In x l1 -> In y l2 -> R x y) -> StronglySorted R (l1 ++ l2).
Proof.
  intros A R l1 l2 H1 H2 H3. induction H1 as [|x l1 Hs IH Hf]; [assumption|]. cbn. constructor.
  - apply IH. intros u v Hu Hv. apply H3; [now right|assumption].
  - apply Forall_app. split; [assumption|]. apply Forall_forall. intros v Hv. apply H3; [now left|assumption].
Qed.

Lemma sorted_remove : forall {A} (R : A -> A -> Prop) a (y : A) b, StronglySorted R (a ++ y :: b) -> StronglySorted R (a ++ b).
Proof.
  intros A R a y b H. apply sorted_app_inv in H. destruct H as (H1 & H2 & H3). inversion H2; subst.
  apply sorted_app; [assumption|assumption|]. intros u v Hu Hv. apply H3; [assumption|now right].
Qed.

Lemma sorted_map_cons : forall y ls, StronglySorted LexBefore ls -> StronglySorted LexBefore (map (cons y) ls).
Proof.
  intros y ls H. induction H as [|l ls Hs IH Hf]; [constructor|]. cbn. constructor; [assumption|].
  apply Forall_forall. intros x Hx. apply in_map_iff in Hx. destruct Hx as (l' & <- & Hl').
  rewrite Forall_forall in Hf. right. split; [reflexivity|now apply Hf].
Qed.

Lemma picks_sorted : forall after before, StronglySorted lt after ->
  StronglySorted (fun p q => fst p < fst q) (@picks nat before after).
Proof.
  induction after as [|x after IH]; intros before H; cbn [picks]; [constructor|].
  inversion H as [|? ? Hs Hf]; subst. constructor; [now apply IH|]. apply Forall_forall. intros [y rest] Hp.
  apply picks_spec in Hp. destruct Hp as (a & b & -> & _). rewrite Forall_forall in Hf. cbn. apply Hf.
  apply in_or_app. right. now left.
Qed.

Lemma permutations_sorted : forall r L, StronglySorted lt L -> StronglySorted LexBefore (permutations_of r L).
Proof.
  induction r as [|r IH]; intros L H; cbn [permutations_of].
  - constructor; constructor.
  - pose proof (picks_sorted L [] H) as Hp.
    assert (Hr : Forall (fun p => StronglySorted lt (snd p)) (picks [] L)).
    { apply Forall_forall. intros [y rest] Hin. apply picks_spec in Hin. destruct Hin as (a & b & -> & ->).
      cbn. now apply sorted_remove in H. }
    induction Hp as [|p ps Hs IHp Hf]; [constructor|]. inversion Hr; subst. cbn [flat_map]. apply sorted_app.
    + apply sorted_map_cons, IH. assumption.
    + now apply IHp.
    + intros u v Hu Hv. apply in_map_iff in Hu. destruct Hu as (u' & <- & _).
      apply in_flat_map in Hv. destruct Hv as (q & Hq & Hv). apply in_map_iff in Hv. destruct Hv as (v' & <- & _).
      left. rewrite Forall_forall in Hf. now apply Hf.
Qed.

Lemma seq_sorted : forall n s, StronglySorted lt (seq s n).
Proof.
  induction n as [|n IH]; intros s; cbn; constructor; [apply IH|].
  apply Forall_forall. intros x Hx. apply in_seq in Hx. lia.
Qed.

Lemma items_by_position : forall {A} (items : list A) d, map (fun i => nth i items d) (seq 0 (length items)) = items.
Proof.
  intros A items d. induction items as [|x items IH]; [reflexivity|]. cbn [length seq map nth]. f_equal.
  rewrite <- seq_shift, map_map. exact IH.
Qed.

Lemma Forall2_map_r : forall {A B} (R : A -> B -> Prop) (f : A -> B) l, Forall (fun a => R a (f a)) l -> Forall2 R l (map f l).
Proof. intros A B R f l H. induction H; constructor; auto. Qed.

(** One size. *)
Lemma permutations_idx : forall {A} r (items : list A), exists idxs,
  Forall2 (PickedAt items) idxs (permutations_of r items) /\
  (forall idx, In idx idxs <-> length idx = r /\ NoDup idx /\ Forall (fun i => i < length items) idx) /\
  StronglySorted LexBefore idxs.
Proof.
  intros A r items. exists (permutations_of r (seq 0 (length items))).
  assert (Hiff : forall idx, In idx (permutations_of r (seq 0 (length items))) <->
            length idx = r /\ NoDup idx /\ Forall (fun i => i < length items) idx).
  { intros idx. split.
    - intros H. apply permutations_sound in H; [|apply seq_NoDup]. destruct H as (H1 & H2 & H3).
      repeat split; auto. apply Forall_forall. intros i Hi. apply H3, in_seq in Hi. lia.
    - intros (<- & H2 & H3). apply permutations_complete; [assumption|]. intros i Hi. rewrite Forall_forall in H3.
      apply in_seq. specialize (H3 i Hi). lia. }
  split; [|split; [exact Hiff|apply permutations_sorted, seq_sorted]].
  destruct items as [|d items0] eqn:Hitems.
  - destruct r as [|r]; cbn; [|constructor]. constructor; [|constructor]. split; constructor.
  - rewrite <- Hitems in *. rewrite <- (items_by_position items d) at 3. rewrite permutations_map.
    apply Forall2_map_r, Forall_forall. intros idx Hin. apply Hiff in Hin. destruct Hin as (_ & Hnd & Hlt).
    split; [assumption|]. apply Forall2_map_r. apply Forall_forall. intros i Hi. rewrite Forall_forall in Hlt.
    apply nth_error_nth'. now apply Hlt.
Qed.

Definition SizeThenLex (a b : list nat) : Prop := length a < length b \/ (length a = length b /\ LexBefore a b).

Lemma flat_sizes : forall {A} (items : list A) n (lo : Z), (0 <= lo)%Z -> exists idxs,
  Forall2 (PickedAt items) idxs
    (flat_map (fun i => permutations_of (Z.to_nat i) items) (map (fun k => (lo + Z.of_nat k)%Z) (seq 0 n))) /\
  (forall idx, In idx idxs <->
     (lo <= Z.of_nat (length idx) < lo + Z.of_nat n)%Z /\ NoDup idx /\ Forall (fun i => i < length items) idx) /\
  StronglySorted SizeThenLex idxs.
Proof.
  intros A items n. induction n as [|n IH]; intros lo Hlo.
  - exists []. cbn. split; [constructor|]. split; [|constructor]. intros idx. split; [contradiction|lia].
  - destruct (IH (lo + 1)%Z ltac:(lia)) as (idxs & H1 & H2 & H3).
    destruct (permutations_idx (Z.to_nat lo) items) as (idx0 & G1 & G2 & G3).
    exists (idx0 ++ idxs). cbn [seq map flat_map].
    replace (lo + Z.of_nat 0)%Z with lo by lia. rewrite <- seq_shift, map_map.
    rewrite (map_ext _ (fun k => (lo + 1 + Z.of_nat k)%Z)) by (intros; lia).
    split; [now apply Forall2_app|]. split.
    + intros idx. rewrite in_app_iff, H2, G2. split.
      * intros [(Ha & Hb & Hc)|(Ha & Hb & Hc)]; repeat split; auto; lia.
      * intros (Ha & Hb & Hc). destruct (Z.eq_dec (Z.of_nat (length idx)) lo); [left|right]; repeat split; auto; lia.
    + apply sorted_app; [|assumption|].
      * assert (Hlen : forall l, In l idx0 -> length l = Z.to_nat lo) by (intros l Hl; now apply G2 in Hl).
        clear - G3 Hlen. induction G3 as [|l ls Hs IH Hf]; [constructor|]. constructor.
        -- apply IH. intros; apply Hlen; now right.
        -- rewrite Forall_forall in *. intros l' Hl'. right. split; [|now apply Hf].
           rewrite (Hlen l (or_introl eq_refl)), (Hlen l' (or_intror Hl')). reflexivity.
      * intros u v Hu Hv. apply G2 in Hu. apply H2 in Hv. left. lia.
Qed.

Lemma permutation_ok : forall {A} (items : list A) low high l, permutation items low high = Ok l ->
  let top := match high with Some h => h | None => low end in
  exists idxs, Forall2 (PickedAt items) idxs l /\
  (forall idx, In idx idxs <->
     (low <= Z.of_nat (length idx) <= top)%Z /\ NoDup idx /\ Forall (fun i => i < length items) idx) /\
  StronglySorted SizeThenLex idxs.
Proof.
  intros A items low high l H top. unfold permutation in H. fold top in H.
  destruct (existsb (fun i => Z.ltb i 0) (zrange low top)) eqn:He; [discriminate|]. injection H as <-.
  destruct (Z.leb_spec low top) as [Hle|Hgt].
  - assert (Hlo : (0 <= low)%Z).
    { destruct (Z.ltb_spec low 0) as [Hneg|]; [|assumption]. exfalso.
      assert (Ht : existsb (fun i => Z.ltb i 0) (zrange low top) = true); [|congruence].
      apply existsb_exists. exists low. split; [apply zrange_In; lia|now apply Z.ltb_lt]. }
    destruct (flat_sizes items (Z.to_nat (top + 1 - low)) low Hlo) as (idxs & H1 & H2 & H3).
    exists idxs. split; [exact H1|]. split; [|exact H3]. intros idx. rewrite H2. split; intros (Ha & Hb & Hc); repeat split; auto; lia.
  - exists []. assert (Hz : zrange low top = []).
    { unfold zrange. replace (Z.to_nat (top + 1 - low)) with 0 by lia. reflexivity. }
    rewrite Hz. cbn. split; [constructor|]. split; [|constructor]. intros idx. split; [contradiction|lia].
Qed.

Lemma permutation_err : forall {A} (items : list A) low high e, permutation items low high = Err e <->
  e = EValue /\ (low < 0)%Z /\ (low <= match high with Some h => h | None => low end)%Z.
Proof.
  intros A items low high e. unfold permutation. set (top := match high with Some h => h | None => low end).
  destruct (existsb (fun i => Z.ltb i 0) (zrange low top)) eqn:He.
  - apply existsb_exists in He. destruct He as (z & Hz & Hn). apply zrange_In in Hz. apply Z.ltb_lt in Hn.
    split; [intros [= <-]; repeat split; lia|now intros (-> & _)].
  - split; [discriminate|]. intros (_ & Hn & Hle). exfalso.
    assert (Ht : existsb (fun i => Z.ltb i 0) (zrange low top) = true); [|congruence].
    apply existsb_exists. exists low. split; [apply zrange_In; lia|now apply Z.ltb_lt].
Qed.
End Perms.

(** * Choices in templates *)
Section Draws.
Variable G : rng_impl.
Context {A : Type}.

Lemma jinja_choice_ok : forall (items : list A) r, items <> [] ->
  exists x r', jinja_choice G items r = ROk x r' /\ In x items.
Proof.
  intros items r H. unfold jinja_choice, choice. destruct items as [|y ys]; [congruence|]. cbn [length].
  pose proof (randbelow_lt G (S (length ys)) r ltac:(lia)) as Hi.
  destruct (randbelow G (S (length ys)) r) as [i r1]. cbn [fst] in Hi.
  destruct (nth_error (y :: ys) i) as [x|] eqn:Hx.
  - exists x, r1. split; [reflexivity|]. eapply nth_error_In, Hx.
  - apply nth_error_None in Hx. cbn in Hx. lia.
Qed.

Lemma jinja_choice_nil : forall r, jinja_choice G (@nil A) r = RErr EIndex r.
Proof. reflexivity. Qed.

Lemma jinja_weighted_ok : forall (items : list (A * Qc)) r x r',
  jinja_weighted_choice G items r = ROk x r' ->
  exists w, In (x, w) items /\ (0 < w)%Qc.
Proof.
  intros items r x r' H. unfold jinja_weighted_choice in H. destruct items as [|y ys] eqn:Hi; [discriminate|].
  rewrite <- Hi in H. destruct (choices G (accumulate G (map snd items)) 1 r) as [is r1|e r1] eqn:Hc; [|discriminate].
  destruct is as [|i is]; [discriminate|]. apply choices_ok in Hc. destruct Hc as (_ & _ & Hf). inversion Hf as [|? ? [Hlt Hw] _]; subst.
  rewrite map_length in Hlt. rewrite (nth_indep _ 0%Qc (snd y)) in Hw by now rewrite map_length.
  rewrite map_nth in Hw. destruct (nth_error (y :: ys) i) as [[z w]|] eqn:Hz; [|discriminate].
  injection H as <- <-. exists w. split; [eapply nth_error_In, Hz|]. rewrite (nth_error_nth _ _ _ Hz) in Hw. exact Hw.
Qed.

Lemma jinja_weighted_succeeds : forall (items : list (A * Qc)) r,
  (0 < float_sum (fl G) (map snd items))%Qc -> exists x r', jinja_weighted_choice G items r = ROk x r'.
Proof.
  intros items r H. unfold jinja_weighted_choice. destruct items as [|y ys] eqn:Hi; [discriminate H|].
  rewrite <- Hi in *. destruct (choices G (accumulate G (map snd items)) 1 r) as [is r1|e r1] eqn:Hc.
  - apply choices_ok in Hc. destruct Hc as (_ & Hl & Hf). destruct is as [|i is]; [discriminate|].
    inversion Hf as [|? ? [Hlt _] _]; subst. rewrite map_length in Hlt.
    destruct (nth_error (y :: ys) i) as [z|] eqn:Hz; [eauto|]. apply nth_error_None in Hz. lia.
  - apply choices_err in Hc. destruct Hc as [[Hn _]|(_ & _ & Hle)].
    + rewrite Hi in Hn. discriminate.
    + exfalso. now apply (Qclt_not_le _ _ H).
Qed.

Lemma jinja_weighted_err : forall (items : list (A * Qc)) r e r',
  jinja_weighted_choice G items r = RErr e r' -> e = EValue /\ (float_sum (fl G) (map snd items) <= 0)%Qc.
Proof.
  intros items r e r' H.
  assert (Hle : (float_sum (fl G) (map snd items) <= 0)%Qc).
  { apply Qcnot_lt_le. intros Hpos. destruct (jinja_weighted_succeeds items r Hpos) as (x & r1 & Hx). congruence. }
  split; [|assumption]. unfold jinja_weighted_choice in H. destruct items as [|y ys] eqn:Hi; [now injection H as <- _|].
  rewrite <- Hi in *. destruct (choices G (accumulate G (map snd items)) 1 r) as [is r1|e1 r1] eqn:Hc.
  - apply choices_ok in Hc. destruct Hc as (Hpos & _). exfalso. rewrite accumulate_sum in Hpos. now apply (Qclt_not_le _ _ Hpos).
  - apply choices_err in Hc. injection H as <- _. destruct Hc as [[Hn _]|(_ & He & _)]; [|exact He].
    rewrite Hi in Hn. discriminate.
Qed.

(** Weights that are not negative have a positive float sum as soon as one is
    positive. *)
Lemma float_sum_positive : forall ws, Forall (fun w => 0 <= w)%Qc ws ->
  ((0 < float_sum (fl G) ws)%Qc <-> Exists (fun w => 0 < w)%Qc ws).
Proof.
  intros ws Hnn. split.
  - intros H. destruct (Exists_dec (fun w => 0 < w)%Qc ws) as [|Hn]; [|assumption|].
    { intros w. destruct (Qclt_le_dec 0 w) as [|Hle]; [now left|right; now apply Qcle_not_lt]. }
    exfalso. apply (Qclt_not_le _ _ H). clear H. rewrite <- Forall_Exists_neg in Hn. unfold float_sum.
    assert (Hz : forall w, In w ws -> w = 0%Qc).
    { intros w Hw. rewrite Forall_forall in *. apply Qcle_antisym; [|now apply Hnn].
      apply Qcnot_lt_le. now apply Hn. }
    clear Hnn Hn. induction ws as [|w ws IH]; cbn [fold_left]; [apply Qcle_refl|].
    rewrite (Hz w) by now left. rewrite (FloatFacts.round_0 _ (fl_ok G)), Qcplus_0_l, (FloatFacts.round_0 _ (fl_ok G)).
    apply IH. intros; apply Hz; now right.
  - intros H. apply Qcnot_le_lt. intros Hle. apply (float_sum_zero G) in Hle; [|assumption].
    apply Exists_exists in H as (w & Hw & Hp). rewrite Forall_forall in Hle. rewrite (Hle w Hw) in Hp. discriminate Hp.
Qed.
End Draws.

(** * Looked-up prompts *)
Section Lucky.
Variable G : rng_impl.
Variable search : str -> option (list str).
Variable show_int : Z -> str.

Lemma pick_in_range : forall r n, 0 < n -> (Z.of_nat n <= 2 ^ 53)%Z ->
  Z.to_nat (Qfloor (this (fl G (fst (random01 G r) * fl G (Q2Qc (inject_Z (Z.of_nat n))))%Qc))) < n.
Proof.
  intros r n Hn Hmax. set (t := Q2Qc (inject_Z (Z.of_nat n))).
  assert (Ht : (this t == inject_Z (Z.of_nat n))%Q) by apply Qred_correct.
  assert (Dt : Double t) by (apply (isD_ext (inject_Z (Z.of_nat n))); [now symmetry|apply isD_int; lia]).
  rewrite (round_id _ (fl_ok G) t Dt).
  assert (Hp : (0 < t)%Qc).
  { unfold Qclt. rewrite Ht. change (this 0%Qc) with (inject_Z 0). rewrite <- Zlt_Qlt. lia. }
  pose proof (fl_draw_below G r t Dt Hp) as Hx. set (x := fl G _) in *. unfold Qclt in Hx. rewrite Ht in Hx.
  assert (Hf : (Qfloor x < Z.of_nat n)%Z) by (rewrite Zlt_Qlt; eapply Qle_lt_trans; [apply Qfloor_le|exact Hx]).
  lia.
Qed.

Lemma lucky_ok : forall q qs num r,
  exists query r1,
    (((exists c, In c q /\ isspace c = false) /\ query = q /\ r1 = r) \/
     (forallb isspace q = true /\ exists z, query = show_int z /\ (0 <= z <= 10000000)%Z)) /\
    match search query with
    | None => exists r', lucky_generate G search show_int (q :: qs) num r = Exn EGenerator r'
    | Some [] => 0 < num -> exists r', lucky_generate G search show_int (q :: qs) num r = Exn EGenerator r'
    | Some found => (Z.of_nat (length found) <= 2 ^ 53)%Z ->
                    exists ts r', lucky_generate G search show_int (q :: qs) num r = Ret ts r' /\
                      length ts = num /\ Forall (fun t => In t found) ts
    end.
Proof.
  intros q qs num r.
  assert (Hq : exists query r1,
    (match strip q with
     | [] => match randint G 0 10000000 r with Some (z, r) => (show_int z, r) | None => (q, r) end
     | _ => (q, r) end) = (query, r1) /\
    (((exists c, In c q /\ isspace c = false) /\ query = q /\ r1 = r) \/
     (forallb isspace q = true /\ exists z, query = show_int z /\ (0 <= z <= 10000000)%Z))).
  { destruct (strip q) as [|c s] eqn:Hs.
    - assert (Hall : forallb isspace q = true).
      { unfold strip in Hs. destruct (strip_by_split isspace q) as (a & b & Hab & Ha & Hb).
        rewrite Hs in Hab. rewrite Hab. cbn [app]. rewrite forallb_app. now rewrite Ha, Hb. }
      unfold randint. change (Z.leb 0 10000000) with true. cbv iota.
      pose proof (randbelow_lt G (Z.to_nat (10000000 - 0 + 1)) r ltac:(lia)) as Hi.
      destruct (randbelow G (Z.to_nat (10000000 - 0 + 1)) r) as [x r1]. cbn [fst] in Hi.
      eexists _, _. split; [reflexivity|]. right. split; [assumption|]. eexists. split; [reflexivity|]. lia.
    - exists q, r. split; [reflexivity|]. left. repeat split. exists c. split.
      + destruct (strip_by_split isspace q) as (a & b & Hab & _). rewrite Hab. unfold strip in Hs. rewrite Hs.
        apply in_or_app. right. now left.
      + unfold strip in Hs. now apply strip_by_head in Hs. }
  destruct Hq as (query & r1 & Heq & Hcase). exists query, r1. split; [exact Hcase|].
  unfold lucky_generate. rewrite Heq. destruct (search query) as [found|]; [|eauto].
  set (draw := fix draw (k : nat) (r0 : rng_state G) {struct k} := _).
  destruct found as [|f fs].
  - intros Hn. destruct num as [|num]; [lia|]. cbn. destruct (random01 G r1) as [u r2]. cbn.
    destruct (Z.to_nat _); cbn; eauto.
  - intros Hmax. clear Heq Hcase. revert r1. induction num as [|num IH]; intros r1.
    + exists [], r1. repeat split; constructor.
    + cbn [draw]. pose proof (pick_in_range r1 (length (f :: fs)) ltac:(cbn; lia) Hmax) as Hlt.
      fold draw. destruct (random01 G r1) as [u r2]. cbn [fst] in *.
      set (i := Z.to_nat (Qfloor _)) in *. destruct (nth_error (f :: fs) i) as [t|] eqn:Ht.
      * destruct (IH r2) as (ts & r3 & Hd & Hl & Hf). rewrite Hd. cbn [bind]. exists (t :: ts), r3.
        repeat split; [cbn; now rewrite Hl|]. constructor; [eapply nth_error_In, Ht|assumption].
      * apply nth_error_None in Ht. lia.
Qed.
End Lucky.
