(** Every text of Spec/Draws.v is drawn for some sequence of random numbers. *)
From Coq Require Import String NArith ZArith QArith Qcanon Qround Bool Arith List Permutation Lia Lqa.
From Verif.Model Require Import Str Float Utils Command Rng Values Context Sampler.
From Verif.Spec Require Import Text Comb Items StreamRng Lang Enum Draws.
From Verif.Proofs Require Import StrFacts UtilsFacts CommandFacts CombFacts FloatFacts RngFacts ValuesFacts DictFacts
  Soundness FuelFacts RunFacts EnumFacts WildRun LiveFacts.
Import ListNotations.
Local Open Scope nat_scope.

Notation G := stream_rng (only parsing).

(** * Weighted draws *)
Lemma total_sumQ : forall ws, total ws = sumQ ws.
Proof. induction ws as [|w ws IH]; cbn; [reflexivity|]. now rewrite <- IH. Qed.

Lemma sumQ_nonneg : forall ws, Forall (fun x => 0 <= x)%Qc ws -> (0 <= sumQ ws)%Qc.
Proof.
  intros ws H. induction H as [|w ws Hw _ IH]; cbn; [apply Qcle_refl|].
  rewrite <- (Qcplus_0_l 0). now apply Qcplus_le_compat.
Qed.

Lemma firstn_mono : forall ws i j, Forall (fun x => 0 <= x)%Qc ws -> i <= j ->
  (sumQ (firstn i ws) <= sumQ (firstn j ws))%Qc.
Proof.
  intros ws i j H. revert i j. induction H as [|w ws Hw Hws IH]; intros i j Hij.
  - rewrite !firstn_nil. apply Qcle_refl.
  - destruct i as [|i].
    + cbn [firstn sumQ]. apply sumQ_nonneg. clear IH. revert j Hij. intros j _.
      apply Forall_forall. intros x Hx. assert (In x (w :: ws)).
      { rewrite <- (firstn_skipn j (w :: ws)). apply in_or_app. now left. }
      destruct H as [<-|H]; [assumption|]. rewrite Forall_forall in Hws. now apply Hws.
    + destruct j as [|j]; [lia|]. cbn [firstn sumQ]. apply Qcplus_le_compat; [apply Qcle_refl|]. apply IH. lia.
Qed.

(** A multiple of 2^-53 of the total inside any wide enough interval. *)
Lemma grid : forall a w t : Q, (0 <= a -> 0 < w -> 0 < t -> t <= w * inject_Z 9007199254740992 -> a + w <= t ->
  exists k : Z, (0 <= k < 9007199254740992)%Z /\ a <= (k # two53) * t /\ (k # two53) * t < a + w)%Q.
Proof.
  intros a w t Ha Hw Ht Hwide Hle. set (D := inject_Z 9007199254740992) in *.
  assert (HD : (0 < D)%Q) by reflexivity.
  set (y := (a * D / t)%Q). set (k := Qceiling y).
  assert (Hy : (y * t == a * D)%Q) by (unfold y; field; lra).
  assert (H1 : (y <= inject_Z k)%Q) by apply Qle_ceiling.
  assert (H2 : (inject_Z k < y + 1)%Q).
  { pose proof (Qceiling_lt y) as Hc. fold k in Hc.
    assert (inject_Z (k - 1) == inject_Z k - 1)%Q by (unfold Z.sub; rewrite inject_Z_plus; reflexivity).
    lra. }
  assert (H3 : (a * D <= inject_Z k * t)%Q).
  { rewrite <- Hy. apply Qmult_le_compat_r; lra. }
  assert (H4 : (inject_Z k * t < a * D + w * D)%Q).
  { assert (inject_Z k * t < (y + 1) * t)%Q by (apply Qmult_lt_r; assumption). lra. }
  assert (Hk : ((k # two53) == inject_Z k / D)%Q).
  { unfold D, Qeq, two53. cbn. lia. }
  assert (Hkt : ((k # two53) * t * D == inject_Z k * t)%Q) by (rewrite Hk; field; lra).
  exists k. split; [|split].
  - assert (Hk0 : (0 <= y)%Q).
    { unfold y. apply Qle_shift_div_l; [assumption|]. rewrite Qmult_0_l. apply Qmult_le_0_compat; lra. }
    assert (0 <= inject_Z k)%Q by lra. 
    assert (Hz : (0 <= k)%Z).
    { rewrite Zle_Qle. assumption. }
    split; [assumption|].
    assert (Hlt : (inject_Z k * t < D * t)%Q).
    { eapply Qlt_le_trans; [exact H4|]. assert ((a + w) * D <= t * D)%Q by (apply Qmult_le_compat_r; lra). lra. }
    apply Qmult_lt_r in Hlt; [|assumption]. unfold D in Hlt. rewrite Zlt_Qlt. exact Hlt.
  - apply (Qmult_le_r _ _ D HD). lra.
  - apply (Qmult_lt_r _ _ D HD). lra.
Qed.

Notation cum ws i := (nth i (accumulate stream_rng ws) 0%Qc).
Notation flt := (fl stream_rng).

(** Rounding cannot blow up the partial sums. *)
Lemma cum_bound : forall ws i, Forall (fun x => 0 <= x)%Qc ws -> i < length ws ->
  (cum ws i <= 4 * sumQ (firstn (S i) ws))%Q.
Proof.
  intros ws i Hnn. rewrite Forall_forall in Hnn. induction i as [|i IH]; intros Hi.
  - rewrite cum_0 by (intros ->; cbn in Hi; lia). destruct ws as [|w ws]; [cbn in Hi; lia|].
    cbn [nth firstn sumQ]. assert (Hw : (0 <= w)%Q) by (apply (Hnn w); now left).
    pose proof (round_le_double flt (fl_ok stream_rng) w Hw) as H. rewrite Qcplus_0_r. lra.
  - specialize (IH ltac:(lia)). rewrite cum_S by assumption.
    assert (Hw : (0 <= nth (S i) ws 0%Qc)%Q) by (apply Hnn, nth_In, Hi).
    set (w := nth (S i) ws 0%Qc) in *.
    pose proof (round_le_double flt (fl_ok stream_rng) w Hw) as H1.
    pose proof (round_nonneg flt (fl_ok stream_rng) w Hw) as H0.
    pose proof (round_add_le flt (fl_ok stream_rng) (cum ws i + flt w)%Qc (cum ws i) (flt w)) as H2.
    specialize (H2 (cum_double stream_rng ws i) H0).
    assert (He : ((cum ws i + flt w)%Qc == cum ws i + flt w)%Q) by (cbn [this Q2Qc Qcplus]; apply Qred_correct).
    specialize (H2 He). rewrite firstn_snoc_nth by assumption. fold w.
    assert (Hs : ((sumQ (firstn (S i) ws) + w)%Qc == sumQ (firstn (S i) ws) + w)%Q) by (cbn [this Q2Qc Qcplus]; apply Qred_correct).
    rewrite Hs. lra.
Qed.

Lemma draw_reach : forall ws i, Forall (fun x => 0 <= x)%Qc ws -> i < length ws -> Wide (nth i ws 0%Qc) ws ->
  exists k, forall rest, draw_index stream_rng (accumulate stream_rng ws) (k :: rest) = (i, rest).
Proof.
  intros ws i Hnn Hi [Hw Hwide]. rewrite total_sumQ in Hwide.
  set (T := cum ws (pred (length ws))). set (w := nth i ws 0%Qc) in *.
  set (c := match i with O => 0%Qc | S i' => cum ws i' end).
  assert (HT4 : (T <= 4 * sumQ ws)%Q).
  { pose proof (cum_bound ws (pred (length ws)) Hnn ltac:(lia)) as H.
    replace (S (pred (length ws))) with (length ws) in H by lia. now rewrite firstn_all in H. }
  assert (Hq : (w <= 4 * flt w)%Q) by now apply fl_quarter.
  assert (Hwide' : (sumQ ws <= w * 140737488355328)%Q).
  { unfold Qcle, grain, Qcmult in Hwide. cbn [this Q2Qc] in Hwide. rewrite !Qred_correct in Hwide. exact Hwide. }
  assert (Hstep : cum ws i = flt (c + flt w)%Qc).
  { unfold c, w. destruct i as [|i]; [|now apply cum_S].
    rewrite cum_0 by (intros ->; cbn in Hi; lia). rewrite Qcplus_0_l.
    symmetry. apply round_id; [apply fl_ok|]. apply round_double, fl_ok. }
  assert (Hcd : Double c).
  { unfold c. destruct i; [exact isD_0|apply cum_double]. }
  assert (Hc0 : (0 <= c)%Qc).
  { unfold c. destruct i; [apply Qcle_refl|apply cum_nonneg; [assumption|lia]]. }
  assert (HiT : (cum ws i <= T)%Qc) by (apply cum_mono; [assumption|lia|lia]).
  assert (Hci : (c <= cum ws i)%Qc).
  { unfold c. destruct i as [|i]; [now apply cum_nonneg|]. now apply cum_step_le. }
  assert (HTd : Double T) by apply cum_double.
  assert (HTpos : (0 < T)%Qc).
  { apply Qclt_le_trans with (cum ws i); [now apply cum_positive|assumption]. }
  assert (Hgap : (c + T * (1 # 4503599627370496) <= cum ws i)%Q).
  { rewrite Hstep. apply (round_add_ge flt (fl_ok stream_rng) _ c (flt w) T); try assumption.
    - split; [exact Hc0|]. eapply Qle_trans; [exact Hci|exact HiT].
    - cbn [this Q2Qc Qcplus]. apply Qred_correct.
    - lra.
    - rewrite <- Hstep. exact HiT. }
  assert (HTq : (0 < T)%Q) by exact HTpos.
  destruct (grid c (T * (1 # 9007199254740992)) T) as (k & Hk & H1 & H2).
  { exact Hc0. }
  { lra. }
  { exact HTq. }
  { change (inject_Z 9007199254740992) with 9007199254740992%Q. lra. }
  { unfold Qcle in HiT. lra. }
  exists (Z.to_N k). intros rest. unfold draw_index. rewrite accumulate_last, accumulate_length. fold T.
  unfold random01. cbn [prim_random stream_rng].
  rewrite N.mod_small by (unfold two53; lia). rewrite Z2N.id by lia. f_equal.
  change (ieee_round (Q2Qc (k # two53) * T)%Qc) with (flt (Q2Qc (k # two53) * T)%Qc).
  set (y := (Q2Qc (k # two53) * T)%Qc).
  assert (Hy : (y == (k # two53) * T)%Q).
  { unfold y, Qcmult. cbn [this Q2Qc]. now rewrite !Qred_correct. }
  assert (Hlow : (c <= flt y)%Qc).
  { apply (round_ge flt (fl_ok stream_rng)); [exact Hcd|]. rewrite Hy. exact H1. }
  assert (Hup : (flt y < cum ws i)%Qc).
  { pose proof (round_near flt (fl_ok stream_rng) y c Hcd) as Hn. rewrite (Qabs.Qabs_pos (y - c)) in Hn by (rewrite Hy; lra).
    apply Qabs.Qabs_Qle_condition in Hn. unfold Qclt. rewrite Hy in Hn. lra. }
  set (x := flt y) in *. clearbody x. clear - Hlow Hup Hnn Hi c.
  destruct (bisect_spec (pred (length ws)) (accumulate stream_rng ws) x 0 (pred (length ws))) as (B1 & B2 & B3); [lia|lia|].
  set (j := bisect_right _ _ _ _ _) in *. clearbody j.
  destruct (lt_eq_lt_dec j i) as [[Hlt|Heq]|Hgt]; [exfalso|assumption|exfalso].
  - destruct B2 as [B2|B2]; [lia|]. apply (Qclt_not_le _ _ B2). eapply Qcle_trans; [|exact Hlow].
    unfold c. destruct i as [|i]; [lia|]. apply cum_mono; [assumption|lia|lia].
  - destruct B3 as [B3|B3]; [lia|]. destruct j as [|j]; [lia|]. cbn [pred] in B3.
    apply (Qclt_not_le _ _ Hup). eapply Qcle_trans; [|exact B3]. apply cum_mono; [assumption|lia|lia].
Qed.

Lemma Wide_pos : forall w ws, Wide w ws -> (0 < w)%Qc.
Proof. intros w ws [H _]. exact H. Qed.

Lemma WideAll_nonneg : forall ws, Forall (fun w => Wide w ws) ws -> Forall (fun x => 0 <= x)%Qc ws.
Proof. intros ws H. eapply Forall_impl; [|exact H]. intros w Hw. apply Qclt_le_weak. eapply Wide_pos, Hw. Qed.

Lemma sumQ_perm : forall a b, Permutation a b -> sumQ a = sumQ b.
Proof.
  intros a b H. induction H as [|x a b _ IH|x y a|a b c _ IH1 _ IH2]; cbn; [reflexivity|now rewrite IH| |congruence].
  rewrite !Qcplus_assoc. now rewrite (Qcplus_comm y x).
Qed.

Lemma WideAll_drop : forall ws x ws', Permutation ws (x :: ws') -> Forall (fun w => Wide w ws) ws ->
  Forall (fun w => Wide w ws') ws'.
Proof.
  intros ws x ws' Hp H. rewrite Forall_forall in *.
  assert (Hx : (0 < x)%Qc). { eapply Wide_pos, H. eapply Permutation_in; [symmetry; exact Hp|]. now left. }
  intros w Hw. destruct (H w) as [Hpos Hwide]; [eapply Permutation_in; [symmetry; exact Hp|]; now right|].
  split; [assumption|]. rewrite total_sumQ in *. eapply Qcle_trans; [|exact Hwide].
  rewrite (sumQ_perm _ _ Hp). cbn. rewrite <- (Qcplus_0_l (sumQ ws')) at 1.
  apply Qcplus_le_compat; [now apply Qclt_le_weak|apply Qcle_refl].
Qed.

Lemma choices_reach : forall ws i n, Forall (fun x => 0 <= x)%Qc ws -> i < length ws -> Wide (nth i ws 0%Qc) ws ->
  exists l, forall rest, choices stream_rng (accumulate stream_rng ws) n (l ++ rest) = @ROk stream_rng _ (repeat i n) rest.
Proof.
  intros ws i n Hnn Hi Hw. destruct (draw_reach ws i Hnn Hi Hw) as (k & Hk).
  exists (repeat k n). intros rest. unfold choices.
  assert (Hpos : Qc_leb (last (accumulate stream_rng ws) 0%Qc) 0%Qc = false).
  { destruct (Qc_leb (last (accumulate stream_rng ws) 0%Qc) 0%Qc) eqn:Hl; [|reflexivity].
    apply Qc_leb_spec in Hl. rewrite accumulate_sum in Hl. apply (float_sum_zero stream_rng) in Hl; [|assumption]. exfalso. destruct Hw as [Hw _].
    rewrite Forall_forall in Hl. rewrite (Hl (nth i ws 0%Qc)) in Hw by now apply nth_In. discriminate Hw. }
  destruct (accumulate stream_rng ws) as [|a acc] eqn:Ha.
  { exfalso. pose proof (accumulate_length stream_rng ws) as Hl. rewrite Ha in Hl. cbn in Hl. lia. }
  rewrite Hpos. rewrite <- Ha in *.
  assert (Hd : draw_indices stream_rng (accumulate stream_rng ws) n (repeat k n ++ rest) = (repeat i n, rest)).
  { clear Hpos. induction n as [|n IH]; cbn [draw_indices repeat app]; [reflexivity|]. rewrite Hk, IH. reflexivity. }
  now rewrite Hd.
Qed.

Lemma cwr_loop_reach : forall sel vals ws rest, length vals = length ws ->
  Forall (fun w => Wide w ws) ws -> Permutation vals (sel ++ rest) ->
  exists l, forall r, cwr_loop stream_rng cmd_eqb (length sel) vals ws (l ++ r) = @ROk stream_rng _ sel r.
Proof.
  induction sel as [|v sel IH]; intros vals ws rest Hl Hw Hp.
  - exists []. intros r. reflexivity.
  - assert (Hin : In v vals) by (eapply Permutation_in; [symmetry; exact Hp|]; now left).
    destruct (In_nth_error _ _ Hin) as (i & Hi).
    assert (Hil : i < length ws) by (rewrite <- Hl; apply nth_error_Some; congruence).
    destruct (choices_reach ws i 1) as (l1 & Hc).
    { now apply WideAll_nonneg. }
    { assumption. }
    { rewrite Forall_forall in Hw. apply Hw, nth_In, Hil. }
    destruct (cwr_remaining cmd_eqb v vals ws) as [vals' ws'] eqn:Hr.
    destruct (cwr_remaining_spec cmd_eqb cmd_eqb_spec v vals ws vals' ws' Hl Hin Hr)
      as (j & _ & _ & _ & _ & Hl' & _ & P1 & P2).
    destruct (IH vals' ws' rest Hl') as (l2 & H2).
    { eapply WideAll_drop; eassumption. }
    { apply Permutation_cons_inv with v. rewrite <- P1. exact Hp. }
    exists (l1 ++ l2). intros r. cbn [length cwr_loop]. rewrite <- app_assoc, Hc. cbn [repeat].
    rewrite Hi, Hr, H2. reflexivity.
Qed.

Lemma cwr_reach : forall sel vals ws rest, 2 <= length vals -> length vals = length ws ->
  Forall (fun w => Wide w ws) ws -> Permutation vals (sel ++ rest) ->
  exists l, forall r, choose_without_replacement stream_rng cmd_eqb vals ws (Z.of_nat (length sel)) (l ++ r) = @ROk stream_rng _ sel r.
Proof.
  intros sel vals ws rest H2 Hl Hw Hp. destruct (cwr_loop_reach sel vals ws rest Hl Hw Hp) as (l & H).
  exists l. intros r. unfold choose_without_replacement.
  pose proof (Permutation_length Hp) as Hlen. rewrite app_length in Hlen.
  destruct (Z.ltb_spec (Z.of_nat (length vals)) (Z.of_nat (length sel))) as [Hx|_]; [lia|].
  assert (Hws : ws <> []) by (intros ->; cbn in Hl; lia). destruct ws as [|w ws]; [congruence|].
  rewrite Hl, Nat.eqb_refl. cbn [negb].
  destruct vals as [|v [|v' vals]]; cbn in H2; try lia. rewrite Nat2Z.id. apply H.
Qed.

Lemma randbelow_reach : forall n i r, i < n -> randbelow stream_rng n (N.of_nat i :: r) = (i, r).
Proof.
  intros n i r H. unfold randbelow. cbn [prim_below stream_rng]. rewrite N.mod_small by lia. now rewrite Nat2N.id.
Qed.

Lemma randint_reach : forall a b k r, (a <= k <= b)%Z ->
  randint stream_rng a b (N.of_nat (Z.to_nat (k - a)) :: r) = Some (k, r).
Proof.
  intros a b k r H. unfold randint. destruct (Z.leb_spec a b) as [_|]; [|lia].
  rewrite randbelow_reach by lia. repeat f_equal. lia.
Qed.

(** * Generators *)
Section Reach.
Variable E : env.
Notation next := (next stream_rng E).
Notation ores := (ores stream_rng).

(** For some random numbers [f] consumes exactly these and answers with a
    value satisfying [Q]. *)
Definition Can {A} (f : nat -> list N -> ores A) (Q : A -> Prop) : Prop :=
  exists n l a, (forall m rest, n <= m -> f m (l ++ rest) = @OVal stream_rng _ a rest) /\ Q a.

Lemma Can_ret : forall A (a : A) (Q : A -> Prop), Q a -> Can (fun _ r => @OVal stream_rng _ a r) Q.
Proof. intros A a Q H. exists 0, [], a. auto. Qed.

Lemma Can_bind : forall A B (f : nat -> list N -> ores A) (h : nat -> A -> list N -> ores B) Q Q',
  Can f Q -> (forall a, Q a -> Can (fun m r => h m a r) Q') ->
  Can (fun m r => obind stream_rng (f m r) (h m)) Q'.
Proof.
  intros A B f h Q Q' (n & l & a & Hf & Ha) Hh. destruct (Hh a Ha) as (n' & l' & b & Hb & HQ).
  exists (n + n'), (l ++ l'), b. split; [|assumption]. intros m rest Hm. rewrite <- app_assoc, Hf by lia. cbn.
  apply Hb. lia.
Qed.

Lemma Can_match : forall A B (f : nat -> list N -> ores A) (h : nat -> ores A -> ores B) Q Q',
  Can f Q -> (forall a, Q a -> Can (fun m r => h m (@OVal stream_rng _ a r)) Q') -> Can (fun m r => h m (f m r)) Q'.
Proof.
  intros A B f h Q Q' (n & l & a & Hf & Ha) Hh. destruct (Hh a Ha) as (n' & l' & b & Hb & HQ).
  exists (n + n'), (l ++ l'), b. split; [|assumption]. intros m rest Hm. rewrite <- app_assoc, Hf by lia. apply Hb. lia.
Qed.

Lemma Can_pep : forall A (f : nat -> list N -> ores A) Q, Can f Q -> Can (fun m r => pep479 stream_rng (f m r)) Q.
Proof. intros A f Q (n & l & a & Hf & Ha). exists n, l, a. split; [|assumption]. intros m rest Hm. now rewrite Hf. Qed.

Lemma Can_S : forall A (f : nat -> list N -> ores A) Q, Can (fun m => f (S m)) Q -> Can f Q.
Proof.
  intros A f Q (n & l & a & Hf & Ha). exists (S n), l, a. split; [|assumption]. intros [|m] rest Hm; [lia|].
  apply Hf. lia.
Qed.

Lemma Can_impl : forall A (f : nat -> list N -> ores A) (Q Q' : A -> Prop), Can f Q -> (forall a, Q a -> Q' a) -> Can f Q'.
Proof. intros A f Q Q' (n & l & a & Hf & Ha) H. exists n, l, a. auto. Qed.

Lemma Can_mk : forall (f : nat -> mkres) n g, (forall m, n <= m -> f m = MOk g) ->
  Can (fun m r => lift_mk stream_rng (f m) r) (fun g' => g' = g).
Proof. intros f n g H. exists n, [], g. split; [|reflexivity]. intros m rest Hm. cbn. now rewrite H. Qed.

Definition CanG (g : gen) (t : text) : Prop := Can (fun m r => next m g r) (fun x => fst x = t).

Definition ReachIn (c : ctx) (cmd : command) (t : text) : Prop :=
  exists n g, (forall m, n <= m -> mk m c cmd = MOk g) /\ CanG g t.

Lemma mk_all_Reach : forall c cmds ts, Forall2 (ReachIn c) cmds ts ->
  Can (fun m r => mk_all stream_rng m c cmds r) (fun gs => Forall2 CanG gs ts).
Proof.
  intros c cmds ts H. induction H as [|cmd t cmds ts (n & g & Hg & Hc) _ IH]; cbn [mk_all].
  - apply Can_ret. constructor.
  - eapply Can_bind; [eapply Can_mk; exact Hg|]. intros g' ->. eapply Can_bind; [exact IH|]. intros gs Hgs.
    apply Can_ret. now constructor.
Qed.

Lemma rotate_Can : forall gs ts, Forall2 CanG gs ts ->
  Can (fun m r => rotate_all stream_rng (next m) gs r) (fun x => fst x = ts).
Proof.
  intros gs ts H. induction H as [|g t gs ts Hg _ IH]; cbn [rotate_all].
  - now apply Can_ret.
  - eapply Can_bind; [exact Hg|]. intros [t' g'] Ht. cbn in Ht. subst t'.
    eapply Can_bind; [exact IH|]. intros [ts' gs'] Hts. cbn in Hts. subst ts'. now apply Can_ret.
Qed.

Lemma first_of_Can : forall f n g t, (forall m, n <= m -> f m = MOk g) -> CanG g t ->
  Can (fun m r => first_of stream_rng (next m) m (f m) r) (fun x => x = t).
Proof.
  intros f n g t Hf Hg. unfold first_of. eapply Can_bind; [eapply Can_mk; exact Hf|]. intros g' ->.
  eapply Can_bind; [exact Hg|]. intros [t' g'] Ht. cbn in Ht. subst. now apply Can_ret.
Qed.

Lemma CanG_squash : forall g t b u, CanG g t -> Tidy b t u -> CanG (if b then GSquash g else g) u.
Proof.
  intros g t b u H Ht. apply Tidy_fun in Ht. subst u. destruct b; [|assumption].
  apply Can_S. unfold_next stream_rng E. eapply Can_bind; [exact H|]. intros [t' g'] Ht. cbn in Ht. subst.
  now apply Can_ret.
Qed.

Lemma CanG_slice : forall g t, CanG g t -> CanG (GSlice 1 g) t.
Proof.
  intros g t H. apply Can_S. unfold_next stream_rng E. eapply Can_bind; [exact H|]. intros [t' g'] Ht. cbn in Ht. subst.
  now apply Can_ret.
Qed.

(** Reachable as a prompt. *)
Definition ReachPrompt (c : ctx) (p : wpath) (u : text) : Prop :=
  exists n g, (forall m lim, n <= m -> sample_prompts E m c p lim = MOk (match lim with None => g | Some k => GSlice k g end)) /\
    CanG g u.

Lemma reach_prompt : forall c p cmd t u, Reads E p cmd -> ReachIn c cmd t -> Tidy (c_ignws c) t u -> ReachPrompt c p u.
Proof.
  intros c p cmd t u Hr (n & g & Hg & Hc) Ht. exists n, (if c_ignws c then GSquash g else g). split.
  - intros m lim Hm. unfold sample_prompts. destruct Hr as [s cmd Hs Hp|cmd Hn].
    + destruct s as [|x s]; [congruence|]. now rewrite Hp, Hg.
    + apply truthy_Nonempty in Hn. rewrite Hn. cbn [negb]. now rewrite Hg.
  - eapply CanG_squash; eassumption.
Qed.

Lemma path_Can : forall c w u, ReachPrompt c w u ->
  Can (fun m r => sample_path stream_rng E (next m) m c w r) (fun x => x = u).
Proof.
  intros c w u (n & g & Hg & Hc). unfold sample_path. eapply first_of_Can with (g := GSlice 1 g) (n := n).
  - intros m Hm. now apply (Hg m (Some 1)).
  - now apply CanG_slice.
Qed.

(** * Variables *)
Definition Agrees (c : ctx) (sc : scope) : Prop :=
  c_method c = sc_method sc /\ c_ignws c = sc_squash sc /\ c_unknown c = sc_unknown sc /\
  forall x, dict_get x (c_vars c) = sc_var sc x.

Lemma Agrees_Refers : forall c sc x d v, Agrees c sc -> Refers sc x d v -> Refers (scope_of c) x d v.
Proof.
  intros c sc x d v (_ & _ & Hu & Hv) H. destruct H as [v H1 H2|v H1 H2 H3|v u H1 H2 H3|u H1 H2 H3].
  - apply Refers_var; [cbn; now rewrite Hv|assumption].
  - apply Refers_default; [cbn; now rewrite Hv|assumption|assumption].
  - eapply Refers_unknown_var; [cbn; rewrite Hv; exact H1|assumption|cbn; congruence].
  - apply Refers_unknown; [cbn; now rewrite Hv|assumption|cbn; congruence].
Qed.

Lemma Agrees_enter : forall c sc cmd, Agrees c sc -> Agrees (with_method (chosen_method c cmd) c) (enter sc cmd).
Proof.
  intros c sc cmd (Hm & Hi & Hu & Hv). repeat split; cbn; auto. rewrite chosen_method_resolve. now rewrite Hm.
Qed.

Lemma last_unique : forall (bs : list (text * command)) x pre v post pre' v' post',
  bs = pre ++ (x, v) :: post -> ~ In x (map fst post) ->
  bs = pre' ++ (x, v') :: post' -> ~ In x (map fst post') -> v = v'.
Proof.
  intros bs x pre v post pre' v' post' -> Hn He Hn'. revert pre' He.
  induction pre as [|a pre IH]; intros [|a' pre'] He; cbn in He.
  - congruence.
  - injection He as <- ->. exfalso. apply Hn. rewrite map_app. apply in_or_app. right. now left.
  - injection He as -> <-. exfalso. apply Hn'. rewrite map_app. apply in_or_app. right. now left.
  - injection He as _ He. eauto.
Qed.

Lemma Agrees_extended : forall c sc bs sc', Agrees c sc -> Extended sc bs sc' ->
  Agrees (with_variables bs c) sc'.
Proof.
  intros c sc bs sc' (Hm & Hi & Hu & Hv) [(H1 & H2 & H3) Hx].
  destruct (with_variables_Extended bs c) as [(K1 & K2 & K3) Kx]. cbn [scope_of sc_method sc_squash sc_unknown sc_var] in *.
  split; [congruence|]. split; [congruence|]. split; [congruence|].
  intros x. destruct (Hx x) as [(pre & v & post & Hb & Hn & ->)|[Hn ->]], (Kx x) as [(pre' & v' & post' & Kb & Kn & ->)|[Kn ->]].
  - f_equal. eapply last_unique; eassumption.
  - exfalso. apply Kn. rewrite Hb, map_app. apply in_or_app. right. now left.
  - exfalso. apply Hn. rewrite Kb, map_app. apply in_or_app. right. now left.
  - apply Hv.
Qed.

(** Values collected in a dict and added later, or added at once. *)
Lemma Agrees_collected : forall c sc bs sc', Agrees c sc -> Extended sc bs sc' ->
  Agrees (with_variables (dict_update [] bs) c) sc'.
Proof.
  intros c sc bs sc' Ha Hx. pose proof (Agrees_extended c sc bs sc' Ha Hx) as (K1 & K2 & K3 & K4).
  assert (Hw : forall vs, c_method (with_variables vs c) = c_method c /\ c_ignws (with_variables vs c) = c_ignws c /\
            c_unknown (with_variables vs c) = c_unknown c) by (intros [|]; auto).
  destruct (Hw bs) as (W1 & W2 & W3). destruct (Hw (dict_update [] bs)) as (W4 & W5 & W6).
  split; [congruence|]. split; [congruence|]. split; [congruence|]. intros x. rewrite <- K4.
  assert (Hg : forall vs y, dict_get y (c_vars (with_variables vs c)) = dict_get y (dict_update (c_vars c) vs)).
  { intros [|kv vs] y; reflexivity. }
  rewrite !Hg.
  assert (Hs : dict_sorted (dict_update [] bs)).
  { clear. unfold dict_update. assert (H : forall d, dict_sorted d -> dict_sorted (fold_left (fun acc kv => dict_set (fst kv) (snd kv) acc) bs d)).
    { induction bs as [|kv bs IH]; intros d Hd; cbn; [assumption|]. apply IH. now apply dict_set_sorted. }
    apply H. constructor. }
  rewrite (dict_get_update_nodup _ (c_vars c)) by now apply dict_sorted_NoDup.
  destruct (dict_get_update bs [] x) as [(pre & v & post & Hb & Hn & ->)|[Hn ->]],
           (dict_get_update bs (c_vars c) x) as [(pre' & v' & post' & Kb & Kn & ->)|[Kn ->]].
  - f_equal. eapply last_unique; eassumption.
  - exfalso. apply Kn. rewrite Hb, map_app. apply in_or_app. right. now left.
  - exfalso. apply Hn. rewrite Kb, map_app. apply in_or_app. right. now left.
  - reflexivity.
Qed.

(** * Wildcards *)
Lemma wgen_reach : forall items v q, In (v, q) (pairs items) ->
  (AllEqual (map snd (pairs items)) \/
   Forall (fun x => 0 <= x)%Qc (map snd (pairs items)) /\ Wide q (map snd (pairs items))) ->
  exists l wg, forall rest, next_wgen stream_rng (start_wgen stream_rng items) (l ++ rest) = @ROk stream_rng _ (v, wg) rest.
Proof.
  intros items v q Hin Hd. apply In_nth_error in Hin as (i & Hi).
  unfold pairs in Hi. rewrite nth_error_map in Hi. destruct (nth_error items i) as [it|] eqn:Hit; [|discriminate].
  injection Hi as <- Hq. fold (w_weight it) in Hq.
  assert (Hil : i < length items) by (apply nth_error_Some; congruence).
  assert (Hnth : nth i (string_values items) [] = w_content it).
  { apply nth_error_nth. unfold string_values. rewrite nth_error_map, Hit. reflexivity. }
  assert (Hsnd : map snd (pairs items) = map w_weight items).
  { unfold pairs. rewrite map_map. reflexivity. }
  rewrite Hsnd in Hd. unfold start_wgen. destruct (has_varied_weights items) eqn:Hv.
  - destruct Hd as [Hd|[Hnn Hw]].
    { exfalso. apply has_varied_weights_spec in Hv as (a & b & Ha & Hb & Hne). apply Hne.
      apply Hd; now apply in_map. }
    destruct (choices_reach (map w_weight items) i batch_size) as (l & Hl).
    { assumption. }
    { now rewrite map_length. }
    { rewrite (nth_error_nth (map w_weight items) i 0%Qc (x := w_weight it)); [now rewrite Hq|].
      now rewrite nth_error_map, Hit. }
    exists l. eexists. intros rest. cbn [next_wgen]. unfold cum_weight_values. rewrite Hl.
    unfold batch_size. cbn [repeat map]. rewrite Hnth. reflexivity.
  - exists [N.of_nat i]. eexists. intros rest. cbn [next_wgen app]. unfold choice, string_values. rewrite map_length.
    destruct (length items) as [|k] eqn:Hk; [lia|]. rewrite randbelow_reach by assumption.
    fold (string_values items). rewrite Hnth. reflexivity.
Qed.

Lemma fallback_Can : forall c w name t, (forall s, w = WStr s -> name = s) ->
  (forall cmd, w = WCmd cmd -> ReachPrompt c w name) -> Wrapped (env_wrap E) name t -> CanG (GFallback c w) t.
Proof.
  intros c w name t Hs Hc Ht. apply Can_S. unfold_next stream_rng E. apply Wrapped_to_wildcard in Ht. subst t.
  assert (Hf : forall s, Can (fun m r => next m (GRepeat s) r) (fun x => fst x = s)).
  { intros s. apply Can_S. unfold_next stream_rng E. now apply Can_ret. }
  destruct w as [s|cmd].
  - rewrite (Hs s eq_refl). cbn [obind]. apply Hf.
  - eapply Can_bind; [apply Can_pep, path_Can; eauto|]. intros x ->. apply Hf.
Qed.

Definition Body_reach (sc : scope) (busy : list text) (cmd : command) (t : text) : Prop :=
  forall c, Agrees c sc -> c_busy c = busy -> c_method c = Random ->
    exists n g, (forall m, n <= m -> mk m c (with_mark cmd None) = MOk g) /\ CanG g t.

Lemma Agrees_busy : forall c sc x, Agrees c sc ->
  Agrees {| c_method := c_method c; c_ignws := c_ignws c; c_vars := c_vars c;
            c_unknown := c_unknown c; c_busy := x :: c_busy c |} sc.
Proof. intros c sc x H. exact H. Qed.

Theorem draws_reach :
  (forall sc busy cmd t, Draws E sc busy cmd t -> forall c, Agrees c sc -> c_busy c = busy -> ReachIn c cmd t) /\
  (forall sc busy cmd t, DrawsBody E sc busy cmd t -> Body_reach sc busy cmd t) /\
  (forall sc busy cmds ts, DrawsAll E sc busy cmds ts -> forall c, Agrees c sc -> c_busy c = busy ->
     Forall2 (ReachIn c) cmds ts) /\
  (forall sc busy w u, DrawsPath E sc busy w u -> forall c, Agrees c sc -> c_busy c = busy -> ReachPrompt c w u) /\
  (forall sc busy tokens bs, Binds E sc busy tokens bs -> forall c, Agrees c sc -> c_busy c = busy ->
     forall nv toks, Plain tokens toks -> Can (fun m r => assignments_loop stream_rng (next m) m c tokens nv r)
       (fun x => fst x = toks /\ snd x = dict_update nv bs)).
Proof.
  apply (Draws_mutind E).
  - (* enter *)
    intros sc busy cmd t Hm _ IH c Ha Hb.
    destruct (IH (with_method (chosen_method c cmd) c)) as (n & g & Hg & Hc).
    { now apply Agrees_enter. }
    { exact Hb. }
    { destruct (Agrees_enter c sc cmd Ha) as (Hx & _). now rewrite Hx. }
    exists n, g. split; [|assumption]. intros m Hn. rewrite mk_resolved, <- chosen_method_resolve. now apply Hg.
  - (* literal *)
    intros sc busy s m c Ha Hb Hm. exists 1, (GRepeat s). split.
    { intros [|n] Hn; [lia|]. cbn [with_mark]. rewrite mk_none by reflexivity. now rewrite Hm. }
    apply Can_S. unfold_next stream_rng E. now apply Can_ret.
  - (* sequence *)
    intros sc busy tokens sep m bs sc' toks parts t _ IHb Hx Hp _ IHa Hgl c Ha Hb Hm.
    exists 1, (GSeqStart c tokens sep). split.
    { intros [|n] Hn; [lia|]. cbn [with_mark]. rewrite mk_none by reflexivity. now rewrite Hm. }
    apply Can_S. unfold_next stream_rng E. apply Can_pep.
    eapply Can_bind with (Q := fun x => x = (toks, with_variables (dict_update [] bs) c)).
    + unfold process_variable_assignments. eapply Can_bind; [apply (IHb c Ha Hb [] toks Hp)|].
      intros [tk vs] [H1 H2]. cbn in H1, H2. subst. now apply Can_ret.
    + intros x ->. cbn beta iota. eapply Can_bind.
      * apply mk_all_Reach. apply IHa; [eapply Agrees_collected; eassumption|]. rewrite <- Hb. now destruct (dict_update [] bs).
      * intros gs Hgs. apply Can_S. unfold_next stream_rng E. apply Can_pep.
        eapply Can_bind; [apply rotate_Can; exact Hgs|]. intros [ts gs'] Hts. cbn in Hts. subst ts. apply Can_ret. cbn.
        symmetry. now apply Glued_joined.
  - (* several options *)
    intros sc busy opts lo hi sep m sel rest parts t H2 Hmx Hw Hp Hk _ IHa Hgl c Ha Hb Hm.
    exists 1, (GRVarStart c opts lo hi sep). split.
    { intros [|n] Hn; [lia|]. cbn [with_mark]. rewrite mk_none by reflexivity. now rewrite Hm. }
    apply Can_S. unfold_next stream_rng E. destruct opts as [|[v1 q1] [|[v2 q2] opts]]; cbn [length] in H2; try lia.
    set (os := (v1, q1) :: (v2, q2) :: opts) in *.
    apply Can_S. unfold_next stream_rng E. rewrite adjust_range_clamp.
    set (lo' := clamp (length os) (Z.min lo hi)) in *. set (hi' := Z.min (Z.max lo hi) (Z.of_nat (length os))).
    assert (Hhi : clamp (length os) (Z.max lo hi) = hi') by (unfold hi', clamp; lia). rewrite Hhi in Hk.
    assert (Hws : Forall (fun w => Wide w (weights os)) (weights os)).
    { unfold weights. apply Forall_forall. intros w Hin. apply in_map_iff in Hin as (o & <- & Ho).
      rewrite Forall_forall in Hw. now apply Hw. }
    destruct (cwr_reach sel (values os) (weights os) rest) as (l & Hl).
    { unfold values. rewrite map_length. cbn. lia. }
    { unfold values, weights. now rewrite !map_length. }
    { assumption. }
    { exact Hp. }
    assert (Hrest : Can (fun k r => 
        obind stream_rng (lift_rres stream_rng (choose_without_replacement stream_rng cmd_eqb (values os) (weights os) (Z.of_nat (length sel)) r))
          (fun selected r => obind stream_rng (mk_all stream_rng k c selected r)
             (fun gens r => match gens with
                | [] => OVal ([], GRVarLoop c os lo' hi' sep) r
                | _ => obind stream_rng (rotate_all stream_rng (next k) gens r)
                     (fun '(ts, _) r => OVal (joined ts sep, GRVarLoop c os lo' hi' sep) r) end))) (fun x => fst x = t)).
    { eapply Can_bind with (Q := fun s => s = sel).
      - exists 0, l, sel. split; [|reflexivity]. intros k r _. now rewrite Hl.
      - intros s ->. eapply Can_bind; [apply mk_all_Reach, (IHa c Ha Hb)|]. intros gs Hgs.
        apply Glued_joined in Hgl. subst t. destruct gs as [|g gs].
        + inversion Hgs; subst. apply Can_ret. cbn. symmetry. apply joined_nil.
        + eapply Can_bind; [apply rotate_Can; exact Hgs|]. intros [ts gs'] Hts. cbn in Hts. subst ts. now apply Can_ret. }
    destruct Hrest as (n & l' & a & Hn & HQ).
    exists n, (N.of_nat (Z.to_nat (Z.of_nat (length sel) - lo')) :: l'), a. split; [|assumption].
    intros k r Hkn. cbn [app]. rewrite randint_reach by assumption. cbn zeta beta iota.
    rewrite Z.min_r by lia.
    specialize (Hn k r Hkn). match type of Hn with ?x = _ => change (pep479 stream_rng x = @OVal stream_rng _ a r) end.
    rewrite Hn. reflexivity.
  - (* one option *)
    intros sc busy v q lo hi sep m t Hnl _ IH c Ha Hb Hm. exists 1, (GRVarStart c [(v, q)] lo hi sep). split.
    { intros [|n] Hn; [lia|]. cbn [with_mark]. rewrite mk_none by reflexivity. now rewrite Hm. }
    apply Can_S. unfold_next stream_rng E. destruct (single_wildcard [(v, q)]) as [w|] eqn:Hx.
    { exfalso. apply Hnl. destruct (single_wildcard_spec _ _ Hx) as (mw & vs & q' & Hq). unfold lone_wildcard. eauto. }
    destruct (IH c Ha Hb) as (n & g & Hg & Hc). eapply Can_bind; [eapply Can_mk; exact Hg|]. intros g' ->. exact Hc.
  - (* lone wildcard *)
    intros sc busy w mw vars q lo hi sep m path opts t n _ IHp Ho Hn _ IHb c Ha Hb Hm.
    exists 1, (GRVarStart c [(Wild w mw vars, q)] lo hi sep). split.
    { intros [|k] Hk; [lia|]. cbn [with_mark]. rewrite mk_none by reflexivity. now rewrite Hm. }
    apply Can_S. unfold_next stream_rng E. cbn [single_wildcard].
    eapply Can_bind with (Q := fun x => x = (opts, (Z.max 0 (Z.min (Z.min lo hi) n), Z.min (Z.max lo hi) n))).
    + apply Can_pep. unfold wildcard_to_variant. eapply Can_bind; [apply path_Can, (IHp c Ha Hb)|]. intros p ->.
      cbn zeta. destruct Ho as (vals & cmds & Hv & Hc & ->).
      rewrite (Listed_unique _ _ _ Hv (iterate_weighted_Listed (env_lookup E path))) in Hc.
      rewrite (parse_all_Forall2 E _ _ Hc). apply Can_ret. f_equal. subst n. unfold post_init_bounds.
      match goal with |- context [Z.leb ?a ?b] => destruct (Z.leb_spec a b) end; f_equal; lia.
    + intros x ->. cbn beta iota. destruct (IHb c Ha Hb Hm) as (k & g & Hg & Hc).
      specialize (Hg (S k) ltac:(lia)). cbn [with_mark] in Hg. rewrite mk_none in Hg by reflexivity.
      rewrite Hm in Hg. injection Hg as <-. exact Hc.
  - (* wildcard *)
    intros sc busy w m vars path sc' v q cmd t u _ IHp Hx Hin Hd Hr _ IH Ht c Ha Hb Hm.
    exists 1, (GRWildStart c w vars). split.
    { intros [|k] Hk; [lia|]. cbn [with_mark]. rewrite mk_none by reflexivity. now rewrite Hm. }
    apply Can_S. unfold_next stream_rng E.
    eapply Can_bind; [apply Can_pep, path_Can, (IHp c Ha Hb)|]. intros p ->. cbn zeta.
    assert (Hlk : env_lookup E path <> []) by (intros He; rewrite He in Hin; destruct Hin).
    destruct (wgen_reach _ _ _ Hin Hd) as (l & wg & Hwg).
    assert (Hb' : c_busy (with_variables vars c) = busy) by (rewrite <- Hb; now destruct vars).
    assert (Hi' : c_ignws (with_variables vars c) = sc_squash sc).
    { destruct Ha as (_ & Hi & _). rewrite <- Hi. now destruct vars. }
    destruct (reach_prompt (with_variables vars c) (WStr v) cmd t u Hr) as (n & g & Hg & Hc).
    { apply IH; [eapply Agrees_extended; eassumption|assumption]. }
    { now rewrite Hi'. }
    assert (Hgo : CanG (GRWildLoop (with_variables vars c) (start_wgen stream_rng (env_lookup E path)) None) u).
    { apply Can_S. unfold_next stream_rng E.
      eapply Can_bind with (Q := fun x => x = (v, wg)).
      - exists 0, l, (v, wg). split; [|reflexivity]. intros k rest _. now rewrite Hwg.
      - intros x ->. eapply Can_bind; [eapply Can_mk with (n := n) (g := GSlice 1 g); intros k Hk; now apply (Hg k (Some 1))|].
        intros g' ->. apply Can_S. unfold_next stream_rng E.
        eapply (Can_match _ _ (fun k r => next k (GSlice 1 g) r)
          (fun k x => match x with OVal (t, g') r => OVal (t, GRWildLoop (with_variables vars c) wg (Some g')) r
                      | OStop r => next k (GRWildLoop (with_variables vars c) wg None) r
                      | ORaise e r => ORaise e r | OFuel => OFuel end)); [apply CanG_slice; exact Hc|].
        intros [t' g'] Ht'. cbn in Ht'. subst t'. now apply Can_ret. }
    destruct (env_lookup E path) as [|i is] eqn:Hlk'; [congruence|]. exact Hgo.
  - (* missing wildcard *)
    intros sc busy name m vars path t _ IHp Hlk Ht c Ha Hb Hm. exists 1, (GRWildStart c (WStr name) vars). split.
    { intros [|k] Hk; [lia|]. cbn [with_mark]. rewrite mk_none by reflexivity. now rewrite Hm. }
    apply Can_S. unfold_next stream_rng E.
    eapply Can_bind; [apply Can_pep, path_Can, (IHp c Ha Hb)|]. intros p ->. cbn zeta. rewrite Hlk.
    eapply fallback_Can; [|discriminate|eassumption]. intros s [= <-]. reflexivity.
  - intros sc busy cmd m vars path sc' name t _ IHp Hlk Hx _ IHn Ht c Ha Hb Hm. exists 1, (GRWildStart c (WCmd cmd) vars). split.
    { intros [|k] Hk; [lia|]. cbn [with_mark]. rewrite mk_none by reflexivity. now rewrite Hm. }
    apply Can_S. unfold_next stream_rng E.
    eapply Can_bind; [apply Can_pep, path_Can, (IHp c Ha Hb)|]. intros p ->. cbn zeta. rewrite Hlk.
    eapply fallback_Can; [discriminate| |eassumption]. intros cmd' _. apply IHn; [eapply Agrees_extended; eassumption|].
    rewrite <- Hb. now destruct vars.
  - (* access *)
    intros sc busy x d v t Href Hnb _ IH c Ha Hb Hm.
    destruct (IH {| c_method := c_method c; c_ignws := c_ignws c; c_vars := c_vars c;
                    c_unknown := c_unknown c; c_busy := x :: c_busy c |}) as (n & g & Hg & Hc).
    { now apply Agrees_busy. }
    { cbn. now rewrite Hb. }
    exists (S n), g. split; [|assumption]. intros [|k] Hk; [lia|]. cbn [with_mark].
    rewrite mk_none by reflexivity. rewrite (Refers_resolve _ _ _ _ (Agrees_Refers _ _ _ _ _ Ha Href)).
    unfold for_sampling_variable.
    destruct (str_mem x (c_busy c)) eqn:Hx; [apply str_mem_In in Hx; rewrite Hb in Hx; contradiction|].
    apply Hg. lia.
  - (* wrap *)
    intros sc busy wrapper inner m tw ti before after _ IHw _ IHi Hcut c Ha Hb Hm.
    exists 1, (GRWrapStart c wrapper inner). split.
    { intros [|k] Hk; [lia|]. cbn [with_mark]. rewrite mk_none by reflexivity. now rewrite Hm. }
    destruct (IHw c Ha Hb) as (n1 & gw & Hgw & Hcw). destruct (IHi c Ha Hb) as (n2 & gi & Hgi & Hci).
    apply Can_S. unfold_next stream_rng E. eapply Can_bind; [eapply Can_mk; exact Hgw|]. intros g ->.
    eapply Can_bind; [eapply Can_mk; exact Hgi|]. intros g ->. apply Can_S. unfold_next stream_rng E.
    eapply Can_bind; [exact Hcw|]. intros [tw' gw'] Htw. cbn in Htw. subst tw'.
    eapply Can_bind; [exact Hci|]. intros [ti' gi'] Hti. cbn in Hti. subst ti'. apply Can_ret. cbn.
    symmetry. now apply wrapped_fun.
  - intros sc busy c _ _. constructor.
  - intros sc busy cmd cmds t ts _ IH _ IHs c Ha Hb. constructor; auto.
  - (* path *)
    intros sc busy w cmd t u Hr _ IH Ht c Ha Hb. eapply reach_prompt; [exact Hr|now apply IH|].
    destruct Ha as (_ & Hi & _). now rewrite Hi.
  - (* assignments *)
    intros sc busy c _ _ nv toks Hp. inversion Hp; subst. now apply Can_ret.
  - intros sc busy tok tokens bs Hna _ IH c Ha Hb nv toks Hp.
    assert (Hp' : exists toks', toks = tok :: toks' /\ Plain tokens toks').
    { inversion Hp; subst; [exfalso; apply Hna; unfold is_assign; eauto|eauto]. }
    destruct Hp' as (toks' & -> & Hp').
    assert (Hgo : Can (fun m r => obind stream_rng (assignments_loop stream_rng (next m) m c tokens nv r)
                (fun '(rest, vs) r => OVal (tok :: rest, vs) r)) (fun x => fst x = tok :: toks' /\ snd x = dict_update nv bs)).
    { eapply Can_bind; [apply (IH c Ha Hb nv toks' Hp')|]. intros [rest vs] [H1 H2]. cbn in H1, H2. subst. now apply Can_ret. }
    destruct tok; try exact Hgo. exfalso. apply Hna. unfold is_assign. eauto.
  - intros sc busy x v imm v0 tokens bs Hv _ IH c Ha Hb nv toks Hp.
    assert (Hp' : Plain tokens toks).
    { inversion Hp; subst; [assumption|]. exfalso. match goal with H : ~ is_assign _ |- _ => apply H end. unfold is_assign; eauto. }
    cbn [assignments_loop]. unfold process_variable_assignment. destruct Ha as (A1 & A2 & A3 & A4). rewrite A4, Hv.
    cbn [obind]. apply (IH c (conj A1 (conj A2 (conj A3 A4))) Hb (dict_set x v0 nv) toks Hp').
  - intros sc busy x v ovr tokens bs Ho _ IH c Ha Hb nv toks Hp.
    assert (Hp' : Plain tokens toks).
    { inversion Hp; subst; [assumption|]. exfalso. match goal with H : ~ is_assign _ |- _ => apply H end. unfold is_assign; eauto. }
    cbn [assignments_loop]. unfold process_variable_assignment.
    replace (if ovr then None else dict_get x (c_vars c)) with (@None command).
    2:{ destruct ovr; [reflexivity|]. destruct Ha as (_ & _ & _ & A4). rewrite A4. symmetry. now apply Ho. }
    cbn [obind]. apply (IH c Ha Hb (dict_set x v nv) toks Hp').
  - intros sc busy x s m ovr tokens bs Ho _ IH c Ha Hb nv toks Hp.
    assert (Hp' : Plain tokens toks).
    { inversion Hp; subst; [assumption|]. exfalso. match goal with H : ~ is_assign _ |- _ => apply H end. unfold is_assign; eauto. }
    cbn [assignments_loop]. unfold process_variable_assignment.
    replace (if ovr then None else dict_get x (c_vars c)) with (@None command).
    2:{ destruct ovr; [reflexivity|]. destruct Ha as (_ & _ & _ & A4). rewrite A4. symmetry. now apply Ho. }
    cbn [obind]. apply (IH c Ha Hb (dict_set x (Lit s m) nv) toks Hp').
  - intros sc busy x v ovr t tokens bs Ho Hnl _ IHv _ IH c Ha Hb nv toks Hp.
    assert (Hp' : Plain tokens toks).
    { inversion Hp; subst; [assumption|]. exfalso. match goal with H : ~ is_assign _ |- _ => apply H end. unfold is_assign; eauto. }
    cbn [assignments_loop]. destruct (IHv c Ha Hb) as (n & g & Hg & Hc).
    eapply Can_bind with (Q := fun y => y = Lit t None).
    + unfold process_variable_assignment.
      replace (if ovr then None else dict_get x (c_vars c)) with (@None command).
      2:{ destruct ovr; [reflexivity|]. destruct Ha as (_ & _ & _ & A4). rewrite A4. symmetry. now apply Ho. }
      destruct v; [exfalso; eapply Hnl; reflexivity|..];
        (eapply Can_bind; [eapply first_of_Can; eassumption|]; intros y ->; now apply Can_ret).
    + intros y ->. apply (IH c Ha Hb (dict_set x (Lit t None) nv) toks Hp').
Qed.

(** * Whole prompts *)
Lemma drawn_first : forall c p u, Drawn E c p u ->
  exists n draws g g', forall m rest, n <= m ->
    sample_prompts E m c p None = MOk g /\ next m g (draws ++ rest) = @OVal stream_rng _ (u, g') rest.
Proof.
  intros c p u H. unfold Drawn in H.
  destruct (proj1 (proj2 (proj2 (proj2 draws_reach))) _ _ _ _ H c) as (n & g & Hg & n' & l & [u' g'] & Hn & Hu).
  { repeat split. }
  { reflexivity. }
  cbn in Hu. subst u'. exists (n + n'), l, g, g'. intros m rest Hm. split; [apply (Hg m None); lia|apply Hn; lia].
Qed.
End Reach.
