(** Spec/Rolls.v describes exactly what the random sampler does. *)
From Coq Require Import String NArith ZArith QArith Qcanon Bool Arith List Permutation Lia.
From Verif.Model Require Import Str Float Utils Command Rng Values Context Sampler.
From Verif.Spec Require Import Text Comb Items Lang Draws Rolls.
From Verif.Proofs Require Import StrFacts UtilsFacts CommandFacts CombFacts FloatFacts RngFacts ValuesFacts DictFacts
  Soundness FuelFacts RunFacts EnumFacts WildRun LiveFacts DrawFacts ShareFacts ReachFacts.
Import ListNotations.
Local Open Scope nat_scope.

Section Roll.
Variable G : rng_impl.
Variable E : env.
Notation R := (rng_state G).
Notation next := (next G E).
Notation ores := (ores G).
Notation fsum := (float_sum (fl G)).

(** * Raw numbers *)
Lemma Counted_randint : forall lo hi (r : R) k r', Counted G lo hi r k r' <-> randint G lo hi r = Some (k, r').
Proof.
  intros lo hi r k r'. unfold Counted, randint, randbelow.
  destruct (Z.leb_spec lo hi) as [Hle|Hlt].
  - replace (N.of_nat (Z.to_nat (hi - lo + 1))) with (Z.to_N (hi - lo + 1)) by lia.
    destruct (prim_below G (Z.to_N (hi - lo + 1)) r) as [x r1] eqn:Hp.
    rewrite N_nat_Z. split.
    + intros (_ & y & [= <- <-] & ->). reflexivity.
    + intros [= <- <-]. split; [assumption|]. eauto.
  - split; [intros [H _]; lia|discriminate].
Qed.

Lemma Counted_range : forall lo hi (r : R) k r', Counted G lo hi r k r' -> (lo <= k <= hi)%Z.
Proof.
  intros lo hi r k r' (Hle & x & _ & ->).
  assert (Hn : Z.to_N (hi - lo + 1) <> 0%N) by lia.
  pose proof (N.mod_lt x _ Hn) as Hm. revert Hm. generalize (N.modulo x (Z.to_N (hi - lo + 1))). intros y Hy. lia.
Qed.

Lemma random01_point : forall (r : R) x r', prim_random G r = (x, r') ->
  random01 G r = (Q2Qc (Z.of_N (N.modulo x 9007199254740992) # 9007199254740992), r').
Proof. intros r x r' H. unfold random01. now rewrite H. Qed.

Lemma stretch_unique : forall ws i j x, Forall (fun w => 0 <= w)%Qc ws -> i < length ws -> j < length ws ->
  (fsum (firstn i ws) <= x)%Qc -> (x < fsum (firstn (S i) ws))%Qc ->
  (fsum (firstn j ws) <= x)%Qc -> (x < fsum (firstn (S j) ws))%Qc -> i = j.
Proof.
  assert (H : forall ws i j x, Forall (fun w => 0 <= w)%Qc ws -> i < j -> j < length ws ->
    (x < fsum (firstn (S i) ws))%Qc -> (fsum (firstn j ws) <= x)%Qc -> False).
  { intros ws i j x Hnn Hij Hj H1 H2. apply (Qclt_not_le _ _ H1). eapply Qcle_trans; [|exact H2].
    apply float_sum_mono; [assumption|lia|lia]. }
  intros ws i j x Hnn Hi Hj A1 A2 B1 B2. destruct (lt_eq_lt_dec i j) as [[Hlt|Heq]|Hgt]; [exfalso|assumption|exfalso]; eauto.
Qed.

Lemma Picked_draw : forall ws (r : R) i r', Picked G ws r i r' ->
  (0 < fsum ws)%Qc /\ draw_index G (accumulate G ws) r = (i, r').
Proof.
  intros ws r i r' (Hnn & Hi & x & p & Hx & Hp & H1 & H2).
  assert (Hpos : (0 < fsum ws)%Qc).
  { apply Qcle_lt_trans with (fsum (firstn i ws)).
    - apply float_sum_nonneg. apply Forall_forall. intros w Hw. rewrite Forall_forall in Hnn. apply Hnn.
      rewrite <- (firstn_skipn i ws). apply in_or_app. now left.
    - eapply Qcle_lt_trans; [exact H1|]. eapply Qclt_le_trans; [exact H2|].
      rewrite <- (firstn_all ws) at 2. apply float_sum_mono; [assumption|lia|lia]. }
  split; [assumption|].
  destruct (draw_index_stretch G ws r Hnn Hpos) as (j & Hd & Hj & J1 & J2). rewrite Hd.
  rewrite (random01_point _ _ _ Hx) in *. cbn [fst snd] in *. f_equal. rewrite <- Hp in *.
  eapply stretch_unique; eassumption.
Qed.

Lemma draw_Picked : forall ws (r : R) i r', Forall (fun w => 0 <= w)%Qc ws -> (0 < fsum ws)%Qc ->
  draw_index G (accumulate G ws) r = (i, r') -> Picked G ws r i r'.
Proof.
  intros ws r i r' Hnn Hpos Hd. destruct (draw_index_stretch G ws r Hnn Hpos) as (j & Hd' & Hj & J1 & J2).
  rewrite Hd in Hd'. injection Hd' as <- Hr. subst r'. split; [assumption|]. split; [assumption|].
  destruct (prim_random G r) as [x r1] eqn:Hx. rewrite (random01_point _ _ _ Hx) in *. cbn [fst snd] in *. eauto 8.
Qed.

Lemma PickedMany_choices : forall ws k (r : R) is r', PickedMany G ws (S k) r is r' ->
  choices G (accumulate G ws) (S k) r = ROk is r'.
Proof.
  intros ws k r is r' H. unfold choices.
  assert (Hpos : (0 < fsum ws)%Qc) by (inversion H as [|? ? ? ? ? ? Hp _]; subst; now apply Picked_draw in Hp).
  destruct (accumulate G ws) as [|c cs] eqn:Hc.
  { destruct ws; [now apply Qclt_not_eq in Hpos|discriminate]. }
  rewrite <- Hc. rewrite accumulate_sum.
  destruct (Qc_leb _ _) eqn:Hle; [apply Qc_leb_spec in Hle; now apply Qcle_not_lt in Hle|]. clear c cs Hc Hle.
  assert (Hd : draw_indices G (accumulate G ws) (S k) r = (is, r')).
  { clear Hpos. revert H. generalize (S k). clear k. intros k H.
    induction H as [|k r i r1 is r2 Hp _ IH]; [reflexivity|]. cbn [draw_indices].
    apply Picked_draw in Hp as [_ ->]. now rewrite IH. }
  now rewrite Hd.
Qed.

Lemma choices_PickedMany : forall ws k (r : R) is r', Forall (fun w => 0 <= w)%Qc ws ->
  choices G (accumulate G ws) k r = ROk is r' -> PickedMany G ws k r is r'.
Proof.
  intros ws k r is r' Hnn H.
  assert (Hpos : (0 < fsum ws)%Qc) by (rewrite <- accumulate_sum; now apply choices_ok in H).
  unfold choices in H. destruct (accumulate G ws) as [|c cs] eqn:Hc; [discriminate|]. rewrite <- Hc in *. clear c cs Hc.
  destruct (Qc_leb _ _); [discriminate|]. revert r is r' H. induction k as [|k IH]; intros r is r' H; cbn [draw_indices] in H.
  - injection H as <- <-. constructor.
  - destruct (draw_index G (accumulate G ws) r) as [j r1] eqn:Hj.
    destruct (draw_indices G (accumulate G ws) k r1) as [is1 r2] eqn:Hd. injection H as <- <-.
    apply PM_cons with r1; [apply draw_Picked; assumption|]. apply IH. now rewrite Hd.
Qed.

Section Removal.
Context {A : Type} (f : A -> A -> bool).
Hypothesis f_spec : forall a b, reflect (a = b) (f a b).

Lemma remove_first_Without : forall x l, In x l -> Without x l (remove_first f x l).
Proof.
  induction l as [|y l IH]; intros Hin; [destruct Hin|]. cbn [remove_first]. destruct (f_spec y x) as [->|Hne].
  - exists [], l. repeat split. intros [].
  - destruct IH as (pre & post & -> & Hn & He); [destruct Hin; [congruence|assumption]|].
    exists (y :: pre), post. rewrite He. repeat split. intros [|]; [congruence|contradiction].
Qed.

Lemma Without_remove_first : forall x l l', Without x l l' -> l' = remove_first f x l.
Proof.
  intros x l l' (pre & post & -> & Hn & ->). induction pre as [|y pre IH]; cbn [app remove_first].
  - destruct (f_spec x x); congruence.
  - destruct (f_spec y x) as [->|]; [exfalso; apply Hn; now left|]. f_equal. apply IH. intros H. apply Hn. now right.
Qed.
End Removal.

Lemma Without_incl : forall {A} (x : A) l l' (P : A -> Prop), Without x l l' -> Forall P l -> Forall P l'.
Proof.
  intros A x l l' P (pre & post & -> & _ & ->) H. apply Forall_app in H as [H1 H2]. inversion H2; subst.
  now apply Forall_app.
Qed.

Lemma Without_length : forall {A} (x : A) l l', Without x l l' -> length l = S (length l').
Proof. intros A x l l' (pre & post & -> & _ & ->). rewrite !app_length. cbn. lia. Qed.

Lemma FirstAt_fun : forall {A} (l : list A) x i j, FirstAt l x i -> FirstAt l x j -> i = j.
Proof.
  intros A l x i j [H1 H2] [J1 J2]. destruct (lt_eq_lt_dec i j) as [[H|H]|H]; [exfalso|assumption|exfalso].
  - now apply (J2 i).
  - now apply (H2 j).
Qed.

Lemma Chosen_loop : forall vs ws k (r : R) sel r', length vs = length ws -> Chosen G vs ws k r sel r' ->
  cwr_loop G cmd_eqb k vs ws r = ROk sel r'.
Proof.
  intros vs ws k r sel r' Hl H.
  induction H as [|vs ws k r i r1 v j w vs' ws' sel r2 Hp Hi Hj Hw Hvs Hws _ IH]; [reflexivity|].
  cbn [cwr_loop]. rewrite (PickedMany_choices ws 0 r [i] r1) by (econstructor; [exact Hp|constructor]).
  rewrite Hi. destruct (cwr_remaining cmd_eqb v vs ws) as [vals' ws0] eqn:Hr.
  pose proof (cwr_remaining_spec cmd_eqb cmd_eqb_spec v vs ws vals' ws0 Hl (nth_error_In _ _ Hi) Hr)
    as (j' & Hj' & _ & Ev & Ew & Hl' & _).
  rewrite (FirstAt_fun _ _ _ _ Hj' Hj) in *.
  assert (Hvals : vals' = vs').
  { unfold cwr_remaining in Hr. injection Hr as <- _. symmetry. eapply Without_remove_first; [apply cmd_eqb_spec|assumption]. }
  assert (Hws0 : ws0 = ws').
  { rewrite Ew, (nth_error_nth _ _ _ Hw). symmetry.
    eapply Without_remove_first; [apply Qc_eq_bool_spec|assumption]. }
  rewrite Hvals, Hws0 in *. rewrite IH; [reflexivity|assumption].
Qed.

Lemma loop_Chosen : forall k vs ws (r : R) sel r', length vs = length ws -> Forall (fun w => 0 <= w)%Qc ws ->
  cwr_loop G cmd_eqb k vs ws r = ROk sel r' -> Chosen G vs ws k r sel r'.
Proof.
  induction k as [|k IH]; intros vs ws r sel r' Hl Hnn H; cbn [cwr_loop] in H.
  - injection H as <- <-. constructor.
  - destruct (choices G (accumulate G ws) 1 r) as [is r1|e r1] eqn:Hc; [|discriminate].
    apply choices_PickedMany in Hc; [|assumption].
    inversion Hc as [|? ? i ? is' ? Hp Hn]; subst. inversion Hn; subst.
    destruct (nth_error vs i) as [v|] eqn:Hi; [|discriminate].
    destruct (cwr_remaining cmd_eqb v vs ws) as [vs' ws'] eqn:Hr.
    destruct (cwr_loop G cmd_eqb k vs' ws' r1) as [l r2|] eqn:Hlp; [|discriminate]. injection H as <- <-.
    pose proof (cwr_remaining_spec cmd_eqb cmd_eqb_spec v vs ws vs' ws' Hl (nth_error_In _ _ Hi) Hr)
      as (j & Hj & Hjl & Ev & Ew & Hl' & _).
    assert (Hw : nth_error ws j = Some (nth j ws 0%Qc)) by now apply nth_error_nth'.
    assert (Hws : Without (nth j ws 0%Qc) ws ws').
    { rewrite Ew. apply remove_first_Without; [apply Qc_eq_bool_spec|]. eapply nth_error_In, Hw. }
    apply Ch_cons with i r1 j (nth j ws 0%Qc) vs' ws'; try assumption.
    + unfold cwr_remaining in Hr. injection Hr as <- _. apply remove_first_Without; [apply cmd_eqb_spec|].
      eapply nth_error_In, Hi.
    + apply IH; [assumption| |assumption]. eapply Without_incl; eassumption.
Qed.

(** * Values of a wildcard *)
Lemma pairs_weights : forall items, map snd (pairs items) = map w_weight items.
Proof. intros items. unfold pairs. rewrite map_map. reflexivity. Qed.
Lemma pairs_nth : forall items i t q, nth_error (pairs items) i = Some (t, q) ->
  i < length items /\ nth i (string_values items) [] = t.
Proof.
  intros items i t q H. unfold pairs in H. rewrite nth_error_map in H.
  destruct (nth_error items i) as [it|] eqn:Hi; [|discriminate]. injection H as <- _.
  split; [apply nth_error_Some; congruence|]. apply nth_error_nth. unfold string_values. now rewrite nth_error_map, Hi.
Qed.
Lemma nth_pairs : forall items i, i < length items ->
  exists q, nth_error (pairs items) i = Some (nth i (string_values items) [], q).
Proof.
  intros items i H. destruct (nth_error items i) as [it|] eqn:Hi; [|apply nth_error_None in Hi; lia].
  unfold pairs. rewrite nth_error_map, Hi. eexists. cbn. f_equal. f_equal. symmetry. apply nth_error_nth.
  unfold string_values. now rewrite nth_error_map, Hi.
Qed.

Lemma varied_AllEqual : forall items, has_varied_weights items = false <-> AllEqual (map snd (pairs items)).
Proof.
  intros items. rewrite pairs_weights. destruct (has_varied_weights items) eqn:Hv.
  - split; [discriminate|]. intros H. apply has_varied_weights_spec in Hv as (a & b & Ha & Hb & Hne).
    exfalso. apply Hne. apply H; now apply in_map.
  - split; [|reflexivity]. intros _ x y Hx Hy. apply in_map_iff in Hx as (a & <- & Ha), Hy as (b & <- & Hb).
    destruct (Qc_eq_dec (w_weight a) (w_weight b)) as [|Hne]; [assumption|]. exfalso.
    assert (has_varied_weights items = true) by (apply has_varied_weights_spec; eauto). congruence.
Qed.

(** The supply with the values in store. *)
Definition supply (items : list witem) (buffer : list text) : wgen :=
  if has_varied_weights items then WBatch (string_values items) (cum_weight_values G items) buffer
  else WChoice (string_values items).

Lemma supply_start : forall items, start_wgen G items = supply items [].
Proof. reflexivity. Qed.

Lemma Supplied_next : forall items buffer (r : R) v buffer' r', Supplied G items buffer r v buffer' r' ->
  next_wgen G (supply items buffer) r = ROk (v, supply items buffer') r'.
Proof.
  intros items buffer r v buffer' r' H. unfold supply.
  destruct H as [buffer r x r' v q He Hx Hn|v buffer r He|r is r' v buffer He Hp Hf].
  - apply varied_AllEqual in He. rewrite He. cbn [next_wgen]. unfold choice.
    replace (length (string_values items)) with (length items) by (symmetry; apply map_length).
    destruct (pairs_nth _ _ _ _ Hn) as [Hlt Hv]. destruct (length items) as [|k] eqn:Hk; [now apply Nat.nlt_0_r in Hlt|].
    unfold randbelow. rewrite Hx, Hv. reflexivity.
  - destruct (has_varied_weights items) eqn:Hv; [reflexivity|]. now apply varied_AllEqual in Hv.
  - destruct (has_varied_weights items) eqn:Hv; [|now apply varied_AllEqual in Hv].
    cbn [next_wgen]. unfold cum_weight_values. rewrite <- pairs_weights. unfold batch_size.
    rewrite (PickedMany_choices _ _ _ _ _ Hp).
    replace (map (fun i => nth i (string_values items) []) is) with (v :: buffer); [reflexivity|].
    clear - Hf. remember (v :: buffer) as vs eqn:Hvs. clear Hvs.
    induction Hf as [|i t is ts [q Hq] _ IH]; [reflexivity|]. cbn [map]. rewrite <- IH.
    now destruct (pairs_nth _ _ _ _ Hq) as [_ ->].
Qed.

Lemma next_Supplied : forall items buffer (r : R) v wg r', items <> [] ->
  Forall (fun w => 0 <= w)%Qc (map snd (pairs items)) ->
  next_wgen G (supply items buffer) r = ROk (v, wg) r' ->
  exists buffer', wg = supply items buffer' /\ Supplied G items buffer r v buffer' r'.
Proof.
  intros items buffer r v wg r' Hne Hnn H. unfold supply in H. destruct (has_varied_weights items) eqn:Hv.
  - assert (Hd : ~ AllEqual (map snd (pairs items))) by (intros Hx; apply varied_AllEqual in Hx; congruence).
    destruct buffer as [|b buffer]; cbn [next_wgen] in H.
    + unfold cum_weight_values in H. rewrite <- pairs_weights in H.
      destruct (choices G (accumulate G (map snd (pairs items))) batch_size r) as [is r1|] eqn:Hc; [|discriminate].
      destruct (map (fun i => nth i (string_values items) []) is) as [|v0 buffer] eqn:Hm; [discriminate|].
      injection H as <- <- <-. exists buffer. split.
      { unfold supply. rewrite Hv. unfold cum_weight_values. now rewrite <- pairs_weights. }
      pose proof (choices_ok _ _ _ _ _ _ Hc) as (_ & _ & Hok).
      eapply Su_refill; [assumption|apply choices_PickedMany; eassumption|]. rewrite <- Hm. clear - Hok.
      induction Hok as [|i is [Hi _] _ IH]; constructor; [|assumption].
      apply nth_pairs. unfold pairs in Hi. now rewrite !map_length in Hi.
    + injection H as <- <- <-. exists buffer. split; [unfold supply; now rewrite Hv|]. now apply Su_stored.
  - cbn [next_wgen] in H. unfold choice in H.
    replace (length (string_values items)) with (length items) in H by (symmetry; apply map_length).
    destruct (length items) as [|k] eqn:Hk; [destruct items; [congruence|discriminate]|].
    unfold randbelow in H. destruct (prim_below G (N.of_nat (S k)) r) as [x r1] eqn:Hx. injection H as <- <- <-.
    exists buffer. split; [unfold supply; now rewrite Hv|].
    destruct (nth_pairs items (N.to_nat (x mod N.of_nat (S k)))) as [q Hq].
    { rewrite Hk. assert (Hn : N.of_nat (S k) <> 0%N) by lia. pose proof (N.mod_lt x _ Hn) as Hm. revert Hm.
      generalize (N.modulo x (N.of_nat (S k))). intros y Hy. lia. }
    eapply Su_even; [now apply varied_AllEqual|rewrite Hk; exact Hx|]. rewrite Hk. exact Hq.
Qed.

(** * From the rules to a run *)
(** From state [r], [f] answers with a value satisfying [Q] and leaves [r'], or
    it ends and leaves [r']; for all large enough fuels. *)
Definition Does {A} (f : nat -> R -> ores A) (r : R) (Q : A -> Prop) (r' : R) : Prop :=
  exists n a, (forall m, n <= m -> f m r = OVal a r') /\ Q a.
Definition Ends {A} (f : nat -> R -> ores A) (r r' : R) : Prop :=
  exists n, forall m, n <= m -> f m r = OStop r'.

Lemma Does_ret : forall A (a : A) (Q : A -> Prop) r, Q a -> Does (fun _ r => OVal a r) r Q r.
Proof. intros A a Q r H. exists 0, a. auto. Qed.

Lemma Does_bind : forall A B (f : nat -> R -> ores A) (h : nat -> A -> R -> ores B) Q Q' r r1 r2,
  Does f r Q r1 -> (forall a, Q a -> Does (fun m r => h m a r) r1 Q' r2) ->
  Does (fun m r => obind G (f m r) (h m)) r Q' r2.
Proof.
  intros A B f h Q Q' r r1 r2 (n & a & Hf & Ha) Hh. destruct (Hh a Ha) as (n' & b & Hb & HQ).
  exists (n + n'), b. split; [|assumption]. intros m Hm. rewrite Hf by lia. cbn. apply Hb. lia.
Qed.

Lemma Does_pep : forall A (f : nat -> R -> ores A) Q r r', Does f r Q r' -> Does (fun m r => pep479 G (f m r)) r Q r'.
Proof. intros A f Q r r' (n & a & Hf & Ha). exists n, a. split; [|assumption]. intros m Hm. now rewrite Hf. Qed.

Lemma Does_S : forall A (f : nat -> R -> ores A) Q r r', Does (fun m => f (S m)) r Q r' -> Does f r Q r'.
Proof.
  intros A f Q r r' (n & a & Hf & Ha). exists (S n), a. split; [|assumption]. intros [|m] Hm; [lia|]. apply Hf. lia.
Qed.

Lemma Does_mk : forall (f : nat -> mkres) n g r, (forall m, n <= m -> f m = MOk g) ->
  Does (fun m r => lift_mk G (f m) r) r (fun g' => g' = g) r.
Proof. intros f n g r H. exists n, g. split; [|reflexivity]. intros m Hm. now rewrite H. Qed.

Lemma Ends_S : forall A (f : nat -> R -> ores A) r r', Ends (fun m => f (S m)) r r' -> Ends f r r'.
Proof. intros A f r r' (n & Hf). exists (S n). intros [|m] Hm; [lia|]. apply Hf. lia. Qed.

Lemma Ends_first : forall A B (f : nat -> R -> ores A) (h : nat -> A -> R -> ores B) r r',
  Ends f r r' -> Ends (fun m r => obind G (f m r) (h m)) r r'.
Proof. intros A B f h r r' (n & Hf). exists n. intros m Hm. now rewrite Hf. Qed.

Lemma Ends_then : forall A B (f : nat -> R -> ores A) (h : nat -> A -> R -> ores B) Q r r1 r2,
  Does f r Q r1 -> (forall a, Q a -> Ends (fun m r => h m a r) r1 r2) ->
  Ends (fun m r => obind G (f m r) (h m)) r r2.
Proof.
  intros A B f h Q r r1 r2 (n & a & Hf & Ha) Hh. destruct (Hh a Ha) as (n' & Hb).
  exists (n + n'). intros m Hm. rewrite Hf by lia. cbn. apply Hb. lia.
Qed.

Definition DoesG (g : gen) (r : R) (t : text) (r' : R) : Prop := Does (fun m r => next m g r) r (fun x => fst x = t) r'.
Definition EndsG (g : gen) (r r' : R) : Prop := Ends (fun m r => next m g r) r r'.

Definition RollIn (c : ctx) (cmd : command) (r : R) (t : text) (r' : R) : Prop :=
  exists n g, (forall m, n <= m -> mk m c cmd = MOk g) /\ DoesG g r t r'.
Definition HaltIn (c : ctx) (cmd : command) (r r' : R) : Prop :=
  exists n g, (forall m, n <= m -> mk m c cmd = MOk g) /\ EndsG g r r'.

Definition RollAllIn (c : ctx) (cmds : list command) (r : R) (ts : list text) (r' : R) : Prop :=
  exists n gs, (forall m r0, n <= m -> mk_all G m c cmds r0 = OVal gs r0) /\ length gs = length ts /\
    Does (fun m r => rotate_all G (next m) gs r) r (fun x => fst x = ts) r'.

Definition RollPrompt (c : ctx) (p : wpath) (r : R) (u : text) (r' : R) : Prop :=
  exists n g, (forall m lim, n <= m -> sample_prompts E m c p lim = MOk (match lim with None => g | Some k => GSlice k g end)) /\
    DoesG g r u r'.
Definition HaltPrompt (c : ctx) (p : wpath) (r r' : R) : Prop :=
  exists n g, (forall m, n <= m -> sample_prompts E m c p (Some 1) = MOk g) /\ EndsG g r r'.

Lemma first_of_Does : forall f n g r t r', (forall m, n <= m -> f m = MOk g) -> DoesG g r t r' ->
  Does (fun m r => first_of G (next m) m (f m) r) r (fun x => x = t) r'.
Proof.
  intros f n g r t r' Hf Hg. unfold first_of. eapply Does_bind; [eapply Does_mk; exact Hf|]. intros g' ->.
  eapply Does_bind; [exact Hg|]. intros [t' g'] Ht. cbn in Ht. subst. now apply Does_ret.
Qed.

Lemma DoesG_squash : forall g r t r' b u, DoesG g r t r' -> Tidy b t u -> DoesG (if b then GSquash g else g) r u r'.
Proof.
  intros g r t r' b u H Ht. apply Tidy_fun in Ht. subst u. destruct b; [|assumption].
  apply Does_S. unfold_next G E. eapply Does_bind; [exact H|]. intros [t' g'] Ht. cbn in Ht. subst.
  now apply Does_ret.
Qed.

Lemma DoesG_slice : forall g r t r', DoesG g r t r' -> DoesG (GSlice 1 g) r t r'.
Proof.
  intros g r t r' H. apply Does_S. unfold_next G E. eapply Does_bind; [exact H|]. intros [t' g'] Ht. cbn in Ht. subst.
  now apply Does_ret.
Qed.

Lemma roll_prompt : forall c p cmd r t r' u, Reads E p cmd -> RollIn c cmd r t r' -> Tidy (c_ignws c) t u ->
  RollPrompt c p r u r'.
Proof.
  intros c p cmd r t r' u Hr (n & g & Hg & Hc) Ht. exists n, (if c_ignws c then GSquash g else g). split.
  - intros m lim Hm. unfold sample_prompts. destruct Hr as [s cmd Hs Hp|cmd Hn].
    + destruct s as [|x s]; [congruence|]. now rewrite Hp, Hg.
    + apply truthy_Nonempty in Hn. rewrite Hn. cbn [negb]. now rewrite Hg.
  - eapply DoesG_squash; eassumption.
Qed.

Lemma halt_prompt : forall c p cmd r r', Reads E p cmd -> HaltIn c cmd r r' -> HaltPrompt c p r r'.
Proof.
  intros c p cmd r r' Hr (n & g & Hg & Hc). exists n, (GSlice 1 (if c_ignws c then GSquash g else g)). split.
  - intros m Hm. unfold sample_prompts. destruct Hr as [s cmd Hs Hp|cmd Hn].
    + destruct s as [|x s]; [congruence|]. now rewrite Hp, Hg.
    + apply truthy_Nonempty in Hn. rewrite Hn. cbn [negb]. now rewrite Hg.
  - apply Ends_S. unfold_next G E. apply Ends_first. destruct (c_ignws c); [|exact Hc].
    apply Ends_S. unfold_next G E. now apply Ends_first.
Qed.

Lemma path_Does : forall c w r u r', RollPrompt c w r u r' ->
  Does (fun m r => sample_path G E (next m) m c w r) r (fun x => x = u) r'.
Proof.
  intros c w r u r' (n & g & Hg & Hc). unfold sample_path. eapply first_of_Does with (g := GSlice 1 g) (n := n).
  - intros m Hm. now apply (Hg m (Some 1)).
  - now apply DoesG_slice.
Qed.

Lemma fallback_Does : forall c w name r t r', (forall s, w = WStr s -> name = s /\ r' = r) ->
  (forall cmd, w = WCmd cmd -> RollPrompt c w r name r') -> Wrapped (env_wrap E) name t -> DoesG (GFallback c w) r t r'.
Proof.
  intros c w name r t r' Hs Hc Ht. apply Does_S. unfold_next G E. apply Wrapped_to_wildcard in Ht. subst t.
  assert (Hf : forall s r, Does (fun m r => next m (GRepeat s) r) r (fun x => fst x = s) r).
  { intros s r0. apply Does_S. unfold_next G E. now apply Does_ret. }
  destruct w as [s|cmd].
  - destruct (Hs s eq_refl) as [-> ->]. cbn [obind]. apply Hf.
  - eapply Does_bind; [apply Does_pep, path_Does; eauto|]. intros x ->. apply Hf.
Qed.

Lemma Starts_mk : forall sc busy cmd, Starts sc busy cmd -> forall c, Agrees c sc -> c_busy c = busy ->
  exists n g, forall m, n <= m -> mk m c cmd = MOk g.
Proof.
  intros sc busy cmd H. induction H as [sc busy cmd Hm Hna Hnx|sc busy x d v Hm Href Hnb _ IH]; intros c Ha Hb.
  - exists 1. destruct (Agrees_enter c sc cmd Ha) as (Hx & _).
    assert (Hc : chosen_method c cmd = Random) by (cbn in Hx; now rewrite Hx).
    destruct cmd; try (eexists; intros [|k] Hk; [lia|]; cbn [mk]; rewrite Hc; reflexivity).
    + exfalso. apply Hna. unfold is_assign. eauto.
    + exfalso. eapply Hnx. reflexivity.
  - destruct (IH {| c_method := c_method c; c_ignws := c_ignws c; c_vars := c_vars c;
                    c_unknown := c_unknown c; c_busy := x :: c_busy c |}) as (n & g & Hg).
    { now apply Agrees_busy. }
    { cbn. now rewrite Hb. }
    exists (S n), g. intros [|k] Hk; [lia|].
    rewrite mk_none by reflexivity. rewrite (Refers_resolve _ _ _ _ (Agrees_Refers _ _ _ _ _ Ha Href)).
    unfold for_sampling_variable.
    destruct (str_mem x (c_busy c)) eqn:Hx; [apply str_mem_In in Hx; rewrite Hb in Hx; contradiction|].
    apply Hg. lia.
Qed.

Definition Body_roll (sc : scope) (busy : list text) (cmd : command) (r : R) (t : text) (r' : R) : Prop :=
  forall c, Agrees c sc -> c_busy c = busy -> c_method c = Random -> RollIn c (with_mark cmd None) r t r'.
Definition Body_halt (sc : scope) (busy : list text) (cmd : command) (r r' : R) : Prop :=
  forall c, Agrees c sc -> c_busy c = busy -> c_method c = Random -> HaltIn c (with_mark cmd None) r r'.

Ltac start Hm := intros [|k] Hk; [lia|]; cbn [with_mark]; rewrite mk_none by reflexivity; now rewrite Hm.

Theorem rolls_run :
  (forall sc busy cmd r t r', Rolls G E sc busy cmd r t r' -> forall c, Agrees c sc -> c_busy c = busy -> RollIn c cmd r t r') /\
  (forall sc busy cmd r t r', RollsBody G E sc busy cmd r t r' -> Body_roll sc busy cmd r t r') /\
  (forall sc busy cmds r ts r', RollsAll G E sc busy cmds r ts r' -> forall c, Agrees c sc -> c_busy c = busy ->
     RollAllIn c cmds r ts r') /\
  (forall sc busy w r u r', RollsPath G E sc busy w r u r' -> forall c, Agrees c sc -> c_busy c = busy ->
     RollPrompt c w r u r') /\
  (forall sc busy items buffer r u r', RollsValue G E sc busy items buffer r u r' -> forall c, Agrees c sc -> c_busy c = busy ->
     DoesG (GRWildLoop c (supply items buffer) None) r u r') /\
  (forall sc busy tokens r bs r', RollsBinds G E sc busy tokens r bs r' -> forall c, Agrees c sc -> c_busy c = busy ->
     forall nv toks, Plain tokens toks -> Does (fun m r => assignments_loop G (next m) m c tokens nv r) r
       (fun x => fst x = toks /\ snd x = dict_update nv bs) r') /\
  (forall sc busy cmd r r', Halts G E sc busy cmd r r' -> forall c, Agrees c sc -> c_busy c = busy -> HaltIn c cmd r r') /\
  (forall sc busy cmd r r', HaltsBody G E sc busy cmd r r' -> Body_halt sc busy cmd r r') /\
  (forall sc busy w r r', HaltsPath G E sc busy w r r' -> forall c, Agrees c sc -> c_busy c = busy -> HaltPrompt c w r r').
Proof.
  apply (Rolls_mutind G E).
  - (* enter *)
    intros sc busy cmd r t r' Hm _ IH c Ha Hb.
    destruct (IH (with_method (chosen_method c cmd) c)) as (n & g & Hg & Hc).
    { now apply Agrees_enter. }
    { exact Hb. }
    { destruct (Agrees_enter c sc cmd Ha) as (Hx & _). now rewrite Hx. }
    exists n, g. split; [|assumption]. intros m Hn. rewrite mk_resolved, <- chosen_method_resolve. now apply Hg.
  - (* literal *)
    intros sc busy s m r c Ha Hb Hm. exists 1, (GRepeat s). split; [start Hm|].
    apply Does_S. unfold_next G E. now apply Does_ret.
  - (* sequence *)
    intros sc busy tokens sep m r bs r1 sc' toks parts r2 t _ IHb Hx Hp _ IHa Hgl c Ha Hb Hm.
    exists 1, (GSeqStart c tokens sep). split; [start Hm|].
    apply Does_S. unfold_next G E. apply Does_pep.
    eapply Does_bind with (Q := fun x => x = (toks, with_variables (dict_update [] bs) c)).
    + unfold process_variable_assignments. eapply Does_bind; [apply (IHb c Ha Hb [] toks Hp)|].
      intros [tk vs] [H1 H2]. cbn in H1, H2. subst. now apply Does_ret.
    + intros x ->. cbn beta iota.
      destruct (IHa (with_variables (dict_update [] bs) c)) as (n & gs & Hgs & _ & Hrot).
      { eapply Agrees_collected; eassumption. }
      { rewrite <- Hb. now destruct (dict_update [] bs). }
      eapply Does_bind with (Q := fun x => x = gs).
      * exists n, gs. split; [|reflexivity]. intros k Hk. now apply Hgs.
      * intros x ->. apply Does_S. unfold_next G E. apply Does_pep.
        eapply Does_bind; [exact Hrot|]. intros [ts gs'] Hts. cbn in Hts. subst ts. apply Does_ret. cbn.
        symmetry. now apply Glued_joined.
  - (* several options *)
    intros sc busy opts lo hi sep m r k0 r1 sel r2 parts r3 t H2 Hk0 Hch _ IHa Hgl c Ha Hb Hm.
    exists 1, (GRVarStart c opts lo hi sep). split; [start Hm|].
    apply Does_S. unfold_next G E. destruct opts as [|[v1 q1] [|[v2 q2] opts]]; cbn [length] in H2; try lia.
    set (os := (v1, q1) :: (v2, q2) :: opts) in *.
    apply Does_S. unfold_next G E. rewrite adjust_range_clamp.
    set (lo' := clamp (length os) (Z.min lo hi)) in *. set (hi' := Z.min (Z.max lo hi) (Z.of_nat (length os))) in *.
    pose proof (Counted_range _ _ _ _ _ Hk0) as Hr. apply Counted_randint in Hk0.
    destruct (IHa c Ha Hb) as (n1 & gs & Hgs & Hlen & n2 & [ts gs'] & Hrot & Hts). cbn in Hts. subst ts.
    exists (n1 + n2). eexists. split.
    + intros k Hk. rewrite Hk0. cbn zeta beta iota. rewrite Z.min_r by lia.
      unfold choose_without_replacement. unfold values, weights. rewrite map_length.
      destruct (Z.ltb_spec (Z.of_nat (length os)) k0) as [Hx|_]; [unfold hi' in Hr; lia|].
      assert (Hne : forall X (x y : X), match map snd os with [] => x | _ => y end = y) by reflexivity.
      rewrite Hne, map_length, Nat.eqb_refl. cbn [negb].
      assert (Hne2 : forall X (x : X) (y : command -> X) z,
        match map fst os with [] => x | [v] => y v | _ => z end = z) by reflexivity.
      rewrite Hne2.
      assert (Hcl : cwr_loop G cmd_eqb (Z.to_nat k0) (map fst os) (map snd os) r1 = ROk sel r2).
      { apply Chosen_loop; [now rewrite !map_length|exact Hch]. }
      rewrite Hcl. cbn [lift_rres obind].
      rewrite Hgs by lia. cbn [obind].
      assert (Hout : match gs with
        | [] => OVal ([], GRVarLoop c os lo' hi' sep) r2
        | _ => obind G (rotate_all G (next k) gs r2) (fun '(ts, _) r => OVal (joined ts sep, GRVarLoop c os lo' hi' sep) r)
        end = OVal (joined parts sep, GRVarLoop c os lo' hi' sep) r3).
      { rewrite Hrot by lia. cbn [obind]. destruct gs as [|g gs]; [|reflexivity].
        destruct parts; [|discriminate]. rewrite joined_nil.
        specialize (Hrot (n1 + n2) ltac:(lia)). cbn in Hrot. now injection Hrot as _ <-. }
      etransitivity; [|reflexivity]. apply (f_equal (pep479 G)) in Hout. exact Hout.
    + cbn. symmetry. now apply Glued_joined.
  - (* one option *)
    intros sc busy v q lo hi sep m r t r' Hnl _ IH c Ha Hb Hm. exists 1, (GRVarStart c [(v, q)] lo hi sep).
    split; [start Hm|].
    apply Does_S. unfold_next G E. destruct (single_wildcard [(v, q)]) as [w|] eqn:Hx.
    { exfalso. apply Hnl. destruct (single_wildcard_spec _ _ Hx) as (mw & vs & q' & Hq). unfold lone_wildcard. eauto. }
    destruct (IH c Ha Hb) as (n & g & Hg & Hc). eapply Does_bind; [eapply Does_mk; exact Hg|]. intros g' ->. exact Hc.
  - (* lone wildcard *)
    intros sc busy w mw vars q lo hi sep m r path r1 opts t r2 n _ IHp Ho Hn _ IHb c Ha Hb Hm.
    exists 1, (GRVarStart c [(Wild w mw vars, q)] lo hi sep). split; [start Hm|].
    apply Does_S. unfold_next G E. cbn [single_wildcard].
    eapply Does_bind with (Q := fun x => x = (opts, (Z.max 0 (Z.min (Z.min lo hi) n), Z.min (Z.max lo hi) n))).
    + apply Does_pep. unfold wildcard_to_variant. eapply Does_bind; [apply path_Does, (IHp c Ha Hb)|]. intros p ->.
      cbn zeta. destruct Ho as (vals & cmds & Hv & Hc & ->).
      rewrite (Listed_unique _ _ _ Hv (iterate_weighted_Listed (env_lookup E path))) in Hc.
      rewrite (parse_all_Forall2 E _ _ Hc). apply Does_ret. f_equal. subst n. unfold post_init_bounds.
      match goal with |- context [Z.leb ?a ?b] => destruct (Z.leb_spec a b) end; f_equal; lia.
    + intros x ->. cbn beta iota. destruct (IHb c Ha Hb Hm) as (k & g & Hg & Hc).
      specialize (Hg (S k) ltac:(lia)). cbn [with_mark] in Hg. rewrite mk_none in Hg by reflexivity.
      rewrite Hm in Hg. injection Hg as <-. exact Hc.
  - (* wildcard *)
    intros sc busy w m vars r path r1 sc' u r2 _ IHp Hlk Hx _ IHv c Ha Hb Hm.
    exists 1, (GRWildStart c w vars). split; [start Hm|].
    apply Does_S. unfold_next G E.
    eapply Does_bind; [apply Does_pep, path_Does, (IHp c Ha Hb)|]. intros p ->. cbn zeta.
    assert (Hgo := IHv (with_variables vars c) (Agrees_extended _ _ _ _ Ha Hx)
                     ltac:(rewrite <- Hb; now destruct vars)).
    destruct (env_lookup E path) as [|i is] eqn:Hlk'; [congruence|]. exact Hgo.
  - (* missing wildcard *)
    intros sc busy name m vars r path r1 t _ IHp Hlk Ht c Ha Hb Hm. exists 1, (GRWildStart c (WStr name) vars).
    split; [start Hm|].
    apply Does_S. unfold_next G E.
    eapply Does_bind; [apply Does_pep, path_Does, (IHp c Ha Hb)|]. intros p ->. cbn zeta. rewrite Hlk.
    eapply fallback_Does; [|discriminate|eassumption]. intros s [= <-]. auto.
  - intros sc busy cmd m vars r path r1 sc' name r2 t _ IHp Hlk Hx _ IHn Ht c Ha Hb Hm.
    exists 1, (GRWildStart c (WCmd cmd) vars). split; [start Hm|].
    apply Does_S. unfold_next G E.
    eapply Does_bind; [apply Does_pep, path_Does, (IHp c Ha Hb)|]. intros p ->. cbn zeta. rewrite Hlk.
    eapply fallback_Does; [discriminate| |eassumption]. intros cmd' _. apply IHn; [eapply Agrees_extended; eassumption|].
    rewrite <- Hb. now destruct vars.
  - (* access *)
    intros sc busy x d v r t r' Href Hnb _ IH c Ha Hb Hm.
    destruct (IH {| c_method := c_method c; c_ignws := c_ignws c; c_vars := c_vars c;
                    c_unknown := c_unknown c; c_busy := x :: c_busy c |}) as (n & g & Hg & Hc).
    { now apply Agrees_busy. }
    { cbn. now rewrite Hb. }
    exists (S n), g. split; [|assumption]. intros [|k] Hk; [lia|]. cbn [with_mark].
    rewrite mk_none by reflexivity. rewrite (Refers_resolve _ _ _ _ (Agrees_Refers _ _ _ _ _ Ha Href)).
    unfold for_sampling_variable.
    destruct (str_mem x (c_busy c)) eqn:Hx; [apply str_mem_In in Hx; rewrite Hb in Hx; contradiction|].
    apply Hg. lia.
  - (* wrap *)
    intros sc busy wrapper inner m r tw r1 ti r2 before after _ IHw _ IHi Hcut c Ha Hb Hm.
    exists 1, (GRWrapStart c wrapper inner). split; [start Hm|].
    destruct (IHw c Ha Hb) as (n1 & gw & Hgw & Hcw). destruct (IHi c Ha Hb) as (n2 & gi & Hgi & Hci).
    apply Does_S. unfold_next G E. eapply Does_bind; [eapply Does_mk; exact Hgw|]. intros g ->.
    eapply Does_bind; [eapply Does_mk; exact Hgi|]. intros g ->. apply Does_S. unfold_next G E.
    eapply Does_bind; [exact Hcw|]. intros [tw' gw'] Htw. cbn in Htw. subst tw'.
    eapply Does_bind; [exact Hci|]. intros [ti' gi'] Hti. cbn in Hti. subst ti'. apply Does_ret. cbn.
    symmetry. now apply wrapped_fun.
  - (* several parts *)
    intros sc busy r c _ _. exists 0, []. split; [reflexivity|]. split; [reflexivity|]. now apply Does_ret.
  - intros sc busy cmd cmds r t r1 ts r2 _ IH _ IHs c Ha Hb.
    destruct (IH c Ha Hb) as (n1 & g & Hg & Hc). destruct (IHs c Ha Hb) as (n2 & gs & Hgs & Hl & Hr).
    exists (n1 + n2), (g :: gs). split; [|split].
    + intros m r0 Hm. cbn [mk_all]. rewrite Hg by lia. cbn [lift_mk obind]. rewrite Hgs by lia. reflexivity.
    + cbn. congruence.
    + cbn [rotate_all]. eapply Does_bind; [exact Hc|]. intros [t' g'] Ht. cbn in Ht. subst t'.
      eapply Does_bind; [exact Hr|]. intros [ts' gs'] Hts. cbn in Hts. subst ts'. now apply Does_ret.
  - (* path *)
    intros sc busy w cmd r t r' u Hr _ IH Ht c Ha Hb. eapply roll_prompt; [exact Hr|now apply IH|].
    destruct Ha as (_ & Hi & _). now rewrite Hi.
  - (* value *)
    intros sc busy items buffer r v buffer' r1 u r2 Hs _ IH c Ha Hb.
    destruct (IH c Ha Hb) as (n & g & Hg & Hc).
    apply Does_S. unfold_next G E. eapply Does_bind with (Q := fun x => x = (v, supply items buffer')).
    { exists 0. eexists. split; [|reflexivity]. intros m _. now rewrite (Supplied_next _ _ _ _ _ _ Hs). }
    intros x ->. cbn beta iota. eapply Does_bind; [apply (Does_mk _ n); intros m Hm; now apply (Hg m (Some 1))|].
    intros g' ->. apply DoesG_slice in Hc. destruct Hc as (n' & [u' g'] & Hn & Hu). cbn in Hu. subst u'.
    exists (S n'), (u, GRWildLoop c (supply items buffer') (Some g')). split; [|reflexivity].
    intros [|m] Hm; [lia|]. unfold_next G E. rewrite Hn by lia. reflexivity.
  - intros sc busy items buffer r v buffer' r1 r2 u r3 Hs _ IH _ IHv c Ha Hb.
    destruct (IH c Ha Hb) as (n & g & Hg & n' & Hn).
    apply Does_S. unfold_next G E. eapply Does_bind with (Q := fun x => x = (v, supply items buffer')).
    { exists 0. eexists. split; [|reflexivity]. intros m _. now rewrite (Supplied_next _ _ _ _ _ _ Hs). }
    intros x ->. cbn beta iota. eapply Does_bind; [apply (Does_mk _ n); intros m Hm; now apply Hg|].
    intros g' ->. destruct (IHv c Ha Hb) as (n2 & a & H2 & HQ).
    exists (S (n' + n2)), a. split; [|assumption]. intros [|m] Hm; [lia|]. unfold_next G E. rewrite Hn by lia. apply H2. lia.
  - (* assignments *)
    intros sc busy r c _ _ nv toks Hp. inversion Hp; subst. now apply Does_ret.
  - intros sc busy tok tokens r bs r' Hna _ IH c Ha Hb nv toks Hp.
    assert (Hp' : exists toks', toks = tok :: toks' /\ Plain tokens toks').
    { inversion Hp; subst; [exfalso; apply Hna; unfold is_assign; eauto|eauto]. }
    destruct Hp' as (toks' & -> & Hp').
    assert (Hgo : Does (fun m r => obind G (assignments_loop G (next m) m c tokens nv r)
                (fun '(rest, vs) r => OVal (tok :: rest, vs) r)) r (fun x => fst x = tok :: toks' /\ snd x = dict_update nv bs) r').
    { eapply Does_bind; [apply (IH c Ha Hb nv toks' Hp')|]. intros [rest vs] [H1 H2]. cbn in H1, H2. subst. now apply Does_ret. }
    destruct tok; try exact Hgo. exfalso. apply Hna. unfold is_assign. eauto.
  - intros sc busy x v imm v0 tokens r bs r' Hv _ IH c Ha Hb nv toks Hp.
    assert (Hp' : Plain tokens toks).
    { inversion Hp; subst; [assumption|]. exfalso. match goal with H : ~ is_assign _ |- _ => apply H end. unfold is_assign; eauto. }
    cbn [assignments_loop]. unfold process_variable_assignment. destruct Ha as (A1 & A2 & A3 & A4). rewrite A4, Hv.
    cbn [obind]. apply (IH c (conj A1 (conj A2 (conj A3 A4))) Hb (dict_set x v0 nv) toks Hp').
  - intros sc busy x v ovr tokens r bs r' Ho _ IH c Ha Hb nv toks Hp.
    assert (Hp' : Plain tokens toks).
    { inversion Hp; subst; [assumption|]. exfalso. match goal with H : ~ is_assign _ |- _ => apply H end. unfold is_assign; eauto. }
    cbn [assignments_loop]. unfold process_variable_assignment.
    replace (if ovr then None else dict_get x (c_vars c)) with (@None command).
    2:{ destruct ovr; [reflexivity|]. destruct Ha as (_ & _ & _ & A4). rewrite A4. symmetry. now apply Ho. }
    cbn [obind]. apply (IH c Ha Hb (dict_set x v nv) toks Hp').
  - intros sc busy x s m ovr tokens r bs r' Ho _ IH c Ha Hb nv toks Hp.
    assert (Hp' : Plain tokens toks).
    { inversion Hp; subst; [assumption|]. exfalso. match goal with H : ~ is_assign _ |- _ => apply H end. unfold is_assign; eauto. }
    cbn [assignments_loop]. unfold process_variable_assignment.
    replace (if ovr then None else dict_get x (c_vars c)) with (@None command).
    2:{ destruct ovr; [reflexivity|]. destruct Ha as (_ & _ & _ & A4). rewrite A4. symmetry. now apply Ho. }
    cbn [obind]. apply (IH c Ha Hb (dict_set x (Lit s m) nv) toks Hp').
  - intros sc busy x v ovr t tokens r r1 bs r' Ho Hnl _ IHv _ IH c Ha Hb nv toks Hp.
    assert (Hp' : Plain tokens toks).
    { inversion Hp; subst; [assumption|]. exfalso. match goal with H : ~ is_assign _ |- _ => apply H end. unfold is_assign; eauto. }
    cbn [assignments_loop]. destruct (IHv c Ha Hb) as (n & g & Hg & Hc).
    eapply Does_bind with (Q := fun y => y = Lit t None).
    + unfold process_variable_assignment.
      replace (if ovr then None else dict_get x (c_vars c)) with (@None command).
      2:{ destruct ovr; [reflexivity|]. destruct Ha as (_ & _ & _ & A4). rewrite A4. symmetry. now apply Ho. }
      destruct v; [exfalso; eapply Hnl; reflexivity|..];
        (eapply Does_bind; [eapply first_of_Does; eassumption|]; intros y ->; now apply Does_ret).
    + intros y ->. apply (IH c Ha Hb (dict_set x (Lit t None) nv) toks Hp').
  - (* ends: enter *)
    intros sc busy cmd r r' Hm _ IH c Ha Hb.
    destruct (IH (with_method (chosen_method c cmd) c)) as (n & g & Hg & Hc).
    { now apply Agrees_enter. }
    { exact Hb. }
    { destruct (Agrees_enter c sc cmd Ha) as (Hx & _). now rewrite Hx. }
    exists n, g. split; [|assumption]. intros m Hn. rewrite mk_resolved, <- chosen_method_resolve. now apply Hg.
  - intros sc busy lo hi sep m r c Ha Hb Hm. exists 1, (GRVarStart c [] lo hi sep). split; [start Hm|].
    exists 1. intros [|k] Hk; [lia|]. reflexivity.
  - intros sc busy v q lo hi sep m r r' Hnl _ IH c Ha Hb Hm. exists 1, (GRVarStart c [(v, q)] lo hi sep).
    split; [start Hm|].
    apply Ends_S. unfold_next G E. destruct (single_wildcard [(v, q)]) as [w|] eqn:Hx.
    { exfalso. apply Hnl. destruct (single_wildcard_spec _ _ Hx) as (mw & vs & q' & Hq). unfold lone_wildcard. eauto. }
    destruct (IH c Ha Hb) as (n & g & Hg & Hc). eapply Ends_then; [eapply Does_mk; exact Hg|]. intros g' ->. exact Hc.
  - intros sc busy w mw vars q lo hi sep m r path r1 opts r2 n _ IHp Ho Hn _ IHb c Ha Hb Hm.
    exists 1, (GRVarStart c [(Wild w mw vars, q)] lo hi sep). split; [start Hm|].
    apply Ends_S. unfold_next G E. cbn [single_wildcard].
    eapply Ends_then with (Q := fun x => x = (opts, (Z.max 0 (Z.min (Z.min lo hi) n), Z.min (Z.max lo hi) n))).
    + apply Does_pep. unfold wildcard_to_variant. eapply Does_bind; [apply path_Does, (IHp c Ha Hb)|]. intros p ->.
      cbn zeta. destruct Ho as (vals & cmds & Hv & Hc & ->).
      rewrite (Listed_unique _ _ _ Hv (iterate_weighted_Listed (env_lookup E path))) in Hc.
      rewrite (parse_all_Forall2 E _ _ Hc). apply Does_ret. f_equal. subst n. unfold post_init_bounds.
      match goal with |- context [Z.leb ?a ?b] => destruct (Z.leb_spec a b) end; f_equal; lia.
    + intros x ->. cbn beta iota. destruct (IHb c Ha Hb Hm) as (k & g & Hg & Hc).
      specialize (Hg (S k) ltac:(lia)). cbn [with_mark] in Hg. rewrite mk_none in Hg by reflexivity.
      rewrite Hm in Hg. injection Hg as <-. exact Hc.
  - intros sc busy x d v r r' Href Hnb _ IH c Ha Hb Hm.
    destruct (IH {| c_method := c_method c; c_ignws := c_ignws c; c_vars := c_vars c;
                    c_unknown := c_unknown c; c_busy := x :: c_busy c |}) as (n & g & Hg & Hc).
    { now apply Agrees_busy. }
    { cbn. now rewrite Hb. }
    exists (S n), g. split; [|assumption]. intros [|k] Hk; [lia|]. cbn [with_mark].
    rewrite mk_none by reflexivity. rewrite (Refers_resolve _ _ _ _ (Agrees_Refers _ _ _ _ _ Ha Href)).
    unfold for_sampling_variable.
    destruct (str_mem x (c_busy c)) eqn:Hx; [apply str_mem_In in Hx; rewrite Hb in Hx; contradiction|].
    apply Hg. lia.
  - intros sc busy wrapper inner m r r' _ IHw Hst c Ha Hb Hm.
    exists 1, (GRWrapStart c wrapper inner). split; [start Hm|].
    destruct (IHw c Ha Hb) as (n1 & gw & Hgw & Hcw). destruct (Starts_mk _ _ _ Hst c Ha Hb) as (n2 & gi & Hgi).
    apply Ends_S. unfold_next G E. eapply Ends_then; [eapply Does_mk; exact Hgw|]. intros g ->.
    eapply Ends_then; [eapply Does_mk; exact Hgi|]. intros g ->. apply Ends_S. unfold_next G E.
    apply Ends_first. exact Hcw.
  - intros sc busy wrapper inner m r tw r1 r2 _ IHw _ IHi c Ha Hb Hm.
    exists 1, (GRWrapStart c wrapper inner). split; [start Hm|].
    destruct (IHw c Ha Hb) as (n1 & gw & Hgw & Hcw). destruct (IHi c Ha Hb) as (n2 & gi & Hgi & Hci).
    apply Ends_S. unfold_next G E. eapply Ends_then; [eapply Does_mk; exact Hgw|]. intros g ->.
    eapply Ends_then; [eapply Does_mk; exact Hgi|]. intros g ->. apply Ends_S. unfold_next G E.
    eapply Ends_then; [exact Hcw|]. intros [tw' gw'] Htw. cbn beta iota. apply Ends_first. exact Hci.
  - (* prompts without a text *)
    intros sc busy r c Ha Hb. exists 0, GDone. split; [reflexivity|]. exists 1. intros [|k] Hk; [lia|]. reflexivity.
  - intros sc busy cmd r Hn c Ha Hb. exists 0, GDone. split.
    + intros m _. unfold sample_prompts. destruct (truthy cmd) eqn:Ht; [|reflexivity].
      exfalso. apply Hn. now apply truthy_Nonempty.
    + exists 1. intros [|k] Hk; [lia|]. reflexivity.
  - intros sc busy w cmd r r' Hr _ IH c Ha Hb. eapply halt_prompt; [exact Hr|]. now apply IH.
Qed.

Lemma rolled_first : forall c p r u r', Rolled G E c p r u r' ->
  exists n g g', forall m, n <= m -> sample_prompts E m c p None = MOk g /\ next m g r = OVal (u, g') r'.
Proof.
  intros c p r u r' H. unfold Rolled in H.
  destruct (proj1 (proj2 (proj2 (proj2 rolls_run))) _ _ _ _ _ _ H c) as (n & g & Hg & n' & [u' g'] & Hn & Hu).
  { repeat split. }
  { reflexivity. }
  cbn in Hu. subst u'. exists (n + n'), g, g'. intros m Hm. split; [apply (Hg m None); lia|apply Hn; lia].
Qed.
End Roll.
