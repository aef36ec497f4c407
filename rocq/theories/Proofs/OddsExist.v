(** Every template that random sampling can always serve has chances. *)
From Coq Require Import String NArith ZArith QArith Qcanon Bool Arith List Permutation Lia.
From Verif.Model Require Import Str Float Utils Command Rng Values Context Sampler.
From Verif.Spec Require Import Text Comb Items StreamRng Lang Draws Seeds Sure Rolls Share Chance Odds.
From Verif.Proofs Require Import StrFacts UtilsFacts CommandFacts FloatFacts RngFacts Soundness EnumFacts ExhaustFacts RunFacts FuelFacts
  EndFacts DrawFacts ShareFacts RollFacts RollBack RollRun ChanceFacts ChanceRun OddsFacts OddsRun.
Import ListNotations.
Local Open Scope nat_scope.
Local Notation unit53 := Chance.unit53.

(** * Outcome lists that hold for all large enough sizes *)
Definition Has {A} (R : N -> list (A * Qc) -> Prop) (S : A -> Prop) : Prop :=
  exists M l, M <> 0%N /\ (forall M', N.divide M M' -> R M' l) /\ Forall (fun o => S (fst o)) l.
Lemma has_ret : forall {A} (R : N -> list (A * Qc) -> Prop) (S : A -> Prop) m l, m <> 0%N -> (forall M, N.divide m M -> R M l) ->
  Forall (fun o => S (fst o)) l -> Has R S.
Proof. intros A R S m l H1 H2 H3. now exists m, l. Qed.
Lemma has_bind : forall {A B} (R1 : N -> list (A * Qc) -> Prop) (S1 : A -> Prop) (R : N -> list (B * Qc) -> Prop) (S : B -> Prop),
  Has R1 S1 -> (forall l1, Forall (fun o => S1 (fst o)) l1 -> Has (fun M l => R1 M l1 -> R M l) S) -> Has R S.
Proof.
  intros A B R1 S1 R S (M1 & l1 & H1 & H2 & H3) H. destruct (H l1 H3) as (M2 & l & K1 & K2 & K3).
  exists (M1 * M2)%N, l. split; [lia|]. split; [|assumption]. intros M' Hd. apply K2.
  - eapply N.divide_trans; [|exact Hd]. exists M1. lia.
  - apply H2. eapply N.divide_trans; [|exact Hd]. exists M2. lia.
Qed.
Lemma has_sub : forall {A} (R R' : N -> list (A * Qc) -> Prop) (S S' : A -> Prop), Has R S -> (forall M l, R M l -> R' M l) ->
  (forall a, S a -> S' a) -> Has R' S'.
Proof.
  intros A R R' S S' (M & l & H1 & H2 & H3) HR HS. exists M, l. split; [assumption|]. split; [auto|].
  eapply Forall_impl; [|exact H3]. auto.
Qed.

Lemma forall_scaled : forall {A} (S : A -> Prop) q l, Forall (fun o => S (fst o)) l -> Forall (fun o => S (fst o)) (scaled q l).
Proof. intros A S q l H. unfold scaled. apply Forall_map. exact H. Qed.
Lemma forall_renamed : forall {A B} (f : A -> B) (S : A -> Prop) (S' : B -> Prop) (l : list (A * Qc)),
  (forall a, S a -> S' (f a)) -> Forall (fun o => S (fst o)) l -> Forall (fun o => S' (fst o)) (map (fun o => (f (fst o), snd o)) l).
Proof. intros A B f S S' l H Hl. apply Forall_map. eapply Forall_impl; [|exact Hl]. cbn. auto. Qed.
Lemma forall_both : forall {A} (S : A -> Prop) (S1 S2 : list A -> Prop) (l : list (A * Qc)) l',
  Forall (fun o => S (fst o)) l -> Forall (fun o => S1 (fst o)) l' -> (forall a b, S a -> S1 b -> S2 (a :: b)) ->
  Forall (fun o => S2 (fst o)) (both l l').
Proof.
  intros A S S1 S2 l l' H H' HS. apply Forall_forall. intros o Ho. unfold both in Ho. apply in_flat_map in Ho as (o1 & H1 & H2).
  apply in_map_iff in H2 as (o2 & <- & H2). cbn. rewrite Forall_forall in H, H'. auto.
Qed.
Lemma unsingle : forall (S : text -> Prop) (lp : list (list text * Qc)),
  Forall (fun o => exists t, fst o = [t] /\ S t) lp -> exists l, lp = single l /\ Forall (fun o => S (fst o)) l.
Proof.
  intros S lp H. induction H as [|[ts q] lp (t & Ht & HS) H (l & -> & IH)]; [exists []; split; [reflexivity|constructor]|].
  cbn in Ht. subst ts. exists ((t, q) :: l). split; [reflexivity|]. now constructor.
Qed.
Lemma renamed_by : forall {A B} (S : A -> B -> Prop) (f : A -> B) (l : list (A * Qc)), Forall (fun o => S (fst o) (f (fst o))) l ->
  Renamed S l (map (fun o => (f (fst o), snd o)) l).
Proof. intros A B S f l H. induction H as [|o l Ho H IH]; constructor; [split; [exact Ho|reflexivity]|exact IH]. Qed.

Lemma plain_exists : forall tokens, exists toks, Plain tokens toks.
Proof.
  induction tokens as [|tok tokens [toks IH]]; [exists []; constructor|].
  destruct (match tok with Assign _ _ _ _ => true | _ => false end) eqn:Hk.
  - destruct tok; try discriminate. exists toks. now constructor.
  - exists (tok :: toks). constructor; [|assumption]. intros (x & v & i & o & ->). discriminate.
Qed.

(** * Extended scopes *)
Fixpoint lastv (x : text) (bs : list (text * command)) : option command :=
  match bs with
  | [] => None
  | (y, v) :: bs' => match lastv x bs' with Some w => Some w | None => if text_dec y x then Some v else None end
  end.
Lemma lastv_spec : forall x bs, match lastv x bs with
  | Some v => exists pre post, bs = pre ++ (x, v) :: post /\ ~ In x (map fst post)
  | None => ~ In x (map fst bs)
  end.
Proof.
  intros x. induction bs as [|[y v] bs IH]; cbn [lastv]; [intros []|].
  destruct (lastv x bs) as [w|].
  - destruct IH as (pre & post & -> & H). exists ((y, v) :: pre), post. now split.
  - destruct (text_dec y x) as [->|Hn]; [exists [], bs; now split|]. intros [H|H]; [cbn in H; congruence|contradiction].
Qed.
Definition extend (sc : scope) (bs : list (text * command)) : scope :=
  {| sc_method := sc_method sc; sc_squash := sc_squash sc;
     sc_var := fun x => match lastv x bs with Some v => Some v | None => sc_var sc x end; sc_unknown := sc_unknown sc |}.
Lemma extend_Extended : forall sc bs, Extended sc bs (extend sc bs).
Proof.
  intros sc bs. split; [repeat split|]. intros x. cbn [extend sc_var]. pose proof (lastv_spec x bs) as H.
  destruct (lastv x bs) as [v|].
  - left. destruct H as (pre & post & H1 & H2). now exists pre, v, post.
  - right. now split.
Qed.

(** * Choosing *)
Lemma Without_perm : forall {A} (x : A) l l', Without x l l' -> Permutation l (x :: l').
Proof. intros A x l l' (pre & post & -> & _ & ->). symmetry. apply Permutation_middle. Qed.

Lemma choosing_exists : forall k vs ws, length vs = length ws -> Forall (fun w => 0 < w)%Qc ws -> k <= length vs ->
  exists l, Choosing ieee_round vs ws k l /\
    Forall (fun o => length (fst o) = k /\ exists rest, Permutation vs (fst o ++ rest)) l.
Proof.
  induction k as [|k IH]; intros vs ws Hl Hw Hk.
  { eexists. split; [apply Cho_none|]. constructor; [|constructor]. cbn. split; [reflexivity|]. now exists vs. }
  assert (Hw0 : Forall (fun w => 0 <= w)%Qc ws) by (eapply Forall_impl; [|exact Hw]; intros a Ha; now apply Qclt_le_weak).
  destruct (stretches_exist ws Hw0) as (cuts & HS & _).
  { apply Qcnot_le_lt. apply (float_sum_pos stream_rng); [|assumption]. intros ->. destruct vs; cbn in *; lia. }
  assert (HE : forall cs qs, length cs = length qs -> (forall v, In v cs -> In v vs) ->
    exists l, ChoosingEach ieee_round vs ws k cs qs l /\
      Forall (fun o => length (fst o) = S k /\ exists rest, Permutation vs (fst o ++ rest)) l).
  { induction cs as [|v cs IHc]; intros [|q qs] Hlen Hin; try discriminate.
    - eexists. split; [apply ChE_nil|constructor].
    - destruct (IHc qs) as (l' & H1 & H2); [now injection Hlen|intros; apply Hin; now right|].
      assert (Hv : In v vs) by (apply Hin; now left).
      destruct (first_at vs v Hv) as (j & Hj & Hjl).
      destruct (nth_error ws j) as [w|] eqn:Hwj; [|apply nth_error_None in Hwj; lia].
      pose proof (remove_first_Without _ cmd_eqb_spec _ _ Hv) as W1.
      pose proof (remove_first_Without _ Qc_eq_bool_spec _ _ (nth_error_In _ _ Hwj)) as W2.
      pose proof (Without_perm _ _ _ W1) as P1. pose proof (Without_perm _ _ _ W2) as P2.
      destruct (IH (remove_first cmd_eqb v vs) (remove_first Qc_eq_bool w ws)) as (l & L1 & L2).
      { pose proof (Permutation_length P1). pose proof (Permutation_length P2). cbn in *. lia. }
      { apply Forall_forall. intros x Hx. rewrite Forall_forall in Hw. apply Hw. eapply Permutation_in; [symmetry; exact P2|now right]. }
      { pose proof (Permutation_length P1). cbn in *. lia. }
      eexists. split; [eapply ChE_cons; [exact Hj|exact Hwj|exact W1|exact W2|exact L1|exact H1]|].
      apply Forall_app. split; [|exact H2].
      apply (forall_scaled (fun sel => length sel = S k /\ exists rest, Permutation vs (sel ++ rest))). apply Forall_map. eapply Forall_impl; [|exact L2].
      intros [sel q'] [E1 (rest & E2)]. cbn in *. split; [lia|]. exists rest.
      eapply Permutation_trans; [exact P1|]. now constructor. }
  destruct (HE vs (shares cuts)) as (l & H1 & H2).
  { rewrite shares_length, (st_length _ _ _ HS). cbn. assumption. }
  { auto. }
  exists l. split; [|exact H2]. eapply Cho_more; eassumption.
Qed.

Lemma choosing_some_exists : forall vs ws q ks, length vs = length ws -> Forall (fun w => 0 < w)%Qc ws ->
  Forall (fun k => k <= length vs) ks ->
  exists l, ChoosingSome ieee_round vs ws q ks l /\
    Forall (fun o => In (length (fst o)) ks /\ exists rest, Permutation vs (fst o ++ rest)) l.
Proof.
  intros vs ws q ks Hl Hw Hk. induction Hk as [|k ks Hk Hks (l' & H1 & H2)].
  { eexists. split; [apply ChS_nil|constructor]. }
  destruct (choosing_exists k vs ws Hl Hw Hk) as (l & L1 & L2). eexists. split; [apply ChS_cons; [exact L1|exact H1]|].
  apply Forall_app. split.
  - apply (forall_scaled (fun sel => In (length sel) (k :: ks) /\ exists rest, Permutation vs (sel ++ rest))).
    eapply Forall_impl; [|exact L2]. intros o [E1 E2]. split; [now left|exact E2].
  - eapply Forall_impl; [|exact H2]. intros o [E1 E2]. split; [now right|exact E2].
Qed.

Lemma all_equal_dec : forall ws : list Qc, {AllEqual ws} + {~ AllEqual ws}.
Proof.
  intros [|w ws]; [left; intros a b []|].
  destruct (Forall_dec (fun x => x = w) (fun x => Qc_eq_dec x w) ws) as [H|H].
  - left. rewrite Forall_forall in H. intros a b [<-|Ha] [<-|Hb]; auto; [symmetry; auto|rewrite (H a Ha); symmetry; auto].
  - right. intros K. apply H. apply Forall_forall. intros x Hx. apply K; [now right|now left].
Qed.

(** A weight of zero has no share. *)
Lemma zero_share : forall ws cuts i, Forall (fun w => 0 <= w)%Qc ws -> Stretches ieee_round ws cuts ->
  nth_error ws i = Some 0%Qc -> nth_error (shares cuts) i = Some 0%Qc.
Proof.
  intros ws cuts i Hw HS Hi.
  assert (Hlt : i < length ws) by (apply nth_error_Some; congruence).
  assert (Heq : nth i cuts 0%N = nth (S i) cuts 0%N).
  { destruct (N.eq_dec (nth i cuts 0%N) (nth (S i) cuts 0%N)) as [|Hne]; [assumption|exfalso].
    pose proof (st_ordered _ _ _ HS i Hlt) as Ho.
    destruct (st_points _ _ _ HS i (nth i cuts 0%N) Hlt) as [P1 P2]; [lia|].
    assert (Hf : firstn (S i) ws = firstn i ws ++ [0%Qc]).
    { clear -Hi. revert i Hi. induction ws as [|w ws IH]; intros [|i] Hi; try discriminate.
      - injection Hi as ->. reflexivity.
      - cbn [firstn app]. f_equal. apply IH. exact Hi. }
    rewrite Hf in P2. rewrite (float_sum_snoc stream_rng) in P2.
    assert (H0 : fl stream_rng 0%Qc = 0%Qc) by (vm_compute; reflexivity).
    rewrite H0, Qcplus_0_r in P2.
    pose proof (round_id (fl stream_rng) (fl_ok stream_rng) _ (float_sum_double stream_rng (firstn i ws))) as Hd.
    rewrite Hd in P2. exact (Qclt_not_le _ _ P2 P1). }
  pose proof (st_length _ _ _ HS) as Hl. clear -Heq Hl Hlt. revert i Hlt Heq. remember (length ws) as n. clear Heqn ws.
  revert n Hl. induction cuts as [|a cuts IH]; intros n Hl i Hlt Heq; [discriminate|].
  destruct cuts as [|b cuts]; [cbn in Hl; lia|].
  change (shares (a :: b :: cuts)) with (Q2Qc ((Z.of_N b - Z.of_N a) # 9007199254740992) :: shares (b :: cuts)).
  destruct i as [|i].
  - cbn in Heq |- *. subst b. rewrite Z.sub_diag. f_equal. apply Qc_is_canon. reflexivity.
  - cbn [nth_error]. destruct n as [|n]; [lia|]. apply (IH n); [cbn in *; lia|lia|exact Heq].
Qed.

Section Exist.
Variable E : env.
Hypothesis Hvals : AllRandomValues E.
Notation AllRand := (AllRandom E).
Notation RandScope := (AllRandomScope E).
Let HOdds sc busy cmd := Has (fun M => Odds M ieee_round E sc busy cmd) (Produces E sc cmd).
Let HBody sc busy cmd := Has (fun M => OddsBody M ieee_round E sc busy cmd) (Body E sc cmd).

(** * Lists of parts and of jobs *)
Lemma has_all : forall sc busy cs, (forall c, In c cs -> HOdds sc busy c) ->
  Has (fun M => OddsAll M ieee_round E sc busy cs) (ProducesAll E sc cs).
Proof.
  intros sc busy. induction cs as [|c cs IH]; intros H.
  - eapply (has_ret _ _ 1%N); [lia|intros; constructor|]. constructor; [constructor|constructor].
  - apply (has_bind _ _ _ _ (H c (or_introl eq_refl))). intros l Hl.
    eapply has_bind; [apply IH; intros c' Hc; apply H; now right|]. intros l' Hl'.
    apply (has_ret _ _ 1%N (both l l')); [lia|intros M _ H1 H2; now constructor|].
    eapply forall_both; [exact Hl|exact Hl'|]. intros a b Ha Hb. now constructor.
Qed.

Lemma has_mix : forall js (S : list text -> Prop), (forall j q, In (j, q) js -> q = 0%Qc \/ Has (fun M => OddsJob M ieee_round E j) S) ->
  Has (fun M => OddsMix M ieee_round E js) S.
Proof.
  intros js S. induction js as [|[j q] js IH]; intros H.
  - apply (has_ret _ _ 1%N []); [lia|intros; constructor|constructor].
  - eapply has_bind; [apply IH; intros j' q' Hj; apply H; now right|]. intros l' Hl'.
    destruct (H j q (or_introl eq_refl)) as [->|Hj].
    + apply (has_ret _ _ 1%N l'); [lia|intros M _ H2; now apply OdM_never|assumption].
    + apply (has_bind _ _ _ _ Hj). intros l Hl.
      apply (has_ret _ _ 1%N (scaled q l ++ l')); [lia|intros M _ H1 H2; now apply OdM_cons|].
      apply Forall_app. split; [now apply forall_scaled|assumption].
Qed.

Lemma has_path : forall sc busy w c, Reads E w c -> HOdds sc busy c ->
  Has (fun M => OddsPath M ieee_round E sc busy w) (Path E sc w).
Proof.
  intros sc busy w c Hr H. apply (has_bind _ _ _ _ H). intros l Hl.
  set (f := fun t => if sc_squash sc then squash_whitespace t else t).
  assert (Hf : forall t, Tidy (sc_squash sc) t (f t)).
  { intros t. unfold f. destruct (tidy_exists (sc_squash sc) t) as [u Hu]. now rewrite <- (Tidy_fun _ _ _ Hu). }
  apply (has_ret _ _ 1%N (map (fun o => (f (fst o), snd o)) l)); [lia| |].
  - intros M _ Ho. eapply OdP; [exact Hr|exact Ho|]. apply renamed_by, Forall_forall. intros o _. apply Hf.
  - eapply forall_renamed; [|exact Hl]. intros a Ha. econstructor; [exact Hr|exact Ha|apply Hf].
Qed.

Lemma has_single : forall {R : N -> list (text * Qc) -> Prop} {S : text -> Prop} (J : N -> list (list text * Qc) -> Prop) (S' : list text -> Prop),
  Has R S -> (forall M l, R M l -> J M (single l)) -> (forall t, S t -> S' [t]) -> Has J S'.
Proof.
  intros R S J S' H HJ HS. apply (has_bind _ _ _ _ H). intros l Hl.
  apply (has_ret _ _ 1%N (single l)); [lia|intros M _ Hr; now apply HJ|]. unfold single. apply Forall_map.
  eapply Forall_impl; [|exact Hl]. cbn. auto.
Qed.

(** * Assignments *)
Inductive BindsTo (sc : scope) : list command -> list (text * command) -> Prop :=
| BT_nil : BindsTo sc [] []
| BT_plain : forall tok toks bs, ~ is_assign tok -> BindsTo sc toks bs -> BindsTo sc (tok :: toks) bs
| BT_some : forall x v imm ovr w toks bs, (forall ts, LastAssign x ts v imm ovr -> Bound E sc ts x (Some w)) -> AllRand w ->
    BindsTo sc toks bs -> BindsTo sc (Assign x v imm ovr :: toks) ((x, w) :: bs).

Lemma binds_last : forall sc toks bs, BindsTo sc toks bs -> forall x, match lastv x bs with
  | Some w => exists v imm ovr, LastAssign x toks v imm ovr /\ forall ts, LastAssign x ts v imm ovr -> Bound E sc ts x (Some w)
  | None => NoAssign x toks
  end.
Proof.
  intros sc toks bs H x. induction H as [|tok toks bs Hn H IH|y v imm ovr w toks bs Hb Hr H IH]; cbn [lastv].
  - intros v i o [].
  - destruct (lastv x bs) as [w|].
    + destruct IH as (v & imm & ovr & (pre & post & -> & Hl) & Hb). exists v, imm, ovr. split; [|exact Hb]. now exists (tok :: pre), post.
    + intros v i o [K|K]; [|exact (IH _ _ _ K)]. apply Hn. subst tok. unfold is_assign. eauto.
  - destruct (lastv x bs) as [w'|].
    + destruct IH as (v' & imm' & ovr' & (pre & post & -> & Hl) & Hb'). exists v', imm', ovr'. split; [|exact Hb'].
      now exists (Assign y v imm ovr :: pre), post.
    + destruct (text_dec y x) as [->|Hne].
      * exists v, imm, ovr. split; [|exact Hb]. now exists [], toks.
      * intros v' i o [K|K]; [congruence|exact (IH _ _ _ K)].
Qed.
Lemma binds_bound : forall sc toks bs, BindsTo sc toks bs -> forall x, Bound E sc toks x (sc_var (extend sc bs) x).
Proof.
  intros sc toks bs H x. pose proof (binds_last sc toks bs H x) as K. cbn [extend sc_var]. destruct (lastv x bs) as [w|].
  - destruct K as (v & imm & ovr & HL & Hb). auto.
  - now apply Bound_outer.
Qed.
Lemma binds_random : forall sc toks bs, BindsTo sc toks bs -> Forall (fun kv => AllRand (snd kv)) bs.
Proof. intros sc toks bs H. induction H; try constructor; auto. Qed.

Lemma has_binds : forall sc busy toks, RandScope sc -> Forall AllRand toks ->
  (forall x v ovr, In (Assign x v true ovr) toks -> (ovr = false -> sc_var sc x = None) -> HOdds sc busy v) ->
  Has (fun M => OddsBinds M ieee_round E sc busy toks) (BindsTo sc toks).
Proof.
  intros sc busy toks Hsc Hr. induction Hr as [|tok toks Ht Hr IH]; intros H.
  { apply (has_ret _ _ 1%N [([], 1%Qc)]); [lia|intros; constructor|]. constructor; constructor. }
  assert (IH' : Has (fun M => OddsBinds M ieee_round E sc busy toks) (BindsTo sc toks)) 
    by (apply IH; intros x v ovr Hi Hn; apply (H x v ovr); [now right|exact Hn]).
  clear IH.
  assert (Hone : forall x v imm ovr w, tok = Assign x v imm ovr -> AllRand w ->
    (forall ts, LastAssign x ts v imm ovr -> Bound E sc ts x (Some w)) ->
    (forall M l, OddsBinds M ieee_round E sc busy toks l -> OddsBinds M ieee_round E sc busy (tok :: toks) (both [((x, w), 1%Qc)] l)) ->
    Has (fun M => OddsBinds M ieee_round E sc busy (tok :: toks)) (BindsTo sc (tok :: toks))).
  { intros x v imm ovr w -> Hw Hb Ho. apply (has_bind _ _ _ _ IH'). intros l Hl.
    apply (has_ret _ _ 1%N (both [((x, w), 1%Qc)] l)); [lia|intros M _ Hm; now apply Ho|].
    apply (forall_both (fun a => a = (x, w)) (BindsTo sc toks)); [now constructor|exact Hl|].
    intros a b -> Hb'. now constructor. }
  destruct (match tok with Assign _ _ _ _ => true | _ => false end) eqn:Hk.
  2: { assert (Hn : ~ is_assign tok) by (intros (x & v & i & o & ->); discriminate).
       apply (has_bind _ _ _ _ IH'). intros l Hl. apply (has_ret _ _ 1%N l); [lia|intros M _ Hm; now apply OdB_plain|].
       eapply Forall_impl; [|exact Hl]. intros a Ha. now constructor. }
  destruct tok as [| | | |x v imm ovr| |]; try discriminate. clear Hk. inversion Ht as [| | | | |? ? ? ? Hv| |]; subst.
  assert (Hc : (exists v0, ovr = false /\ sc_var sc x = Some v0) \/ (ovr = false -> sc_var sc x = None)).
  { destruct ovr; [right; discriminate|]. destruct (sc_var sc x) as [v0|]; [left; eauto|right; reflexivity]. }
  destruct Hc as [(v0 & -> & Hx)|Hov].
  { apply (Hone x v imm false v0); [reflexivity|exact (proj1 (proj2 Hsc) _ _ Hx)| |].
    - intros ts HL. eapply Bound_kept; eassumption.
    - intros M l Ho. now apply OdB_kept. }
  destruct imm.
  2: apply (Hone x v false ovr v eq_refl Hv); [intros ts HL; eapply Bound_lazy; eassumption|intros M l Ho; now apply OdB_lazy].
  destruct (match v with Lit _ _ => true | _ => false end) eqn:Hk.
  { destruct v as [s m| | | | | |]; try discriminate. apply (Hone x (Lit s m) true ovr (Lit s m) eq_refl Hv).
    - intros ts HL. eapply Bound_literal; eassumption.
    - intros M l Ho. now apply OdB_literal. }
  assert (Hnl : forall s m, v <> Lit s m) by (intros s m ->; discriminate).
  pose proof (H x v ovr (or_introl eq_refl) Hov) as Hv'.
  apply (has_bind _ _ _ _ Hv'). intros l Hl. apply (has_bind _ _ _ _ IH'). intros l' Hl'.
  apply (has_ret _ _ 1%N (both (map (fun o => ((x, Lit (fst o) None), snd o)) l) l')); [lia|intros M _ Hm Hm'; now apply OdB_now|].
  apply (forall_both (fun a => exists t, a = (x, Lit t None) /\ Produces E sc v t) (BindsTo sc toks)); [|exact Hl'|].
  - apply Forall_map. eapply Forall_impl; [|exact Hl]. cbn. eauto.
  - intros a b (t & -> & Hp) Hb. constructor; [intros ts HL; eapply Bound_immediate; eassumption|constructor; discriminate|exact Hb].
Qed.

(** * Wildcards *)
Lemma reads_random : forall w m vars c, AllRand (Wild w m vars) -> Reads E w c -> AllRand c.
Proof.
  intros w m vars c H Hr. inversion H; subst; inversion Hr; subst; auto.
Qed.

Lemma has_wild_job : forall sc sc' busy w vars path (meaning : text -> command), RandScope sc -> RandScope sc' -> Extended sc vars sc' ->
  Path E sc w path ->
  (env_lookup E path <> [] -> forall v q, In (v, q) (pairs (env_lookup E path)) -> (0 <= q)%Qc) ->
  (env_lookup E path <> [] -> exists v, Drawable Random (env_lookup E path) v) ->
  (forall v, Drawable Random (env_lookup E path) v -> Reads E (WStr v) (meaning v)) ->
  (forall v, Drawable Random (env_lookup E path) v -> HOdds sc' busy (meaning v)) ->
  (forall cmd, env_lookup E path = [] -> w = WCmd cmd -> Reads E w cmd /\ HOdds sc' busy cmd) ->
  Has (fun M => OddsJob M ieee_round E (JWild sc' busy w path)) (fun ts => exists t, ts = [t] /\ forall m, Body E sc (Wild w m vars) t).
Proof.
  intros sc sc' busy w vars path meaning Hsc Hsc' Hx Hp Hq Hd Hm Ho Hmiss.
  assert (Hsq : sc_squash sc' = sc_squash sc) by (destruct Hx as [(_ & K & _) _]; exact K).
  destruct (env_lookup E path) as [|it items] eqn:Hit.
  - destruct w as [name|cmd].
    + apply (has_ret _ _ 1%N [([to_wildcard (env_wrap E) name], 1%Qc)]); [lia| |].
      * intros M _. apply OdJ_missing; [assumption|apply to_wildcard_Wrapped].
      * constructor; [|constructor]. eexists. split; [reflexivity|]. intros m.
        eapply B_missing; [exact Hp|exact Hit|exact Hx|intros s [= <-]; reflexivity|discriminate|apply to_wildcard_Wrapped].
    + destruct (Hmiss cmd eq_refl eq_refl) as [Hr Hc].
      apply (has_bind _ _ _ _ (has_path sc' busy (WCmd cmd) cmd Hr Hc)). intros l Hl.
      apply (has_ret _ _ 1%N (single (map (fun o => (to_wildcard (env_wrap E) (fst o), snd o)) l))); [lia| |].
      * intros M _ Hpo. eapply OdJ_missing_command; [assumption|exact Hpo|]. apply renamed_by, Forall_forall. intros o _. apply to_wildcard_Wrapped.
      * unfold single. apply Forall_map, Forall_map. eapply Forall_impl; [|exact Hl]. intros o Hpo. cbn. eexists. split; [reflexivity|].
        intros m. eapply B_missing; [exact Hp|exact Hit|exact Hx|discriminate|intros c [= <-]; exact Hpo|apply to_wildcard_Wrapped].
  - assert (Hne : it :: items <> []) by discriminate. specialize (Hq Hne). specialize (Hd Hne).
    rewrite <- Hit in Hq, Hd, Hm, Ho, Hne. clear Hit it items Hmiss. set (items := env_lookup E path) in *.
    assert (Hjob : forall i, Drawable Random items (w_content i) ->
      Has (fun M => OddsJob M ieee_round E (JPath sc' busy (WStr (w_content i))))
        (fun ts => exists t, ts = [t] /\ forall m, Body E sc (Wild w m vars) t)).
    { intros i Hi. eapply has_single; [apply (has_path sc' busy _ _ (Hm _ Hi) (Ho _ Hi))|intros M l; apply OdJ_path|].
      intros t Ht. exists t. split; [reflexivity|]. intros m. inversion Ht as [? ? c0 t0 u0 R1 R2 R3]; subst.
      eapply B_wild; [exact Hp|exact Hne|exact Hx| |exact R1|exact R2|].
      - rewrite (proj1 Hsc). exact Hi.
      - rewrite <- Hsq. exact R3. }
    destruct (all_equal_dec (map snd (pairs items))) as [He|He].
    + assert (Hmix : Has (fun M => OddsMix M ieee_round E (map (fun i => (JPath sc' busy (WStr (w_content i)), one_in (length items))) items))
        (fun ts => exists t, ts = [t] /\ forall m, Body E sc (Wild w m vars) t)).
      { apply has_mix. intros j q Hj. right. apply in_map_iff in Hj as (i & [= <- <-] & Hi). apply Hjob.
        exists (match w_weight_opt i with Some w => w | None => 1%Qc end). split.
        - unfold pairs. apply in_map_iff. exists i. now split.
        - intros (t1 & q1 & t2 & q2 & I1 & I2 & Hn). exfalso. apply Hn. apply He; apply in_map_iff.
          + now exists (t1, q1).
          + now exists (t2, q2). }
      apply (has_bind _ _ _ _ Hmix). intros l Hl.
      apply (has_ret _ _ (N.of_nat (length items)) l); [destruct items; [congruence|discriminate]| |assumption].
      intros M HM Hmx. eapply OdJ_even; [reflexivity|exact Hne|exact He|exact HM|exact Hmx].
    + assert (Hw0 : Forall (fun w => 0 <= w)%Qc (map snd (pairs items))).
      { apply Forall_map, Forall_forall. intros [v q] Hv. eapply Hq, Hv. }
      assert (Hdiff : exists t1 q1 t2 q2, In (t1, q1) (pairs items) /\ In (t2, q2) (pairs items) /\ q1 <> q2).
      { clear -He. destruct (pairs items) as [|[t1 q1] l]; [exfalso; apply He; intros a b []|].
        destruct (Forall_dec (fun o => snd o = q1) (fun o => Qc_eq_dec (snd o) q1) l) as [H|H].
        - exfalso. apply He. rewrite Forall_forall in H. intros a b Ha Hb.
          assert (K : forall a, In a (map snd ((t1, q1) :: l)) -> a = q1).
          { intros a' [<-|Ha']; [reflexivity|]. apply in_map_iff in Ha' as (o & <- & Hin). auto. }
          rewrite (K a Ha). symmetry. auto.
        - apply (neg_Forall_Exists_neg) in H; [|intros o; apply Qc_eq_dec]. apply Exists_exists in H as ([t2 q2] & Hin & Hne).
          exists t2, q2, t1, q1. split; [now right|]. split; [now left|exact Hne]. }
      destruct (stretches_exist (map snd (pairs items)) Hw0) as (cuts & HS & _).
      { apply Qcnot_le_lt. intros Hle. apply (float_sum_zero stream_rng) in Hle; [|assumption].
        destruct Hd as (v & q & Hin & Hpos). rewrite Forall_forall in Hle. specialize (Hpos Hdiff).
        rewrite (Hle q) in Hpos by (apply in_map_iff; now exists (v, q)). discriminate. }
      assert (Hmix : Has (fun M => OddsMix M ieee_round E (combine (map (fun i => JPath sc' busy (WStr (w_content i))) items) (shares cuts)))
        (fun ts => exists t, ts = [t] /\ forall m, Body E sc (Wild w m vars) t)).
      { apply has_mix. intros j q Hj. apply In_nth_error in Hj as [k Hk].
        assert (Hk2 : nth_error (map (fun i => JPath sc' busy (WStr (w_content i))) items) k = Some j /\ nth_error (shares cuts) k = Some q).
        { clear -Hk. revert k Hk. generalize (map (fun i => JPath sc' busy (WStr (w_content i))) items) (shares cuts).
          induction l as [|a l IH]; intros [|b qs] [|k] Hk; try discriminate.
          - injection Hk as -> ->. now split.
          - exact (IH qs k Hk). }
        destruct Hk2 as [K1 K2]. rewrite nth_error_map in K1. destruct (nth_error items k) as [i|] eqn:Hi; [|discriminate].
        injection K1 as <-. set (wt := match w_weight_opt i with Some w => w | None => 1%Qc end).
        assert (Hin : nth_error (pairs items) k = Some (w_content i, wt)) by (unfold pairs; rewrite nth_error_map, Hi; reflexivity).
        destruct (Qc_eq_dec wt 0%Qc) as [Hz|Hz].
        - left. assert (nth_error (shares cuts) k = Some 0%Qc).
          { eapply zero_share; [exact Hw0|exact HS|]. rewrite nth_error_map, Hin. cbn. now rewrite Hz. }
          congruence.
        - right. apply Hjob. exists wt. split; [eapply nth_error_In, Hin|]. intros _.
          apply nth_error_In in Hin. pose proof (Hq _ _ Hin) as Hq0.
          apply Qcle_lt_or_eq in Hq0 as [Hq0|Hq0]; [exact Hq0|congruence]. }
      apply (has_bind _ _ _ _ Hmix). intros l Hl.
      apply (has_ret _ _ 1%N l); [lia| |assumption].
      intros M HM Hmx. eapply OdJ_weighted; [reflexivity|exact He|exact Hw0|exact HS|exact Hmx].
Qed.

(** * Everything *)
Lemma sure_odds :
  (forall sc busy cmd, Sure E sc busy cmd -> RandScope sc -> AllRand cmd -> HOdds sc busy cmd) /\
  (forall sc busy cmd, SureBody E sc busy cmd -> RandScope sc -> AllRand cmd -> HBody sc busy cmd).
Proof.
  apply Sure_mutind.
  - intros sc busy cmd _ IH Hsc Hc. pose proof (RandScope_enter E sc cmd Hsc Hc) as He.
    eapply has_sub; [exact (IH He Hc)| |].
    + intros M l H. apply Od_enter; [exact (proj1 He)|exact H].
    + intros t Ht. now constructor.
  - intros sc busy s m _ Hsc Hc. apply (has_ret _ _ 1%N [(s, 1%Qc)]); [lia|intros; constructor|]. constructor; constructor.
  - (* sequences *)
    intros sc busy tokens sep m _ _ IHa _ IHp Hsc Hc. inversion Hc as [|? ? ? Hm Hall| | | | | |]; subst.
    destruct (plain_exists tokens) as [toks Hpl].
    assert (Hb : Has (fun M => OddsBinds M ieee_round E sc busy tokens) (BindsTo sc tokens)).
    { apply has_binds; [assumption|assumption|]. intros x v ovr Hi Hn. apply (IHa x v ovr Hi Hn Hsc).
      rewrite Forall_forall in Hall. specialize (Hall _ Hi). now inversion Hall. }
    apply (has_bind _ _ _ _ Hb). intros lb Hlb.
    set (js := map (fun o => (JAll (extend sc (fst o)) busy toks, snd o)) lb).
    assert (Hmix : Has (fun M => OddsMix M ieee_round E js) (fun parts => forall t, Glued sep parts t -> Body E sc (Seq tokens sep m) t)).
    { apply has_mix. intros j q Hj. right. unfold js in Hj. apply in_map_iff in Hj as ([bs q'] & [= <- <-] & Hin).
      rewrite Forall_forall in Hlb. pose proof (Hlb _ Hin) as Hbs. cbn [fst] in *.
      pose proof (binds_bound _ _ _ Hbs) as Hbd. pose proof (extend_Extended sc bs) as Hx.
      assert (Hsc' : RandScope (extend sc bs)) by (eapply RandScope_Extended; [exact Hsc|eapply binds_random; exact Hbs|exact Hx]).
      eapply has_sub; [apply (has_all (extend sc bs) busy toks)|intros M l; apply OdJ_all|].
      - intros c Hin'. apply (IHp (extend sc bs) toks c (proj1 Hx) Hbd Hpl Hin' Hsc').
        pose proof (Plain_Forall _ _ _ Hpl Hall) as Hall'. rewrite Forall_forall in Hall'. now apply Hall'.
      - intros parts Hparts t Ht. eapply B_seq; [exact (proj1 Hx)|exact Hbd|exact Hpl|exact Hparts| |auto].
        rewrite (proj1 Hsc). discriminate. }
    apply (has_bind _ _ _ _ Hmix). intros lp Hlp.
    apply (has_ret _ _ 1%N (map (fun o => (joined (fst o) sep, snd o)) lp)); [lia| |].
    + intros M _ Hmx Hbo. eapply Od_seq; [exact Hbo|exact Hpl| |exact Hmx|apply glued_map].
      unfold js. apply (renamed_by _ (fun bs => JAll (extend sc bs) busy toks)). apply Forall_forall. intros o _. eexists. split; [apply extend_Extended|reflexivity].
    + apply Forall_map. eapply Forall_impl; [|exact Hlp]. intros o H. cbn [fst]. apply H, joined_Glued.
  - (* choices *)
    intros sc busy opts lo hi sep m Hm Hnl Hne Hd _ IH Hsc Hc. inversion Hc as [| |? ? ? ? ? Hm' Hall| | | | |]; subst.
    rewrite Forall_forall in Hall.
    destruct opts as [|[v q] [|o opts]]; [congruence| |].
    + eapply has_sub; [apply (IH v q (or_introl eq_refl) Hsc), (Hall _ (or_introl eq_refl))| |].
      * intros M l H. now apply Od_single.
      * intros t Ht. now apply B_single.
    + destruct Hd as [Hd|[Hb Hw]]; [discriminate|]. set (os := (v, q) :: o :: opts) in *.
      assert (Hlen : 2 <= length os) by (cbn; lia). clearbody os. clear v q o opts.
      set (lo' := clamp (length os) (Z.min lo hi)). set (hi' := Z.min (Z.max lo hi) (Z.of_nat (length os))).
      assert (Hd : (0 <= lo' <= hi')%Z) by (unfold lo', hi', clamp; lia).
      set (n := Z.to_nat (hi' - lo' + 1)).
      destruct (choosing_some_exists (map fst os) (map snd os) (one_in n) (seq (Z.to_nat lo') n)) as (lsel & HC & Hsel).
      { now rewrite !map_length. }
      { apply Forall_map, Forall_forall. intros [v q] Hin. eapply Hw, Hin. }
      { apply Forall_forall. intros k Hk. apply in_seq in Hk. rewrite map_length. unfold n, hi' in *. lia. }
      assert (Hmix : Has (fun M => OddsMix M ieee_round E (map (fun o => (JAll sc busy (fst o), snd o)) lsel))
        (fun parts => forall t, Glued sep parts t -> Body E sc (Var os lo hi sep m) t)).
      { apply has_mix. intros j q Hj. right. apply in_map_iff in Hj as ([sel q'] & [= <- <-] & Hin).
        rewrite Forall_forall in Hsel. destruct (Hsel _ Hin) as [Hk (rest & Hperm)]. cbn [fst] in *.
        assert (Hsub : forall c, In c sel -> exists q, In (c, q) os).
        { intros c Hc'. assert (K : In c (map fst os)) by (eapply Permutation_in; [symmetry; exact Hperm|apply in_or_app; now left]).
          apply in_map_iff in K as ([c' q0] & <- & K). eauto. }
        eapply has_sub; [apply (has_all sc busy sel)|intros M l; apply OdJ_all|].
        - intros c Hc'. destruct (Hsub c Hc') as [q0 Hq0]. apply (IH c q0 Hq0 Hsc), (Hall _ Hq0).
        - intros parts Hparts t Ht. apply in_seq in Hk.
          eapply B_choice; [assumption|assumption|intros _; lia|exact Hperm| | |exact Hparts| |exact Ht].
          + unfold n, lo', hi', clamp in *. lia.
          + intros _ v sel' ->. destruct (Hsub v (or_introl eq_refl)) as [q0 Hq0]. eauto.
          + rewrite Hm. discriminate. }
      apply (has_bind _ _ _ _ Hmix). intros lp Hlp.
      apply (has_ret _ _ (N.of_nat n) (map (fun o => (joined (fst o) sep, snd o)) lp)); [unfold n; lia| |].
      * intros M HM Hmx. eapply (Od_choice M ieee_round E sc busy os lo hi sep m lo' n); [exact Hlen|reflexivity| | |exact HM|exact HC|exact Hmx|apply glued_map].
        -- unfold n. fold hi'. lia.
        -- unfold n. lia.
      * apply Forall_map. eapply Forall_impl; [|exact Hlp]. intros o H. cbn [fst]. apply H, joined_Glued.
  - intros sc busy opts lo hi sep m k sel Hm _ _ _ _ _ _ _ Hsc. destruct Hsc as [Hsc _]. congruence.
  - (* lone wildcards *)
    intros sc busy w mw vars q lo hi sep m pc opts _ Hr _ IHp Hopts _ IHb Hsc Hc.
    inversion Hc as [| |? ? ? ? ? Hm' Hall| | | | |]; subst. inversion Hall as [|? ? [Hw _] _]; subst. cbn [fst] in Hw.
    apply (has_bind _ _ _ _ (has_path sc busy w pc Hr (IHp Hsc (reads_random _ _ _ _ Hw Hr)))). intros ln Hln.
    set (job := fun path => let n := Z.of_nat (length (env_lookup E path)) in
      JBody sc busy (Var (opts path) (Z.max 0 (Z.min (Z.min lo hi) n)) (Z.min (Z.max lo hi) n) sep None)).
    assert (Hmix : Has (fun M => OddsMix M ieee_round E (map (fun o => (job (fst o), snd o)) ln))
      (fun ts => exists t, ts = [t] /\ Body E sc (Var [(Wild w mw vars, q)] lo hi sep m) t)).
    { apply has_mix. intros j q' Hj. right. apply in_map_iff in Hj as ([path q0] & [= <- <-] & Hin).
      rewrite Forall_forall in Hln. pose proof (Hln _ Hin) as Hp. cbn [fst] in *. unfold job. cbv zeta.
      eapply has_single; [apply (IHb path _ Hp eq_refl Hsc)|intros M l; apply OdJ_body|].
      - destruct (Hopts path Hp) as (vals & cmds & H1 & H2 & H3). constructor; [discriminate|]. rewrite H3.
        eapply (options_AllRandom E Hvals); eassumption.
      - intros t Ht. exists t. split; [reflexivity|]. eapply B_lone; [exact Hp|exact (Hopts path Hp)|reflexivity|exact Ht]. }
    apply (has_bind _ _ _ _ Hmix). intros lp Hlp.
    destruct (unsingle _ _ Hlp) as (l & -> & Hl). apply (has_ret _ _ 1%N l); [lia| |exact Hl].
    intros M _ Hmx Hpo. eapply Od_lone; [exact Hpo| |exact Hmx|reflexivity]. apply renamed_by.
    eapply Forall_impl; [|exact Hln]. intros o Hp. cbn beta. eexists. eexists. split; [exact (Hopts _ Hp)|]. split; reflexivity.
  - (* wildcards *)
    intros sc busy w m vars pc meaning _ Hr _ IHp Hq Hd Hm _ IHv _ IHm Hsc Hc.
    assert (Hvars : Forall (fun kv => AllRand (snd kv)) vars) by (inversion Hc; assumption).
    apply (has_bind _ _ _ _ (has_path sc busy w pc Hr (IHp Hsc (reads_random _ _ _ _ Hc Hr)))). intros ln Hln.
    pose proof (extend_Extended sc vars) as Hx.
    assert (Hsc' : RandScope (extend sc vars)) by (eapply RandScope_Extended; eassumption).
    assert (Hmix : Has (fun M => OddsMix M ieee_round E (map (fun o => (JWild (extend sc vars) busy w (fst o), snd o)) ln))
      (fun ts => exists t, ts = [t] /\ Body E sc (Wild w m vars) t)).
    { apply has_mix. intros j q' Hj. right. apply in_map_iff in Hj as ([path q0] & [= <- <-] & Hin).
      rewrite Forall_forall in Hln. pose proof (Hln _ Hin) as Hp. cbn [fst] in *.
      rewrite (proj1 Hsc) in *.
      eapply has_sub; [apply (has_wild_job sc (extend sc vars) busy w vars path meaning Hsc Hsc' Hx Hp)|auto|].
      - intros Hne. exact (Hq path Hp Hne eq_refl).
      - exact (Hd path Hp).
      - intros v. exact (Hm path v Hp).
      - intros v Hv. apply (IHv path _ v Hp Hx Hv Hsc').
        pose proof (Hm path v Hp Hv) as Hrd. inversion Hrd; subst. destruct Hv as (q1 & Hv & _).
        destruct (Hvals _ _ _ Hv) as [_ K]. now apply K.
      - intros cmd He ->. inversion Hr; subst. split; [exact Hr|].
        apply (IHm path _ _ Hp Hx He eq_refl Hsc'). exact (reads_random _ _ _ _ Hc Hr).
      - intros ts (t & -> & K). eauto. }
    apply (has_bind _ _ _ _ Hmix). intros lp Hlp.
    destruct (unsingle _ _ Hlp) as (l & -> & Hl). apply (has_ret _ _ 1%N l); [lia| |exact Hl].
    intros M _ Hmx Hpo. eapply Od_wild; [exact Hpo|exact Hx|exact Hmx|reflexivity].
  - intros sc busy x d v Hrf Hn _ IH Hsc Hc. eapply has_sub; [apply (IH Hsc), (RandScope_Refers E _ _ _ _ Hsc Hc Hrf)| |].
    + intros M l H. eapply Od_access; eassumption.
    + intros t Ht. econstructor; eassumption.
  - intros sc busy wr inner m Hm _ IHw _ IHi Hsc Hc. inversion Hc as [| | | | | | |? ? ? ? Hw Hi]; subst.
    assert (Hall : Has (fun M => OddsAll M ieee_round E sc busy [wr; inner]) (ProducesAll E sc [wr; inner])).
    { apply has_all. intros c [<-|[<-|[]]]; auto. }
    apply (has_bind _ _ _ _ Hall). intros lp Hlp.
    set (f := fun parts : list text => as_wrapper (nth 0 parts []) (nth 1 parts [])).
    apply (has_ret _ _ 1%N (map (fun o => (f (fst o), snd o)) lp)); [lia| |].
    + intros M _ Ho. eapply Od_wrap; [exact Ho|]. apply renamed_by. eapply Forall_impl; [|exact Hlp]. intros o Hp. cbn beta.
      inversion Hp as [|? ? ? tw ts Ht1 Hts E1 E2 E3]; subst. inversion Hts as [|? ? ? ti ts' Ht2 Hts' E4 E5 E6]; subst. inversion Hts'; subst.
      unfold f. cbn [nth]. destruct (as_wrapper_cut tw ti) as (before & after & K1 & K2). exists tw, ti, before, after. auto.
    + apply (forall_renamed f (ProducesAll E sc [wr; inner])); [|exact Hlp]. intros parts Hp.
      inversion Hp as [|? ? ? tw ts Ht1 Hts E1 E2 E3]; subst. inversion Hts as [|? ? ? ti ts' Ht2 Hts' E4 E5 E6]; subst. inversion Hts'; subst.
      unfold f. cbn [nth]. destruct (as_wrapper_cut tw ti) as (before & after & K1 & ->).
      assert (Hno : sc_squash sc && method_eqb (sc_method sc) Combinatorial = false) by (rewrite Hm; apply andb_false_r).
      eapply B_wrap; [congruence|exact Ht1|exact Ht2| | |exact K1]; rewrite Hno; reflexivity.
Qed.
End Exist.

(** * Chances do not depend on how many random numbers there are *)
Lemma odds_more : forall M M' fl E, N.divide M M' ->
  (forall sc busy cmd l, Odds M fl E sc busy cmd l -> Odds M' fl E sc busy cmd l) /\
  (forall sc busy cmd l, OddsBody M fl E sc busy cmd l -> OddsBody M' fl E sc busy cmd l) /\
  (forall sc busy cs l, OddsAll M fl E sc busy cs l -> OddsAll M' fl E sc busy cs l) /\
  (forall sc busy w l, OddsPath M fl E sc busy w l -> OddsPath M' fl E sc busy w l) /\
  (forall sc busy toks l, OddsBinds M fl E sc busy toks l -> OddsBinds M' fl E sc busy toks l) /\
  (forall j l, OddsJob M fl E j l -> OddsJob M' fl E j l) /\
  (forall js l, OddsMix M fl E js l -> OddsMix M' fl E js l).
Proof.
  intros M M' fl E Hd.
  apply (Odds_mutind M fl E
    (fun sc busy cmd l => Odds M' fl E sc busy cmd l) (fun sc busy cmd l => OddsBody M' fl E sc busy cmd l)
    (fun sc busy cs l => OddsAll M' fl E sc busy cs l) (fun sc busy w l => OddsPath M' fl E sc busy w l)
    (fun sc busy toks l => OddsBinds M' fl E sc busy toks l) (fun j l => OddsJob M' fl E j l) (fun js l => OddsMix M' fl E js l)).
  all: intros; try (econstructor; eassumption || (eapply N.divide_trans; eassumption)).
Qed.

Section Unique.
Variable E : env.
Variable c : ctx.
Variable p : wpath.
Notation Path M := (OddsPath M ieee_round E (scope_of c) (c_busy c) p).

Lemma path_count : forall M l, M <> 0%N -> N.divide unit53 M -> Path M l ->
  exists n0, forall n, n0 <= n -> forall u, exists hits, NoDup hits /\
    (forall s, In s hits <-> NumbersBelow M n s /\ GivesFirst E c p s u) /\
    NQ (length hits) = (NQ (N.to_nat M ^ n) * chance text_dec u l)%Qc.
Proof.
  intros M l HM Hd Ho. rewrite <- (N2Nat.id M) in Hd, Ho.
  destruct (first_odds (N.to_nat M) ltac:(lia) Hd E c p l Ho) as [n0 H]. rewrite N2Nat.id in H. now exists n0.
Qed.

Lemma NQ_pow_pos : forall M n, M <> 0%N -> NQ (N.to_nat M ^ n) <> 0%Qc.
Proof. intros M n H. apply NQ_pos. pose proof (Nat.pow_nonzero (N.to_nat M) n). lia. Qed.

Lemma odds_unique : forall M M' l l' u, M <> 0%N -> M' <> 0%N -> N.divide unit53 M -> N.divide unit53 M' ->
  Path M l -> Path M' l' -> chance text_dec u l = chance text_dec u l'.
Proof.
  intros M M' l l' u HM HM' Hd Hd' Ho Ho'. set (P := (M * M')%N).
  assert (HP : P <> 0%N) by (unfold P; lia).
  assert (D1 : N.divide M P) by (exists M'; unfold P; lia). assert (D2 : N.divide M' P) by (exists M; unfold P; lia).
  assert (HdP : N.divide unit53 P) by (eapply N.divide_trans; eassumption).
  pose proof (proj1 (proj2 (proj2 (proj2 (odds_more M P ieee_round E D1)))) _ _ _ _ Ho) as K.
  pose proof (proj1 (proj2 (proj2 (proj2 (odds_more M' P ieee_round E D2)))) _ _ _ _ Ho') as K'.
  destruct (path_count P l HP HdP K) as [n0 H]. destruct (path_count P l' HP HdP K') as [n1 H'].
  destruct (H (n0 + n1) ltac:(lia) u) as (hits & A1 & A2 & A3). destruct (H' (n0 + n1) ltac:(lia) u) as (hits' & B1 & B2 & B3).
  assert (Hlen : length hits = length hits').
  { apply Permutation_length, NoDup_Permutation; [assumption|assumption|]. intros s. rewrite A2, B2. reflexivity. }
  rewrite Hlen, B3 in A3. pose proof (NQ_pow_pos P (n0 + n1) HP) as Hnz.
  assert (Hz : (NQ (N.to_nat P ^ (n0 + n1)) * (chance text_dec u l - chance text_dec u l') = 0)%Qc).
  { transitivity (NQ (N.to_nat P ^ (n0 + n1)) * chance text_dec u l - NQ (N.to_nat P ^ (n0 + n1)) * chance text_dec u l')%Qc; [ring|].
    rewrite A3. ring. }
  apply Qcmult_integral in Hz as [Hz|Hz]; [contradiction|].
  transitivity (chance text_dec u l - chance text_dec u l' + chance text_dec u l')%Qc; [ring|]. rewrite Hz. ring.
Qed.

Lemma NQ_lt : forall n, 0 < n -> (0 < NQ n)%Qc.
Proof.
  intros n H. unfold NQ, Qclt. cbn [this Q2Qc]. rewrite !Qred_correct. unfold Qlt, inject_Z. cbn. lia.
Qed.

(** What some numbers give has a chance, however large the numbers. *)
Lemma given_chance : forall M l u draws, M <> 0%N -> N.divide unit53 M -> Path M l ->
  (forall rest, GivesFirst E c p (draws ++ rest) u) -> (0 < chance text_dec u l)%Qc.
Proof.
  intros M l u draws HM Hd Ho Hg. set (P := (M * (1 + fold_right N.add 0 draws))%N).
  assert (HP : P <> 0%N) by (unfold P; lia).
  assert (D1 : N.divide M P) by (exists (1 + fold_right N.add 0 draws)%N; unfold P; lia).
  assert (HdP : N.divide unit53 P) by (eapply N.divide_trans; eassumption).
  pose proof (proj1 (proj2 (proj2 (proj2 (odds_more M P ieee_round E D1)))) _ _ _ _ Ho) as K.
  destruct (path_count P l HP HdP K) as [n0 H]. destruct (H (n0 + length draws) ltac:(lia) u) as (hits & _ & A2 & A3).
  assert (Hin : In (draws ++ repeat 0%N n0) hits).
  { apply A2. split; [|apply Hg]. split; [rewrite app_length, repeat_length; lia|]. apply Forall_app. split.
    - apply Forall_forall. intros x Hx.
      assert (x <= fold_right N.add 0 draws)%N.
      { clear -Hx. induction draws as [|y draws IH]; [destruct Hx|]. cbn [fold_right]. destruct Hx as [->|Hx]; [lia|]. specialize (IH Hx). lia. }
      unfold P. nia.
    - apply Forall_forall. intros x Hx. apply repeat_spec in Hx. lia. }
  apply Qcnot_le_lt. intros Hle.
  assert (H1 : (0 < NQ (length hits))%Qc) by (apply NQ_lt; destruct hits; [destruct Hin|cbn; lia]).
  assert (H2 : (0 < NQ (N.to_nat P ^ (n0 + length draws)))%Qc).
  { apply NQ_lt. pose proof (Nat.pow_nonzero (N.to_nat P) (n0 + length draws)). lia. }
  rewrite A3 in H1. apply (Qclt_not_le _ _ H1). rewrite Qcmult_comm.
  replace 0%Qc with (0 * NQ (N.to_nat P ^ (n0 + length draws)))%Qc by ring.
  apply Qcmult_le_compat_r; [exact Hle|now apply Qclt_le_weak].
Qed.
End Unique.
