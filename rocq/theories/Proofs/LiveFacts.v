(** Endless sampling of the templates of Spec/Sure.v never fails. *)
From Coq Require Import String NArith ZArith QArith Qcanon Bool Arith List Permutation Lia.
From Verif.Model Require Import Str Utils Command Rng Values Context Sampler.
From Verif.Spec Require Import Text Comb Items Lang Sure.
From Verif.Proofs Require Import StrFacts UtilsFacts CommandFacts CombFacts RngFacts ValuesFacts DictFacts
  Soundness FuelFacts RunFacts.
Import ListNotations.
Local Open Scope nat_scope.

Section Live.
Variable G : rng_impl.
Variable E : env.
Notation R := (rng_state G).
Notation next := (next G E).
Notation next_yc := (next_yc G E).
Notation ores := (ores G).

(** With enough fuel [f] answers with a value satisfying [Q]. *)
Definition Yields {A} (f : nat -> ores A) (Q : A -> Prop) : Prop :=
  exists n a r, (forall m, n <= m -> f m = OVal a r) /\ Q a.

Lemma Yields_ret : forall A (a : A) r (Q : A -> Prop), Q a -> Yields (fun _ => OVal a r) Q.
Proof. intros A a r Q H. exists 0, a, r. auto. Qed.

Lemma Yields_bind : forall A B (f : nat -> ores A) (h : nat -> A -> R -> ores B) Q Q',
  Yields f Q -> (forall a r, Q a -> Yields (fun m => h m a r) Q') ->
  Yields (fun m => obind G (f m) (h m)) Q'.
Proof.
  intros A B f h Q Q' (n & a & r & Hf & Ha) Hh. destruct (Hh a r Ha) as (n' & b & r' & Hb & HQ).
  exists (n + n'), b, r'. split; [|assumption]. intros m Hm. rewrite Hf by lia. cbn. apply Hb. lia.
Qed.

Lemma Yields_match : forall A B (f : nat -> ores A) (h : nat -> ores A -> ores B) Q Q',
  Yields f Q -> (forall a r, Q a -> Yields (fun m => h m (OVal a r)) Q') ->
  Yields (fun m => h m (f m)) Q'.
Proof.
  intros A B f h Q Q' (n & a & r & Hf & Ha) Hh. destruct (Hh a r Ha) as (n' & b & r' & Hb & HQ).
  exists (n + n'), b, r'. split; [|assumption]. intros m Hm. rewrite Hf by lia. apply Hb. lia.
Qed.

Lemma Yields_pep : forall A (f : nat -> ores A) Q, Yields f Q -> Yields (fun m => pep479 G (f m)) Q.
Proof. intros A f Q (n & a & r & Hf & Ha). exists n, a, r. split; [|assumption]. intros m Hm. now rewrite Hf. Qed.

Lemma Yields_S : forall A (f : nat -> ores A) Q, Yields (fun m => f (S m)) Q -> Yields f Q.
Proof.
  intros A f Q (n & a & r & Hf & Ha). exists (S n), a, r. split; [|assumption].
  intros [|m] Hm; [lia|]. apply Hf. lia.
Qed.

Lemma Yields_ext : forall A (f f' : nat -> ores A) Q, (forall m, f m = f' m) -> Yields f Q -> Yields f' Q.
Proof. intros A f f' Q H (n & a & r & Hf & Ha). exists n, a, r. split; [|assumption]. intros m Hm. rewrite <- H. auto. Qed.

Lemma Yields_impl : forall A (f : nat -> ores A) (Q Q' : A -> Prop), Yields f Q -> (forall a, Q a -> Q' a) -> Yields f Q'.
Proof. intros A f Q Q' (n & a & r & Hf & Ha) H. exists n, a, r. auto. Qed.

Lemma Yields_post : forall A (f : nat -> ores A) (Q Q' : A -> Prop) S, Yields f Q ->
  (forall m, post G (f m) Q' S) -> Yields f (fun a => Q a /\ Q' a).
Proof.
  intros A f Q Q' S (n & a & r & Hf & Ha) H. exists n, a, r. split; [assumption|]. split; [assumption|].
  specialize (H n). rewrite Hf in H by lia. exact H.
Qed.

(** [g] has a next value for ever, whatever random numbers come. *)
Definition Live (g : gen) : Prop :=
  exists P : gen -> Prop, P g /\ forall g r, P g -> Yields (fun m => next m g r) (fun x => P (snd x)).

Lemma Live_step : forall g r, Live g -> Yields (fun m => next m g r) (fun x => Live (snd x)).
Proof.
  intros g r (P & Hg & HP). eapply Yields_impl; [apply HP, Hg|]. intros x Hx. exists P. auto.
Qed.

Lemma Live_by : forall (P : gen -> Prop) g,
  P g -> (forall g r, P g -> Yields (fun m => next m g r) (fun x => P (snd x) \/ Live (snd x))) -> Live g.
Proof.
  intros P g Hg H. exists (fun g => P g \/ Live g). split; [now left|].
  intros g' r [Hp|Hl]; [now apply H|]. eapply Yields_impl; [now apply Live_step|]. intros x Hx. now right.
Qed.

(** A first step that leads to a live generator. *)
Lemma Live_first : forall g, (forall r, Yields (fun m => next m g r) (fun x => Live (snd x))) -> Live g.
Proof.
  intros g H. apply (Live_by (fun g' => g' = g)); [reflexivity|]. intros g' r ->.
  eapply Yields_impl; [apply H|]. auto.
Qed.

(** A command whose generator is live. *)
Definition LiveIn (c : ctx) (cmd : command) : Prop :=
  exists n g, (forall m, n <= m -> mk m c cmd = MOk g) /\ Live g.

Lemma LiveIn_mk : forall c cmd r, LiveIn c cmd -> Yields (fun m => lift_mk G (mk m c cmd) r) Live.
Proof.
  intros c cmd r (n & g & Hg & Hl). exists n, g, r. split; [|assumption]. intros m Hm. now rewrite Hg.
Qed.

Lemma LiveIn_mk_all : forall c cmds r, (forall cmd, In cmd cmds -> LiveIn c cmd) ->
  Yields (fun m => mk_all G m c cmds r) (fun gs => Forall Live gs /\ length gs = length cmds).
Proof.
  intros c cmds. induction cmds as [|cmd cmds IH]; intros r H; cbn [mk_all].
  - apply Yields_ret. split; [constructor|reflexivity].
  - eapply Yields_bind; [apply LiveIn_mk, H; now left|]. intros g r1 Hg.
    eapply Yields_bind; [apply IH; intros; apply H; now right|]. intros gs r2 [Hgs Hl].
    apply Yields_ret. split; [now constructor|]. cbn. now f_equal.
Qed.

Lemma rotate_Live : forall gs r, Forall Live gs ->
  Yields (fun m => rotate_all G (next m) gs r) (fun x => Forall Live (snd x)).
Proof.
  intros gs r H. revert r. induction H as [|g gs Hg _ IH]; intros r; cbn [rotate_all].
  - apply Yields_ret. constructor.
  - eapply Yields_bind; [now apply Live_step|]. intros [t g'] r1 Hg'. cbn in Hg'.
    eapply Yields_bind; [apply IH|]. intros [ts gs'] r2 Hgs. apply Yields_ret. now constructor.
Qed.

Lemma GRepeat_Live : forall t, Live (GRepeat t).
Proof.
  intros t. apply (Live_by (fun g => g = GRepeat t)); [reflexivity|]. intros g r ->.
  apply Yields_S. unfold_next G E. apply Yields_ret. now left.
Qed.

Lemma GSquash_Live : forall g, Live g -> Live (GSquash g).
Proof.
  intros g Hg. apply (Live_by (fun g' => exists g, g' = GSquash g /\ Live g)); [eauto|].
  intros g' r (h & -> & Hh). apply Yields_S. unfold_next G E.
  eapply Yields_bind; [now apply Live_step|]. intros [t h'] r' Hh'. cbn [snd] in Hh'. apply Yields_ret. left. cbn. eauto.
Qed.

Lemma GSeqLoop_Live : forall gs sep, Forall Live gs -> Live (GSeqLoop gs sep).
Proof.
  intros gs sep H. apply (Live_by (fun g => exists gs, g = GSeqLoop gs sep /\ Forall Live gs)); [eauto|].
  intros g r (gs' & -> & Hg). apply Yields_S. unfold_next G E. apply Yields_pep.
  eapply Yields_bind; [now apply rotate_Live|]. intros [ts gs2] r' Hgs. cbn [snd] in Hgs. apply Yields_ret. left. cbn. eauto.
Qed.

(** Creating a generator may take fuel; [Any] answer of it will do. *)
Lemma first_of_Yields : forall n g r f, (forall m, n <= m -> f m = MOk g) ->
  (forall r, Yields (fun m => next m g r) (fun _ => True)) ->
  Yields (fun m => first_of G (next m) m (f m) r) (fun _ => True).
Proof.
  intros n g r f Hf Hg. unfold first_of.
  eapply Yields_bind with (Q := fun g' => g' = g).
  - exists n, g, r. split; [|reflexivity]. intros m Hm. now rewrite Hf.
  - intros g' r' ->. eapply Yields_bind; [apply Hg|]. intros [t g'] r2 _. now apply Yields_ret.
Qed.

Lemma Live_any : forall g, Live g -> forall r, Yields (fun m => next m g r) (fun _ => True).
Proof. intros g H r. eapply Yields_impl; [now apply Live_step|]. auto. Qed.

Lemma sample_Live : forall c p cmd, Reads E p cmd -> LiveIn c cmd ->
  exists n g, (forall m lim, n <= m -> sample_prompts E m c p lim = MOk (match lim with None => g | Some k => GSlice k g end)) /\
    Live g.
Proof.
  intros c p cmd Hr (n & g & Hg & Hl). exists n, (if c_ignws c then GSquash g else g). split.
  - intros m lim Hm. unfold sample_prompts. destruct Hr as [s cmd Hs Hp|cmd Hn].
    + destruct s as [|x s]; [congruence|]. now rewrite Hp, Hg.
    + apply truthy_Nonempty in Hn. rewrite Hn. cbn [negb]. now rewrite Hg.
  - destruct (c_ignws c); [now apply GSquash_Live|assumption].
Qed.

Lemma GSlice_any : forall k g r, Live g -> Yields (fun m => next m (GSlice (S k) g) r)
  (fun x => exists g', snd x = GSlice k g' /\ Live g').
Proof.
  intros k g r H. apply Yields_S. unfold_next G E. eapply Yields_bind; [now apply Live_step|].
  intros [t g'] r' Hg'. apply Yields_ret. cbn in *. eauto.
Qed.

Lemma path_Yields : forall c w cmd r, Reads E w cmd -> LiveIn c cmd ->
  Yields (fun m => sample_path G E (next m) m c w r) (Path E (scope_of c) w).
Proof.
  intros c w cmd r Hr Hl. destruct (sample_Live c w cmd Hr Hl) as (n & g & Hg & Hgl).
  eapply Yields_impl.
  - eapply Yields_post with (Q := fun _ => True).
    + unfold sample_path. eapply first_of_Yields with (n := n) (g := GSlice 1 g).
      * intros m Hm. now apply (Hg m (Some 1)).
      * intros r'. eapply Yields_impl; [now apply GSlice_any|]. auto.
    + intros m. apply sample_path_ok. intros. apply next_ok. assumption.
  - intros a [_ H]. exact H.
Qed.

(** * Sequences *)
Lemma loop_Yields : forall c tokens nv r,
  (forall x v ovr, In (Assign x v true ovr) tokens ->
     (ovr = false -> dict_get x (c_vars c) = None) -> LiveIn c v) ->
  Yields (fun m => assignments_loop G (next m) m c tokens nv r) (fun _ => True).
Proof.
  intros c tokens. induction tokens as [|tok tokens IH]; intros nv r H; cbn [assignments_loop]; [now apply Yields_ret|].
  assert (IH' : forall nv r, Yields (fun m => assignments_loop G (next m) m c tokens nv r) (fun _ => True)).
  { intros nv' r'. apply IH. intros x v ovr Hin. apply H. now right. }
  destruct tok as [s m|ts sp m|os lo hi sp m|w m vars|name value immediate overwrite|x d|wr inner m];
    try (eapply Yields_bind; [apply IH'|]; intros [rest vs] r1 _; now apply Yields_ret).
  eapply Yields_bind with (Q := fun _ => True); [|intros v r1 _; apply IH'].
  unfold process_variable_assignment.
  destruct (if overwrite then None else dict_get name (c_vars c)) eqn:Hd; [now apply Yields_ret|].
  destruct immediate; [|now apply Yields_ret].
  assert (Hl : LiveIn c value).
  { eapply H; [now left|]. intros ->. exact Hd. }
  destruct Hl as (n & g & Hg & Hl).
  destruct value; try (now apply Yields_ret);
    (eapply Yields_bind; [eapply first_of_Yields; [exact Hg|now apply Live_any]|]; intros t r1 _; now apply Yields_ret).
Qed.

Lemma GSeqStart_Live : forall c tokens sep,
  (forall x v ovr, In (Assign x v true ovr) tokens ->
     (ovr = false -> dict_get x (c_vars c) = None) -> LiveIn c v) ->
  (forall c' toks tok, SameBut (scope_of c) (scope_of c') -> c_busy c' = c_busy c ->
     (forall x, Bound E (scope_of c) tokens x (sc_var (scope_of c') x)) ->
     Plain tokens toks -> In tok toks -> LiveIn c' tok) ->
  Live (GSeqStart c tokens sep).
Proof.
  intros c tokens sep H1 H2. apply Live_first. intros r. apply Yields_S. unfold_next G E. apply Yields_pep.
  eapply Yields_bind with (Q := fun x => (Plain tokens (fst x) /\ SameBut (scope_of c) (scope_of (snd x)) /\
       c_method (snd x) = c_method c /\
       forall y, Bound E (scope_of c) tokens y (sc_var (scope_of (snd x)) y)) /\ c_busy (snd x) = c_busy c).
  - eapply Yields_impl.
    + eapply Yields_post with (Q := fun x => c_busy (snd x) = c_busy c).
      * unfold process_variable_assignments. eapply Yields_bind; [now apply loop_Yields|].
        intros [rest vs] r1 _. apply Yields_ret. cbn. now destruct vs.
      * intros m. apply assignments_ok. intros. apply next_ok. assumption.
    + intros x [Hx Hy]. split; assumption.
  - intros [toks c'] r1 ((Hp & Hsb & _ & Hb) & Hbusy). cbn [fst snd] in *.
    eapply Yields_bind; [apply LiveIn_mk_all; intros tok Ht; eapply H2; eassumption|].
    intros gs r2 [Hgs _]. apply Live_step, GSeqLoop_Live. assumption.
Qed.

(** * Random variants *)
Lemma values_length : forall opts, length (values opts) = length opts.
Proof. intros. apply map_length. Qed.

Lemma randint_range : forall a b (r : R), (a <= b)%Z -> exists k r', randint G a b r = Some (k, r') /\ (a <= k <= b)%Z.
Proof.
  intros a b r H. unfold randint. destruct (Z.leb_spec a b) as [_|]; [|lia].
  pose proof (randbelow_lt G (Z.to_nat (b - a + 1)) r ltac:(lia)) as Hx.
  destruct (randbelow G (Z.to_nat (b - a + 1)) r) as [x r']. cbn in Hx. do 2 eexists. split; [reflexivity|]. lia.
Qed.

Lemma GRVarLoop_Live : forall c opts lo hi sep, (0 <= Z.max lo hi)%Z ->
  (forall v q, In (v, q) opts -> (0 < q)%Qc) ->
  (forall v q, In (v, q) opts -> LiveIn c v) -> Live (GRVarLoop c opts lo hi sep).
Proof.
  intros c opts lo hi sep Hb Hw Hl.
  apply (Live_by (fun g => exists lo hi, g = GRVarLoop c opts lo hi sep /\ (0 <= Z.max lo hi)%Z)); [eauto|].
  clear lo hi Hb. intros g r (lo & hi & -> & Hb). apply Yields_S. unfold_next G E. rewrite adjust_range_clamp.
  set (lo' := clamp (length opts) (Z.min lo hi)). set (hi' := Z.min (Z.max lo hi) (Z.of_nat (length opts))).
  assert (Hd : (0 <= lo' <= hi')%Z) by (unfold lo', hi', clamp; lia).
  assert (Hh : (hi' <= Z.of_nat (length opts))%Z) by (unfold hi'; lia). clearbody lo' hi'.
  destruct (randint_range lo' hi' r ltac:(lia)) as (k & r1 & -> & Hk). apply Yields_pep.
  assert (Hc : exists sel r2, choose_without_replacement G cmd_eqb (values opts) (weights opts) (Z.min hi' k) r1 = ROk sel r2).
  { apply cwr_succeeds; [exact cmd_eqb_spec| | |].
    - unfold weights, values. now rewrite !map_length.
    - apply Forall_forall. intros q Hq. apply in_map_iff in Hq as ([v q'] & <- & Hin). eapply Hw, Hin.
    - rewrite values_length. lia. }
  destruct Hc as (sel & r2 & Hc). rewrite Hc. cbn [lift_rres obind].
  apply (cwr_ok G cmd_eqb cmd_eqb_spec) in Hc as [[rest Hp] _].
  eapply Yields_bind.
  - apply LiveIn_mk_all. intros cmd Hin.
    assert (Hv : In cmd (values opts)).
    { eapply Permutation_in; [symmetry; exact Hp|]. apply in_or_app. now left. }
    apply in_map_iff in Hv as ([v q] & <- & Hv). eapply Hl, Hv.
  - intros gs r3 [Hgs _]. destruct gs as [|g gs].
    + apply Yields_ret. left. cbn. exists lo', hi'. split; [reflexivity|lia].
    + eapply Yields_bind; [now apply rotate_Live|]. intros [ts gs'] r4 _. apply Yields_ret. left. cbn.
      exists lo', hi'. split; [reflexivity|lia].
Qed.

Lemma LiveIn_next : forall c cmd r, LiveIn c cmd ->
  Yields (fun m => obind G (lift_mk G (mk m c cmd) r) (fun g r => next m g r)) (fun x => Live (snd x)).
Proof.
  intros c cmd r H. eapply Yields_bind; [now apply LiveIn_mk|]. intros g r' Hg. now apply Live_step.
Qed.

Lemma GRVarStart_Live : forall c opts lo hi sep, ~ lone_wildcard opts -> opts <> [] ->
  (length opts = 1 \/ ((0 <= Z.max lo hi)%Z /\ forall v q, In (v, q) opts -> (0 < q)%Qc)) ->
  (forall v q, In (v, q) opts -> LiveIn c v) -> Live (GRVarStart c opts lo hi sep).
Proof.
  intros c opts lo hi sep Hw Hne Hd Hl. apply Live_first. intros r. apply Yields_S. unfold_next G E.
  destruct opts as [|[v q] [|o opts]]; [congruence| |].
  - destruct (single_wildcard [(v, q)]) as [w|] eqn:Hx.
    + exfalso. apply Hw. destruct (single_wildcard_spec _ _ Hx) as (mw & vs & q' & Hq). unfold lone_wildcard. eauto.
    + apply LiveIn_next. eapply Hl. now left.
  - destruct Hd as [Hd|[Hb Hd]]; [discriminate|]. apply Live_step. now apply GRVarLoop_Live.
Qed.

(** * Cyclical variants *)
Inductive YLive : yc -> Prop :=
| YL_empty : YLive YCEmpty
| YL_loop : forall g rest, Live g -> YLive rest -> YLive (YCLoop g rest).

Lemma YLive_step : forall c y r, YLive y -> Yields (fun m => next_yc m c y r) (fun x => YLive (snd x)).
Proof.
  intros c y r H. revert r. induction H as [|g rest Hg _ IH]; intros r; apply Yields_S; unfold_next G E.
  - apply Yields_ret. constructor.
  - eapply Yields_bind; [apply IH|]. intros [arr rest'] r1 Hr. cbn in Hr.
    eapply (Yields_match _ _ (fun m => next m g r1)
      (fun m x => match x with OVal (t, g') r => OVal (t :: arr, YCLoop g' rest') r
                  | OStop r => OVal ([], YCDone) r | ORaise e r => ORaise e r | OFuel => OFuel end)); [now apply Live_step|].
    intros [t g'] r2 Hg'. apply Yields_ret. now constructor.
Qed.

Lemma YStart_step : forall c combo r, (forall cmd, In cmd combo -> LiveIn c cmd) ->
  Yields (fun m => next_yc m c (YCStart combo) r) (fun x => YLive (snd x)).
Proof.
  intros c combo. induction combo as [|cmd combo IH]; intros r H; apply Yields_S; unfold_next G E.
  - apply YLive_step. constructor.
  - eapply Yields_bind; [apply LiveIn_mk, H; now left|]. intros g r1 Hg.
    apply Yields_S. unfold_next G E. eapply Yields_bind; [apply IH; intros; apply H; now right|].
    intros [arr rest'] r2 Hr. cbn in Hr.
    eapply (Yields_match _ _ (fun m => next m g r2)
      (fun m x => match x with OVal (t, g') r => OVal (t :: arr, YCLoop g' rest') r
                  | OStop r => OVal ([], YCDone) r | ORaise e r => ORaise e r | OFuel => OFuel end)); [now apply Live_step|].
    intros [t g'] r3 Hg'. apply Yields_ret. now constructor.
Qed.

Definition YOk (c : ctx) (y : yc) : Prop :=
  YLive y \/ exists combo, y = YCStart combo /\ forall cmd, In cmd combo -> LiveIn c cmd.

Lemma GYVarLoop_Live : forall c sep ys, ys <> [] -> Forall (YOk c) ys -> Live (GYVarLoop c sep ys).
Proof.
  intros c sep ys Hne H.
  apply (Live_by (fun g => exists ys, g = GYVarLoop c sep ys /\ ys <> [] /\ Forall (YOk c) ys)); [eauto|].
  clear ys Hne H. intros g r (ys & -> & Hne & H). apply Yields_S. unfold_next G E.
  destruct H as [|y ys Hy Hys]; [congruence|].
  eapply Yields_bind with (Q := fun x => YLive (snd x)).
  - apply Yields_pep. destruct Hy as [Hy|(combo & -> & Hc)]; [now apply YLive_step|now apply YStart_step].
  - intros [arr y'] r1 Hy'. apply Yields_ret. left. cbn in *. exists (ys ++ [y']). split; [reflexivity|]. split.
    + now destruct ys.
    + apply Forall_app. split; [assumption|]. constructor; [now left|constructor].
Qed.

Lemma GYVarStart_Live : forall c opts lo hi sep k sel, ~ lone_wildcard opts -> opts <> [] -> (0 <= Z.max lo hi)%Z ->
  (clamp (length opts) (Z.min lo hi) <= Z.of_nat k <= clamp (length opts) (Z.max lo hi))%Z ->
  Selection k (map fst opts) sel ->
  (forall v q, In (v, q) opts -> LiveIn c v) -> Live (GYVarStart c opts lo hi sep).
Proof.
  intros c opts lo hi sep k sel Hw Hne Hmx Hk Hs Hl. apply Live_first. intros r. apply Yields_S. unfold_next G E.
  destruct opts as [|o opts]; [congruence|]. set (os := o :: opts) in *.
  destruct (single_wildcard os) as [w|] eqn:Hx.
  { exfalso. apply Hw. destruct (single_wildcard_spec _ _ Hx) as (mw & vs & q' & Hq). unfold lone_wildcard. eauto. }
  apply Live_step, GYVarLoop_Live.
  - intros He. apply map_eq_nil in He.
    assert (Hin : In (Z.of_nat k, sel) (bound_combos os lo hi)).
    { unfold bound_combos. rewrite adjust_range_clamp. apply in_flat_map. exists (Z.of_nat k). split.
      - apply zrange_In. unfold clamp in *. lia.
      - apply in_map. rewrite Nat2Z.id. apply combos_In. exact Hs. }
    rewrite He in Hin. destruct Hin.
  - apply Forall_forall. intros y Hy. apply in_map_iff in Hy as ([b combo] & <- & Hin).
    destruct (bound_combos_In _ _ _ _ _ Hin) as (_ & _ & Hi & _). right. exists combo. split; [reflexivity|].
    intros cmd Hc. specialize (Hi _ Hc). apply in_map_iff in Hi as ([v q] & <- & Hv). eapply Hl, Hv.
Qed.
(** * Lone wildcards *)
Lemma parse_all_Forall2 : forall vals cmds, Forall2 (fun v c => env_parse E v = Ok c) vals cmds -> parse_all E vals = Ok cmds.
Proof. intros vals cmds H. induction H as [|v cm vs cms Hv _ IH]; cbn; [reflexivity|]. now rewrite Hv, IH. Qed.

Lemma variant_Yields : forall c w cmd lo hi r, Reads E w cmd -> LiveIn c cmd ->
  (forall path, Path E (scope_of c) w path -> exists opts, OptionsOf E path opts) ->
  Yields (fun m => wildcard_to_variant G E (next m) m c w lo hi r)
    (fun x => exists path, Path E (scope_of c) w path /\ OptionsOf E path (fst x) /\
       let n := Z.of_nat (length (env_lookup E path)) in
       snd x = (Z.max 0 (Z.min (Z.min lo hi) n), Z.min (Z.max lo hi) n)).
Proof.
  intros c w cmd lo hi r Hr Hl Ho. eapply Yields_impl.
  - eapply Yields_post with (Q := fun _ => True).
    + unfold wildcard_to_variant. eapply Yields_bind; [eapply path_Yields; eassumption|].
      intros path r1 Hp. destruct (Ho path Hp) as (opts & vals & cmds & Hv & Hc & _).
      rewrite (Listed_unique _ _ _ Hv (iterate_weighted_Listed (env_lookup E path))) in Hc.
      rewrite (parse_all_Forall2 _ _ Hc). now apply Yields_ret.
    + intros m. apply wildcard_to_variant_ok. intros. apply next_ok. assumption.
  - intros a [_ H]. exact H.
Qed.

Lemma OptionsOf_unique : forall path o1 o2, OptionsOf E path o1 -> OptionsOf E path o2 -> o1 = o2.
Proof.
  intros path o1 o2 (v1 & c1 & H1 & F1 & ->) (v2 & c2 & H2 & F2 & ->).
  rewrite (Listed_unique _ _ _ H2 H1) in F2. f_equal. clear H1 H2. revert c2 F2.
  induction F1 as [|v c vs cs Hv _ IH]; intros c2 F2; inversion F2; subst; [reflexivity|].
  f_equal; [congruence|auto].
Qed.

(** * Random wildcards *)
Lemma GRWildLoop_Live : forall c items, items <> [] ->
  (forall i, In i items -> (0 <= w_weight i)%Qc) -> (exists v, Drawable Random items v) ->
  (forall v, Drawable Random items v -> exists cmd, Reads E (WStr v) cmd /\ LiveIn c cmd) ->
  forall wg, wgen_of G items wg -> Live (GRWildLoop c wg None).
Proof.
  intros c items Hne Hpos Hex Hv wg Hwg.
  apply (Live_by (fun g => exists wg, wgen_of G items wg /\
     (g = GRWildLoop c wg None \/ exists g', g = GRWildLoop c wg (Some (GSlice 0 g'))))); [eauto|].
  clear wg Hwg.
  assert (Hnone : forall wg r, wgen_of G items wg -> Yields (fun m => next m (GRWildLoop c wg None) r)
      (fun x => exists wg, wgen_of G items wg /\ exists g', snd x = GRWildLoop c wg (Some (GSlice 0 g')))).
  { intros wg r Hwg. apply Yields_S. unfold_next G E.
    destruct (next_wgen G wg r) as [[v wg'] r1|e r1] eqn:Hn.
    - destruct (next_wgen_spec _ _ _ _ _ _ _ Hwg Hn) as (Hwg' & i & Hi & <- & Hw).
      cbn [lift_rres obind]. destruct (Hv (w_content i) (Drawable_drawn _ _ Hi Hw)) as (cmd & Hr & Hl).
      destruct (sample_Live _ _ _ Hr Hl) as (n & g & Hg & Hgl).
      eapply Yields_bind with (Q := fun g' => g' = GSlice 1 g).
      + exists n, (GSlice 1 g), r1. split; [|reflexivity]. intros m Hm. now rewrite (Hg m (Some 1)).
      + intros g' r2 ->. apply Yields_S. unfold_next G E.
        eapply (Yields_match _ _ (fun m => next m (GSlice 1 g) r2)
          (fun m x => match x with OVal (t, g') r => OVal (t, GRWildLoop c wg' (Some g')) r
                      | OStop r => next m (GRWildLoop c wg' None) r | ORaise e r => ORaise e r | OFuel => OFuel end));
          [now apply GSlice_any|].
        intros [t g'] r3 (g2 & He & _). cbn in He. subst g'. apply Yields_ret. cbn. eauto.
    - exfalso. destruct (next_wgen_err _ _ _ _ _ _ Hwg Hn) as [H|[Hvar Hs]]; [contradiction|].
      destruct Hex as (v & q & Hin & Hq).
      assert (Hq' : (0 < q)%Qc).
      { apply Hq. apply has_varied_weights_spec in Hvar as (a & b & Ha & Hb & Hd).
        exists (w_content a), (w_weight a), (w_content b), (w_weight b).
        split; [unfold pairs; apply in_map_iff; exists a; auto|]. split; [unfold pairs; apply in_map_iff; exists b; auto|assumption]. }
      apply in_map_iff in Hin as (i & [= _ <-] & Hi). fold (w_weight i) in Hq'.
      assert (Hz : Forall (fun w => w = 0)%Qc (map w_weight items)).
      { apply (float_sum_zero G); [|assumption]. apply Forall_forall. intros w Hw. apply in_map_iff in Hw as (z & <- & Hz). now apply Hpos. }
      rewrite Forall_forall in Hz. rewrite (Hz (w_weight i)) in Hq' by now apply in_map. discriminate Hq'. }
  intros g r (wg & Hwg & [->|(g' & ->)]).
  - eapply Yields_impl; [now apply Hnone|]. intros x (wg' & Hwg' & Hx). left. exists wg'. auto.
  - apply Yields_S. apply Yields_S. unfold_next G E. cbn iota.
    eapply Yields_impl.
    + destruct (Hnone wg r Hwg) as (n & a & r' & Hn & Ha). exists n, a, r'. split; [|exact Ha].
      intros m Hm. apply (Hn (S m)). lia.
    + intros x (wg' & Hwg' & Hx). left. exists wg'. auto.
Qed.

(** * Cyclical wildcards *)
Lemma sample_all_Live : forall c vals r, (forall v, In v vals -> exists cmd, Reads E (WStr v) cmd /\ LiveIn c cmd) ->
  Yields (fun m => sample_all G E m c vals r) (fun gs => Forall Live gs /\ length gs = length vals).
Proof.
  intros c vals. induction vals as [|v vals IH]; intros r H; cbn [sample_all].
  - apply Yields_ret. split; [constructor|reflexivity].
  - destruct (H v (or_introl eq_refl)) as (cmd & Hr & Hl). destruct (sample_Live _ _ _ Hr Hl) as (n & g & Hg & Hgl).
    eapply Yields_bind with (Q := fun g' => g' = g).
    + exists n, g, r. split; [|reflexivity]. intros m Hm. now rewrite (Hg m None).
    + intros g' r1 ->. eapply Yields_bind; [apply IH; intros; apply H; now right|]. intros gs r2 [Hgs Hlen].
      apply Yields_ret. split; [now constructor|]. cbn. now f_equal.
Qed.

Lemma GYWildLoop_Live : forall gs, gs <> [] -> Forall Live gs -> Live (GYWildLoop gs).
Proof.
  intros gs Hne H.
  apply (Live_by (fun g => exists gs, g = GYWildLoop gs /\ gs <> [] /\ Forall Live gs)); [eauto|].
  clear gs Hne H. intros g r (gs & -> & Hne & H). apply Yields_S. unfold_next G E.
  destruct H as [|g gs Hg Hgs]; [congruence|].
  eapply Yields_bind; [apply Yields_pep; now apply Live_step|].
  intros [t g'] r1 Hg'. cbn in Hg'. apply Yields_ret. left. cbn. exists (gs ++ [g']). split; [reflexivity|]. split.
  - now destruct gs.
  - apply Forall_app. split; [assumption|]. constructor; [assumption|constructor].
Qed.

Lemma GFallback_Yields : forall c w r,
  (forall cmd, w = WCmd cmd -> exists cmd', Reads E w cmd' /\ LiveIn c cmd') ->
  Yields (fun m => next m (GFallback c w) r) (fun x => Live (snd x)).
Proof.
  intros c w r H. apply Yields_S. unfold_next G E. destruct w as [s|cmd].
  - cbn [obind]. apply Live_step, GRepeat_Live.
  - destruct (H cmd eq_refl) as (cmd' & Hr & Hl).
    eapply Yields_bind; [apply Yields_pep; eapply path_Yields; eassumption|].
    intros t r1 _. apply Live_step, GRepeat_Live.
Qed.

(** * The theorem *)
Lemma scope_same : forall c sc, scope_of c = sc -> sc_method sc = c_method c /\ sc_squash sc = c_ignws c.
Proof. intros c sc <-. auto. Qed.

Definition Body_live (sc : scope) (busy : list text) (cmd : command) : Prop :=
  forall c, scope_of c = sc -> c_busy c = busy ->
    exists n g, (forall m, n <= m -> mk m c (with_mark cmd None) = MOk g) /\ Live g.

Lemma with_method_scope : forall m c, c_method c = m -> with_method m c = c.
Proof. intros m [] H. cbn in *. now subst. Qed.

Lemma chosen_none : forall c cmd, mark_of cmd = None -> chosen_method c cmd = c_method c.
Proof. intros c cmd H. rewrite chosen_method_resolve, H. reflexivity. Qed.

Lemma mk_none : forall n c cmd, mark_of cmd = None ->
  mk (S n) c cmd = match cmd with
    | Lit s _ => match c_method c with Combinatorial => MOk (GOnce s) | _ => MOk (GRepeat s) end
    | Seq tokens sep _ => match c_method c with
        | Combinatorial => MOk (GCSeqStart c tokens sep) | _ => MOk (GSeqStart c tokens sep) end
    | Var opts lo hi sep _ => match c_method c with
        | Random => MOk (GRVarStart c opts lo hi sep) | Combinatorial => MOk (GCVarStart c opts lo hi sep)
        | Cyclical => MOk (GYVarStart c opts lo hi sep) end
    | Wild w _ vars => match c_method c with
        | Random => MOk (GRWildStart c w vars) | Combinatorial => MOk (GCWildStart c w vars)
        | Cyclical => MOk (GYWildStart c w vars) end
    | Assign _ _ _ _ => MErr ENotImplemented
    | Access x d => match resolve_access c x d with None => MErr EKey | Some target =>
        match for_sampling_variable x c with Err e => MErr e | Ok c'' => mk n c'' target end end
    | Wrap wrapper inner _ => match c_method c with
        | Random => MOk (GRWrapStart c wrapper inner) | Combinatorial => MOk (GCWrapStart c wrapper inner)
        | Cyclical => MErr ENotImplemented end
    end.
Proof.
  intros n c cmd H. cbn [mk]. rewrite (chosen_none _ _ H), with_method_same. reflexivity.
Qed.

Theorem sure_live :
  (forall sc busy cmd, Sure E sc busy cmd -> forall c, scope_of c = sc -> c_busy c = busy -> LiveIn c cmd) /\
  (forall sc busy cmd, SureBody E sc busy cmd -> Body_live sc busy cmd).
Proof.
  apply (Sure_mutind E).
  - (* enter *)
    intros sc busy cmd _ IH c <- Hb. destruct (IH (with_method (chosen_method c cmd) c)) as (n & g & Hg & Hl).
    { apply scope_enter. }
    { exact Hb. }
    exists n, g. split; [|assumption]. intros m Hm. rewrite mk_resolved.
    rewrite <- chosen_method_resolve. now apply Hg.
  - (* literal *)
    intros sc busy s m Hm c <- Hb. cbn in Hm. exists 1, (GRepeat s). split; [|apply GRepeat_Live].
    intros [|n] Hn; [lia|]. cbn [with_mark]. rewrite mk_none by reflexivity. destruct (c_method c); congruence.
  - (* sequence *)
    intros sc busy tokens sep m Hm _ IHa _ IHs c <- Hb. cbn in Hm. exists 1, (GSeqStart c tokens sep). split.
    { intros [|n] Hn; [lia|]. cbn [with_mark]. rewrite mk_none by reflexivity. destruct (c_method c); congruence. }
    apply GSeqStart_Live.
    + intros x v ovr Hin Ho. eapply IHa; eauto.
    + intros c' toks tok Hsb Hbusy Hbd Hp Hin. eapply IHs; eauto. congruence.
  - (* random variant *)
    intros sc busy opts lo hi sep m Hm Hw Hne Hd _ IH c <- Hb. cbn in Hm. exists 1, (GRVarStart c opts lo hi sep). split.
    { intros [|n] Hn; [lia|]. cbn [with_mark]. rewrite mk_none by reflexivity. now rewrite Hm. }
    apply GRVarStart_Live; auto. intros v q Hin. eapply IH; eauto.
  - (* cyclical variant *)
    intros sc busy opts lo hi sep m k sel Hm Hw Hne Hmx Hk Hs _ IH c <- Hb. cbn in Hm.
    exists 1, (GYVarStart c opts lo hi sep). split.
    { intros [|n] Hn; [lia|]. cbn [with_mark]. rewrite mk_none by reflexivity. now rewrite Hm. }
    eapply GYVarStart_Live; eauto.
  - (* lone wildcard *)
    intros sc busy w mw vars q lo hi sep m path_cmd opts Hm Hr _ IHp Ho _ IHb c <- Hb. cbn in Hm.
    assert (Hstep : forall r, Yields (fun k => wildcard_to_variant G E (next k) k c w lo hi r)
      (fun x => exists path, Path E (scope_of c) w path /\ x = (opts path,
         (Z.max 0 (Z.min (Z.min lo hi) (Z.of_nat (length (env_lookup E path)))),
          Z.min (Z.max lo hi) (Z.of_nat (length (env_lookup E path))))))).
    { intros r. eapply Yields_impl; [eapply variant_Yields; [exact Hr|now apply IHp|eauto]|].
      intros [os bs] (path & Hp & Hos & Hbs). cbn [fst snd] in *. exists path. split; [assumption|].
      cbn zeta in Hbs. subst bs. f_equal. eapply OptionsOf_unique; eauto. }
    destruct (c_method c) eqn:Hcm; [|congruence|].
    + exists 1, (GRVarStart c [(Wild w mw vars, q)] lo hi sep). split.
      { intros [|n] Hn; [lia|]. cbn [with_mark]. rewrite mk_none by reflexivity. now rewrite Hcm. }
      apply Live_first. intros r. apply Yields_S. unfold_next G E. cbn [single_wildcard].
      eapply Yields_bind; [apply Yields_pep, Hstep|]. intros x r1 (path & Hp & ->). cbn beta iota.
      destruct (IHb path _ Hp eq_refl c eq_refl Hb) as (n & g & Hg & Hl).
      specialize (Hg (S n) ltac:(lia)). cbn [with_mark] in Hg. rewrite mk_none in Hg by reflexivity.
      rewrite Hcm in Hg. injection Hg as <-. now apply Live_step.
    + exists 1, (GYVarStart c [(Wild w mw vars, q)] lo hi sep). split.
      { intros [|n] Hn; [lia|]. cbn [with_mark]. rewrite mk_none by reflexivity. now rewrite Hcm. }
      apply Live_first. intros r. apply Yields_S. unfold_next G E. cbn [single_wildcard].
      eapply Yields_bind; [apply Yields_pep, Hstep|]. intros x r1 (path & Hp & ->). cbn beta iota.
      destruct (IHb path _ Hp eq_refl c eq_refl Hb) as (n & g & Hg & Hl).
      specialize (Hg (S n) ltac:(lia)). cbn [with_mark] in Hg. rewrite mk_none in Hg by reflexivity.
      rewrite Hcm in Hg. injection Hg as <-. now apply Live_step.
  - (* wildcard *)
    intros sc busy w m vars path_cmd meaning Hm Hr _ IHp Hpos Hex Hrd _ IHv _ IHm c <- Hb. cbn in Hm.
    assert (Hpath : forall r, Yields (fun k => pep479 G (sample_path G E (next k) k c w r)) (Path E (scope_of c) w)).
    { intros r. apply Yields_pep. eapply path_Yields; [exact Hr|now apply IHp]. }
    assert (Hext : Extended (scope_of c) vars (scope_of (with_variables vars c))) by apply with_variables_Extended.
    assert (Hbv : c_busy (with_variables vars c) = c_busy c) by (now destruct vars).
    destruct (c_method c) eqn:Hcm; [|congruence|].
    + exists 1, (GRWildStart c w vars). split.
      { intros [|n] Hn; [lia|]. cbn [with_mark]. rewrite mk_none by reflexivity. now rewrite Hcm. }
      apply Live_first. intros r. apply Yields_S. unfold_next G E.
      eapply Yields_bind; [apply Hpath|]. intros path r1 Hp. cbn zeta.
      destruct (env_lookup E path) as [|i items] eqn:Hlk.
      * apply GFallback_Yields. intros cmd Hcmd. exists cmd. split.
        { subst w. inversion Hr; subst. constructor. assumption. }
        eapply IHm; eauto. now rewrite Hbv.
      * apply Live_step, (GRWildLoop_Live _ (i :: items)); [discriminate| | | |apply wgen_of_start].
        -- intros j Hj. eapply (Hpos path Hp); [congruence|exact Hcm|]. rewrite Hlk. unfold pairs.
           apply in_map_iff. exists j. split; [reflexivity|assumption].
        -- rewrite <- Hlk. cbn [scope_of sc_method] in Hex. rewrite <- Hcm. apply Hex; congruence.
        -- intros v Hv. exists (meaning v). cbn [scope_of sc_method] in Hrd, IHv. rewrite Hcm, <- Hlk in *.
           split; [now apply (Hrd path)|]. eapply IHv; eauto. now rewrite Hbv.
    + exists 1, (GYWildStart c w vars). split.
      { intros [|n] Hn; [lia|]. cbn [with_mark]. rewrite mk_none by reflexivity. now rewrite Hcm. }
      apply Live_first. intros r. apply Yields_S. unfold_next G E.
      eapply Yields_bind; [apply Hpath|]. intros path r1 Hp. cbn zeta.
      assert (Hmv : with_method Cyclical (with_variables vars c) = with_variables vars c).
      { apply with_method_scope. now destruct vars. }
      rewrite Hmv.
      destruct (env_lookup E path) as [|i items] eqn:Hlk.
      * apply GFallback_Yields. intros cmd Hcmd. exists cmd. split.
        { subst w. inversion Hr; subst. constructor. assumption. }
        eapply IHm; eauto. now rewrite Hbv.
      * rewrite <- Hlk. cbn [scope_of sc_method] in Hrd, IHv, Hex. rewrite Hcm in *.
        eapply Yields_bind.
        -- apply sample_all_Live. intros v Hv. exists (meaning v).
           assert (Hd : Drawable Cyclical (env_lookup E path) v) by (apply Drawable_listed; [discriminate|assumption]).
           split; [now apply (Hrd path)|]. eapply IHv; eauto. now rewrite Hbv.
        -- intros gs r2 [Hgs Hlen]. apply Live_step, GYWildLoop_Live; [|assumption].
           intros ->. cbn in Hlen. destruct (iterate_weighted (env_lookup E path)) eqn:Hit; [|discriminate].
           destruct (Hex path Hp ltac:(congruence)) as (v & qv & Hin & Hq).
           apply in_map_iff in Hin as (j & [= <- <-] & Hj). fold (w_weight j) in Hq.
           assert (Hx : In (w_content j) (iterate_weighted (env_lookup E path))).
           { unfold iterate_weighted. apply in_flat_map. exists j. split; [assumption|].
             destruct (int_count (w_weight j)) as [|k] eqn:Hk; [|left; reflexivity].
             exfalso. destruct (int_count_spec (w_weight j)) as [_ Hlt]. rewrite Hk in Hlt.
             apply (Qclt_not_le _ _ Hlt). exact Hq. }
           rewrite Hit in Hx. destruct Hx.
  - (* access *)
    intros sc busy x d v Href Hnb _ IH c <- Hb.
    destruct (IH {| c_method := c_method c; c_ignws := c_ignws c; c_vars := c_vars c;
                    c_unknown := c_unknown c; c_busy := x :: c_busy c |}) as (n & g & Hg & Hl).
    { reflexivity. }
    { cbn. now rewrite Hb. }
    exists (S n), g. split; [|assumption]. intros [|k] Hk; [lia|]. cbn [with_mark].
    rewrite mk_none by reflexivity. rewrite (Refers_resolve _ _ _ _ Href). unfold for_sampling_variable.
    destruct (str_mem x (c_busy c)) eqn:Hx; [apply str_mem_In in Hx; rewrite Hb in Hx; contradiction|].
    apply Hg. lia.
  - (* wrap *)
    intros sc busy wrapper inner m Hm _ IHw _ IHi c <- Hb. cbn in Hm. exists 1, (GRWrapStart c wrapper inner). split.
    { intros [|n] Hn; [lia|]. cbn [with_mark]. rewrite mk_none by reflexivity. now rewrite Hm. }
    assert (Hloop : forall gw gi, Live gw -> Live gi -> Live (GRWrapLoop gw gi)).
    { intros gw gi Hgw Hgi. apply (Live_by (fun g => exists gw gi, g = GRWrapLoop gw gi /\ Live gw /\ Live gi)); [eauto|].
      clear. intros g r (gw & gi & -> & Hw & Hi). apply Yields_S. unfold_next G E.
      eapply Yields_bind; [now apply Live_step|]. intros [tw gw'] r1 Hw'. cbn in Hw'.
      eapply Yields_bind; [now apply Live_step|]. intros [ti gi'] r2 Hi'. cbn in Hi'. apply Yields_ret. left. cbn. eauto. }
    apply Live_first. intros r. apply Yields_S. unfold_next G E.
    eapply Yields_bind; [apply LiveIn_mk, IHw; auto|]. intros gw r1 Hgw.
    eapply Yields_bind; [apply LiveIn_mk, IHi; auto|]. intros gi r2 Hgi. apply Live_step. auto.
Qed.

(** * Runs *)
Lemma Live_collect : forall k g r, Live g ->
  exists n ts g' r', (forall m, n <= m -> collect G E m k g r = (ts, EndLimit g', Some r')) /\ length ts = k /\ Live g'.
Proof.
  induction k as [|k IH]; intros g r H; cbn [collect].
  - exists 0, [], g, r. auto.
  - destruct (Live_step g r H) as (n1 & [t g1] & r1 & H1 & Hl). cbn in Hl.
    destruct (IH g1 r1 Hl) as (n2 & ts & g2 & r2 & H2 & Hlen & Hl2).
    exists (n1 + n2), (t :: ts), g2, r2. split; [|split; [cbn; lia|assumption]].
    intros m Hm. rewrite H1 by lia. rewrite H2 by lia. reflexivity.
Qed.

Lemma sure_run : forall c p cmd k r, Reads E p cmd -> Sure E (scope_of c) (c_busy c) cmd ->
  exists n g ts g' r', (forall m, n <= m -> sample_prompts E m c p None = MOk g /\
    collect G E m k g r = (ts, EndLimit g', Some r')) /\ length ts = k.
Proof.
  intros c p cmd k r Hr Hs. pose proof (proj1 sure_live _ _ _ Hs c eq_refl eq_refl) as Hl.
  destruct (sample_Live _ _ _ Hr Hl) as (n & g & Hg & Hgl).
  destruct (Live_collect k g r Hgl) as (n' & ts & g' & r' & Hc & Hlen & _).
  exists (n + n'), g, ts, g', r'. split; [|assumption]. intros m Hm. split; [apply (Hg m None); lia|apply Hc; lia].
Qed.
End Live.
