(** Chances: where they come from, and several prompts. *)
From Coq Require Import String NArith ZArith QArith Qcanon Qabs Bool Arith List Permutation Lia.
From Verif.Model Require Import Str Float Utils Command Rng Values Context Sampler.
From Verif.Spec Require Import Text Comb Items StreamRng Lang Draws Seeds Sure Rolls Share Chance.
From Verif.Proofs Require Import StrFacts CommandFacts FloatFacts RngFacts Soundness EnumFacts ExhaustFacts RunFacts FuelFacts
  LiveFacts DrawFacts ShareFacts SeedFacts RollFacts RollRun ChanceFacts.
Import ListNotations.
Local Open Scope nat_scope.
Local Notation unit53 := Chance.unit53.
Local Notation fsum := (float_sum ieee_round).

(** * Cuts *)
Lemma cuts_climb : forall ws cuts, Stretches ieee_round ws cuts -> Climb cuts unit53.
Proof. intros ws cuts [H1 H2 H3 H4 H5]. exact (Climb_of cuts _ _ H1 H3 H4). Qed.

Lemma nth_mono : forall cuts n, (forall k, k < n -> (nth k cuts 0 <= nth (S k) cuts 0)%N) ->
  forall i k, i <= k -> k <= n -> (nth i cuts 0 <= nth k cuts 0)%N.
Proof.
  intros cuts n H i k Hik. induction Hik as [|k Hik IH]; intros Hk; [lia|].
  specialize (IH ltac:(lia)). specialize (H k ltac:(lia)). lia.
Qed.

Definition point (ws : list Qc) (x : N) : Qc := ieee_round (Q2Qc (Z.of_N x # 9007199254740992) * fsum ws)%Qc.

Lemma in_stretch : forall ws cuts x, Stretches ieee_round ws cuts -> (x < unit53)%N ->
  exists i, i < length ws /\ (nth i cuts 0 <= x < nth (S i) cuts 0)%N.
Proof.
  intros ws cuts x H Hx. pose proof (cuts_climb _ _ H) as HC. destruct H as [H1 H2 H3 H4 H5].
  destruct cuts as [|c cs]; [discriminate|]. cbn in H2. subst c.
  destruct (sel_at 0%Qc _ _ HC ws _ _ x eq_refl ltac:(cbn in H1; lia) ltac:(lia)) as (i & Hi & Hc).
  exists i. split; [|exact Hc]. apply nth_error_Some. congruence.
Qed.

Lemma cut_spec : forall ws cuts k x, Forall (fun w => 0 <= w)%Qc ws -> Stretches ieee_round ws cuts -> k <= length ws ->
  (x < unit53)%N -> ((x < nth k cuts 0)%N <-> (point ws x < fsum (firstn k ws))%Qc).
Proof.
  intros ws cuts k x Hw HS Hk Hx. destruct (in_stretch _ _ _ HS Hx) as (i & Hi & Hc).
  pose proof (st_points _ _ _ HS i x Hi Hc) as [P1 P2]. fold (point ws x) in P1, P2.
  pose proof (nth_mono cuts (length ws) (st_ordered _ _ _ HS)) as Hm.
  destruct (le_lt_dec k i) as [Hki|Hki].
  - split; intros H; exfalso.
    + pose proof (Hm k i Hki ltac:(lia)). lia.
    + apply (Qclt_not_le _ _ H). eapply Qcle_trans; [|exact P1]. apply (float_sum_mono stream_rng); [assumption|lia|lia].
  - split; intros _.
    + eapply Qclt_le_trans; [exact P2|]. apply (float_sum_mono stream_rng); [assumption|lia|lia].
    + pose proof (Hm (S i) k Hki ltac:(lia)). lia.
Qed.

Lemma stretches_unique : forall ws cuts cuts', Forall (fun w => 0 <= w)%Qc ws -> Stretches ieee_round ws cuts ->
  Stretches ieee_round ws cuts' -> cuts = cuts'.
Proof.
  intros ws cuts cuts' Hw H H'. apply (nth_ext _ _ 0%N 0%N).
  { now rewrite (st_length _ _ _ H), (st_length _ _ _ H'). }
  intros k Hk. rewrite (st_length _ _ _ H) in Hk.
  assert (Hle : forall c, Stretches ieee_round ws c -> (nth k c 0 <= unit53)%N).
  { intros c Hc. rewrite <- (st_end _ _ _ Hc). apply (nth_mono c (length ws) (st_ordered _ _ _ Hc)); lia. }
  assert (Hone : forall c c', Stretches ieee_round ws c -> Stretches ieee_round ws c' -> ~ (nth k c 0 < nth k c' 0)%N).
  { intros c c' Hc Hc' Hlt. pose proof (Hle _ Hc') as Hb.
    assert (Hx : (nth k c 0 < unit53)%N) by lia.
    pose proof (proj1 (cut_spec _ _ k _ Hw Hc' ltac:(lia) Hx) Hlt) as Hp.
    pose proof (proj2 (cut_spec _ _ k _ Hw Hc ltac:(lia) Hx) Hp). lia. }
  pose proof (Hone _ _ H H'). pose proof (Hone _ _ H' H). lia.
Qed.

Lemma stretches_exist : forall ws, Forall (fun w => 0 <= w)%Qc ws -> (0 < fsum ws)%Qc ->
  exists cuts, Stretches ieee_round ws cuts /\ Cuts 1 fsum ws cuts.
Proof.
  intros ws Hw Hpos. destruct (cut_points stream_rng ws Hw Hpos) as (cuts & HC & Hd). exists cuts. split; [|exact HC].
  destruct HC as [C1 C2 C3 C4 C5]. split; try assumption.
  intros i x Hi Hx. specialize (Hd [x]). destruct Hd as (j & Hj & Hjl & Hjc). cbn [prim_random stream_rng fst snd] in *.
  assert (Hb : (x < 2 ^ 53)%N).
  { rewrite <- C3. pose proof (nth_mono cuts (length ws) C4 (S i) (length ws) ltac:(lia) ltac:(lia)). lia. }
  rewrite N.mod_small in Hjc by exact Hb.
  assert (i = j) as <-.
  { destruct (lt_eq_lt_dec i j) as [[L|L]|L]; [exfalso|assumption|exfalso].
    - pose proof (nth_mono cuts (length ws) C4 (S i) j ltac:(lia) ltac:(lia)). lia.
    - pose proof (nth_mono cuts (length ws) C4 (S j) i ltac:(lia) ltac:(lia)). lia. }
  pose proof (draw_Picked stream_rng ws [x] i [] Hw Hpos Hj) as (_ & _ & y & pt & Hy & -> & P1 & P2).
  cbn in Hy. injection Hy as <-. rewrite N.mod_small in P1, P2 by exact Hb. split; assumption.
Qed.

Lemma stretches_cuts : forall ws cuts, Forall (fun w => 0 <= w)%Qc ws -> (0 < fsum ws)%Qc ->
  Stretches ieee_round ws cuts -> Cuts 1 fsum ws cuts.
Proof.
  intros ws cuts Hw Hpos H. destruct (stretches_exist ws Hw Hpos) as (cuts' & H1 & H2).
  now rewrite (stretches_unique _ _ _ Hw H H1).
Qed.

(** * Outcomes *)
Lemma tree_one : forall {A} n (t : tree A), Fits n t -> E mass t (fun _ => 1%Qc) = 1%Qc.
Proof.
  intros A n t H. induction H as [n a|n k H IH]; [reflexivity|]. cbn [E].
  rewrite (total_ext _ (fun _ => 1%Qc)) by (intros; apply IH). rewrite total_const, below_length. field. apply NQ_mass.
Qed.
Lemma law_one : forall {A} (R : list N -> A -> list N -> Prop) l, Law R l -> total (map snd l) = 1%Qc.
Proof.
  intros A R l (n & t & Hn & Ht & _). rewrite <- (tree_one n t Hn), Ht. unfold mean. apply total_ext. intros x _. ring.
Qed.

Lemma outcomes_one : forall (Env : env) cmd l, Outcomes ieee_round cmd l -> total (map snd l) = 1%Qc.
Proof.
  intros Env cmd l H. destruct (proj1 (outcomes_law Env) _ _ H) as (_ & _ & K).
  exact (law_one _ _ (K {| sc_method := Random; sc_squash := false; sc_var := fun _ => None; sc_unknown := None |} [] eq_refl)).
Qed.

Lemma glued_all : forall sep (l : list (list text * Qc)), exists l',
  Forall2 (fun o o' => Glued sep (fst o) (fst o') /\ snd o = snd o') l l'.
Proof.
  intros sep l. exists (map (fun o => (joined (fst o) sep, snd o)) l).
  induction l as [|o l IH]; constructor; [|assumption]. split; [apply joined_Glued|reflexivity].
Qed.
Lemma shares_length : forall cuts, length (shares cuts) = pred (length cuts).
Proof.
  induction cuts as [|a [|b cuts] IH]; [reflexivity|reflexivity|].
  change (shares (a :: b :: cuts)) with (Q2Qc ((Z.of_N b - Z.of_N a) # 9007199254740992) :: shares (b :: cuts)).
  cbn [length]. rewrite IH. reflexivity.
Qed.

Lemma outcomes_exist :
  (forall cmd, Simple ieee_round cmd -> exists l, Outcomes ieee_round cmd l) /\
  (forall cs, SimpleAll ieee_round cs -> (exists l, OutcomesAll ieee_round cs l) /\
     forall qs, length qs = length cs -> exists l, OutcomesOf ieee_round cs qs l).
Proof.
  apply Simple_mutind.
  - intros s m Hm. eexists. now constructor.
  - intros ts sep m Hm _ [[l Hl] _]. destruct (glued_all sep l) as [l' Hl']. exists l'. econstructor; eassumption.
  - intros v q lo hi sep m Hm _ [l Hl]. exists l. now constructor.
  - intros opts sep m Hm Hl Hw Hpos _ [_ IH].
    destruct (stretches_exist (map snd opts)) as (cuts & HS & _); [now apply Forall_map|assumption|].
    destruct (IH (shares cuts)) as [l Ho].
    { rewrite shares_length, (st_length _ _ _ HS), !map_length. reflexivity. }
    exists l. econstructor; eassumption.
  - split; [eexists; constructor|]. intros [|q qs] Hq; [|discriminate]. eexists. constructor.
  - intros c cs _ [l Hl] _ [[l' Hl'] IH]. split; [eexists; now constructor; eassumption|].
    intros [|q qs] Hq; [discriminate|]. injection Hq as Hq. destruct (IH qs Hq) as [l2 H2]. eexists. constructor; eassumption.
Qed.

Lemma tidied_exists : forall b l, exists l', Tidied b l l'.
Proof.
  intros b l. exists (map (fun o => (if b then squash_whitespace (fst o) else fst o, snd o)) l).
  induction l as [|o l IH]; constructor; [|assumption]. split; [|reflexivity].
  cbn. destruct b; [apply squash_Tidy|reflexivity].
Qed.

(** * Several prompts *)
Lemma outcomes_no_memory : forall Env,
  (forall cmd l, Outcomes ieee_round cmd l -> NoMemory Env cmd /\ forall w m vs, cmd <> Wild w m vs) /\
  (forall ts l, OutcomesAll ieee_round ts l -> Forall (NoMemory Env) ts) /\
  (forall cs qs l, OutcomesOf ieee_round cs qs l -> True).
Proof.
  intros Env.
  assert (Hu : forall m, Unmarked m -> m <> Some Cyclical) by (intros m [-> | ->]; discriminate).
  apply Outcomes_mutind; try (intros; exact I).
  - intros s m Hm. split; [constructor|discriminate].
  - intros ts sep m l l' Hm _ IH _. split; [constructor; auto|discriminate].
  - intros v q lo hi sep m l Hm _ [IH Hnw]. split; [|discriminate]. apply NM_one; auto.
  - intros opts sep m cuts l Hm Hl _ _ _ _. split; [|discriminate]. apply NM_var; [auto|lia].
  - constructor.
  - intros c cs l l' _ [IH _] _ IH'. now constructor.
Qed.

Section Many.
Variable Env : env.
Let G := stream_rng.

Lemma many_collected : forall c p cmd, NoMemoryCtx Env c -> NoMemory Env cmd -> Reads Env p cmd ->
  forall fuel us r r', RolledMany G Env c p r us r' -> forall g0 us2 g' r2, St G Env c cmd g0 ->
  collect G Env fuel (length us) (if c_ignws c then GSquash g0 else g0) r = (us2, EndLimit g', Some r2) -> us2 = us /\ r2 = r'.
Proof.
  intros c p cmd Hc Hn Hr fuel us r r' HR. induction HR as [r|r u r1 us r2 H HR IH]; intros g0 us2 g' r3 Hst Hx; cbn [collect length] in Hx.
  { injection Hx as <- _ <-. now split. }
  assert (Hask : forall m t g1 s1, next G Env m g0 r = OVal (t, g1) s1 ->
     u = (if c_ignws c then squash_whitespace t else t) /\ s1 = r1 /\ St G Env c cmd g1).
  { intros m t g1 s1 Hy. pose proof (memoryless G Env m c cmd g0 r Hc Hn Hst) as Hm. rewrite Hy in Hm.
    destruct Hm as [Hm|[[n0 Hm] Hg1]]; [discriminate|].
    destruct (rolled_first _ _ _ _ _ _ _ H) as (n1 & g2 & g2' & Hf). destruct (Hf (S (n0 + n1)) ltac:(lia)) as [F1 F2].
    specialize (Hm (n0 + n1) ltac:(lia)). unfold ask in Hm.
    destruct (mk (n0 + n1) c cmd) as [g3| |] eqn:Hg3; cbn [lift_mk obind] in Hm; try discriminate.
    destruct (next G Env (n0 + n1) g3 r) as [[t3 g4] s3| | |] eqn:Hx3; try discriminate. cbn in Hm. injection Hm as -> ->.
    assert (Hmade : exists g5, mk (S (n0 + n1)) c cmd = MOk g5 /\ g2 = if c_ignws c then GSquash g5 else g5).
    { destruct (made _ _ _ _ _ F1) as [->|(cmd0 & g5 & Hr0 & Hm5 & ->)].
      - cbn in F2. discriminate.
      - assert (cmd0 = cmd) as -> by (inversion Hr; subst; inversion Hr0; subst; congruence). now exists g5. }
    destruct Hmade as (g5 & Hm5 & ->).
    rewrite (le_mk_eq (n0 + n1) (S (n0 + n1)) c cmd) in Hm5; [|lia|rewrite Hg3; discriminate].
    rewrite Hg3 in Hm5. injection Hm5 as <-.
    split; [|split; [|eapply Hg1; reflexivity]].
    - destruct (c_ignws c).
      + revert F2. unfold_next G Env. rewrite Hx3. cbn. now intros [= <- _ _].
      + rewrite (next_more G Env (n0 + n1)) in F2; [|lia|rewrite Hx3; discriminate]. rewrite Hx3 in F2. now injection F2.
    - destruct (c_ignws c).
      + revert F2. unfold_next G Env. rewrite Hx3. cbn. now intros [= _ _ <-].
      + rewrite (next_more G Env (n0 + n1)) in F2; [|lia|rewrite Hx3; discriminate]. rewrite Hx3 in F2. now injection F2. }
  destruct (next G Env fuel (if c_ignws c then GSquash g0 else g0) r) as [[u1 g1] s1| | |] eqn:Hy; try discriminate.
  destruct (collect G Env fuel (length us) g1 s1) as [[us1 e] s2] eqn:Hk. injection Hx as <- -> ->.
  destruct (c_ignws c) eqn:Hi.
  - destruct fuel as [|fuel]; [discriminate|]. revert Hy. unfold_next G Env.
    destruct (next G Env fuel g0 r) as [[t g2] s3| | |] eqn:Hz; cbn; try discriminate. intros [= <- <- <-].
    destruct (Hask _ _ _ _ Hz) as (-> & -> & H2). destruct (IH g2 _ _ _ H2 Hk) as [-> ->]. now split.
  - destruct (Hask _ _ _ _ Hy) as (-> & -> & H2). destruct (IH g1 _ _ _ H2 Hk) as [-> ->]. now split.
Qed.

Definition GivesMany (c : ctx) (p : wpath) (k : nat) (s : list N) (us : list text) : Prop :=
  exists fuel g g' s', sample_prompts Env fuel c p None = MOk g /\ collect G Env fuel k g s = (us, EndLimit g', Some s').

Lemma gives_many : forall c p cmd k s us s', NoMemoryCtx Env c -> NoMemory Env cmd -> Reads Env p cmd ->
  Sure Env (scope_of c) (c_busy c) cmd -> RolledMany G Env c p s us s' -> length us = k ->
  forall us', GivesMany c p k s us' <-> us' = us.
Proof.
  intros c p cmd k s us s' Hc Hn Hr Hs HR <- us'.
  assert (Hone : forall fuel g us' g' s2, sample_prompts Env fuel c p None = MOk g ->
            collect G Env fuel (length us) g s = (us', EndLimit g', Some s2) -> us' = us).
  { intros fuel g us2 g' s2 Hg Hx. destruct (made _ _ _ _ _ Hg) as [->|(cmd0 & g0 & Hr0 & Hm & ->)].
    - destruct us; [injection Hx as <- _ _; reflexivity|]. cbn in Hx. destruct fuel; discriminate.
    - assert (cmd0 = cmd) as -> by (inversion Hr; subst; inversion Hr0; subst; congruence).
      eapply many_collected; try eassumption. eapply St_start, Hm. }
  split.
  - intros (fuel & g & g' & s2 & Hg & Hx). eapply Hone; eassumption.
  - intros ->. destruct (sure_run G Env c p cmd (length us) s Hr Hs) as (n & g & ts & g' & s2 & Hrun & _).
    destruct (Hrun n ltac:(lia)) as [Hg Hx]. rewrite (Hone _ _ _ _ _ Hg Hx) in Hx. now exists n, g, g', s2.
Qed.

Lemma many_chance : forall c p cmd l l' k, NoMemoryCtx Env c -> Reads Env p cmd -> Outcomes ieee_round cmd l ->
  Sure Env (scope_of c) (c_busy c) cmd -> Tidied (c_ignws c) l l' ->
  exists n0, forall n, n0 <= n -> forall us, exists hits, NoDup hits /\
    (forall s, In s hits <-> Numbers n s /\ GivesMany c p k s us) /\
    NQ (length hits) = (NQ (mass ^ n) * chance texts_dec us (repeated k l'))%Qc.
Proof.
  intros c p cmd l l' k Hc Hr Ho Hs Ht. pose proof (proj1 Hc) as Hm.
  pose proof (rolled_many_law Env c p l' k (rolled_law _ _ _ _ _ _ Hm Hr Ho Ht)) as HL.
  pose proof (proj1 (proj1 (outcomes_no_memory Env) _ _ Ho)) as Hn.
  destruct (law_count texts_dec _ _ HL) as [n0 H].
  { intros s a s1 b s2 [H1 L1] [H2 L2].
    pose proof (proj2 (gives_many c p cmd k s a s1 Hc Hn Hr Hs H1 L1 a) eq_refl) as K.
    exact (proj1 (gives_many c p cmd k s b s2 Hc Hn Hr Hs H2 L2 a) K). }
  destruct HL as (n1 & t & Hf & _ & Hrun).
  exists (n0 + n1). intros n Hle us. destruct (H n ltac:(lia) us) as (hits & H1 & H2 & H3). exists hits. split; [assumption|].
  split; [|assumption]. intros s. rewrite H2. split; intros [Hns Hx]; (split; [exact Hns|]).
  - destruct Hx as [s' [Hx Hl]]. now apply (gives_many c p cmd k s us s' Hc Hn Hr Hs Hx Hl).
  - destruct (fits_run n1 t Hf s ltac:(destruct Hns; lia)) as (b & s2 & Hb).
    destruct (Hrun _ _ _ (proj2 Hns) Hb) as [[HR Hl] _].
    pose proof (proj1 (gives_many c p cmd k s b s2 Hc Hn Hr Hs HR Hl us) Hx) as ->. eauto.
Qed.
End Many.

Lemma streams_mass : forall n, NQ (mass ^ n) = streams n.
Proof. intros n. unfold NQ, streams. rewrite Nat2Z.inj_pow, mass_Z. reflexivity. Qed.

(** * Checking cuts *)
Definition check_cut (ws : list Qc) (cuts : list N) (k : nat) : bool :=
  let c := nth k cuts 0%N in
  ((c =? 0)%N || ((c - 1 <? unit53)%N && Qc_ltb (point ws (c - 1)) (fsum (firstn k ws)))) &&
  ((unit53 <=? c)%N && (c =? unit53)%N || negb (Qc_ltb (point ws c) (fsum (firstn k ws)))).
Definition check_cuts (ws : list Qc) (cuts : list N) : bool :=
  (length cuts =? S (length ws)) && forallb (check_cut ws cuts) (seq 0 (S (length ws))).

Lemma stretches_check : forall ws cuts, Forall (fun w => 0 <= w)%Qc ws -> (0 < fsum ws)%Qc ->
  check_cuts ws cuts = true -> Stretches ieee_round ws cuts.
Proof.
  intros ws cuts Hw Hpos H. apply andb_prop in H. destruct H as [Hl H]. apply Nat.eqb_eq in Hl.
  rewrite forallb_forall in H. destruct (stretches_exist ws Hw Hpos) as (cuts' & HS & _).
  enough (cuts = cuts') as -> by assumption.
  apply (nth_ext _ _ 0%N 0%N); [now rewrite Hl, (st_length _ _ _ HS)|]. intros k Hk. rewrite Hl in Hk.
  specialize (H k ltac:(apply in_seq; lia)). unfold check_cut in H. set (c := nth k cuts 0%N) in *.
  assert (Hle : (nth k cuts' 0 <= unit53)%N).
  { rewrite <- (st_end _ _ _ HS). apply (nth_mono cuts' (length ws) (st_ordered _ _ _ HS)); lia. }
  apply andb_prop in H. destruct H as [H1 H2].
  assert (Hge : (c <= nth k cuts' 0)%N).
  { apply orb_prop in H1. destruct H1 as [H1|H1]; [apply N.eqb_eq in H1; lia|].
    apply andb_prop in H1. destruct H1 as [H1 H3]. apply N.ltb_lt in H1.
    pose proof (proj2 (cut_spec ws cuts' k (c - 1) Hw HS ltac:(lia) H1)) as K.
    enough (c - 1 < nth k cuts' 0)%N by lia. apply K. now apply Qc_ltb_spec. }
  assert (Hge2 : (nth k cuts' 0 <= c)%N).
  { apply orb_prop in H2. destruct H2 as [H2|H2].
    - apply andb_prop in H2. destruct H2 as [_ H2]. apply N.eqb_eq in H2. lia.
    - destruct (N.ltb_spec c (nth k cuts' 0%N)) as [K|K]; [|assumption]. exfalso.
      pose proof (proj1 (cut_spec ws cuts' k c Hw HS ltac:(lia) ltac:(lia)) K) as K2.
      apply Qc_ltb_spec in K2. rewrite K2 in H2. discriminate. }
  lia.
Qed.

Lemma glued_map : forall sep (l : list (list text * Qc)),
  Forall2 (fun o o' => Glued sep (fst o) (fst o') /\ snd o = snd o') l (map (fun o => (joined (fst o) sep, snd o)) l).
Proof. intros sep l. induction l as [|o l IH]; constructor; [|assumption]. split; [apply joined_Glued|reflexivity]. Qed.

Lemma mean_times : forall {A} (l : list (A * Qc)) q g, mean l (fun a => q * g a)%Qc = (q * mean l g)%Qc.
Proof. intros A l q g. unfold mean. rewrite <- total_scale. apply total_ext. intros x _. ring. Qed.

Lemma runs_multiply : forall u us k (l : list (text * Qc)), length us = k ->
  chance texts_dec (u :: us) (repeated (S k) l) = (chance text_dec u l * chance texts_dec us (repeated k l))%Qc.
Proof.
  intros u us k l _. cbn [repeated]. rewrite <- !mean_chance, mean_both. generalize (repeated k l). intros l2.
  rewrite (mean_ext l _ (fun a => mean l2 (fun b => if texts_dec b us then 1 else 0) * (if text_dec a u then 1 else 0))%Qc).
  - rewrite mean_times. ring.
  - intros a. destruct (text_dec a u) as [->|Hne].
    + rewrite Qcmult_1_r. apply mean_ext. intros b. destruct (texts_dec (u :: b) (u :: us)) as [K|K]; destruct (texts_dec b us); congruence.
    + rewrite Qcmult_0_r. unfold mean. rewrite (total_ext _ (fun _ => 0%Qc)).
      * rewrite total_const. ring.
      * intros x _. destruct (texts_dec (a :: fst x) (u :: us)) as [K|K]; [congruence|ring].
Qed.

Lemma shares_nth : forall cuts i q, nth_error (shares cuts) i = Some q ->
  q = Q2Qc ((Z.of_N (nth (S i) cuts 0%N) - Z.of_N (nth i cuts 0%N)) # 9007199254740992).
Proof.
  induction cuts as [|a [|b cuts] IH]; intros i q H; [destruct i; discriminate|destruct i; discriminate|].
  change (shares (a :: b :: cuts)) with (Q2Qc ((Z.of_N b - Z.of_N a) # 9007199254740992) :: shares (b :: cuts)) in H.
  destruct i as [|i]; [cbn in H; now injection H as <-|]. exact (IH i q H).
Qed.

Lemma shares_weights : forall ws cuts i w q,
  Forall (fun w => 0 <= w)%Qc ws -> (0 < fsum ws)%Qc -> (Z.of_nat (length ws) <= 2 ^ 48)%Z ->
  Stretches ieee_round ws cuts -> nth_error ws i = Some w -> nth_error (shares cuts) i = Some q ->
  (Qabs (q - w / exact_sum ws) <= (18 * inject_Z (Z.of_nat (length ws)) + 2) / 2 ^ 53)%Q.
Proof.
  intros ws cuts i w q Hw Hpos Hn HS Hi Hq. apply shares_nth in Hq.
  pose proof (stretch_length _ _ _ _ _ (true_cuts stream_rng _ _ Hw Hpos Hn (stretches_cuts _ _ Hw Hpos HS)) Hi) as H.
  subst q. cbn [this Q2Qc]. rewrite Qred_correct.
  set (d := (Z.of_N (nth (S i) cuts 0%N) - Z.of_N (nth i cuts 0%N))%Z) in *.
  set (v := (w / exact_sum ws)%Q) in *.
  assert (He : ((d # 9007199254740992) - v == (inject_Z d - 2 ^ 53 * v) / 2 ^ 53)%Q).
  { rewrite (Qmake_Qdiv d 9007199254740992). field. }
  rewrite He. unfold Qdiv. rewrite Qabs_Qmult.
  rewrite (Qabs_pos (/ 2 ^ 53)) by (vm_compute; discriminate).
  apply Qmult_le_compat_r; [|vm_compute; discriminate].
  eapply Qle_trans; [exact H|]. apply Qle_lteq. right. ring.
Qed.
