(** Chances for every kind of template: the drawing of a prompt. *)
From Coq Require Import String NArith ZArith QArith Qcanon Bool Arith List Permutation Lia.
From Verif.Model Require Import Str Float Utils Command Rng Values Context Sampler.
From Verif.Spec Require Import Text Comb Items StreamRng Lang Draws Seeds Sure Rolls Share Chance Odds.
From Verif.Proofs Require Import StrFacts CommandFacts FloatFacts RngFacts Soundness EnumFacts ExhaustFacts RunFacts FuelFacts ShareFacts
  RollFacts RollRun ChanceFacts ChanceRun OddsFacts.
Import ListNotations.
Local Open Scope nat_scope.
Local Notation unit53 := Chance.unit53.

Section Run.
Variable B : nat.
Hypothesis HB : 0 < B.
Hypothesis Hmass : N.divide unit53 (N.of_nat B).
Variable Env : env.
Let G := stream_rng.
Local Notation ILaw := (ILaw B).
Local Notation ILaws := (ILaws B).

Definition JobRolls (j : job) : list N -> list text -> list N -> Prop :=
  match j with
  | JAll sc busy cs => RollsAll G Env sc busy cs
  | JPath sc busy w => fun s ts s' => exists u, ts = [u] /\ RollsPath G Env sc busy w s u s'
  | JBody sc busy cmd => fun s ts s' => exists u, ts = [u] /\ RollsBody G Env sc busy cmd s u s'
  | JWild sc busy w path => fun s ts s' => exists u, ts = [u] /\
      ((env_lookup Env path <> [] /\ RollsValue G Env sc busy (env_lookup Env path) [] s u s') \/
       (env_lookup Env path = [] /\ exists name, w = WStr name /\ Wrapped (env_wrap Env) name u /\ s' = s) \/
       (env_lookup Env path = [] /\ exists cmd name, w = WCmd cmd /\ RollsPath G Env sc busy w s name s' /\
          Wrapped (env_wrap Env) name u))
  end.

Lemma ilaw_single : forall (R : list N -> text -> list N -> Prop) (R' : list N -> list text -> list N -> Prop) l,
  ILaw R l -> (forall s u s', R s u s' -> R' s [u] s') -> ILaw R' (single l).
Proof. intros R R' l H HR. exact (ilaw_map B (fun u => [u]) R R' l H HR). Qed.
Lemma ilaw_unsingle : forall (R : list N -> list text -> list N -> Prop) (R' : list N -> text -> list N -> Prop) l,
  ILaw R (single l) -> (forall s u s', R s [u] s' -> R' s u s') -> ILaw R' l.
Proof.
  intros R R' l H HR. apply (ilaw_rename B (fun ts u => ts = [u]) R R' (single l) l H).
  - clear. induction l as [|o l IH]; constructor; [split; reflexivity|assumption].
  - intros s a s' c Ha ->. now apply HR.
Qed.
Lemma renamed_snd : forall {A C} (S : A -> C -> Prop) l l', Renamed S l l' -> map snd l' = map snd l.
Proof. intros A C S l l' H. induction H as [|o o' l l' [_ Hq] H IH]; [reflexivity|]. cbn. now rewrite Hq, IH. Qed.
Lemma map_snd_combine : forall {X} (xs : list X) (qs : list Qc), length xs = length qs -> map snd (combine xs qs) = qs.
Proof. intros X. induction xs as [|x xs IH]; intros [|q qs] H; try discriminate; [reflexivity|]. cbn. f_equal. apply IH. now injection H. Qed.

(** Something is drawn, and then what depends on it. *)
Lemma ilaw_jobs : forall {X} (R0 : list N -> X -> list N -> Prop) l0 (S : X -> job -> Prop) js lp (R : list N -> list text -> list N -> Prop),
  ILaw R0 l0 -> Renamed S l0 js -> ILaws (map (fun o => (JobRolls (fst o), snd o)) js) lp ->
  (forall s x s1 j ts s2, R0 s x s1 -> S x j -> JobRolls j s1 ts s2 -> R s ts s2) -> ILaw R lp.
Proof.
  intros X R0 l0 S js lp R H0 HS HJ HR. apply (ilaw_then B R0 l0 _ lp R H0 HJ).
  - rewrite map_map. cbn [snd]. exact (renamed_snd _ _ _ HS).
  - intros i x q R1 s s1 a s2 Hi HR1 H1 H2. destruct (renamed_nth _ _ _ _ _ _ HS Hi) as (j & Hj & Hxj).
    rewrite nth_error_map, Hj in HR1. cbn in HR1. injection HR1 as <-. eapply HR; eassumption.
Qed.

Lemma clamp_nonneg : forall n z, (0 <= clamp n z)%Z.
Proof. intros n z. unfold clamp. lia. Qed.

Lemma odds_law :
  (forall sc busy cmd l, Odds (N.of_nat B) ieee_round Env sc busy cmd l -> ILaw (Rolls G Env sc busy cmd) l) /\
  (forall sc busy cmd l, OddsBody (N.of_nat B) ieee_round Env sc busy cmd l -> ILaw (RollsBody G Env sc busy cmd) l) /\
  (forall sc busy cs l, OddsAll (N.of_nat B) ieee_round Env sc busy cs l -> ILaw (RollsAll G Env sc busy cs) l) /\
  (forall sc busy w l, OddsPath (N.of_nat B) ieee_round Env sc busy w l -> ILaw (RollsPath G Env sc busy w) l) /\
  (forall sc busy ts l, OddsBinds (N.of_nat B) ieee_round Env sc busy ts l -> ILaw (RollsBinds G Env sc busy ts) l) /\
  (forall j l, OddsJob (N.of_nat B) ieee_round Env j l -> ILaw (JobRolls j) l) /\
  (forall js l, OddsMix (N.of_nat B) ieee_round Env js l -> ILaws (map (fun o => (JobRolls (fst o), snd o)) js) l).
Proof.
  apply Odds_mutind.
  - intros sc busy cmd l Hm _ IH. eapply ilaw_sub; [exact IH|]. intros s a s' H. now constructor.
  - intros sc busy s m. apply ilaw_ret. constructor.
  - intros sc busy tokens sep m lb toks js lp l _ IHb Hp HS _ IHm Hg.
    apply (ilaw_rename B (Glued sep) (fun s parts s2 => exists bs s1 sc', RollsBinds G Env sc busy tokens s bs s1 /\
             Extended sc bs sc' /\ RollsAll G Env sc' busy toks s1 parts s2) _ lp l).
    + eapply ilaw_jobs; [exact IHb|exact HS|exact IHm|]. intros s bs s1 j ts s2 H1 (sc' & Hx & ->) H2. cbn in H2. eauto 7.
    + exact Hg.
    + intros s parts s2 t (bs & s1 & sc' & H1 & H2 & H3) Hg1. econstructor; eassumption.
  - intros sc busy opts lo hi sep m lo' n lsel lp l Hl -> Hn Hpos Hd Hch _ IHm Hg.
    pose proof (counted_law B HB Hmass _ _ _ _ _ _ Hn Hpos (clamp_nonneg _ _) Hd Hch) as HL.
    apply (ilaw_rename B (Glued sep) (fun s parts s2 => exists sel s1,
             (exists k s0, Counted G (clamp (length opts) (Z.min lo hi)) (Z.min (Z.max lo hi) (Z.of_nat (length opts))) s k s0 /\
                Chosen G (map fst opts) (map snd opts) (Z.to_nat k) s0 sel s1) /\ RollsAll G Env sc busy sel s1 parts s2) _ lp l).
    + eapply (ilaw_jobs _ _ (fun sel j => j = JAll sc busy sel)); [exact HL| |exact IHm|].
      * clear. induction lsel as [|o l IH]; constructor; [split; reflexivity|assumption].
      * intros s sel s1 j ts s2 H1 -> H2. exists sel, s1. split; assumption.
    + exact Hg.
    + intros s parts s2 t (sel & s1 & (k & s0 & H1 & H2) & H3) Hg1. econstructor; eassumption.
  - intros sc busy v q lo hi sep m l Hn _ IH. eapply ilaw_sub; [exact IH|]. intros s a s' H. now constructor.
  - intros sc busy w mw vars q lo hi sep m ln js lp l _ IHp HS _ IHm ->.
    apply (ilaw_unsingle (fun s ts s2 => exists u, ts = [u] /\ RollsBody G Env sc busy (Var [(Wild w mw vars, q)] lo hi sep m) s u s2)).
    + eapply ilaw_jobs; [exact IHp|exact HS|exact IHm|].
      intros s path s1 j ts s2 H1 (opts & n & Ho & Hn & ->) (u & -> & H2). exists u. split; [reflexivity|].
      eapply Ro_lone; eassumption.
    + intros s u s' (u' & [= <-] & H). exact H.
  - intros sc busy w m vars ln sc' lp l _ IHp Hx _ IHm ->.
    apply (ilaw_unsingle (fun s ts s2 => exists u, ts = [u] /\ RollsBody G Env sc busy (Wild w m vars) s u s2)).
    + eapply (ilaw_jobs _ _ (fun path j => j = JWild sc' busy w path)); [exact IHp| |exact IHm|].
      * clear. induction ln as [|o l IH]; constructor; [split; reflexivity|assumption].
      * intros s path s1 j ts s2 H1 -> (u & -> & [[H2 H3]|[(H2 & name & -> & H3 & ->)|(H2 & cmd & name & -> & H3 & H4)]]);
          exists u; (split; [reflexivity|]).
        -- eapply Ro_wild; eassumption.
        -- eapply Ro_missing; eassumption.
        -- eapply Ro_missing_command; eassumption.
    + intros s u s' (u' & [= <-] & H). exact H.
  - intros sc busy x d c l Hr Hb _ IH. eapply ilaw_sub; [exact IH|]. intros s a s' H. econstructor; eassumption.
  - intros sc busy wrapper inner m lp l _ IH HS. eapply ilaw_rename; [exact IH|exact HS|].
    intros s parts s2 t Ha (tw & ti & b & a & -> & Hc & ->). inversion Ha; subst. 
    match goal with H : RollsAll _ _ _ _ [_] _ _ _ |- _ => inversion H; subst end.
    match goal with H : RollsAll _ _ _ _ [] _ _ _ |- _ => inversion H; subst end.
    eapply Ro_wrap; eassumption.
  - intros sc busy. apply ilaw_ret. constructor.
  - intros sc busy c cs l l' _ IH _ IH'. eapply ilaw_both; [exact IH|exact IH'|]. intros. econstructor; eassumption.
  - intros sc busy w c l l' Hr _ IH HS. eapply ilaw_rename; [exact IH|exact HS|]. intros. econstructor; eassumption.
  - intros sc busy. apply ilaw_ret. constructor.
  - intros sc busy tok toks l Hn _ IH. eapply ilaw_sub; [exact IH|]. intros s a s' H. now constructor.
  - intros sc busy x v imm v0 toks l Hv _ IH. eapply (ilaw_both B (fun s b s' => b = (x, v0) /\ s' = s)); [|exact IH|].
    + apply ilaw_ret. auto.
    + intros s a s1 b s2 [-> ->] H. now constructor.
  - intros sc busy x v ovr toks l Hv _ IH. eapply (ilaw_both B (fun s b s' => b = (x, v) /\ s' = s)); [|exact IH|].
    + apply ilaw_ret. auto.
    + intros s a s1 b s2 [-> ->] H. now constructor.
  - intros sc busy x t m ovr toks l Hv _ IH. eapply (ilaw_both B (fun s b s' => b = (x, Lit t m) /\ s' = s)); [|exact IH|].
    + apply ilaw_ret. auto.
    + intros s a s1 b s2 [-> ->] H. now constructor.
  - intros sc busy x v ovr toks l l' Hv Hnl _ IH _ IH'.
    eapply (ilaw_both B (fun s b s' => exists t, b = (x, Lit t None) /\ Rolls G Env sc busy v s t s')); [|exact IH'|].
    + apply (ilaw_map B (fun t => (x, Lit t None)) (Rolls G Env sc busy v)); [assumption|]. eauto.
    + intros s a s1 b s2 (t & -> & Ha) H. econstructor; eassumption.
  - intros sc busy cs l _ IH. exact IH.
  - intros sc busy w l _ IH. eapply ilaw_single; [exact IH|]. cbn. eauto.
  - intros sc busy cmd l _ IH. eapply ilaw_single; [exact IH|]. cbn. eauto.
  - (* even *)
    intros sc busy w path items l -> Hne He Hd _ IHm. set (items := env_lookup Env path) in *.
    assert (Hlen : 0 < length items) by (destruct items; [congruence|cbn; lia]).
    eapply (ilaw_then B _ _ _ _ _ (ilaw_below B HB _ Hlen Hd) IHm).
    + rewrite !map_map. unfold evenly. rewrite map_map. cbn [snd]. generalize (one_in (length items)). clear.
      intros q. generalize 0. induction items as [|i items IH]; intros c; [reflexivity|]. cbn. f_equal. apply IH.
    + intros i x q R1 s s1 a s2 Hi HR1 (y & -> & Hy) H1. unfold evenly in Hi. rewrite nth_error_map in Hi.
      destruct (nth_error (seq 0 (length items)) i) as [i'|] eqn:Hs; [|discriminate].
      assert (Hlt : i < length items) by (rewrite <- (seq_length (length items) 0); apply nth_error_Some; congruence).
      rewrite nth_error_seq in Hs by assumption. injection Hs as <-. cbn in Hi. assert (i = x) as -> by now injection Hi.
      rewrite !nth_error_map in HR1. destruct (nth_error items x) as [it|] eqn:Hit; [|discriminate].
      cbn [option_map fst snd] in HR1.
      assert (JobRolls (JPath sc busy (WStr (w_content it))) = R1) as <- by now injection HR1.
      destruct H1 as (u & -> & Hu). exists u. split; [reflexivity|]. left. split; [assumption|]. fold items.
      eapply RoV_taken; [|exact Hu]. eapply Su_even; [assumption|reflexivity|].
      fold items. rewrite <- Hy. unfold pairs. rewrite nth_error_map, Hit. reflexivity.
  - (* weighted *)
    intros sc busy w path items cuts l -> Hne Hw HS _ IHm. set (items := env_lookup Env path) in *.
    destruct (ilaw_picks B HB Hmass _ _ 9 Hw HS) as [l9 H9].
    pose proof (ilaw_ignore B _ _ _ _ (ilaw_pick B HB Hmass _ _ Hw HS) H9 (@etree_one B HB nat)) as HL.
    assert (Hpl : length (map snd (pairs items)) = length items) by (unfold pairs; rewrite !map_length; reflexivity).
    assert (Hsl : length (shares cuts) = length items) by (rewrite shares_length, (st_length _ _ _ HS), Hpl; reflexivity).
    eapply (ilaw_then B _ _ _ _ _ HL IHm).
    + rewrite map_map. cbn [snd]. rewrite (map_snd_combine (map _ _)) by (rewrite map_length; congruence).
      rewrite map_snd_combine by (rewrite seq_length; congruence). reflexivity.
    + intros i x q R1 s s1 a s2 Hi HR1 (is & s0 & Hp & Hps) H1.
      apply nth_error_combine in Hi. destruct Hi as [Hi Hq].
      assert (Hlt : i < length items) by (rewrite <- Hsl; apply nth_error_Some; congruence).
      rewrite Hpl, nth_error_seq in Hi by assumption. injection Hi as ->.
      rewrite nth_error_map in HR1.
      destruct (nth_error items x) as [it|] eqn:Hit; [|apply nth_error_None in Hit; lia].
      rewrite (nth_error_combine_both _ _ x (JPath sc busy (WStr (w_content it))) q) in HR1; [|now rewrite nth_error_map, Hit|assumption].
      cbn [option_map fst snd] in HR1.
      assert (JobRolls (JPath sc busy (WStr (w_content it))) = R1) as <- by now injection HR1.
      destruct H1 as (u & -> & Hu). exists u. split; [reflexivity|]. left. split; [intros K; unfold items in Hlt; rewrite K in Hlt; cbn in Hlt; lia|].
      fold items.
      assert (Hbuf : exists buffer, Forall2 (fun i t => exists q, nth_error (pairs items) i = Some (t, q)) is buffer).
      { clear -Hps. induction Hps as [|k r i r1 is r2 Hp _ [buf IH]]; [exists []; constructor|].
        destruct Hp as (_ & Hi & _). rewrite map_length in Hi.
        destruct (nth_error (pairs items) i) as [[t q]|] eqn:Hn; [|apply nth_error_None in Hn; lia].
        exists (t :: buf). constructor; eauto. }
      destruct Hbuf as [buffer Hbuf].
      eapply RoV_taken; [|exact Hu]. apply Su_refill with (x :: is).
      * assumption.
      * econstructor; eassumption.
      * constructor; [|exact Hbuf]. eexists. unfold pairs. rewrite nth_error_map, Hit. reflexivity.
  - intros sc busy name path t Hl Hw. apply ilaw_ret. intros s. exists t. split; [reflexivity|]. right. left.
    split; [assumption|]. exists name. auto.
  - intros sc busy cmd path l l' Hl _ IH HS.
    eapply (ilaw_single (fun s u s' => exists name, RollsPath G Env sc busy (WCmd cmd) s name s' /\ Wrapped (env_wrap Env) name u)).
    + eapply ilaw_rename; [exact IH|exact HS|]. eauto.
    + intros s u s' (name & H1 & H2). exists u. split; [reflexivity|]. right. right. split; [assumption|]. eauto.
  - apply ilaws_nil.
  - intros j js l _ IH. cbn [map fst snd]. now apply ilaws_never.
  - intros j q js l l' _ IH _ IH'. cbn [map fst snd]. now apply ilaws_cons.
Qed.

Lemma ilaw_chance : forall {A} (dec : forall a b : A, {a = b} + {a <> b}) (a : A) l,
  imean l (fun i => if match nth_error l i with Some (b, _) => if dec b a then true else false | None => false end then 1 else 0)%Qc
  = chance dec a l.
Proof.
  intros A dec a. unfold chance. induction l as [|[b q] l IH]; [reflexivity|].
  rewrite imean_cons. cbn [map fst snd nth_error]. rewrite total_cons, <- IH. f_equal. destruct (dec b a); ring.
Qed.

Lemma ilaw_count : forall {A} (dec : forall a b : A, {a = b} + {a <> b}) (R : list N -> A -> list N -> Prop) l, ILaw R l ->
  (forall s a s1 b s2, R s a s1 -> R s b s2 -> a = b) ->
  exists n0, forall n, n0 <= n -> (forall s, NumbersBelow (N.of_nat B) n s -> exists a s', R s a s') /\
    forall a, exists hits, NoDup hits /\
    (forall s, In s hits <-> NumbersBelow (N.of_nat B) n s /\ exists s', R s a s') /\
    NQ (length hits) = (NQ (B ^ n) * chance dec a l)%Qc.
Proof.
  intros A dec R l (n0 & t & Hn & Ht & Hr) Hd. exists n0. intros n Hle.
  assert (Hall : forall s, NumbersBelow (N.of_nat B) n s -> exists i s' a q, run t s = Some (i, s') /\ nth_error l i = Some (a, q) /\ R s a s').
  { intros s Hs. destruct (fits_run n0 t Hn s) as (i & s' & Hx); [destruct Hs; lia|].
    destruct (Hr _ _ _ (proj2 Hs) Hx) as (a & q & Hi & _ & HR & _). exists i, s', a, q. auto. }
  split.
  { intros s Hs. destruct (Hall s Hs) as (i & s' & a & q & _ & _ & HR). eauto. }
  intros a.
  exists (filter (hit (fun i => match nth_error l i with Some (b, _) => if dec b a then true else false | None => false end) t) (box B n)).
  split; [|split].
  - apply NoDup_filter, box_NoDup, HB.
  - intros s. rewrite filter_In, (box_In B HB). fold (NumbersBelow (N.of_nat B) n s). split; intros [Hs H]; (split; [exact Hs|]).
    + unfold hit in H. destruct (Hall s Hs) as (i & s' & b & q & Hx & Hi & HR). rewrite Hx, Hi in H.
      destruct (dec b a) as [->|]; [|discriminate]. eauto.
    + destruct H as [s2 HR2]. unfold hit. destruct (Hall s Hs) as (i & s' & b & q & Hx & Hi & HR). rewrite Hx, Hi.
      rewrite (Hd _ _ _ _ _ HR HR2). destruct (dec a a); congruence.
  - rewrite count; [|exact HB|apply (Fits_more n0); assumption]. f_equal. rewrite Ht. apply ilaw_chance.
Qed.

Lemma ilaw_many : forall c p l k, ILaw (Rolled G Env c p) l ->
  ILaw (fun s us s' => RolledMany G Env c p s us s' /\ length us = k) (repeated k l).
Proof.
  intros c p l k H. induction k as [|k IH]; cbn [repeated].
  - apply ilaw_ret. intros s. split; [constructor|reflexivity].
  - eapply ilaw_both; [exact H|exact IH|]. intros s a s1 b s2 Ha [Hb Hl]. split; [econstructor; eassumption|]. cbn. lia.
Qed.

Lemma first_odds : forall c p l, OddsPath (N.of_nat B) ieee_round Env (scope_of c) (c_busy c) p l ->
  exists n0, forall n, n0 <= n -> forall u, exists hits, NoDup hits /\
    (forall s, In s hits <-> NumbersBelow (N.of_nat B) n s /\ GivesFirst Env c p s u) /\
    NQ (length hits) = (NQ (B ^ n) * chance text_dec u l)%Qc.
Proof.
  intros c p l Ho. destruct odds_law as (_ & _ & _ & HP & _). pose proof (HP _ _ _ _ Ho) as HL.
  destruct (ilaw_count text_dec (Rolled G Env c p) l HL) as [n0 H].
  { intros s a s1 b s2 H1 H2. now destruct (rolled_det _ _ _ _ _ _ _ _ _ H1 H2). }
  exists n0. intros n Hn u. destruct (H n Hn) as [Hall H']. destruct (H' u) as (hits & H1 & H2 & H3). exists hits.
  split; [assumption|]. split; [|assumption]. intros s. rewrite H2. split; intros [Hs Hx]; (split; [exact Hs|]).
  - destruct Hx as [s' Hx]. destruct (rolled_first _ _ _ _ _ _ _ Hx) as (m & g & g' & Hg).
    destruct (Hg m ltac:(lia)). now exists m, g, g', s'.
  - destruct (Hall s Hs) as (b & s2 & HR). pose proof (gives_rolled _ _ _ _ _ _ _ HR Hx) as ->. eauto.
Qed.

Lemma many_odds : forall c p cmd l k, NoMemoryCtx Env c -> NoMemory Env cmd -> Reads Env p cmd ->
  Sure Env (scope_of c) (c_busy c) cmd -> OddsPath (N.of_nat B) ieee_round Env (scope_of c) (c_busy c) p l ->
  exists n0, forall n, n0 <= n -> forall us, exists hits, NoDup hits /\
    (forall s, In s hits <-> NumbersBelow (N.of_nat B) n s /\ GivesMany Env c p k s us) /\
    NQ (length hits) = (NQ (B ^ n) * chance texts_dec us (repeated k l))%Qc.
Proof.
  intros c p cmd l k Hc Hn Hr Hs Ho. destruct odds_law as (_ & _ & _ & HP & _). pose proof (HP _ _ _ _ Ho) as HL.
  pose proof (ilaw_many c p l k HL) as HM.
  destruct (ilaw_count texts_dec _ _ HM) as [n0 H].
  { intros s a s1 b s2 [H1 L1] [H2 L2].
    pose proof (proj2 (gives_many Env c p cmd k s a s1 Hc Hn Hr Hs H1 L1 a) eq_refl) as K.
    exact (proj1 (gives_many Env c p cmd k s b s2 Hc Hn Hr Hs H2 L2 a) K). }
  exists n0. intros n Hle us. destruct (H n Hle) as [Hall H']. destruct (H' us) as (hits & H1 & H2 & H3). exists hits.
  split; [assumption|]. split; [|assumption]. intros s. rewrite H2. split; intros [Hns Hx]; (split; [exact Hns|]).
  - destruct Hx as [s' [Hx Hl]]. now apply (gives_many Env c p cmd k s us s' Hc Hn Hr Hs Hx Hl).
  - destruct (Hall s Hns) as (b & s2 & HR & Hl).
    pose proof (proj1 (gives_many Env c p cmd k s b s2 Hc Hn Hr Hs HR Hl us) Hx) as ->. eauto.
Qed.

Lemma odds_one : forall sc busy p l, OddsPath (N.of_nat B) ieee_round Env sc busy p l -> total (map snd l) = 1%Qc.
Proof.
  intros sc busy p l H. destruct odds_law as (_ & _ & _ & HP & _). exact (ilaw_one B HB _ _ (HP _ _ _ _ H)).
Qed.

(** No text is listed that cannot be drawn, and none is missing. *)
Lemma odds_support : forall c p l u, OddsPath (N.of_nat B) ieee_round Env (scope_of c) (c_busy c) p l ->
  chance text_dec u l <> 0%Qc -> exists s, FineB B s /\ GivesFirst Env c p s u.
Proof.
  intros c p l u Ho Hu. destruct (first_odds c p l Ho) as [n0 H]. destruct (H n0 ltac:(lia) u) as (hits & _ & H2 & H3).
  destruct hits as [|s hits].
  - exfalso. cbn [length] in H3. rewrite NQ_0 in H3. symmetry in H3. apply Qcmult_integral in H3. destruct H3 as [K|K]; [|contradiction].
    revert K. apply NQ_pos. pose proof (Nat.pow_nonzero B n0). lia.
  - exists s. destruct (proj1 (H2 s) (or_introl eq_refl)) as [[_ Hs] Hg]. now split.
Qed.
End Run.

Lemma sequences_NQ : forall M n, NQ (N.to_nat M ^ n) = sequences M n.
Proof. intros M n. unfold NQ, sequences. rewrite Nat2Z.inj_pow, N_nat_Z. reflexivity. Qed.

(** * Even wildcards *)
Lemma chance_scaled : forall {A} (dec : forall a b : A, {a = b} + {a <> b}) a q l, chance dec a (scaled q l) = (q * chance dec a l)%Qc.
Proof. intros. rewrite <- !mean_chance. apply mean_scaled. Qed.
Lemma chance_app : forall {A} (dec : forall a b : A, {a = b} + {a <> b}) a l l', chance dec a (l ++ l') = (chance dec a l + chance dec a l')%Qc.
Proof. intros. rewrite <- !mean_chance. apply mean_app. Qed.
Lemma renamed_one : forall {A} (S : A -> A -> Prop) a q, S a a -> Renamed S [(a, q)] [(a, q)].
Proof. intros A S a q H. repeat constructor. exact H. Qed.

Lemma lit_path : forall M E sc busy t m, sc_method sc = Random -> Unmarked m -> t <> [] -> env_parse E t = Ok (Lit t m) ->
  Tidy (sc_squash sc) t t -> OddsPath M ieee_round E sc busy (WStr t) [(t, 1%Qc)].
Proof.
  intros M E sc busy t m Hs Hm Ht Hp Hy. apply OdP with (Lit t m) [(t, 1%Qc)].
  - now constructor.
  - constructor; [now apply (enter_random _ _ m)|constructor].
  - apply renamed_one. exact Hy.
Qed.

Lemma even_wildcard : forall M E sc busy name m items,
  sc_method sc = Random -> Unmarked m -> name <> [] -> env_parse E name = Ok (Lit name None) ->
  Tidy (sc_squash sc) name name -> items = env_lookup E name -> items <> [] ->
  AllEqual (map snd (pairs items)) -> N.divide (N.of_nat (length items)) M ->
  (forall it, In it items -> w_content it <> [] /\ env_parse E (w_content it) = Ok (Lit (w_content it) None) /\
     Tidy (sc_squash sc) (w_content it) (w_content it)) ->
  exists l, Odds M ieee_round E sc busy (Wild (WStr name) m []) l /\
    forall v, chance text_dec v l
      = (number (filter (fun it => if text_dec (w_content it) v then true else false) items) / number items)%Qc.
Proof.
  intros M E sc busy name m items Hs Hm Hn Hp Ht Hi Hne He Hd Hall.
  set (q := one_in (length items)).
  set (sc1 := enter sc (Wild (WStr name) m [])).
  assert (H1 : sc_method sc1 = Random) by now apply (enter_random _ _ m).
  assert (Hmix : forall its, (forall it, In it its -> In it items) ->
    OddsMix M ieee_round E (map (fun i => (JPath sc1 busy (WStr (w_content i)), q)) its) (map (fun i => ([w_content i], (q * 1)%Qc)) its)).
  { induction its as [|it its IH]; intros Hin; cbn [map]; [constructor|].
    apply (OdM_cons M ieee_round E (JPath sc1 busy (WStr (w_content it))) q _ [([w_content it], 1%Qc)]); [|apply IH; intros; apply Hin; now right].
    destruct (Hall it (Hin _ (or_introl eq_refl))) as (K1 & K2 & K3).
    apply (OdJ_path M ieee_round E sc1 busy (WStr (w_content it)) [(w_content it, 1%Qc)]).
    apply lit_path with None; try assumption. now left. }
  exists (map (fun i => (w_content i, (1 * (q * 1))%Qc)) items). split.
  - constructor; [exact H1|]. fold sc1.
    eapply (Od_wild M ieee_round E sc1 busy (WStr name) m [] [(name, 1%Qc)] sc1); [|apply Extended_refl| |reflexivity].
    + apply lit_path with None; try assumption. now left.
    + cbn [map fst snd].
      replace (single (map (fun i => (w_content i, (1 * (q * 1))%Qc)) items))
        with (scaled 1 (map (fun i => ([w_content i], (q * 1)%Qc)) items) ++ []).
      * apply OdM_cons; [|constructor]. eapply OdJ_even; [exact Hi|assumption|assumption|assumption|]. apply Hmix. auto.
      * rewrite app_nil_r. unfold scaled, single. rewrite !map_map. reflexivity.
  - intros v. change (@number witem) with (fun l : list witem => NQ (length l)). cbv beta.
    assert (Hc : forall its, chance text_dec v (map (fun i => (w_content i, (1 * (q * 1))%Qc)) its)
        = (NQ (length (filter (fun it => if text_dec (w_content it) v then true else false) its)) * q)%Qc).
    { induction its as [|it its IH].
      - cbn [map filter length]. rewrite NQ_0. unfold chance. cbn [map]. rewrite total_nil. ring.
      - unfold chance in *. cbn [map fst snd filter]. rewrite total_cons, IH. destruct (text_dec (w_content it) v); cbn [length]; rewrite ?NQ_S; ring. }
    rewrite Hc. unfold q. rewrite one_in_NQ. unfold Qcdiv. ring.
Qed.

Definition with_var (sc : scope) (x : text) (v : command) : scope :=
  {| sc_method := sc_method sc; sc_squash := sc_squash sc;
     sc_var := fun y => if text_dec y x then Some v else sc_var sc y; sc_unknown := sc_unknown sc |}.
Lemma extended_one : forall sc x v, Extended sc [(x, v)] (with_var sc x v).
Proof.
  intros sc x v. split; [repeat split|]. intros y. cbn. destruct (text_dec y x) as [->|H].
  - left. exists [], v, []. split; [reflexivity|]. split; [tauto|reflexivity].
  - right. split; [|reflexivity]. intros [K|[]]. congruence.
Qed.
