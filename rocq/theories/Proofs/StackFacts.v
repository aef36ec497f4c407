(** From wildcard files to prompts. *)
From Coq Require Import String NArith ZArith QArith Qcanon Bool Arith List Permutation Sorted Lia.
From Verif.Model Require Import Str Utils Command Rng Values Context Sampler Names Structured Tree Manager Parser Generators Stack.
From Verif.Spec Require Import Text Comb Items StreamRng Names Files Tree Lookup Enum Cycle Sure Choices Draws Syntax Lang Everyday FileWildcard.
From Verif.Proofs Require Import StrFacts UtilsFacts PlainFacts NamesFacts TreeFacts BuildFacts GlobFacts SyntaxFacts ManagerFacts LookupFacts GeneratorFacts Soundness EnumFacts BindFacts CycleFacts EnumRun ReachFacts EverydayFacts EndFacts.
From Verif.Properties Require Import P_Tree.
Import ListNotations.
Local Open Scope nat_scope.

(** * Templates whose k-th prompt is known, in the generator *)
Section CycGenerate.
Variable G : rng_impl.
Variable E : env.
Lemma fam_slice : forall n gs s i k m r, Fam G E n gs s -> n <= m ->
  next G E (S m) (GSlice (S k) (gs i)) r = OVal (s i, GSlice k (gs (S i))) r.
Proof. intros n gs s i k m r H Hm. cbn [next]. rewrite H by exact Hm. reflexivity. Qed.
Lemma fam_drain : forall n gs s, Fam G E n gs s -> forall k i m r, n <= m ->
  drain G E (S m) (S k) (GSlice k (gs i)) r = Ret (map s (seq i k)) r.
Proof.
  intros n gs s H. induction k as [|k IH]; intros i m r Hm; [reflexivity|].
  cbn [drain]. rewrite (fam_slice n gs s) by assumption. cbn [drain] in IH. rewrite IH by exact Hm. reflexivity.
Qed.
Lemma fam_seeded : forall n gs s, Fam G E n gs s -> forall l k i r, length l <= k ->
  exists r', forall m, n <= m -> seeded_loop G E (S m) l (GSlice k (gs i)) r = Ret (map s (seq i (length l))) r'.
Proof.
  intros n gs s H. induction l as [|z l IH]; intros k i r Hk; [exists r; reflexivity|].
  destruct k as [|k]; [cbn in Hk; lia|]. destruct (IH k (S i) (prim_seed G z)) as [r' Hr']; [cbn in Hk; lia|].
  exists r'. intros m Hm. cbn [seeded_loop]. rewrite (fam_slice n gs s) by assumption. rewrite Hr' by exact Hm. reflexivity.
Qed.
Lemma cyc_generate : forall c template cmd s u num seeds r, Reads E (WStr template) cmd -> Cyc E c cmd s ->
  (forall k, Tidy (c_ignws c) (s k) (u k)) -> Usable num seeds ->
  exists n r', forall m, n <= m -> random_generate G E m c template num seeds r = Ret (map u (seq 0 num)) r'.
Proof.
  intros c template cmd s u num seeds r Hr H Hu Hus. destruct (proj1 (cyc_gives G E) _ _ _ H _ (Same_refl c)) as (n & g & Hg & Hst).
  assert (Hst' : Streams G E (if c_ignws c then GSquash g else g) u).
  { destruct (c_ignws c).
    - apply (Streams_ext G E _ (fun k => squash_whitespace (s k))); [|now apply GSquash_Streams].
      intros k. symmetry. exact (Tidy_fun true _ _ (Hu k)).
    - apply (Streams_ext G E _ s); [|assumption]. intros k. symmetry. exact (Tidy_fun false _ _ (Hu k)). }
  destruct Hst' as (gs & n' & Hg0 & Hf).
  assert (Hs : forall m, n <= m -> sample_prompts E m c (WStr template) (Some num) = MOk (GSlice num (gs 0))).
  { intros m Hm. unfold sample_prompts. inversion Hr as [t cmd' Hne Hp|]; subst. destruct template as [|x t]; [congruence|].
    rewrite Hp, Hg by exact Hm. now rewrite Hg0. }
  assert (Hnone : exists n r', forall m, n <= m ->
    drain_mk G E m (S num) (sample_prompts E m c (WStr template) (Some num)) r = Ret (map u (seq 0 num)) r').
  { exists (S (n + n')), r. intros [|m] Hm; [lia|]. rewrite Hs by lia. cbn [drain_mk]. apply (fam_drain n'); [exact Hf|lia]. }
  assert (Hsome : forall l, length l = num -> exists n r', forall m, n <= m ->
    match sample_prompts E m c (WStr template) (Some num) with
    | MOk g => seeded_loop G E m l g r | MErr e => Exn e r | MFuel => NoFuel end = Ret (map u (seq 0 num)) r').
  { intros l Hl. destruct (fam_seeded n' gs u Hf l num 0 r ltac:(lia)) as [r' Hr']. rewrite Hl in Hr'.
    exists (S (n + n')), r'. intros [|m] Hm; [lia|]. rewrite Hs by lia. apply Hr'. lia. }
  unfold random_generate. destruct Hus as [|z| |z|l Hlen]; cbn [effective_seeds].
  - exact Hnone.
  - destruct (Z.eqb z 0); [exact Hnone|]. rewrite repeat_length, Nat.eqb_refl. apply Hsome, repeat_length.
  - exact Hnone.
  - rewrite repeat_length, Nat.eqb_refl. apply Hsome, repeat_length.
  - destruct l as [|z [|z' l]]; [exact Hnone| |].
    + rewrite repeat_length, Nat.eqb_refl. apply Hsome, repeat_length.
    + apply Nat.eqb_eq in Hlen as Hlen'. rewrite Hlen'. now apply Hsome.
Qed.
End CycGenerate.

(** * The manager is a fixed function *)
Lemma stack_lookup : forall P G alnum C ww roots fs s d r wc, UniqueNames fs ->
  lookup P G ww roots wc (fresh G fs s d false r) = Ok (env_lookup (stack P G alnum C ww roots fs s d r) wc).
Proof.
  intros P G alnum C ww roots fs s d r wc Hu. unfold stack, env_lookup.
  change ({| w_fs := fs; w_man := _; w_rng := r |}) with (fresh G fs s d false r).
  destruct (lookup_answer P G ww roots fs s d false r [] wc Hu (Forall_nil _)) as (raw & out & E & _).
  cbn in E. now rewrite E.
Qed.

(** Questions put to the manager, and its cache being cleared. *)
Definition asks (o : mop) : Prop :=
  (exists wc, o = OGet wc) \/ (exists n, o = OFile n) \/ o = ONames \/ o = OClear.
Lemma asks_quiet : forall o, asks o -> Quiet (fun b => b = false) o.
Proof. intros o [[w ->]|[[n ->]|[-> | ->]]]; cbn; auto. Qed.

Lemma step_flags : forall P G ww roots o w, asks o -> Inv P ww roots (fun b => b = false) (w_fs G w) (w_man G w) ->
  m_sort (w_man G (step P G ww roots o w)) = m_sort (w_man G w) /\
  m_dedup (w_man G (step P G ww roots o w)) = m_dedup (w_man G w).
Proof.
  intros P G ww roots o w Ho HI. destruct Ho as [[wc ->]|[[n ->]|[-> | ->]]]; cbn [step].
  - pose proof (get_values_ok P G ww roots _ (w_fs G w) wc (w_man G w) (w_rng G w) HI) as H.
    destruct (get_values P G ww roots (w_fs G w) wc (w_man G w) (w_rng G w)) as [[st v] r]. cbn [w_man].
    destruct H as (_ & Hs & Hd & _). auto.
  - cbn [w_man]. unfold get_file. destruct (clean_wildcard n ww); cbn; auto.
  - cbn. auto.
  - cbn. auto.
Qed.
Lemma run_flags : forall P G ww roots ops w, Forall asks ops ->
  Inv P ww roots (fun b => b = false) (w_fs G w) (w_man G w) ->
  m_sort (w_man G (run_ops P G ww roots ops w)) = m_sort (w_man G w) /\
  m_dedup (w_man G (run_ops P G ww roots ops w)) = m_dedup (w_man G w).
Proof.
  intros P G ww roots ops. induction ops as [|o ops IH]; intros w H HI; [auto|].
  inversion H as [|? ? Ho Hops]; subst. destruct (step_flags P G ww roots o w Ho HI) as [E1 E2].
  change (run_ops P G ww roots (o :: ops) w) with (run_ops P G ww roots ops (step P G ww roots o w)).
  rewrite <- E1, <- E2. apply IH; [exact Hops|].
  pose proof (run_Inv P G ww roots _ [o] w (Forall_cons _ (asks_quiet o Ho) (Forall_nil _)) HI) as [Ef HI'].
  cbn [run_ops fold_left] in Ef, HI'. now rewrite Ef.
Qed.

Lemma stack_answers : forall P G alnum C ww roots fs s d r ops wc, UniqueNames fs -> Forall asks ops ->
  lookup P G ww roots wc (run_ops P G ww roots ops (fresh G fs s d false r)) =
  Ok (env_lookup (stack P G alnum C ww roots fs s d r) wc).
Proof.
  intros P G alnum C ww roots fs s d r ops wc Hu Ho.
  pose proof (fresh_Inv P G ww roots (fun b => b = false) fs s d false r eq_refl) as HI.
  assert (Hq : Forall (Quiet (fun b => b = false)) ops) by (eapply Forall_impl; [apply asks_quiet|exact Ho]).
  pose proof (lookup_transparent P G ww roots (fresh G fs s d false r) ops wc HI Hq r) as H. cbn zeta in H.
  rewrite H.
  destruct (run_flags P G ww roots ops (fresh G fs s d false r) Ho HI) as [E1 E2].
  destruct (run_Inv P G ww roots _ ops (fresh G fs s d false r) Hq HI) as [Ef _].
  rewrite Ef, E1, E2. now apply stack_lookup.
Qed.

(** * A collection with unweighted values *)
Lemma Selected_other : forall fs n t, ~ In n (map fst t) -> Selected fs (eq n) t [].
Proof.
  intros fs n t. induction t as [|[m c] t IH]; intros H; [constructor|]. cbn in H.
  apply Selected_skip; [intros ->; tauto|]. apply IH. tauto.
Qed.
Lemma Selected_one : forall fs n c vs t, NoDup (map fst t) -> In (n, c) t -> CollHas fs c vs ->
  Selected fs (eq n) t vs.
Proof.
  intros fs n c vs t. induction t as [|[m c'] t IH]; intros Hd Hin Hc; [destruct Hin|].
  cbn in Hd. inversion Hd as [|? ? Hm Hd']; subst. destruct Hin as [E|Hin].
  - injection E as -> ->. rewrite <- (app_nil_r vs). apply Selected_take; [reflexivity|exact Hc|].
    now apply Selected_other.
  - apply Selected_skip; [|now apply IH]. intros ->. apply Hm. now apply (in_map fst) in Hin.
Qed.
Lemma Gathered_fun : forall fs pat t l l', UniqueNames fs -> Gathered fs pat t l -> Gathered fs pat t l' -> l = l'.
Proof.
  intros fs pat t l l' Hu H. revert l'. induction H; intros l' H'; inversion H'; subst; try contradiction; auto.
  f_equal; [eapply CollHas_functional; eassumption|auto].
Qed.

Lemma map_unweighted : forall out, Forall (fun i => w_weight_opt i = None) out ->
  out = map unweighted (map w_content out).
Proof.
  induction 1 as [|[t o] l H _ IH]; [reflexivity|]. cbn in *. subst o. now f_equal.
Qed.
Lemma stack_collection : forall P G alnum C ww roots fs r name c lines,
  UniqueNames fs -> SafeName name -> NoGlob name -> ~ StartsWith name ww -> ~ EndsWith name ww ->
  In (name, c) (build_map P fs roots) -> CollHas fs c (map unweighted lines) -> lines <> [] ->
  exists vals, InOrder lines vals /\
    env_lookup (stack P G alnum C ww roots fs true true r) name = map unweighted vals.
Proof.
  intros P G alnum C ww roots fs r name c lines Hu Hs Hg H1 H2 Hin Hc Hne.
  destruct (lookup_answer P G ww roots fs true true false r [] name Hu (Forall_nil _)) as (raw & out & E & HF & HA).
  cbn [run_ops fold_left] in E. rewrite (stack_lookup P G alnum C) in E by exact Hu.
  assert (E' : env_lookup (stack P G alnum C ww roots fs true true r) name = out) by congruence. clear E.
  assert (HG : Gathered fs name (build_map P fs roots) (map unweighted lines)).
  { apply (Gathered_Selected fs name (eq name)); [intros m; rewrite (Glob_plain name Hg); split; congruence|].
    apply Selected_one with (c := c); [apply build_map_NoDup|assumption|assumption]. }
  assert (HM : forall x, Matched fs ww (build_map P fs roots) name x -> x = map unweighted lines).
  { intros x [[H _]|(p & H & Hx)]; apply (Cleaned_of_safe ww name Hs H1 H2) in H; [discriminate|].
    injection H as ->. eapply Gathered_fun; eassumption. }
  assert (Hraw : raw = map unweighted lines).
  { destruct HF as [[HF _]|[HF _]]; [now apply HM|]. apply HM in HF. destruct lines; [congruence|discriminate]. }
  subst raw. rewrite E'. cbn [run_ops fold_left fresh w_man m_sort m_dedup] in HA.
  destruct HA as (mid & Hdd & _ & _ & Hst & _). specialize (Hdd eq_refl).
  specialize (Hst (conj eq_refl (Forall_nil _)) eq_refl). destruct Hdd as (Hnd & Hmid & _). destruct Hst as (Hp & Hsort & _).
  assert (Hio : forall i, In i out <-> In i (map unweighted lines)).
  { intros i. rewrite <- Hmid. split; apply Permutation_in; [now symmetry|exact Hp]. }
  assert (Hnone : out = map unweighted (map w_content out)).
  { apply map_unweighted, Forall_forall. intros i Hi. apply Hio, in_map_iff in Hi as (t & <- & _). reflexivity. }
  assert (Hnd' : NoDup out) by (eapply Permutation_NoDup; eassumption).
  exists (map w_content out). split; [|exact Hnone]. split; [|split].
  - clear - Hsort. induction Hsort as [|i l H IH Hf]; [constructor|]. cbn. constructor; [exact IH|].
    apply Forall_forall. intros t Ht. apply in_map_iff in Ht as (j & <- & Hj).
    rewrite Forall_forall in Hf. exact (Hf j Hj).
  - rewrite Hnone in Hnd'. now apply NoDup_map_inv in Hnd'.
  - intros v. split.
    + intros Hv. apply in_map_iff in Hv as (i & <- & Hi). apply Hio, in_map_iff in Hi as (t & <- & Ht). exact Ht.
    + intros Hv. apply in_map_iff. exists (unweighted v). split; [reflexivity|]. apply Hio. now apply in_map.
Qed.


(** * The template *)
Lemma Contains_pair : forall (x y : text) c a b, c <> a -> c <> b -> Contains (x ++ c :: y) [a; b] -> Contains (x ++ y) [a; b].
Proof.
  induction x as [|d x IH]; intros y c a b Ha Hb (p & q & E).
  - destruct p as [|e p]; injection E as E1 E2; [congruence|]. exists p, q. exact E2.
  - destruct p as [|e p].
    + injection E as -> E. destruct x as [|d x]; [injection E as E _; congruence|]. injection E as -> _.
      exists [], (x ++ y). reflexivity.
    + injection E as -> E. destruct (IH y c a b Ha Hb) as (p' & q' & E'); [now exists p, q|].
      exists (e :: p'), q'. cbn. now f_equal.
Qed.
Lemma Uncommented_mark : forall mark m x y, MarkText mark m -> Uncommented (x ++ y) -> Uncommented (x ++ mark ++ y).
Proof.
  intros mark m x y Hm H.
  assert (Hc : forall c, c <> 35%N -> c <> 9%N -> c <> 47%N -> c <> 42%N -> Uncommented (x ++ [c] ++ y)).
  { intros c H1 H2 H3 H4. destruct H as (Ha & Hb & Hd & He). split; [|split; [|split]].
    - intros Hi. apply Ha. apply in_app_or in Hi as [Hi|[Hi|Hi]]; [apply in_or_app; now left|congruence|apply in_or_app; now right].
    - intros Hi. apply Hb. eapply Contains_pair; [| |exact Hi]; assumption.
    - intros Hi. apply Hd. eapply Contains_pair; [| |exact Hi]; assumption.
    - intros Hi. apply He. apply in_app_or in Hi as [Hi|[Hi|Hi]]; [apply in_or_app; now left|congruence|apply in_or_app; now right]. }
  destruct Hm; [exact H| | |]; apply Hc; discriminate.
Qed.
Lemma wrap_not_empty : forall ww, WrapText ww -> ww <> [].
Proof. intros ww [H _]. exact H. Qed.

Lemma name_parse : forall ww alnum b mark m name, WrapText ww -> LettersAndDigits (standard ww) alnum ->
  WildcardName ww b name -> MarkText mark m ->
  parse alnum (standard ww) (ww ++ mark ++ name ++ ww) = Ok (Wild (WStr name) m []).
Proof.
  intros ww alnum b mark m name Hw Ha (Hne & Ho & Hms & Hbl & Hnw & Hu & Hs & Hg & Ht) Hm.
  assert (Hu' : Uncommented (ww ++ mark ++ name ++ ww)).
  { eapply Uncommented_mark; eassumption. }
  apply (written_parse ww Hw alnum Ha); [|exact Hu'].
  apply Prompt_elems with (cs := [Wild (WStr name) m []]); [|constructor].
  rewrite <- (app_nil_r (ww ++ mark ++ name ++ ww)). constructor; [|constructor].
  apply E_wildcard with (cs := [Lit name None]) (c := Lit name None); try assumption; try discriminate; try constructor.
  - assert (H : Elems ww Syntax.Path ww [Lit name None] (name ++ [])); [|now rewrite app_nil_r in H].
    apply Elems_literal with (q := Syntax.Path).
    + now left.
    + exact Hne.
    + exact Ho.
    + exact Hnw.
    + right. left. exists []. now rewrite app_nil_r.
    + intros H; contradiction.
    + constructor.
  - intros _. exact Hms.
Qed.

Lemma name_not_wrapped : forall ww b name, ww <> [] -> WildcardName ww b name -> ~ StartsWith name ww /\ ~ EndsWith name ww /\ ~ Contains name ww.
Proof.
  intros ww b name Hww (Hne & _ & _ & _ & Hnw & _).
  assert (Hc : ~ Contains name ww).
  { intros (p & q & E). specialize (Hnw p (q ++ ww)). rewrite E in Hnw. rewrite <- !app_assoc in Hnw.
    specialize (Hnw eq_refl). rewrite !app_length in Hnw. destruct ww; [congruence|cbn in Hnw; lia]. }
  repeat split; [| |exact Hc].
  - intros [q E]. apply Hc. exists [], q. exact E.
  - intros [q E]. apply Hc. exists q, []. now rewrite app_nil_r.
Qed.
Lemma name_plain : forall ww alnum b name, WrapText ww -> WildcardName ww b name ->
  parse alnum (standard ww) name = Ok (Lit name None).
Proof.
  intros ww alnum b name Hw H. pose proof (wrap_not_empty ww Hw) as Hww.
  destruct (name_not_wrapped ww b name Hww H) as (_ & _ & Hc).
  destruct H as (Hne & Ho & Hms & Hbl & Hnw & (Hu1 & Hu2 & Hu3 & Hu4) & Hs & Hg & Ht).
  refine (proj1 (plain_parse alnum (standard ww) _ name Hne _ _)).
  - repeat split; try discriminate. exact Hww.
  - split; [|exact Hc]. apply Forall_forall. intros c Hc'. rewrite Forall_forall in Ho. specialize (Ho c Hc').
    split.
    + intros Hr. apply Ho. unfold Reserved in Hr. cbn in Hr |- *. intuition (subst; auto).
    + intros ->. apply Hu4. apply in_or_app. right. apply in_or_app. now left.
  - intros (w & r & -> & Hbw & Hr). destruct Hr as [[q ->]|[[q ->]|(body & after & ->)]].
    + apply Hu1. apply in_or_app. right. apply in_or_app. left. apply in_or_app. right. now left.
    + apply Hu2. exists (ww ++ w), (q ++ ww). now rewrite <- !app_assoc.
    + apply Hu3. exists (ww ++ w), (body ++ $"*/" ++ after ++ ww). now rewrite <- !app_assoc.
Qed.

(** * The prompts *)
Lemma Forall2_len : forall A B (R : A -> B -> Prop) l l', Forall2 R l l' -> length l = length l'.
Proof. induction 1; cbn; congruence. Qed.
Lemma tidy_all : forall b l, exists us, Forall2 (Tidy b) l us.
Proof.
  induction l as [|t l [us IH]]; [exists []; constructor|]. destruct (tidy_exists b t) as [u Hu].
  exists (u :: us). now constructor.
Qed.
Lemma tidy_self : forall b t u, Tidy b t u -> Tidy b u u.
Proof.
  intros b t u H. apply Tidy_fun in H. subst u. destruct b; [|reflexivity].
  rewrite <- squash_idem at 2. apply GeneratorFacts.squash_Tidy.
Qed.
Lemma tidy_twice : forall b t u v, Tidy b t u -> Tidy b u v -> Tidy b t v.
Proof.
  intros b t u v H1 H2. pose proof (tidy_self _ _ _ H1) as H3. apply Tidy_fun in H2, H3. congruence.
Qed.
Section Prompts.
Variables (P : pylib) (G0 : rng_impl) (alnum : char -> bool) (ww : text) (roots : root_map) (fs : fsnode) (r0 : rng_state G0).
Variables (c : ctx) (name : text) (vals : list text).
Let E := stack P G0 alnum (standard ww) ww roots fs true true r0.
Hypothesis Hww : WrapText ww.
Hypothesis Hal : LettersAndDigits (standard ww) alnum.
Hypothesis Hname : WildcardName ww (c_ignws c) name.
Hypothesis Hlook : env_lookup E name = map unweighted vals.
Hypothesis Hne : vals <> [].
Hypothesis Hplain : forall l, In l vals -> l <> [] /\ Syntax.Plain (standard ww) l /\ ~ BeginsComment l.

Lemma marks : Marks (standard ww).
Proof. repeat split; try discriminate. exact (wrap_not_empty ww Hww). Qed.
Lemma reads_name : Reads E (WStr name) (Lit name None).
Proof. constructor; [apply Hname|]. cbn. eapply name_plain; eassumption. Qed.
Lemma reads_line : forall l, In l vals -> Reads E (WStr l) (Lit l None).
Proof.
  intros l Hl. destruct (Hplain l Hl) as (H1 & H2 & H3). constructor; [exact H1|].
  exact (proj1 (plain_parse alnum (standard ww) marks l H1 H2 H3)).
Qed.
Lemma name_tidy : Tidy (c_ignws c) name name.
Proof. apply Hname. Qed.
Lemma template_reads : forall mark m, MarkText mark m ->
  Reads E (WStr (ww ++ mark ++ name ++ ww)) (Wild (WStr name) m []).
Proof.
  intros mark m Hm. constructor; [|cbn; eapply name_parse; eassumption].
  intros H. apply app_eq_nil in H as [H _]. exact (wrap_not_empty ww Hww H).
Qed.
Lemma pairs_unweighted : forall l, pairs (map unweighted l) = map (fun t => (t, 1%Qc)) l.
Proof. intros l. unfold pairs. now rewrite map_map. Qed.
Lemma Listed_unweighted : forall l, Listed (map (fun t => (t, 1%Qc)) l) l.
Proof.
  induction l as [|t l IH]; [constructor|]. cbn [map]. apply (Listed_cons t 1%Qc 1); [|exact IH].
  split; [intros _; discriminate|reflexivity].
Qed.

Lemma file_combinatorial : forall G mark m limit, MarkText mark m -> c_method c = Combinatorial ->
  m = None \/ m = Some Combinatorial ->
  exists ts, Forall2 (Tidy (c_ignws c)) vals ts /\
    exists f, forall n steps r, f <= n -> length (at_most limit ts) < steps ->
      combinatorial_generate G E n steps c (ww ++ mark ++ name ++ ww) limit r = Ret (at_most limit ts) r.
Proof.
  intros G mark m limit Hm Hc Hmm.
  destruct (tidy_all (c_ignws c) vals) as [us Hus]. destruct (tidy_all (c_ignws c) us) as [ts Hts].
  assert (Hsame : Forall2 (Tidy (c_ignws c)) vals ts).
  { clear - Hus Hts. revert ts Hts. induction Hus as [|t u l us Htu _ IH]; intros ts Hts; inversion Hts; subst; constructor; [|auto].
    eapply tidy_twice; eassumption. }
  exists ts. split; [exact Hsame|]. apply combinatorial_list; [exact Hc|].
  eapply EnP_reads with (ts := us); [exact (template_reads mark m Hm)| |exact Hts].
  replace us with (concat (map (fun u => [u]) us)) by (clear; induction us; cbn; congruence).
  eapply En_wild with (path := name) (c' := c) (vals := vals).
  - exact Hmm.
  - apply EnPa_finite with (rest := []). eapply EnP_reads with (ts := [name]); [exact reads_name|apply En_lit; left; reflexivity|].
    constructor; [exact name_tidy|constructor].
  - rewrite Hlook. destruct vals; [congruence|discriminate].
  - apply Extends_nil.
  - rewrite Hlook, pairs_unweighted. apply Listed_unweighted.
  - assert (Hr : forall l, In l vals -> Reads E (WStr l) (Lit l None)) by exact reads_line.
    clear - Hus Hr. induction Hus as [|t u l us Htu _ IH]; [constructor|]. cbn [map]. constructor.
    + eapply EnP_reads with (ts := [t]); [apply Hr; left; reflexivity|apply En_lit; left; reflexivity|]. constructor; [exact Htu|constructor].
    + apply IH. intros x Hx. apply Hr. now right.
Qed.

Hypothesis Hvars : c_vars c = [].
Hypothesis Hbusy : c_busy c = [].

Lemma drawable_value : forall m v, Drawable m (env_lookup E name) v <-> In v vals.
Proof.
  intros m v. rewrite Hlook. unfold Drawable. rewrite pairs_unweighted. split.
  - intros H. assert (Hq : exists q, In (v, q) (map (fun t => (t, 1%Qc)) vals))
      by (destruct m; destruct H as (q & Hq & _); now exists q).
    destruct Hq as [q Hq]. apply in_map_iff in Hq as (t & Et & Ht). injection Et as -> _. exact Ht.
  - intros H. assert (Hq : In (v, 1%Qc) (map (fun t => (t, 1%Qc)) vals)) by (apply in_map_iff; now exists v).
    destruct m; exists 1%Qc; (split; [exact Hq|]); [reflexivity|discriminate|discriminate].
Qed.
Lemma reads_only : forall p cmd cmd', Reads E p cmd -> Reads E p cmd' -> cmd = cmd'.
Proof. intros p cmd cmd' H H'. destruct H; inversion H'; subst; congruence. Qed.

(** What is allowed: the tidied values. *)
Lemma file_allowed : forall mark m u, MarkText mark m ->
  (Allowed E c (WStr (ww ++ mark ++ name ++ ww)) u <-> exists v, In v vals /\ Tidy (c_ignws c) v u).
Proof.
  intros mark m u Hm. pose proof (template_reads mark m Hm) as Hr. split.
  - intros (cmd & t & Hr' & Hp & Ht). pose proof (reads_only _ _ _ Hr' Hr) as ->.
    inversion Hp as [? ? ? Hb]; subst.
    assert (Hpath : forall sc w p, w = WStr name -> sc_squash sc = c_ignws c -> Path E sc w p -> p = name).
    { intros sc w p -> Hsc Hq. pose proof name_tidy as Hnt. pose proof reads_name as Hrn.
      inversion Hq as [? ? cmd t' ? Hx Hpp Htt]; subst.
      pose proof (reads_only _ _ _ Hx Hrn) as ->. inversion Hpp as [? ? ? Hbb]; subst. inversion Hbb; subst.
      rewrite Hsc in Htt. apply Tidy_fun in Htt, Hnt. congruence. }
    inversion Hb as [| | | | | |sc w m' vs path sc' v cmd tx ux Hpa Hl Hex Hdr Hrd Hpr Htd|sc w m' vs path sc' nm tx Hpa Hl Hex _ _ _| | ]; subst.
    + apply (Hpath _ _ _ eq_refl) in Hpa; [subst path|destruct m; reflexivity].
      apply drawable_value in Hdr. exists v. split; [exact Hdr|].
      pose proof (reads_only _ _ _ Hrd (reads_line v Hdr)) as ->. inversion Hpr as [? ? ? Hbb]; subst. inversion Hbb; subst.
      assert (Hsq : sc_squash (enter (scope_of c) (Wild (WStr name) m [])) = c_ignws c) by (destruct m; reflexivity).
      rewrite Hsq in Htd. eapply tidy_twice; eassumption.
    + apply (Hpath _ _ _ eq_refl) in Hpa; [subst path|destruct m; reflexivity].
      rewrite Hlook in Hl. destruct vals; [congruence|discriminate].
  - intros (v & Hv & Hu). exists (Wild (WStr name) m []), u. split; [exact Hr|]. split; [|exact (tidy_self _ _ _ Hu)].
    constructor. set (sc := enter (scope_of c) (Wild (WStr name) m [])).
    assert (Hsq : sc_squash sc = c_ignws c) by (destruct m; reflexivity).
    eapply B_wild with (path := name) (v := v) (t := v).
    + econstructor; [exact reads_name|repeat constructor|]. rewrite Hsq. exact name_tidy.
    + rewrite Hlook. destruct vals; [congruence|discriminate].
    + split; [repeat split|]. intros x. right. split; [intros []|reflexivity].
    + now apply drawable_value.
    + now apply reads_line.
    + repeat constructor.
    + rewrite Hsq. exact Hu.
Qed.

Lemma file_everyday : forall m, resolve (c_method c) m <> Combinatorial ->
  Everyday E (c_ignws c) no_names (c_method c) (Wild (WStr name) m []).
Proof.
  intros m Hm. apply Ev_wild with (path := name).
  - split; [apply Hname|]. exists name. split; [|exact name_tidy]. pose proof reads_name as H. now inversion H.
  - intros x v [].
  - intros x v m' [].
  - intros _ _ v q H. rewrite Hlook, pairs_unweighted in H. apply in_map_iff in H as (t & Et & _).
    injection Et as _ <-. discriminate.
  - intros _. assert (Hv : exists v, In v vals) by (destruct vals as [|v l]; [congruence|exists v; now left]).
    destruct Hv as [v Hv]. exists v. now apply drawable_value.
  - intros v Hv. apply drawable_value, reads_line in Hv. inversion Hv; subst. split; [assumption|]. eexists; eassumption.
  - intros v cmd Hv Hp. apply drawable_value, reads_line in Hv. inversion Hv as [? ? _ Hp'|]; subst.
    rewrite Hp in Hp'. injection Hp' as ->. constructor.
Qed.

Lemma file_random : forall G mark m num seeds r, MarkText mark m -> c_method c <> Combinatorial -> Usable num seeds ->
  exists n ts r', (forall f, n <= f -> random_generate G E f c (ww ++ mark ++ name ++ ww) num seeds r = Ret ts r') /\
    length ts = num /\ forall t, In t ts -> exists v, In v vals /\ Tidy (c_ignws c) v t.
Proof.
  intros G mark m num seeds r Hm Hc Hu.
  pose proof (template_reads mark m Hm) as Hr. inversion Hr as [? ? Hne' Hp|]; subst.
  destruct (everyday_prompts G alnum (standard ww) E c (ww ++ mark ++ name ++ ww) (Wild (WStr name) m []) num seeds r)
    as (n & ts & r' & H & Hl & Ha); try assumption; [reflexivity| |].
  { apply file_everyday. destruct m as [[]|], (c_method c); cbn; congruence. }
  exists n, ts, r'. split; [exact H|]. split; [exact Hl|]. intros t Ht. rewrite Forall_forall in Ha.
  apply Ha in Ht. now apply (file_allowed mark m t Hm) in Ht.
Qed.

(** Every value can be drawn. *)
Lemma file_drawn : forall mark m v u, MarkText mark m -> resolve (c_method c) m = Random ->
  In v vals -> Tidy (c_ignws c) v u -> Drawn E c (WStr (ww ++ mark ++ name ++ ww)) u.
Proof.
  intros mark m v u Hm Hr Hv Hu. set (sc := enter (scope_of c) (Wild (WStr name) m [])).
  assert (Hsq : sc_squash sc = c_ignws c) by (destruct m; reflexivity).
  econstructor; [exact (template_reads mark m Hm)| |exact (tidy_self _ _ _ Hu)].
  constructor; [exact Hr|]. fold sc.
  eapply Dr_wild with (path := name) (v := v) (q := 1%Qc) (t := v).
  - econstructor; [exact reads_name| |rewrite Hsq; exact name_tidy]. constructor; [|constructor].
    cbn [enter sc_method mark_of]. exact Hr.
  - split; [repeat split|]. intros x. right. split; [intros []|reflexivity].
  - rewrite Hlook, pairs_unweighted. apply in_map_iff. now exists v.
  - left. rewrite Hlook, pairs_unweighted, map_map. intros a b Ha Hb.
    apply in_map_iff in Ha as (x & <- & _). apply in_map_iff in Hb as (y & <- & _). reflexivity.
  - now apply reads_line.
  - constructor; [|constructor]. cbn [enter sc_method mark_of]. exact Hr.
  - rewrite Hsq. exact Hu.
Qed.

Lemma file_cyclical : forall G mark m num seeds r ts, MarkText mark m -> resolve (c_method c) m = Cyclical ->
  Usable num seeds -> Forall2 (Tidy (c_ignws c)) vals ts ->
  exists n r', forall f, n <= f -> random_generate G E f c (ww ++ mark ++ name ++ ww) num seeds r =
    Ret (map (fun k => nth (k mod length vals) ts []) (seq 0 num)) r'.
Proof.
  intros G mark m num seeds r ts Hm Hr Hu Hts.
  assert (Hlen : length vals = length ts) by exact (Forall2_len _ _ _ _ _ Hts).
  assert (Hts' : forall i, i < length ts -> Tidy (c_ignws c) (nth i ts []) (nth i ts [])).
  { clear - Hts. induction Hts as [|v t l us Hvt _ IH]; intros i Hi; [cbn in Hi; lia|].
    destruct i as [|i]; cbn; [exact (tidy_self _ _ _ Hvt)|]. apply IH. cbn in Hi. lia. }
  apply cyc_generate with (cmd := Wild (WStr name) m []) (s := fun k => nth (k mod length vals) ts []); [exact (template_reads mark m Hm)| | |exact Hu].
  - eapply Cy_wild with (path := name) (c' := as_method Cyclical c) (vals := vals) (ss := map (fun t _ => t) ts); auto.
    + eapply CyP_reads with (s := fun _ => name);
        [exact reads_name|apply Cy_lit; [now right|reflexivity]|exact name_tidy].
    + rewrite Hlook. destruct vals; [congruence|discriminate].
    + apply Extends_nil.
    + rewrite Hlook, pairs_unweighted. apply Listed_unweighted.
    + assert (Hrl : forall l, In l vals -> Reads E (WStr l) (Lit l None)) by exact reads_line.
      clear - Hts Hrl. induction Hts as [|t u l us Htu _ IH]; [constructor|]. cbn [map].
      apply CyT_cons with (cmd := Lit t None) (s := fun _ => t).
      * apply Hrl. now left.
      * apply Cy_lit; [now right|reflexivity].
      * intros _. exact Htu.
      * apply IH. intros x Hx. apply Hrl. now right.
    + intros k. change (fun _ : nat => @nil N) with ((fun (t : text) (_ : nat) => t) []).
      now rewrite map_nth.
  - intros k. apply Hts'. rewrite <- Hlen. apply Nat.mod_upper_bound. destruct vals; [congruence|discriminate].
Qed.
End Prompts.

(** * A folder of text files *)
Lemma DirAt_get : forall fs root es, DirAt fs root es -> UniqueNames fs -> fs_get root fs = Some (FDir es).
Proof.
  intros fs root es H. induction H as [es|es name n path es' Hin H IH]; intros Hu; [reflexivity|].
  cbn [fs_get]. inversion Hu as [|? Hd Hc]; subst.
  assert (E : od_get name es = Some n).
  { destruct (od_get name es) as [n'|] eqn:E.
    - apply od_get_In in E. f_equal. clear - Hd Hin E. induction es as [|[m k] es IHes]; [destruct Hin|].
      cbn in Hd. inversion Hd as [|? ? Hm Hd']; subst. destruct Hin as [H1|H1], E as [H2|H2].
      + congruence.
      + injection H1 as -> ->. apply (in_map fst) in H2. contradiction.
      + injection H2 as -> ->. apply (in_map fst) in H1. contradiction.
      + auto.
    - apply od_get_None in E. apply (in_map fst) in Hin. contradiction. }
  rewrite E. apply IH. eapply Hc; eassumption.
Qed.
Lemma folder_file : forall P fs root name lines, UniqueNames fs -> SafeName name -> TextFileNamed fs root name lines ->
  exists c, In (name, c) (build_map P fs [([], [RPath root])]) /\ CollHas fs c (map unweighted lines).
Proof.
  intros P fs root name lines Hu Hs (es & dir & f & stem & content & Hd & Hv & Hx & Hn & Hl & Honly).
  pose proof (DirAt_get fs root es Hd Hu) as Hg.
  exists (CText (root ++ dir ++ [f]) None). split.
  - assert (E : Definitions (mappingify P fs) [([], [RPath root])] =
                map (fun nc => ([], fst nc, snd nc)) (build_map_from_path P root (FDir es))).
    { unfold Definitions. cbn [flat_map snd fst mappingify]. rewrite Hg, !app_nil_r. reflexivity. }
    assert (Ht : SlashTrimmed (slash :: name) name).
    { destruct Hs as (_ & _ & _ & Hs1 & Hs2). exists [slash], []. rewrite app_nil_r. repeat split; auto. }
    assert (Hc0 : forall n c, In (n, c) (build_map_from_path P root (FDir es)) -> SlashTrimmed (slash :: n) name ->
      c = CText (root ++ dir ++ [f]) None).
    { intros n c Hc Hst. apply build_map_from_path_spec, LastDef_In in Hc. apply in_flat_map in Hc as ([[dir' f'] content'] & Hin & Hc).
      cbn [file_defs] in Hc. apply os_walk_spec in Hin as (rel & -> & Hf & Hh). cbn [app] in *.
      destruct (Honly rel f' content' (conj Hf Hh)) as (Ho & Hj & Hy).
      destruct c as [items|path cache].
      - exfalso. unfold collections_from_path in Hc. destruct (split_suffix f') as [st su] eqn:Es. cbn [fst snd] in Hc.
        destruct (str_eqb_spec su $".txt") as [->|_]; [destruct Hc as [Hc|[]]; discriminate|].
        destruct (str_eqb_spec su $".json") as [->|_]; [apply split_suffix_inv in Es; [|discriminate]; exact (Hj _ Es)|].
        destruct (str_eqb_spec su $".yaml") as [->|_]; [apply split_suffix_inv in Es; [|discriminate]; exact (Hy _ Es)|].
        exact Hc.
      - apply collections_text in Hc as (stem' & Hs' & -> & -> & ->). destruct (Ho stem' Hs' Hst) as [-> ->]. reflexivity. }
    destruct (dir_text_found P root es dir f stem content Hv Hx) as [c Hc]. rewrite <- Hn in Hc.
    pose proof (Hc0 name c Hc Ht) as ->.
    apply C39_defined_once with (prefix := []) (n := name).
    + rewrite E. apply in_map_iff. now exists (name, CText (root ++ dir ++ [f]) None).
    + exact Ht.
    + intros prefix' n' c' Hin Hst. rewrite E in Hin. apply in_map_iff in Hin as ([n c] & Enc & Hin).
      injection Enc as <- <- <-. cbn in Hst. eapply Hc0; eassumption.
  - apply CollHas_text with (content := content); [|exact Hl]. eapply FileAt_app; [exact Hu|exact Hg|apply Hv].
Qed.

Lemma values_nonempty : forall content lines, FileValues content lines -> forall l, In l lines -> l <> [].
Proof.
  intros content lines (ls & _ & H). induction H as [|x t ls vs _ _ _ IH|x t ls vs _ Hi _ IH]; intros l Hl.
  - destruct Hl.
  - now apply IH.
  - destruct Hl as [<-|Hl]; [|now apply IH]. intros ->. apply Hi. now left.
Qed.
Lemma folder_lookup : forall P G alnum ww fs root r b name lines,
  UniqueNames fs -> WrapText ww -> WildcardName ww b name -> TextFileNamed fs root name lines -> PlainLines ww lines ->
  exists vals, InOrder lines vals /\ vals <> [] /\
    env_lookup (stack P G alnum (standard ww) ww [([], [RPath root])] fs true true r) name = map unweighted vals /\
    (forall l, In l vals -> l <> [] /\ Syntax.Plain (standard ww) l /\ ~ BeginsComment l).
Proof.
  intros P G alnum ww fs root r b name lines Hu Hw Hn Hf [Hne Hp].
  destruct (name_not_wrapped ww b name (wrap_not_empty ww Hw) Hn) as (H1 & H2 & _).
  assert (Hn' : SafeName name /\ NoGlob name) by (split; apply Hn). destruct Hn' as [Hs Hg].
  destruct (folder_file P fs root name lines Hu Hs Hf) as (c & Hin & Hc).
  destruct (stack_collection P G alnum (standard ww) ww [([], [RPath root])] fs r name c lines Hu Hs Hg H1 H2 Hin Hc Hne)
    as (vals & Ho & Hl).
  exists vals. split; [exact Ho|]. destruct Ho as (_ & _ & Ho). split.
  - intros ->. destruct lines as [|l lines]; [congruence|]. destruct (proj2 (Ho l)). now left.
  - split; [exact Hl|]. intros l Hv. apply Ho in Hv. split; [|now apply Hp].
    destruct Hf as (es & dir & f & stem & content & _ & _ & _ & _ & Hfv & _). eapply values_nonempty; eassumption.
Qed.
