(** Combinatorial sequences with endless parts. *)
From Coq Require Import String NArith ZArith QArith Qcanon Bool Arith List Permutation Lia.
From Verif.Model Require Import Str Utils Command Rng Values Context Sampler.
From Verif.Spec Require Import Text Comb Items Lang Enum.
From Verif.Proofs Require Import StrFacts UtilsFacts CommandFacts CombFacts ValuesFacts DictFacts
  Soundness FuelFacts RunFacts EnumFacts BindFacts CycleFacts.
Import ListNotations.
Local Open Scope nat_scope.

Fixpoint occ (x : command) (l : list command) : nat :=
  match l with [] => 0 | y :: l' => (if cmd_eqb y x then 1 else 0) + occ x l' end.

Lemma Occ_occ : forall x l n, Occ x l n -> n = occ x l.
Proof.
  intros x l n H. induction H as [|l n _ IH|y l n Hy _ IH]; cbn; [reflexivity| |].
  - now rewrite cmd_eqb_refl, IH.
  - destruct (cmd_eqb_spec y x); [contradiction|]. exact IH.
Qed.

Lemma occ_other : forall x y l, y <> x -> occ x (y :: l) = occ x l.
Proof. intros x y l H. cbn. now destruct (cmd_eqb_spec y x). Qed.

Lemma occ_app : forall x l l', occ x (l ++ l') = occ x l + occ x l'.
Proof. intros x l l'. induction l as [|y l IH]; cbn; [reflexivity|]. rewrite IH. lia. Qed.

Section Mixed.
Variable G : rng_impl.
Variable E : env.
Notation next := (next G E).
Notation next_cs := (next_cs G E).
Variable c : ctx.
Variable stream : command -> nat -> text.
Hypothesis Hc : c_method c = Combinatorial.
(** The endless parts. *)
Variable S0 : list command.
Hypothesis HS : Forall (fun tok => ~ finite_mark tok) S0.
Variable N : nat.

Definition Holds (coll : list (command * gen * option str)) (k : nat) (tok : command) : Prop :=
  exists pre gs suf, coll = pre ++ (tok, gs (S k), Some (stream tok k)) :: suf /\
    Forall (fun e => fst (fst e) <> tok) pre /\ Fam G E N gs (stream tok).
Definition Coll (cnt : command -> nat) (coll : list (command * gen * option str)) : Prop :=
  forall tok, In tok S0 -> Holds coll (cnt tok) tok.

Lemma get_value_Holds : forall coll k tok, Holds coll k tok ->
  exists coll', (forall m r, N <= m -> get_value G (next m) tok coll r = OVal (Some (stream tok k), coll') r) /\
    Holds coll' (S k) tok /\ forall tok' k', tok' <> tok -> Holds coll k' tok' -> Holds coll' k' tok'.
Proof.
  intros coll k tok (pre & gs & suf & -> & Hpre & Hf).
  exists (pre ++ (tok, gs (S (S k)), Some (stream tok (S k))) :: suf). split; [|split].
  - intros m r Hm. induction Hpre as [|[[y g] v] pre Hy _ IH]; cbn [app get_value].
    + rewrite cmd_eqb_refl, Hf by assumption. reflexivity.
    + cbn in Hy. destruct (cmd_eqb_spec y tok); [contradiction|]. rewrite IH. reflexivity.
  - exists pre, gs, suf. auto.
  - intros tok' k' Hne (pre' & gs' & suf' & Heq & Hpre' & Hf'). clear Hpre.
    revert pre' Heq Hpre'. induction pre as [|e pre IH]; intros pre' Heq Hpre'.
    + destruct pre' as [|e' pre']; cbn [app] in Heq; injection Heq as He Heq; [congruence|].
      subst. exists ((tok, gs (S (S k)), Some (stream tok (S k))) :: pre'), gs', suf'. repeat split; auto.
      inversion Hpre'; subst. constructor; auto.
    + destruct pre' as [|e' pre']; cbn [app] in Heq; injection Heq as He Heq; subst.
      * exists [], gs', (pre ++ (tok, gs (S (S k)), Some (stream tok (S k))) :: suf). repeat split; auto.
      * inversion Hpre'; subst. destruct (IH pre' Heq) as (p & g & s & Hp & Hq & Hr); [assumption|].
        exists (e' :: p), g, s. split; [cbn; now f_equal|]. split; auto.
Qed.

(** [EmM d st l]: [st] yields the arrays [l]; each step takes values for the
    tokens [d] from the collection. *)
Notation cnts := (command -> nat).
Definition later (d : list command) (cnt : cnts) : cnts := fun tok => cnt tok + occ tok d.

Inductive EmM (d : list command) : cseq -> list (list (cnts -> text)) -> Prop :=
| EmM_stop : forall st n,
    (forall coll cnt m r, Coll cnt coll -> n <= m -> next_cs m c coll st r = OVal (None, coll) r) -> EmM d st []
| EmM_val : forall st a st' l n,
    (forall coll cnt, Coll cnt coll -> exists coll', Coll (later d cnt) coll' /\
       forall m r, n <= m -> next_cs m c coll st r = OVal (Some (map (fun f => f cnt) a, st'), coll') r) ->
    EmM d st' l -> EmM d st (a :: l).

Lemma EmM_via : forall d st st' l n,
  (forall coll m r, n <= m -> next_cs (S m) c coll st r = next_cs m c coll st' r) -> EmM d st' l -> EmM d st l.
Proof.
  intros d st st' l n Hn H. inversion H as [? n' Hx|? a st'' l' n' Hx He]; subst.
  - apply EmM_stop with (n := S (n + n')). intros coll cnt [|m] r HC Hm; [lia|]. rewrite Hn by lia.
    apply (Hx coll cnt); [assumption|lia].
  - eapply EmM_val with (n := S (n + n')); [|exact He]. intros coll cnt HC.
    destruct (Hx coll cnt HC) as (coll' & HC' & Hr). exists coll'. split; [assumption|].
    intros [|m] r Hm; [lia|]. rewrite Hn by lia. apply Hr. lia.
Qed.

Lemma EmM_ext : forall d d' st l, (forall tok, In tok S0 -> occ tok d = occ tok d') -> EmM d st l -> EmM d' st l.
Proof.
  intros d d' st l Hd H. induction H as [st n Hx|st a st' l n Hx _ IH].
  - now apply EmM_stop with (n := n).
  - eapply EmM_val with (n := n); [|exact IH]. intros coll cnt HC. destruct (Hx coll cnt HC) as (coll' & HC' & Hr).
    exists coll'. split; [|assumption]. intros tok Hin. unfold later. rewrite <- Hd by assumption. now apply HC'.
Qed.

Lemma EmM_non : forall d tok st l, In tok S0 -> EmM d st l ->
  EmM (tok :: d) (CSNon tok st) (map (cons (fun cnt => stream tok (cnt tok + occ tok d))) l).
Proof.
  intros d tok st l Hin H. induction H as [st n Hx|st a st' l n Hx _ IH]; cbn [map].
  - apply EmM_stop with (n := S n). intros coll cnt [|m] r HC Hm; [lia|]. unfold_next G E.
    rewrite (Hx coll cnt) by (auto; lia). reflexivity.
  - eapply EmM_val with (n := S (n + N)); [|exact IH]. intros coll cnt HC.
    destruct (Hx coll cnt HC) as (coll1 & HC1 & Hr).
    destruct (get_value_Holds coll1 _ tok (HC1 tok Hin)) as (coll2 & Hg & Hh & Hk).
    exists coll2. split.
    + intros tok' Hin'. unfold later. cbn [occ]. destruct (cmd_eqb_spec tok tok') as [<-|Hne].
      * replace (cnt tok + (1 + occ tok d)) with (S (later d cnt tok)) by (unfold later; lia). exact Hh.
      * apply Hk; [congruence|]. apply HC1, Hin'.
    + intros [|m] r Hm; [lia|]. unfold_next G E. rewrite Hr by lia. cbn [obind].
      rewrite Hg by lia. reflexivity.
Qed.

Lemma EmM_fin2 : forall d g rest t st Q L, EmM d st Q -> EmM d (CSFin g rest) L ->
  EmM d (CSFin2 g rest t st) (map (cons (fun _ => t)) Q ++ L).
Proof.
  intros d g rest t st Q L H HL. induction H as [st n Hx|st a st' l n Hx _ IH]; cbn [map app].
  - inversion HL as [? n' Hy|? a st'' l' n' Hy He]; subst.
    + apply EmM_stop with (n := S (n + n')). intros coll cnt [|m] r HC Hm; [lia|]. unfold_next G E.
      rewrite (Hx coll cnt) by (auto; lia). cbn [obind]. apply (Hy coll cnt); [assumption|lia].
    + eapply EmM_val with (n := S (n + n')); [|exact He]. intros coll cnt HC.
      destruct (Hy coll cnt HC) as (coll' & HC' & Hr). exists coll'. split; [assumption|].
      intros [|m] r Hm; [lia|]. unfold_next G E. rewrite (Hx coll cnt) by (auto; lia). cbn [obind].
      apply Hr. lia.
  - eapply EmM_val with (n := S n); [|exact IH]. intros coll cnt HC.
    destruct (Hx coll cnt HC) as (coll' & HC' & Hr). exists coll'. split; [assumption|].
    intros [|m] r Hm; [lia|]. unfold_next G E. rewrite Hr by lia. reflexivity.
Qed.

Lemma EmM_fin : forall d g rest l P, Emits G E g l -> EmM d (CSStart rest) P ->
  EmM d (CSFin g rest) (flat_map (fun x => map (cons x) P) (map (fun t _ => t) l)).
Proof.
  intros d g rest l P H HP. induction H as [g [k Hk]|g t g' ts [k Hk] _ IH]; cbn [map flat_map].
  - apply EmM_stop with (n := S k). intros coll cnt [|m] r HC Hm; [lia|]. unfold_next G E. now rewrite Hk by lia.
  - apply (EmM_via _ _ (CSFin2 g' rest t (CSStart rest)) _ k); [|now apply EmM_fin2].
    intros coll m r Hm. unfold_next G E. now rewrite Hk by lia.
Qed.

(** Parts relative to the counts at the start of a step. *)
Inductive Rel : list command -> list (list (cnts -> text)) -> Prop :=
| Rel_nil : Rel [] []
| Rel_fin : forall tok toks ts ls, Gives G E c tok ts -> finite_mark tok -> Rel toks ls ->
    Rel (tok :: toks) (map (fun t _ => t) ts :: ls)
| Rel_non : forall tok toks ls, In tok S0 -> Rel toks ls ->
    Rel (tok :: toks) ([fun cnt => stream tok (cnt tok + occ tok toks)] :: ls).

Lemma Rel_EmM : forall toks ls, Rel toks ls -> EmM toks (CSStart toks) (product ls).
Proof.
  intros toks ls H. induction H as [|tok toks ts ls (n & g & Hg & He) Hm _ IH|tok toks ls Hin _ IH]; cbn [product].
  - eapply EmM_val with (n := 1) (st' := CSDone).
    + intros coll cnt HC. exists coll. split; [intros tok Hin; unfold later; cbn; rewrite Nat.add_0_r; now apply HC|].
      intros [|m] r Hm; [lia|]. reflexivity.
    + apply EmM_stop with (n := 1). intros coll cnt [|m] r _ Hm; [lia|reflexivity].
  - apply (EmM_via _ _ (CSFin g toks) _ n).
    + intros coll m r Hl. unfold_next G E. rewrite (finite_mark_in c tok Hc Hm : is_nonfinite _ = false).
      rewrite Hg by lia. reflexivity.
    + apply EmM_fin; [assumption|]. eapply EmM_ext; [|exact IH]. intros tok' Hin. symmetry. apply occ_other.
      intros ->. rewrite Forall_forall in HS. now apply (HS tok' Hin).
  - apply (EmM_via _ _ (CSNon tok (CSStart toks)) _ 0).
    + intros coll m r _. unfold_next G E.
      rewrite Forall_forall in HS. specialize (HS tok Hin). unfold finite_mark in HS. rewrite mark_of_sampling_method in HS.
      unfold effective_method. destruct (sampling_method tok) as [[]|]; try reflexivity; tauto.
    + cbn [flat_map]. rewrite app_nil_r. now apply EmM_non.
Qed.

Definition at_count (d : list command) (k : nat) : cnts := fun tok => k * occ tok d.

Fixpoint outs (d : list command) (k : nat) (l : list (list (cnts -> text))) : list (list text) :=
  match l with
  | [] => []
  | a :: l' => map (fun f => f (at_count d k)) a :: outs d (S k) l'
  end.

Lemma mixed_loop : forall d sep st l, EmM d st l -> forall coll k, Coll (at_count d k) coll ->
  Emits G E (GCSeqLoop c sep coll st) (map (fun a => joined a sep) (outs d k l)).
Proof.
  intros d sep st l H. induction H as [st n Hx|st a st' l n Hx _ IH]; intros coll k HC; cbn [map outs].
  - apply Em_stop. exists (S n). intros [|m] r Hm; [lia|]. unfold_next G E.
    rewrite (Hx coll _ _ _ HC) by lia. reflexivity.
  - destruct (Hx coll _ HC) as (coll' & HC' & Hr).
    assert (HC2 : Coll (at_count d (S k)) coll').
    { intros tok Hin. specialize (HC' tok Hin). unfold later, at_count in *.
      now replace (S k * occ tok d) with (k * occ tok d + occ tok d) by lia. }
    eapply Em_val; [|exact (IH coll' _ HC2)].
    exists (S n). intros [|m] r Hm; [lia|]. unfold_next G E. rewrite Hr by lia. reflexivity.
Qed.
End Mixed.

(** * The whole sequence *)
Section Whole.
Variable G : rng_impl.
Variable E : env.
Notation next := (next G E).
Variable c : ctx.
Variable stream : command -> nat -> text.
Hypothesis Hc : c_method c = Combinatorial.

Lemma endless_non_combo : forall tok, ~ finite_mark tok -> 
  negb (option_eqb method_eqb (sampling_method tok) (Some Combinatorial)) = true.
Proof.
  intros tok H. unfold finite_mark in H. rewrite mark_of_sampling_method in H.
  destruct (sampling_method tok) as [[]|]; try reflexivity; tauto.
Qed.

(** What is known of each member of the collection. *)
Definition Member (tok : command) : Prop :=
  (finite_mark tok /\ exists ts, Gives G E c tok ts /\ ts <> []) \/
  (~ finite_mark tok /\ SGives G E c tok (stream tok)).

Lemma collection_mixed : forall cmds, Forall Member cmds ->
  exists n coll, (forall m r, n <= m -> new_collection G (next m) m c cmds r = OVal coll r) /\
    forall tok, In tok cmds -> ~ finite_mark tok -> Holds G E stream n coll 0 tok.
Proof.
  intros cmds H.
  assert (Hm : exists n gens gvs, length gvs = length cmds /\ (forall m r, n <= m ->
            mk_all G m c cmds r = OVal gens r /\ advance_all G (next m) gens r = OVal gvs r) /\
     forall tok, In tok cmds -> ~ finite_mark tok -> 
       Holds G E stream n (map (fun x => (fst x, fst (snd x), snd (snd x))) (combine cmds gvs)) 0 tok).
  { induction H as [|cmd cmds Hmem _ (n & gens & gvs & Hl & H2 & H3)].
    - exists 0, [], []. split; [reflexivity|]. split; [intros; split; reflexivity|intros tok []].
    - assert (Hfirst : exists n1 g k g' t, (forall m, n1 <= m -> mk m c cmd = MOk g) /\
                (forall m r, k <= m -> next m g r = OVal (t, g') r) /\
                (~ finite_mark cmd -> t = stream cmd 0 /\ exists gs, g' = gs 1 /\ Fam G E k gs (stream cmd))).
      { destruct Hmem as [(Hf & ts & (n1 & g & Hg & He) & Hne)|(Hf & n1 & g & Hg & gs & k & <- & Hfam)].
        - inversion He as [|? t g' ts' [k Hk] _]; subst; [congruence|].
          exists n1, g, k, g', t. split; [assumption|]. split; [assumption|]. contradiction.
        - exists n1, (gs 0), k, (gs 1), (stream cmd 0). split; [assumption|]. split; [intros; now apply Hfam|].
          intros _. split; [reflexivity|]. exists gs. auto. }
      destruct Hfirst as (n1 & g & k & g' & t & Hg & Hk & Hs).
      exists (n1 + n + k), (g :: gens), ((g', Some t) :: gvs). split; [cbn; now rewrite Hl|]. split.
      + intros m r Hm. destruct (H2 m r) as [Ha Hb]; [lia|]. split.
        * cbn. rewrite Hg by lia. cbn. rewrite Ha. reflexivity.
        * cbn. rewrite Hk by lia. cbn. rewrite Hb. reflexivity.
      + intros tok Hin Hf. cbn [combine map fst snd]. destruct (cmd_eqb_spec cmd tok) as [<-|Hne].
        * destruct (Hs Hf) as (-> & gs & -> & Hfam). exists [], gs. eexists. split; [reflexivity|].
          split; [constructor|]. eapply Fam_more; [|exact Hfam]. lia.
        * destruct Hin as [->|Hin]; [congruence|].
          destruct (H3 tok Hin Hf) as (pre & gs & suf & Heq & Hpre & Hfam).
          exists ((cmd, g', Some t) :: pre), gs, suf. split; [cbn; now rewrite Heq|].
          split; [constructor; auto|]. eapply Fam_more; [|exact Hfam]. lia. }
  destruct Hm as (n & gens & gvs & _ & Hm & Hh). eexists n, _. split; [|exact Hh].
  intros m r Hle. destruct (Hm m r Hle) as [Ha Hb]. unfold new_collection. rewrite Ha. cbn. rewrite Hb. cbn. reflexivity.
Qed.

Definition sentinel : command := Lit [] (Some Combinatorial).

Lemma sentinel_finite : finite_mark sentinel.
Proof. now right. Qed.

Lemma sentinel_gives : Gives G E c sentinel [[]].
Proof.
  exists 1, (GOnce []). split.
  - intros [|k] Hk; [lia|]. cbn [mk sentinel]. rewrite (chosen_comb _ _ Hc); [reflexivity|now right].
  - eapply Em_val with (g' := GDone); [exists 1; intros [|k] r Hk; [lia|reflexivity]|].
    apply Em_stop. exists 1; intros [|k] r Hk; [lia|reflexivity].
Qed.

(** The parts of the specification. *)
Inductive GParts (whole : list command) : list command -> list (list (nat -> text)) -> Prop :=
| GP_nil : GParts whole [] []
| GP_finite : forall tok toks ts ls, Gives G E c tok ts -> finite_mark tok -> (mark_of tok = None -> ts <> []) ->
    GParts whole toks ls -> GParts whole (tok :: toks) (map (fun t _ => t) ts :: ls)
| GP_endless : forall tok toks d i ls, ~ finite_mark tok -> SGives G E c tok (stream tok) ->
    Occ tok whole d -> Occ tok toks i -> GParts whole toks ls ->
    GParts whole (tok :: toks) ([fun j => stream tok (j * d + i)] :: ls).

(** The same relative to counts. *)
Definition timed (whole : list command) (ls : list (list (nat -> text)))
    (rs : list (list ((command -> nat) -> text))) : Prop :=
  Forall2 (Forall2 (fun (f : nat -> text) h => forall j, h (at_count whole j) = f j)) ls rs.

Lemma GParts_Rel : forall whole toks ls, GParts whole toks ls ->
  let S0 := filter (fun tok => negb (option_eqb method_eqb (sampling_method tok) (Some Combinatorial) || 
                                     option_eqb method_eqb (sampling_method tok) None)) whole in
  incl toks whole ->
  exists rs, Rel G E c stream S0 (toks ++ [sentinel]) (rs ++ [[fun _ => []]]) /\ timed whole ls rs.
Proof.
  intros whole toks ls H S0. induction H as [|tok toks ts ls He Hfm Hn _ IH|tok toks d i ls Hf Hcy Hd Hi _ IH]; intros Hincl.
  - exists []. split; [|constructor]. cbn [app]. apply (Rel_fin G E c stream S0 sentinel [] [[]] []);
      [exact sentinel_gives|exact sentinel_finite|constructor].
  - destruct IH as (rs & Hr & Ht); [intros x Hx; apply Hincl; now right|].
    exists (map (fun t _ => t) ts :: rs). split.
    + cbn [app]. now apply Rel_fin.
    + constructor; [|assumption]. clear. induction ts; constructor; auto.
  - destruct IH as (rs & Hr & Ht); [intros x Hx; apply Hincl; now right|].
    exists ([fun cnt => stream tok (cnt tok + occ tok (toks ++ [sentinel]))] :: rs). split.
    + cbn [app]. apply Rel_non; [|assumption]. apply filter_In. split; [apply Hincl; now left|].
      unfold finite_mark in Hf. rewrite mark_of_sampling_method in Hf.
      destruct (sampling_method tok) as [[]|]; try reflexivity; tauto.
    + constructor; [|assumption]. constructor; [|constructor]. intros j. unfold at_count.
      rewrite occ_app. apply Occ_occ in Hd. apply Occ_occ in Hi. subst d i.
      assert (Hz : occ tok [sentinel] = 0).
      { rewrite occ_other; [reflexivity|]. intros <-. apply Hf, sentinel_finite. }
      rewrite Hz. now rewrite Nat.add_0_r.
Qed.

Lemma product_timed : forall whole ls rs, timed whole ls rs ->
  Forall2 (Forall2 (fun (f : nat -> text) h => forall j, h (at_count whole j) = f j)) (product ls) (product rs).
Proof.
  intros whole ls rs H. induction H as [|l r ls rs Hl _ IH]; cbn [product]; [repeat constructor|].
  induction Hl as [|f h l r Hfh _ IHl]; cbn [flat_map]; [constructor|]. apply Forall2_app; [|exact IHl].
  clear -IH Hfh. induction IH; cbn; constructor; auto.
Qed.

Lemma mixed_outs : forall whole arrs rarrs,
  Forall2 (Forall2 (fun (f : nat -> text) h => forall j, h (at_count whole j) = f j)) arrs rarrs -> forall k,
  outs whole k rarrs = map (fun p => at_time (snd p) (fst p)) (combine (seq k (length arrs)) arrs).
Proof.
  intros whole arrs rarrs H. induction H as [|a r arrs rarrs Ha _ IH]; intros k; [reflexivity|].
  cbn [outs length seq combine map fst snd]. f_equal; [|apply IH].
  unfold at_time. clear -Ha. induction Ha as [|f h a r Hf _ IH]; cbn; [reflexivity|]. now rewrite Hf, IH.
Qed.

Lemma mixed_gives : forall c0 n0 tokens toks sep m ls, finite_mark (Seq tokens sep m) -> c_method c0 = Combinatorial ->
  (forall k r, n0 <= k -> process_variable_assignments G (next k) k c0 tokens r = OVal (toks, c) r) ->
  GParts toks toks ls ->
  Gives G E c0 (Seq tokens sep m)
    (map (fun p => interleave sep (at_time (snd p) (fst p))) (numbered (product ls))).
Proof.
  intros c0 n0 tokens0 tokens sep m ls Hm Hc0 Ha Ht.
  exists 1, (GCSeqStart c0 tokens0 sep). split.
  { intros [|k] Hk; [lia|]. cbn [mk]. rewrite (chosen_comb _ _ Hc0 Hm). now rewrite with_method_comb. }
  assert (Hmem : Forall Member (non_combo tokens)).
  { unfold non_combo. clear Ha Hm. induction Ht as [|tok toks ts ls' He Hfm Hn _ IH|tok toks d i ls' Hf Hcy Hd Hi _ IH];
      cbn [filter]; [constructor| |].
    - destruct (negb _) eqn:Hx; [|assumption]. constructor; [|assumption]. left.
      split; [assumption|]. exists ts. split; [exact He|]. apply Hn.
      destruct Hfm as [Hfm|Hfm]; [assumption|]. rewrite mark_of_sampling_method in Hfm. rewrite Hfm in Hx. discriminate.
    - rewrite (endless_non_combo tok Hf). constructor; [|assumption]. right. split; assumption. }
  destruct (collection_mixed _ Hmem) as (n & coll & Hcoll & Hh).
  eapply Emits_via with (g' := GCSeqLoop c sep coll (CSStart (augmented tokens))).
  { exists (n + n0). intros k r Hk. unfold_next G E. rewrite Ha by lia. cbn [obind].
    rewrite Hcoll by lia. reflexivity. }
  destruct (GParts_Rel tokens tokens ls Ht) as (rs & Hr & Htm); [apply incl_refl|].
  set (S0 := filter _ tokens) in *.
  assert (HS : Forall (fun tok => ~ finite_mark tok) S0).
  { apply Forall_forall. intros tok Hin. apply filter_In in Hin as [_ Hin]. unfold finite_mark.
    rewrite mark_of_sampling_method. destruct (sampling_method tok) as [[]|]; try discriminate Hin; intros [|]; discriminate. }
  assert (HR : Rel G E c stream S0 (augmented tokens) ([fun _ => []] :: rs ++ [[fun _ => []]])).
  { unfold augmented. apply (Rel_fin G E c stream S0 sentinel _ [[]]); [exact sentinel_gives|exact sentinel_finite|exact Hr]. }
  pose proof (Rel_EmM G E c stream Hc S0 HS n _ _ HR) as HE.
  apply (EmM_ext G E c stream S0 n _ tokens) in HE.
  2:{ intros tok Hin. rewrite Forall_forall in HS. specialize (HS tok Hin).
      assert (Hns : sentinel <> tok) by (intros <-; apply HS, sentinel_finite).
      unfold augmented. fold sentinel. rewrite occ_other, occ_app, occ_other by assumption. cbn [occ]. lia. }
  unfold numbered.
  replace (map (fun p => interleave sep (at_time (snd p) (fst p))) (combine (seq 0 (length (product ls))) (product ls)))
    with (map (fun a => joined a sep) (outs tokens 0 (product ([fun _ => []] :: rs ++ [[fun _ => []]])))).
  - apply (mixed_loop G E c stream S0 n tokens sep _ _ HE). intros tok Hin. unfold at_count. cbn [Nat.mul].
    apply Hh; [|now rewrite Forall_forall in HS; apply HS].
    apply filter_In in Hin as [Hin Hx]. apply filter_In. split; [assumption|].
    destruct (sampling_method tok) as [[]|]; try discriminate Hx; reflexivity.
  - cbn [product flat_map]. rewrite app_nil_r, product_app. cbn [product flat_map map app].
    pose proof (mixed_outs _ _ _ (product_timed _ _ _ Htm) 0) as Ho. rewrite <- (map_map (fun p => at_time (snd p) (fst p))).
    rewrite <- Ho. clear. generalize 0 as k. induction (product rs) as [|a l IH]; intros k; [reflexivity|].
    cbn [flat_map map app outs]. rewrite IH. f_equal. rewrite map_app. cbn [map]. apply joined_sentinels.
Qed.

End Whole.
