(** Further facts about combinatorial runs: simple templates are always
    listed, variants do not repeat selections, random parts do not multiply. *)
From Coq Require Import String NArith ZArith QArith Qcanon Bool Arith List Permutation Lia.
From Verif.Model Require Import Str Utils Command Rng Values Context Sampler.
From Verif.Spec Require Import Text Comb Items Lang Enum.
From Verif.Proofs Require Import StrFacts UtilsFacts CommandFacts CombFacts ValuesFacts DictFacts
  Soundness FuelFacts RunFacts EnumFacts BindFacts EnumRun.
Import ListNotations.
Local Open Scope nat_scope.

(** * Simple templates have a list *)
Lemma FirstOnly_total : forall {A} (dec : forall x y : A, {x = y} + {x <> y}) (l seen : list A),
  exists out, FirstOnly seen l out.
Proof.
  intros A dec l. induction l as [|x l IH]; intros seen; [eexists; constructor|].
  destruct (in_dec dec x seen) as [Hx|Hx].
  - destruct (IH seen) as [out Ho]. exists out. now apply First_drop.
  - destruct (IH (x :: seen)) as [out Ho]. exists (x :: out). now apply First_keep.
Qed.

Lemma EnumAll_exists : forall E c cmds, Forall (fun cmd => exists ts, Enum E c cmd ts /\ ts <> []) cmds ->
  exists ls, EnumAll E c cmds ls /\ Forall (fun l => l <> []) ls.
Proof.
  intros E c cmds H. induction H as [|cmd cmds (ts & Ht & Hn) _ (ls & Hl & Hf)].
  - exists []. split; constructor.
  - exists (ts :: ls). split; constructor; assumption.
Qed.

Lemma EnumAll_length : forall E c cmds ls, EnumAll E c cmds ls -> length ls = length cmds.
Proof.
  intros E c cmds. induction cmds as [|cmd cmds IH]; intros ls H; inversion H; subst; cbn; auto.
Qed.

Lemma EnumSels_exists : forall E c sels,
  Forall (Forall (fun cmd => exists ts, Enum E c cmd ts /\ ts <> [])) sels ->
  exists arrs, EnumSels E c sels arrs /\
    forall sel, In sel sels -> exists ls, length ls = length sel /\ Forall (fun l => l <> []) ls /\
                                          incl (product ls) arrs.
Proof.
  intros E c sels H. induction H as [|sel sels Hs _ (arrs & IH & Hi)].
  - exists []. split; [constructor|intros sel []].
  - destruct (EnumAll_exists _ _ _ Hs) as (ls & Hl & Hn). exists (product ls ++ arrs).
    split; [constructor; [now apply Enum_combo|assumption]|]. intros sel' [<-|Hin].
    + exists ls. split; [eapply EnumAll_length; eassumption|]. split; [assumption|].
      intros a Ha. apply in_or_app. now left.
    + destruct (Hi _ Hin) as (ls' & H1 & H2 & H3). exists ls'. split; [assumption|]. split; [assumption|].
      intros a Ha. apply in_or_app. right. now apply H3.
Qed.

Lemma product_nonempty : forall {A} (ls : list (list A)), Forall (fun l => l <> []) ls -> product ls <> [].
Proof.
  intros A ls H. induction H as [|l ls Hl _ IH]; [discriminate|]. cbn.
  destruct l as [|x l]; [congruence|]. cbn. destruct (product ls); [congruence|discriminate].
Qed.

Lemma Sift_In : forall {A} (P : A -> Prop) l out x, Sift P l out -> P x -> In x l -> In x out.
Proof.
  intros A P l out x H Hp. induction H as [|y l out Hy _ IH|y l out Hy _ IH]; intros Hin; auto;
    destruct Hin as [->|Hin]; auto.
  - now left.
  - now right; apply IH.
  - contradiction.
Qed.

Lemma FirstOnly_nonempty : forall {A} (l out : list A), FirstOnly [] l out -> l <> [] -> out <> [].
Proof.
  intros A l out H Hl. destruct l as [|x l]; [congruence|].
  inversion H as [| |? ? ? ? Hin]; subst; [discriminate|destruct Hin].
Qed.

Lemma Simple_lists : forall E c cmd, Simple cmd -> exists ts, Enum E c cmd ts /\ ts <> [].
Proof.
  intros E c. induction cmd as [s m|tokens sep m IH|opts lo hi sep m IH|w m vars _ _|n v i o _|n d _|w i m _ _]
    using command_ind'; intros H; inversion H; subst.
  - exists [s]. split; [now constructor|discriminate].
  - match goal with H : Forall Simple tokens |- _ => rename H into Hs end.
    assert (Hall : Forall (fun cmd => exists ts, Enum E c cmd ts /\ ts <> []) tokens).
    { apply Forall_forall. intros t Ht. rewrite Forall_forall in IH, Hs. auto. }
    destruct (EnumAll_exists _ _ _ Hall) as (ls & Hl & Hn).
    exists (map (interleave sep) (product ls)). split.
    + apply Enum_product; auto.
      * eapply Forall_impl; [|exact Hs]. intros t Ht (n & v & i & o & ->). inversion Ht.
      * clear -Hl Hn. revert ls Hl Hn. induction tokens as [|t tokens IH]; intros ls Hl Hn; inversion Hl; subst.
        -- constructor.
        -- inversion Hn; subst. constructor; auto.
    + pose proof (product_nonempty _ Hn). destruct (product ls); [congruence|discriminate].
  - match goal with H : Forall _ opts, H' : opts <> [] |- _ => rename H into Hs; rename H' into Ho end.
    set (sels := map snd (bound_combos opts lo hi)).
    pose proof (combos_Selections opts lo hi) as Hsel. fold sels in Hsel.
    assert (Hopt : forall cmd, In cmd (map fst opts) -> exists ts, Enum E c cmd ts /\ ts <> []).
    { intros cmd Hc. apply in_map_iff in Hc. destruct Hc as (o & <- & Ho').
      rewrite Forall_forall in IH, Hs. apply IH; auto. }
    assert (Hall : Forall (Forall (fun cmd => exists ts, Enum E c cmd ts /\ ts <> [])) sels).
    { apply Forall_forall. intros sel Hin. apply Forall_forall. intros cmd Hc. apply Hopt.
      apply in_map_iff in Hin. destruct Hin as ([b combo] & <- & Hb).
      destruct (bound_combos_In _ _ _ _ _ Hb) as (_ & _ & Hi & _). now apply Hi. }
    destruct (EnumSels_exists _ _ _ Hall) as (arrs & Ha & Hinc).
    pose (k := filter (fun a => Nat.eqb (length (dedupe a)) (length a)) arrs).
    assert (Hk : Sift (@NoDup text) arrs k) by (apply filter_Sift; apply dedupe_length_NoDup).
    destruct (FirstOnly_total (list_eq_dec (list_eq_dec N.eq_dec)) k []) as (outs & Hf).
    exists (map (fun a => joined a sep) outs). split.
    + eapply En_var; eauto.
      * intros (w & mw & vs & q & ->). rewrite Forall_forall in Hs.
        specialize (Hs _ (or_introl eq_refl)). inversion Hs.
      * clear. induction outs; constructor; auto. apply joined_Glued.
    + assert (Hone : exists v, In [v] sels /\ In v (map fst opts)).
      { destruct opts as [|[v q] opts]; [congruence|]. exists v. split; [|now left].
        unfold sels. apply in_map_iff. exists (1%Z, [v]). split; [reflexivity|].
        unfold bound_combos. rewrite adjust_range_clamp. apply in_flat_map. exists 1%Z. split.
        - apply zrange_In. unfold clamp. cbn [length]. lia.
        - apply in_map. apply combos_In. repeat split.
          + constructor; [intros []|constructor].
          + intros x [<-|[]]. now left. }
      destruct Hone as (v & Hv & _). destruct (Hinc _ Hv) as (ls & Hlen & Hne & Hi).
      destruct ls as [|l [|]]; cbn in Hlen; try lia.
      inversion Hne as [|? ? Hl _]; subst. destruct l as [|t l]; [congruence|].
      assert (Hin : In [t] k).
      { eapply Sift_In; [exact Hk| |apply Hi; cbn; now left]. constructor; [intros []|constructor]. }
      assert (Hout : outs <> []) by (eapply FirstOnly_nonempty; [exact Hf|]; destruct k; [destruct Hin|discriminate]).
      destruct outs; [congruence|discriminate].
Qed.

(** * No selection twice *)
Section NoRepeat.
Variable G : rng_impl.
Variable E : env.
Notation next := (next G E).

(** Arrays whose joins were produced, newest first. *)
Lemma loop_next : forall n c sep todo cur seen r t g' r',
  next n (GCVarLoop c sep todo cur seen) r = OVal (t, g') r' ->
  exists todo' b st' arr seen', g' = GCVarLoop c sep todo' (Some (b, st')) (arr :: seen) /\
    seen' = seen /\ t = joined arr sep /\ ~ In arr seen /\ Z.of_nat (length arr) = b /\
    (In b (map fst todo) \/ exists st, cur = Some (b, st)) /\ incl (map fst todo') (map fst todo).
Proof.
  induction n as [|n IH]; intros c sep todo cur seen r t g' r' H; [discriminate|].
  revert H. unfold_next G E. destruct cur as [[b st]|].
  - destruct (next_cp G E n c st r) as [[arr st'] r1|r1|e r1|] eqn:Hc; try discriminate.
    + cbn zeta. destruct (Z.eqb (Z.of_nat (length (dedupe arr))) b && negb (existsb (arr_eqb (dedupe arr)) seen)) eqn:Hd.
      * intros [= <- <- <-]. apply andb_true_iff in Hd. destruct Hd as [H1 H2].
        apply Z.eqb_eq in H1. apply negb_true_iff in H2.
        do 5 eexists. split; [reflexivity|]. split; [reflexivity|]. split; [reflexivity|].
        split; [intros Hin; apply existsb_arr in Hin; congruence|]. split; [exact H1|].
        split; [right; eauto|apply incl_refl].
      * intros H. destruct (IH _ _ _ _ _ _ _ _ _ H) as (todo' & b' & st2 & a & s' & -> & -> & Ht & Hn & Hl & Hb & Hi).
        do 5 eexists. split; [reflexivity|]. split; [reflexivity|]. repeat (split; [eassumption|]).
        split; [|assumption]. destruct Hb as [Hb|[st3 [= -> ->]]]; [now left|right; eauto].
    + intros H. destruct (IH _ _ _ _ _ _ _ _ _ H) as (todo' & b' & st2 & a & s' & -> & -> & Ht & Hn & Hl & Hb & Hi).
      do 5 eexists. split; [reflexivity|]. split; [reflexivity|]. repeat (split; [eassumption|]).
      split; [|assumption]. destruct Hb as [Hb|[st3 Hx]]; [now left|discriminate].
  - destruct todo as [|[b combo] todo]; [discriminate|].
    intros H. destruct (IH _ _ _ _ _ _ _ _ _ H) as (todo' & b' & st2 & a & s' & -> & -> & Ht & Hn & Hl & Hb & Hi).
    do 5 eexists. split; [reflexivity|]. split; [reflexivity|]. repeat (split; [eassumption|]).
    split.
    + left. cbn. destruct Hb as [Hb|[st3 [= -> _]]]; [now right|now left].
    + cbn. now apply incl_tl.
Qed.

Lemma loop_collect : forall f n c sep todo cur seen r ts e r',
  collect G E f n (GCVarLoop c sep todo cur seen) r = (ts, e, r') -> NoDup seen ->
  exists arrs, ts = map (fun a => joined a sep) arrs /\ NoDup (rev arrs ++ seen) /\
    Forall (fun a => In (Z.of_nat (length a)) (map fst todo) \/
                     exists st, cur = Some (Z.of_nat (length a), st)) arrs.
Proof.
  intros f n. induction n as [|n IH]; intros c sep todo cur seen r ts e r' H Hs; cbn [collect] in H.
  - injection H as <- _ _. exists []. cbn. repeat split; auto.
  - destruct (next f (GCVarLoop c sep todo cur seen) r) as [[t g'] r1|r1|x r1|] eqn:Hn;
      try (injection H as <- _ _; exists []; cbn; repeat split; auto; fail).
    destruct (loop_next _ _ _ _ _ _ _ _ _ _ Hn) as (todo' & b & st & arr & s' & -> & _ & -> & Hni & Hl & Hb & Hi).
    destruct (collect G E f n _ r1) as [[us e1] r2] eqn:Hc. injection H as <- <- <-.
    destruct (IH _ _ _ _ _ _ _ _ _ Hc) as (arrs & -> & Hnd & Hf); [now constructor|].
    exists (arr :: arrs). split; [reflexivity|]. split; [cbn; now rewrite <- app_assoc|].
    subst b. constructor; [destruct Hb as [Hb|[st' ->]]; eauto|].
    eapply Forall_impl; [|exact Hf]. intros a [Ha|[st' [= Ha _]]].
    + left. now apply Hi.
    + rewrite <- Ha. destruct Hb as [Hb|[st2 ->]]; eauto.
Qed.

(** A combinatorial variant: its texts are joins of different selections of
    texts; the sizes are within the bounds. *)
Lemma var_selections : forall f k c opts lo hi sep r ts e r',
  collect G E f k (GCVarStart c opts lo hi sep) r = (ts, e, r') ->
  exists arrs, ts = map (fun a => joined a sep) arrs /\ NoDup arrs /\
    ((lo = 1)%Z -> (hi = 1)%Z -> Forall (fun a => length a = 1) arrs).
Proof.
  intros f k c opts lo hi sep r ts e r' H. destruct k as [|k].
  { cbn in H. injection H as <- _ _. exists []. repeat split; auto. constructor. }
  assert (Hfirst : forall f0 opts0 lo0 hi0 r0 t g' r1,
    next f0 (GCVarStart c opts0 lo0 hi0 sep) r0 = OVal (t, g') r1 ->
    (lo0 = 1 -> hi0 = 1 -> lo0 = hi0)%Z ->
    exists todo cur seen arr, g' = GCVarLoop c sep todo cur seen /\ t = joined arr sep /\ seen = [arr] /\
      ((lo0 = 1 /\ hi0 = 1)%Z -> length arr = 1 /\ Forall (fun b => b = 1%Z) (map fst todo) /\
         (forall b st, cur = Some (b, st) -> b = 1%Z))).
  { induction f0 as [|f0 IHf]; intros opts0 lo0 hi0 r0 t g' r1 Hn Hlh; [discriminate|].
    revert Hn. unfold_next G E. destruct opts0 as [|o opts0]; [discriminate|].
    destruct (single_wildcard (o :: opts0)) as [w|] eqn:Hw.
    - destruct (wildcard_to_variant G E (next f0) f0 c w lo0 hi0 r0) as [[vs [lo1 hi1]] r2|r2|x r2|] eqn:Hwv;
        try discriminate. cbn [pep479 obind]. intros Hn.
      assert (Hb : (lo0 = 1 /\ hi0 = 1)%Z -> (lo1 = 1 /\ hi1 = 1)%Z \/ vs = []).
      { intros [-> ->]. unfold wildcard_to_variant in Hwv.
        destruct (sample_path G E (next f0) f0 c w r0) as [path r3|r3|x r3|]; try discriminate.
        cbn [obind] in Hwv. cbn zeta in Hwv.
        destruct (parse_all E (iterate_weighted (env_lookup E path))) as [cmds|] eqn:Hp; [|discriminate].
        injection Hwv as <- Hlh' _.
        destruct (env_lookup E path) as [|i its] eqn:Hl.
        - right. cbn in Hp. injection Hp as <-. reflexivity.
        - left. revert Hlh'. unfold post_init_bounds. cbn [length].
          match goal with |- context [Z.leb ?a ?b] => destruct (Z.leb_spec a b) end; intros [= <- <-]; lia. }
      destruct vs as [|v vs]; [destruct f0; discriminate|].
      destruct (IHf _ _ _ _ _ _ _ Hn) as (todo & cur & seen & arr & -> & -> & -> & H1).
      { intros -> ->. reflexivity. }
      do 4 eexists. split; [reflexivity|]. split; [reflexivity|]. split; [reflexivity|].
      intros H2. destruct (Hb H2) as [H3|H3]; [auto|discriminate].
    - intros Hn. destruct (loop_next _ _ _ _ _ _ _ _ _ _ Hn) as (todo' & b & st & arr & s' & -> & _ & -> & Hni & Hl & Hb & Hi).
      do 4 eexists. split; [reflexivity|]. split; [reflexivity|]. split; [reflexivity|].
      intros [-> ->].
      assert (Hone : forall z, In z (map fst (bound_combos (o :: opts0) 1 1)) -> z = 1%Z).
      { intros z Hz. apply in_map_iff in Hz. destruct Hz as ([z' combo] & <- & Hz).
        destruct (bound_combos_In _ _ _ _ _ Hz) as (_ & _ & _ & Hc). revert Hc. unfold clamp. cbn [fst length]. lia. }
      assert (Hb1 : b = 1%Z).
      { destruct Hb as [Hb|[st2 Hx]]; [now apply Hone|discriminate]. }
      split; [lia|]. split.
      + apply Forall_forall. intros z Hz. apply Hone. now apply Hi.
      + intros b2 st2 [= <- _]. assumption. }
  cbn [collect] in H.
  destruct (next f (GCVarStart c opts lo hi sep) r) as [[t g'] r1|r1|x r1|] eqn:Hn;
    try (injection H as <- _ _; exists []; repeat split; auto; constructor).
  destruct (Hfirst _ _ _ _ _ _ _ _ Hn) as (todo & cur & seen & arr & -> & -> & -> & H1); [congruence|].
  destruct (collect G E f k _ r1) as [[us e1] r2] eqn:Hc. injection H as <- <- <-.
  destruct (loop_collect _ _ _ _ _ _ _ _ _ _ _ Hc) as (arrs & -> & Hnd & Hf); [repeat constructor; intros []|].
  exists (arr :: arrs). split; [reflexivity|]. split.
  - apply NoDup_rev in Hnd. rewrite rev_app_distr, rev_involutive in Hnd. exact Hnd.
  - intros -> ->. destruct (H1 (conj eq_refl eq_refl)) as (Ha & Ht & Hcur).
    constructor; [assumption|]. eapply Forall_impl; [|exact Hf]. intros a [Hin|[st ->]].
    + rewrite Forall_forall in Ht. specialize (Ht _ Hin). lia.
    + specialize (Hcur _ _ eq_refl). lia.
Qed.

Lemma single_choice_NoDup : forall f k c opts sep r ts e r',
  collect G E f k (GCVarStart c opts 1 1 sep) r = (ts, e, r') -> NoDup ts.
Proof.
  intros f k c opts sep r ts e r' H.
  destruct (var_selections _ _ _ _ _ _ _ _ _ _ _ H) as (arrs & -> & Hn & Hl).
  specialize (Hl eq_refl eq_refl). clear H. induction Hl as [|a arrs Ha Hl IH]; [constructor|].
  inversion Hn as [|? ? Hni Hn']; subst. cbn. constructor; [|auto].
  intros Hin. apply in_map_iff in Hin. destruct Hin as (b & Hb & Hin).
  rewrite Forall_forall in Hl. specialize (Hl _ Hin).
  destruct a as [|x [|]], b as [|y [|]]; cbn [length] in *; try lia; try discriminate.
  rewrite !joined_single in Hb. subst. contradiction.
Qed.
End NoRepeat.

(** * Random parts do not multiply *)
Section Count.
Variable G : rng_impl.
Variable E : env.
Notation next := (next G E).
Notation next_cs := (next_cs G E).
Variable c : ctx.

(** [cs] yields exactly [k] arrays, if nothing is raised. *)
Fixpoint Cnt (k : nat) (cs : cseq) : Prop :=
  forall m coll r,
    match next_cs m c coll cs r with
    | OVal (Some (_, cs'), _) _ => match k with O => False | S k' => Cnt k' cs' end
    | OVal (None, _) _ => k = 0
    | OStop _ => False
    | _ => True
    end.

Lemma Cnt_unfold : forall k cs m coll r, Cnt k cs ->
    match next_cs m c coll cs r with
    | OVal (Some (_, cs'), _) _ => match k with O => False | S k' => Cnt k' cs' end
    | OVal (None, _) _ => k = 0
    | OStop _ => False
    | _ => True
    end.
Proof. intros [|k] cs m coll r H; apply H. Qed.

Lemma Cnt_intro : forall k cs,
  (forall m coll r, match next_cs m c coll cs r with
    | OVal (Some (_, cs'), _) _ => match k with O => False | S k' => Cnt k' cs' end
    | OVal (None, _) _ => k = 0
    | OStop _ => False
    | _ => True
    end) -> Cnt k cs.
Proof. intros [|k] cs H; exact H. Qed.

Lemma get_value_no_stop : forall nx cmd coll r r', get_value G nx cmd coll r <> OStop r'.
Proof.
  intros nx cmd coll r r'. induction coll as [|[[cmd' g] v] coll IH]; [discriminate|]. cbn.
  destruct (cmd_eqb cmd' cmd).
  - destruct (nx g r) as [[t g'] r1|r1|e r1|]; discriminate.
  - destruct (get_value G nx cmd coll r) as [[v' coll'] r1|r1|e r1|]; cbn; congruence.
Qed.

Lemma Cnt_non : forall k cmd rest, Cnt k rest -> Cnt k (CSNon cmd rest).
Proof.
  intros k. induction k as [|k IH]; intros cmd rest H; apply Cnt_intro; intros [|m] coll r; try exact I;
    unfold_next G E; pose proof (Cnt_unfold _ _ m coll r H) as Hx;
    destruct (next_cs m c coll rest r) as [[[[a cs']|] coll'] r1|r1|e r1|]; cbn [obind]; try exact I; try contradiction;
    try assumption.
  destruct (get_value G (next m) cmd coll' r1) as [[[v|] coll''] r2|r2|e r2|] eqn:Hg; cbn; try exact I; auto.
  exfalso. eapply get_value_no_stop; eassumption.
Qed.

Lemma runs_any : forall g x, runs G E g x -> forall m r, next m g r = OFuel \/ next m g r = x r.
Proof.
  intros g x [n Hn] m r. destruct (le_lt_dec n m) as [Hm|Hm]; [right; now apply Hn|].
  destruct (next_fuel G E m n ltac:(lia)) as [Hx _]. destruct (Hx g r) as [H|H]; [now left|right].
  rewrite H. now apply Hn.
Qed.

Lemma Cnt_via : forall k g g', (forall m coll r, next_cs (S m) c coll g r = next_cs m c coll g' r \/
    next_cs (S m) c coll g r = OFuel) -> Cnt k g' -> Cnt k g.
Proof.
  intros k g g' Hv H. apply Cnt_intro. intros [|m] coll r; [exact I|].
  destruct (Hv m coll r) as [-> | ->]; [now apply Cnt_unfold|exact I].
Qed.

Lemma Cnt_fin2 : forall Q K g rest t st, Cnt Q st -> Cnt K (CSFin g rest) ->
  Cnt (Q + K) (CSFin2 g rest t st).
Proof.
  induction Q as [|Q IH]; intros K g rest t st H HK; apply Cnt_intro; intros [|m] coll r; try exact I;
    unfold_next G E; pose proof (Cnt_unfold _ _ m coll r H) as Hx;
    destruct (next_cs m c coll st r) as [[[[a cs']|] coll'] r1|r1|e r1|]; cbn [obind]; try exact I; try contradiction.
  - cbn [Nat.add]. now apply Cnt_unfold.
  - cbn [Nat.add]. now apply IH.
  - discriminate.
Qed.

Lemma Cnt_fin : forall g l rest K, Emits G E g l -> Cnt K (CSStart rest) -> Cnt (length l * K) (CSFin g rest).
Proof.
  intros g l rest K H HK. induction H as [g Hk|g t g' ts Hk _ IH]; cbn [length Nat.mul].
  - apply Cnt_intro. intros [|m] coll r; [exact I|]. unfold_next G E.
    destruct (runs_any _ _ Hk m r) as [-> | ->]; cbn; auto.
  - eapply Cnt_via; [|exact (Cnt_fin2 _ _ _ _ t _ HK IH)]. intros m coll r. unfold_next G E.
    destruct (runs_any _ _ Hk m r) as [-> | ->]; cbn; auto.
Qed.

Hypothesis Hc : c_method c = Combinatorial.

Lemma Cnt_start : forall cmds ks, Forall2 (PartSize E c) cmds ks ->
  Cnt (fold_right Nat.mul 1 ks) (CSStart cmds).
Proof.
  intros cmds ks H. induction H as [|cmd k cmds ks Hp _ IH]; cbn [fold_right].
  - apply Cnt_intro. intros [|m] coll r; [exact I|]. unfold_next G E. apply Cnt_intro.
    intros [|m'] coll' r'; [exact I|]. reflexivity.
  - destruct Hp as [cmd Hf|cmd ts He].
    + rewrite Nat.mul_1_l. eapply Cnt_via; [|exact (Cnt_non _ cmd _ IH)].
      intros m coll r. unfold_next G E.
      assert (Hn : is_nonfinite (effective_method c cmd) = true).
      { unfold effective_method. rewrite <- mark_of_sampling_method. unfold finite_mark in Hf.
        destruct (mark_of cmd) as [[]|]; try reflexivity; exfalso; auto. }
      rewrite Hn. now left.
    + destruct (proj1 (enum_gives G E) _ _ _ He _ (Same_refl c) Hc) as (n & g & Hg & Hem).
      eapply Cnt_via; [|exact (Cnt_fin _ _ cmds _ Hem IH)].
      intros m coll r. unfold_next G E.
      pose proof (finite_mark_in _ _ Hc (Enum_finite _ _ _ _ He)) as Hfin. unfold finite_in in Hfin. rewrite Hfin.
      destruct (le_mk m (Nat.max m n) c cmd ltac:(lia)) as [Hx|Hx].
      * rewrite Hx. now right.
      * rewrite Hx, Hg by lia. now left.
Qed.

Lemma Cnt_collect : forall n k f sep coll cs r ts e r', Cnt k cs ->
  collect G E f n (GCSeqLoop c sep coll cs) r = (ts, e, r') ->
  length ts <= k /\ (e = EndStop -> length ts = k).
Proof.
  induction n as [|n IH]; intros k f sep coll cs r ts e r' H Hcol; cbn [collect] in Hcol.
  - injection Hcol as <- <- _. cbn. split; [lia|discriminate].
  - destruct f as [|f]; [injection Hcol as <- <- _; split; [cbn; lia|discriminate]|].
    revert Hcol. unfold_next G E. pose proof (Cnt_unfold _ _ f coll r H) as Hx.
    destruct (next_cs f c coll cs r) as [[[[a cs']|] coll'] r1|r1|e1 r1|]; cbn [obind];
      try (intros [= <- <- _]; cbn; split; [lia|intros; try discriminate; try lia]; fail); try contradiction.
    destruct k as [|k]; [contradiction|].
    destruct (collect G E (S f) n _ r1) as [[us e1] r2] eqn:Hcc. intros [= <- <- <-].
    destruct (IH _ _ _ _ _ _ _ _ _ Hx Hcc) as [H1 H2]. cbn. split; [lia|]. intros He. now rewrite (H2 He).
Qed.
End Count.

Lemma augmented_sizes : forall E c tokens ks, c_method c = Combinatorial ->
  Forall2 (PartSize E c) tokens ks ->
  exists ks', Forall2 (PartSize E c) (augmented tokens) ks' /\ fold_right Nat.mul 1 ks' = fold_right Nat.mul 1 ks.
Proof.
  intros E c tokens ks Hc H.
  assert (Hl : PartSize E c (Lit [] (Some Combinatorial)) 1).
  { apply (Part_finite E c _ [[]]). constructor. now right. }
  exists (1 :: ks ++ [1]). split.
  - unfold augmented. constructor; [exact Hl|]. apply Forall2_app; [assumption|]. constructor; [exact Hl|constructor].
  - cbn [fold_right]. rewrite Nat.mul_1_l. clear. induction ks as [|k ks IH]; cbn; [reflexivity|]. now rewrite IH.
Qed.

Lemma seq_count : forall G E c tokens ks sep f n r ts e r', c_method c = Combinatorial ->
  Forall (fun tok => ~ is_assign tok) tokens -> Forall2 (PartSize E c) tokens ks ->
  collect G E f n (GCSeqStart c tokens sep) r = (ts, e, r') ->
  length ts <= fold_right Nat.mul 1 ks /\ (e = EndStop -> length ts = fold_right Nat.mul 1 ks).
Proof.
  intros G E c tokens ks sep f n r ts e r' Hc Ha Hs H.
  destruct n as [|n]; [cbn in H; injection H as <- <- _; cbn; split; [lia|discriminate]|].
  destruct f as [|f]; [cbn in H; injection H as <- <- _; cbn; split; [lia|discriminate]|].
  destruct (augmented_sizes _ _ _ _ Hc Hs) as (ks' & Hs' & <-).
  pose proof (Cnt_start G E c Hc _ _ Hs') as Hcnt.
  revert H. cbn [collect]. unfold_next G E. rewrite no_assignments by assumption. cbn [obind].
  destruct (new_collection G (next G E f) f c (non_combo tokens) r) as [coll r1|r1|x r1|]; cbn [obind pep479];
    try (intros [= <- <- _]; cbn; split; [lia|discriminate]).
  intros H.
  destruct (next G E f (GCSeqLoop c sep coll (CSStart (augmented tokens))) r1) as [[t g'] r2|r2|x r2|] eqn:Hn;
    try (injection H as <- <- _; cbn; split; [lia|]; intros; try discriminate).
  - assert (Hn' : next G E (S f) (GCSeqLoop c sep coll (CSStart (augmented tokens))) r1 = OVal (t, g') r2).
    { rewrite <- Hn. apply next_more; [lia|congruence]. }
    apply (Cnt_collect G E c (S n) _ (S f) sep coll (CSStart (augmented tokens)) r1 ts e r' Hcnt).
    cbn [collect]. rewrite Hn'. exact H.
  - assert (H1 : collect G E f 1 (GCSeqLoop c sep coll (CSStart (augmented tokens))) r1 = ([], EndStop, Some r2))
      by (cbn [collect]; now rewrite Hn).
    destruct (Cnt_collect G E c 1 _ f sep coll (CSStart (augmented tokens)) r1 _ _ _ Hcnt H1) as [_ H2].
    symmetry. rewrite <- H2; reflexivity.
Qed.
