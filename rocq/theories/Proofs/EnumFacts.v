(** Building blocks for combinatorial runs that list given texts and leave the
    random generator alone. *)
From Coq Require Import String NArith ZArith QArith Qcanon Bool Arith List Permutation Lia.
From Verif.Model Require Import Str Utils Command Rng Values Context Sampler.
From Verif.Spec Require Import Text Comb Items Lang Enum.
From Verif.Proofs Require Import StrFacts UtilsFacts CommandFacts CombFacts ValuesFacts DictFacts
  Soundness FuelFacts RunFacts.
Import ListNotations.
Local Open Scope nat_scope.

(** * The declarative relations are functions *)
Lemma DropLeading_fun : forall sep s t u, DropLeading sep s t -> DropLeading sep s u -> t = u.
Proof.
  intros sep s t u [H|[H ->]] [H'|[H' ->]]; try congruence.
  - rewrite H in H'. now apply app_inv_head in H'.
  - exfalso. apply H'. now exists t.
  - exfalso. apply H. now exists u.
Qed.

Lemma DropTrailing_fun : forall sep s t u, DropTrailing sep s t -> DropTrailing sep s u -> t = u.
Proof.
  intros sep s t u [H|[H ->]] [H'|[H' ->]]; try congruence.
  - rewrite H in H'. now apply app_inv_tail in H'.
  - exfalso. apply H'. now exists t.
  - exfalso. apply H. now exists u.
Qed.

Lemma Glued_joined : forall sep ts t, Glued sep ts t -> t = joined ts sep.
Proof.
  intros sep ts t H. destruct H as [t|ts ->|ts mid t Hl Hs H1 H2].
  - now rewrite joined_single.
  - now rewrite joined_nil_sep.
  - pose proof (joined_Glued ts sep) as H. remember (joined ts sep) as u eqn:Hu. clear Hu.
    destruct H as [u|ts' ->|ts' mid' u _ _ H3 H4]; [exfalso; now apply Hl|congruence|].
    rewrite (DropLeading_fun _ _ _ _ H1 H3) in H2. eapply DropTrailing_fun; eassumption.
Qed.

Lemma Tidy_fun : forall b t u, Tidy b t u -> u = if b then squash_whitespace t else t.
Proof.
  intros [] t u H; cbn in *; [|assumption]. destruct H as (ws & Hw & ->).
  symmetry. now apply squash_words.
Qed.

Lemma wrapped_fun : forall w i before after, CutAtMarker w before after ->
  before ++ i ++ after = as_wrapper w i.
Proof.
  intros w i before after H. destruct (as_wrapper_cut w i) as (b & a & Hc & ->).
  destruct (CutAtMarker_unique _ _ _ _ _ H Hc) as [-> ->]. reflexivity.
Qed.

Lemma Forall2_map_fun : forall {A B} (R : A -> B -> Prop) (f : A -> B) l m,
  (forall a b, R a b -> b = f a) -> Forall2 R l m -> m = map f l.
Proof. intros A B R f l m Hf H. induction H; cbn; [reflexivity|]. f_equal; auto. Qed.

Lemma Forall2_len : forall {A B} (R : A -> B -> Prop) l m, Forall2 R l m -> length l = length m.
Proof. intros A B R l m H. induction H; cbn; congruence. Qed.

(** * Products and selections *)
Lemma tuples_product : forall {A} k (l : list A), tuples k l = product (repeat l k).
Proof. induction k as [|k IH]; intros l; cbn; [reflexivity|]. now rewrite <- IH. Qed.

Lemma product_In_length : forall {A} (ls : list (list A)) a, In a (product ls) -> length a = length ls.
Proof.
  induction ls as [|l ls IH]; intros a H; cbn in H.
  - destruct H as [<-|[]]. reflexivity.
  - apply in_flat_map in H. destruct H as (x & _ & H). apply in_map_iff in H.
    destruct H as (y & <- & H). cbn. now rewrite (IH _ H).
Qed.

Lemma Sift_filter : forall {A} (P : A -> Prop) (f : A -> bool) l out,
  (forall x, f x = true <-> P x) -> Sift P l out -> out = filter f l.
Proof.
  intros A P f l out Hf H. induction H as [|x l out Hx _ IH|x l out Hx _ IH]; cbn; [reflexivity| |].
  - apply Hf in Hx. rewrite Hx. now f_equal.
  - destruct (f x) eqn:E; [apply Hf in E; contradiction|assumption].
Qed.

Lemma filter_Sift : forall {A} (P : A -> Prop) (f : A -> bool) l,
  (forall x, f x = true <-> P x) -> Sift P l (filter f l).
Proof.
  intros A P f l Hf. induction l as [|x l IH]; cbn; [constructor|].
  destruct (f x) eqn:E; constructor; auto.
  - now apply Hf.
  - rewrite <- Hf. congruence.
Qed.

Lemma zrange_sizes : forall n lo hi,
  map Z.to_nat (zrange (clamp n (Z.min lo hi)) (Z.min (Z.max lo hi) (Z.of_nat n))) = sizes n lo hi.
Proof.
  intros n lo hi. unfold zrange, sizes.
  pose proof (clamp_range n (Z.min lo hi)) as Hr.
  set (l := clamp n (Z.min lo hi)) in *. set (h := Z.min (Z.max lo hi) (Z.of_nat n)).
  rewrite map_map.
  replace (Z.to_nat (h + 1 - l)) with (Z.to_nat (h + 1) - Z.to_nat l) by lia.
  generalize (Z.to_nat (h + 1) - Z.to_nat l) as k. intros k.
  replace (seq (Z.to_nat l) k) with (map (fun i => Z.to_nat l + i) (seq 0 k)).
  - apply map_ext. intros i. lia.
  - clear. assert (H : forall s k, map (fun i => Z.to_nat l + i) (seq s k) = seq (Z.to_nat l + s) k).
    { intros s k0; revert s. induction k0 as [|k0 IH]; intros s; cbn; [reflexivity|].
      f_equal. rewrite IH. f_equal. lia. }
    rewrite H. f_equal. lia.
Qed.

Lemma Selections_combos : forall opts lo hi sels,
  Selections (map fst opts) (sizes (length opts) lo hi) sels ->
  map snd (bound_combos opts lo hi) = sels.
Proof.
  intros opts lo hi sels (per & Hp & ->). unfold bound_combos. rewrite adjust_range_clamp.
  rewrite <- zrange_sizes in Hp.
  set (zs := zrange (clamp (length opts) (Z.min lo hi)) (Z.min (Z.max lo hi) (Z.of_nat (length opts)))) in *.
  clearbody zs. revert per Hp. induction zs as [|z zs IH]; intros per Hp.
  - inversion Hp. reflexivity.
  - cbn in Hp. inversion Hp as [|? ss ? per' H1 H2]; subst. cbn [flat_map concat].
    rewrite map_app, (IH _ H2). f_equal. rewrite map_map. cbn. rewrite map_id.
    rewrite combos_tuples, tuples_product. unfold values.
    symmetry. eapply Sift_filter; [|exact H1]. apply nodupb_spec.
Qed.

Lemma combos_Selections : forall opts lo hi,
  Selections (map fst opts) (sizes (length opts) lo hi) (map snd (bound_combos opts lo hi)).
Proof.
  intros opts lo hi. unfold bound_combos. rewrite adjust_range_clamp, <- zrange_sizes.
  set (zs := zrange _ _). clearbody zs.
  exists (map (fun z => get_value_combinations (Z.to_nat z) (values opts)) zs). split.
  - induction zs as [|z zs IH]; cbn; constructor; auto.
    rewrite combos_tuples, tuples_product. apply filter_Sift. apply nodupb_spec.
  - induction zs as [|z zs IH]; cbn; [reflexivity|]. rewrite map_app, IH. f_equal.
    rewrite map_map. cbn. apply map_id.
Qed.

(** Arrays kept by the loop of a combinatorial variant. *)
Definition ok_arr (seen : list (list str)) (a : list str) : bool :=
  Nat.eqb (length (dedupe a)) (length a) && negb (existsb (arr_eqb a) seen).
Fixpoint kept (seen : list (list str)) (arrs : list (list str)) : list (list str) :=
  match arrs with
  | [] => []
  | a :: l => if ok_arr seen a then a :: kept (a :: seen) l else kept seen l
  end.

Lemma arr_eqb_spec : forall a b, arr_eqb a b = true <-> a = b.
Proof.
  induction a as [|x a IH]; intros [|y b]; cbn; try (split; congruence).
  rewrite andb_true_iff, IH, str_eqb_eq. split; [intros [-> ->]; reflexivity|].
  intros [= -> ->]. auto.
Qed.

Lemma existsb_arr : forall a seen, existsb (arr_eqb a) seen = true <-> In a seen.
Proof.
  intros a seen. rewrite existsb_exists. split.
  - intros (b & Hb & E). apply arr_eqb_spec in E. now subst.
  - intros H. exists a. split; [assumption|]. now apply arr_eqb_spec.
Qed.

Lemma dedupe_length_NoDup : forall a, Nat.eqb (length (dedupe a)) (length a) = true <-> NoDup a.
Proof.
  intros a. rewrite Nat.eqb_eq. split; intros H.
  - apply dedupe_full in H. rewrite <- H. apply dedupe_NoDup.
  - now rewrite dedupe_id.
Qed.

Lemma kept_spec : forall arrs k outs seen, Sift (@NoDup str) arrs k -> FirstOnly seen k outs ->
  outs = kept seen arrs.
Proof.
  intros arrs k outs seen H. revert seen outs. induction H as [|x l out Hx _ IH|x l out Hx _ IH];
    intros seen outs Hf.
  - now inversion Hf.
  - cbn [kept]. unfold ok_arr. apply dedupe_length_NoDup in Hx. rewrite Hx.
    inversion Hf; subst.
    + destruct (existsb (arr_eqb x) seen) eqn:E; [apply existsb_arr in E; contradiction|].
      cbn. f_equal. now apply IH.
    + match goal with H : In x seen |- _ => apply existsb_arr in H; rewrite H end. cbn. now apply IH.
  - cbn [kept]. unfold ok_arr.
    destruct (Nat.eqb _ _) eqn:E; [apply dedupe_length_NoDup in E; contradiction|]. cbn. now apply IH.
Qed.

(** * Emission *)
Section Emit.
Variable G : rng_impl.
Variable E : env.
Notation R := (rng_state G).
Notation next := (next G E).
Notation next_cs := (next_cs G E).
Notation next_cp := (next_cp G E).

Definition runs (g : gen) (x : R -> ores G (str * gen)) : Prop :=
  exists n, forall m r, n <= m -> next m g r = x r.

Inductive Emits : gen -> list str -> Prop :=
| Em_stop : forall g, runs g (fun r => OStop r) -> Emits g []
| Em_val : forall g t g' ts, runs g (fun r => OVal (t, g') r) -> Emits g' ts -> Emits g (t :: ts).

Definition runs_cp (c : ctx) (st : cp) (x : R -> ores G (list str * cp)) : Prop :=
  exists n, forall m r, n <= m -> next_cp m c st r = x r.

Inductive EmitsCp (c : ctx) : cp -> list (list str) -> Prop :=
| Ecp_stop : forall st, runs_cp c st (fun r => OStop r) -> EmitsCp c st []
| Ecp_val : forall st a st' l, runs_cp c st (fun r => OVal (a, st') r) -> EmitsCp c st' l ->
    EmitsCp c st (a :: l).

(** Delegation to another state. *)
Lemma Emits_via : forall g g' ts,
  (exists n, forall m r, n <= m -> next (S m) g r = next m g' r) -> Emits g' ts -> Emits g ts.
Proof.
  intros g g' ts [n Hn] H. inversion H as [? [n' Hx]|? t g'' ts' [n' Hx] He]; subst.
  - apply Em_stop. exists (S (Nat.max n n')). intros [|m] r Hm; [lia|]. rewrite Hn, Hx by lia. reflexivity.
  - eapply Em_val; [|exact He]. exists (S (Nat.max n n')). intros [|m] r Hm; [lia|].
    rewrite Hn, Hx by lia. reflexivity.
Qed.

Lemma EmitsCp_via : forall c g g' ts,
  (exists n, forall m r, n <= m -> next_cp (S m) c g r = next_cp m c g' r) -> EmitsCp c g' ts -> EmitsCp c g ts.
Proof.
  intros c g g' ts [n Hn] H. inversion H as [? [n' Hx]|? t g'' ts' [n' Hx] He]; subst.
  - apply Ecp_stop. exists (S (Nat.max n n')). intros [|m] r Hm; [lia|]. rewrite Hn, Hx by lia. reflexivity.
  - eapply Ecp_val; [|exact He]. exists (S (Nat.max n n')). intros [|m] r Hm; [lia|].
    rewrite Hn, Hx by lia. reflexivity.
Qed.

(** A run that is collected. *)
Lemma Emits_collect : forall g ts, Emits g ts -> exists f, forall m n r, f <= m ->
  (length ts < n -> collect G E m n g r = (ts, EndStop, Some r)) /\
  (n <= length ts -> exists g', collect G E m n g r = (firstn n ts, EndLimit g', Some r)).
Proof.
  intros g ts H. induction H as [g [k Hk]|g t g' ts [k Hk] _ (f & IH)].
  - exists k. intros m n r Hm. split.
    + intros Hn. destruct n as [|n]; [cbn in Hn; lia|]. cbn [collect]. now rewrite Hk by lia.
    + intros Hn. destruct n as [|n]; [|cbn in Hn; lia]. cbn. eauto.
  - exists (Nat.max k f). intros m n r Hm. destruct n as [|n].
    + split; [cbn; lia|]. cbn. eauto.
    + cbn [collect length firstn]. rewrite Hk by lia. destruct (IH m n r) as [H1 H2]; [lia|]. split.
      * intros Hn. rewrite H1 by lia. reflexivity.
      * intros Hn. destruct H2 as [g'' H2]; [lia|]. rewrite H2. eauto.
Qed.

Definition Gives (c : ctx) (cmd : command) (ts : list str) : Prop :=
  exists n g, (forall m, n <= m -> mk m c cmd = MOk g) /\ Emits g ts.
Definition PGives (c : ctx) (p : wpath) (ts : list str) : Prop :=
  exists n g, (forall m, n <= m -> sample_prompts E m c p None = MOk g) /\ Emits g ts.

(** ** Selections of a variant *)
Definition finite_in (c : ctx) (cmd : command) : Prop := is_nonfinite (effective_method c cmd) = false.

Lemma cp_fin2 : forall c g rest t st Q L, EmitsCp c st Q -> EmitsCp c (CPFin g rest) L ->
  EmitsCp c (CPFin2 g rest t st) (map (cons t) Q ++ L).
Proof.
  intros c g rest t st Q L H HL. induction H as [st [k Hk]|st a st' l [k Hk] _ IH]; cbn [map app].
  - eapply EmitsCp_via; [|exact HL]. exists k. intros m r Hm. unfold_next G E.
    now rewrite Hk by lia.
  - eapply Ecp_val; [|exact IH]. exists (S k). intros [|m] r Hm; [lia|]. unfold_next G E.
    now rewrite Hk by lia.
Qed.

Lemma cp_fin : forall c g rest l P, Emits g l -> EmitsCp c (CPStart rest) P ->
  EmitsCp c (CPFin g rest) (flat_map (fun x => map (cons x) P) l).
Proof.
  intros c g rest l P H HP. induction H as [g [k Hk]|g t g' ts [k Hk] _ IH]; cbn [flat_map].
  - apply Ecp_stop. exists (S k). intros [|m] r Hm; [lia|]. unfold_next G E. now rewrite Hk by lia.
  - eapply EmitsCp_via; [|exact (cp_fin2 _ _ _ t _ _ _ HP IH)].
    exists k. intros m r Hm. unfold_next G E. now rewrite Hk by lia.
Qed.

Lemma cp_nil : forall c, EmitsCp c (CPStart []) [[]].
Proof.
  intros c. eapply Ecp_val with (st' := CPDone); [exists 1; intros [|m] r Hm; [lia|reflexivity]|].
  apply Ecp_stop. exists 1; intros [|m] r Hm; [lia|reflexivity].
Qed.

Lemma cp_finite : forall c cmd combo l arrs, Gives c cmd l -> finite_in c cmd -> EmitsCp c (CPStart combo) arrs ->
  EmitsCp c (CPStart (cmd :: combo)) (flat_map (fun x => map (cons x) arrs) l).
Proof.
  intros c cmd combo l arrs (n & g & Hg & He) Hc H. eapply EmitsCp_via; [|exact (cp_fin _ _ _ _ _ He H)].
  exists n. intros m r Hm. unfold_next G E. rewrite Hg by lia. cbn [lift_mk obind].
  unfold finite_in in Hc. now rewrite Hc.
Qed.

(** ** Variants *)
Lemma var_loop_cur : forall c sep todo b st arrs later, EmitsCp c st arrs ->
  Forall (fun a => length a = b) arrs ->
  (forall seen, Emits (GCVarLoop c sep todo None seen) (map (fun a => joined a sep) (kept seen later))) ->
  forall seen, Emits (GCVarLoop c sep todo (Some (Z.of_nat b, st)) seen)
                 (map (fun a => joined a sep) (kept seen (arrs ++ later))).
Proof.
  intros c sep todo b st arrs later H Hb Hl. induction H as [st [k Hk]|st a st' l [k Hk] _ IH];
    intros seen; cbn [app].
  - eapply Emits_via; [|apply Hl]. exists k. intros m r Hm. unfold_next G E. now rewrite Hk by lia.
  - inversion Hb as [|? ? Ha Hb']; subst. cbn [kept]. unfold ok_arr.
    destruct (Nat.eqb (length (dedupe a)) (length a)) eqn:Hd.
    + pose proof Hd as Hd'. apply dedupe_length_NoDup in Hd. apply dedupe_id in Hd.
      destruct (existsb (arr_eqb a) seen) eqn:Hs; cbn [andb negb map].
      * eapply Emits_via; [|apply IH; assumption]. exists k. intros m r Hm. unfold_next G E.
        rewrite Hk by lia. rewrite Hd, Z.eqb_refl, Hs. reflexivity.
      * eapply Em_val; [|apply IH; assumption]. exists (S k). intros [|m] r Hm; [lia|]. unfold_next G E.
        rewrite Hk by lia. rewrite Hd, Z.eqb_refl, Hs. reflexivity.
    + cbn [andb]. eapply Emits_via; [|apply IH; assumption]. exists k. intros m r Hm. unfold_next G E.
      rewrite Hk by lia. cbn zeta. apply Nat.eqb_neq in Hd.
      destruct (Z.eqb_spec (Z.of_nat (length (dedupe a))) (Z.of_nat (length a))); [lia|]. reflexivity.
Qed.

Lemma var_loop : forall c sep todo later,
  Forall2 (fun bc arrs => fst bc = Z.of_nat (length (snd bc)) /\ EmitsCp c (CPStart (snd bc)) arrs /\
     Forall (fun a => length a = length (snd bc)) arrs) todo later ->
  forall seen, Emits (GCVarLoop c sep todo None seen) (map (fun a => joined a sep) (kept seen (concat later))).
Proof.
  intros c sep todo later H. induction H as [|[b combo] arrs todo later (Hb & He & Hl) _ IH];
    intros seen; cbn [concat].
  - apply Em_stop. exists 1. intros [|m] r Hm; [lia|reflexivity].
  - cbn [fst snd] in *. subst b. eapply Emits_via; [|apply var_loop_cur; [exact He|exact Hl|exact IH]].
    exists 0. intros m r _. reflexivity.
Qed.

(** ** Prompts *)
Lemma squash_emits : forall g ts, Emits g ts -> Emits (GSquash g) (map squash_whitespace ts).
Proof.
  intros g ts H. induction H as [g [k Hk]|g t g' ts [k Hk] _ IH]; cbn [map].
  - apply Em_stop. exists (S k). intros [|m] r Hm; [lia|]. unfold_next G E. now rewrite Hk by lia.
  - eapply Em_val; [|exact IH]. exists (S k). intros [|m] r Hm; [lia|]. unfold_next G E. now rewrite Hk by lia.
Qed.

Lemma prompt_gives : forall c p cmd ts, Reads E p cmd -> Gives c cmd ts ->
  PGives c p (if c_ignws c then map squash_whitespace ts else ts).
Proof.
  intros c p cmd ts Hr (n & g & Hg & He).
  exists n, (if c_ignws c then GSquash g else g). split.
  - intros m Hm. unfold sample_prompts. destruct Hr as [s cmd Hs Hp|cmd Hn].
    + destruct s as [|x s]; [congruence|]. rewrite Hp, Hg by lia. reflexivity.
    + apply truthy_Nonempty in Hn. rewrite Hn. cbn [negb]. rewrite Hg by lia. reflexivity.
  - destruct (c_ignws c); [now apply squash_emits|assumption].
Qed.

Lemma prompt_empty : forall c p, (p = WStr [] \/ exists cmd, p = WCmd cmd /\ ~ Nonempty cmd) -> PGives c p [].
Proof.
  intros c p H. exists 0, GDone. split.
  - intros m _. unfold sample_prompts. destruct H as [->|(cmd & -> & Hn)]; [reflexivity|].
    destruct (truthy cmd) eqn:Ht; [apply truthy_Nonempty in Ht; contradiction|reflexivity].
  - apply Em_stop. exists 1. intros [|m] r Hm; [lia|reflexivity].
Qed.

(** The first value. *)
Definition Firsts (c : ctx) (cmd : command) (t : str) : Prop :=
  exists n, forall m r, n <= m -> first_of G (next m) m (mk m c cmd) r = OVal t r.
Definition Names (c : ctx) (w : wpath) (t : str) : Prop :=
  exists n, forall m r, n <= m -> sample_path G E (next m) m c w r = OVal t r.

Lemma Gives_Firsts : forall c cmd t ts, Gives c cmd (t :: ts) -> Firsts c cmd t.
Proof.
  intros c cmd t ts (n & g & Hg & He). inversion He as [|? ? g' ? [k Hk] _]; subst.
  exists (n + k). intros m r Hm. unfold first_of. rewrite Hg by lia. cbn [lift_mk obind].
  rewrite Hk by lia. reflexivity.
Qed.

Lemma path_first : forall c w path rest, PGives c w (path :: rest) -> Names c w path.
Proof.
  intros c w path rest (n & g & Hg & He). inversion He as [|? t g' ts [k Hk] _]; subst.
  exists (S (Nat.max n k)). intros m r Hm. unfold sample_path, first_of.
  assert (H1 : sample_prompts E m c w (Some 1) = MOk (GSlice 1 g) \/
               sample_prompts E m c w (Some 1) = MOk GDone /\ g = GDone).
  { specialize (Hg m ltac:(lia)). unfold sample_prompts in *.
    destruct (match w with WStr [] => true | WStr _ => false | WCmd cmd => negb (truthy cmd) end);
      [right; split; congruence|left].
    destruct (match w with WStr s => env_parse E s | WCmd cmd => Ok cmd end); [|discriminate].
    destruct (mk m c a); try discriminate. congruence. }
  destruct H1 as [H1|[H1 ->]].
  - rewrite H1. cbn [lift_mk obind]. destruct m as [|m]; [lia|]. unfold_next G E.
    rewrite Hk by lia. reflexivity.
  - specialize (Hk (S k) r ltac:(lia)). discriminate.
Qed.

(** ** Wildcards *)
Lemma wild_cur : forall c vals g l L, Emits g l -> Emits (GCWildLoop c vals None) L ->
  Emits (GCWildLoop c vals (Some g)) (l ++ L).
Proof.
  intros c vals g l L H HL. induction H as [g [k Hk]|g t g' ts [k Hk] _ IH]; cbn [app].
  - eapply Emits_via; [|exact HL]. exists k. intros m r Hm. unfold_next G E. now rewrite Hk by lia.
  - eapply Em_val; [|exact IH]. exists (S k). intros [|m] r Hm; [lia|]. unfold_next G E. now rewrite Hk by lia.
Qed.

Lemma wild_loop : forall c vals lists, Forall2 (PGives c) (map WStr vals) lists ->
  Emits (GCWildLoop c vals None) (concat lists).
Proof.
  intros c vals. induction vals as [|v vals IH]; intros lists H; inversion H as [|? l ? ls Hv Hr]; subst; cbn [concat].
  - apply Em_stop. exists 1. intros [|m] r Hm; [lia|reflexivity].
  - destruct Hv as (n & g & Hg & He). eapply Emits_via; [|exact (wild_cur _ _ _ _ _ He (IH _ Hr))].
    exists n. intros m r Hm. unfold_next G E. rewrite Hg by lia. reflexivity.
Qed.

(** ** Wraps *)
Lemma wrap_cur : forall c inner gw tw gi l L, Emits gi l -> Emits (GCWrapLoop c inner gw None) L ->
  Emits (GCWrapLoop c inner gw (Some (tw, gi))) (map (as_wrapper tw) l ++ L).
Proof.
  intros c inner gw tw gi l L H HL. induction H as [g [k Hk]|g t g' ts [k Hk] _ IH]; cbn [map app].
  - eapply Emits_via; [|exact HL]. exists k. intros m r Hm. unfold_next G E. now rewrite Hk by lia.
  - eapply Em_val; [|exact IH]. exists (S k). intros [|m] r Hm; [lia|]. unfold_next G E. now rewrite Hk by lia.
Qed.

Lemma wrap_loop : forall c inner gw ws l, Emits gw ws -> PGives c (WCmd inner) l ->
  Emits (GCWrapLoop c inner gw None) (flat_map (fun w => map (as_wrapper w) l) ws).
Proof.
  intros c inner gw ws l H (n & gi & Hg & He). induction H as [g [k Hk]|g t g' ts [k Hk] _ IH]; cbn [flat_map].
  - apply Em_stop. exists (S k). intros [|m] r Hm; [lia|]. unfold_next G E. now rewrite Hk by lia.
  - eapply Emits_via; [|exact (wrap_cur _ _ _ t _ _ _ He IH)].
    exists (Nat.max n k). intros m r Hm. unfold_next G E. rewrite Hk by lia. cbn [obind].
    rewrite Hg by lia. reflexivity.
Qed.

Lemma no_assignments : forall n c tokens r, Forall (fun t => ~ is_assign t) tokens ->
  process_variable_assignments G (next n) n c tokens r = OVal (tokens, c) r.
Proof.
  intros n c tokens r H. unfold process_variable_assignments.
  assert (Hl : forall nv, assignments_loop G (next n) n c tokens nv r = OVal (tokens, nv) r).
  { intros nv. induction H as [|t ts Ht _ IH]; [reflexivity|].
    destruct t; try (cbn; rewrite IH; reflexivity).
    exfalso. apply Ht. do 4 eexists. reflexivity. }
  rewrite Hl. reflexivity.
Qed.

(** ** Marks *)
Lemma finite_mark_in : forall c cmd, c_method c = Combinatorial -> finite_mark cmd -> finite_in c cmd.
Proof.
  intros c cmd Hc [H|H]; unfold finite_in, effective_method; rewrite mark_of_sampling_method in H; rewrite H;
    [now rewrite Hc|reflexivity].
Qed.

Lemma chosen_comb : forall c cmd, c_method c = Combinatorial -> finite_mark cmd ->
  chosen_method c cmd = Combinatorial.
Proof.
  intros c cmd Hc [H|H]; rewrite chosen_method_resolve, H; cbn; assumption.
Qed.

Lemma with_method_comb : forall c, c_method c = Combinatorial -> with_method Combinatorial c = c.
Proof. intros c H. rewrite <- H. apply with_method_same. Qed.

Lemma product_app : forall {A} (l1 l2 : list (list A)),
  product (l1 ++ l2) = flat_map (fun a => map (app a) (product l2)) (product l1).
Proof.
  intros A l1 l2. induction l1 as [|l l1 IH]; cbn [product app flat_map].
  - rewrite app_nil_r. symmetry. erewrite map_ext; [apply map_id|reflexivity].
  - rewrite IH. clear IH. induction l as [|x l IH]; cbn [flat_map]; [reflexivity|].
    rewrite flat_map_app, IH. f_equal. clear.
    induction (product l1) as [|p ps IH]; cbn; [reflexivity|].
    rewrite map_app, IH. f_equal. rewrite map_map. apply map_ext. reflexivity.
Qed.

Lemma var_gives : forall c opts lo hi sep m arrs outs sels, c_method c = Combinatorial ->
  finite_mark (Var opts lo hi sep m) -> opts <> [] -> ~ lone_wildcard opts ->
  Selections (map fst opts) (sizes (length opts) lo hi) sels ->
  Forall2 (fun sel ar => EmitsCp c (CPStart sel) ar /\ Forall (fun a => length a = length sel) ar) sels arrs ->
  outs = kept [] (concat arrs) ->
  Gives c (Var opts lo hi sep m) (map (fun a => joined a sep) outs).
Proof.
  intros c opts lo hi sep m arrs outs sels Hc Hm Ho Hl Hs Ha ->.
  exists 1, (GCVarStart c opts lo hi sep). split.
  { intros [|k] Hk; [lia|]. cbn [mk]. rewrite (chosen_comb _ _ Hc Hm). now rewrite with_method_comb. }
  eapply Emits_via with (g' := GCVarLoop c sep (bound_combos opts lo hi) None []).
  { exists 0. intros k r _. unfold_next G E. destruct opts as [|o opts]; [congruence|].
    destruct (single_wildcard (o :: opts)) as [w|] eqn:Hw; [|reflexivity].
    exfalso. apply Hl. destruct (single_wildcard_spec _ _ Hw) as (mm & vars & q & ->). do 4 eexists. reflexivity. }
  apply var_loop.
  apply Selections_combos in Hs. subst sels.
  assert (Hb : Forall (fun bc => fst bc = Z.of_nat (length (snd bc))) (bound_combos opts lo hi)).
  { apply Forall_forall. intros [b combo] Hin. now destruct (bound_combos_In _ _ _ _ _ Hin). }
  revert Ha Hb. generalize (bound_combos opts lo hi) as bcs. intros bcs. revert arrs.
  induction bcs as [|bc bcs IH]; intros arrs Ha Hb; cbn in Ha; inversion Ha as [|? ? ? ? (H1 & H2) Ha']; subst.
  - constructor.
  - inversion Hb; subst. constructor; [auto|]. now apply IH.
Qed.

Lemma to_variant : forall c w path opts lo hi n, Names c w path -> OptionsOf E path opts ->
  n = Z.of_nat (length (env_lookup E path)) ->
  exists k, forall m r, k <= m -> wildcard_to_variant G E (next m) m c w lo hi r
    = OVal (opts, (Z.max 0 (Z.min (Z.min lo hi) n), Z.min (Z.max lo hi) n)) r.
Proof.
  intros c w path opts lo hi n (k & Hk) Ho Hn. exists k. intros m r Hm.
  unfold wildcard_to_variant. rewrite Hk by lia. cbn [obind].
  destruct Ho as (vals & cmds & Hv & Hcm & ->).
  rewrite (Listed_unique _ _ _ Hv (iterate_weighted_Listed (env_lookup E path))) in Hcm.
  assert (Hpa : parse_all E (iterate_weighted (env_lookup E path)) = Ok cmds).
  { clear -Hcm. induction Hcm as [|v cm vs cms H _ IH]; cbn; [reflexivity|]. now rewrite H, IH. }
  cbn zeta. rewrite Hpa.
  replace (post_init_bounds (Z.min lo (Z.of_nat (length (env_lookup E path)))) (Z.min hi (Z.of_nat (length (env_lookup E path)))))
    with (Z.max 0 (Z.min (Z.min lo hi) n), Z.min (Z.max lo hi) n); [reflexivity|].
  subst n. unfold post_init_bounds.
  match goal with |- context [Z.leb ?a ?b] => destruct (Z.leb_spec a b) end; f_equal; lia.
Qed.

Lemma lone_gives : forall c w mw vars q lo hi sep m path opts n ts, c_method c = Combinatorial ->
  finite_mark (Var [(Wild w mw vars, q)] lo hi sep m) -> Names c w path -> OptionsOf E path opts ->
  n = Z.of_nat (length (env_lookup E path)) ->
  Gives c (Var opts (Z.max 0 (Z.min (Z.min lo hi) n)) (Z.min (Z.max lo hi) n) sep None) ts ->
  Gives c (Var [(Wild w mw vars, q)] lo hi sep m) ts.
Proof.
  intros c w mw vars q lo hi sep m path opts n ts Hc Hm Hp Ho Hn (n1 & g & Hg & He).
  destruct (to_variant c w path opts lo hi n Hp Ho Hn) as (k & Hk).
  exists 1, (GCVarStart c [(Wild w mw vars, q)] lo hi sep). split.
  { intros [|j] Hj; [lia|]. cbn [mk]. rewrite (chosen_comb _ _ Hc Hm). now rewrite with_method_comb. }
  specialize (Hg (S n1) ltac:(lia)). cbn [mk] in Hg.
  rewrite (chosen_comb _ _ Hc) in Hg by now left. rewrite with_method_comb in Hg by assumption.
  injection Hg as <-.
  eapply Emits_via; [|exact He]. exists k. intros j r Hj. unfold_next G E. cbn [single_wildcard].
  rewrite Hk by lia. reflexivity.
Qed.

Lemma flat_map_list_prod : forall {A B C} (f : A -> B -> C) ws is,
  flat_map (fun w => map (f w) is) ws = map (fun wi => f (fst wi) (snd wi)) (list_prod ws is).
Proof.
  intros A B C f ws is. induction ws as [|w ws IH]; cbn; [reflexivity|].
  rewrite map_app, map_map, IH. reflexivity.
Qed.

End Emit.
