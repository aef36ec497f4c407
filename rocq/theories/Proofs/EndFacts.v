(** From template text to prompts. *)
From Coq Require Import String NArith ZArith QArith Qcanon Bool Arith List Lia.
From Verif.Model Require Import Str Utils Command Rng Values Context Sampler Parser Generators.
From Verif.Spec Require Import Text Comb Items Names Lookup Shape Enum Sure Choices Lang Syntax Everyday.
From Verif.Proofs Require Import StrFacts UtilsFacts CommandFacts EnumFacts BindFacts EnumRun CombRun GeneratorFacts PlainFacts ServeFacts ShapeFacts EverydayFacts.
Import ListNotations.
Local Open Scope nat_scope.

Section End_.
Variable G : rng_impl.
Variable E : env.

Lemma slice_emits : forall g ts k, Emits G E g ts -> Emits G E (GSlice k g) (firstn k ts).
Proof.
  intros g ts k H. revert k. induction H as [g [n Hn]|g t g' ts [n Hn] H IH]; intros k.
  - rewrite firstn_nil. apply Em_stop. exists (S n). intros [|m] r Hm; [lia|]. cbn. destruct k; [reflexivity|].
    rewrite Hn by lia. reflexivity.
  - destruct k as [|k]; cbn [firstn].
    + apply Em_stop. exists 1. intros [|m] r Hm; [lia|]. reflexivity.
    + apply Em_val with (g' := GSlice k g'); [|apply IH].
      exists (S n). intros [|m] r Hm; [lia|]. cbn. rewrite Hn by lia. reflexivity.
Qed.
Lemma sample_limit : forall fuel c p limit g, sample_prompts E fuel c p None = MOk g ->
  exists g', sample_prompts E fuel c p limit = MOk g' /\ (forall ts, Emits G E g ts -> Emits G E g' (at_most limit ts)).
Proof.
  intros fuel c p limit g. unfold sample_prompts.
  destruct (match p with WStr [] => true | WStr _ => false | WCmd cmd => negb (truthy cmd) end).
  { intros H; injection H as <-. exists GDone. split; [reflexivity|]. intros ts H.
    assert (Hd : Emits G E GDone []) by (apply Em_stop; exists 1; intros [|m] r Hm; [lia|reflexivity]).
    assert (ts = []) as ->.
    { inversion H as [|? t g' ts' [n Hn] _]; subst; [reflexivity|]. specialize (Hn (S n) (prim_seed G 0) ltac:(lia)). discriminate Hn. }
    destruct limit as [[|k]|]; exact Hd. }
  destruct (match p with WStr s => env_parse E s | WCmd cmd => Ok cmd end) as [cmd|e]; [|discriminate].
  destruct (mk fuel c cmd) as [g0| |]; try discriminate. intros H; injection H as <-.
  destruct limit as [k|]; eexists; (split; [reflexivity|]); intros ts H; cbn [at_most]; [apply slice_emits, H|exact H].
Qed.
Lemma combinatorial_list : forall c template limit ts, c_method c = Combinatorial -> EnumPrompt E c (WStr template) ts ->
  exists f, forall m steps r, f <= m -> length (at_most limit ts) < steps ->
    combinatorial_generate G E m steps c template limit r = Ret (at_most limit ts) r.
Proof.
  intros c template limit ts Hc H.
  destruct (enum_prompt G E _ _ _ Hc H) as (n & g & Hg & He).
  destruct (sample_limit n c (WStr template) limit g (Hg n (le_n n))) as (g' & Hg' & Hx).
  specialize (Hx _ He). destruct (Emits_collect G E _ _ Hx) as (f & Hf). exists (Nat.max n f). intros m steps r Hm Hs.
  unfold combinatorial_generate.
  assert (Hsame : sample_prompts E m c (WStr template) limit = MOk g').
  { clear - Hg Hg' Hm. pose proof (Hg n (le_n n)) as H1. pose proof (Hg m ltac:(lia)) as H2.
    unfold sample_prompts in *.
    destruct (match WStr template with WStr [] => true | WStr _ => false | WCmd cmd => negb (truthy cmd) end); [exact Hg'|].
    destruct (env_parse E template) as [cmd|e]; [|discriminate].
    destruct (mk n c cmd) as [g0| |]; try discriminate. destruct (mk m c cmd) as [g1| |]; try discriminate.
    injection H1 as H1. injection H2 as H2. rewrite <- Hg'. f_equal.
    destruct limit; congruence. }
  rewrite Hsame. cbn [drain_mk]. apply drain_collect. apply Hf; [lia|exact Hs].
Qed.
End End_.

(** * One choice per variant *)
Lemma first_seen : forall (l : list text) seen, FirstOnly seen l
  (filter (fun u => if in_dec (list_eq_dec N.eq_dec) u seen then false else true) (firsts l)).
Proof.
  induction l as [|t l IH]; intros seen; [constructor|]. cbn [firsts filter].
  destruct (in_dec (list_eq_dec N.eq_dec) t seen) as [Hin|Hout].
  - apply First_drop; [exact Hin|]. 
    replace (filter _ (filter _ (firsts l))) with (filter (fun u => if in_dec (list_eq_dec N.eq_dec) u seen then false else true) (firsts l)); [apply IH|].
    generalize (firsts l) as m. induction m as [|u m IHm]; [reflexivity|]. cbn [filter].
    destruct (list_eq_dec N.eq_dec u t) as [->|Hne].
    + destruct (in_dec (list_eq_dec N.eq_dec) t seen); [exact IHm|contradiction].
    + cbn [filter]. destruct (in_dec (list_eq_dec N.eq_dec) u seen); [exact IHm|now f_equal].
  - apply First_keep; [exact Hout|].
    replace (filter _ (filter _ (firsts l))) with (filter (fun u => if in_dec (list_eq_dec N.eq_dec) u (t :: seen) then false else true) (firsts l)); [apply IH|].
    generalize (firsts l) as m. induction m as [|u m IHm]; [reflexivity|]. cbn [filter].
    destruct (list_eq_dec N.eq_dec u t) as [->|Hne].
    + destruct (in_dec (list_eq_dec N.eq_dec) t (t :: seen)) as [|Hx]; [exact IHm|destruct Hx; now left].
    + cbn [filter]. destruct (in_dec (list_eq_dec N.eq_dec) u (t :: seen)) as [Hx|Hx];
        destruct (in_dec (list_eq_dec N.eq_dec) u seen) as [Hy|Hy]; cbn [filter]; try exact IHm.
      * destruct Hx as [Hx|Hx]; [now destruct Hne|contradiction].
      * destruct Hx; now right.
      * now f_equal.
Qed.
Lemma firsts_only : forall l : list text, FirstOnly [] l (firsts l).
Proof.
  intros l. pose proof (first_seen l []) as H. 
  replace (filter _ (firsts l)) with (firsts l) in H; [exact H|].
  generalize (firsts l) as m. induction m as [|u m IHm]; [reflexivity|]. cbn [filter].
  destruct (in_dec (list_eq_dec N.eq_dec) u []) as [Hx|_]; [destruct Hx|now f_equal].
Qed.
Lemma first_single : forall l seen out, FirstOnly seen l out ->
  FirstOnly (map (fun t : text => [t]) seen) (map (fun t => [t]) l) (map (fun t => [t]) out).
Proof.
  induction 1 as [|seen x l out Hx _ IH|seen x l out Hx _ IH]; cbn [map].
  - constructor.
  - apply First_keep; [|exact IH]. intros Hin. apply in_map_iff in Hin as (y & Hy & Hin). injection Hy as ->. contradiction.
  - apply First_drop; [|exact IH]. apply in_map_iff. eauto.
Qed.
Lemma sift_singles : forall (A : Type) (l : list A), Sift (@NoDup A) (map (fun x => [x]) l) (map (fun x => [x]) l).
Proof. intros A l; induction l; cbn; constructor; auto. repeat constructor; auto. Qed.
Lemma product_one : forall (A : Type) (l : list A), product [l] = map (fun x => [x]) l.
Proof. intros A l. cbn. induction l; cbn; [reflexivity|now rewrite IHl]. Qed.


Lemma one_choice_depth : forall (P : command -> Prop),
  (forall s, P (Lit s None)) ->
  (forall tokens, Forall P tokens -> P (Seq tokens [] None)) ->
  (forall opts sep m, m = None \/ m = Some Combinatorial -> opts <> [] ->
     Forall (fun o => OneChoice (fst o)) opts -> Forall (fun o => P (fst o)) opts -> P (Var opts 1 1 sep m)) ->
  forall cmd, OneChoice cmd -> P cmd.
Proof.
  intros P Hl Hs Hv. fix IH 2. intros cmd [s|tokens Ht|opts sep m Hm Hn Ho].
  - apply Hl.
  - apply Hs. induction Ht as [|x l Hx _ IHl]; constructor; [apply IH, Hx|exact IHl].
  - apply Hv; [exact Hm|exact Hn|exact Ho|]. clear Hn. induction Ho as [|x l Hx _ IHl]; constructor; [apply IH, Hx|exact IHl].
Qed.
Lemma firsts_nonempty : forall l, l <> [] -> firsts l <> [].
Proof. intros [|t l] H; [congruence|discriminate]. Qed.
Lemma product_nonempty : forall (A : Type) (ls : list (list A)), Forall (fun l => l <> []) ls -> product ls <> [].
Proof.
  intros A ls; induction ls as [|l ls IH]; intros H; [discriminate|]. inversion H; subst. cbn.
  destruct l as [|x l]; [congruence|]. cbn. destruct (product ls) as [|y ys]; [now destruct IH|discriminate].
Qed.
Lemma map_ne : forall (A B : Type) (f : A -> B) l, l <> [] -> map f l <> [].
Proof. intros A B f [|x l] H; [congruence|discriminate]. Qed.
Lemma choices_nonempty : forall cmd, OneChoice cmd -> choices cmd <> [].
Proof.
  apply one_choice_depth.
  - discriminate.
  - intros tokens H. cbn. apply map_ne, product_nonempty. apply Forall_forall. intros l Hin.
    apply in_map_iff in Hin as (tok & <- & Hin). rewrite Forall_forall in H. auto.
  - intros opts sep m _ Hn _ H. cbn. apply firsts_nonempty. destruct opts as [|o opts]; [congruence|].
    inversion H; subst. cbn. destruct (choices (fst o)); [congruence|discriminate].
Qed.
Lemma one_choice_mark : forall cmd, OneChoice cmd -> finite_mark cmd /\ ~ is_assign cmd.
Proof.
  intros cmd [s|tokens _|opts sep m Hm _ _]; (split; [unfold finite_mark; cbn; auto|intros (x & v & i & o & H); discriminate H]).
Qed.
Lemma one_choice_lists : forall E c cmd, OneChoice cmd -> Enum E c cmd (choices cmd).
Proof.
  intros E c cmd H. cut (OneChoice cmd /\ Enum E c cmd (choices cmd)); [intros [_ Hx]; exact Hx|]. revert cmd H. apply one_choice_depth.
  - intros s. split; [constructor|]. apply En_lit. now left.
  - intros tokens H.
    assert (Ho : Forall OneChoice tokens) by (eapply Forall_impl; [|exact H]; intros ? [Hx _]; exact Hx).
    split; [now constructor|]. cbn [choices]. apply Enum_product.
    + now left.
    + eapply Forall_impl; [|exact Ho]. intros tok Ht. now apply one_choice_mark.
    + clear Ho. induction H as [|tok l [_ Hx] _ IHl]; cbn; constructor; auto.
    + clear H. induction Ho as [|tok l Hx _ IHl]; cbn; constructor; auto. intros _. now apply choices_nonempty.
  - intros opts sep m Hm Hn Ho H. split; [now constructor|]. cbn [choices].
    assert (H1 : 1 <= length opts) by (destruct opts; [congruence|cbn; lia]).
    assert (Hs : sizes (length opts) 1 1 = [1]).
    { unfold sizes, clamp.
      rewrite Z.min_id, Z.max_id. rewrite !Z.min_l by lia. reflexivity. }
    apply En_var with (sels := map (fun x => [x]) (map fst opts))
      (arrs := map (fun t => [t]) (flat_map (fun o => choices (fst o)) opts))
      (kept := map (fun t => [t]) (flat_map (fun o => choices (fst o)) opts))
      (outs := map (fun t => [t]) (firsts (flat_map (fun o => choices (fst o)) opts))).
    + exact Hm.
    + exact Hn.
    + intros (w & mw & vs & q & ->). inversion Ho as [|? ? Hx _]; subst. inversion Hx.
    + rewrite Hs. exists [map (fun x => [x]) (map fst opts)]. split; [|cbn; now rewrite app_nil_r].
      constructor; [|constructor]. cbn [repeat]. rewrite product_one. apply sift_singles.
    + clear Hs H1 Hn Ho. induction H as [|o l [_ Hx] _ IHl]; cbn [map flat_map]; [constructor|].
      rewrite map_app, <- (product_one text (choices (fst o))). apply EnS_cons; [apply Enum_combo; repeat constructor; exact Hx|exact IHl].
    + apply sift_singles.
    + apply (first_single _ []). apply firsts_only.
    + generalize (firsts (flat_map (fun o => choices (fst o)) opts)) as l. induction l; cbn; constructor; auto. constructor.
Qed.
Lemma tidy_exists : forall b t, exists u, Tidy b t u.
Proof. intros b t. exists (if b then squash_whitespace t else t). destruct b; [apply squash_Tidy|reflexivity]. Qed.

(** The combinatorial generator lists the choices of such a template. *)
Lemma one_choice_generated : forall G E c template cmd limit, c_method c = Combinatorial ->
  template <> [] -> env_parse E template = Ok cmd -> OneChoice cmd ->
  exists ts, Forall2 (Tidy (c_ignws c)) (choices cmd) ts /\
    exists f, forall m steps r, f <= m -> length (at_most limit ts) < steps ->
      combinatorial_generate G E m steps c template limit r = Ret (at_most limit ts) r.
Proof.
  intros G E c template cmd limit Hc Hne Hp Ho.
  assert (Hts : exists ts, Forall2 (Tidy (c_ignws c)) (choices cmd) ts).
  { generalize (choices cmd) as l. induction l as [|t l (us & IH)]; [exists []; constructor|].
    destruct (tidy_exists (c_ignws c) t) as (u & Hu). exists (u :: us). now constructor. }
  destruct Hts as (ts & Hts). exists ts. split; [exact Hts|]. apply combinatorial_list; [exact Hc|].
  eapply EnP_reads; [|apply one_choice_lists, Ho|exact Hts]. now constructor.
Qed.

(** * Everything returned is allowed *)
Lemma usable_allowed : forall G E c template num seeds m r ts r', c_method c <> Combinatorial ->
  Usable num seeds -> random_generate G E m c template num seeds r = Ret ts r' ->
  Forall (Allowed E c (WStr template)) ts.
Proof.
  intros G E c template num seeds m r ts r' Hc Hu H.
  assert (Hn : is_nonfinite (c_method c) = true) by (destruct (c_method c); [reflexivity|congruence|reflexivity]).
  destruct (effective_seeds seeds num) as [[l|e]|] eqn:He.
  - eapply random_seeded; eassumption.
  - exfalso. unfold random_generate in H. rewrite He in H. discriminate H.
  - eapply random_unseeded; eassumption.
Qed.
Lemma everyday_prompts : forall G alnum C E c template cmd num seeds r,
  (forall s, env_parse E s = parse alnum C s) ->
  template <> [] -> parse alnum C template = Ok cmd ->
  c_method c <> Combinatorial -> c_vars c = [] -> c_busy c = [] ->
  Everyday E (c_ignws c) no_names (c_method c) cmd -> Usable num seeds ->
  exists n ts r', (forall m, n <= m -> random_generate G E m c template num seeds r = Ret ts r') /\
    length ts = num /\ Forall (Allowed E c (WStr template)) ts.
Proof.
  intros G alnum C E c template cmd num seeds r HE Ht Hp Hm Hv Hb He Hu.
  destruct (everyday_served G alnum C E c template cmd num seeds r HE Ht Hp Hm Hv Hb He Hu) as (n & ts & r' & H & Hl).
  exists n, ts, r'. split; [exact H|]. split; [exact Hl|]. eapply usable_allowed; [exact Hm|exact Hu|apply (H n (le_n n))].
Qed.

(** * Plain text stands for itself *)
Lemma plain_random : forall G alnum C E c t u num seeds r,
  env_parse E t = parse alnum C t -> Marks C -> t <> [] -> Syntax.Plain C t -> ~ BeginsComment t ->
  c_method c <> Combinatorial -> Usable num seeds -> Tidy (c_ignws c) t u ->
  exists n r', forall m, n <= m -> random_generate G E m c t num seeds r = Ret (repeat u num) r'.
Proof.
  intros G alnum C E c t u num seeds r HE HM Ht Hp Hb Hm Hu Htu.
  assert (Hr : Reads E (WStr t) (Lit t None)).
  { constructor; [exact Ht|]. rewrite HE. now apply plain_parse. }
  destruct (sure_generate G E c t (Lit t None) num seeds r Hr) as (n & ts & r' & H & Hl); [|exact Hu|].
  { constructor. constructor. exact Hm. }
  exists n, r'. intros m Hmn. rewrite (H m Hmn). f_equal.
  pose proof (usable_allowed _ _ _ _ _ _ _ _ _ _ Hm Hu (H n (le_n n))) as Ha. rewrite <- Hl. clear - Ha Hr Htu.
  induction Ha as [|x l (cmd & t' & Hx & Hpr & Hti) _ IH]; [reflexivity|]. cbn. f_equal; [|exact IH].
  assert (cmd = Lit t None) as -> by (inversion Hx; inversion Hr; subst; congruence).
  inversion Hpr as [? ? ? Hbody]; subst. inversion Hbody; subst. apply Tidy_fun in Hti, Htu. congruence.
Qed.
Lemma plain_combinatorial : forall G alnum C E c t u limit,
  env_parse E t = parse alnum C t -> Marks C -> t <> [] -> Syntax.Plain C t -> ~ BeginsComment t ->
  c_method c = Combinatorial -> Tidy (c_ignws c) t u ->
  exists f, forall m steps r, f <= m -> length (at_most limit [u]) < steps ->
    combinatorial_generate G E m steps c t limit r = Ret (at_most limit [u]) r.
Proof.
  intros G alnum C E c t u limit HE HM Ht Hp Hb Hm Htu.
  apply (combinatorial_list G E c t limit [u] Hm).
  eapply EnP_reads with (cmd := Lit t None) (ts := [t]).
  - constructor; [exact Ht|]. rewrite HE. now apply plain_parse.
  - apply En_lit. now left.
  - constructor; [exact Htu|constructor].
Qed.
