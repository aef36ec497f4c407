(** Memoryless templates: every state of their generator answers like a fresh
    one. *)
From Coq Require Import String NArith ZArith QArith Qcanon Bool Arith List Lia.
From Verif.Model Require Import Str Utils Command Rng Values Context Sampler.
From Verif.Spec Require Import Text Comb Items Lang Seeds.
From Verif.Proofs Require Import StrFacts UtilsFacts CommandFacts CombFacts RngFacts ValuesFacts DictFacts Soundness FuelFacts RunFacts PureFacts.
Import ListNotations.
Local Open Scope nat_scope.

Lemma adjust_adjust : forall n lo hi a b, adjust_range n lo hi = (a, b) ->
  (a <= b)%Z -> adjust_range n a b = (a, b).
Proof.
  intros n lo hi a b. unfold adjust_range, post_init_bounds.
  destruct (Z.leb_spec (Z.min lo (Z.of_nat n)) (Z.min hi (Z.of_nat n))); intros [= <- <-] Hab;
  match goal with |- context [Z.leb ?x ?y] => destruct (Z.leb_spec x y) end; f_equal; lia.
Qed.

Lemma not_varied : forall items, SameWeights items -> has_varied_weights items = false.
Proof.
  intros items H. unfold has_varied_weights.
  assert (Hgen : forall seen, (seen = [] \/ exists a, In a items /\ seen = [w_weight a]) ->
            forall rest, incl rest items -> varied_aux seen rest = false).
  { intros seen Hs rest. revert seen Hs. induction rest as [|i rest IH]; intros seen Hs Hi; [reflexivity|].
    cbn [varied_aux].
    assert (Hin : In i items) by (apply Hi; now left).
    assert (Hr : incl rest items) by (intros x Hx; apply Hi; now right).
    destruct Hs as [->|(a & Ha & ->)].
    - cbn. apply IH; [right; eauto|exact Hr].
    - cbn [existsb]. rewrite (H i a Hin Ha).
      assert (Hq : Qc_eq_bool (w_weight a) (w_weight a) = true).
      { unfold Qc_eq_bool. destruct (Qc_eq_dec _ _); congruence. }
      rewrite Hq. cbn [orb length]. cbn. apply IH; [right; eauto|exact Hr]. }
  apply Hgen; [now left|apply incl_refl].
Qed.

Section Seed.
Variable G : rng_impl.
Variable E : env.
Notation R := (rng_state G).
Notation next := (next G E).
Notation NoMem := (NoMemory E).
Notation NMC := (NoMemoryCtx E).

Definition text_of (x : ores G (str * gen)) : ores G str :=
  match x with
  | OVal (t, _) r => OVal t r
  | OStop r => OStop r
  | ORaise e r => ORaise e r
  | OFuel => OFuel
  end.

(** A fresh generator asked once. *)
Definition ask (m : nat) (c : ctx) (cmd : command) (r : R) : ores G str :=
  obind G (lift_mk G (mk m c cmd) r) (fun g r => text_of (next m g r)).

Definition Settles (c : ctx) (cmd : command) (r : R) (o : ores G str) : Prop :=
  exists m, forall m', m <= m' -> ask m' c cmd r = o.

Lemma Settles_det : forall c cmd r o o', Settles c cmd r o -> Settles c cmd r o' -> o = o'.
Proof.
  intros c cmd r o o' [m H] [m' H'].
  rewrite <- (H (m + m')) by lia. now rewrite <- (H' (m + m')) by lia.
Qed.

(** What a variant that is one wildcard becomes. *)
Definition path_result (c : ctx) (w : wpath) (p : str) : Prop :=
  forall n r, 4 <= n -> sample_path G E (next n) n c w r = OVal p r.

Definition Expanded (p : str) (lo hi : Z) (vs : list (command * Qc)) (b : Z * Z) : Prop :=
  exists cmds, parse_all E (iterate_weighted (env_lookup E p)) = Ok cmds /\
    vs = map (fun cmd => (cmd, 1%Qc)) cmds /\
    b = post_init_bounds (Z.min lo (Z.of_nat (length (env_lookup E p))))
                         (Z.min hi (Z.of_nat (length (env_lookup E p)))).

Definition Assigned (c : ctx) (ts rest : list command) (c' : ctx) : Prop :=
  forall nx n r, process_variable_assignments G nx n c ts r = OVal (rest, c') r.

Inductive St : ctx -> command -> gen -> Prop :=
| St_start : forall n c cmd g, mk n c cmd = MOk g -> St c cmd g
| St_access : forall c x d v c2 g, resolve_access c x d = Some v ->
    for_sampling_variable x c = Ok c2 -> St c2 v g -> St c (Access x d) g
| St_one : forall c v q lo hi sep m g, (forall w m' vars, v <> Wild w m' vars) ->
    St c v g -> St c (Var [(v, q)] lo hi sep m) g
| St_seq : forall c ts sep m rest c' gens, Assigned c ts rest c' ->
    Forall2 (St c') rest gens -> St c (Seq ts sep m) (GSeqLoop gens sep)
| St_var : forall c vs lo hi sep m a b, 2 <= length vs ->
    adjust_range (length vs) a b = adjust_range (length vs) lo hi ->
    St c (Var vs lo hi sep m) (GRVarLoop c vs a b sep)
| St_lone : forall c w m' vars q lo hi sep m p vs lo' hi' a b,
    path_result c w p -> Expanded p lo hi vs (lo', hi') -> 2 <= length vs ->
    adjust_range (length vs) a b = adjust_range (length vs) lo' hi' ->
    St c (Var [(Wild w m' vars, q)] lo hi sep m) (GRVarLoop c vs a b sep)
| St_wild : forall c w m vars p g, path_result c w p -> env_lookup E p <> [] ->
    g = None \/ (exists g0, g = Some (GSlice 0 g0)) ->
    St c (Wild w m vars)
      (GRWildLoop (with_variables vars c) (WChoice (string_values (env_lookup E p))) g)
| St_fallback : forall c s m vars p, path_result c (WStr s) p -> env_lookup E p = [] ->
    St c (Wild (WStr s) m vars) (GRepeat (to_wildcard (env_wrap E) s))
| St_wrap : forall c a b m ga gb, St c a ga -> St c b gb ->
    St c (Wrap a b m) (GRWrapLoop ga gb).

Lemma more : forall n m g r x, n <= m -> next n g r = x -> x <> OFuel -> next m g r = x.
Proof. intros n m g r x H Hx Hf. subst x. now apply next_more. Qed.

(** Generators of memoryless commands. *)
Lemma with_random : forall c, c_method c = Random -> with_method Random c = c.
Proof. intros c H. rewrite <- H. apply with_method_same. Qed.

Lemma chosen_random : forall c cmd, c_method c = Random -> sampling_method cmd <> Some Cyclical ->
  chosen_method c cmd = Random.
Proof.
  intros c cmd H Hm. unfold chosen_method. rewrite H.
  destruct (sampling_method cmd) as [[]|]; try reflexivity. congruence.
Qed.

Lemma NMC_for : forall c x c2, NMC c -> for_sampling_variable x c = Ok c2 -> NMC c2.
Proof.
  intros c x c2 (H1 & H2 & H3) H. unfold for_sampling_variable in H.
  destruct (str_mem x (c_busy c)); [discriminate|]. injection H as <-. repeat split; assumption.
Qed.

Lemma NMC_resolve : forall c x d v, NMC c -> NoMem (Access x d) -> resolve_access c x d = Some v -> NoMem v.
Proof.
  intros c x d v (H1 & H2 & H3) Hd H. unfold resolve_access in H. inversion Hd as [| | | | | | |? ? Hdef|]; subst.
  assert (Hf : forall u, match dict_get x (c_vars c) with Some v => Some v | None => d end = Some u -> NoMem u).
  { intros u. destruct (dict_get x (c_vars c)) as [u'|] eqn:Hg.
    - intros [= ->]. apply dict_get_In in Hg. rewrite Forall_forall in H2. exact (H2 _ Hg).
    - apply Hdef. }
  destruct (match dict_get x (c_vars c) with Some v => Some v | None => d end) as [u|]; [|now apply H3].
  destruct (truthy u); [|now apply H3]. injection H as <-. now apply Hf.
Qed.

Lemma with_variables_NMC : forall c vars, NMC c -> Forall (fun kv => NoMem (snd kv)) vars ->
  NMC (with_variables vars c).
Proof.
  intros c vars (H1 & H2 & H3) Hv. unfold with_variables. destruct vars as [|kv vars]; [repeat split; auto|].
  split; [assumption|]. split; [|assumption]. cbn [c_vars]. unfold dict_update.
  revert Hv H2. generalize (kv :: vars) as l. generalize (c_vars c) as d. clear.
  intros d l. revert d. induction l as [|[k v] l IH]; intros d Hl Hd; cbn; [assumption|].
  inversion Hl; subst. apply IH; [assumption|]. now apply dict_set_Forall.
Qed.

Lemma assigned_exists : forall c ts, NMC c -> Forall NoMem ts ->
  exists rest c', Assigned c ts rest c' /\ NMC c' /\ Forall NoMem rest.
Proof.
  intros c ts Hc Ht.
  assert (H : forall nv, Forall (fun kv => NoMem (snd kv)) nv ->
            exists rest vs, (forall nx n r, assignments_loop G nx n c ts nv r = OVal (rest, vs) r) /\
              Forall NoMem rest /\ Forall (fun kv => NoMem (snd kv)) vs).
  { induction Ht as [|cmd ts Hcmd Ht IH]; intros nv Hnv.
    - exists [], nv. repeat split; auto.
    - assert (Hother : (forall x v i o, cmd <> Assign x v i o) ->
               exists rest vs, (forall nx n r, assignments_loop G nx n c (cmd :: ts) nv r = OVal (rest, vs) r) /\
              Forall NoMem rest /\ Forall (fun kv => NoMem (snd kv)) vs).
      { intros Hn. destruct (IH nv Hnv) as (rest & vs & H1 & H2 & H3).
        exists (cmd :: rest), vs. split; [|split; [now constructor|assumption]].
        intros nx n r. destruct cmd; try (cbn [assignments_loop]; rewrite H1; reflexivity).
        exfalso. eapply Hn. reflexivity. }
      destruct cmd as [| | | |x v i o| |]; try (apply Hother; discriminate).
      inversion Hcmd; subst. cbn [assignments_loop].
      unfold process_variable_assignment.
      destruct (if o then None else dict_get x (c_vars c)) as [u|] eqn:Hu.
      + assert (Hnu : NoMem u).
        { destruct o; [discriminate|]. apply dict_get_In in Hu. destruct Hc as (_ & Hvs & _).
          rewrite Forall_forall in Hvs. exact (Hvs _ Hu). }
        cbn [obind]. apply IH. now apply dict_set_Forall.
      + cbn [obind]. apply IH. now apply dict_set_Forall. }
  destruct (H [] (Forall_nil _)) as (rest & vs & H1 & H2 & H3).
  exists rest, (with_variables vs c). repeat split; try assumption.
  - intros nx n r. unfold process_variable_assignments. rewrite H1. reflexivity.
  - now apply with_variables_NMC.
  - now apply with_variables_NMC.
  - now apply with_variables_NMC.
Qed.

Lemma Assigned_det : forall c ts a c1 b c2 (r : R), Assigned c ts a c1 -> Assigned c ts b c2 -> a = b /\ c1 = c2.
Proof.
  intros c ts a c1 b c2 r H1 H2. specialize (H1 (next 0) 0 r). rewrite (H2 (next 0) 0 r) in H1.
  injection H1 as <- <-. now split.
Qed.

(** Plain paths. *)
Lemma plain_path : forall c w P, c_method c = Random -> PlainPath E w P ->
  (exists p, path_result c w p /\ P (env_lookup E p)) \/
  (exists o, (forall r, o r = OStop r) /\ forall n r, 4 <= n -> sample_path G E (next n) n c w r = o r) \/
  (exists e, forall n r, sample_path G E (next n) n c w r = ORaise e r).
Proof.
  intros c w P Hm (s & -> & Hs). unfold path_result, sample_path, first_of, sample_prompts.
  destruct s as [|ch0 s].
  { right. left. exists (fun r => OStop r). split; [reflexivity|]. intros n r Hn.
    destruct n as [|n]; [lia|]. reflexivity. }
  set (s0 := ch0 :: s) in *. cbn [negb]. destruct (env_parse E s0) as [cmd|e] eqn:Hp.
  - destruct (Hs _ eq_refl) as (t & m & -> & H1 & H2). left.
    exists (if c_ignws c then squash_whitespace t else t).
    split; [|destruct (c_ignws c); assumption]. intros n r Hn.
    do 4 (destruct n as [|n]; [lia|]). cbn [mk].
    assert (Hc : match chosen_method c (Lit t m) with Combinatorial => MOk (GOnce t) | _ => MOk (GRepeat t) end
                 = MOk (GRepeat t)).
    { unfold chosen_method. rewrite Hm. destruct (sampling_method (Lit t m)) as [[]|]; reflexivity. }
    rewrite Hc. destruct (c_ignws c); reflexivity.
  - right. right. exists e. reflexivity.
Qed.

Lemma path_result_det : forall c w p q (r : R), path_result c w p -> path_result c w q -> p = q.
Proof.
  intros c w p q r Hp Hq. specialize (Hp 4 r (le_n _)). rewrite (Hq 4 r (le_n _)) in Hp. now injection Hp.
Qed.
Lemma path_mono : forall n c w r x, sample_path G E (next n) n c w r = x -> x <> OFuel ->
  forall m, n <= m -> sample_path G E (next m) m c w r = x.
Proof.
  intros n c w r x Hx Hf m Hm.
  destruct (le_sample_path G E (next n) (next m) (fun g r => proj1 (next_fuel G E n m Hm) g r) n m Hm c w r) as [H|H];
    congruence.
Qed.

(** Asking a list of fresh generators. *)
Definition texts_of (x : ores G (list str * list gen)) : ores G (list str) :=
  match x with
  | OVal (t, _) r => OVal t r
  | OStop r => OStop r
  | ORaise e r => ORaise e r
  | OFuel => OFuel
  end.
Definition ask_all (m : nat) (c : ctx) (cmds : list command) (r : R) : ores G (list str) :=
  obind G (mk_all G m c cmds r) (fun gs r => texts_of (rotate_all G (next m) gs r)).

Lemma St_mk : forall c cmd g, NMC c -> NoMem cmd -> St c cmd g ->
  exists m g0, forall m', m <= m' -> mk m' c cmd = MOk g0.
Proof.
  intros c cmd g Hc Hn H. revert Hc Hn.
  induction H as [n c cmd g H|c x d v c2 g H1 H2 H3 IH|c v q lo hi sep m g Hv H IH|c ts sep m rest c' gens Ha Hs
                 |c vs lo hi sep m a b Hl Hb|c w m' vars q lo hi sep m p vs lo' hi' a b Hp Hx Hl Hb
                 |c w m vars p g Hp Hi Hg|c s m vars p Hp Hi|c a b m ga gb Ha IHa Hb IHb]; intros Hc Hn.
  - exists n, g. intros m' Hm'. rewrite <- H. apply le_mk_eq; [assumption|]. rewrite H. discriminate.
  - destruct (IH (NMC_for _ _ _ Hc H2) (NMC_resolve _ _ _ _ Hc Hn H1)) as (m & g0 & Hm).
    exists (S m), g0. intros m' Hm'. destruct m' as [|m']; [lia|]. cbn [mk].
    rewrite chosen_random; [|apply Hc|discriminate]. rewrite with_random by apply Hc.
    rewrite H1, H2. apply Hm. lia.
  - exists 1, (GRVarStart c [(v, q)] lo hi sep). intros m' Hm'. destruct m' as [|m']; [lia|]. cbn [mk].
    inversion Hn; subst; try (cbn in *; congruence);
    (rewrite chosen_random; [|apply Hc|assumption]); now rewrite with_random by apply Hc.
  - exists 1, (GSeqStart c ts sep). intros m' Hm'. destruct m' as [|m']; [lia|]. cbn [mk].
    inversion Hn; subst. rewrite chosen_random; [|apply Hc|assumption]. now rewrite with_random by apply Hc.
  - exists 1, (GRVarStart c vs lo hi sep). intros m' Hm'. destruct m' as [|m']; [lia|]. cbn [mk].
    inversion Hn; subst; (rewrite chosen_random; [|apply Hc|assumption]); now rewrite with_random by apply Hc.
  - exists 1, (GRVarStart c [(Wild w m' vars, q)] lo hi sep). intros k Hk. destruct k as [|k]; [lia|]. cbn [mk].
    inversion Hn; subst; (rewrite chosen_random; [|apply Hc|assumption]); now rewrite with_random by apply Hc.
  - exists 1, (GRWildStart c w vars). intros m' Hm'. destruct m' as [|m']; [lia|]. cbn [mk].
    inversion Hn; subst. rewrite chosen_random; [|apply Hc|assumption]. now rewrite with_random by apply Hc.
  - exists 1, (GRWildStart c (WStr s) vars). intros m' Hm'. destruct m' as [|m']; [lia|]. cbn [mk].
    inversion Hn; subst. rewrite chosen_random; [|apply Hc|assumption]. now rewrite with_random by apply Hc.
  - exists 1, (GRWrapStart c a b). intros m' Hm'. destruct m' as [|m']; [lia|]. cbn [mk].
    inversion Hn; subst. rewrite chosen_random; [|apply Hc|assumption]. now rewrite with_random by apply Hc.
Qed.

Definition Sim (c : ctx) (cmd : command) (r : R) (x : ores G (str * gen)) : Prop :=
  x = OFuel \/
  (Settles c cmd r (text_of x) /\ forall t g' r', x = OVal (t, g') r' -> St c cmd g').

Definition SimUpTo (n : nat) : Prop :=
  forall k c cmd g r, k < n -> NMC c -> NoMem cmd -> St c cmd g -> Sim c cmd r (next k g r).

Lemma text_of_fuel : forall x, text_of x = OFuel -> x = OFuel.
Proof. intros [[t g] r| | |]; cbn; congruence. Qed.

Lemma ask_mk : forall m c cmd r g, mk m c cmd = MOk g -> ask m c cmd r = text_of (next m g r).
Proof. intros m c cmd r g H. unfold ask. rewrite H. reflexivity. Qed.

Lemma settle_start : forall n0 n c cmd g r, mk n0 c cmd = MOk g -> next n g r <> OFuel ->
  Settles c cmd r (text_of (next n g r)).
Proof.
  intros n0 n c cmd g r H Hf. exists (n0 + n). intros m' Hm'.
  assert (Hm : mk m' c cmd = MOk g).
  { rewrite <- H. apply le_mk_eq; [lia|]. rewrite H. discriminate. }
  rewrite (ask_mk _ _ _ _ _ Hm). f_equal. apply next_more; [lia|assumption].
Qed.

Lemma mk_seq : forall n c ts sep m, c_method c = Random -> m <> Some Cyclical ->
  mk (S n) c (Seq ts sep m) = MOk (GSeqStart c ts sep).
Proof. intros n c ts sep m Hc Hm. cbn [mk]. rewrite chosen_random by assumption. now rewrite with_random. Qed.
Lemma mk_var : forall n c vs lo hi sep m, c_method c = Random -> m <> Some Cyclical ->
  mk (S n) c (Var vs lo hi sep m) = MOk (GRVarStart c vs lo hi sep).
Proof. intros n c vs lo hi sep m Hc Hm. cbn [mk]. rewrite chosen_random by assumption. now rewrite with_random. Qed.
Lemma mk_wild : forall n c w vars m, c_method c = Random -> m <> Some Cyclical ->
  mk (S n) c (Wild w m vars) = MOk (GRWildStart c w vars).
Proof. intros n c w vars m Hc Hm. cbn [mk]. rewrite chosen_random by assumption. now rewrite with_random. Qed.
Lemma mk_wrap : forall n c a b m, c_method c = Random -> m <> Some Cyclical ->
  mk (S n) c (Wrap a b m) = MOk (GRWrapStart c a b).
Proof. intros n c a b m Hc Hm. cbn [mk]. rewrite chosen_random by assumption. now rewrite with_random. Qed.

Lemma mk_all_St : forall n c cmds r gs r', mk_all G n c cmds r = OVal gs r' -> r' = r /\ Forall2 (St c) cmds gs.
Proof.
  induction cmds as [|cmd cmds IH]; intros r gs r' H; cbn [mk_all] in H.
  { injection H as <- <-. split; constructor. }
  destruct (mk n c cmd) as [g| |] eqn:Hg; cbn [lift_mk obind] in H; try discriminate.
  destruct (mk_all G n c cmds r) as [gs1 r1| | |] eqn:Hgs; cbn [obind] in H; try discriminate.
  injection H as <- <-. destruct (IH _ _ _ Hgs) as [-> Hf]. split; [reflexivity|].
  constructor; [exact (St_start _ _ _ _ Hg)|assumption].
Qed.

Lemma expand_inv : forall n c w lo hi r x,
  wildcard_to_variant G E (next n) n c w lo hi r = x -> x <> OFuel ->
  forall m, n <= m -> wildcard_to_variant G E (next m) m c w lo hi r = x.
Proof.
  intros n c w lo hi r x Hx Hf m Hm.
  destruct (le_wildcard_to_variant G E (next n) (next m)
     (fun g r => proj1 (next_fuel G E n m Hm) g r) n m Hm c w lo hi r) as [H|H]; congruence.
Qed.

Lemma expand_path : forall n c w lo hi r p, path_result c w p -> 4 <= n ->
  forall vs b, Expanded p lo hi vs b -> wildcard_to_variant G E (next n) n c w lo hi r = OVal (vs, b) r.
Proof.
  intros n c w lo hi r p Hp Hn vs b (cmds & Hc & -> & ->). unfold wildcard_to_variant.
  rewrite (Hp n r Hn). cbn [obind]. rewrite Hc. reflexivity.
Qed.

Lemma path_cases : forall n c w P r, c_method c = Random -> PlainPath E w P ->
  let x := sample_path G E (next n) n c w r in
  x = OFuel \/ (exists p, path_result c w p /\ P (env_lookup E p) /\ x = OVal p r) \/
  x = OStop r \/ exists e, x = ORaise e r.
Proof.
  intros n c w P r Hm Hp x. subst x.
  destruct (sample_path G E (next n) n c w r) eqn:Hx; [right|right|right|now left].
  - pose proof (path_mono n c w r _ Hx ltac:(discriminate) (n + 4) ltac:(lia)) as Hy.
    destruct (plain_path c w P Hm Hp) as [(p & H1 & H2)|[(o & Ho & H1)|(e & H1)]].
    + left. rewrite (H1 (n + 4) r ltac:(lia)) in Hy. injection Hy as <- <-. eauto.
    + rewrite (H1 (n + 4) r ltac:(lia)), Ho in Hy. discriminate.
    + rewrite H1 in Hy. discriminate.
  - pose proof (path_mono n c w r _ Hx ltac:(discriminate) (n + 4) ltac:(lia)) as Hy.
    destruct (plain_path c w P Hm Hp) as [(p & H1 & H2)|[(o & Ho & H1)|(e & H1)]].
    + rewrite (H1 (n + 4) r ltac:(lia)) in Hy. discriminate.
    + rewrite (H1 (n + 4) r ltac:(lia)), Ho in Hy. injection Hy as <-. auto.
    + rewrite H1 in Hy. discriminate.
  - pose proof (path_mono n c w r _ Hx ltac:(discriminate) (n + 4) ltac:(lia)) as Hy.
    destruct (plain_path c w P Hm Hp) as [(p & H1 & H2)|[(o & Ho & H1)|(e' & H1)]].
    + rewrite (H1 (n + 4) r ltac:(lia)) in Hy. discriminate.
    + rewrite (H1 (n + 4) r ltac:(lia)), Ho in Hy. discriminate.
    + rewrite H1 in Hy. injection Hy as <- <-. eauto.
Qed.

(** The state after a value has been delivered. *)
Lemma result_start : forall n, SimUpTo n -> forall n0 c cmd g r t g' r', NMC c -> NoMem cmd ->
  mk n0 c cmd = MOk g -> next n g r = OVal (t, g') r' -> St c cmd g'.
Proof.
  intros n IH. induction n0 as [|n0 IH0]; intros c cmd g r t g' r' Hc Hn Hm Hx; [discriminate|].
  destruct n as [|n]; [discriminate|].
  destruct cmd as [s m|ts sep m|vs lo hi sep m|w m vars|x v i o|x d|a b m].
  - assert (Hg : g = GRepeat s).
    { cbn [mk] in Hm. unfold chosen_method in Hm. rewrite (proj1 Hc) in Hm.
      destruct (sampling_method (Lit s m)) as [[]|]; cbn in Hm; congruence. }
    subst g. cbn in Hx. injection Hx as <- <- <-. exact (St_start _ _ _ _ Hm).
  - inversion Hn as [|? ? ? Hcy Hts| | | | | | |]; subst. rewrite mk_seq in Hm by (apply Hc || assumption).
    injection Hm as <-. destruct (assigned_exists c ts Hc Hts) as (rest & c' & Ha & Hc' & Hr).
    revert Hx. unfold_next G E. rewrite Ha. cbn [obind].
    destruct (mk_all G n c' rest r) as [gs r1| | |] eqn:Hgs; cbn; try discriminate.
    destruct (mk_all_St _ _ _ _ _ _ Hgs) as [-> Hf]. intros Hx.
    destruct (next n (GSeqLoop gs sep) r) as [[t1 g1] r2| | |] eqn:Hy; cbn in Hx; try discriminate.
    injection Hx as <- <- <-.
    destruct (IH n c (Seq ts sep m) (GSeqLoop gs sep) r ltac:(lia) Hc Hn (St_seq _ _ _ _ _ _ _ Ha Hf)) as [Hz|[_ Hz]];
      [congruence|]. eapply Hz, Hy.
  - inversion Hn as [| |? ? ? ? ? Hcy Hlen|v q ? ? ? ? Hcy Hv Hw|w m' vars q ? ? ? ? Hcy Hp| | | |]; subst;
    rewrite mk_var in Hm by (apply Hc || assumption); injection Hm as <-; revert Hx; unfold_next G E.
    + destruct vs as [|p1 [|p2 vs]]; [discriminate|cbn in Hlen; congruence|]. intros Hx.
      assert (Hx' : next n (GRVarLoop c (p1 :: p2 :: vs) lo hi sep) r = OVal (t, g') r') by (destruct p1; exact Hx).
      destruct (IH n c (Var (p1 :: p2 :: vs) lo hi sep m) _ r ltac:(lia) Hc Hn
                  (St_var c (p1 :: p2 :: vs) lo hi sep m lo hi ltac:(cbn; lia) eq_refl)) as [Hz|[_ Hz]];
        [congruence|]. eapply Hz, Hx'.
    + intros Hx.
      assert (Hx' : obind G (lift_mk G (mk n c v) r) (fun g r => next n g r) = OVal (t, g') r').
      { destruct v; try exact Hx. exfalso. eapply Hw. reflexivity. }
      destruct (mk n c v) as [g1| |] eqn:Hg1; cbn in Hx'; try discriminate.
      destruct (IH n c v g1 r ltac:(lia) Hc Hv (St_start _ _ _ _ Hg1)) as [Hz|[_ Hz]]; [congruence|].
      apply St_one; [assumption|]. eapply Hz, Hx'.
    + cbn [single_wildcard]. unfold wildcard_to_variant.
      destruct (path_cases n c w _ r (proj1 Hc) Hp) as [H|[(p & H1 & H2 & H)|[H|[e H]]]]; rewrite H; cbn [obind pep479]; try discriminate.
      destruct (parse_all E (iterate_weighted (env_lookup E p))) as [cmds|e] eqn:Hpa; cbn [obind pep479]; [|discriminate].
      set (vs := map (fun cmd => (cmd, 1%Qc)) cmds).
      destruct (post_init_bounds (Z.min lo (Z.of_nat (length (env_lookup E p))))
                 (Z.min hi (Z.of_nat (length (env_lookup E p))))) as [lo' hi'] eqn:Hb.
      assert (Hlen : length vs <> 1).
      { unfold vs. rewrite map_length.
        assert (Hl : forall l cs, parse_all E l = Ok cs -> length cs = length l).
        { induction l as [|y l IHl]; intros cs Hcs; cbn in Hcs; [now injection Hcs as <-|].
          destruct (env_parse E y); [|discriminate]. destruct (parse_all E l) eqn:Hl; [|discriminate].
          injection Hcs as <-. cbn. f_equal. now apply IHl. }
        now rewrite (Hl _ _ Hpa). }
      assert (Hexp : Expanded p lo hi vs (lo', hi')) by (exists cmds; auto).
      clearbody vs. destruct n as [|n]; [discriminate|]. unfold_next G E.
      destruct vs as [|p1 [|p2 vs]]; [discriminate|cbn in Hlen; congruence|]. intros Hx.
      assert (Hx' : next n (GRVarLoop c (p1 :: p2 :: vs) lo' hi' sep) r = OVal (t, g') r') by (destruct p1; exact Hx).
      destruct (IH n c (Var [(Wild w m' vars, q)] lo hi sep m) _ r ltac:(lia) Hc Hn
                  (St_lone c w m' vars q lo hi sep m p (p1 :: p2 :: vs) lo' hi' lo' hi' H1 Hexp ltac:(cbn; lia) eq_refl)) as [Hz|[_ Hz]];
        [congruence|]. eapply Hz, Hx'.
  - inversion Hn as [| | | | |? ? ? Hcy Hp| | |]; subst. rewrite mk_wild in Hm by (apply Hc || assumption).
    injection Hm as <-. revert Hx. unfold_next G E.
    destruct (path_cases n c w _ r (proj1 Hc) Hp) as [H|[(p & H1 & H2 & H)|[H|[e H]]]]; rewrite H; cbn [obind pep479]; try discriminate.
    pose proof (not_varied _ H2) as Hv.
    destruct (env_lookup E p) as [|it items] eqn:Hl.
    + destruct Hp as (s & -> & _). destruct n as [|n]; [discriminate|]. unfold_next G E. cbn [obind].
      destruct n as [|n]; [discriminate|]. unfold_next G E. intros [= <- <- <-].
      eapply St_fallback; eassumption.
    + intros Hx. unfold start_wgen in Hx. rewrite Hv in Hx. rewrite <- Hl in Hx.
      destruct (IH n c (Wild w m vars) _ r ltac:(lia) Hc Hn
        (St_wild c w m vars p None H1 ltac:(congruence) (or_introl eq_refl))) as [Hz|[_ Hz]]; [congruence|].
      eapply Hz, Hx.
  - discriminate.
  - cbn [mk] in Hm. rewrite chosen_random in Hm; [|apply Hc|discriminate].
    rewrite with_random in Hm by apply Hc.
    destruct (resolve_access c x d) as [v|] eqn:Hr; [|discriminate].
    destruct (for_sampling_variable x c) as [c2|] eqn:Hf; [|discriminate].
    eapply St_access; [eassumption..|].
    eapply IH0; [eapply NMC_for; eassumption|eapply NMC_resolve; eassumption|eassumption|eassumption].
  - inversion Hn as [| | | | | | | |? ? ? Hcy Ha Hb]; subst. rewrite mk_wrap in Hm by (apply Hc || assumption).
    injection Hm as <-. revert Hx. unfold_next G E.
    destruct (mk n c a) as [ga| |] eqn:Hga; cbn [lift_mk obind]; try discriminate.
    destruct (mk n c b) as [gb| |] eqn:Hgb; cbn [lift_mk obind]; try discriminate. intros Hx.
    destruct (IH n c (Wrap a b m) _ r ltac:(lia) Hc Hn
       (St_wrap c a b m ga gb (St_start _ _ _ _ Hga) (St_start _ _ _ _ Hgb))) as [Hz|[_ Hz]]; [congruence|].
    eapply Hz, Hx.
Qed.

Lemma mk_all_ok : forall c cmds gens, NMC c -> Forall NoMem cmds -> Forall2 (St c) cmds gens ->
  exists m gens0, (forall m' r, m <= m' -> mk_all G m' c cmds r = OVal gens0 r) /\
    Forall2 (fun cmd g0 => forall m', m <= m' -> mk m' c cmd = MOk g0) cmds gens0.
Proof.
  intros c cmds gens Hc Hn Hf. induction Hf as [|cmd g cmds gens Hs Hf IH].
  { exists 0, []. split; [reflexivity|constructor]. }
  inversion Hn; subst. destruct IH as (m1 & gs & Hm1 & Hg1); [assumption|].
  destruct (St_mk c cmd g Hc) as (m2 & g0 & Hm2); [assumption..|].
  exists (m1 + m2), (g0 :: gs). split.
  - intros m' r Hm'. cbn [mk_all]. rewrite Hm2 by lia. cbn [lift_mk obind]. rewrite Hm1 by lia. reflexivity.
  - constructor; [intros; apply Hm2; lia|]. clear - Hg1. induction Hg1; constructor; [intros; apply H; lia|assumption].
Qed.

Lemma rot : forall n, SimUpTo n -> forall k c cmds gens gens0 m0 r, k < n -> NMC c -> Forall NoMem cmds ->
  Forall2 (St c) cmds gens -> Forall2 (fun cmd g0 => forall m', m0 <= m' -> mk m' c cmd = MOk g0) cmds gens0 ->
  let x := rotate_all G (next k) gens r in
  x = OFuel \/
  ((exists m, forall m', m <= m' -> texts_of (rotate_all G (next m') gens0 r) = texts_of x) /\
   forall ts gs r', x = OVal (ts, gs) r' -> Forall2 (St c) cmds gs).
Proof.
  intros n IHn k c cmds gens gens0 m0 r Hk Hc Hn Hs H0. revert gens gens0 r Hs H0.
  induction Hn as [|cmd cmds Hcmd Hn IH]; intros gens gens0 r Hs H0 x; subst x.
  - inversion Hs; subst. inversion H0; subst. right. split.
    + exists 0. reflexivity.
    + intros ts gs r' [= <- <- <-]. constructor.
  - inversion Hs as [|? g ? gs Hg Hgs]; subst. inversion H0 as [|? g0 ? gs0 Hg0 Hgs0]; subst. cbn [rotate_all].
    destruct (IHn k c cmd g r Hk Hc Hcmd Hg) as [->|[[m1 Hm1] Hst]]; [now left|].
    assert (Hm1' : forall m', m1 + m0 <= m' -> text_of (next m' g0 r) = text_of (next k g r)).
    { intros m' Hm'. rewrite <- (Hm1 m') by lia. unfold ask. rewrite Hg0 by lia. reflexivity. }
    destruct (next k g r) as [[t g'] r1|r1|e r1|] eqn:Hx; cbn [obind]; [| | |now left].
    + destruct (IH gs gs0 r1 Hgs Hgs0) as [->|[[m2 Hm2] Hst2]]; [now left|]. right. split.
      * exists (m1 + m0 + m2). intros m' Hm'. specialize (Hm1' m' ltac:(lia)). specialize (Hm2 m' ltac:(lia)).
        destruct (next m' g0 r) as [[t1 g1] r2| | |]; cbn in Hm1'; try discriminate.
        injection Hm1' as -> ->. cbn [obind].
        destruct (rotate_all G (next m') gs0 r1) as [[ts1 gs1] r3| | |];
          destruct (rotate_all G (next k) gs r1) as [[ts2 gs2] r4| | |]; cbn in Hm2 |- *; try discriminate; congruence.
      * intros ts gs' r' H.
        destruct (rotate_all G (next k) gs r1) as [[ts2 gs2] r4| | |] eqn:Hr; cbn in H; try discriminate.
        injection H as <- <- <-. constructor; [eapply Hst; reflexivity|eapply Hst2; reflexivity].
    + right. split; [|discriminate]. exists (m1 + m0). intros m' Hm'. specialize (Hm1' m' Hm').
      destruct (next m' g0 r) as [[t1 g1] r2| | |]; cbn in Hm1'; try discriminate. injection Hm1' as ->. reflexivity.
    + right. split; [|discriminate]. exists (m1 + m0). intros m' Hm'. specialize (Hm1' m' Hm').
      destruct (next m' g0 r) as [[t1 g1] r2| | |]; cbn in Hm1'; try discriminate. injection Hm1' as -> ->. reflexivity.
Qed.

Lemma varloop_same : forall k c vs a b lo hi sep r,
  adjust_range (length vs) a b = adjust_range (length vs) lo hi ->
  next k (GRVarLoop c vs a b sep) r = next k (GRVarLoop c vs lo hi sep) r.
Proof. intros k c vs a b lo hi sep r H. destruct k as [|k]; [reflexivity|]. unfold_next G E. now rewrite H. Qed.

Lemma varloop_result : forall k c vs a b sep r t g' r', next k (GRVarLoop c vs a b sep) r = OVal (t, g') r' ->
  exists a' b', adjust_range (length vs) a b = (a', b') /\ g' = GRVarLoop c vs a' b' sep /\
    adjust_range (length vs) a' b' = (a', b').
Proof.
  intros k c vs a b sep r t g' r' H. destruct k as [|k]; [discriminate|]. revert H. unfold_next G E.
  destruct (adjust_range (length vs) a b) as [a' b'] eqn:Hab.
  unfold randint. destruct (Z.leb_spec a' b') as [Hle|]; [|discriminate].
  destruct (randbelow G _ r) as [x r1].
  destruct (lift_rres G _) as [sel r2| | |]; cbn [obind pep479]; try discriminate.
  destruct (mk_all G k c sel r2) as [gs r3| | |]; cbn [obind pep479]; try discriminate.
  intros H. exists a', b'. split; [reflexivity|]. split; [|eapply adjust_adjust; eassumption].
  destruct gs as [|g gs]; [injection H as <- <- <-; reflexivity|].
  destruct (rotate_all G (next k) (g :: gs) r3) as [[ts gs'] r4| | |]; cbn in H; try discriminate.
  injection H as <- <- <-. reflexivity.
Qed.

(** States of the wildcard loop between two values. *)
Definition cur_ok (g : option gen) : Prop :=
  match g with
  | None => True
  | Some GDone => True
  | Some (GSlice 0 _) => True
  | Some (GSlice 1 _) => True
  | _ => False
  end.

Lemma wildloop_result : forall k c vals cur r t g' r', cur_ok cur ->
  next k (GRWildLoop c (WChoice vals) cur) r = OVal (t, g') r' ->
  exists g0, g' = GRWildLoop c (WChoice vals) (Some (GSlice 0 g0)).
Proof.
  induction k as [|k IH]; intros c vals cur r t g' r' Hcur H; [discriminate|]. revert H. unfold_next G E.
  destruct cur as [g|].
  - destruct k as [|k']; [discriminate|].
    destruct g; cbn in Hcur; try contradiction.
    + intros H. eapply (IH c vals None); [exact I|exact H].
    + destruct n as [|[|n]]; [| |contradiction].
      * intros H. eapply (IH c vals None); [exact I|exact H].
      * unfold_next G E. destruct (next k' g r) as [[t1 g1] r1| | |]; cbn [obind]; try discriminate.
        -- intros [= <- <- <-]. eexists. reflexivity.
        -- intros H. eapply (IH c vals None); [exact I|exact H].
  - unfold next_wgen. destruct (choice G (length vals) r) as [i r1|e r1]; cbn [lift_rres obind]; [|discriminate].
    destruct (sample_prompts E k c (WStr (nth i vals [])) (Some 1)) as [g| |] eqn:Hg; cbn [lift_mk obind]; try discriminate.
    intros H. eapply IH; [|exact H].
    unfold sample_prompts in Hg.
    destruct (match nth i vals [] with [] => true | _ => false end); [injection Hg as <-; exact I|].
    destruct (env_parse E (nth i vals [])); [|discriminate].
    destruct (mk k c a); try discriminate. injection Hg as <-. exact I.
Qed.

Lemma lift_settles : forall c cmd r (f : nat -> ores G (str * gen)) x, x <> OFuel ->
  (exists m, forall m', m <= m' -> ask m' c cmd r = text_of (f m')) ->
  (exists m, forall m', m <= m' -> f m' = x) -> Settles c cmd r (text_of x).
Proof.
  intros c cmd r f x Hx [m1 H1] [m2 H2]. exists (m1 + m2). intros m' Hm'. rewrite H1 by lia. now rewrite H2 by lia.
Qed.

Lemma sim_state : forall n, SimUpTo n -> forall c cmd g r, NMC c -> NoMem cmd -> St c cmd g ->
  Sim c cmd r (next n g r).
Proof.
  intros n IH c cmd g r Hc Hn Hs.
  assert (Hdec : next n g r = OFuel \/ next n g r <> OFuel) by (destruct (next n g r); auto; right; discriminate).
  destruct Hdec as [Hf|Hf]; [now left|]. right.
  revert Hc Hn Hf.
  induction Hs as [n0 c cmd g H|c x d v c2 g H1 H2 H3 IHs|c v q lo hi sep m g Hv H IHs|c ts sep m rest c' gens Ha Hs
                 |c vs lo hi sep m a b Hl Hb|c w m' vars q lo hi sep m p vs lo' hi' a b Hp Hx Hl Hb
                 |c w m vars p g Hp Hi Hg|c s m vars p Hp Hi|c a b m ga gb Ha IHa Hb IHb]; intros Hc Hn Hf.
  - split; [eapply settle_start; eassumption|]. intros t g' r' Hx. eapply result_start; eassumption.
  - destruct (IHs (NMC_for _ _ _ Hc H2) (NMC_resolve _ _ _ _ Hc Hn H1) Hf) as [[m Hm] Hst]. split.
    + exists (S m). intros m' Hm'. destruct m' as [|m']; [lia|].
      specialize (Hm m' ltac:(lia)). unfold ask in *. cbn [mk].
      rewrite chosen_random; [|apply Hc|discriminate]. rewrite with_random by apply Hc. rewrite H1, H2.
      destruct (mk m' c2 v) as [g0| |]; cbn [lift_mk obind] in *; try assumption.
      rewrite <- Hm. f_equal. apply next_more; [lia|]. intros Hz. rewrite Hz in Hm. cbn in Hm.
      symmetry in Hm. now apply text_of_fuel in Hm.
    + intros t g' r' Hx. eapply St_access; [eassumption..|]. eapply Hst, Hx.
  - inversion Hn as [| |? ? ? ? ? Hcy Hlen|? ? ? ? ? ? Hcy Hnv Hw|w m' vars ? ? ? ? ? Hcy Hp| | | |]; subst.
    { cbn in Hlen. congruence. }
    2: { exfalso. eapply Hv. reflexivity. }
    destruct (IHs Hc Hnv Hf) as [[m1 Hm1] Hst]. split.
    + exists (S m1). intros m' Hm'. destruct m' as [|m']; [lia|].
      rewrite (ask_mk _ _ _ _ _ (mk_var m' c [(v, q)] lo hi sep m (proj1 Hc) Hcy)). unfold_next G E.
      specialize (Hm1 m' ltac:(lia)). unfold ask in Hm1. rewrite <- Hm1.
      destruct v; try (exfalso; eapply Hw; reflexivity); cbn [single_wildcard];
        (destruct (mk m' c _) as [g0| |]; reflexivity).
    + intros t g' r' Hx. apply St_one; [assumption|]. eapply Hst, Hx.
  - inversion Hn as [|? ? ? Hcy Hts| | | | | | |]; subst.
    destruct n as [|n]; [now contradict Hf|].
    destruct (assigned_exists c ts Hc Hts) as (rest' & c'' & Ha' & Hc' & Hr).
    destruct (Assigned_det _ _ _ _ _ _ r Ha Ha') as [-> ->].
    destruct (mk_all_ok c'' rest' gens Hc' Hr Hs) as (m0 & gens0 & Hmk & Hmk0).
    destruct (rot (S n) IH n c'' rest' gens gens0 m0 r ltac:(lia) Hc' Hr Hs Hmk0) as [Hz|[[m1 Hm1] Hst]].
    { contradict Hf. unfold_next G E. now rewrite Hz. }
    split.
    + exists (S (S (m0 + m1))). intros m' Hm'. destruct m' as [|[|m']]; [lia..|].
      rewrite (ask_mk _ _ _ _ _ (mk_seq (S m') c ts sep m (proj1 Hc) Hcy)). unfold_next G E.
      rewrite Ha. cbn [obind]. rewrite Hmk by lia. cbn [obind]. specialize (Hm1 m' ltac:(lia)).
      destruct (rotate_all G (next m') gens0 r) as [[ts1 gs1] r1|r1|e1 r1|];
        destruct (rotate_all G (next n) gens r) as [[ts2 gs2] r2|r2|e2 r2|]; cbn in Hm1 |- *; try discriminate; congruence.
    + intros t g' r' Hx. revert Hx. unfold_next G E.
      destruct (rotate_all G (next n) gens r) as [[ts2 gs2] r2|r2|e2 r2|]; cbn; try discriminate.
      intros [= <- <- <-]. eapply St_seq; [eassumption|]. eapply Hst. reflexivity.
  - assert (Hcy : m <> Some Cyclical) by (inversion Hn; assumption). split.
    + eapply (lift_settles _ _ _ (fun m' => next (pred m') (GRVarLoop c vs lo hi sep) r)); [assumption| |].
      * exists 1. intros m' Hm'. destruct m' as [|m']; [lia|].
        rewrite (ask_mk _ _ _ _ _ (mk_var m' c vs lo hi sep m (proj1 Hc) Hcy)). unfold_next G E.
        destruct vs as [|p1 [|p2 vs]]; [cbn in Hl; lia..|]. destruct p1; reflexivity.
      * exists (S n). intros m' Hm'. rewrite <- (varloop_same _ _ _ _ _ _ _ _ _ Hb). apply next_more; [lia|assumption].
    + intros t g' r' Hx. apply varloop_result in Hx. destruct Hx as (a' & b' & H1 & -> & H2).
      apply St_var; [assumption|]. congruence.
  - assert (Hcy : m <> Some Cyclical) by (inversion Hn; assumption). split.
    + eapply (lift_settles _ _ _ (fun m' => next (pred (pred m')) (GRVarLoop c vs lo' hi' sep) r)); [assumption| |].
      * exists 6. intros k Hk. destruct k as [|[|k]]; [lia..|].
        rewrite (ask_mk _ _ _ _ _ (mk_var (S k) c _ lo hi sep m (proj1 Hc) Hcy)). cbn [pred].
        assert (Hstep : next (S (S k)) (GRVarStart c [(Wild w m' vars, q)] lo hi sep) r
                        = obind G (pep479 G (wildcard_to_variant G E (next (S k)) (S k) c w lo hi r))
                            (fun '(vs', (lo', hi')) r => next (S k) (GRVarStart c vs' lo' hi' sep) r)).
        { reflexivity. }
        rewrite Hstep, (expand_path (S k) c w lo hi r p Hp ltac:(lia) vs (lo', hi') Hx). cbn [pep479 obind].
        unfold_next G E. destruct vs as [|p1 [|p2 vs]]; [cbn in Hl; lia..|]. destruct p1; reflexivity.
      * exists (S (S n)). intros k Hk. rewrite <- (varloop_same _ _ _ _ _ _ _ _ _ Hb). apply next_more; [lia|assumption].
    + intros t g' r' Hy. apply varloop_result in Hy. destruct Hy as (a' & b' & H1 & -> & H2).
      eapply St_lone; [eassumption..|]. congruence.
  - inversion Hn as [| | | | |? ? ? Hcy Hpp| | |]; subst.
    assert (Hv : has_varied_weights (env_lookup E p) = false).
    { apply not_varied. destruct (plain_path c w _ (proj1 Hc) Hpp) as [(p' & H1 & H2)|[(o & Ho & H1)|(e & H1)]].
      - now rewrite (path_result_det _ _ _ _ r Hp H1).
      - specialize (Hp 4 r (le_n _)). rewrite H1, Ho in Hp by lia. discriminate.
      - specialize (Hp 4 r (le_n _)). rewrite H1 in Hp. discriminate. }
    set (loop := fun cur => GRWildLoop (with_variables vars c) (WChoice (string_values (env_lookup E p))) cur) in *.
    assert (Hnone : exists k0, k0 <= n /\ next n (loop g) r = next k0 (loop None) r /\ next k0 (loop None) r <> OFuel).
    { destruct Hg as [->|[g0 ->]]; [exists n; auto|]. destruct n as [|n]; [now contradict Hf|].
      exists n. assert (Heq : next (S n) (loop (Some (GSlice 0 g0))) r = next n (loop None) r).
      { destruct n as [|n]; [now contradict Hf|]. reflexivity. }
      change (GRWildLoop (with_variables vars c) (WChoice (string_values (env_lookup E p))) (Some (GSlice 0 g0)))
        with (loop (Some (GSlice 0 g0))) in Hf.
      repeat split; [lia|exact Heq|]. now rewrite <- Heq. }
    destruct Hnone as (k0 & Hk0 & Heq & Hf0).
    change (GRWildLoop (with_variables vars c) (WChoice (string_values (env_lookup E p))) g) with (loop g) in *.
    split.
    + eapply (lift_settles _ _ _ (fun m' => next (pred m') (loop None) r)); [assumption| |].
      * exists 5. intros m' Hm'. destruct m' as [|m']; [lia|].
        rewrite (ask_mk _ _ _ _ _ (mk_wild m' c w vars m (proj1 Hc) Hcy)). cbn [pred]. unfold_next G E.
        rewrite (Hp m' r ltac:(lia)). cbn [pep479 obind]. unfold loop, start_wgen.
        destruct (env_lookup E p) as [|it items]; [congruence|]. rewrite Hv. reflexivity.
      * exists (S n). intros m' Hm'. rewrite Heq. apply next_more; [lia|assumption].
    + intros t g' r' Hx. rewrite Heq in Hx. apply wildloop_result in Hx; [|exact I]. destruct Hx as [g0 ->].
      apply St_wild; [assumption..|]. right. eauto.
  - inversion Hn as [| | | | |? ? ? Hcy Hpp| | |]; subst. destruct n as [|n]; [now contradict Hf|]. split.
    + exists 6. intros m' Hm'. destruct m' as [|m']; [lia|].
      rewrite (ask_mk _ _ _ _ _ (mk_wild m' c (WStr s) vars m (proj1 Hc) Hcy)). unfold_next G E.
      rewrite (Hp m' r ltac:(lia)). cbn [pep479 obind]. rewrite Hi. do 2 (destruct m' as [|m']; [lia|]). reflexivity.
    + intros t g' r'. unfold_next G E. intros [= <- <- <-]. eapply St_fallback; eassumption.
  - inversion Hn as [| | | | | | | |? ? ? Hcy Hna Hnb]; subst. destruct n as [|n]; [now contradict Hf|].
    destruct (St_mk c a ga Hc Hna Ha) as (ma & ga0 & Hma). destruct (St_mk c b gb Hc Hnb Hb) as (mb & gb0 & Hmb).
    assert (Hstart : forall m', S (S (ma + mb)) <= m' -> ask m' c (Wrap a b m) r =
              text_of (next (pred m') (GRWrapLoop ga0 gb0) r)).
    { intros m' Hm'. destruct m' as [|m']; [lia|].
      rewrite (ask_mk _ _ _ _ _ (mk_wrap m' c a b m (proj1 Hc) Hcy)). unfold_next G E.
      rewrite Hma, Hmb by lia. reflexivity. }
    destruct (IH n c a ga r ltac:(lia) Hc Hna Ha) as [Hz|[[m1 Hm1] Hst1]].
    { contradict Hf. unfold_next G E. now rewrite Hz. }
    assert (Hm1' : forall m', m1 + ma <= m' -> text_of (next m' ga0 r) = text_of (next n ga r)).
    { intros m' Hm'. rewrite <- (Hm1 m') by lia. unfold ask. rewrite Hma by lia. reflexivity. }
    revert Hf. unfold_next G E.
    destruct (next n ga r) as [[ta ga'] r1|r1|e1 r1|] eqn:Hxa; cbn [obind]; intros Hf; [| | |now contradict Hf].
    + destruct (IH n c b gb r1 ltac:(lia) Hc Hnb Hb) as [Hz|[[m2 Hm2] Hst2]].
      { contradict Hf. now rewrite Hz. }
      assert (Hm2' : forall m', m2 + mb <= m' -> text_of (next m' gb0 r1) = text_of (next n gb r1)).
      { intros m' Hm'. rewrite <- (Hm2 m') by lia. unfold ask. rewrite Hmb by lia. reflexivity. }
      split.
      * exists (S (S (ma + mb + m1 + m2))). intros m' Hm'. rewrite Hstart by lia.
        destruct m' as [|[|m']]; [lia..|]. cbn [pred]. unfold_next G E.
        specialize (Hm1' m' ltac:(lia)). specialize (Hm2' m' ltac:(lia)).
        destruct (next m' ga0 r) as [[t1 g1] r2| | |]; cbn in Hm1'; try discriminate. injection Hm1' as -> ->.
        cbn [obind].
        destruct (next m' gb0 r1) as [[t2 g2] r3| | |]; destruct (next n gb r1) as [[t3 g3] r4| | |];
          cbn in Hm2' |- *; try discriminate; congruence.
      * intros t g' r' Hx. destruct (next n gb r1) as [[t3 g3] r4| | |] eqn:Hxb; cbn in Hx; try discriminate.
        injection Hx as <- <- <-. apply St_wrap; [eapply Hst1; reflexivity|eapply Hst2; reflexivity].
    + split; [|discriminate]. exists (S (S (ma + mb + m1))). intros m' Hm'. rewrite Hstart by lia.
      destruct m' as [|[|m']]; [lia..|]. cbn [pred]. unfold_next G E. specialize (Hm1' m' ltac:(lia)).
      destruct (next m' ga0 r) as [[t1 g1] r2| | |]; cbn in Hm1'; try discriminate. injection Hm1' as ->. reflexivity.
    + split; [|discriminate]. exists (S (S (ma + mb + m1))). intros m' Hm'. rewrite Hstart by lia.
      destruct m' as [|[|m']]; [lia..|]. cbn [pred]. unfold_next G E. specialize (Hm1' m' ltac:(lia)).
      destruct (next m' ga0 r) as [[t1 g1] r2| | |]; cbn in Hm1'; try discriminate. injection Hm1' as -> ->. reflexivity.
Qed.

Lemma sim_all : forall n, SimUpTo n.
Proof.
  induction n as [|n IH]; intros k c cmd g r Hk Hc Hn Hs; [lia|].
  destruct (Nat.eq_dec k n) as [->|Hne]; [|apply IH; auto; lia]. now apply sim_state.
Qed.

Lemma memoryless : forall n c cmd g r, NMC c -> NoMem cmd -> St c cmd g -> Sim c cmd r (next n g r).
Proof. intros n c cmd g r. apply sim_state, sim_all. Qed.
End Seed.
