(** Every text a sampler yields is in the language of its command
    (Spec/Lang.v), and random and cyclical generators do not stop once they
    have yielded. *)
From Coq Require Import String NArith ZArith QArith Qcanon Bool Arith List Lia Permutation.
From Verif.Model Require Import Str Utils Command Rng Values Context Sampler.
From Verif.Spec Require Import Text Comb Items Lang.
From Verif.Proofs Require Import StrFacts UtilsFacts CommandFacts CombFacts RngFacts ValuesFacts DictFacts.
Import ListNotations.
Local Open Scope nat_scope.

Lemma mark_of_sampling_method : forall cmd, mark_of cmd = sampling_method cmd.
Proof. destruct cmd; reflexivity. Qed.

Lemma chosen_method_resolve : forall c cmd,
  chosen_method c cmd = resolve (c_method c) (mark_of cmd).
Proof.
  intros c cmd. rewrite mark_of_sampling_method. unfold chosen_method, resolve.
  destruct (sampling_method cmd) as [[]|]; destruct (c_method c); reflexivity.
Qed.

Lemma scope_enter : forall c cmd,
  scope_of (with_method (chosen_method c cmd) c) = enter (scope_of c) cmd.
Proof.
  intros c cmd. unfold scope_of, enter, with_method. cbn. now rewrite chosen_method_resolve.
Qed.

Lemma joined_Glued : forall ts sep, Glued sep ts (joined ts sep).
Proof.
  intros ts sep. destruct (list_eq_dec N.eq_dec sep []) as [->|Hs].
  - rewrite joined_nil_sep. now apply Glued_plain.
  - destruct (Nat.eq_dec (length ts) 1) as [H1|H1].
    + destruct ts as [|t [|]]; try discriminate. rewrite joined_single. constructor.
    + destruct (joined_spec ts sep H1 Hs) as (mid & Ha & Hb).
      eapply Glued_many; eauto.
Qed.

Lemma squash_Tidy : forall b t, Tidy b t (if b then squash_whitespace t else t).
Proof.
  intros [] t; cbn; [|reflexivity]. destruct (Words_total t) as [ws H].
  exists ws. split; [assumption|now apply squash_words].
Qed.

Lemma truthy_Nonempty : forall c, truthy c = true <-> Nonempty c.
Proof.
  intros c. unfold Nonempty. destruct c; cbn; try (split; [intros _; split; intros; discriminate|reflexivity]).
  - destruct tokens; split; try discriminate; try reflexivity.
    + intros [H _]. exfalso; now apply (H separator m).
    + intros _; split; intros; discriminate.
  - destruct variants; split; try discriminate; try reflexivity.
    + intros [_ H]. exfalso; now apply (H min_bound max_bound separator m).
    + intros _; split; intros; discriminate.
Qed.

Lemma to_wildcard_Wrapped : forall ww name, Wrapped ww name (to_wildcard ww name).
Proof.
  intros ww name. unfold to_wildcard, Wrapped.
  exists (if startswith name ww then name else ww ++ name). split.
  - destruct (startswith name ww) eqn:H.
    + left. apply startswith_spec in H. auto.
    + right. split; [|reflexivity]. intros Hs. apply startswith_spec in Hs. congruence.
  - set (a := if startswith name ww then name else ww ++ name). clearbody a.
    destruct (endswith a ww) eqn:H.
    + left. apply endswith_spec in H. auto.
    + right. split; [|reflexivity]. intros Hs. apply endswith_spec in Hs. congruence.
Qed.

Lemma resolve_access_Refers : forall c x d v, resolve_access c x d = Some v ->
  Refers (scope_of c) x d v.
Proof.
  intros c x d v H. unfold resolve_access in H.
  destruct (dict_get x (c_vars c)) as [v0|] eqn:Hg.
  - destruct (truthy v0) eqn:Ht.
    + injection H as <-. apply Refers_var; [exact Hg|now apply truthy_Nonempty].
    + eapply Refers_unknown_var; [exact Hg| |exact H].
      rewrite <- truthy_Nonempty. congruence.
  - destruct d as [v0|].
    + destruct (truthy v0) eqn:Ht.
      * injection H as <-. apply Refers_default; [exact Hg|reflexivity|now apply truthy_Nonempty].
      * apply Refers_unknown; [exact Hg| |exact H].
        intros v1 [= <-]. rewrite <- truthy_Nonempty. congruence.
    + apply Refers_unknown; [exact Hg|discriminate|exact H].
Qed.

Lemma with_variables_Extended : forall vars c,
  Extended (scope_of c) vars (scope_of (with_variables vars c)).
Proof.
  intros vars c. unfold with_variables. destruct vars as [|kv vars].
  - split; [repeat split|]. intros x. right. split; [cbn; tauto|reflexivity].
  - split; [repeat split|]. intros x. cbn [scope_of sc_var c_vars].
    apply dict_get_update.
Qed.

(** One step of the mutual fixpoint, with the recursive calls folded back. *)
Ltac unfold_next G E :=
  cbn [next next_cs next_cp next_yc];
  fold (next G E); fold (next_cs G E); fold (next_cp G E); fold (next_yc G E).

Section Inv.
Variable G : rng_impl.
Variable E : env.
Notation R := (rng_state G).
Notation Prod := (Produces E).
Notation All := (ProducesAll E).

Notation Sampled := (Allowed E).

Definition ComboOk (sc : scope) (sep : str) (combo : list command) (P : str -> Prop) : Prop :=
  (forall parts t, All sc combo parts -> Glued sep parts t -> P t) /\
  (forall pre v post parts t, combo = pre ++ v :: post -> All sc pre parts ->
     Void E sc v -> Glued sep parts t -> P t).

(** [inv nf g P V]: all texts [g] yields satisfy [P]; if it stops, [V]; and if
    [nf] it does not stop after having yielded. *)
Inductive inv : bool -> gen -> (str -> Prop) -> Prop -> Prop :=
| I_done : forall nf P (V : Prop), V -> inv nf GDone P V
| I_repeat : forall nf t (P : str -> Prop) V, P t -> inv nf (GRepeat t) P V
| I_once : forall t (P : str -> Prop) (V : Prop), P t -> V -> inv false (GOnce t) P V
| I_seqstart : forall c tokens sep m (P : str -> Prop) V,
    c_method c <> Combinatorial ->
    (forall t, Body E (scope_of c) (Seq tokens sep m) t -> P t) ->
    inv true (GSeqStart c tokens sep) P V
| I_seqloop : forall sc cmds gens sep (P : str -> Prop) V,
    invs sc gens cmds ->
    (forall ts t, All sc cmds ts -> Glued sep ts t -> P t) ->
    inv true (GSeqLoop gens sep) P V
| I_rvarstart : forall c vs lo hi sep m (P : str -> Prop) (V : Prop),
    c_method c = Random ->
    (forall t, Body E (scope_of c) (Var vs lo hi sep m) t -> P t) ->
    (VoidBody E (scope_of c) (Var vs lo hi sep m) -> V) ->
    inv true (GRVarStart c vs lo hi sep) P V
| I_rvarloop : forall c vs lo hi lo0 hi0 sep m (P : str -> Prop) V,
    c_method c = Random -> 2 <= length vs ->
    clamp (length vs) (Z.min lo hi) = clamp (length vs) (Z.min lo0 hi0) ->
    clamp (length vs) (Z.max lo hi) = clamp (length vs) (Z.max lo0 hi0) ->
    (forall t, Body E (scope_of c) (Var vs lo0 hi0 sep m) t -> P t) ->
    inv true (GRVarLoop c vs lo hi sep) P V
| I_rwildstart : forall c w vars m (P : str -> Prop) V,
    c_method c = Random ->
    (forall t, Body E (scope_of c) (Wild w m vars) t -> P t) ->
    inv true (GRWildStart c w vars) P V
| I_rwildloop : forall c items wg cur (P : str -> Prop) V,
    wgen_of G items wg ->
    (forall v u, Drawable Random items v -> Sampled c (WStr v) u -> P u) ->
    (forall g, cur = Some g -> exists nf P0 V0, inv nf g P0 V0 /\ forall t, P0 t -> P t) ->
    inv true (GRWildLoop c wg cur) P V
| I_rwrapstart : forall c wrapper inner m (P : str -> Prop) (V : Prop),
    c_method c = Random ->
    (forall t, Body E (scope_of c) (Wrap wrapper inner m) t -> P t) ->
    (VoidBody E (scope_of c) (Wrap wrapper inner m) -> V) ->
    inv true (GRWrapStart c wrapper inner) P V
| I_rwraploop : forall gw gi Pw Pi (Vw Vi : Prop) (P : str -> Prop) (V : Prop),
    inv true gw Pw Vw -> inv true gi Pi Vi -> (Vw -> V) -> (Vi -> V) ->
    (forall tw ti, Pw tw -> Pi ti -> P (as_wrapper tw ti)) ->
    inv true (GRWrapLoop gw gi) P V
| I_cseqstart : forall c tokens sep m (P : str -> Prop) (V : Prop),
    c_method c = Combinatorial -> V ->
    (forall t, Body E (scope_of c) (Seq tokens sep m) t -> P t) ->
    inv false (GCSeqStart c tokens sep) P V
| I_cseqloop : forall c sep coll cs tokens (P : str -> Prop) (V : Prop),
    c_method c = Combinatorial -> V -> coll_inv c coll ->
    cs_inv c (augmented tokens) cs ->
    (forall ts, All (scope_of c) tokens ts -> P (interleave sep ts)) ->
    inv false (GCSeqLoop c sep coll cs) P V
| I_cvarstart : forall c vs lo hi sep m (P : str -> Prop) (V : Prop),
    c_method c = Combinatorial -> V ->
    (forall t, Body E (scope_of c) (Var vs lo hi sep m) t -> P t) ->
    inv false (GCVarStart c vs lo hi sep) P V
| I_cvarloop : forall c sep todo cur seen (P : str -> Prop) (V : Prop),
    V ->
    (forall b combo, In (b, combo) todo -> b = Z.of_nat (length combo) /\
       forall parts t, All (scope_of c) combo parts -> NoDup parts -> Glued sep parts t -> P t) ->
    (forall b st, cur = Some (b, st) -> exists combo, b = Z.of_nat (length combo) /\
       cp_inv c combo st /\
       forall parts t, All (scope_of c) combo parts -> NoDup parts -> Glued sep parts t -> P t) ->
    inv false (GCVarLoop c sep todo cur seen) P V
| I_cwildstart : forall c w vars m (P : str -> Prop) (V : Prop),
    c_method c = Combinatorial -> V ->
    (forall t, Body E (scope_of c) (Wild w m vars) t -> P t) ->
    inv false (GCWildStart c w vars) P V
| I_cwildloop : forall c vals cur (P : str -> Prop) (V : Prop),
    V -> (forall v u, In v vals -> Sampled c (WStr v) u -> P u) ->
    (forall g, cur = Some g -> exists nf P0 V0, inv nf g P0 V0 /\ forall t, P0 t -> P t) ->
    inv false (GCWildLoop c vals cur) P V
| I_cwrapstart : forall c wrapper inner m (P : str -> Prop) (V : Prop),
    c_method c = Combinatorial -> V ->
    (forall t, Body E (scope_of c) (Wrap wrapper inner m) t -> P t) ->
    inv false (GCWrapStart c wrapper inner) P V
| I_cwraploop : forall c inner nf gw cur Pw V0 (P : str -> Prop) (V : Prop),
    V -> inv nf gw Pw V0 ->
    (forall tw ti, Pw tw -> Sampled c (WCmd inner) ti -> P (as_wrapper tw ti)) ->
    (forall tw gi, cur = Some (tw, gi) -> Pw tw /\
       exists nf' V1, inv nf' gi (Sampled c (WCmd inner)) V1) ->
    inv false (GCWrapLoop c inner gw cur) P V
| I_yvarstart : forall c vs lo hi sep m (P : str -> Prop) (V : Prop),
    c_method c = Cyclical ->
    (forall t, Body E (scope_of c) (Var vs lo hi sep m) t -> P t) ->
    (VoidBody E (scope_of c) (Var vs lo hi sep m) -> V) ->
    inv true (GYVarStart c vs lo hi sep) P V
| I_yvarloop : forall c sep samplers (P : str -> Prop) V,
    c_method c = Cyclical ->
    (forall y, In y samplers -> exists combo, yc_inv c combo y /\ ComboOk (scope_of c) sep combo P) ->
    inv true (GYVarLoop c sep samplers) P V
| I_ywildstart : forall c w vars m (P : str -> Prop) (V : Prop),
    c_method c = Cyclical ->
    (forall t, Body E (scope_of c) (Wild w m vars) t -> P t) ->
    (VoidBody E (scope_of c) (Wild w m vars) -> V) ->
    inv true (GYWildStart c w vars) P V
| I_ywildloop : forall gens (P : str -> Prop) (V : Prop),
    (forall g, In g gens -> exists nf P0 V0, inv nf g P0 V0 /\ forall t, P0 t -> P t) ->
    (gens = [] -> V) ->
    inv true (GYWildLoop gens) P V
| I_fallback : forall nf c w (P : str -> Prop) V,
    (forall name t, (forall s, w = WStr s -> name = s) ->
       (forall cmd, w = WCmd cmd -> Path E (scope_of c) w name) ->
       Wrapped (env_wrap E) name t -> P t) ->
    inv nf (GFallback c w) P V
| I_squash : forall nf g P0 (V0 : Prop) (P : str -> Prop) (V : Prop),
    inv nf g P0 V0 -> (V0 -> V) -> (forall t, P0 t -> P (squash_whitespace t)) ->
    inv nf (GSquash g) P V
| I_slice : forall nf k g P0 V0 (P : str -> Prop) (V : Prop),
    V -> inv nf g P0 V0 -> (forall t, P0 t -> P t) -> inv false (GSlice k g) P V

with invs : scope -> list gen -> list command -> Prop :=
| IS_nil : forall sc, invs sc [] []
| IS_cons : forall sc g gs cmd cmds nf V,
    inv nf g (Prod sc cmd) V -> invs sc gs cmds -> invs sc (g :: gs) (cmd :: cmds)

(** A collection: what belongs to random and cyclical commands stays usable. *)
with coll_inv : ctx -> list (command * gen * option str) -> Prop :=
| CI_nil : forall c, coll_inv c []
| CI_cons : forall c cmd g v coll,
    (is_nonfinite (effective_method c cmd) = true ->
       inv true g (Prod (scope_of c) cmd) False /\
       exists t, v = Some t /\ Prod (scope_of c) cmd t) ->
    coll_inv c coll -> coll_inv c ((cmd, g, v) :: coll)

with cs_inv : ctx -> list command -> cseq -> Prop :=
| CS_start : forall c cmds, cs_inv c cmds (CSStart cmds)
| CS_non : forall c cmd cmds rest,
    is_nonfinite (effective_method c cmd) = true ->
    cs_inv c cmds rest -> cs_inv c (cmd :: cmds) (CSNon cmd rest)
| CS_fin : forall c cmd cmds nf g V,
    inv nf g (Prod (scope_of c) cmd) V -> cs_inv c (cmd :: cmds) (CSFin g cmds)
| CS_fin2 : forall c cmd cmds nf g V t rest,
    inv nf g (Prod (scope_of c) cmd) V -> Prod (scope_of c) cmd t ->
    cs_inv c cmds rest -> cs_inv c (cmd :: cmds) (CSFin2 g cmds t rest)
| CS_done : forall c cmds, cs_inv c cmds CSDone

with cp_inv : ctx -> list command -> cp -> Prop :=
| CPI_start : forall c cmds, cp_inv c cmds (CPStart cmds)
| CPI_non : forall c cmd cmds nf g V rest,
    inv nf g (Prod (scope_of c) cmd) V -> cp_inv c cmds rest ->
    cp_inv c (cmd :: cmds) (CPNon g rest)
| CPI_fin : forall c cmd cmds nf g V,
    inv nf g (Prod (scope_of c) cmd) V -> cp_inv c (cmd :: cmds) (CPFin g cmds)
| CPI_fin2 : forall c cmd cmds nf g V t rest,
    inv nf g (Prod (scope_of c) cmd) V -> Prod (scope_of c) cmd t ->
    cp_inv c cmds rest -> cp_inv c (cmd :: cmds) (CPFin2 g cmds t rest)
| CPI_done : forall c cmds, cp_inv c cmds CPDone

with yc_inv : ctx -> list command -> yc -> Prop :=
| YI_start : forall c cmds, yc_inv c cmds (YCStart cmds)
| YI_empty : forall c, yc_inv c [] YCEmpty
| YI_loop : forall c cmd cmds g (V : Prop) rest,
    inv true g (Prod (scope_of c) cmd) V -> (V -> Void E (scope_of c) cmd) ->
    yc_inv c cmds rest -> yc_inv c (cmd :: cmds) (YCLoop g rest)
| YI_done : forall c cmds, yc_inv c cmds YCDone.

Lemma inv_mono : forall nf g P V (Q : str -> Prop) (W : Prop),
  inv nf g P V -> (forall t, P t -> Q t) -> (V -> W) -> inv nf g Q W.
Proof.
  intros nf g P V Q W H HP HV. destruct H; try (econstructor; eauto; fail).
  - econstructor; eauto. intros g Hg. destruct (H1 g Hg) as (nf & P0 & V0 & Hi & Hs).
    exists nf, P0, V0. auto.
  - econstructor; eauto. intros b combo Hin. destruct (H0 b combo Hin) as [Hb Hp].
    split; eauto.
    intros b st Hc. destruct (H1 b st Hc) as (combo & Hb & Hi & Hp). exists combo. eauto.
  - econstructor; eauto. intros g Hg. destruct (H1 g Hg) as (nf & P0 & V0 & Hi & Hs).
    exists nf, P0, V0. auto.
  - econstructor; eauto. intros y Hy. destruct (H0 y Hy) as (combo & Hy' & Ha & Hb).
    exists combo. split; [assumption|]. split; eauto.
  - econstructor; eauto. intros g Hg. destruct (H g Hg) as (nf & P0 & V0 & Hi & Hs).
    exists nf, P0, V0. auto.
Qed.

Definition post {A} (x : ores G A) (Q : A -> Prop) (S : Prop) : Prop :=
  match x with OVal a _ => Q a | OStop _ => S | _ => True end.

Lemma post_bind : forall A B (x : ores G A) (f : A -> R -> ores G B) Q1 Q S,
  post x Q1 S -> (forall a r, Q1 a -> post (f a r) Q S) -> post (obind G x f) Q S.
Proof. intros A B [a r|r|e r|] f Q1 Q S H Hf; cbn in *; auto. Qed.

Lemma post_pep : forall A (x : ores G A) Q S' S, post x Q S' -> post (pep479 G x) Q S.
Proof. intros A [a r|r|e r|] Q S' S H; cbn in *; auto. Qed.

Lemma post_impl : forall A (x : ores G A) (Q Q' : A -> Prop) (S S' : Prop),
  post x Q S -> (forall a, Q a -> Q' a) -> (S -> S') -> post x Q' S'.
Proof. intros A [a r|r|e r|] Q Q' S S' H; cbn in *; auto. Qed.

Lemma post_mk : forall x r (Q : gen -> Prop) S,
  (forall g, x = MOk g -> Q g) -> post (lift_mk G x r) Q S.
Proof. intros [g|e|] r Q S H; cbn; auto. Qed.

Lemma post_rres : forall A (x : rres G A) (Q : A -> Prop) S,
  (forall a r, x = ROk a r -> Q a) -> post (lift_rres G x) Q S.
Proof. intros A [a r|e r] Q S H; cbn; eauto. Qed.

Lemma chosen_nonfinite : forall c cmd, is_nonfinite (c_method c) = true ->
  is_nonfinite (chosen_method c cmd) = true.
Proof.
  intros c cmd H. unfold chosen_method.
  destruct (sampling_method cmd) as [[]|], (c_method c); try discriminate; reflexivity.
Qed.

Lemma busy_scope : forall x c c', for_sampling_variable x c = Ok c' ->
  scope_of c' = scope_of c /\ c_method c' = c_method c /\ c_ignws c' = c_ignws c.
Proof.
  intros x c c' H. unfold for_sampling_variable in H.
  destruct (str_mem x (c_busy c)); [discriminate|]. injection H as <-. repeat split.
Qed.

(** The generator of a command. *)
Lemma inv_mk : forall n c cmd g, mk n c cmd = MOk g ->
  exists nf (V : Prop), inv nf g (Prod (scope_of c) cmd) V /\
    (is_nonfinite (chosen_method c cmd) = true ->
       nf = true /\ (V -> Void E (scope_of c) cmd)).
Proof.
  induction n as [|n IH]; intros c cmd g H; [discriminate|].
  cbn [mk] in H. pose proof (scope_enter c cmd) as Hsc.
  set (c' := with_method (chosen_method c cmd) c) in *.
  assert (Hm : c_method c' = chosen_method c cmd) by reflexivity.
  assert (HP : forall t, Body E (scope_of c') cmd t -> Prod (scope_of c) cmd t).
  { intros t Ht. rewrite Hsc in Ht. now constructor. }
  assert (HV : VoidBody E (scope_of c') cmd -> Void E (scope_of c) cmd).
  { intros Ht. rewrite Hsc in Ht. now constructor. }
  clearbody c'. destruct cmd.
  - destruct (chosen_method c (Lit literal m)) eqn:Hc; injection H as <-.
    + exists true, False. split; [|tauto]. constructor. apply HP. constructor.
    + exists false, True. split; [|discriminate]. constructor; [|exact I]. apply HP. constructor.
    + exists true, False. split; [|tauto]. constructor. apply HP. constructor.
  - destruct (chosen_method c (Seq tokens separator m)) eqn:Hc; injection H as <-.
    + exists true, False. split; [|tauto]. eapply I_seqstart; [congruence|exact HP].
    + exists false, True. split; [|discriminate]. eapply I_cseqstart; [congruence|exact I|exact HP].
    + exists true, False. split; [|tauto]. eapply I_seqstart; [congruence|exact HP].
  - destruct (chosen_method c (Var variants min_bound max_bound separator m)) eqn:Hc; injection H as <-.
    + exists true, (Void E (scope_of c) (Var variants min_bound max_bound separator m)). split; [|auto].
      eapply I_rvarstart; eauto.
    + exists false, True. split; [|discriminate]. eapply I_cvarstart; [congruence|exact I|exact HP].
    + exists true, (Void E (scope_of c) (Var variants min_bound max_bound separator m)). split; [|auto].
      eapply I_yvarstart; eauto.
  - destruct (chosen_method c (Wild wildcard m variables)) eqn:Hc; injection H as <-.
    + exists true, False. split; [|tauto]. eapply I_rwildstart; eauto.
    + exists false, True. split; [|discriminate]. eapply I_cwildstart; [congruence|exact I|exact HP].
    + exists true, (Void E (scope_of c) (Wild wildcard m variables)). split; [|auto].
      eapply I_ywildstart; eauto.
  - discriminate.
  - destruct (resolve_access c' name default) as [target|] eqn:Hr; [|discriminate].
    destruct (for_sampling_variable name c') as [c''|] eqn:Hf; [|discriminate].
    destruct (busy_scope _ _ _ Hf) as (Hs & Hmm & _).
    destruct (IH c'' target g H) as (nf & V & Hi & Hn). rewrite Hs in Hi, Hn.
    apply resolve_access_Refers in Hr.
    exists nf, V. split.
    + eapply inv_mono; [exact Hi| |auto]. intros t Ht. apply HP. eapply B_access; eauto.
    + intros Hc. destruct Hn as [-> Hv].
      { apply chosen_nonfinite. congruence. }
      split; [reflexivity|]. intros v. apply HV. eapply V_access; eauto.
  - destruct (chosen_method c (Wrap cmd1 cmd2 m)) eqn:Hc; [| |discriminate]; injection H as <-.
    + exists true, (Void E (scope_of c) (Wrap cmd1 cmd2 m)). split; [|auto].
      eapply I_rwrapstart; eauto.
    + exists false, True. split; [|discriminate]. eapply I_cwrapstart; [congruence|exact I|exact HP].
Qed.

Lemma Reads_intro : forall p cmd,
  (match p with WStr [] => true | WStr _ => false | WCmd c => negb (truthy c) end) = false ->
  (match p with WStr s => env_parse E s | WCmd c => Ok c end) = Ok cmd -> Reads E p cmd.
Proof.
  intros [s|c0] cmd Hf Hp.
  - constructor; [|exact Hp]. destruct s; [discriminate|congruence].
  - injection Hp as <-. constructor. apply truthy_Nonempty. now apply negb_false_iff.
Qed.

(** A prompt sampled within a context. *)
Lemma inv_sample_prompts : forall n c p limit g, sample_prompts E n c p limit = MOk g ->
  exists nf V, inv nf g (Sampled c p) V.
Proof.
  intros n c p limit g H. unfold sample_prompts in H.
  destruct (match p with WStr [] => true | WStr _ => false | WCmd cmd => negb (truthy cmd) end) eqn:Hf.
  { injection H as <-. exists true, True. now constructor. }
  destruct (match p with WStr s => env_parse E s | WCmd cmd => Ok cmd end) as [cmd|] eqn:Hp; [|discriminate].
  pose proof (Reads_intro _ _ Hf Hp) as Hr.
  destruct (mk n c cmd) as [g0|e|] eqn:Hm; try discriminate.
  destruct (inv_mk _ _ _ _ Hm) as (nf & V & Hi & _).
  assert (H1 : inv nf (if c_ignws c then GSquash g0 else g0) (Sampled c p) V).
  { pose proof (squash_Tidy (c_ignws c)) as Ht.
    destruct (c_ignws c) eqn:Hw.
    - econstructor; [exact Hi|auto|]. intros t Hpr. exists cmd, t. rewrite Hw. auto.
    - eapply inv_mono; [exact Hi| |auto]. intros t Hpr. exists cmd, t. rewrite Hw. auto. }
  injection H as <-. destruct limit as [k|].
  - exists false, True. eapply I_slice; [exact I|exact H1|auto].
  - eauto.
Qed.

Definition Step (nf : bool) (P : str -> Prop) (x : str * gen) : Prop :=
  P (fst x) /\ inv nf (snd x) P (nf = false).

Section Open.
Variable nx : gen -> R -> ores G (str * gen).
Hypothesis nx_ok : forall nf g P V r, inv nf g P V -> post (nx g r) (Step nf P) V.

Lemma rotate_all_ok : forall sc gens cmds r, invs sc gens cmds ->
  post (rotate_all G nx gens r)
    (fun x => All sc cmds (fst x) /\ invs sc (snd x) cmds) True.
Proof.
  intros sc gens. induction gens as [|g gens IH]; intros cmds r H; inversion H; subst; cbn [rotate_all].
  - split; constructor.
  - eapply post_bind; [eapply post_impl; [apply nx_ok; eassumption|intros a Ha; exact Ha|auto]|].
    intros [t g'] r' [Ht Hg]. cbn in Ht, Hg.
    eapply post_bind; [apply IH; eassumption|].
    intros [ts gs] r'' [Hts Hgs]. cbn in *. split; [constructor; assumption|].
    econstructor; eassumption.
Qed.

Lemma first_of_ok : forall n x r P,
  (forall g, x = MOk g -> exists nf V, inv nf g P V) ->
  post (first_of G nx n x r) P True.
Proof.
  intros n x r P H. unfold first_of.
  eapply post_bind; [apply post_mk; exact H|].
  intros g r' (nf & V & Hi). cbn beta.
  eapply post_bind; [eapply post_impl; [apply nx_ok; exact Hi|intros a Ha; exact Ha|auto]|].
  intros [t g'] r'' [Ht _]. exact Ht.
Qed.

Lemma mk_all_ok : forall n c cmds r,
  post (mk_all G n c cmds r) (fun gens => invs (scope_of c) gens cmds) True.
Proof.
  intros n c cmds. induction cmds as [|cmd cmds IH]; intros r; cbn [mk_all]; [constructor|].
  eapply post_bind; [apply post_mk; intros g Hg; exact (inv_mk _ _ _ _ Hg)|].
  intros g r' (nf & V & Hi & _). cbn beta.
  eapply post_bind; [apply IH|]. intros gs r'' Hgs. cbn. econstructor; eassumption.
Qed.

Lemma sample_path_ok : forall n c w r,
  post (sample_path G E nx n c w r) (Path E (scope_of c) w) True.
Proof.
  intros n c w r. unfold sample_path.
  eapply post_impl; [apply first_of_ok; intros g Hg; exact (inv_sample_prompts _ _ _ _ _ Hg)| |auto].
  intros t (cmd & t0 & Hr & Hp & Ht). econstructor; eassumption.
Qed.

Lemma parse_all_ok : forall vals cmds, parse_all E vals = Ok cmds ->
  Forall2 (fun v c => env_parse E v = Ok c) vals cmds.
Proof.
  induction vals as [|v vals IH]; intros cmds H; cbn in H.
  - injection H as <-. constructor.
  - destruct (env_parse E v) eqn:Hv; [|discriminate].
    destruct (parse_all E vals) eqn:Hvs; [|discriminate]. injection H as <-. auto.
Qed.

Lemma wildcard_to_variant_ok : forall n c w lo hi r,
  post (wildcard_to_variant G E nx n c w lo hi r)
    (fun x => exists path, Path E (scope_of c) w path /\ OptionsOf E path (fst x) /\
       let n := Z.of_nat (length (env_lookup E path)) in
       snd x = (Z.max 0 (Z.min (Z.min lo hi) n), Z.min (Z.max lo hi) n)) True.
Proof.
  intros n c w lo hi r. unfold wildcard_to_variant.
  eapply post_bind; [apply sample_path_ok|]. intros path r' Hp. cbn zeta.
  destruct (parse_all E (iterate_weighted (env_lookup E path))) as [cmds|] eqn:Hc; [|exact I].
  cbn. exists path. split; [assumption|]. split.
  - exists (iterate_weighted (env_lookup E path)), cmds. split; [|split].
    + apply iterate_weighted_Listed.
    + now apply parse_all_ok.
    + reflexivity.
  - unfold post_init_bounds.
    match goal with |- context [Z.leb ?a ?b] => destruct (Z.leb_spec a b) end; f_equal; lia.
Qed.

(** Variables. *)
Lemma assignment_ok : forall n c name v imm ovr r,
  post (process_variable_assignment G nx n c name v imm ovr r)
    (fun v' => forall ts, LastAssign name ts v imm ovr ->
       Bound E (scope_of c) ts name (Some v')) True.
Proof.
  intros n c name v imm ovr r. unfold process_variable_assignment.
  destruct (if ovr then None else dict_get name (c_vars c)) as [v0|] eqn:Hd.
  { destruct ovr; [discriminate|]. cbn. intros ts HL. eapply Bound_kept; eassumption. }
  assert (Hn : ovr = false -> sc_var (scope_of c) name = None) by (intros ->; exact Hd).
  destruct imm.
  2: { cbn. intros ts HL. eapply Bound_lazy; eassumption. }
  assert (Hne : (exists s m, v = Lit s m) \/ forall s m, v <> Lit s m)
    by (destruct v; [left; eauto|..]; right; congruence).
  destruct Hne as [(s & m & ->)|Hne].
  { cbn. intros ts HL. eapply Bound_literal; eassumption. }
  replace (match v with Lit _ _ => OVal v r | _ => _ end)
    with (obind G (first_of G nx n (mk n c v) r) (fun t r => OVal (Lit t None) r)).
  2: { destruct v; try reflexivity. exfalso. eapply Hne. reflexivity. }
  eapply post_bind.
  - apply first_of_ok. intros g Hg. destruct (inv_mk _ _ _ _ Hg) as (nf & V & Hi & _). eauto.
  - intros t r' Ht. cbn. intros ts HL. eapply Bound_immediate; eassumption.
Qed.

Lemma assignments_loop_ok : forall n c cmds nv r,
  post (assignments_loop G nx n c cmds nv r)
    (fun x => Plain cmds (fst x) /\ (dict_sorted nv -> dict_sorted (snd x)) /\
       forall y, (NoAssign y cmds /\ dict_get y (snd x) = dict_get y nv) \/
         exists v imm ovr v', LastAssign y cmds v imm ovr /\ dict_get y (snd x) = Some v' /\
           forall ts, LastAssign y ts v imm ovr -> Bound E (scope_of c) ts y (Some v')) True.
Proof.
  intros n c cmds. induction cmds as [|cmd cmds IH]; intros nv r.
  { cbn. split; [constructor|]. split; [auto|]. intros y. left. split; [intros v i o []|reflexivity]. }
  assert (Hcase : (exists name v imm ovr, cmd = Assign name v imm ovr) \/ ~ is_assign cmd).
  { destruct cmd; try (right; intros (? & ? & ? & ? & ?); discriminate). left; eauto. }
  destruct Hcase as [(name & v & imm & ovr & ->)|Hna].
  - cbn [assignments_loop]. eapply post_bind; [apply assignment_ok|].
    intros v' r' Hv'. cbn beta. eapply post_impl; [apply IH| |auto].
    intros [rest vs] (Hp & Hs & Hy). cbn [fst snd] in *. split; [now constructor|]. split.
    { intros Hd. apply Hs. now apply dict_set_sorted. }
    intros y. destruct (Hy y) as [[Hn Hg]|(v1 & i1 & o1 & v1' & (pre & post & -> & Hl) & Hg & Hb)].
    + rewrite dict_get_set in Hg. destruct (str_eqb_spec y name) as [->|Hne].
      * right. exists v, imm, ovr, v'. split; [|auto]. exists [], cmds. split; [reflexivity|exact Hn].
      * left. split; [|assumption]. intros v0 i0 o0 [Heq|Hin]; [congruence|]. eapply Hn; eassumption.
    + right. exists v1, i1, o1, v1'. split; [|auto].
      exists (Assign name v imm ovr :: pre), post. auto.
  - assert (Hd : assignments_loop G nx n c (cmd :: cmds) nv r =
      obind G (assignments_loop G nx n c cmds nv r) (fun x r => OVal (cmd :: fst x, snd x) r)).
    { destruct cmd; cbn [assignments_loop]; try (unfold obind; destruct (assignments_loop _ _ _ _ _ _ _) as [[]| | |]; reflexivity).
      exfalso. apply Hna. unfold is_assign. eauto. }
    rewrite Hd. eapply post_bind; [apply IH|].
    intros [rest vs] r' (Hp & Hs & Hy). cbn [fst snd post] in *.
    split; [now constructor|]. split; [assumption|]. intros y.
    destruct (Hy y) as [[Hn Hg]|(v1 & i1 & o1 & v1' & (pre & pst & -> & Hl) & Hg & Hb)].
    + left. split; [|assumption]. intros v0 i0 o0 [Heq|Hin]; [|eapply Hn; eassumption].
      apply Hna. subst cmd. unfold is_assign. eauto.
    + right. exists v1, i1, o1, v1'. split; [|auto]. exists (cmd :: pre), pst. auto.
Qed.

Lemma assignments_ok : forall n c cmds r,
  post (process_variable_assignments G nx n c cmds r)
    (fun x => Plain cmds (fst x) /\ SameBut (scope_of c) (scope_of (snd x)) /\
       c_method (snd x) = c_method c /\
       forall y, Bound E (scope_of c) cmds y (sc_var (scope_of (snd x)) y)) True.
Proof.
  intros n c cmds r. unfold process_variable_assignments.
  eapply post_bind; [apply assignments_loop_ok|].
  intros [rest vs] r' (Hp & Hs & Hy). cbn [fst snd post] in *.
  split; [assumption|].
  assert (Hsort : dict_sorted vs) by (apply Hs; constructor).
  assert (Hget : forall y, dict_get y (c_vars (with_variables vs c)) =
    match dict_get y vs with Some v => Some v | None => dict_get y (c_vars c) end).
  { intros y. destruct vs as [|kv vs]; [reflexivity|].
    unfold with_variables. cbn [c_vars]. apply dict_get_update_nodup. now apply dict_sorted_NoDup. }
  split; [destruct vs; repeat split|]. split; [destruct vs; reflexivity|].
  intros y. cbn [scope_of sc_var]. rewrite Hget.
  destruct (Hy y) as [[Hn Hg]|(v1 & i1 & o1 & v1' & HL & Hg & Hb)].
  - rewrite Hg. cbn. apply Bound_outer. assumption.
  - rewrite Hg. auto.
Qed.

(** Collections. *)
Lemma advance_all_ok : forall c gens cmds r,
  Forall2 (fun g cmd => exists nf (V : Prop), inv nf g (Prod (scope_of c) cmd) V /\
    (is_nonfinite (effective_method c cmd) = true -> nf = true)) gens cmds ->
  post (advance_all G nx gens r)
    (fun gvs => coll_inv c (map (fun x => (fst x, fst (snd x), snd (snd x))) (combine cmds gvs))) True.
Proof.
  intros c gens cmds r H. revert r.
  induction H as [|g cmd gens cmds (nf & V & Hi & Hn) Hr IH]; intros r; cbn [advance_all].
  { constructor. }
  eapply post_bind; [eapply post_impl; [apply nx_ok; exact Hi|intros a Ha; exact Ha|auto]|].
  intros [t g'] r' [Ht Hg]. cbn [fst snd] in *.
  eapply post_bind; [apply IH|]. intros gvs r'' Hc. cbn. constructor; [|assumption].
  intros He. specialize (Hn He). subst nf. split; [|eauto].
  eapply inv_mono; [exact Hg|auto|discriminate].
Qed.

Lemma mk_all_coll : forall n c cmds r, c_method c = Combinatorial ->
  post (mk_all G n c cmds r) (fun gens =>
    Forall2 (fun g cmd => exists nf (V : Prop), inv nf g (Prod (scope_of c) cmd) V /\
      (is_nonfinite (effective_method c cmd) = true -> nf = true)) gens cmds) True.
Proof.
  intros n c cmds r Hm. revert r. induction cmds as [|cmd cmds IH]; intros r; cbn [mk_all]; [constructor|].
  eapply post_bind; [apply post_mk; intros g Hg; exact (inv_mk _ _ _ _ Hg)|].
  intros g r' (nf & V & Hi & Hn). cbn beta.
  eapply post_bind; [apply IH|]. intros gs r'' Hgs. cbn. constructor; [|assumption].
  exists nf, V. split; [assumption|]. intros He. apply Hn.
  unfold effective_method in He. unfold chosen_method. rewrite Hm in *.
  destruct (sampling_method cmd) as [[]|]; try discriminate; reflexivity.
Qed.

Lemma new_collection_ok : forall n c cmds r, c_method c = Combinatorial ->
  post (new_collection G nx n c cmds r) (coll_inv c) True.
Proof.
  intros n c cmds r Hm. unfold new_collection.
  eapply post_bind; [now apply mk_all_coll|]. intros gens r' Hg. cbn beta.
  eapply post_bind; [apply advance_all_ok; exact Hg|]. intros gvs r'' Hc. exact Hc.
Qed.

Lemma get_value_ok : forall c cmd coll r, coll_inv c coll ->
  is_nonfinite (effective_method c cmd) = true ->
  post (get_value G nx cmd coll r)
    (fun x => coll_inv c (snd x) /\ exists t, fst x = Some t /\ Prod (scope_of c) cmd t) False.
Proof.
  intros c cmd coll r H He. revert r.
  induction H as [|c cmd' g v coll Hent Hc IH]; intros r; cbn [get_value]; [exact I|].
  destruct (cmd_eqb_spec cmd' cmd) as [->|Hne].
  - destruct (Hent He) as [Hi (t & -> & Ht)].
    pose proof (nx_ok _ _ _ _ r Hi) as Hx.
    destruct (nx g r) as [[t' g'] r'|r'|e r'|]; cbn in *; [| |exact I|exact I].
    + destruct Hx as [Ht' Hg']. cbn in *. split; [|eauto]. constructor; [|assumption].
      intros _. split; [|eauto]. eapply inv_mono; [exact Hg'|auto|discriminate].
    + destruct Hx.
  - eapply post_bind; [apply IH; exact He|]. intros [v' coll'] r' [Hc' Hv]. cbn in *.
    split; [|assumption]. constructor; assumption.
Qed.

Lemma sample_all_ok : forall n c vals r (P : str -> Prop),
  (forall v u, In v vals -> Sampled c (WStr v) u -> P u) ->
  post (sample_all G E n c vals r)
    (fun gens => length gens = length vals /\
       forall g, In g gens -> exists nf P0 V0, inv nf g P0 V0 /\ forall t, P0 t -> P t) False.
Proof.
  intros n c vals. induction vals as [|v vals IH]; intros r P HP; cbn [sample_all].
  { split; [reflexivity|]. intros g []. }
  eapply post_bind; [apply post_mk; intros g Hg; exact (inv_sample_prompts _ _ _ _ _ Hg)|].
  intros g r' (nf & V & Hi). cbn beta.
  eapply post_bind; [apply IH; intros v' u Hv'; apply HP; now right|].
  intros gs r'' [Hl Hg]. cbn. split; [now f_equal|].
  intros g0 [<-|Hin]; [|auto]. exists nf, (Sampled c (WStr v)), V. split; [assumption|].
  intros t. apply HP. now left.
Qed.
End Open.

Lemma single_wildcard_spec : forall vs w, single_wildcard vs = Some w ->
  exists m vars q, vs = [(Wild w m vars, q)].
Proof.
  intros [|[[] q] [|]] w H; try discriminate. injection H as ->. eauto.
Qed.

Lemma single_wildcard_None : forall vs, single_wildcard vs = None -> ~ lone_wildcard vs.
Proof. intros vs H (w & m & vars & q & ->). discriminate. Qed.

Lemma adjust_range_clamp : forall n lo hi,
  adjust_range n lo hi = (clamp n (Z.min lo hi), Z.min (Z.max lo hi) (Z.of_nat n)).
Proof.
  intros n lo hi. unfold adjust_range, post_init_bounds, clamp.
  match goal with |- context [Z.leb ?a ?b] => destruct (Z.leb_spec a b) end; f_equal; lia.
Qed.

Lemma bound_combos_In : forall vs lo hi b combo, In (b, combo) (bound_combos vs lo hi) ->
  b = Z.of_nat (length combo) /\ NoDup combo /\ incl combo (map fst vs) /\
  (clamp (length vs) (Z.min lo hi) <= b <= clamp (length vs) (Z.max lo hi))%Z.
Proof.
  intros vs lo hi b combo H. unfold bound_combos in H. rewrite adjust_range_clamp in H.
  apply in_flat_map in H. destruct H as (b' & Hb & H).
  apply in_map_iff in H. destruct H as (c & [= -> ->] & Hc).
  apply zrange_In in Hb. apply combos_In in Hc. destruct Hc as (Hl & Hn & Hi).
  pose proof (clamp_range (length vs) (Z.min lo hi)).
  split; [lia|]. split; [assumption|]. split; [assumption|].
  unfold clamp in *. lia.
Qed.

Lemma NoDup_incl_perm : forall (sel l : list command), NoDup sel -> incl sel l ->
  exists rest, Permutation l (sel ++ rest).
Proof.
  induction sel as [|x sel IH]; intros l Hn Hi; [exists l; reflexivity|].
  inversion Hn as [|? ? Hx Hn']; subst.
  destruct (in_split x l (Hi x (or_introl eq_refl))) as (a & b & ->).
  destruct (IH (a ++ b) Hn') as (rest & Hr).
  { intros y Hy. specialize (Hi y (or_intror Hy)). apply in_app_iff in Hi. apply in_app_iff.
    destruct Hi as [|[->|]]; auto. contradiction. }
  exists rest. cbn. eapply perm_trans; [symmetry; apply Permutation_middle|]. now constructor.
Qed.

Lemma pairs_item_pairs : forall items, pairs items = item_pairs items.
Proof. reflexivity. Qed.

Lemma Drawable_listed : forall m items t, m <> Random -> In t (iterate_weighted items) ->
  Drawable m items t.
Proof.
  intros m items t Hm H. destruct (iterate_weighted_In _ _ H) as (i & Hi & <- & Hw).
  assert (Hin : In (w_content i, w_weight i) (pairs items)).
  { unfold pairs. apply in_map_iff. exists i. auto. }
  destruct m; [congruence|..]; exists (w_weight i); auto.
Qed.

Lemma Drawable_drawn : forall items i, In i items ->
  (has_varied_weights items = true -> (0 < w_weight i)%Qc) -> Drawable Random items (w_content i).
Proof.
  intros items i Hi Hw. exists (w_weight i). split.
  - unfold pairs. apply in_map_iff. exists i. auto.
  - intros (t1 & q1 & t2 & q2 & H1 & H2 & Hne). apply Hw. apply has_varied_weights_spec.
    unfold pairs in *. apply in_map_iff in H1, H2.
    destruct H1 as (i1 & [= _ H1] & Hi1), H2 as (i2 & [= _ H2] & Hi2).
    exists i1, i2. unfold w_weight. subst. auto.
Qed.

Lemma All_length : forall sc cmds ts, All sc cmds ts -> length ts = length cmds.
Proof.
  intros sc cmds. induction cmds; intros ts H; inversion H; subst; cbn; [reflexivity|]. f_equal. auto.
Qed.

Lemma Prod_Lit : forall sc s m t, Prod sc (Lit s m) t -> t = s.
Proof. intros sc s m t H. inversion H; subst. inversion H0; subst. reflexivity. Qed.

Lemma All_app : forall sc c1 c2 ts, All sc (c1 ++ c2) ts ->
  exists t1 t2, ts = t1 ++ t2 /\ All sc c1 t1 /\ All sc c2 t2.
Proof.
  intros sc c1. induction c1 as [|c c1 IH]; intros c2 ts H.
  - exists [], ts. repeat split; [constructor|assumption].
  - inversion H; subst. destruct (IH _ _ H5) as (t1 & t2 & -> & Ha & Hb).
    exists (t :: t1), t2. repeat split; [now constructor|assumption].
Qed.

Lemma All_cons_inv : forall sc c cs ts, All sc (c :: cs) ts ->
  exists t ts', ts = t :: ts' /\ Prod sc c t /\ All sc cs ts'.
Proof. intros sc c cs ts H. inversion H; subst. eauto. Qed.

Lemma All_nil_inv : forall sc ts, All sc [] ts -> ts = [].
Proof. intros sc ts H. now inversion H. Qed.

Lemma All_augmented : forall sc tokens arr, All sc (augmented tokens) arr ->
  exists ts, arr = [] :: ts ++ [[]] /\ All sc tokens ts.
Proof.
  intros sc tokens arr H. unfold augmented in H.
  destruct (All_cons_inv _ _ _ _ H) as (t & ts & -> & Ht & Hts). apply Prod_Lit in Ht. subst t.
  destruct (All_app _ _ _ _ Hts) as (t1 & t2 & -> & Ha & Hb).
  destruct (All_cons_inv _ _ _ _ Hb) as (t & ts & -> & Ht & Hn). apply Prod_Lit in Ht. subst t.
  apply All_nil_inv in Hn. subst ts. eauto.
Qed.

(** The yields and the end of each kind of suspended code. *)
Definition Arr (c : ctx) (cmds : list command) (x : list str * cp) : Prop :=
  All (scope_of c) cmds (fst x) /\ cp_inv c cmds (snd x).

Definition YArr (c : ctx) (cmds : list command) (x : list str * yc) : Prop :=
  (All (scope_of c) cmds (fst x) \/
   exists pre v pst, cmds = pre ++ v :: pst /\ All (scope_of c) pre (fst x) /\
     Void E (scope_of c) v) /\
  yc_inv c cmds (snd x).

Definition CArr (c : ctx) (cmds : list command)
    (x : option (list str * cseq) * list (command * gen * option str)) : Prop :=
  coll_inv c (snd x) /\
  match fst x with
  | Some (arr, cs) => All (scope_of c) cmds arr /\ cs_inv c cmds cs
  | None => True
  end.

Lemma All_Glued_choice : forall c vs lo hi sep m,
  c_method c <> Random -> single_wildcard vs = None -> vs <> [] ->
  forall b combo, In (b, combo) (bound_combos vs lo hi) ->
  forall parts t, All (scope_of c) combo parts ->
    (c_method c = Combinatorial -> NoDup parts) -> Glued sep parts t ->
    Body E (scope_of c) (Var vs lo hi sep m) t.
Proof.
  intros c vs lo hi sep m Hm Hs Hv b combo Hin parts t Ha Hn Hg.
  destruct (bound_combos_In _ _ _ _ _ Hin) as (-> & Hnd & Hi & Hb).
  destruct (NoDup_incl_perm _ _ Hnd Hi) as (rest & Hp).
  eapply B_choice with (sel := combo) (rest := rest) (parts := parts); eauto.
  - now apply single_wildcard_None.
  - intros H; contradiction.
Qed.

Lemma joined_nil : forall sep, joined [] sep = [].
Proof. intros [|c sep]; reflexivity. Qed.

Lemma invs_nil : forall sc cmds, invs sc [] cmds -> cmds = [].
Proof. intros sc cmds H. now inversion H. Qed.

Theorem next_sound : forall n,
  (forall nf g P V r, inv nf g P V -> post (next G E n g r) (Step nf P) V) /\
  (forall c cmds coll cs r, c_method c = Combinatorial -> coll_inv c coll -> cs_inv c cmds cs ->
     post (next_cs G E n c coll cs r) (CArr c cmds) False) /\
  (forall c cmds st r, cp_inv c cmds st -> post (next_cp G E n c st r) (Arr c cmds) True) /\
  (forall c cmds st r, c_method c = Cyclical -> yc_inv c cmds st ->
     post (next_yc G E n c st r) (YArr c cmds) True).
Proof.
  induction n as [|n (IHg & IHcs & IHcp & IHyc)]; [repeat split; intros; exact I|].
  repeat split.
  - intros nf g P V r H. destruct H; unfold_next G E.
    + exact H.
    + split; cbn; [assumption|now constructor].
    + split; cbn; [assumption|now constructor].
    + (* sequence *)
      eapply post_pep. eapply post_bind; [eapply assignments_ok; eauto|].
      intros [toks c'] r' (Hp & Hsb & Hm & Hb). cbn [fst snd] in *.
      eapply post_bind; [apply mk_all_ok|]. intros gens r'' Hg.
      eapply post_impl; [eapply IHg with (nf := true) (V := True)|intros a Ha; exact Ha|].
      * eapply I_seqloop; [exact Hg|]. intros ts t Ha Hgl. apply H0.
        eapply B_seq; eauto. intros Hx. cbn in Hx. contradiction.
      * auto.
    + eapply post_pep. eapply post_bind; [eapply rotate_all_ok; eauto|].
      intros [ts gens'] r' [Ha Hi]. cbn [fst snd] in *. split; cbn.
      * eapply H0; [eassumption|apply joined_Glued].
      * eapply I_seqloop; eassumption.
    + (* random variant *)
      destruct vs as [|[v q] vs'].
      { cbn. apply H1. constructor. }
      destruct vs' as [|vq vs'].
      * destruct (single_wildcard [(v, q)]) as [w|] eqn:Hs.
        -- destruct (single_wildcard_spec _ _ Hs) as (mw & vars & q' & [= -> ->]).
           eapply post_bind; [eapply post_pep; eapply wildcard_to_variant_ok; eauto|].
           intros [vs' [lo' hi']] r' (path & Hpa & Hopt & Hbd). cbn [fst snd] in *.
           injection Hbd as -> ->.
           eapply IHg. eapply I_rvarstart with (m := None); [assumption| |].
           ++ intros t Ht. apply H0. eapply B_lone; eauto.
           ++ intros Hv. apply H1. eapply V_lone; eauto.
        -- eapply post_bind; [apply post_mk; intros g Hg; exact (inv_mk _ _ _ _ Hg)|].
           intros g r' (nf & V0 & Hi & Hn). cbn beta.
           destruct Hn as [-> Hv]; [apply chosen_nonfinite; rewrite H; reflexivity|].
           eapply IHg. eapply inv_mono; [exact Hi| |].
           ++ intros t Ht. apply H0. apply B_single; [assumption|now apply single_wildcard_None|assumption].
           ++ intros Hvv. apply H1. apply V_single; [assumption|now apply single_wildcard_None|auto].
      * eapply IHg with (nf := true). eapply I_rvarloop with (m := m); eauto. cbn. lia.
    + destruct (adjust_range (length vs) lo hi) as [lo' hi'] eqn:Hadj.
      rewrite adjust_range_clamp in Hadj. injection Hadj as <- <-.
      destruct (randint G _ _ r) as [[k r0]|] eqn:Hk; [|exact I].
      unfold randint in Hk.
      match type of Hk with context [Z.leb ?a ?b] => destruct (Z.leb_spec a b) as [Hle|]; [|discriminate] end.
      match type of Hk with context [randbelow G ?a r] =>
        pose proof (randbelow_lt G a r) as Hlt; destruct (randbelow G a r) as [x r1] end.
      injection Hk as <- <-. cbn [fst] in Hlt.
      set (lo1 := clamp (length vs) (Z.min lo hi)) in *.
      set (hi1 := Z.min (Z.max lo hi) (Z.of_nat (length vs))) in *.
      assert (Hlo1 : lo1 = clamp (length vs) (Z.min lo0 hi0)) by exact H1.
      assert (Hlo1' : (0 <= lo1)%Z) by (apply clamp_range).
      assert (Hhi1 : hi1 = clamp (length vs) (Z.max lo0 hi0)).
      { rewrite <- H2. unfold hi1, clamp. clear Hlt. unfold hi1 in Hle. lia. }
      assert (Hloop : forall (P : str -> Prop) (V : Prop), (forall t, Body E (scope_of c) (Var vs lo0 hi0 sep m) t -> P t) ->
        inv true (GRVarLoop c vs lo1 hi1 sep) P V).
      { intros P0 V0 HP0. apply I_rvarloop with (lo0 := lo0) (hi0 := hi0) (m := m); try assumption.
        - rewrite Z.min_l by assumption. rewrite Hlo1. apply clamp_id, clamp_range.
        - rewrite Z.max_r by assumption. rewrite Hhi1. apply clamp_id, clamp_range. }
      eapply post_pep with (S' := True). eapply post_bind.
      { apply post_rres with (Q := fun sel => exists r2 r3, choose_without_replacement G cmd_eqb
          (values vs) (weights vs) (Z.min hi1 (lo1 + Z.of_nat x)) r2 = ROk sel r3). eauto. }
      intros sel r4 (r2 & r3 & Hsel). cbn beta.
      assert (Hbody : forall parts t, All (scope_of c) sel parts -> Glued sep parts t -> P t).
      { intros parts t Ha Hg. apply H3.
        destruct (cwr_ok G cmd_eqb cmd_eqb_spec _ _ _ _ _ _ Hsel) as [(rest & Hp) Hlen].
        assert (Hlv : length (values vs) = length vs) by apply map_length.
        assert (Hlw : length (weights vs) = length vs) by apply map_length.
        eapply B_choice with (sel := sel) (rest := rest) (parts := parts).
        - intros (w & mw & vars & q & ->). cbn in H0. lia.
        - intros ->. cbn in H0. lia.
        - intros _. lia.
        - exact Hp.
        - destruct (values vs) as [|v1 [|v2 vals]]; cbn in Hlv; lia.
        - intros _ v sel' ->.
          assert (H2v : 2 <= length (values vs)) by lia.
          destruct (cwr_first G cmd_eqb _ _ _ _ _ _ _ H2v (eq_trans Hlw (eq_sym Hlv)) Hsel)
            as (i & Hi & w & Hw & Hpos).
          exists w. split; [|assumption].
          unfold values, weights in Hi, Hw. rewrite nth_error_map in Hi, Hw.
          destruct (nth_error vs i) as [[v0 w0]|] eqn:Hnth; [|discriminate].
          cbn in Hi, Hw. injection Hi as ->. injection Hw as ->. eapply nth_error_In; exact Hnth.
        - assumption.
        - intros Hc. cbn in Hc. congruence.
        - assumption. }
      eapply post_bind; [eapply mk_all_ok|]. intros gens r5 Hg. cbn beta.
      destruct gens as [|g gens].
      * apply invs_nil in Hg. subst sel. split; cbn; [|now apply Hloop].
        eapply Hbody; [constructor|]. rewrite <- (joined_nil sep). apply joined_Glued.
      * eapply post_bind; [eapply rotate_all_ok; eauto|].
        intros [ts gs] r6 [Ha _]. split; cbn; [|now apply Hloop].
        eapply Hbody; [exact Ha|apply joined_Glued].
    + (* random wildcard *)
      eapply post_bind; [eapply post_pep; eapply sample_path_ok; eauto|].
      intros path r' Hpa. cbn beta zeta.
      pose proof (with_variables_Extended vars c) as Hext.
      destruct (env_lookup E path) as [|it items] eqn:Hl.
      * eapply IHg. apply I_fallback. intros name t Hn1 Hn2 Hw. apply H0.
        eapply B_missing; eauto.
      * eapply IHg with (nf := true). eapply I_rwildloop with (items := it :: items).
        -- apply wgen_of_start.
        -- intros v u Hd (cmd & t & Hr & Hpr & Ht). apply H0.
           eapply B_wild with (v := v); eauto.
           ++ congruence.
           ++ cbn. rewrite Hl, H. exact Hd.
           ++ destruct vars; exact Ht.
        -- discriminate.
    + destruct cur as [g|].
      * destruct (H1 g eq_refl) as (nf & P0 & V0 & Hi & Hs).
        pose proof (IHg _ _ _ _ r Hi) as Hx.
        destruct (next G E n g r) as [[t g'] r'|r'|e r'|]; cbn in Hx; try exact I.
        -- destruct Hx as [Ht Hg']. cbn in *. split; cbn; [auto|].
           eapply I_rwildloop; eauto. intros g0 [= <-]. eauto.
        -- eapply IHg. eapply I_rwildloop; eauto. discriminate.
      * eapply post_bind.
        { apply post_rres with (Q := fun x => exists r0 r1, next_wgen G wg r0 = ROk x r1). eauto. }
        intros [v wg'] r' (r0 & r1 & Hw). cbn beta iota.
        destruct (next_wgen_spec G _ _ _ _ _ _ H Hw) as (Hwg & i & Hin & <- & Hpos).
        eapply post_bind; [apply post_mk; intros g Hg; exact (inv_sample_prompts _ _ _ _ _ Hg)|].
        intros g r'' (nf & V0 & Hi). cbn beta.
        eapply IHg. eapply I_rwildloop; eauto. intros g0 [= <-].
        exists nf, (Sampled c (WStr (w_content i))), V0. split; [assumption|].
        intros t Ht. eapply H0; [|exact Ht]. now apply Drawable_drawn.
    + (* random wrap *)
      eapply post_bind; [apply post_mk; intros g Hg; exact (inv_mk _ _ _ _ Hg)|].
      intros gw r' (nf & V1 & Hi & Hn). cbn beta.
      destruct Hn as [-> Hv]; [apply chosen_nonfinite; rewrite H; reflexivity|].
      eapply post_bind; [apply post_mk; intros g Hg; exact (inv_mk _ _ _ _ Hg)|].
      intros gi r'' (nf & V2 & Hi2 & Hn2). cbn beta.
      destruct Hn2 as [-> Hv2]; [apply chosen_nonfinite; rewrite H; reflexivity|].
      eapply IHg. eapply I_rwraploop; [exact Hi|exact Hi2| | |].
      * intros v. apply H1. apply V_wrap_outer; auto.
      * intros v. apply H1. apply V_wrap_inner; auto.
      * intros tw ti Hw Ht. apply H0.
        destruct (as_wrapper_cut tw ti) as (b & a & Hc & ->).
        eapply B_wrap; eauto; cbn; rewrite H; try discriminate; rewrite andb_false_r; reflexivity.
    + eapply post_bind; [eapply post_impl; [apply IHg; exact H|intros a Ha; exact Ha|assumption]|].
      intros [tw gw'] r' [Htw Hgw]. cbn beta iota.
      eapply post_bind; [eapply post_impl; [apply IHg; exact H0|intros a Ha; exact Ha|assumption]|].
      intros [ti gi'] r'' [Hti Hgi]. split; cbn in *; [auto|].
      eapply I_rwraploop; [exact Hgw|exact Hgi|auto|auto|assumption].
    + (* combinatorial sequence *)
      eapply post_bind.
      { eapply post_pep. eapply post_bind; [eapply assignments_ok; eauto|].
        intros [toks c'] r' Hp. cbn beta iota.
        eapply post_bind with (Q1 := coll_inv c').
        - apply new_collection_ok; [eauto|]. destruct Hp as (_ & _ & Hm & _). cbn in Hm. congruence.
        - intros coll r'' Hc. cbn.
          exact (conj Hc Hp : (fun x => coll_inv (snd (snd x)) (fst x) /\
            Plain tokens (fst (snd x)) /\ SameBut (scope_of c) (scope_of (snd (snd x))) /\
            c_method (snd (snd x)) = c_method c /\
            forall y, Bound E (scope_of c) tokens y (sc_var (scope_of (snd (snd x))) y))
            (coll, (toks, c'))). }
      intros [coll [toks c']] r' (Hc & Hp & Hsb & Hm & Hb). cbn [fst snd] in *.
      eapply IHg with (nf := false). eapply I_cseqloop; [congruence|assumption|exact Hc|constructor|].
      intros ts Ha. apply H1. eapply B_seq; eauto. intros Hx. cbn in Hx. contradiction.
    + eapply post_bind; [eapply post_impl; [eapply IHcs; eauto|intros a Ha; exact Ha|tauto]|].
      intros [x coll'] r' [Hc Hx]. cbn beta iota. cbn [fst snd] in *.
      destruct x as [[arr cs']|]; [|assumption].
      destruct Hx as [Ha Hcs]. split; cbn.
      * destruct (All_augmented _ _ _ Ha) as (ts & -> & Hts). rewrite joined_sentinels. auto.
      * eapply I_cseqloop; eauto.
    + (* combinatorial variant *)
      destruct vs as [|vq vs']; [assumption|].
      destruct (single_wildcard (vq :: vs')) as [w|] eqn:Hs.
      * destruct (single_wildcard_spec _ _ Hs) as (mw & vars & q' & [= -> ->]).
        eapply post_bind; [eapply post_pep; eapply wildcard_to_variant_ok; eauto|].
        intros [vs' [lo' hi']] r' (path & Hpa & Hopt & Hbd). cbn [fst snd] in *.
        injection Hbd as -> ->.
        eapply IHg. eapply I_cvarstart with (m := None); [assumption|assumption|].
        intros t Ht. apply H1. eapply B_lone; eauto.
      * eapply IHg with (nf := false). eapply I_cvarloop; [assumption| |discriminate].
        intros b combo Hin. split; [now apply bound_combos_In in Hin|].
        intros parts t Ha Hn Hg. apply H1.
        eapply All_Glued_choice; eauto; congruence.
    + destruct cur as [[b st]|].
      * destruct (H1 b st eq_refl) as (combo & Hb & Hi & HP).
        pose proof (IHcp _ _ _ r Hi) as Hx.
        destruct (next_cp G E n c st r) as [[arr st'] r'|r'|e r'|]; cbn in Hx; try exact I.
        -- destruct Hx as [Ha Hi']. cbn [fst snd] in *.
           assert (Hnext : forall seen' (V : Prop), V -> inv false (GCVarLoop c sep todo (Some (b, st')) seen') P V).
           { intros seen' V' HV'. eapply I_cvarloop; [assumption|assumption|].
             intros b0 st0 [= <- <-]. exists combo. auto. }
           destruct (Z.eqb_spec (Z.of_nat (length (dedupe arr))) b) as [He|]; cbn [andb];
             [|apply IHg; auto].
           destruct (existsb (arr_eqb (dedupe arr)) seen); cbn [negb]; [apply IHg; auto|].
           split; cbn; [|auto].
           assert (Hd : dedupe arr = arr).
           { apply dedupe_full. rewrite (All_length _ _ _ Ha). lia. }
           apply (HP (dedupe arr)); [congruence|apply dedupe_NoDup|apply joined_Glued].
        -- apply IHg. eapply I_cvarloop; [assumption|assumption|discriminate].
      * destruct todo as [|[b combo] todo']; [assumption|].
        apply IHg. eapply I_cvarloop; [assumption| |].
        -- intros b0 c0 Hin. apply H0. now right.
        -- intros b0 st0 [= <- <-]. destruct (H0 b combo (or_introl eq_refl)) as [Hb HP].
           exists combo. split; [assumption|]. split; [constructor|assumption].
    + (* combinatorial wildcard *)
      eapply post_bind; [eapply post_pep; eapply sample_path_ok; eauto|].
      intros path r' Hpa. cbn beta zeta.
      pose proof (with_variables_Extended vars c) as Hext.
      destruct (env_lookup E path) as [|it items] eqn:Hl.
      * eapply IHg. apply I_fallback. intros name t Hn1 Hn2 Hw. apply H1.
        eapply B_missing; eauto.
      * eapply IHg with (nf := false). eapply I_cwildloop; [assumption| |discriminate].
        intros v u Hd (cmd & t & Hr & Hpr & Ht). apply H1.
        eapply B_wild with (v := v); eauto.
        ++ congruence.
        ++ cbn. rewrite Hl. apply Drawable_listed; [congruence|exact Hd].
        ++ destruct vars; exact Ht.
    + destruct cur as [g|].
      * destruct (H1 g eq_refl) as (nf & P0 & V0 & Hi & Hs).
        pose proof (IHg _ _ _ _ r Hi) as Hx.
        destruct (next G E n g r) as [[t g'] r'|r'|e r'|]; cbn in Hx; try exact I.
        -- destruct Hx as [Ht Hg']. cbn in *. split; cbn; [auto|].
           eapply I_cwildloop; [reflexivity|assumption|]. intros g0 [= <-]. eauto.
        -- eapply IHg. eapply I_cwildloop; [assumption|assumption|discriminate].
      * destruct vals as [|v vals']; [assumption|].
        eapply post_bind; [apply post_mk; intros g Hg; exact (inv_sample_prompts _ _ _ _ _ Hg)|].
        intros g r' (nf & V0 & Hi). cbn beta.
        eapply IHg. eapply I_cwildloop; [assumption| |].
        -- intros v0 u Hin. apply H0. now right.
        -- intros g0 [= <-]. exists nf, (Sampled c (WStr v)), V0. split; [assumption|].
           intros t. apply H0. now left.
    + (* combinatorial wrap *)
      eapply post_bind; [apply post_mk; intros g Hg; exact (inv_sample_prompts _ _ _ _ _ Hg)|].
      intros gw r' (nf & V0 & Hi). cbn beta.
      eapply IHg. eapply I_cwraploop; [assumption|exact Hi| |discriminate].
      intros tw ti (cw & t1 & Hrw & Hpw & Htw) (ci & t2 & Hri & Hpi & Hti). apply H1.
      destruct (as_wrapper_cut tw ti) as (b & a & Hc & ->).
      inversion Hrw; subst. inversion Hri; subst.
      eapply B_wrap; eauto; cbn; rewrite H; try discriminate; now rewrite andb_true_r.
    + destruct cur as [[tw gi]|].
      * destruct (H2 tw gi eq_refl) as (Hw & nf' & V1 & Hi).
        pose proof (IHg _ _ _ _ r Hi) as Hx.
        destruct (next G E n gi r) as [[t g'] r'|r'|e r'|]; cbn in Hx; try exact I.
        -- destruct Hx as [Ht Hg']. cbn in *. split; cbn; [auto|].
           eapply I_cwraploop; [reflexivity|exact H0|assumption|]. intros tw0 gi0 [= <- <-]. eauto.
        -- eapply IHg. eapply I_cwraploop; [assumption|exact H0|assumption|discriminate].
      * eapply post_bind; [eapply post_impl; [apply IHg; exact H0|intros a Ha; exact Ha|auto]|].
        intros [tw gw'] r' [Htw Hgw]. cbn beta iota. cbn in Htw, Hgw.
        eapply post_bind; [apply post_mk; intros g Hg; exact (inv_sample_prompts _ _ _ _ _ Hg)|].
        intros gi r'' (nf' & V1 & Hi). cbn beta.
        eapply IHg. eapply I_cwraploop; [assumption|exact Hgw|assumption|].
        intros tw0 gi0 [= <- <-]. eauto.
    + (* cyclical variant *)
      destruct vs as [|vq vs'].
      { cbn. apply H1. constructor. }
      destruct (single_wildcard (vq :: vs')) as [w|] eqn:Hs.
      * destruct (single_wildcard_spec _ _ Hs) as (mw & vars & q' & [= -> ->]).
        eapply post_bind; [eapply post_pep; eapply wildcard_to_variant_ok; eauto|].
        intros [vs' [lo' hi']] r' (path & Hpa & Hopt & Hbd). cbn [fst snd] in *.
        injection Hbd as -> ->.
        eapply IHg. eapply I_yvarstart with (m := None); [assumption| |].
        -- intros t Ht. apply H0. eapply B_lone; eauto.
        -- intros Hv. apply H1. eapply V_lone; eauto.
      * eapply IHg with (nf := true). eapply I_yvarloop; [assumption|].
        intros y Hy. apply in_map_iff in Hy. destruct Hy as ([b combo] & <- & Hin).
        exists combo. split; [constructor|]. split.
        -- intros parts t Ha Hg. apply H0. eapply All_Glued_choice; eauto; congruence.
        -- intros pre v pst parts t -> Ha Hv Hg. apply H0.
           destruct (bound_combos_In _ _ _ _ _ Hin) as (-> & Hnd & Hi & Hb).
           destruct (NoDup_incl_perm _ _ Hnd Hi) as (rest & Hp).
           eapply B_cut with (sel := pre) (v := v) (sel' := pst); eauto.
           now apply single_wildcard_None.
    + destruct samplers as [|y ys].
      * eapply IHg. eapply I_yvarloop; [assumption|]. intros y [].
      * destruct (H0 y (or_introl eq_refl)) as (combo & Hy & Hfull & Hcut).
        eapply post_bind; [eapply post_pep; eapply IHyc; eauto|].
        intros [arr y'] r' [Ha Hy']. cbn [fst snd] in *. split; cbn.
        -- destruct Ha as [Ha|(pre & v & pst & -> & Ha & Hv)].
           ++ eapply Hfull; [exact Ha|apply joined_Glued].
           ++ eapply Hcut; [reflexivity|exact Ha|exact Hv|apply joined_Glued].
        -- eapply I_yvarloop; [assumption|]. intros y0 Hin. apply in_app_iff in Hin.
           destruct Hin as [Hin|[<-|[]]]; [apply H0; now right|].
           exists combo. split; [assumption|split; assumption].
    + (* cyclical wildcard *)
      eapply post_bind; [eapply post_pep; eapply sample_path_ok; eauto|].
      intros path r' Hpa. cbn beta zeta.
      assert (Hsc : scope_of (with_method Cyclical (with_variables vars c)) = scope_of (with_variables vars c)).
      { unfold scope_of. cbn. destruct vars; cbn; now rewrite H. }
      pose proof (with_variables_Extended vars c) as Hext. rewrite <- Hsc in Hext.
      destruct (env_lookup E path) as [|it items] eqn:Hl.
      * eapply IHg. apply I_fallback. intros name t Hn1 Hn2 Hw. apply H0.
        eapply B_missing; eauto.
      * eapply post_bind.
        { eapply post_impl; [eapply sample_all_ok with (P := P)|intros a Ha; exact Ha|].
          - intros v u Hd (cmd & t & Hr & Hpr & Ht). apply H0.
            eapply B_wild with (v := v); eauto.
            ++ congruence.
            ++ cbn. rewrite Hl. apply Drawable_listed; [congruence|exact Hd].
            ++ destruct vars; exact Ht.
          - intros []. }
        intros gens r'' [Hlen Hg]. cbn beta.
        eapply IHg. eapply I_ywildloop; [exact Hg|].
        intros ->. apply H1. eapply V_wild; eauto; [congruence|].
        destruct (iterate_weighted (it :: items)) eqn:Hit; [|discriminate].
        rewrite Hl, <- Hit, pairs_item_pairs. apply iterate_weighted_Listed.
    + destruct gens as [|g gs]; [cbn; auto|].
      destruct (H g (or_introl eq_refl)) as (nf & P0 & V0 & Hi & Hs).
      eapply post_bind; [eapply post_pep; apply IHg; exact Hi|].
      intros [t g'] r' [Ht Hg']. cbn in Ht, Hg'. split; cbn; [auto|].
      eapply I_ywildloop.
      * intros g0 Hin. apply in_app_iff in Hin. destruct Hin as [Hin|[<-|[]]]; [apply H; now right|].
        eauto.
      * intros Hnil. apply app_eq_nil in Hnil. destruct Hnil. discriminate.
    + (* fallback *)
      eapply post_bind with (Q1 := fun name => (forall s, w = WStr s -> name = s) /\
        (forall cmd, w = WCmd cmd -> Path E (scope_of c) w name)).
      * destruct w as [s|cmd].
        -- cbn. split; [congruence|discriminate].
        -- eapply post_pep. eapply post_impl; [eapply sample_path_ok; eauto| |exact (fun x => x)].
           intros name Hn. split; [discriminate|auto].
      * intros name r' [Hn1 Hn2]. cbn beta. apply IHg. constructor.
        eapply H; eauto. apply to_wildcard_Wrapped.
    + eapply post_bind; [eapply post_impl; [apply IHg; exact H|intros a Ha; exact Ha|assumption]|].
      intros [t g'] r' [Ht Hg']. cbn in *. split; cbn; [auto|].
      eapply I_squash; [exact Hg'|auto|assumption].
    + destruct k as [|k]; [assumption|].
      eapply post_bind; [eapply post_impl; [apply IHg; exact H0|intros a Ha; exact Ha|auto]|].
      intros [t g'] r' [Ht Hg']. cbn in *. split; cbn; [auto|].
      eapply I_slice; [reflexivity|exact Hg'|assumption].
  - (* get_sequence *)
    intros c cmds coll cs r Hm Hc H. destruct H; unfold_next G E.
    + destruct cmds as [|cmd cmds].
      { split; cbn; [assumption|]. split; constructor. }
      destruct (is_nonfinite (effective_method c cmd)) eqn:He.
      * eapply IHcs; [assumption|assumption|]. constructor; [assumption|constructor].
      * eapply post_bind; [apply post_mk; intros g Hg; exact (inv_mk _ _ _ _ Hg)|].
        intros g r' (nf & V & Hi & _). cbn beta.
        eapply IHcs; [assumption|assumption|]. econstructor; exact Hi.
    + eapply post_bind; [eapply IHcs; eauto|].
      intros [x coll'] r' [Hc' Hx]. cbn beta iota. cbn [fst snd] in *.
      destruct x as [[arr cs']|]; [|split; cbn; auto].
      destruct Hx as [Ha Hcs].
      eapply post_bind; [eapply get_value_ok; eauto|].
      intros [v coll''] r'' [Hc'' (t & Hv & Ht)]. cbn [fst snd] in *. subst v. cbn.
      split; cbn; [assumption|]. split; [now constructor|]. now constructor.
    + pose proof (IHg _ _ _ _ r H) as Hx.
      destruct (next G E n g r) as [[t g'] r'|r'|e r'|]; cbn in Hx; try exact I.
      * destruct Hx as [Ht Hg']. cbn in *. eapply IHcs; [assumption|assumption|].
        econstructor; [exact Hg'|exact Ht|constructor].
      * split; cbn; auto.
    + eapply post_bind; [eapply IHcs; eauto|].
      intros [x coll'] r' [Hc' Hx]. cbn beta iota. cbn [fst snd] in *.
      destruct x as [[arr cs']|].
      * destruct Hx as [Ha Hcs]. split; cbn; [assumption|]. split; [now constructor|].
        econstructor; eassumption.
      * eapply IHcs; [assumption|assumption|]. econstructor; eassumption.
    + split; cbn; auto.
  - intros c cmds st r H. destruct H; unfold_next G E.
    + destruct cmds as [|cmd cmds]; [split; cbn; constructor|].
      eapply post_bind; [apply post_mk; intros g Hg; exact (inv_mk _ _ _ _ Hg)|].
      intros g r' (nf & V & Hi & _). cbn beta.
      destruct (is_nonfinite (effective_method c cmd)); eapply IHcp.
      * econstructor; [exact Hi|constructor].
      * econstructor; exact Hi.
    + eapply post_bind; [eapply IHcp; eassumption|].
      intros [arr rest'] r' [Ha Hr]. cbn beta iota. cbn [fst snd] in *.
      eapply post_bind; [eapply post_pep; apply IHg; eassumption|].
      intros [t g'] r'' [Ht Hg']. cbn in *. split; cbn; [now constructor|]. econstructor; eassumption.
    + eapply post_bind; [eapply post_impl; [apply IHg; eassumption|intros a Ha; exact Ha|auto]|].
      intros [t g'] r' [Ht Hg']. cbn in Ht, Hg'. cbn beta iota. eapply IHcp.
      econstructor; [exact Hg'|exact Ht|constructor].
    + pose proof (IHcp _ _ _ r H1) as Hx.
      destruct (next_cp G E n c rest r) as [[arr rest'] r'|r'|e r'|]; cbn in Hx; try exact I.
      * destruct Hx as [Ha Hr]. cbn in *. split; cbn; [now constructor|]. econstructor; eassumption.
      * eapply IHcp. econstructor; eassumption.
    + exact I.
  - intros c cmds st r Hm H. destruct H; unfold_next G E.
    + destruct cmds as [|cmd cmds]; [eapply IHyc; [assumption|constructor]|].
      eapply post_bind; [apply post_mk; intros g Hg; exact (inv_mk _ _ _ _ Hg)|].
      intros g r' (nf & V & Hi & Hn). cbn beta.
      destruct Hn as [-> Hv]; [apply chosen_nonfinite; rewrite Hm; reflexivity|].
      eapply IHyc; [assumption|]. econstructor; [exact Hi|exact Hv|constructor].
    + split; cbn; [left; constructor|constructor].
    + eapply post_bind; [eapply IHyc; eassumption|].
      intros [arr rest'] r' [Ha Hr]. cbn beta iota. cbn [fst snd] in *.
      pose proof (IHg _ _ _ _ r' H) as Hx.
      destruct (next G E n g r') as [[t g'] r''|r''|e r''|]; cbn in Hx; try exact I.
      * destruct Hx as [Ht Hg']. cbn in *. split; cbn.
        -- destruct Ha as [Ha|(pre & v & pst & -> & Ha & Hv)].
           ++ left. now constructor.
           ++ right. exists (cmd :: pre), v, pst. split; [reflexivity|]. split; [now constructor|assumption].
        -- econstructor; [exact Hg'|discriminate|assumption].
      * split; cbn; [|constructor]. right. exists [], cmd, cmds.
        split; [reflexivity|]. split; [constructor|auto].
    + exact I.
Qed.
End Inv.
