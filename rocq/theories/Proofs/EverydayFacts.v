(** Everyday templates that come out of the parser can always be served. *)
From Coq Require Import String NArith ZArith QArith Qcanon Bool Arith List Sorted Lia.
From Verif.Model Require Import Str Utils Command Rng Values Context Sampler Parser Generators.
From Verif.Spec Require Import Text Comb Items Names Lookup Syntax Shape Lang Sure Everyday.
From Verif.Proofs Require Import StrFacts UtilsFacts CommandFacts DictFacts ValuesFacts EnumFacts ServeFacts ShapeFacts.
Import ListNotations.
Local Open Scope nat_scope.

(** What is used of the shape: variants have options and no negative bound. *)
Inductive Sized : command -> Prop :=
| Sized_lit : forall s m, Sized (Lit s m)
| Sized_seq : forall cs sep m, Forall Sized cs -> Sized (Seq cs sep m)
| Sized_var : forall vs lo hi sep m, vs <> [] -> (0 <= Z.max lo hi)%Z ->
    Forall (fun v => Sized (fst v)) vs -> Sized (Var vs lo hi sep m)
| Sized_access : forall x d, (forall c, d = Some c -> Sized c) -> Sized (Access x d)
| Sized_assign : forall x c i o, Sized c -> Sized (Assign x c i o)
| Sized_wrap : forall w i m, Sized w -> Sized i -> Sized (Wrap w i m)
| Sized_wild : forall p m vars, Forall (fun kv => Sized (snd kv)) vars -> Sized (Wild p m vars).

Fixpoint shaped_sized p c (H : Shaped p c) {struct H} : Sized c
with piece_sized p c (H : Piece p c) {struct H} : Sized c.
Proof.
  - destruct H as [p c H|p cs Hl Hf Ha].
    + exact (piece_sized p c H).
    + constructor. clear Hl Ha. induction Hf; constructor; eauto.
  - destruct H as [p t Ht|p vs lo hi sep m Hn Hb Hs Hf|p x d Hp Hx Hd|x t Hx|x c i o Hx Hc|p w i Hp Hw Hi|p path m vars Hp H1 H2 Hs Hf].
    + constructor.
    + constructor; [exact Hn|lia|]. clear Hn. induction Hf; constructor; eauto.
    + constructor. intros c Hc. exact (shaped_sized _ _ (Hd c Hc)).
    + constructor. intros c Hc. injection Hc as <-. constructor.
    + constructor. exact (shaped_sized _ _ Hc).
    + constructor; [exact (shaped_sized _ _ Hw)|exact (shaped_sized _ _ Hi)].
    + constructor. clear Hs. induction Hf; constructor; eauto.
Qed.

Section Serve.
Variable E : env.
Hypothesis HE : forall s c, env_parse E s = Ok c -> Sized c.

Lemma names_path : forall sq sc name path, NamesPath E sq name path -> sc_squash sc = sq ->
  exists s, Reads E (WStr name) (Lit s None) /\ forall p, Path E sc (WStr name) p -> p = path.
Proof.
  intros sq sc name path (Hn & s & Hs & Ht) Hq. exists s. split; [constructor; auto|].
  intros p Hp. inversion Hp as [sc' w c t u Hr Hpr Htt]; subst.
  inversion Hr as [s' c' _ Hs'|]; subst. rewrite Hs in Hs'. injection Hs' as <-.
  inversion Hpr as [sc' c' t' Hb]; subst. inversion Hb; subst.
  apply Tidy_fun in Ht, Htt. congruence.
Qed.

(** All variables of the scope have everyday values that use no variables;
    the known ones are defined. *)
Definition Good (sq : bool) (k : known) (sc : scope) : Prop :=
  sc_squash sc = sq /\
  (forall x v, sc_var sc x = Some v ->
     Nonempty v /\ forall m busy sc', m <> Combinatorial -> sc_method sc' = m -> sc_squash sc' = sq -> Sure E sc' busy v) /\
  (forall K x, k = Some K -> K x -> sc_var sc x <> None).

Definition Safe (sq : bool) (k : known) (m : method) (cmd : command) : Prop :=
  m <> Combinatorial -> Sized cmd ->
  forall sc busy, sc_method sc = m -> sc_squash sc = sq ->
    (k = None \/ (Good sq k sc /\ busy = [])) -> Sure E sc busy cmd.

Lemma resolve_endless : forall m mk, m <> Combinatorial -> resolve m mk <> Combinatorial.
Proof. intros m [[| |]|] H; cbn; congruence. Qed.
Lemma enter_same : forall sc c, mark_of c = None -> enter sc c = sc.
Proof. intros [m sq va un] c H. unfold enter. rewrite H. reflexivity. Qed.
Lemma clamp_top : forall n a b, (a <= b)%Z -> (0 <= clamp n a <= clamp n b)%Z /\ (clamp n b <= Z.of_nat n)%Z.
Proof. intros n a b H. unfold clamp. lia. Qed.

Lemma NoDup_first : forall (l : list command) k, NoDup l -> NoDup (firstn k l).
Proof.
  intros l k Hn. revert k. induction Hn as [|a l Ha Hn IH]; intros [|k]; cbn; try constructor; auto.
  intros Hin. apply Ha. rewrite <- (firstn_skipn k l). apply in_or_app; left; exact Hin.
Qed.
Lemma selection_exists : forall (opts : list (command * Qc)) lo hi, NoDup (map fst opts) ->
  exists k sel, (clamp (length opts) (Z.min lo hi) <= Z.of_nat k <= clamp (length opts) (Z.max lo hi))%Z /\
    Selection k (map fst opts) sel.
Proof.
  intros opts lo hi Hn. set (k := Z.to_nat (clamp (length opts) (Z.max lo hi))).
  assert (Hk : (Z.of_nat k = clamp (length opts) (Z.max lo hi))%Z /\ k <= length opts).
  { unfold k, clamp. lia. }
  exists k, (firstn k (map fst opts)). split; [unfold clamp in *; lia|]. split; [|split].
  - rewrite firstn_length, map_length. lia.
  - apply NoDup_first, Hn.
  - intros v Hv. rewrite <- (firstn_skipn k (map fst opts)). apply in_or_app; left; exact Hv.
Qed.
Lemma options_sized : forall path opts, OptionsOf E path opts -> Forall (fun v => Sized (fst v)) opts.
Proof.
  intros path opts (vals & cmds & _ & Hf & ->). induction Hf as [|v c vals cmds H Hf IH]; cbn; constructor; auto.
  cbn. eapply HE, H.
Qed.

Lemma everyday_safe : forall sq k m cmd, Everyday E sq k m cmd -> Safe sq k m cmd.
Proof.
  intros sq k m cmd H. induction H as
    [k m s mk
    |k m tokens sep mk Hne _ IHv _ IHt
    |k m opts lo hi sep mk Hm Hl Hq _ IH
    |k m opts lo hi sep mk Hm Hl Hn _ IH
    |k m name path mw vars q lo hi sep mk opts n Hp Ho Hne Hn _ IH
    |k m name path mk vars Hp Hne _ IHv Hq Hd Hr _ IH
    |K m x d Hx
    |K m x v Hnv _ IH
    |k m w i mk Hm _ IHw _ IHi]; intros Hend Hsz sc busy Hsc Hsq Hk; constructor.
  - apply Sure_lit. cbn. rewrite Hsc. now apply resolve_endless.
  - assert (Hend' : resolve m mk <> Combinatorial) by now apply resolve_endless.
    inversion Hsz as [|? ? ? Hall| | | | |]; subst. rewrite Forall_forall in Hall.
    assert (Hval : forall x v imm ovr, In (Assign x v imm ovr) tokens -> forall m' busy' sc', m' <> Combinatorial ->
              sc_method sc' = m' -> sc_squash sc' = sc_squash sc -> Sure E sc' busy' v).
    { intros x v imm ovr Hin m' busy' sc' Hm' Hs1 Hs2. apply (IHv x v imm ovr m' Hin Hm' Hm'); auto.
      specialize (Hall _ Hin). inversion Hall; assumption. }
    apply Sure_seq.
    + exact Hend'.
    + intros x v ovr Hin _. apply (Hval x v true ovr Hin (resolve (sc_method sc) mk)); auto.
    + intros sc' toks tok (Hs1 & Hs2 & _) Hb Hpl Hin. cbn in Hs1, Hs2.
      assert (Htok : In tok tokens /\ ~ is_assign tok).
      { clear - Hpl Hin. induction Hpl as [|? ? ? ? ts ps Hp IH|c ts ps Hc Hp IH]; [destruct Hin| |].
        - destruct (IH Hin). split; [now right|assumption].
        - destruct Hin as [<-|Hin]; [split; [now left|assumption]|]. destruct (IH Hin). split; [now right|assumption]. }
      destruct Htok as [Htok Hna]. apply (IHt tok Htok Hna Hend' (Hall _ Htok)); auto.
      destruct Hk as [->|[(Hg1 & Hg2 & Hg3) ->]]; [left; reflexivity|right]. split; [|reflexivity].
      split; [exact Hs2|]. split.
      * intros x v Hv. specialize (Hb x).
        assert (Hla : forall v' i o, LastAssign x tokens v' i o -> In (Assign x v' i o) tokens).
        { intros v' i o (pre & post & -> & _). apply in_or_app; right; left; reflexivity. }
        rewrite Hv in Hb. clear Hv. remember (Some v) as o eqn:Eo. remember (enter sc (Seq tokens sep mk)) as sc0 eqn:E0.
        destruct Hb as [sc0 ts x Hn|sc0 ts x v1 imm v0 Hla1 Hv0|sc0 ts x v1 ovr Hla1 _|sc0 ts x s1 m1 ovr Hla1 _|sc0 ts x v1 ovr t Hla1 _ _ _]; subst sc0; cbn [enter sc_var] in *.
        -- now apply Hg2 with (x := x).
        -- injection Eo as ->. now apply Hg2 with (x := x).
        -- injection Eo as ->. apply Hla in Hla1. split; [eapply Hne, Hla1|].
           intros m' busy' sc'' Hm' Hs1' Hs2'. eapply Hval; eauto.
        -- injection Eo as <-. split; [split; discriminate|].
           intros m' busy' sc'' Hm' Hs1' Hs2'. constructor. constructor. cbn. rewrite Hs1'. now apply resolve_endless.
        -- injection Eo as <-. split; [split; discriminate|].
           intros m' busy' sc'' Hm' Hs1' Hs2'. constructor. constructor. cbn. rewrite Hs1'. exact Hm'.
      * intros K x HK Hx. destruct k as [K0|]; [|discriminate HK]. injection HK as <-. specialize (Hb x).
        assert (Hout : NoAssign x tokens -> sc_var sc x <> None).
        { intros Hn. destruct Hx as [Hx|(v & i & o & Hx)]; [eapply Hg3; [reflexivity|exact Hx]|destruct (Hn _ _ _ Hx)]. }
        remember (sc_var sc' x) as o eqn:Eo. clear Eo. remember (enter sc (Seq tokens sep mk)) as sc0 eqn:E0.
        destruct Hb as [sc0 ts x Hn| | | |]; try discriminate. subst sc0. exact (Hout Hn).
  - inversion Hsz as [| |vs' lo' hi' sep' m' Hvs Hb Hall| | | |]; subst. rewrite Forall_forall in Hall.
    apply Sure_random; auto.
    intros v q Hin. apply (IH v q Hin); [discriminate|exact (Hall _ Hin)|exact Hm|reflexivity|].
    destruct Hk as [->|[(Hg1 & Hg2 & Hg3) ->]]; [left; reflexivity|right]. split; [|reflexivity].
    split; [exact Hg1|split; assumption].
  - inversion Hsz as [| |vs' lo' hi' sep' m' Hvs Hb Hall| | | |]; subst. rewrite Forall_forall in Hall.
    destruct (selection_exists opts lo hi Hn) as (kk & sel & Hkk & Hsel).
    apply Sure_cyclical with (k := kk) (sel := sel); auto.
    intros v q Hin. apply (IH v q Hin); [discriminate|exact (Hall _ Hin)|exact Hm|reflexivity|].
    destruct Hk as [->|[(Hg1 & Hg2 & Hg3) ->]]; [left; reflexivity|right]. split; [|reflexivity].
    split; [exact Hg1|split; assumption].
  - set (sc1 := enter sc (Var [(Wild (WStr name) mw vars, q)] lo hi sep mk)).
    assert (Hend' : resolve m mk <> Combinatorial) by now apply resolve_endless.
    assert (Hs1 : sc_method sc1 = resolve m mk) by (cbn; rewrite Hsc; reflexivity).
    destruct (names_path sq sc1 name path Hp Hsq) as (s & Hr & Hu).
    assert (Hn0 : (0 < Z.of_nat (length (env_lookup E path)))%Z).
    { destruct Ho as (vals & cmds & Hl & Hf & ->). destruct (env_lookup E path); [|cbn; lia].
      cbn in Hl. inversion Hl; subst. inversion Hf; subst. now elim Hne. }
    inversion Hsz as [| |vs' lo' hi' sep' m' Hvs Hb Hall| | | |]; subst.
    apply Sure_lone with (path_cmd := Lit s None) (opts := fun _ => opts); auto.
    + constructor. constructor. exact Hend'.
    + intros p Hpp. rewrite (Hu p Hpp). exact Ho.
    + intros p n Hpp ->. rewrite (Hu p Hpp).
      assert (HS : Sure E sc1 busy (Var opts (Z.max 0 (Z.min (Z.min lo hi) (Z.of_nat (length (env_lookup E path)))))
                (Z.min (Z.max lo hi) (Z.of_nat (length (env_lookup E path)))) sep None)).
      { apply IH; auto. constructor; [exact Hne|lia|]. eapply options_sized, Ho. }
      inversion HS as [? ? ? HSB]; subst. rewrite enter_same in HSB by reflexivity. exact HSB.
  - set (sc1 := enter sc (Wild (WStr name) mk vars)).
    assert (Hend' : resolve m mk <> Combinatorial) by now apply resolve_endless.
    assert (Hs1 : sc_method sc1 = resolve m mk) by (cbn; rewrite Hsc; reflexivity).
    destruct (names_path sq sc1 name path Hp Hsq) as (s & Hrd & Hu).
    inversion Hsz as [| | | | | |? ? ? Hall]; subst. rewrite Forall_forall in Hall.
    apply Sure_wild with (path_cmd := Lit s None)
      (meaning := fun v => match env_parse E v with Ok c => c | Err _ => Lit [] None end); auto.
    + constructor. constructor. exact Hend'.
    + intros p Hpp Hf Hm. rewrite (Hu p Hpp) in *. apply Hq; auto.
    + intros p Hpp Hf. rewrite (Hu p Hpp) in *. rewrite Hs1. auto.
    + intros p v Hpp Hdr. rewrite (Hu p Hpp), Hs1 in Hdr. destruct (Hr v Hdr) as (Hv & c & Hc). rewrite Hc.
      constructor; auto.
    + intros p sc' v Hpp ((Hx1 & Hx2 & _) & Hx) Hdr. rewrite (Hu p Hpp), Hs1 in Hdr. destruct (Hr v Hdr) as (Hv & c & Hc).
      rewrite Hc. apply (IH v c Hdr Hc Hend' (HE _ _ Hc)); [rewrite Hx1; exact Hs1|exact Hx2|].
      destruct Hk as [->|[(Hg1 & Hg2 & Hg3) ->]]; [left; reflexivity|right]. split; [|reflexivity].
      split; [exact Hx2|]. split.
      * intros x w Hw. destruct (Hx x) as [(pre & w' & post & -> & _ & Hw')|(_ & Hw')].
        -- rewrite Hw in Hw'. injection Hw' as ->.
           assert (Hin : In (x, w') (pre ++ (x, w') :: post)) by (apply in_or_app; right; left; reflexivity).
           split; [eapply Hne, Hin|]. intros m' busy' sc'' Hm' Ha1 Ha2. apply (IHv x w' m' Hin Hm' Hm'); auto.
           exact (Hall _ Hin).
        -- apply Hg2 with (x := x). rewrite <- Hw. symmetry. exact Hw'.
      * intros K x HK HKx. destruct k as [K0|]; [|discriminate HK]. injection HK as <-.
        destruct (Hx x) as [(pre & w' & post & _ & _ & Hw')|(Hnin & Hw')]; [congruence|].
        rewrite Hw'. destruct HKx as [HKx|HKx]; [|contradiction]. exact (Hg3 K0 x eq_refl HKx).
    + intros p sc' c _ _ _ Hc. discriminate Hc.
  - destruct Hk as [Hk|[(Hg1 & Hg2 & Hg3) ->]]; [discriminate Hk|].
    specialize (Hg3 K x eq_refl Hx). destruct (sc_var sc x) as [v|] eqn:Hv; [|congruence].
    destruct (Hg2 x v Hv) as [Hnv HS]. rewrite enter_same by reflexivity.
    apply Sure_access with (v := v); [apply Refers_var; auto|intros []|]. apply (HS m); auto.
  - destruct Hk as [Hk|[(Hg1 & Hg2 & Hg3) ->]]; [discriminate Hk|]. rewrite enter_same by reflexivity.
    destruct (sc_var sc x) as [w|] eqn:Hv.
    + destruct (Hg2 x w Hv) as [Hnw HS].
      apply Sure_access with (v := w); [apply Refers_var; auto|intros []|]. apply (HS m); auto.
    + apply Sure_access with (v := v); [eapply Refers_default; eauto|intros []|].
      inversion Hsz as [| | |? ? Hd| | |]; subst. apply IH; auto.
  - inversion Hsz; subst. assert (Hr : sc_method (enter sc (Wrap w i mk)) = Random) by exact Hm.
    apply Sure_wrap; [exact Hr| |].
    + apply IHw; [discriminate|assumption|exact Hr|reflexivity|]. destruct Hk as [->|[(Hg1 & Hg2 & Hg3) ->]]; [left; reflexivity|right].
      split; [|reflexivity]. split; [exact Hg1|split; assumption].
    + apply IHi; [discriminate|assumption|exact Hr|reflexivity|]. destruct Hk as [->|[(Hg1 & Hg2 & Hg3) ->]]; [left; reflexivity|right].
      split; [|reflexivity]. split; [exact Hg1|split; assumption].
Qed.
End Serve.

Lemma everyday_served : forall G alnum C E c template cmd num seeds r,
  (forall s, env_parse E s = parse alnum C s) ->
  template <> [] -> parse alnum C template = Ok cmd ->
  c_method c <> Combinatorial -> c_vars c = [] -> c_busy c = [] ->
  Everyday E (c_ignws c) no_names (c_method c) cmd -> Usable num seeds ->
  exists n ts r', (forall m, n <= m -> random_generate G E m c template num seeds r = Ret ts r') /\ length ts = num.
Proof.
  intros G alnum C E c template cmd num seeds r HE Ht Hp Hm Hv Hb He Hu.
  assert (HS : forall s c, env_parse E s = Ok c -> Sized c).
  { intros s c' H. rewrite HE in H. eapply shaped_sized, parse_shaped, H. }
  apply (sure_generate G E c template cmd num seeds r); auto.
  - constructor; [exact Ht|]. rewrite HE. exact Hp.
  - apply (everyday_safe E HS _ _ _ _ He); auto.
    + eapply shaped_sized, parse_shaped, Hp.
    + right. split; [|exact Hb]. split; [reflexivity|]. cbn. rewrite Hv. cbn. split; [discriminate|].
      intros K x HK. injection HK as <-. intros [].
Qed.
