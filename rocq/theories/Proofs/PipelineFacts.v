(** The shared pipeline of the generators that use a language model. *)
From Coq Require Import String NArith Bool Arith List Lia.
From Verif.Model Require Import Str Rng Command Context Magic.
From Verif.Spec Require Import Text Magic.
From Verif.Proofs Require Import StrFacts.
Import ListNotations.
Local Open Scope nat_scope.

Lemma snoc_inv : forall {A} (l l' : list A) x y, l ++ [x] = l' ++ [y] -> l = l' /\ x = y.
Proof. intros. now apply app_inj_tail. Qed.
Lemma snoc_cases : forall {A} (l : list A), l = [] \/ exists l' x, l = l' ++ [x].
Proof. intros A l. destruct l using rev_ind; [now left|right]. eauto. Qed.

Lemma Runs_snoc_same : forall l t n, Runs (l ++ [t]) n -> Runs (l ++ [t; t]) n.
Proof.
  induction l as [|u l IH]; intros t n H; cbn in *.
  - now constructor.
  - destruct l as [|v l]; cbn in *.
    + inversion H; subst; constructor; try assumption; now apply (IH t).
    + inversion H; subst; constructor; try assumption; now apply IH.
Qed.
Lemma Runs_snoc_new : forall l t u n, t <> u -> Runs (l ++ [t]) n -> Runs (l ++ [t; u]) (S n).
Proof.
  induction l as [|v l IH]; intros t u n Hn H; cbn in *.
  - inversion H; subst. constructor; [assumption|constructor].
  - destruct l as [|w l]; cbn in *.
    + inversion H; subst; constructor; try assumption; now apply IH.
    + inversion H; subst; constructor; try assumption; now apply IH.
Qed.

Section Facts.
Context {device : Type}.
Notation call := (magic_call device).
Notation hist := (list (call * magic_answer)).

Inductive Hist : hist -> magics device -> Prop :=
| Hist_nil : Hist [] no_magics
| Hist_snoc : forall h s x a s', Hist h s -> magic_step x s = Some (a, s') -> Hist (h ++ [(x, a)]) s'.

Lemma run_hist : forall xs h s l s', Hist h s -> magic_run xs s = Some (l, s') ->
  length l = length xs /\ Hist (h ++ combine xs l) s'.
Proof.
  induction xs as [|x xs IH]; intros h s l s' Hh H; cbn in H.
  - injection H as <- <-. cbn. now rewrite app_nil_r.
  - destruct (magic_step x s) as [[a s1]|] eqn:E; [|discriminate].
    destruct (magic_run xs s1) as [[l1 s2]|] eqn:E'; [|discriminate]. injection H as <- <-.
    destruct (IH _ _ _ _ (Hist_snoc _ _ _ _ _ Hh E) E') as [E1 E2].
    split; [cbn; now rewrite E1|]. cbn. now rewrite <- app_assoc in E2.
Qed.

(** The pipeline a streak gives. *)
Definition Pipe (a : hist) (s : call * magic_answer) (o : option (pipeline device)) : Prop :=
  exists n, Runs (map (fun e => asked (fst e)) a) n /\
    (loadable (fst s) -> exists d, FromDevice a (fst s) d /\
      o = Some {| p_model := asked (fst s); p_device := d; p_serial := n |}) /\
    (~ loadable (fst s) -> o = None).

Record Inv (h : hist) (s : magics device) : Prop := {
  i_runs : Runs (map (fun e => asked (fst e)) h) (k_loads (g_class s));
  i_start : h = [] -> k_name (g_class s) = None;
  i_name : forall h' e, h = h' ++ [e] -> k_name (g_class s) = Some (asked (fst e));
  i_pipe : forall a e, Streak h a e -> Pipe a e (k_pipeline (g_class s));
  i_dev : forall i g, nth_error (g_all s) i = Some g ->
    exists name ok args, In (MakeMagic name (g_device g) ok args, MadeMagic i) h;
  i_used : forall i a e, GotLast h i a e -> exists g, nth_error (g_all s) i = Some g /\
    forall a' e', Streak (a ++ [e]) a' e' -> Pipe a' e' (g_pipeline g)
}.

Lemma Streak_snoc : forall (h : hist) y a s, Streak (h ++ [y]) a s ->
  (a = h /\ s = y /\ forall a' x, h = a' ++ [x] -> asked (fst x) <> asked (fst y)) \/
  (Streak h a s /\ asked (fst y) = asked (fst s) /\
   exists h' z, h = h' ++ [z] /\ asked (fst z) = asked (fst y)).
Proof.
  intros h y a s (b & E & Hb & Ha).
  destruct (snoc_cases b) as [->|(b' & z & ->)].
  - apply snoc_inv in E as [-> ->]. left. auto.
  - right. replace (a ++ s :: b' ++ [z]) with ((a ++ s :: b') ++ [z]) in E by now rewrite <- app_assoc.
    apply snoc_inv in E as [-> ->].
    assert (Ez : asked (fst z) = asked (fst s)) by (apply Hb; rewrite in_app_iff; right; now left).
    split.
    { exists b'. repeat split; [|exact Ha]. intros x Hx. apply Hb. rewrite in_app_iff. now left. }
    split; [assumption|].
    destruct (snoc_cases b') as [->|(b'' & w & ->)].
    + exists a, s. split; [reflexivity|now symmetry].
    + exists (a ++ s :: b''), w. split; [now rewrite <- app_assoc|].
      rewrite Ez. apply Hb. rewrite !in_app_iff. left. right. now left.
Qed.

Lemma step_class : forall h s dev name (ok : bool) o k' (x : call) (ans : magic_answer),
  Inv h s -> set_model dev name ok (g_class s) = (o, k') ->
  asked x = name -> (loadable x <-> ok = true) -> FromDevice h x dev ->
  Runs (map (fun e => asked (fst e)) (h ++ [(x, ans)])) (k_loads k') /\
  k_name k' = Some name /\
  (forall a e, Streak (h ++ [(x, ans)]) a e -> Pipe a e (k_pipeline k')) /\
  (forall p, o = Ok p -> p = k_pipeline k').
Proof.
  intros h s dev name ok o k' x ans I E Hx Hok Hd. unfold set_model in E.
  destruct (match k_name (g_class s) with Some n => str_eqb name n | None => false end) eqn:En.
  - injection E as <- <-.
    destruct (k_name (g_class s)) as [n|] eqn:Ek; [|discriminate].
    apply str_eqb_eq in En. subst n.
    destruct (snoc_cases h) as [->|(h' & z & ->)].
    { pose proof (i_start _ _ I eq_refl). congruence. }
    pose proof (i_name _ _ I _ _ eq_refl) as Ez. rewrite Ek in Ez. injection Ez as Ez.
    split; [|split; [first [reflexivity|congruence]|split]].
    + rewrite map_app. cbn. rewrite map_app. cbn. rewrite <- app_assoc. cbn.
      rewrite Hx, Ez. apply Runs_snoc_same. pose proof (i_runs _ _ I) as H. rewrite map_app in H. cbn in H. exact H.
    + intros a e Hs. apply Streak_snoc in Hs as [(-> & -> & Hs)|(Hs & _)].
      * exfalso. apply (Hs _ _ eq_refl). cbn. congruence.
      * now apply (i_pipe _ _ I).
    + now intros p [= <-].
  - unfold load_pipeline in E. cbn in E.
    assert (Hlast : forall h' z, h = h' ++ [z] -> asked (fst z) <> name).
    { intros h' z Eh Ez. rewrite (i_name _ _ I _ _ Eh), Ez in En.
      apply Bool.not_true_iff_false in En. apply En. now apply str_eqb_eq. }
    assert (HR : Runs (map (fun e => asked (fst e)) (h ++ [(x, ans)])) (S (k_loads (g_class s)))).
    { destruct (snoc_cases h) as [->|(h' & z & ->)].
      - pose proof (i_runs _ _ I) as H. cbn in H. inversion H. cbn. constructor.
      - rewrite map_app. cbn. rewrite map_app, <- app_assoc. cbn. apply Runs_snoc_new.
        + rewrite Hx. now apply (Hlast _ _ eq_refl).
        + pose proof (i_runs _ _ I) as H. rewrite map_app in H. cbn in H. exact H. }
    assert (Hpipe : forall o', (ok = true -> o' = Some {| p_model := name; p_device := dev; p_serial := k_loads (g_class s) |}) ->
              (ok = false -> o' = None) -> forall a e, Streak (h ++ [(x, ans)]) a e -> Pipe a e o').
    { intros o' H1 H2 a e Hs. apply Streak_snoc in Hs as [(-> & -> & Hs)|(_ & He & h' & z & Eh & Ez)].
      - exists (k_loads (g_class s)). cbn. split; [apply (i_runs _ _ I)|]. split.
        + intros Hl. exists dev. split; [exact Hd|]. rewrite Hx. apply H1. now apply Hok.
        + intros Hl. apply H2. destruct ok; [|reflexivity]. exfalso. apply Hl. now apply Hok.
      - exfalso. apply (Hlast _ _ Eh). rewrite Ez. exact Hx. }
    destruct ok; injection E as <- <-; cbn; (split; [exact HR|split; [reflexivity|split]]).
    + now apply Hpipe.
    + now intros p [= <-].
    + now apply Hpipe.
    + discriminate.
Qed.

Lemma GotLast_snoc : forall (h : hist) y i a e, GotLast (h ++ [y]) i a e ->
  (a = h /\ e = y /\ Gave i y) \/ (GotLast h i a e /\ ~ Gave i y).
Proof.
  intros h y i a e (b & E & Hg & Hb).
  destruct (snoc_cases b) as [->|(b' & z & ->)].
  - apply snoc_inv in E as [-> ->]. now left.
  - right. replace (a ++ e :: b' ++ [z]) with ((a ++ e :: b') ++ [z]) in E by now rewrite <- app_assoc.
    apply snoc_inv in E as [-> ->]. split.
    + exists b'. repeat split; [assumption|]. intros x Hx. apply Hb. rewrite in_app_iff. now left.
    + apply Hb. rewrite in_app_iff. right. now left.
Qed.

Lemma nth_set_magic : forall (l : list (magic device)) i j g,
  nth_error (set_magic device i g l) j =
  if Nat.eqb i j then option_map (fun _ => g) (nth_error l j) else nth_error l j.
Proof.
  induction l as [|y l IH]; intros i j g; cbn.
  - destruct i, j; cbn; try reflexivity. now destruct (Nat.eqb i j).
  - destruct i, j; cbn; try reflexivity. apply IH.
Qed.

Lemma step_inv : forall h s x a s', Inv h s -> magic_step x s = Some (a, s') -> Inv (h ++ [(x, a)]) s'.
Proof.
  intros h s x a s' I E.
  (* the instances, when [k'] is the new class state and no model was given *)
  assert (Hkeep : forall k', (forall i, ~ Gave i (x, a)) ->
            Runs (map (fun e => asked (fst e)) (h ++ [(x, a)])) (k_loads k') ->
            k_name k' = Some (asked x) ->
            (forall b e, Streak (h ++ [(x, a)]) b e -> Pipe b e (k_pipeline k')) ->
            Inv (h ++ [(x, a)]) {| g_class := k'; g_all := g_all s |}).
  { intros k' Hng H1 H2 H3. constructor; cbn; try assumption.
    - intros Eh. now apply app_eq_nil in Eh as [_ Eh].
    - intros h' e Eh. apply snoc_inv in Eh as [_ <-]. exact H2.
    - intros i g Hg. destruct (i_dev _ _ I _ _ Hg) as (n & ok & ar & Hin).
      exists n, ok, ar. rewrite in_app_iff. now left.
    - intros i b e Hl. apply GotLast_snoc in Hl as [(_ & _ & Hl)|[Hl _]]; [now apply Hng in Hl|].
      now apply (i_used _ _ I). }
  destruct x as [name dev ok args|i name ok]; cbn in E.
  - destruct (set_model dev name ok (g_class s)) as [[p|e] k'] eqn:Es.
    + destruct args; injection E as <- <-.
      * destruct (step_class h s dev name ok _ _ (MakeMagic name dev ok true) (MadeMagic (length (g_all s)))
                    I Es eq_refl (iff_refl _) eq_refl) as (H1 & H2 & H3 & H4).
        specialize (H4 p eq_refl). subst p.
        constructor; cbn; try assumption.
        -- intros Eh. now apply app_eq_nil in Eh as [_ Eh].
        -- intros h' e Eh. apply snoc_inv in Eh as [_ <-]. exact H2.
        -- intros j g Hg. destruct (Nat.lt_ge_cases j (length (g_all s))) as [Hj|Hj].
           ++ rewrite nth_error_app1 in Hg by assumption.
              destruct (i_dev _ _ I _ _ Hg) as (n & ok' & ar & Hin).
              exists n, ok', ar. rewrite in_app_iff. now left.
           ++ rewrite nth_error_app2 in Hg by assumption.
              destruct (j - length (g_all s)) as [|d] eqn:Ed; cbn in Hg; [|destruct d; discriminate].
              injection Hg as <-. cbn. exists name, ok, true. rewrite in_app_iff. right. left.
              do 2 f_equal. lia.
        -- intros j b e Hl. apply GotLast_snoc in Hl as [(-> & -> & Hl)|[Hl Hn]].
           ++ assert (j = length (g_all s)) as ->.
              { destruct Hl as [Hl|(n & o & Hl)]; cbn in Hl; [now injection Hl|discriminate]. }
              rewrite nth_error_app2, Nat.sub_diag by lia. cbn.
              eexists. split; [reflexivity|]. cbn. exact H3.
           ++ destruct (i_used _ _ I _ _ _ Hl) as (g & Hg & HP). exists g. split; [|assumption].
              rewrite nth_error_app1; [assumption|]. apply nth_error_Some. congruence.
      * destruct (step_class h s dev name ok _ _ (MakeMagic name dev ok false) (MagicRaised EValue)
                    I Es eq_refl (iff_refl _) eq_refl) as (H1 & H2 & H3 & _).
        apply Hkeep; try assumption. intros j [Hg|(n & o & Hg)]; discriminate.
    + injection E as <- <-.
      destruct (step_class h s dev name ok _ _ (MakeMagic name dev ok args) (MagicRaised e)
                  I Es eq_refl (iff_refl _) eq_refl) as (H1 & H2 & H3 & _).
      apply Hkeep; try assumption. intros j [Hg|(n & o & Hg)]; discriminate.
  - destruct (nth_error (g_all s) i) as [g|] eqn:Eg; [|discriminate].
    assert (Hd : FromDevice h (SetModel i name ok) (g_device g)) by exact (i_dev _ _ I _ _ Eg).
    destruct (set_model (g_device g) name ok (g_class s)) as [[p|e] k'] eqn:Es; injection E as <- <-.
    + destruct (step_class h s _ name ok _ _ (SetModel i name ok) ModelSet
                  I Es eq_refl (iff_refl _) Hd) as (H1 & H2 & H3 & H4).
      specialize (H4 p eq_refl). subst p.
      constructor; cbn; try assumption.
      * intros Eh. now apply app_eq_nil in Eh as [_ Eh].
      * intros h' e Eh. apply snoc_inv in Eh as [_ <-]. exact H2.
      * intros j g' Hg. rewrite nth_set_magic in Hg.
        assert (exists g0, nth_error (g_all s) j = Some g0 /\ g_device g0 = g_device g') as (g0 & H0 & Hdev).
        { destruct (Nat.eqb_spec i j) as [<-|_].
          - rewrite Eg in Hg. injection Hg as <-. eauto.
          - eauto. }
        destruct (i_dev _ _ I _ _ H0) as (n & ok' & ar & Hin).
        exists n, ok', ar. rewrite in_app_iff, <- Hdev. now left.
      * intros j b e Hl. rewrite nth_set_magic. apply GotLast_snoc in Hl as [(-> & -> & Hl)|[Hl Hn]].
        -- assert (j = i) as ->.
           { destruct Hl as [Hl|(n & o & Hl)]; cbn in Hl; [discriminate|now injection Hl]. }
           rewrite Nat.eqb_refl, Eg. cbn. eexists. split; [reflexivity|]. exact H3.
        -- destruct (Nat.eqb_spec i j) as [<-|_].
           { exfalso. apply Hn. right. now exists name, ok. }
           exact (i_used _ _ I _ _ _ Hl).
    + destruct (step_class h s _ name ok _ _ (SetModel i name ok) (MagicRaised e)
                  I Es eq_refl (iff_refl _) Hd) as (H1 & H2 & H3 & _).
      apply Hkeep; try assumption. intros j [Hg|(n & o & Hg)]; discriminate.
Qed.

Lemma hist_inv : forall h s, Hist h s -> Inv h s.
Proof.
  induction 1 as [|h s x a s' Hh IH E]; [|exact (step_inv _ _ _ _ _ IH E)].
  constructor; cbn.
  - constructor.
  - reflexivity.
  - intros h' e E. symmetry in E. now apply app_eq_nil in E as [_ E].
  - intros a e (b & E & _). symmetry in E. now apply app_eq_nil in E as [_ E].
  - intros i g Hg. destruct i; discriminate.
  - intros i a e (b & E & _). symmetry in E. now apply app_eq_nil in E as [_ E].
Qed.

Lemma run_inv : forall xs l s, magic_run xs no_magics = Some (l, s) ->
  length l = length xs /\ Inv (combine xs l) s.
Proof.
  intros xs l s H. destruct (run_hist xs [] _ _ _ Hist_nil H) as [E Hh].
  split; [assumption|]. now apply hist_inv.
Qed.

Lemma streak_exists : forall (h : hist) e, exists a s, Streak (h ++ [e]) a s /\ asked (fst s) = asked (fst e).
Proof.
  intros h. induction h as [|z h IH] using rev_ind; intros e.
  - exists [], e. split; [|reflexivity]. exists []. repeat split; [contradiction|].
    intros a' x E. symmetry in E. now apply app_eq_nil in E as [_ E].
  - destruct (list_eq_dec N.eq_dec (asked (fst z)) (asked (fst e))) as [Ez|Ez].
    + destruct (IH z) as (a & s & (b & E & Hb & Ha) & Es).
      exists a, s. split; [|congruence]. exists (b ++ [e]). rewrite E. repeat split.
      * now rewrite <- app_assoc.
      * intros x Hx. rewrite in_app_iff in Hx. destruct Hx as [Hx|[<-|[]]]; [now apply Hb|congruence].
      * exact Ha.
    + exists (h ++ [z]), e. split; [|reflexivity]. exists []. repeat split; [contradiction|].
      intros a' x E. apply snoc_inv in E as [_ <-]. assumption.
Qed.
End Facts.
