(** Rewriting a template without changing what the random numbers make of it. *)
From Coq Require Import String NArith ZArith QArith Qcanon Bool Arith List Permutation Lia.
From Verif.Model Require Import Str Utils Command Rng Values Context.
From Verif.Spec Require Import Text Comb Items Lang Draws Rolls Alike Akin Pace.
From Verif.Proofs Require Import StrFacts UtilsFacts CommandFacts RngFacts RollFacts AkinFacts.
Import ListNotations.
Local Open Scope nat_scope.

Section Pace.
Variable G : rng_impl.
Variable E : env.
Notation R := (rng_state G).
Notation Rolls := (Rolls G E). Notation RollsBody := (RollsBody G E). Notation RollsAll := (RollsAll G E).
Notation RollsPath := (RollsPath G E). Notation RollsValue := (RollsValue G E). Notation RollsBinds := (RollsBinds G E).
Notation Halts := (Halts G E). Notation HaltsBody := (HaltsBody G E). Notation HaltsPath := (HaltsPath G E).

(** The same numbers make the same of both, in all scopes. *)
Record Same (x y : command) : Prop := {
  same_nonempty : Nonempty x <-> Nonempty y;
  same_starts : forall sc busy, Starts sc busy x <-> Starts sc busy y;
  same_rolls : forall sc busy r t r', Rolls sc busy x r t r' <-> Rolls sc busy y r t r';
  same_halts : forall sc busy r r', Halts sc busy x r r' <-> Halts sc busy y r r' }.
Lemma Same_refl : forall x, Same x x.
Proof. intros x. split; intros; reflexivity. Qed.
Lemma Same_sym : forall x y, Same x y -> Same y x.
Proof. intros x y [H0 H1 H2 H3]. split; intros; symmetry; auto. Qed.
Lemma Same_trans : forall x y z, Same x y -> Same y z -> Same x z.
Proof.
  intros x y z [H0 H1 H2 H3] [K0 K1 K2 K3].
  split; intros; [now rewrite H0|now rewrite H1|now rewrite H2|now rewrite H3].
Qed.

Inductive OSame : option command -> option command -> Prop :=
| OSame_none : OSame None None
| OSame_some : forall v w, Same v w -> OSame (Some v) (Some w).
Lemma OSame_refl : forall o, OSame o o.
Proof. intros [v|]; constructor. apply Same_refl. Qed.

(** Scopes whose variables are the same in this sense. *)
Definition Scopes (sc sc' : scope) : Prop :=
  SameBut sc sc' /\ forall x, OSame (sc_var sc x) (sc_var sc' x).
Lemma Scopes_refl : forall sc, Scopes sc sc.
Proof. intros sc. split; [repeat split|intros; apply OSame_refl]. Qed.
Lemma Scopes_enter : forall sc sc' c, Scopes sc sc' -> Scopes (enter sc c) (enter sc' c).
Proof.
  intros sc sc' c [(H1 & H2 & H3) H]. split; [|exact H].
  unfold SameBut, enter. cbn. rewrite H1. auto.
Qed.
Lemma Scopes_method : forall sc sc' c, Scopes sc sc' -> sc_method (enter sc c) = Random -> sc_method (enter sc' c) = Random.
Proof. intros sc sc' c [(H1 & H2 & H3) H]. cbn. now rewrite H1. Qed.

Lemma refers : forall sc sc' x d v, Scopes sc sc' -> Refers sc x d v ->
  exists v', Refers sc' x d v' /\ Same v v'.
Proof.
  intros sc sc' x d v [(_ & _ & Hu) H] Hr. specialize (H x).
  destruct Hr as [v Hv Hn|v Hv Hd Hn|v u Hv Hn Hk|u Hv Hd Hk].
  - rewrite Hv in H. inversion H as [|a w Hs Ha Hw]; subst. exists w. split; [|exact Hs].
    apply Refers_var; [now symmetry|]. now apply (same_nonempty _ _ Hs).
  - rewrite Hv in H. inversion H as [Ha Hw|]; subst. exists v. split; [|apply Same_refl].
    apply Refers_default; auto.
  - rewrite Hv in H. inversion H as [|a w Hs Ha Hw]; subst. exists u. split; [|apply Same_refl].
    apply Refers_unknown_var with (v := w); [now symmetry| |congruence]. now rewrite <- (same_nonempty _ _ Hs).
  - rewrite Hv in H. inversion H as [Ha Hw|]; subst. exists u. split; [|apply Same_refl].
    apply Refers_unknown; auto. congruence.
Qed.

Definition Given (a b : text * command) : Prop := fst a = fst b /\ Same (snd a) (snd b).
Lemma Givens_refl : forall vars, Forall2 Given vars vars.
Proof. induction vars; constructor; auto. split; [reflexivity|apply Same_refl]. Qed.
Lemma last_of_given : forall x vars vars', Forall2 Given vars vars' -> OSame (last_of x vars) (last_of x vars').
Proof.
  intros x vars vars' H. induction H as [|[y v] [z w] r r' [Hn Hs] _ IH]; cbn [last_of]; [constructor|].
  cbn in Hn, Hs. subst z. destruct IH as [|a b Hab]; [|now constructor].
  destruct (Chance.text_dec y x); [now constructor|constructor].
Qed.
Lemma extended : forall sc sc' vars vars' sc1, Scopes sc sc' -> Forall2 Given vars vars' -> Extended sc vars sc1 ->
  exists sc1', Extended sc' vars' sc1' /\ Scopes sc1 sc1'.
Proof.
  intros sc sc' vars vars' sc1 [(H1 & H2 & H3) H] Hv [(K1 & K2 & K3) K].
  exists {| sc_method := sc_method sc1; sc_squash := sc_squash sc1; sc_unknown := sc_unknown sc1;
    sc_var := fun x => match last_of x vars' with Some v => Some v | None => sc_var sc' x end |}.
  split; split.
  - unfold SameBut. cbn. repeat split; congruence.
  - intros x. cbn. destruct (last_of x vars') as [v|] eqn:Hl.
    + left. apply last_of_some in Hl as (pre & post & -> & Hp). exists pre, v, post. auto.
    + right. split; [now apply last_of_none|reflexivity].
  - repeat split.
  - intros x. cbn. pose proof (last_of_given x _ _ Hv) as Hl.
    destruct (K x) as [(pre & v & post & Hvs & Hp & ->)|[Hn ->]].
    + assert (Hx : last_of x vars = Some v) by (apply last_of_some; now exists pre, post).
      rewrite Hx in Hl. inversion Hl as [|a b Hab Ha Hb]; subst. now constructor.
    + apply last_of_none in Hn. rewrite Hn in Hl. inversion Hl; subst. apply H.
Qed.

(** Tokens that are the same. *)
Inductive Token : command -> command -> Prop :=
| Token_plain : forall x y, ~ is_assign x -> ~ is_assign y -> Same x y -> Token x y
| Token_lazy : forall n x y o, Same x y -> Token (Assign n x false o) (Assign n y false o)
| Token_now : forall n x y o, Same x y -> wordless x -> wordless y -> Token (Assign n x true o) (Assign n y true o)
| Token_same : forall n x i o, Token (Assign n x i o) (Assign n x i o).
Lemma Token_refl : forall x, Token x x.
Proof.
  intros x. destruct (is_assign_dec x) as [(n & v & i & o & ->)|H]; [apply Token_same|].
  now apply Token_plain; [| |apply Same_refl].
Qed.
Lemma Tokens_refl : forall ts, Forall2 Token ts ts.
Proof. induction ts; constructor; auto using Token_refl. Qed.
Lemma Token_sym : forall x y, Token x y -> Token y x.
Proof. intros x y H. destruct H; [apply Token_plain|apply Token_lazy|apply Token_now|apply Token_same]; auto using Same_sym. Qed.
Lemma Tokens_sym : forall ts ts', Forall2 Token ts ts' -> Forall2 Token ts' ts.
Proof. induction 1; constructor; auto using Token_sym. Qed.
Lemma plain_tokens : forall ts ts', Forall2 Token ts ts' -> Forall2 Same (plain ts) (plain ts').
Proof.
  intros ts ts' H. induction H as [|c c' ts ts' Hc _ IH]; [constructor|].
  destruct Hc as [x y Hx Hy Hs| | |]; [|exact IH|exact IH|exact IH].
  change (x :: ts) with ([x] ++ ts). change (y :: ts') with ([y] ++ ts'). rewrite !plain_app.
  rewrite (plain_all [x]), (plain_all [y]) by (repeat constructor; auto). now constructor.
Qed.

Lemma moved_starts : forall sc busy c, Starts sc busy c -> forall sc', Scopes sc sc' -> Starts sc' busy c.
Proof.
  intros sc busy c H. induction H as [sc busy c Hm Ha Hx|sc busy x d c Hm Hr Hb _ IH]; intros sc' H.
  - apply St_plain; auto. now apply (Scopes_method sc).
  - destruct (refers _ _ _ _ _ H Hr) as (c' & Hr' & Hs). apply St_access with (c := c'); auto.
    + destruct H as [(K & _) _]. congruence.
    + apply (same_starts _ _ Hs). now apply IH.
Qed.

Lemma moved :
  (forall sc busy c r t r', Rolls sc busy c r t r' -> forall sc', Scopes sc sc' -> Rolls sc' busy c r t r') /\
  (forall sc busy c r t r', RollsBody sc busy c r t r' -> forall sc', Scopes sc sc' -> RollsBody sc' busy c r t r') /\
  (forall sc busy cs r ts r', RollsAll sc busy cs r ts r' -> forall sc', Scopes sc sc' -> RollsAll sc' busy cs r ts r') /\
  (forall sc busy w r t r', RollsPath sc busy w r t r' -> forall sc', Scopes sc sc' -> RollsPath sc' busy w r t r') /\
  (forall sc busy items b r t r', RollsValue sc busy items b r t r' -> forall sc', Scopes sc sc' -> RollsValue sc' busy items b r t r') /\
  (forall sc busy ts r bs r', RollsBinds sc busy ts r bs r' -> forall sc' ts', Scopes sc sc' -> Forall2 Token ts ts' ->
     exists bs', RollsBinds sc' busy ts' r bs' r' /\ Forall2 Given bs bs') /\
  (forall sc busy c r r', Halts sc busy c r r' -> forall sc', Scopes sc sc' -> Halts sc' busy c r r') /\
  (forall sc busy c r r', HaltsBody sc busy c r r' -> forall sc', Scopes sc sc' -> HaltsBody sc' busy c r r') /\
  (forall sc busy w r r', HaltsPath sc busy w r r' -> forall sc', Scopes sc sc' -> HaltsPath sc' busy w r r').
Proof.
  apply Rolls_mutind.
  - (* Ro_enter *) intros sc busy c r t r' Hm _ IH sc' H. apply Ro_enter; [now apply (Scopes_method sc)|]. apply IH. now apply Scopes_enter.
  - intros. constructor.
  - (* Ro_seq *) intros sc busy ts sep m r bs r1 sc1 toks parts r2 t _ IHb He Hp _ IHa Hg sc' H.
    destruct (IHb sc' ts H (Tokens_refl ts)) as (bs' & Hb' & Hbs). destruct (extended _ _ _ _ _ H Hbs He) as (sc1' & He' & H1).
    apply Ro_seq with (bs := bs') (r1 := r1) (sc' := sc1') (toks := toks) (parts := parts); auto.
  - (* Ro_choice *) intros sc busy os lo hi sep m r k r1 sel r2 parts r3 t Hl Hk Hc _ IH Hg sc' H.
    apply Ro_choice with (k := k) (r1 := r1) (sel := sel) (r2 := r2) (parts := parts); auto.
  - (* Ro_single *) intros sc busy v q lo hi sep m r t r' Hl _ IH sc' H. apply Ro_single; auto.
  - (* Ro_lone *) intros sc busy w mw vars q lo hi sep m r path r1 os t r2 n _ IHp Ho Hn _ IH sc' H.
    apply Ro_lone with (path := path) (r1 := r1) (opts := os) (n := n); auto.
  - (* Ro_wild *) intros sc busy w m vars r path r1 sc1 u r2 _ IHp Hn He _ IH sc' H.
    destruct (extended _ _ _ _ _ H (Givens_refl vars) He) as (sc1' & He' & H1).
    apply Ro_wild with (path := path) (r1 := r1) (sc' := sc1'); auto.
  - (* Ro_missing *) intros sc busy name m vars r path r1 t _ IHp Hn Hw sc' H. apply Ro_missing with (path := path); auto.
  - (* Ro_missing_command *) intros sc busy c m vars r path r1 sc1 name r2 t _ IHp Hn He _ IH Hw sc' H.
    destruct (extended _ _ _ _ _ H (Givens_refl vars) He) as (sc1' & He' & H1).
    apply Ro_missing_command with (path := path) (r1 := r1) (sc' := sc1') (name := name); auto.
  - (* Ro_access *) intros sc busy x d c r t r' Hr Hb _ IH sc' H. destruct (refers _ _ _ _ _ H Hr) as (c' & Hr' & Hs).
    apply Ro_access with (c := c'); auto. apply (same_rolls _ _ Hs). now apply IH.
  - (* Ro_wrap *) intros sc busy w i m r tw r1 ti r2 before after _ IHw _ IHi Hc sc' H.
    apply Ro_wrap with (tw := tw) (r1 := r1); auto.
  - constructor.
  - intros sc busy c cs r t r1 ts r2 _ IH _ IHs sc' H. apply RoA_cons with (r1 := r1); auto.
  - (* RoP *) intros sc busy w c r t r' u Hr _ IH Ht sc' H. pose proof H as [(K1 & K2 & _) _].
    apply RoP with (c := c) (t := t); auto. congruence.
  - (* RoV_taken *) intros sc busy items b r v b' r1 u r2 Hs _ IH sc' H. eapply RoV_taken; eauto.
  - (* RoV_passed *) intros sc busy items b r v b' r1 r2 u r3 Hs _ IH _ IHv sc' H. eapply RoV_passed; eauto.
  - (* RoB_nil *) intros sc busy r sc' ts' H Ht. inversion Ht; subst. exists []. split; constructor.
  - (* RoB_plain *) intros sc busy tok toks r bs r' Ha _ IH sc' ts' H Ht. inversion Ht as [|? y ? ts2 Hy Hts]; subst.
    destruct (IH sc' ts2 H Hts) as (bs' & Hb & Hbs). exists bs'. split; [|exact Hbs]. apply RoB_plain; [|exact Hb].
    destruct Hy; try assumption; exfalso; apply Ha; do 4 eexists; reflexivity.
  - (* RoB_kept *) intros sc busy x v imm v0 toks r bs r' Hv _ IH sc' ts' H Ht. inversion Ht as [|? y ? ts2 Hy Hts]; subst.
    destruct (IH sc' ts2 H Hts) as (bs' & Hb & Hbs). pose proof H as [_ Hx]. specialize (Hx x). rewrite Hv in Hx.
    inversion Hx as [|? w Hs Ha Hw]; subst. exists ((x, w) :: bs'). split; [|constructor; [now split|exact Hbs]].
    assert (K : exists v', y = Assign x v' imm false).
    { inversion Hy as [? ? K| | |]; subst; [exfalso; apply K; do 4 eexists; reflexivity| | |]; eexists; reflexivity. }
    destruct K as (v' & ->). apply RoB_kept; [now symmetry|exact Hb].
  - (* RoB_lazy *) intros sc busy x v ovr toks r bs r' Hv _ IH sc' ts' H Ht. inversion Ht as [|? y ? ts2 Hy Hts]; subst.
    destruct (IH sc' ts2 H Hts) as (bs' & Hb & Hbs). pose proof H as [_ Hx]. specialize (Hx x).
    assert (Hv' : ovr = false -> sc_var sc' x = None) by (intros K; rewrite (Hv K) in Hx; now inversion Hx).
    assert (K : exists v', y = Assign x v' false ovr /\ Same v v').
    { inversion Hy as [? ? K|? ? z|? ? z|]; subst; [exfalso; apply K; do 4 eexists; reflexivity| |];
        [exists z; now split|exists v; split; [reflexivity|apply Same_refl]]. }
    destruct K as (v' & -> & Hs). exists ((x, v') :: bs'). split; [now apply RoB_lazy|constructor; [now split|exact Hbs]].
  - (* RoB_literal *) intros sc busy x s m ovr toks r bs r' Hv _ IH sc' ts' H Ht. inversion Ht as [|? y ? ts2 Hy Hts]; subst.
    destruct (IH sc' ts2 H Hts) as (bs' & Hb & Hbs). pose proof H as [_ Hx]. specialize (Hx x).
    assert (Hv' : ovr = false -> sc_var sc' x = None) by (intros K; rewrite (Hv K) in Hx; now inversion Hx).
    assert (K : y = Assign x (Lit s m) true ovr).
    { inversion Hy as [? ? K|? ? z|? ? z ? ? K|]; subst; [exfalso; apply K; do 4 eexists; reflexivity|now destruct (K s m)|reflexivity]. }
    subst y. exists ((x, Lit s m) :: bs'). split; [now apply RoB_literal|constructor; [split; [reflexivity|apply Same_refl]|exact Hbs]].
  - (* RoB_now *) intros sc busy x v ovr t toks r r1 bs r' Hv Hw _ IHv _ IH sc' ts' H Ht. inversion Ht as [|? y ? ts2 Hy Hts]; subst.
    destruct (IH sc' ts2 H Hts) as (bs' & Hb & Hbs). pose proof H as [_ Hx]. specialize (Hx x).
    assert (Hv' : ovr = false -> sc_var sc' x = None) by (intros K; rewrite (Hv K) in Hx; now inversion Hx).
    assert (K : exists v', y = Assign x v' true ovr /\ Same v v' /\ wordless v').
    { inversion Hy as [? ? K|? ? z|? ? z|]; subst; [exfalso; apply K; do 4 eexists; reflexivity| |];
        [exists z; split; [reflexivity|split; assumption]|exists v; split; [reflexivity|split; [apply Same_refl|exact Hw]]]. }
    destruct K as (v' & -> & Hs & Hw'). exists ((x, Lit t None) :: bs').
    split; [|constructor; [split; [reflexivity|apply Same_refl]|exact Hbs]].
    apply RoB_now with (r1 := r1); auto. apply (same_rolls _ _ Hs). now apply IHv.
  - (* Ha_enter *) intros sc busy c r r' Hm _ IH sc' H. apply Ha_enter; [now apply (Scopes_method sc)|]. apply IH. now apply Scopes_enter.
  - constructor.
  - intros sc busy v q lo hi sep m r r' Hl _ IH sc' H. apply Ha_single; auto.
  - intros sc busy w mw vars q lo hi sep m r path r1 os r2 n _ IHp Ho Hn _ IH sc' H.
    apply Ha_lone with (path := path) (r1 := r1) (opts := os) (n := n); auto.
  - intros sc busy x d c r r' Hr Hb _ IH sc' H. destruct (refers _ _ _ _ _ H Hr) as (c' & Hr' & Hs).
    apply Ha_access with (c := c'); auto. apply (same_halts _ _ Hs). now apply IH.
  - intros sc busy w i m r r' _ IH Hs sc' H. apply Ha_wrapper; auto. now apply (moved_starts sc).
  - intros sc busy w i m r tw r1 r2 _ IHw _ IHi sc' H. apply Ha_inner with (tw := tw) (r1 := r1); auto.
  - constructor.
  - intros. now constructor.
  - intros sc busy w c r r' Hr _ IH sc' H. apply HaP_end with (c := c); auto.
Qed.

(** * Reading [Rolls] *)
Lemma enter_none : forall sc c, mark_of c = None -> enter sc c = sc.
Proof. intros [m sq vs u] c H. unfold enter. cbn. rewrite H. reflexivity. Qed.
Lemma rolls_iff : forall sc busy c r t r', Rolls sc busy c r t r' <-> sc_method (enter sc c) = Random /\ RollsBody (enter sc c) busy c r t r'.
Proof. intros. split; [now inversion 1|intros [H1 H2]; now apply Ro_enter]. Qed.
Lemma halts_iff : forall sc busy c r r', Halts sc busy c r r' <-> sc_method (enter sc c) = Random /\ HaltsBody (enter sc c) busy c r r'.
Proof. intros. split; [now inversion 1|intros [H1 H2]; now apply Ha_enter]. Qed.
Definition compound (c : command) : Prop := match c with Assign _ _ _ _ | Access _ _ => False | _ => True end.
Lemma starts_iff : forall sc busy c, compound c -> (Starts sc busy c <-> sc_method (enter sc c) = Random).
Proof.
  intros sc busy c H. split.
  - intros K. destruct K; [assumption|contradiction].
  - intros K. apply St_plain; [exact K| |].
    + intros (n & v & i & o & ->). exact H.
    + intros x d ->. exact H.
Qed.
(** [Same] for commands with equal marks. *)
Lemma same_body : forall x y, mark_of x = mark_of y -> compound x -> compound y -> (Nonempty x <-> Nonempty y) ->
  (forall sc busy r t r', sc_method sc = Random -> (RollsBody sc busy x r t r' <-> RollsBody sc busy y r t r')) ->
  (forall sc busy r r', sc_method sc = Random -> (HaltsBody sc busy x r r' <-> HaltsBody sc busy y r r')) -> Same x y.
Proof.
  intros x y Hm Cx Cy Hn Hb Hh.
  assert (He : forall sc, enter sc x = enter sc y) by (intros sc; unfold enter; now rewrite Hm).
  split; [exact Hn| | |]; intros.
  - rewrite !starts_iff by assumption. now rewrite He.
  - rewrite !rolls_iff, He. split; intros [K1 K2]; (split; [exact K1|]); now apply (Hb _ _ _ _ _ K1).
  - rewrite !halts_iff, He. split; intros [K1 K2]; (split; [exact K1|]); now apply (Hh _ _ _ _ K1).
Qed.
Lemma halts_seq : forall sc busy ts sep m r r', ~ HaltsBody sc busy (Seq ts sep m) r r'.
Proof. intros sc busy ts sep m r r' H. inversion H. Qed.
Lemma halts_choice : forall sc busy os lo hi sep m r r', 2 <= length os -> ~ HaltsBody sc busy (Var os lo hi sep m) r r'.
Proof. intros sc busy os lo hi sep m r r' Hl H. inversion H; subst; cbn in Hl; lia. Qed.
Lemma all_same : forall sc busy cs cs' r ts r', Forall2 Same cs cs' -> RollsAll sc busy cs r ts r' -> RollsAll sc busy cs' r ts r'.
Proof.
  intros sc busy cs cs' r ts r' H. revert r ts. induction H as [|c c' cs cs' Hc _ IH]; intros r ts K; inversion K; subst; econstructor; eauto.
  now apply (same_rolls _ _ Hc).
Qed.
Lemma all_app : forall sc busy a b r ts r', RollsAll sc busy (a ++ b) r ts r' <->
  exists r1 ta tb, RollsAll sc busy a r ta r1 /\ RollsAll sc busy b r1 tb r' /\ ts = ta ++ tb.
Proof.
  intros sc busy a b. induction a as [|c a IH]; intros r ts r'; cbn [app].
  - split.
    + intros H. exists r, [], ts. split; [constructor|]. now split.
    + intros (r1 & ta & tb & H1 & H2 & ->). now inversion H1; subst.
  - split.
    + intros H. inversion H as [|? ? ? ? ? t r1 ts1 ? Hc Hs]; subst. apply IH in Hs. destruct Hs as (r2 & ta & tb & Ha & Hb & ->).
      exists r2, (t :: ta), tb. split; [now apply RoA_cons with (r1 := r1)|]. now split.
    + intros (r1 & ta & tb & H1 & H2 & ->). inversion H1 as [|? ? ? ? ? t r2 ts1 ? Hc Hs]; subst. cbn.
      apply RoA_cons with (r1 := r2); [exact Hc|]. apply IH. now exists r1, ts1, tb.
Qed.
Lemma all_nil : forall sc busy r ts r', RollsAll sc busy [] r ts r' <-> ts = [] /\ r' = r.
Proof. intros. split; [now inversion 1|]. intros [-> ->]. constructor. Qed.
Lemma all_cons : forall sc busy c cs r ts r', RollsAll sc busy (c :: cs) r ts r' <->
  exists t r1 ts1, Rolls sc busy c r t r1 /\ RollsAll sc busy cs r1 ts1 r' /\ ts = t :: ts1.
Proof.
  intros. split; [inversion 1; subst; eauto 7|]. intros (t & r1 & ts1 & H1 & H2 & ->). now apply RoA_cons with (r1 := r1).
Qed.

(** * Sequences *)
Lemma seq_tokens : forall sc busy ts ts' sep m r t r', Forall2 Token ts ts' -> RollsBody sc busy (Seq ts sep m) r t r' ->
  RollsBody sc busy (Seq ts' sep m) r t r'.
Proof.
  intros sc busy ts ts' sep m r t r' H Hb. destruct moved as (_ & _ & Hall & _ & _ & Hbinds & _).
  inversion Hb as [|? ? ? ? ? ? bs r1 sc1 toks parts ? ? Hbs He Hp Ha Hg| | | | | | | |]; subst.
  destruct (Hbinds _ _ _ _ _ _ Hbs sc ts' (Scopes_refl sc) H) as (bs' & Hb' & Hg').
  destruct (extended _ _ _ _ _ (Scopes_refl sc) Hg' He) as (sc1' & He' & H1).
  apply plain_iff in Hp. subst toks.
  apply Ro_seq with (bs := bs') (r1 := r1) (sc' := sc1') (toks := plain ts') (parts := parts); auto; [now apply plain_iff|].
  eapply all_same; [apply plain_tokens; exact H|]. now apply (Hall _ _ _ _ _ _ Ha).
Qed.
Lemma same_seq : forall ts ts' sep m, Forall2 Token ts ts' -> Same (Seq ts sep m) (Seq ts' sep m).
Proof.
  intros ts ts' sep m H. apply same_body; [reflexivity|exact I|exact I| | |].
  - rewrite !nonempty_seq. destruct H; split; congruence.
  - intros sc busy r t r' _. split; apply seq_tokens; [exact H|now apply Tokens_sym].
  - intros sc busy r r' _. split; intros K; destruct (halts_seq _ _ _ _ _ _ _ K).
Qed.
Lemma token_at : forall pre x y post, Token x y -> Forall2 Token (pre ++ x :: post) (pre ++ y :: post).
Proof. intros pre x y post H. apply Forall2_app; [apply Tokens_refl|constructor; [exact H|apply Tokens_refl]]. Qed.

Lemma binds_plain : forall sc busy a ts r bs r', Forall (fun c => ~ is_assign c) a ->
  (RollsBinds sc busy (a ++ ts) r bs r' <-> RollsBinds sc busy ts r bs r').
Proof.
  intros sc busy a ts r bs r' H. induction H as [|c a Hc _ IH]; [reflexivity|]. cbn [app]. rewrite <- IH. split.
  - intros K. inversion K; subst; try assumption; exfalso; apply Hc; do 4 eexists; reflexivity.
  - intros K. now apply RoB_plain.
Qed.
Lemma binds_swap : forall sc busy a b post bs r', Forall (fun c => ~ is_assign c) a -> Forall (fun c => ~ is_assign c) b ->
  forall pre r, RollsBinds sc busy (pre ++ a ++ post) r bs r' -> RollsBinds sc busy (pre ++ b ++ post) r bs r'.
Proof.
  intros sc busy a b post bs r' Ha Hb pre. revert bs. induction pre as [|c pre IH]; intros bs r H; cbn [app] in *.
  - apply binds_plain; [exact Hb|]. now apply binds_plain in H.
  - inversion H; subst.
    + apply RoB_plain; auto.
    + apply RoB_kept; auto.
    + apply RoB_lazy; auto.
    + apply RoB_literal; auto.
    + eapply RoB_now; eauto.
Qed.
(** Parts that make the same text of the same numbers. *)
Definition PartsFollow (a b : list command) : Prop := forall sc busy r ts r', sc_method sc = Random -> RollsAll sc busy a r ts r' ->
  exists ts', RollsAll sc busy b r ts' r' /\ concat ts' = concat ts.
Lemma seq_swap : forall sc busy pre a b post m r t r', sc_method sc = Random ->
  Forall (fun c => ~ is_assign c) a -> Forall (fun c => ~ is_assign c) b -> PartsFollow a b ->
  RollsBody sc busy (Seq (pre ++ a ++ post) [] m) r t r' -> RollsBody sc busy (Seq (pre ++ b ++ post) [] m) r t r'.
Proof.
  intros sc busy pre a b post m r t r' Hm Ha Hb Hf H.
  inversion H as [|? ? ? ? ? ? bs r1 sc1 toks parts ? ? Hbs He Hp Hr Hg| | | | | | | |]; subst.
  apply plain_iff in Hp. subst toks. rewrite !plain_app in Hr. apply all_app in Hr. destruct Hr as (r2 & t1 & t2 & H1 & H2 & ->).
  apply all_app in H2. destruct H2 as (r3 & t3 & t4 & H3 & H4 & ->). rewrite (plain_all a Ha) in H3.
  destruct (Hf sc1 busy r2 t3 r3) as (t3' & H3' & E3); [destruct He as [(K & _) _]; congruence|exact H3|].
  apply Ro_seq with (bs := bs) (r1 := r1) (sc' := sc1) (toks := plain (pre ++ b ++ post)) (parts := t1 ++ t3' ++ t4); auto.
  - now apply (binds_swap sc busy a b).
  - now apply plain_iff.
  - rewrite !plain_app, (plain_all b Hb). apply all_app. exists r2, t1, (t3' ++ t4). split; [exact H1|]. split; [|reflexivity].
    apply all_app. now exists r3, t3', t4.
  - apply glued_nil. apply glued_nil in Hg. subst t. now rewrite !concat_app, E3.
Qed.
Lemma same_swap : forall pre a b post m, (pre ++ a ++ post <> [] <-> pre ++ b ++ post <> []) ->
  Forall (fun c => ~ is_assign c) a -> Forall (fun c => ~ is_assign c) b -> PartsFollow a b -> PartsFollow b a ->
  Same (Seq (pre ++ a ++ post) [] m) (Seq (pre ++ b ++ post) [] m).
Proof.
  intros pre a b post m Hn Ha Hb H1 H2. apply same_body; [reflexivity|exact I|exact I| | |].
  - now rewrite !nonempty_seq.
  - intros sc busy r t r' Hm. split; apply seq_swap; assumption.
  - intros sc busy r r' _. split; intros K; destruct (halts_seq _ _ _ _ _ _ _ K).
Qed.
(** A sequence without assignments. *)
Lemma seq_calm : forall sc busy ts sep m r t r', Forall (fun c => ~ is_assign c) ts ->
  (RollsBody sc busy (Seq ts sep m) r t r' <-> exists parts, RollsAll sc busy ts r parts r' /\ Glued sep parts t).
Proof.
  intros sc busy ts sep m r t r' H. destruct moved as (_ & _ & Hall & _). split.
  - intros K. inversion K as [|? ? ? ? ? ? bs r1 sc1 toks parts ? ? Hbs He Hp Hr Hg| | | | | | | |]; subst.
    exists parts. split; [|exact Hg]. rewrite <- (app_nil_r ts) in Hbs. apply binds_plain in Hbs; [|exact H].
    inversion Hbs; subst. apply plain_iff in Hp. subst toks. rewrite (plain_all ts H) in Hr.
    apply (Hall _ _ _ _ _ _ Hr). destruct He as [(K1 & K2 & K3) Hx]. split; [repeat split; congruence|].
    intros x. destruct (Hx x) as [(pre & v & post & E1 & _)|[_ E1]]; [destruct pre; discriminate|]. rewrite E1. apply OSame_refl.
  - intros (parts & Hr & Hg). apply Ro_seq with (bs := []) (r1 := r) (sc' := sc) (toks := ts) (parts := parts); auto.
    + rewrite <- (app_nil_r ts). apply binds_plain; [exact H|constructor].
    + split; [repeat split|]. intros x. right. split; [intros []|reflexivity].
    + apply plain_iff. symmetry. now apply plain_all.
Qed.
Lemma lit_rolls : forall sc busy s r t r', sc_method sc = Random -> (Rolls sc busy (Lit s None) r t r' <-> t = s /\ r' = r).
Proof.
  intros sc busy s r t r' Hm. rewrite rolls_iff, enter_none by reflexivity. split.
  - intros [_ K]. now inversion K.
  - intros [-> ->]. split; [exact Hm|constructor].
Qed.
Lemma words_rolls : forall sc busy a r ts r', sc_method sc = Random -> (RollsAll sc busy (words a) r ts r' <-> ts = a /\ r' = r).
Proof.
  intros sc busy a r ts r' Hm. revert r ts. induction a as [|s a IH]; intros r ts; cbn [words map]; [apply all_nil|].
  rewrite all_cons. split.
  - intros (t & r1 & ts1 & H1 & H2 & ->). apply lit_rolls in H1; [|exact Hm]. destruct H1 as [-> ->]. apply IH in H2. destruct H2 as [-> ->]. now split.
  - intros [-> ->]. exists s, r, a. split; [now apply lit_rolls|]. split; [now apply IH|reflexivity].
Qed.
Lemma words_calm : forall a, Forall (fun c => ~ is_assign c) (words a).
Proof. induction a; constructor; [intros (n & v & i & o & K); discriminate|assumption]. Qed.
Lemma words_follow : forall a b, concat a = concat b -> PartsFollow (words a) (words b).
Proof.
  intros a b H sc busy r ts r' Hm K. apply words_rolls in K; [|exact Hm]. destruct K as [-> ->].
  exists b. split; [now apply words_rolls|now symmetry].
Qed.
Lemma same_texts : forall pre a b post m,
  Same (Seq (pre ++ Lit a None :: Lit b None :: post) [] m) (Seq (pre ++ Lit (a ++ b) None :: post) [] m).
Proof.
  intros pre a b post m. assert (H : concat [a; b] = concat [a ++ b]) by (cbn; now rewrite !app_nil_r).
  apply (same_swap pre (words [a; b]) (words [a ++ b]) post m); auto using words_calm, words_follow.
  split; intros _; destruct pre; discriminate.
Qed.
Lemma same_blank : forall pre post m, pre ++ post <> [] -> Same (Seq (pre ++ Lit [] None :: post) [] m) (Seq (pre ++ post) [] m).
Proof.
  intros pre post m Hn. apply (same_swap pre (words [[]]) (words []) post m); auto using words_calm, words_follow.
  split; intros _; [exact Hn|destruct pre; discriminate].
Qed.
Lemma same_grouped : forall pre ins post m, ins <> [] -> Forall (fun part => ~ is_assign part) ins ->
  Same (Seq (pre ++ Seq ins [] None :: post) [] m) (Seq (pre ++ ins ++ post) [] m).
Proof.
  intros pre ins post m Hn Hi. apply (same_swap pre [Seq ins [] None] ins post m); [| |exact Hi| |].
  - split; intros _; destruct pre; try discriminate. destruct ins; [now destruct Hn|discriminate].
  - constructor; [intros (n & v & i & o & K); discriminate|constructor].
  - intros sc busy r ts r' Hm K. apply all_cons in K. destruct K as (t & r1 & ts1 & K1 & K2 & ->).
    apply all_nil in K2. destruct K2 as [-> ->]. apply rolls_iff in K1. rewrite enter_none in K1 by reflexivity.
    destruct K1 as [_ K1]. apply seq_calm in K1; [|exact Hi]. destruct K1 as (parts & K1 & Hg). apply glued_nil in Hg. subst t.
    exists parts. split; [exact K1|]. cbn. now rewrite app_nil_r.
  - intros sc busy r ts r' Hm K. exists [concat ts]. split; [|cbn; now rewrite app_nil_r].
    apply all_cons. exists (concat ts), r', []. split; [|split; [now apply all_nil|reflexivity]].
    apply rolls_iff. rewrite enter_none by reflexivity. split; [exact Hm|]. apply seq_calm; [exact Hi|].
    exists ts. split; [exact K|now apply glued_nil].
Qed.
Lemma solid_compound : forall x, Solid x -> compound x.
Proof. intros []; cbn; intros H; auto. Qed.
Lemma solid_halts : forall sc busy x r r', Solid x -> ~ HaltsBody sc busy x r r'.
Proof.
  intros sc busy x r r' H K. destruct x; try contradiction; [inversion K|inversion K|]. now apply halts_choice in K.
Qed.
Lemma same_alone : forall x sep, Solid x -> Nonempty x -> mark_of x = None -> Same (Seq [x] sep None) x.
Proof.
  intros x sep Hs Hn Hm. assert (Ha : Forall (fun c => ~ is_assign c) [x]) by (constructor; [now apply solid_plain|constructor]).
  apply same_body; [now rewrite Hm|exact I|now apply solid_compound| | |].
  - rewrite nonempty_seq. split; [intros _; exact Hn|discriminate].
  - intros sc busy r t r' Hr. rewrite seq_calm by exact Ha. split.
    + intros (parts & K & Hg). apply all_cons in K. destruct K as (u & r1 & ts & K1 & K2 & ->). apply all_nil in K2.
      destruct K2 as [-> ->]. apply glued_single in Hg. subst u. apply rolls_iff in K1. rewrite enter_none in K1 by exact Hm. apply K1.
    + intros K. exists [t]. split; [|now apply glued_single]. apply all_cons. exists t, r', [].
      split; [|split; [now apply all_nil|reflexivity]]. apply rolls_iff. rewrite enter_none by exact Hm. now split.
  - intros sc busy r r' _. split; intros K; [destruct (halts_seq _ _ _ _ _ _ _ K)|destruct (solid_halts _ _ _ _ _ Hs K)].
Qed.

(** * Choices *)
Lemma solid_lone : forall x q, Solid x -> ~ lone_wildcard [(x, q)].
Proof. intros x q H (w & m & vs & q0 & K). injection K as -> _. exact H. Qed.
Lemma same_only : forall x q lo hi sep, Solid x -> Nonempty x -> mark_of x = None -> Same (Var [(x, q)] lo hi sep None) x.
Proof.
  intros x q lo hi sep Hs Hn Hm. pose proof (solid_lone x q Hs) as Hl.
  apply same_body; [now rewrite Hm|exact I|now apply solid_compound| | |].
  - rewrite nonempty_var. split; [intros _; exact Hn|discriminate].
  - intros sc busy r t r' Hr. split.
    + intros K. inversion K as [| |? ? ? ? ? ? ? ? ? ? ? ? ? ? ? Hlen|? ? ? ? ? ? ? ? ? ? ? _ K1| | | | | |]; subst; [cbn in Hlen; lia| |now destruct Hs].
      apply rolls_iff in K1. rewrite enter_none in K1 by exact Hm. apply K1.
    + intros K. apply Ro_single; [exact Hl|]. apply rolls_iff. rewrite enter_none by exact Hm. now split.
  - intros sc busy r r' _. split; intros K; [|destruct (solid_halts _ _ _ _ _ Hs K)].
    inversion K as [|? ? ? ? ? ? ? ? ? ? _ K1| | | |]; subst; [|now destruct Hs]. apply halts_iff in K1. destruct K1 as [_ K1].
    destruct (solid_halts _ _ _ _ _ Hs K1).
Qed.
(** One of several options. *)
Lemma choice_one : forall sc busy os sep m r t r', 2 <= length os ->
  (RollsBody sc busy (Var os 1 1 sep m) r t r' <->
   exists r1 i r2 v, Counted G 1 1 r 1 r1 /\ Picked G (map snd os) r1 i r2 /\ nth_error (map fst os) i = Some v /\ Rolls sc busy v r2 t r').
Proof.
  intros sc busy os sep m r t r' Hl.
  assert (H1 : clamp (length os) (Z.min 1 1) = 1%Z) by (unfold clamp; lia).
  assert (H2 : Z.min (Z.max 1 1) (Z.of_nat (length os)) = 1%Z) by lia.
  split.
  - intros K. inversion K as [| |? ? ? ? ? ? ? ? k r1 sel r2 parts ? ? _ Hk Hc Ha Hg| | | | | | |]; subst; [|cbn in Hl; lia|cbn in Hl; lia].
    rewrite H1, H2 in Hk. pose proof (Counted_range _ _ _ _ _ _ Hk) as Hr. assert (k = 1%Z) as -> by lia.
    change (Z.to_nat 1) with 1 in Hc. inversion Hc as [|? ? ? ? i r3 v j w vs' ws' sel' ? Hp Hi _ _ _ _ Hc']; subst. inversion Hc'; subst.
    apply all_cons in Ha. destruct Ha as (u & r4 & ts & Hv & Hn & ->). apply all_nil in Hn. destruct Hn as [-> ->].
    apply glued_single in Hg. subst u. now exists r1, i, r2, v.
  - intros (r1 & i & r2 & v & Hk & Hp & Hi & Hv).
    apply Ro_choice with (k := 1%Z) (r1 := r1) (sel := [v]) (r2 := r2) (parts := [t]); [exact Hl|now rewrite H1, H2| | |now apply glued_single].
    + change (Z.to_nat 1) with 1.
      destruct (cwr_remaining cmd_eqb v (map fst os) (map snd os)) as [vs' ws'] eqn:Hr.
      assert (Hlen : length (map fst os) = length (map snd os)) by now rewrite !map_length.
      pose proof (cwr_remaining_spec cmd_eqb cmd_eqb_spec v _ _ vs' ws' Hlen (nth_error_In _ _ Hi) Hr) as (j & Hj & Hjl & Ev & Ew & Hl' & _).
      assert (Hw : nth_error (map snd os) j = Some (nth j (map snd os) 0%Qc)) by now apply nth_error_nth'.
      apply Ch_cons with i r2 j (nth j (map snd os) 0%Qc) vs' ws'; try assumption.
      * unfold cwr_remaining in Hr. injection Hr as <- _. apply remove_first_Without; [apply cmd_eqb_spec|]. eapply nth_error_In, Hi.
      * rewrite Ew. apply remove_first_Without; [apply Qc_eq_bool_spec|]. eapply nth_error_In, Hw.
      * constructor.
    + apply all_cons. exists t, r', []. split; [exact Hv|]. split; [now apply all_nil|reflexivity].
Qed.
Lemma same_separator : forall os sep sep' m, 2 <= length os -> Same (Var os 1 1 sep m) (Var os 1 1 sep' m).
Proof.
  intros os sep sep' m Hl. apply same_body; [reflexivity|exact I|exact I| | |].
  - rewrite !nonempty_var. reflexivity.
  - intros sc busy r t r' _. rewrite !choice_one by exact Hl. reflexivity.
  - intros sc busy r r' _. split; intros K; destruct (halts_choice _ _ _ _ _ _ _ _ _ Hl K).
Qed.
Lemma same_option : forall x y q pre post sep m, Same x y -> pre ++ post <> [] ->
  Same (Var (pre ++ (x, q) :: post) 1 1 sep m) (Var (pre ++ (y, q) :: post) 1 1 sep m).
Proof.
  assert (K : forall x y q pre post sep m sc busy r t r', Same x y -> pre ++ post <> [] ->
    RollsBody sc busy (Var (pre ++ (x, q) :: post) 1 1 sep m) r t r' -> RollsBody sc busy (Var (pre ++ (y, q) :: post) 1 1 sep m) r t r').
  { intros x y q pre post sep m sc busy r t r' H Hn.
    assert (Hl : forall z : command, 2 <= length (pre ++ (z, q) :: post)).
    { intros z. rewrite app_length. cbn [length]. destruct pre, post; cbn in *; try lia. now destruct Hn. }
    rewrite !choice_one by apply Hl. intros (r1 & i & r2 & v & Hk & Hp & Hi & Hv). rewrite map_app in Hp, Hi. cbn [map fst snd] in Hp, Hi.
    destruct (lt_eq_lt_dec i (length pre)) as [[Hlt|Heq]|Hgt].
    - exists r1, i, r2, v. rewrite !map_app. cbn [map fst snd]. split; [exact Hk|]. split; [exact Hp|]. split; [|exact Hv].
      rewrite nth_error_app1 in * by (rewrite map_length; exact Hlt). exact Hi.
    - subst i. exists r1, (length pre), r2, y. rewrite !map_app. cbn [map fst snd]. split; [exact Hk|]. split; [exact Hp|].
      rewrite nth_error_app2 in * by (rewrite map_length; lia). rewrite map_length, Nat.sub_diag in *. cbn in *.
      injection Hi as <-. split; [reflexivity|]. now apply (same_rolls _ _ H).
    - exists r1, i, r2, v. rewrite !map_app. cbn [map fst snd]. split; [exact Hk|]. split; [exact Hp|]. split; [|exact Hv].
      rewrite nth_error_app2 in * by (rewrite map_length; lia). rewrite map_length in *.
      destruct (i - length pre) as [|j] eqn:Hj; [lia|]. exact Hi. }
  intros x y q pre post sep m H Hn. apply same_body; [reflexivity|exact I|exact I| | |].
  - rewrite !nonempty_var. split; intros _; destruct pre; discriminate.
  - intros sc busy r t r' _. split; apply K; auto using Same_sym.
  - assert (Hl : forall z : command, 2 <= length (pre ++ (z, q) :: post)).
    { intros z. rewrite app_length. cbn [length]. destruct pre, post; cbn in *; try lia. now destruct Hn. }
    intros sc busy r r' _. split; intros K'; (eapply halts_choice in K'; [destruct K'|apply Hl]).
Qed.
(** Several options, one of them replaced. *)
Lemma chosen_map : forall f vs ws k r sel r', Chosen G vs ws k r sel r' ->
  (forall a b, In a vs -> In b vs -> f a = f b -> a = b) ->
  Chosen G (map f vs) ws k r (map f sel) r' /\ forall v, In v sel -> In v vs.
Proof.
  intros f vs ws k r sel r' H. induction H as [vs ws r|vs ws k r i r1 v j w vs' ws' sel r2 Hp Hi Hj Hw Hv Hx _ IH]; intros Hf.
  - split; [constructor|intros v []].
  - destruct Hv as (a & b & Ev & Ha & Ev').
    assert (Hsub : forall z, In z vs' -> In z vs).
    { intros z Hz. rewrite Ev' in Hz. rewrite Ev. apply in_app_or in Hz. apply in_or_app. destruct Hz; [now left|right; now right]. }
    assert (Hvin : In v vs) by (eapply nth_error_In, Hi).
    destruct IH as [IH1 IH2]; [intros c d Hc Hd; apply Hf; auto|]. split; [|intros z [->|Hz]; auto].
    apply Ch_cons with (i := i) (r1 := r1) (j := j) (w := w) (vs' := map f vs') (ws' := ws'); auto.
    + now rewrite nth_error_map, Hi.
    + destruct Hj as [Hj1 Hj2]. split; [now rewrite nth_error_map, Hj1|]. intros j' Hlt K. rewrite nth_error_map in K.
      destruct (nth_error vs j') as [z|] eqn:Hz; [|discriminate]. injection K as K.
      apply (Hj2 j' Hlt). rewrite Hz. f_equal. apply Hf; auto. eapply nth_error_In, Hz.
    + exists (map f a), (map f b). rewrite Ev, Ev', !map_app. split; [reflexivity|]. split; [|reflexivity].
      intros K. apply in_map_iff in K. destruct K as (z & K & Hz). apply Ha. replace v with z; [exact Hz|]. apply Hf; auto.
      rewrite Ev. apply in_or_app. now left.
Qed.
Lemma choice_rolls : forall sc busy os lo hi sep m r t r', 2 <= length os -> RollsBody sc busy (Var os lo hi sep m) r t r' ->
  exists k r1 sel r2 parts, Counted G (clamp (length os) (Z.min lo hi)) (Z.min (Z.max lo hi) (Z.of_nat (length os))) r k r1 /\
    Chosen G (map fst os) (map snd os) (Z.to_nat k) r1 sel r2 /\ RollsAll sc busy sel r2 parts r' /\ Glued sep parts t.
Proof.
  intros sc busy os lo hi sep m r t r' Hl K.
  inversion K as [| |? ? ? ? ? ? ? ? k r1 sel r2 parts ? ? _ Hk Hc Ha Hg| | | | | | |]; subst; [|cbn in Hl; lia|cbn in Hl; lia].
  now exists k, r1, sel, r2, parts.
Qed.
Lemma same_options : forall x y q pre post lo hi sep m, Same x y -> pre ++ post <> [] ->
  ~ In x (map fst (pre ++ post)) -> ~ In y (map fst (pre ++ post)) ->
  Same (Var (pre ++ (x, q) :: post) lo hi sep m) (Var (pre ++ (y, q) :: post) lo hi sep m).
Proof.
  assert (Hl : forall (z : command) (q : Qc) pre post, pre ++ post <> [] -> 2 <= length (pre ++ (z, q) :: post)).
  { intros z q pre post Hn. rewrite app_length. cbn [length]. destruct pre, post; cbn in *; try lia. now destruct Hn. }
  assert (K : forall x y q pre post lo hi sep m sc busy r t r', Same x y -> pre ++ post <> [] ->
    ~ In x (map fst (pre ++ post)) -> ~ In y (map fst (pre ++ post)) ->
    RollsBody sc busy (Var (pre ++ (x, q) :: post) lo hi sep m) r t r' -> RollsBody sc busy (Var (pre ++ (y, q) :: post) lo hi sep m) r t r').
  { intros x y q pre post lo hi sep m sc busy r t r' H Hn Hx Hy Hb. pose proof (Hl x q pre post Hn) as Hlx. pose proof (Hl y q pre post Hn) as Hly.
    destruct (choice_rolls _ _ _ _ _ _ _ _ _ _ Hlx Hb) as (k & r1 & sel & r2 & parts & Hk & Hc & Ha & Hg).
    rewrite map_app in Hx, Hy. pose (f := fun z => if cmd_eqb z x then y else z).
    assert (Fx : f x = y). { unfold f. destruct (cmd_eqb_spec x x); [reflexivity|congruence]. }
    assert (Fo : forall z, z <> x -> f z = z) by (intros z Hz; unfold f; destruct (cmd_eqb_spec z x); [congruence|reflexivity]).
    assert (Fl : forall l : list command, ~ In x l -> map f l = l).
    { induction l as [|z l IH]; intros Hz; [reflexivity|]. cbn. rewrite IH, Fo; [reflexivity| |]; intros K; apply Hz; [now left|now right]. }
    assert (Hxp : ~ In x (map fst pre) /\ ~ In x (map fst post)) by (split; intros K; apply Hx, in_or_app; auto).
    assert (Hyp : ~ In y (map fst pre) /\ ~ In y (map fst post)) by (split; intros K; apply Hy, in_or_app; auto).
    assert (Hin : forall z, In z (map fst (pre ++ (x, q) :: post)) -> z = x \/ In z (map fst pre ++ map fst post)).
    { intros z Hz. rewrite map_app in Hz. apply in_app_or in Hz. destruct Hz as [Hz|[Hz|Hz]]; [right; apply in_or_app; now left|now left|].
      right. apply in_or_app. now right. }
    assert (Hf : forall a b, In a (map fst (pre ++ (x, q) :: post)) -> In b (map fst (pre ++ (x, q) :: post)) -> f a = f b -> a = b).
    { intros a b Ia Ib Eab. apply Hin in Ia, Ib. unfold f in Eab. destruct (cmd_eqb_spec a x), (cmd_eqb_spec b x); try congruence.
      - destruct Ib as [Ib|Ib]; [congruence|]. rewrite <- Eab in Ib. contradiction.
      - destruct Ia as [Ia|Ia]; [congruence|]. rewrite Eab in Ia. contradiction. }
    destruct (chosen_map f _ _ _ _ _ _ Hc Hf) as [Hc' _].
    assert (Em : map f (map fst (pre ++ (x, q) :: post)) = map fst (pre ++ (y, q) :: post)).
    { rewrite !map_app. cbn [map fst]. rewrite Fx, !Fl by apply Hxp. reflexivity. }
    rewrite Em in Hc'.
    apply Ro_choice with (k := k) (r1 := r1) (sel := map f sel) (r2 := r2) (parts := parts); auto.
    - rewrite !app_length in *. exact Hk.
    - rewrite !map_app in *. exact Hc'.
    - eapply all_same; [|exact Ha]. clear -H. induction sel as [|z sel IH]; constructor; [|exact IH].
      unfold f. destruct (cmd_eqb_spec z x) as [->|]; [exact H|apply Same_refl]. }
  intros x y q pre post lo hi sep m H Hn Hx Hy. apply same_body; [reflexivity|exact I|exact I| | |].
  - rewrite !nonempty_var. split; intros _; destruct pre; discriminate.
  - intros sc busy r t r' _. split; apply K; auto using Same_sym.
  - intros sc busy r r' _. split; intros K'; (eapply halts_choice in K'; [destruct K'|now apply Hl]).
Qed.
Lemma same_spread : forall a os post sep sep' m, 2 <= length os -> Forall (fun part => ~ is_assign part) post ->
  Forall (fun o => ~ is_assign (fst o)) os ->
  Same (Seq (words a ++ Var os 1 1 sep None :: post) [] m)
       (Var (map (fun o => (Seq (words a ++ fst o :: post) [] None, snd o)) os) 1 1 sep' m).
Proof.
  intros a os post sep sep' m Hl Hpost Hos.
  assert (Hall : forall v, ~ is_assign v -> Forall (fun c => ~ is_assign c) (words a ++ v :: post)).
  { intros v Hv. apply Forall_app. split; [apply words_calm|now constructor]. }
  assert (Hseq : forall v mk sc busy r t r', ~ is_assign v -> sc_method sc = Random ->
    (RollsBody sc busy (Seq (words a ++ v :: post) [] mk) r t r' <->
     exists u r1 ts, Rolls sc busy v r u r1 /\ RollsAll sc busy post r1 ts r' /\ t = concat a ++ u ++ concat ts)).
  { intros v mk sc busy r t r' Hv Hm. rewrite seq_calm by (now apply Hall). split.
    - intros (parts & K & Hg). apply glued_nil in Hg. subst t. apply all_app in K. destruct K as (r1 & ta & tb & K1 & K2 & ->).
      apply words_rolls in K1; [|exact Hm]. destruct K1 as [-> ->]. apply all_cons in K2. destruct K2 as (u & r2 & ts & K3 & K4 & ->).
      exists u, r2, ts. split; [exact K3|]. split; [exact K4|]. now rewrite concat_app.
    - intros (u & r1 & ts & K1 & K2 & ->). exists (a ++ u :: ts). split; [|apply glued_nil; now rewrite concat_app].
      apply all_app. exists r, a, (u :: ts). split; [now apply words_rolls|]. split; [|reflexivity].
      apply all_cons. now exists u, r1, ts. }
  assert (Hsnd : map snd (map (fun o => (Seq (words a ++ fst o :: post) [] None, snd o)) os) = map snd os) by now rewrite map_map.
  assert (Hl' : 2 <= length (map (fun o : command * Qc => (Seq (words a ++ fst o :: post) [] None, snd o)) os)) by now rewrite map_length.
  apply same_body; [reflexivity|exact I|exact I| | |].
  - rewrite nonempty_seq, nonempty_var. split; intros _; [|destruct a; discriminate]. destruct os; [cbn in Hl; lia|discriminate].
  - intros sc busy r t r' Hm. rewrite Hseq by (try exact Hm; intros (n & v & i & o & K); discriminate).
    rewrite choice_one, Hsnd by exact Hl'. split.
    + intros (u & r1 & ts & K1 & K2 & ->). apply rolls_iff in K1. rewrite enter_none in K1 by reflexivity. destruct K1 as [_ K1].
      apply choice_one in K1; [|exact Hl]. destruct K1 as (r2 & i & r3 & v & Hk & Hp & Hi & Hv).
      exists r2, i, r3, (Seq (words a ++ v :: post) [] None). split; [exact Hk|]. split; [exact Hp|].
      rewrite nth_error_map in Hi. destruct (nth_error os i) as [[v0 q0]|] eqn:Ho; [|discriminate]. injection Hi as <-.
      split; [rewrite map_map; rewrite nth_error_map, Ho; reflexivity|].
      apply rolls_iff. rewrite enter_none by reflexivity. split; [exact Hm|]. apply Hseq; [|exact Hm|now exists u, r1, ts].
      exact (proj1 (Forall_forall _ _) Hos _ (nth_error_In _ _ Ho)).
    + intros (r2 & i & r3 & v & Hk & Hp & Hi & Hv). rewrite map_map, nth_error_map in Hi.
      destruct (nth_error os i) as [[v0 q0]|] eqn:Ho; [|discriminate]. injection Hi as <-.
      apply rolls_iff in Hv. rewrite enter_none in Hv by reflexivity. destruct Hv as [_ Hv].
      apply Hseq in Hv; [|exact (proj1 (Forall_forall _ _) Hos _ (nth_error_In _ _ Ho))|exact Hm].
      destruct Hv as (u & r1 & ts & K1 & K2 & ->). exists u, r1, ts. split; [|now split].
      apply rolls_iff. rewrite enter_none by reflexivity. split; [exact Hm|]. apply choice_one; [exact Hl|].
      exists r2, i, r3, v0. split; [exact Hk|]. split; [exact Hp|]. split; [now rewrite nth_error_map, Ho|exact K1].
  - intros sc busy r r' _. split; intros K; [destruct (halts_seq _ _ _ _ _ _ _ K)|destruct (halts_choice _ _ _ _ _ _ _ _ _ Hl' K)].
Qed.

(** * Variables and wraps *)
Lemma default_refers : forall sc n x y c, Same x y -> Refers sc n (Some x) c -> exists c', Refers sc n (Some y) c' /\ Same c c'.
Proof.
  intros sc n x y c H Hr. destruct Hr as [v Hv Hn|v Hv [= <-] Hn|v u Hv Hn Hk|u Hv Hd Hk].
  - exists v. split; [now apply Refers_var|apply Same_refl].
  - exists y. split; [|exact H]. apply Refers_default; auto. now apply (same_nonempty _ _ H).
  - exists u. split; [now apply Refers_unknown_var with (v := v)|apply Same_refl].
  - exists u. split; [|apply Same_refl]. apply Refers_unknown; auto. intros v [= <-]. rewrite <- (same_nonempty _ _ H). now apply Hd.
Qed.
Lemma same_default : forall n x y, Same x y -> Same (Access n (Some x)) (Access n (Some y)).
Proof.
  assert (K1 : forall n x y, Same x y -> forall sc busy, Starts sc busy (Access n (Some x)) -> Starts sc busy (Access n (Some y))).
  { intros n x y H sc busy K. inversion K as [? ? ? _ _ Kn|? ? ? ? c Hm Hr Hb Hs]; subst; [now destruct (Kn n (Some x))|].
    destruct (default_refers _ _ _ _ _ H Hr) as (c' & Hr' & Hc). apply St_access with (c := c'); auto. now apply (same_starts _ _ Hc). }
  assert (K2 : forall n x y, Same x y -> forall sc busy r t r', Rolls sc busy (Access n (Some x)) r t r' -> Rolls sc busy (Access n (Some y)) r t r').
  { intros n x y H sc busy r t r' K. apply rolls_iff in K. destruct K as [Hm K]. apply Ro_enter; [exact Hm|].
    change (enter sc (Access n (Some y))) with (enter sc (Access n (Some x))).
    inversion K as [| | | | | | | |? ? ? ? c ? ? ? Hr Hb Hc|]; subst. destruct (default_refers _ _ _ _ _ H Hr) as (c' & Hr' & Hs).
    apply Ro_access with (c := c'); auto. now apply (same_rolls _ _ Hs). }
  assert (K3 : forall n x y, Same x y -> forall sc busy r r', Halts sc busy (Access n (Some x)) r r' -> Halts sc busy (Access n (Some y)) r r').
  { intros n x y H sc busy r r' K. apply halts_iff in K. destruct K as [Hm K]. apply Ha_enter; [exact Hm|].
    change (enter sc (Access n (Some y))) with (enter sc (Access n (Some x))).
    inversion K as [| | |? ? ? ? c ? ? Hr Hb Hc| |]; subst. destruct (default_refers _ _ _ _ _ H Hr) as (c' & Hr' & Hs).
    apply Ha_access with (c := c'); auto. now apply (same_halts _ _ Hs). }
  intros n x y H. pose proof (Same_sym _ _ H) as H'. split.
  - split; intros _; split; intros; discriminate.
  - intros. split; now apply K1.
  - intros. split; now apply K2.
  - intros. split; now apply K3.
Qed.
Lemma Givens_sym : forall a b, Forall2 Given a b -> Forall2 Given b a.
Proof. induction 1 as [|a b la lb [H1 H2] _ IH]; constructor; auto. split; [now symmetry|now apply Same_sym]. Qed.
Lemma same_given : forall w m vars vars', Forall2 Given vars vars' -> Same (Wild w m vars) (Wild w m vars').
Proof.
  assert (K : forall w m vars vars', Forall2 Given vars vars' -> forall sc busy r t r',
    RollsBody sc busy (Wild w m vars) r t r' -> RollsBody sc busy (Wild w m vars') r t r').
  { intros w m vars vars' H sc busy r t r' K. destruct moved as (_ & _ & _ & Hpath & Hvalue & _).
    inversion K as [| | | | |? ? ? ? ? ? path r1 sc1 ? ? Hp Hn He Hv|? ? name ? ? ? path ? ? Hp Hn Hw
                   |? ? c ? ? ? path r1 sc1 name ? ? Hp Hn He Hq Hw| |]; subst.
    - destruct (extended _ _ _ _ _ (Scopes_refl sc) H He) as (sc1' & He' & Hs).
      apply Ro_wild with (path := path) (r1 := r1) (sc' := sc1'); auto. now apply (Hvalue _ _ _ _ _ _ _ Hv).
    - now apply Ro_missing with (path := path).
    - destruct (extended _ _ _ _ _ (Scopes_refl sc) H He) as (sc1' & He' & Hs).
      apply Ro_missing_command with (path := path) (r1 := r1) (sc' := sc1') (name := name); auto. now apply (Hpath _ _ _ _ _ _ Hq). }
  intros w m vars vars' H. apply same_body; [reflexivity|exact I|exact I| | |].
  - split; intros _; split; intros; discriminate.
  - intros sc busy r t r' _. split; apply K; auto using Givens_sym.
  - intros sc busy r r' _. split; intros K'; inversion K'.
Qed.
Lemma same_wrap : forall w w' i i' m, Same w w' -> Same i i' -> Same (Wrap w i m) (Wrap w' i' m).
Proof.
  assert (K : forall w w' i i' m, Same w w' -> Same i i' -> forall sc busy r t r',
    RollsBody sc busy (Wrap w i m) r t r' -> RollsBody sc busy (Wrap w' i' m) r t r').
  { intros w w' i i' m Hw Hi sc busy r t r' K. inversion K as [| | | | | | | | |? ? ? ? ? ? tw r1 ti ? before after K1 K2 Hc]; subst.
    apply Ro_wrap with (tw := tw) (r1 := r1); [now apply (same_rolls _ _ Hw)|now apply (same_rolls _ _ Hi)|exact Hc]. }
  assert (K' : forall w w' i i' m, Same w w' -> Same i i' -> forall sc busy r r',
    HaltsBody sc busy (Wrap w i m) r r' -> HaltsBody sc busy (Wrap w' i' m) r r').
  { intros w w' i i' m Hw Hi sc busy r r' K'. inversion K' as [| | | |? ? ? ? ? ? ? K1 K2|? ? ? ? ? ? tw r1 ? K1 K2]; subst.
    - apply Ha_wrapper; [now apply (same_halts _ _ Hw)|now apply (same_starts _ _ Hi)].
    - apply Ha_inner with (tw := tw) (r1 := r1); [now apply (same_rolls _ _ Hw)|now apply (same_halts _ _ Hi)]. }
  intros w w' i i' m Hw Hi. pose proof (Same_sym _ _ Hw). pose proof (Same_sym _ _ Hi).
  apply same_body; [reflexivity|exact I|exact I| | |].
  - split; intros _; split; intros; discriminate.
  - intros sc busy r t r' _. split; now apply K.
  - intros sc busy r r' _. split; now apply K'.
Qed.

Theorem pace_same : forall x y, Pace x y -> Same x y.
Proof.
  induction 1 as [pre ins post m Hn Ha|pre a b post m|pre post m Hn|x sep Hs Hn Hm|x q lo hi sep Hs Hn Hm|os sep sep' m Hl
    |a os post sep sep' m Hl Hp Ho|x|x y _ IH|x y z _ IH1 _ IH2|x y pre post sep m _ IH Hx Hy|x y q pre post sep m _ IH Hn
    |x y q pre post lo hi sep m _ IH Hn Hx Hy|n x y o pre post sep m _ IH|n x y o pre post sep m _ IH Hx Hy|n x y _ IH|w m n x y pre post _ IH|x y i m _ IH|w x y m _ IH].
  - now apply same_grouped.
  - apply same_texts.
  - now apply same_blank.
  - now apply same_alone.
  - now apply same_only.
  - now apply same_separator.
  - now apply same_spread.
  - apply Same_refl.
  - now apply Same_sym.
  - now apply (Same_trans x y z).
  - apply same_seq, token_at. now apply Token_plain.
  - now apply same_option.
  - now apply same_options.
  - apply same_seq, token_at. now apply Token_lazy.
  - apply same_seq, token_at. now apply Token_now.
  - now apply same_default.
  - apply same_given. apply Forall2_app; [apply Givens_refl|constructor; [now split|apply Givens_refl]].
  - apply same_wrap; [exact IH|apply Same_refl].
  - apply same_wrap; [apply Same_refl|exact IH].
Qed.
End Pace.
