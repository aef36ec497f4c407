(** Templates that stand for the same prompts. *)
From Coq Require Import String NArith ZArith QArith Qcanon Bool Arith List Permutation Lia.
From Verif.Model Require Import Str Utils Command Rng Values Context.
From Verif.Spec Require Import Text Comb Items Lang Chance Alike Akin.
From Verif.Proofs Require Import FairFacts.
Import ListNotations.
Local Open Scope nat_scope.

(** The last assignment, computed. *)
Fixpoint finder (x : text) (ts : list command) : option (command * bool * bool) :=
  match ts with
  | [] => None
  | c :: r =>
      match finder x r with
      | Some f => Some f
      | None => match c with Assign y v i o => if text_dec y x then Some (v, i, o) else None | _ => None end
      end
  end.

Lemma finder_none : forall x ts, finder x ts = None <-> NoAssign x ts.
Proof.
  intros x ts. unfold NoAssign. induction ts as [|c r IH]; cbn [finder].
  - split; [intros _ v i o []|reflexivity].
  - destruct (finder x r) as [f|].
    + split; [discriminate|]. intros H. enough (K : Some f = None) by discriminate K. apply (proj2 IH). intros v i o K. apply (H v i o). now right.
    + split.
      * intros H v i o [->|K]; [|now apply (proj1 IH eq_refl v i o)].
        destruct (text_dec x x) as [_|K]; [discriminate|now apply K].
      * intros H. destruct c as [| | | |y v i o| |]; try reflexivity.
        destruct (text_dec y x) as [->|]; [|reflexivity]. destruct (H v i o (or_introl eq_refl)).
Qed.
Lemma finder_app : forall x a b, finder x (a ++ b) =
  match finder x b with Some f => Some f | None => finder x a end.
Proof.
  intros x a b. induction a as [|c a IH]; cbn [app finder].
  - now destruct (finder x b).
  - rewrite IH. now destruct (finder x b).
Qed.
Lemma finder_last : forall x ts v i o, finder x ts = Some (v, i, o) <-> LastAssign x ts v i o.
Proof.
  intros x ts v i o. split.
  - induction ts as [|c r IH]; cbn [finder]; [discriminate|].
    destruct (finder x r) as [f|] eqn:Hf.
    + intros [= ->]. destruct (IH eq_refl) as (pre & post & -> & H). exists (c :: pre), post. now split.
    + destruct c as [| | | |y w j p| |]; try discriminate. destruct (text_dec y x) as [->|]; [|discriminate].
      intros [= -> -> ->]. exists [], r. split; [reflexivity|]. now apply finder_none.
  - intros (pre & post & -> & H). rewrite finder_app. cbn [finder].
    replace (finder x post) with (@None (command * bool * bool)) by (symmetry; now apply finder_none).
    destruct (text_dec x x) as [_|K]; [reflexivity|now destruct K].
Qed.

Section Akin.
Variable E : env.
Notation Produces := (Produces E). Notation Body := (Body E). Notation ProducesAll := (ProducesAll E).
Notation Bound := (Bound E). Notation Void := (Void E). Notation VoidBody := (VoidBody E). Notation Path := (Path E).

(** The same meaning in all scopes. *)
Record Same (x y : command) : Prop := {
  same_nonempty : Nonempty x <-> Nonempty y;
  same_texts : forall sc t, Produces sc x t <-> Produces sc y t;
  same_void : forall sc, Void sc x <-> Void sc y }.
Lemma Same_refl : forall x, Same x x.
Proof. intros x. split; intros; reflexivity. Qed.
Lemma Same_sym : forall x y, Same x y -> Same y x.
Proof. intros x y [H1 H2 H3]. split; intros; symmetry; auto. Qed.
Lemma Same_trans : forall x y z, Same x y -> Same y z -> Same x z.
Proof.
  intros x y z [H1 H2 H3] [K1 K2 K3].
  split; intros; [now rewrite H1|now rewrite H2|now rewrite H3].
Qed.

Inductive OSame : option command -> option command -> Prop :=
| OSame_none : OSame None None
| OSame_some : forall v w, Same v w -> OSame (Some v) (Some w).
Lemma OSame_refl : forall o, OSame o o.
Proof. intros [v|]; constructor. apply Same_refl. Qed.

(** Scopes whose variables mean the same. *)
Definition Scopes (sc sc' : scope) : Prop :=
  SameBut sc sc' /\ forall x, OSame (sc_var sc x) (sc_var sc' x).
Lemma Scopes_refl : forall sc, Scopes sc sc.
Proof. intros sc. split; [repeat split|intros; apply OSame_refl]. Qed.
Lemma Scopes_enter : forall sc sc' c, Scopes sc sc' -> Scopes (enter sc c) (enter sc' c).
Proof.
  intros sc sc' c [(H1 & H2 & H3) H]. split; [|exact H].
  unfold SameBut, enter. cbn. rewrite H1. auto.
Qed.

(** Tokens that mean the same. *)
Inductive Token : command -> command -> Prop :=
| Token_plain : forall x y, ~ is_assign x -> ~ is_assign y -> Same x y -> Token x y
| Token_lazy : forall n x y o, Same x y -> Token (Assign n x false o) (Assign n y false o)
| Token_now : forall n x y o, Same x y -> wordless x -> wordless y -> Token (Assign n x true o) (Assign n y true o)
| Token_same : forall n x i o, Token (Assign n x i o) (Assign n x i o).
Lemma is_assign_dec : forall x, {n : text & {v : command & {i : bool & {o : bool | x = Assign n v i o}}}} + {~ is_assign x}.
Proof. intros []; try (right; intros (? & ? & ? & ? & K); discriminate). left. repeat eexists. Qed.
Lemma Token_refl : forall x, Token x x.
Proof.
  intros x. destruct (is_assign_dec x) as [(n & v & i & o & ->)|H]; [apply Token_same|].
  now apply Token_plain; [| |apply Same_refl].
Qed.
Lemma Tokens_refl : forall ts, Forall2 Token ts ts.
Proof. induction ts; constructor; auto using Token_refl. Qed.

Lemma finder_tokens : forall x ts ts', Forall2 Token ts ts' ->
  match finder x ts, finder x ts' with
  | None, None => True
  | Some (v, i, o), Some (v', i', o') => i' = i /\ o' = o /\ Same v v' /\ (v' = v \/ i = false \/ wordless v /\ wordless v')
  | _, _ => False
  end.
Proof.
  intros x ts ts' H. induction H as [|c c' r r' Hc Hr IH]; cbn [finder]; [exact I|].
  destruct (finder x r) as [[[v i] o]|], (finder x r') as [[[v' i'] o']|]; try contradiction; [exact IH|].
  destruct Hc as [y z Hy Hz _|n y z o Hs|n y z o Hs H1 H2|n y i o].
  - destruct y; try (exfalso; apply Hy; do 4 eexists; reflexivity); destruct z; try exact I; exfalso; apply Hz; do 4 eexists; reflexivity.
  - destruct (text_dec n x); [|exact I]. split; [reflexivity|split; [reflexivity|split; [exact Hs|now right; left]]].
  - destruct (text_dec n x); [|exact I]. split; [reflexivity|split; [reflexivity|split; [exact Hs|now right; right]]].
  - destruct (text_dec n x); [|exact I]. split; [reflexivity|split; [reflexivity|split; [apply Same_refl|now left]]].
Qed.

(** The value of a variable in a sequence of such tokens. *)
Definition value (sc : scope) (ts : list command) (x : text) (o : option command) : option command :=
  match finder x ts with
  | None => sc_var sc x
  | Some (v, i, ovr) =>
      match ovr, sc_var sc x with
      | false, Some w => Some w
      | _, _ => if i then o else Some v
      end
  end.

Definition moved_var (sc : scope) (ts : list command) (sc1 : scope) : scope :=
  {| sc_method := sc_method sc1; sc_squash := sc_squash sc1; sc_unknown := sc_unknown sc1;
     sc_var := fun x => value sc ts x (sc_var sc1 x) |}.

Lemma refers : forall sc sc' x d v, Scopes sc sc' -> Refers sc x d v ->
  exists v', Refers sc' x d v' /\ Same v v'.
Proof.
  intros sc sc' x d v [(_ & _ & Hu) H] Hr. specialize (H x).
  destruct Hr as [v Hv Hn|v Hv Hd Hn|v u Hv Hn Hk|u Hv Hd Hk].
  - rewrite Hv in H. inversion H as [|a w Hs Ha Hw]; subst. exists w. split; [|exact Hs].
    apply Refers_var; [now symmetry|]. now apply (same_nonempty _ _ Hs).
  - rewrite Hv in H. inversion H as [Ha Hw|]; subst. exists v. split; [|apply Same_refl].
    apply Refers_default; auto.
  - rewrite Hv in H. inversion H as [|a w Hs Ha Hw]; subst. exists u. split; [|apply Same_refl].
    apply Refers_unknown_var with (v := w); [now symmetry| |congruence]. now rewrite <- (same_nonempty _ _ Hs).
  - rewrite Hv in H. inversion H as [Ha Hw|]; subst. exists u. split; [|apply Same_refl].
    apply Refers_unknown; auto. congruence.
Qed.

Fixpoint last_of (x : text) (vars : list (text * command)) : option command :=
  match vars with
  | [] => None
  | (y, v) :: r =>
      match last_of x r with
      | Some w => Some w
      | None => if text_dec y x then Some v else None
      end
  end.
Lemma last_of_none : forall x vars, last_of x vars = None <-> ~ In x (map fst vars).
Proof.
  intros x vars. induction vars as [|[y v] r IH]; cbn [last_of map fst In]; [split; auto|].
  destruct (last_of x r) as [w|].
  - split; [discriminate|]. intros H. enough (K : Some w = None) by discriminate K. apply IH. intros K. apply H. now right.
  - destruct (text_dec y x) as [->|Hn].
    + split; [discriminate|]. intros H. destruct H. now left.
    + split; [|reflexivity]. intros _ [->|K]; [now apply Hn|now apply (proj1 IH eq_refl)].
Qed.
Lemma last_of_some : forall x vars v, last_of x vars = Some v <->
  exists pre post, vars = pre ++ (x, v) :: post /\ ~ In x (map fst post).
Proof.
  intros x vars v. split.
  - induction vars as [|[y w] r IH]; cbn [last_of]; [discriminate|].
    destruct (last_of x r) as [u|] eqn:Hu.
    + intros [= ->]. destruct (IH eq_refl) as (pre & post & -> & H). exists ((y, w) :: pre), post. now split.
    + destruct (text_dec y x) as [->|]; [|discriminate]. intros [= ->]. exists [], r. split; [reflexivity|now apply last_of_none].
  - intros (pre & post & -> & H). induction pre as [|[y w] pre IH]; cbn [app last_of].
    + apply last_of_none in H. rewrite H. destruct (text_dec x x) as [_|K]; [reflexivity|now destruct K].
    + now rewrite IH.
Qed.

Definition Given (a b : text * command) : Prop := fst a = fst b /\ Same (snd a) (snd b).
Lemma Givens_refl : forall vars, Forall2 Given vars vars.
Proof. induction vars; constructor; auto. split; [reflexivity|apply Same_refl]. Qed.
Lemma last_of_given : forall x vars vars', Forall2 Given vars vars' -> OSame (last_of x vars) (last_of x vars').
Proof.
  intros x vars vars' H. induction H as [|[y v] [z w] r r' [Hn Hs] _ IH]; cbn [last_of]; [constructor|].
  cbn in Hn, Hs. subst z. destruct IH as [|a b Hab]; [|now constructor].
  destruct (text_dec y x); [now constructor|constructor].
Qed.

Lemma extended : forall sc sc' vars vars' sc1, Scopes sc sc' -> Forall2 Given vars vars' -> Extended sc vars sc1 ->
  exists sc1', Extended sc' vars' sc1' /\ Scopes sc1 sc1'.
Proof.
  intros sc sc' vars vars' sc1 [(H1 & H2 & H3) H] Hv [(K1 & K2 & K3) K].
  exists {| sc_method := sc_method sc1; sc_squash := sc_squash sc1; sc_unknown := sc_unknown sc1;
    sc_var := fun x => match last_of x vars' with Some v => Some v | None => sc_var sc' x end |}.
  split; split.
  - unfold SameBut. cbn. repeat split; congruence.
  - intros x. cbn. destruct (last_of x vars') as [v|] eqn:Hl.
    + left. apply last_of_some in Hl as (pre & post & -> & Hp). exists pre, v, post. auto.
    + right. split; [now apply last_of_none|reflexivity].
  - repeat split.
  - intros x. cbn. pose proof (last_of_given x _ _ Hv) as Hl.
    destruct (K x) as [(pre & v & post & Hvs & Hp & ->)|[Hn ->]].
    + assert (Hx : last_of x vars = Some v) by (apply last_of_some; now exists pre, post).
      rewrite Hx in Hl. inversion Hl as [|a b Hab Ha Hb]; subst. now constructor.
    + apply last_of_none in Hn. rewrite Hn in Hl. inversion Hl; subst. apply H.
Qed.

Lemma moved :
  (forall sc c t, Produces sc c t -> forall sc', Scopes sc sc' -> Produces sc' c t) /\
  (forall sc c t, Body sc c t -> forall sc', Scopes sc sc' -> Body sc' c t) /\
  (forall sc cs ts, ProducesAll sc cs ts -> forall sc', Scopes sc sc' -> ProducesAll sc' cs ts) /\
  (forall sc w t, Path sc w t -> forall sc', Scopes sc sc' -> Path sc' w t) /\
  (forall sc ts x o, Bound sc ts x o -> forall sc' ts', Scopes sc sc' -> Forall2 Token ts ts' ->
     Bound sc' ts' x (value sc' ts' x o) /\ OSame o (value sc' ts' x o)) /\
  (forall sc c, Void sc c -> forall sc', Scopes sc sc' -> Void sc' c) /\
  (forall sc c, VoidBody sc c -> forall sc', Scopes sc sc' -> VoidBody sc' c).
Proof.
  apply Produces_mutind.
  - (* P_enter *) intros sc c t _ IH sc' H. apply P_enter. apply IH. now apply Scopes_enter.
  - (* B_lit *) intros. constructor.
  - (* B_seq *) intros sc tokens sep m sc1 toks parts t Hs _ IHb Hp _ IHa Hc Hg sc' H.
    destruct Hs as (K1 & K2 & K3). pose proof H as [(H1 & H2 & H3) _].
    apply B_seq with (sc' := moved_var sc' tokens sc1) (toks := toks) (parts := parts).
    + unfold SameBut, moved_var. cbn. repeat split; congruence.
    + intros x. cbn. exact (proj1 (IHb x sc' tokens H (Tokens_refl tokens))).
    + exact Hp.
    + apply IHa. split; [repeat split|]. intros x. cbn. exact (proj2 (IHb x sc' tokens H (Tokens_refl tokens))).
    + rewrite H1. exact Hc.
    + rewrite H1. exact Hg.
  - (* B_choice *) intros sc opts lo hi sep m sel rest parts t Hl Hn H1 Hp Hb Hq _ IH Hd Hg sc' H.
    pose proof H as [(K1 & _) _]. apply B_choice with (sel := sel) (rest := rest) (parts := parts); auto; rewrite K1; auto.
  - (* B_cut *) intros sc opts lo hi sep m sel v sel' rest parts t Hl Hm Hp Hb _ IH _ IHv Hg sc' H.
    pose proof H as [(K1 & _) _]. apply B_cut with (sel := sel) (v := v) (sel' := sel') (rest := rest) (parts := parts); auto. congruence.
  - (* B_single *) intros sc v q lo hi sep m t Hm Hl _ IH sc' H.
    pose proof H as [(K1 & _) _]. apply B_single; auto. congruence.
  - (* B_lone *) intros sc w mw vars q lo hi sep m path opts t n _ IHp Ho Hn _ IH sc' H.
    apply B_lone with (path := path) (opts := opts) (n := n); auto.
  - (* B_wild *) intros sc w m vars path sc1 v c t u _ IHp Hn He Hd Hr _ IH Ht sc' H.
    destruct (extended _ _ _ _ _ H (Givens_refl vars) He) as (sc1' & He' & H1). pose proof H as [(K1 & K2 & _) _].
    apply B_wild with (path := path) (sc' := sc1') (v := v) (c := c) (t := t); auto; congruence.
  - (* B_missing *) intros sc w m vars path sc1 name t _ IHp Hn He Hw _ IH Ht sc' H.
    destruct (extended _ _ _ _ _ H (Givens_refl vars) He) as (sc1' & He' & H1).
    apply B_missing with (path := path) (sc' := sc1') (name := name); auto.
    intros c Hc. apply (IH c Hc). exact H1.
  - (* B_access *) intros sc x d c t Hr _ IH sc' H.
    destruct (refers _ _ _ _ _ H Hr) as (c' & Hr' & Hs).
    apply B_access with (c := c'); [exact Hr'|]. apply (same_texts _ _ Hs). now apply IH.
  - (* B_wrap *) intros sc wrapper inner m tw ti uw ui before after Hm _ IHw _ IHi Tw Ti Hc sc' H.
    pose proof H as [(K1 & K2 & _) _].
    apply B_wrap with (tw := tw) (ti := ti) (uw := uw); auto; congruence.
  - (* PA_nil *) constructor.
  - (* PA_cons *) intros sc c cs t ts _ IH _ IHs sc' H. constructor; auto.
  - (* Path *) intros sc w c t u Hr _ IH Ht sc' H. pose proof H as [(K1 & K2 & _) _].
    apply Path_intro with (c := c) (t := t); auto. congruence.
  - (* Bound_outer *) intros sc ts x Hn sc' ts' H Ht. pose proof (finder_tokens x _ _ Ht) as Hf.
    apply finder_none in Hn. rewrite Hn in Hf. unfold value. destruct (finder x ts') eqn:Hf'; [contradiction|].
    split; [apply Bound_outer; now apply finder_none|apply H].
  - (* Bound_kept *) intros sc ts x v imm v0 Hl Hv sc' ts' H Ht. pose proof (finder_tokens x _ _ Ht) as Hf.
    apply finder_last in Hl. rewrite Hl in Hf. unfold value. destruct (finder x ts') as [[[v' i'] o']|] eqn:Hf'; [|contradiction].
    destruct Hf as (-> & -> & _). destruct H as [_ H]. specialize (H x). rewrite Hv in H. inversion H as [|a w Hs Ha Hw]; subst.
    split; [|now constructor]. apply finder_last in Hf'. eapply Bound_kept; [exact Hf'|now symmetry].
  - (* Bound_lazy *) intros sc ts x v ovr Hl Ho sc' ts' H Ht. pose proof (finder_tokens x _ _ Ht) as Hf.
    apply finder_last in Hl. rewrite Hl in Hf. unfold value. destruct (finder x ts') as [[[v' i'] o']|] eqn:Hf'; [|contradiction].
    destruct Hf as (-> & -> & Hs & _). apply finder_last in Hf'.
    assert (Ho' : ovr = false -> sc_var sc' x = None).
    { intros Hf. specialize (Ho Hf). destruct H as [_ H]. specialize (H x). rewrite Ho in H. now inversion H. }
    replace (match ovr with true => Some v' | false => match sc_var sc' x with Some w => Some w | None => Some v' end end)
      with (Some v') by (destruct ovr; [reflexivity|now rewrite Ho']).
    split; [eapply Bound_lazy; eauto|now constructor].
  - (* Bound_literal *) intros sc ts x s m ovr Hl Ho sc' ts' H Ht. pose proof (finder_tokens x _ _ Ht) as Hf.
    apply finder_last in Hl. rewrite Hl in Hf. unfold value. destruct (finder x ts') as [[[v' i'] o']|] eqn:Hf'; [|contradiction].
    destruct Hf as (-> & -> & Hs & [->|[?|[Hw _]]]); [|discriminate|now destruct (Hw s m)]. apply finder_last in Hf'.
    assert (Ho' : ovr = false -> sc_var sc' x = None).
    { intros Hf. specialize (Ho Hf). destruct H as [_ H]. specialize (H x). rewrite Ho in H. now inversion H. }
    replace (match ovr with true => Some (Lit s m) | false => match sc_var sc' x with Some w => Some w | None => Some (Lit s m) end end)
      with (Some (Lit s m)) by (destruct ovr; [reflexivity|now rewrite Ho']).
    split; [eapply Bound_literal; eauto|apply OSame_refl].
  - (* Bound_immediate *) intros sc ts x v ovr t Hl Ho Hw _ IH sc' ts' H Ht. pose proof (finder_tokens x _ _ Ht) as Hf.
    apply finder_last in Hl. rewrite Hl in Hf. unfold value. destruct (finder x ts') as [[[v' i'] o']|] eqn:Hf'; [|contradiction].
    destruct Hf as (-> & -> & Hs & Hl'). apply finder_last in Hf'.
    assert (Ho' : ovr = false -> sc_var sc' x = None).
    { intros Hf. specialize (Ho Hf). destruct H as [_ Hx]. specialize (Hx x). rewrite Ho in Hx. now inversion Hx. }
    replace (match ovr with true => Some (Lit t None) | false => match sc_var sc' x with Some w => Some w | None => Some (Lit t None) end end)
      with (Some (Lit t None)) by (destruct ovr; [reflexivity|now rewrite Ho']).
    split; [|apply OSame_refl]. eapply Bound_immediate; eauto.
    + destruct Hl' as [->|[?|[_ Hw']]]; [exact Hw|discriminate|exact Hw'].
    + apply (same_texts _ _ Hs). now apply IH.
  - (* V_enter *) intros sc c _ IH sc' H. apply V_enter. apply IH. now apply Scopes_enter.
  - (* V_empty *) intros. constructor.
  - (* V_single *) intros sc v q lo hi sep m Hm Hl _ IH sc' H. pose proof H as [(K1 & _) _]. apply V_single; auto. congruence.
  - (* V_lone *) intros sc w mw vars q lo hi sep m path opts lo' hi' _ IHp Ho _ IH sc' H.
    apply V_lone with (path := path) (opts := opts) (lo' := lo') (hi' := hi'); auto.
  - (* V_wild *) intros sc w m vars path Hm _ IHp Hn Hl sc' H. pose proof H as [(K1 & _) _].
    apply V_wild with (path := path); auto. congruence.
  - (* V_access *) intros sc x d c Hr _ IH sc' H. destruct (refers _ _ _ _ _ H Hr) as (c' & Hr' & Hs).
    apply V_access with (c := c'); [exact Hr'|]. apply (same_void _ _ Hs). now apply IH.
  - (* V_wrap_outer *) intros sc w i m Hm _ IH sc' H. pose proof H as [(K1 & _) _]. apply V_wrap_outer; auto. congruence.
  - (* V_wrap_inner *) intros sc w i m Hm _ IH sc' H. pose proof H as [(K1 & _) _]. apply V_wrap_inner; auto. congruence.
Qed.

(** * Reading [Produces] *)
Lemma enter_quiet : forall sc c, quiet (mark_of c) -> enter sc c = sc.
Proof. intros [m sq vs u] c H. unfold enter. cbn. destruct H as [->| ->]; reflexivity. Qed.
Lemma produces_iff : forall sc c t, Produces sc c t <-> Body (enter sc c) c t.
Proof. intros sc c t. split; [now inversion 1|apply P_enter]. Qed.
Lemma void_iff : forall sc c, Void sc c <-> VoidBody (enter sc c) c.
Proof. intros sc c. split; [now inversion 1|apply V_enter]. Qed.
Lemma all_iff : forall sc cs ts, ProducesAll sc cs ts <-> Forall2 (Produces sc) cs ts.
Proof.
  intros sc cs ts. split; intros H.
  - revert ts H. induction cs as [|c cs IH]; intros ts H; inversion H; subst; constructor; auto.
  - induction H; constructor; auto.
Qed.
Lemma all_same : forall sc cs cs' ts, Forall2 Same cs cs' -> ProducesAll sc cs ts -> ProducesAll sc cs' ts.
Proof.
  intros sc cs cs' ts H. revert ts. induction H as [|c c' cs cs' Hc _ IH]; intros ts K; inversion K; subst; constructor; auto.
  now apply (same_texts _ _ Hc).
Qed.
(** [Same] from the two directions of its parts, for equal marks. *)
Lemma same_body : forall x y, mark_of x = mark_of y -> (Nonempty x <-> Nonempty y) ->
  (forall sc t, Body sc x t <-> Body sc y t) -> (forall sc, VoidBody sc x <-> VoidBody sc y) -> Same x y.
Proof.
  intros x y Hm Hn Hb Hv.
  assert (He : forall sc, enter sc x = enter sc y) by (intros sc; unfold enter; now rewrite Hm).
  split; [exact Hn| |]; intros; [rewrite !produces_iff, He|rewrite !void_iff, He]; auto.
Qed.
Lemma nonempty_seq : forall ts sep m, Nonempty (Seq ts sep m) <-> ts <> [].
Proof. intros ts sep m. split; [intros [H _] ->; now apply (H sep m)|intros H; split; intros; congruence]. Qed.
Lemma nonempty_var : forall os lo hi sep m, Nonempty (Var os lo hi sep m) <-> os <> [].
Proof. intros os lo hi sep m. split; [intros [_ H] ->; now apply (H lo hi sep m)|intros H; split; intros; congruence]. Qed.
Lemma void_seq : forall sc ts sep m, ~ VoidBody sc (Seq ts sep m).
Proof. intros sc ts sep m H. inversion H. Qed.

(** * Sequences *)
Definition plain (ts : list command) : list command :=
  filter (fun c => match c with Assign _ _ _ _ => false | _ => true end) ts.
Lemma plain_iff : forall ts ps, Plain ts ps <-> ps = plain ts.
Proof.
  intros ts ps. split.
  - induction 1 as [|n v i o ts ps _ IH|c ts ps Hc _ IH]; cbn; subst; auto.
    destruct c; try reflexivity. destruct Hc. do 4 eexists. reflexivity.
  - intros ->. induction ts as [|c ts IH]; [constructor|].
    destruct (is_assign_dec c) as [(n & v & i & o & ->)|H]; [now constructor|].
    replace (plain (c :: ts)) with (c :: plain ts); [now constructor|].
    destruct c; try reflexivity. destruct H. do 4 eexists. reflexivity.
Qed.
Lemma plain_app : forall a b, plain (a ++ b) = plain a ++ plain b.
Proof. intros a b. unfold plain. induction a as [|c a IH]; [reflexivity|]. cbn. destruct c; cbn; now rewrite IH. Qed.
Lemma plain_all : forall ts, Forall (fun c => ~ is_assign c) ts -> plain ts = ts.
Proof.
  intros ts H. induction H as [|c ts Hc _ IH]; [reflexivity|]. cbn. fold (plain ts). rewrite IH.
  destruct c; try reflexivity. destruct Hc. do 4 eexists. reflexivity.
Qed.
Lemma plain_tokens : forall ts ts', Forall2 Token ts ts' -> Forall2 Same (plain ts) (plain ts').
Proof.
  intros ts ts' H. induction H as [|c c' ts ts' Hc _ IH]; [constructor|].
  destruct Hc as [x y Hx Hy Hs| | |]; [|exact IH|exact IH|exact IH].
  change (x :: ts) with ([x] ++ ts). change (y :: ts') with ([y] ++ ts'). rewrite !plain_app.
  rewrite (plain_all [x]), (plain_all [y]) by (repeat constructor; auto). now constructor.
Qed.
Lemma bound_finder : forall sc ts ts' x o, finder x ts = finder x ts' -> Bound sc ts x o -> Bound sc ts' x o.
Proof.
  intros sc ts ts' x o Hf H.
  destruct H as [sc ts x H|sc ts x v imm v0 H|sc ts x v ovr H|sc ts x s m ovr H|sc ts x v ovr t H];
    (apply finder_none in H || apply finder_last in H); rewrite Hf in H; (apply finder_none in H || apply finder_last in H).
  - now apply Bound_outer.
  - eapply Bound_kept; eauto.
  - eapply Bound_lazy; eauto.
  - eapply Bound_literal; eauto.
  - eapply Bound_immediate; eauto.
Qed.

Lemma seq_tokens : forall sc ts ts' sep m t, Forall2 Token ts ts' -> Body sc (Seq ts sep m) t -> Body sc (Seq ts' sep m) t.
Proof.
  intros sc ts ts' sep m t H Hb. inversion Hb as [|sc0 tokens sep0 m0 sc1 toks parts t0 Hs Hx Hp Ha Hc Hg| | | | | | | |]; subst.
  destruct moved as (_ & _ & Hall & _ & Hbound & _).
  apply B_seq with (sc' := moved_var sc ts' sc1) (toks := plain ts') (parts := parts); auto.
  - intros x. cbn. exact (proj1 (Hbound _ _ _ _ (Hx x) sc ts' (Scopes_refl sc) H)).
  - now apply plain_iff.
  - apply plain_iff in Hp. subst toks. eapply all_same; [apply plain_tokens; exact H|].
    apply (Hall _ _ _ Ha). split; [repeat split|]. intros x. cbn.
    exact (proj2 (Hbound _ _ _ _ (Hx x) sc ts' (Scopes_refl sc) H)).
Qed.
Lemma Token_sym : forall x y, Token x y -> Token y x.
Proof. intros x y H. destruct H; [apply Token_plain|apply Token_lazy|apply Token_now|apply Token_same]; auto using Same_sym. Qed.
Lemma Tokens_sym : forall ts ts', Forall2 Token ts ts' -> Forall2 Token ts' ts.
Proof. induction 1; constructor; auto using Token_sym. Qed.
Lemma same_seq : forall ts ts' sep m, Forall2 Token ts ts' -> Same (Seq ts sep m) (Seq ts' sep m).
Proof.
  intros ts ts' sep m H. apply same_body; [reflexivity| | |].
  - rewrite !nonempty_seq. destruct H; split; congruence.
  - intros sc t. split; apply seq_tokens; [exact H|now apply Tokens_sym].
  - intros sc. split; intros K; destruct (void_seq _ _ _ _ K).
Qed.
Lemma token_at : forall pre x y post, Token x y -> Forall2 Token (pre ++ x :: post) (pre ++ y :: post).
Proof. intros pre x y post H. apply Forall2_app; [apply Tokens_refl|constructor; [exact H|apply Tokens_refl]]. Qed.

Lemma interleave_nil : forall l, interleave [] l = concat l.
Proof. intros [|x l]; [reflexivity|]. reflexivity. Qed.
Lemma glued_nil : forall l t, Glued [] l t <-> t = concat l.
Proof.
  intros l t. split.
  - inversion 1; subst; [cbn; now rewrite app_nil_r|reflexivity|contradiction].
  - intros ->. now apply Glued_plain.
Qed.
Lemma seq_plain : forall sc ts m t, Body sc (Seq ts [] m) t <->
  exists sc1 parts, SameBut sc sc1 /\ (forall x, Bound sc ts x (sc_var sc1 x)) /\
    Forall2 (Produces sc1) (plain ts) parts /\ t = concat parts.
Proof.
  intros sc ts m t. split.
  - intros Hb. inversion Hb as [|sc0 tokens sep0 m0 sc1 toks parts t0 Hs Hx Hp Ha Hc Hg| | | | | | | |]; subst.
    exists sc1, parts. apply plain_iff in Hp. subst toks. split; [exact Hs|split; [exact Hx|split; [now apply all_iff|]]].
    destruct (sc_method sc) eqn:Hm; [apply glued_nil; now apply Hg| |apply glued_nil; now apply Hg].
    rewrite <- interleave_nil. now apply Hc.
  - intros (sc1 & parts & Hs & Hx & Ha & ->).
    apply B_seq with (sc' := sc1) (toks := plain ts) (parts := parts); auto.
    + now apply plain_iff.
    + now apply all_iff.
    + intros _. now rewrite interleave_nil.
    + intros _. now apply glued_nil.
Qed.
Lemma finder_plain : forall x ts, Forall (fun c => ~ is_assign c) ts -> finder x ts = None.
Proof.
  intros x ts H. apply finder_none. intros v i o K. apply (proj1 (Forall_forall _ _) H _ K). do 4 eexists. reflexivity.
Qed.
Lemma seq_calm : forall sc ts m t, Forall (fun c => ~ is_assign c) ts ->
  (Body sc (Seq ts [] m) t <-> exists parts, Forall2 (Produces sc) ts parts /\ t = concat parts).
Proof.
  intros sc ts m t H. rewrite seq_plain, (plain_all _ H). destruct moved as (_ & _ & Hall & _). split.
  - intros (sc1 & parts & Hs & Hx & Ha & ->). exists parts. split; [|reflexivity].
    apply all_iff. apply all_iff in Ha. apply (Hall _ _ _ Ha). split.
    + destruct Hs as (H1 & H2 & H3). repeat split; congruence.
    + intros x. apply (bound_finder sc ts [] x) in Hx; [|now rewrite finder_plain].
      inversion Hx as [? ? ? Hn Hz| | | |]; subst; [apply OSame_refl| | | |];
      match goal with K : LastAssign _ [] _ _ _ |- _ => destruct K as ([|? ?] & ? & K & _); discriminate end.
  - intros (parts & Ha & ->). exists sc, parts. split; [repeat split|split; [|split; [exact Ha|reflexivity]]].
    intros x. apply Bound_outer. apply finder_none. now apply finder_plain.
Qed.

(** * Variants *)
Lemma glued_none : forall sep t, Glued sep [] t <-> t = [].
Proof.
  intros sep t. split.
  - inversion 1 as [|ts Hs|ts mid u Hl Hs Hd Ht]; subst; [reflexivity|].
    assert (mid = []) as ->.
    { destruct Hd as [K|[_ K]]; [|exact K]. destruct sep; [now destruct Hs|discriminate]. }
    destruct Ht as [K|[_ K]]; [|exact K]. destruct t; [reflexivity|discriminate].
  - intros ->. destruct sep as [|c sep]; [now apply (Glued_plain [] [])|].
    apply Glued_many with (mid := []); [discriminate|discriminate| |]; right; (split; [|reflexivity]).
    + intros (q & K). discriminate.
    + intros (q & K). destruct q; discriminate.
Qed.
Lemma glued_single : forall sep x t, Glued sep [x] t <-> t = x.
Proof.
  intros sep x t. split.
  - inversion 1 as [|ts Hs|ts mid u Hl Hs Hd Ht]; subst; [reflexivity|cbn; now rewrite app_nil_r|now destruct Hl].
  - intros ->. constructor.
Qed.

(** What one chosen option gives. *)
Definition Gives (sc : scope) (v : command) (t : text) : Prop :=
  Produces sc v t \/ sc_method sc = Cyclical /\ Void sc v /\ t = [].
Lemma clamp_one : forall n, n <> 0 -> clamp n (Z.min 1 1) = 1%Z /\ clamp n (Z.max 1 1) = 1%Z.
Proof. intros n H. unfold clamp. lia. Qed.
Lemma length_some : forall (os : list (command * Qc)), os <> [] -> length os <> 0.
Proof. now intros [|]. Qed.
Lemma var_one : forall sc os sep m t, ~ lone_wildcard os -> os <> [] -> weighty os ->
  (Body sc (Var os 1 1 sep m) t <-> exists v, In v (map fst os) /\ Gives sc v t).
Proof.
  intros sc os sep m t Hl Hn Hw. destruct (clamp_one _ (length_some _ Hn)) as [C1 C2]. split.
  - intros Hb. inversion Hb as [| |sc0 os0 lo hi sep0 m0 sel rest parts t0 _ _ _ Hp Hc _ Ha _ Hg
      |sc0 os0 lo hi sep0 m0 sel v sel' rest parts t0 _ Hm Hp Hc Ha Hv Hg
      |sc0 v q lo hi sep0 m0 t0 Hm _ Hv|sc0 w mw vars q lo hi sep0 m0 path opts t0 n _ _ _ _| | | |]; subst.
    + rewrite C1, C2 in Hc. destruct sel as [|v [|? ?]]; cbn in Hc; try lia.
      apply all_iff in Ha. inversion Ha as [|? x ? l Hv Hr]; subst. inversion Hr; subst.
      apply glued_single in Hg. subst. exists v. split; [|now left].
      eapply Permutation_in; [symmetry; exact Hp|now left].
    + rewrite C1, C2 in Hc. rewrite app_length in Hc. cbn in Hc. destruct sel; [|cbn in Hc; lia].
      apply all_iff in Ha. inversion Ha; subst. apply glued_none in Hg. subst. exists v. split; [|now right].
      eapply Permutation_in; [symmetry; exact Hp|now left].
    + exists v. split; [now left|now left].
    + destruct Hl. repeat eexists.
  - intros (v & Hv & [Ht|(Hm & Hd & ->)]).
    + assert (Hch : (sc_method sc = Random -> length os <> 1) -> Body sc (Var os 1 1 sep m) t).
      { intros H1. apply in_split in Hv as (a & b & Hab).
        apply B_choice with (sel := [v]) (rest := a ++ b) (parts := [t]); auto.
        - rewrite Hab. symmetry. exact (Permutation_middle a b v).
        - rewrite C1, C2. cbn. lia.
        - intros _ v' sel' [= <- <-].
          assert (Hin : In v (map fst os)) by (rewrite Hab; apply in_or_app; right; now left).
          apply in_map_iff in Hin as ([v0 q] & <- & Hin). exists q. split; [exact Hin|].
          exact (proj1 (Forall_forall _ _) Hw _ Hin).
        - apply all_iff. constructor; [exact Ht|constructor].
        - intros _. repeat constructor. intros [].
        - constructor. }
      destruct os as [|[v0 q] [|o os]]; [now destruct Hn| |apply Hch; discriminate].
      destruct (sc_method sc) eqn:Hm; [|apply Hch; discriminate|apply Hch; discriminate].
      destruct Hv as [<-|[]]. now apply B_single.
    + apply in_split in Hv as (a & b & Hab).
      apply B_cut with (sel := []) (v := v) (sel' := []) (rest := a ++ b) (parts := []); auto.
      * rewrite Hab. symmetry. exact (Permutation_middle a b v).
      * rewrite C1, C2. cbn. lia.
      * constructor.
      * now apply glued_none.
Qed.
Lemma var_chosen : forall sc os lo hi sep m t, 2 <= length os -> sc_method sc <> Cyclical -> Body sc (Var os lo hi sep m) t ->
  exists sel rest parts, Permutation (map fst os) (sel ++ rest) /\
    (clamp (length os) (Z.min lo hi) <= Z.of_nat (length sel) <= clamp (length os) (Z.max lo hi))%Z /\
    (sc_method sc = Random -> forall v sel', sel = v :: sel' -> exists q, In (v, q) os /\ (0 < q)%Qc) /\
    Forall2 (Produces sc) sel parts /\ Glued sep parts t.
Proof.
  intros sc os lo hi sep m t Hl Hm Hb. inversion Hb as [| |sc0 os0 lo0 hi0 sep0 m0 sel rest parts t0 _ _ _ Hp Hc Hq Ha _ Hg
      |sc0 os0 lo0 hi0 sep0 m0 sel v sel' rest parts t0 _ Hcy Hp Hc Ha Hv Hg
      |sc0 v q lo0 hi0 sep0 m0 t0 _ _ Hv|sc0 w mw vars q lo0 hi0 sep0 m0 path opts t0 n _ _ _ _| | | |]; subst;
    [|contradiction|cbn in Hl; lia|cbn in Hl; lia].
  exists sel, rest, parts. apply all_iff in Ha. auto.
Qed.
Lemma var_void : forall sc os lo hi sep m, ~ lone_wildcard os -> os <> [] ->
  (VoidBody sc (Var os lo hi sep m) <-> sc_method sc = Random /\ exists v q, os = [(v, q)] /\ Void sc v).
Proof.
  intros sc os lo hi sep m Hl Hn. split.
  - intros H. inversion H; subst; [now destruct Hn|eauto|]. destruct Hl. repeat eexists.
  - intros (Hm & v & q & -> & Hv). now apply V_single.
Qed.
Lemma solid_void : forall sc x, Solid x -> ~ Void sc x.
Proof.
  intros sc x Hx H. apply void_iff in H. destruct x; try contradiction; inversion H; subst; cbn in Hx; lia.
Qed.

Lemma variants : forall os os' sep m, ~ lone_wildcard os -> ~ lone_wildcard os' -> os <> [] -> os' <> [] ->
  weighty os -> weighty os' ->
  (forall sc t, (exists v, In v (map fst os) /\ Gives sc v t) <-> (exists v, In v (map fst os') /\ Gives sc v t)) ->
  (forall sc, sc_method sc = Random -> ((exists v q, os = [(v, q)] /\ Void sc v) <-> (exists v q, os' = [(v, q)] /\ Void sc v))) ->
  Same (Var os 1 1 sep m) (Var os' 1 1 sep m).
Proof.
  intros os os' sep m L L' N N' W W' H Hv. apply same_body; [reflexivity| | |].
  - rewrite !nonempty_var. now split.
  - intros sc t. rewrite !var_one by assumption. apply H.
  - intros sc. rewrite !var_void by assumption. split; intros [Hm K]; (split; [exact Hm|]); now apply (Hv sc Hm).
Qed.
Lemma weighty_app : forall a b, weighty (a ++ b) <-> weighty a /\ weighty b.
Proof. intros a b. apply Forall_app. Qed.
Lemma weighty_cons : forall o a, weighty (o :: a) <-> (0 < snd o)%Qc /\ weighty a.
Proof. intros o a. apply Forall_cons_iff. Qed.
Lemma single_middle : forall (A : Type) (a b : list A) x y, a ++ x :: b = [y] -> a = [] /\ b = [] /\ x = y.
Proof.
  intros A [|z a] b x y H; cbn in H; injection H as H1 H2; [auto|]. destruct a; discriminate.
Qed.

Lemma same_nested : forall pre os os' q post sep sep' m m', quiet m' -> os <> [] -> ~ lone_wildcard os ->
  map fst os' = map fst os -> weighty (pre ++ (Var os 1 1 sep' m', q) :: post) -> weighty os -> weighty os' ->
  Same (Var (pre ++ (Var os 1 1 sep' m', q) :: post) 1 1 sep m) (Var (pre ++ os' ++ post) 1 1 sep m).
Proof.
  intros pre os os' q post sep sep' m m' Hm Hn Hl Hf Hw Wo Wo'.
  assert (He : forall sc, enter sc (Var os 1 1 sep' m') = sc) by (intros sc; now apply enter_quiet).
  assert (N' : os' <> []) by (intros ->; destruct os; [now apply Hn|discriminate]).
  apply weighty_app in Hw as [W1 W2]. apply weighty_cons in W2 as [Wq W2].
  apply variants.
  - intros (w & mw & vs & q0 & K). apply single_middle in K as (_ & _ & K). discriminate.
  - intros (w & mw & vs & q0 & K). destruct os' as [|[v' q'] os']; [now destruct N'|]. cbn in K.
    apply single_middle in K as (-> & K & K'). apply app_eq_nil in K as [-> ->]. injection K' as -> ->.
    destruct os as [|[v qv] [|? ?]]; try discriminate. cbn in Hf. injection Hf as <-. apply Hl. repeat eexists.
  - destruct pre; discriminate.
  - destruct pre; [|discriminate]. destruct os'; [now destruct N'|discriminate].
  - apply weighty_app. split; [exact W1|]. now apply weighty_cons.
  - apply weighty_app. split; [exact W1|]. now apply weighty_app.
  - intros sc t. rewrite !map_app, Hf. cbn [map fst].
    assert (Hin : Gives sc (Var os 1 1 sep' m') t <-> exists v, In v (map fst os) /\ Gives sc v t).
    { rewrite <- (var_one sc os sep' m' t Hl Hn Wo). unfold Gives at 1. rewrite produces_iff, void_iff, He, var_void by assumption.
      split; [|auto]. intros [K|(K & (K' & _) & _)]; [exact K|congruence]. }
    split.
    + intros (v & Hv & Hg). apply in_app_iff in Hv as [Hv|[<-|Hv]].
      * exists v. rewrite in_app_iff. auto.
      * apply Hin in Hg as (v & Hv & Hg). exists v. rewrite !in_app_iff. auto.
      * exists v. rewrite !in_app_iff. auto.
    + intros (v & Hv & Hg). apply in_app_iff in Hv as [Hv|Hv]; [|apply in_app_iff in Hv as [Hv|Hv]].
      * exists v. rewrite in_app_iff. auto.
      * exists (Var os 1 1 sep' m'). rewrite in_app_iff. split; [right; now left|]. apply Hin. eauto.
      * exists v. rewrite in_app_iff. cbn. auto.
  - intros sc Hr. split.
    + intros (v & q0 & K & Hv). apply single_middle in K as (-> & -> & [= <- <-]).
      apply void_iff in Hv. rewrite He in Hv. apply var_void in Hv as (_ & v & q1 & -> & Hv); [|assumption|assumption].
      destruct os' as [|[v' q'] [|? ?]]; try discriminate. cbn in Hf. injection Hf as <-. exists v', q'. auto.
    + intros (v & q0 & K & Hv). destruct os' as [|[v' q'] os']; [now destruct N'|]. cbn in K.
      apply single_middle in K as (-> & K & [= -> ->]). apply app_eq_nil in K as [-> ->].
      destruct os as [|[v1 q1] [|? ?]]; try discriminate. cbn in Hf. injection Hf as <-.
      do 2 eexists. split; [reflexivity|]. apply void_iff. rewrite He. apply var_void; [assumption|assumption|]. split; [exact Hr|eauto].
Qed.

Lemma same_repeated : forall pre v q mid q' post sep m,
  ~ lone_wildcard (pre ++ (v, q) :: mid ++ post) -> Solid v \/ pre ++ mid ++ post <> [] ->
  weighty (pre ++ (v, q) :: mid ++ (v, q') :: post) ->
  Same (Var (pre ++ (v, q) :: mid ++ (v, q') :: post) 1 1 sep m) (Var (pre ++ (v, q) :: mid ++ post) 1 1 sep m).
Proof.
  intros pre v q mid q' post sep m Hl Hs Hw. apply variants.
  - intros (w & mw & vs & q0 & K). apply single_middle in K as (_ & K & _). destruct mid; discriminate.
  - exact Hl.
  - destruct pre; discriminate.
  - destruct pre; discriminate.
  - exact Hw.
  - rewrite weighty_app, weighty_cons, weighty_app in Hw |- *. rewrite weighty_cons in Hw. tauto.
  - intros sc t. split; intros (u & Hu & Hg); exists u; (split; [|exact Hg]); revert Hu;
      rewrite !map_app; cbn [map fst]; rewrite !map_app; cbn [map fst]; rewrite !in_app_iff; cbn [In]; rewrite !in_app_iff; cbn [In]; tauto.
  - intros sc _. split; intros (u & q0 & K & Hu); apply single_middle in K as (-> & K & [= -> ->]).
    + destruct mid; discriminate.
    + apply app_eq_nil in K as [-> ->]. destruct Hs as [Hs|Hs]; [destruct (solid_void sc u Hs Hu)|now destruct Hs].
Qed.

(** Options that mean the same, whatever the number to choose. *)
Lemma perm_related : forall (A : Type) (R : A -> A -> Prop) l l', Permutation l l' -> forall k, Forall2 R l k ->
  exists k', Permutation k k' /\ Forall2 R l' k'.
Proof.
  intros A R l l' H. induction H as [|x l l' _ IH|x y l|l l' l'' _ IH1 _ IH2]; intros k Hk.
  - inversion Hk; subst. exists []. auto.
  - inversion Hk as [|? z ? k0 Hx Hk0]; subst. destruct (IH _ Hk0) as (k' & Hp & Hf). exists (z :: k'). auto.
  - inversion Hk as [|? z ? k0 Hx Hk0]; subst. inversion Hk0 as [|? z' ? k1 Hy Hk1]; subst.
    exists (z' :: z :: k1). split; [constructor|auto].
  - destruct (IH1 _ Hk) as (k' & Hp & Hf). destruct (IH2 _ Hf) as (k'' & Hp' & Hf').
    exists k''. split; [now transitivity k'|exact Hf'].
Qed.
Definition Option (a b : command * Qc) : Prop := Same (fst a) (fst b).
Lemma options_body : forall sc os os' lo hi sep m t, Forall2 Option os os' -> weighty os' ->
  ~ lone_wildcard os -> ~ lone_wildcard os' ->
  Body sc (Var os lo hi sep m) t -> Body sc (Var os' lo hi sep m) t.
Proof.
  intros sc os os' lo hi sep m t H Hw Hl Hl' Hb.
  assert (Hmap : Forall2 Same (map fst os) (map fst os')) by (clear -H; induction H; constructor; auto).
  assert (Hlen : length os' = length os) by (clear -H; induction H; cbn; congruence).
  inversion Hb as [| |sc0 os0 lo0 hi0 sep0 m0 sel rest parts t0 _ Hn H1 Hp Hc Hq Ha Hd Hg
      |sc0 os0 lo0 hi0 sep0 m0 sel v sel' rest parts t0 _ Hm Hp Hc Ha Hv Hg
      |sc0 v q lo0 hi0 sep0 m0 t0 Hm _ Hv|sc0 w mw vars q lo0 hi0 sep0 m0 path opts t0 n _ _ _ _| | | |]; subst.
  - destruct (perm_related _ Same _ _ Hp _ Hmap) as (k & Hk & Hf).
    apply Forall2_app_inv_l in Hf as (sel1 & rest1 & Hf1 & _ & ->).
    assert (Hs : length sel1 = length sel) by (clear -Hf1; induction Hf1; cbn; congruence).
    apply B_choice with (sel := sel1) (rest := rest1) (parts := parts); auto.
    + intros ->. destruct os; [now apply Hn|discriminate].
    + now rewrite Hlen.
    + now rewrite Hlen, Hs.
    + intros _ v l ->. assert (Hin : In v (map fst os')) by (eapply Permutation_in; [symmetry; exact Hk|now left]).
      apply in_map_iff in Hin as ([v0 q] & <- & Hin). exists q. split; [exact Hin|].
      exact (proj1 (Forall_forall _ _) Hw _ Hin).
    + eapply all_same; eauto.
  - destruct (perm_related _ Same _ _ Hp _ Hmap) as (k & Hk & Hf).
    apply Forall2_app_inv_l in Hf as (sel1 & rest1 & Hf1 & _ & ->).
    assert (Hs : length sel1 = length (sel ++ v :: sel')) by (clear -Hf1; induction Hf1; cbn; congruence).
    apply Forall2_app_inv_l in Hf1 as (sela & selb & Hfa & Hfb & ->). inversion Hfb as [|? v1 ? selc Hv1 Hfc]; subst.
    apply B_cut with (sel := sela) (v := v1) (sel' := selc) (rest := rest1) (parts := parts); auto.
    + now rewrite Hlen, Hs.
    + eapply all_same; eauto.
    + now apply (same_void _ _ Hv1).
  - inversion H as [|? [v1 q1] ? l Hv1 Hr]; subst. inversion Hr; subst. apply B_single; auto. now apply (same_texts _ _ Hv1).
  - destruct Hl. repeat eexists.
Qed.
Lemma Options_sym : forall os os', Forall2 Option os os' -> Forall2 Option os' os.
Proof. induction 1; constructor; auto. now apply Same_sym. Qed.
Lemma same_options : forall os os' lo hi sep m, Forall2 Option os os' -> weighty os -> weighty os' ->
  ~ lone_wildcard os -> ~ lone_wildcard os' -> Same (Var os lo hi sep m) (Var os' lo hi sep m).
Proof.
  intros os os' lo hi sep m H W W' L L'. apply same_body; [reflexivity| | |].
  - rewrite !nonempty_var. destruct H; split; congruence.
  - intros sc t. split; apply options_body; auto using Options_sym.
  - intros sc. destruct H as [|[v q] [v' q'] os os' Hv Hr]; [split; intros; constructor|].
    rewrite !var_void by (auto; discriminate). split; intros (Hm & u & qu & [= -> -> ->] & Hu); (split; [exact Hm|]); inversion Hr; subst.
    + exists v', q'. split; [reflexivity|]. now apply (same_void _ _ Hv).
    + exists v, q. split; [reflexivity|]. now apply (same_void _ _ Hv).
Qed.
Lemma option_at : forall pre x y q post, Same x y -> Forall2 Option (pre ++ (x, q) :: post) (pre ++ (y, q) :: post).
Proof.
  intros pre x y q post H. assert (R : forall l, Forall2 Option l l) by (induction l; constructor; auto; apply Same_refl).
  apply Forall2_app; [apply R|constructor; [exact H|apply R]].
Qed.

(** Other weights. *)
Lemma weights_body : forall sc os os' lo hi sep m t, map fst os = map fst os' -> weighty os' ->
  Body sc (Var os lo hi sep m) t -> Body sc (Var os' lo hi sep m) t.
Proof.
  intros sc os os' lo hi sep m t H Hw Hb.
  assert (Hlen : length os' = length os) by (rewrite <- (map_length fst os), H; symmetry; apply map_length).
  assert (Hlone : forall os os', map fst os = map fst os' -> ~ lone_wildcard os -> ~ lone_wildcard os').
  { clear. intros os os' H Hl (w & mw & vs & q & ->). destruct os as [|[v qv] [|? ?]]; try discriminate.
    cbn in H. injection H as ->. apply Hl. repeat eexists. }
  inversion Hb as [| |sc0 os0 lo0 hi0 sep0 m0 sel rest parts t0 Hl Hn H1 Hp Hc Hq Ha Hd Hg
      |sc0 os0 lo0 hi0 sep0 m0 sel v sel' rest parts t0 Hl Hm Hp Hc Ha Hv Hg
      |sc0 v q lo0 hi0 sep0 m0 t0 Hm Hl Hv|sc0 w mw vars q lo0 hi0 sep0 m0 path opts t0 n Hp Ho Hn Hbo| | | |]; subst.
  - apply B_choice with (sel := sel) (rest := rest) (parts := parts); auto.
    + eauto.
    + intros ->. destruct os; [now apply Hn|discriminate].
    + now rewrite Hlen.
    + now rewrite <- H.
    + now rewrite Hlen.
    + intros _ v l ->. assert (Hin : In v (map fst os')) by (rewrite <- H; eapply Permutation_in; [symmetry; exact Hp|now left]).
      apply in_map_iff in Hin as ([v0 q] & <- & Hin). exists q. split; [exact Hin|].
      exact (proj1 (Forall_forall _ _) Hw _ Hin).
  - apply B_cut with (sel := sel) (v := v) (sel' := sel') (rest := rest) (parts := parts); auto.
    + eauto.
    + now rewrite <- H.
    + now rewrite Hlen.
  - destruct os' as [|[v' q'] [|? ?]]; try discriminate. cbn in H. injection H as <-. apply B_single; auto.
    intros (w & mw & vs & q0 & [= -> ->]). apply Hl. repeat eexists.
  - destruct os' as [|[v' q'] [|? ?]]; try discriminate. cbn in H. injection H as <-.
    eapply B_lone; eauto.
Qed.
Lemma weights_void : forall sc os os' lo hi sep m, map fst os = map fst os' ->
  VoidBody sc (Var os lo hi sep m) -> VoidBody sc (Var os' lo hi sep m).
Proof.
  intros sc os os' lo hi sep m H Hb. inversion Hb as [|sc0 v q ? ? ? ? Hm Hl Hv|sc0 w mw vars q ? ? ? ? path opts lo' hi' Hp Ho Hv| | | |]; subst.
  - destruct os'; [constructor|discriminate].
  - destruct os' as [|[v' q'] [|? ?]]; try discriminate. cbn in H. injection H as <-. apply V_single; auto.
    intros (w & mw & vs & q0 & [= -> ->]). apply Hl. repeat eexists.
  - destruct os' as [|[v' q'] [|? ?]]; try discriminate. cbn in H. injection H as <-. eapply V_lone; eauto.
Qed.
Lemma same_weights : forall os os' lo hi sep m, map fst os = map fst os' -> weighty os -> weighty os' ->
  Same (Var os lo hi sep m) (Var os' lo hi sep m).
Proof.
  intros os os' lo hi sep m H W W'. apply same_body; [reflexivity| | |].
  - rewrite !nonempty_var. destruct os, os'; try discriminate; split; congruence.
  - intros sc t. split; apply weights_body; auto.
  - intros sc. split; apply weights_void; auto.
Qed.
(** Another order. *)
Lemma lone_perm : forall os os', Permutation os os' -> lone_wildcard os -> lone_wildcard os'.
Proof. intros os os' H (w & mw & vs & q & ->). apply Permutation_length_1_inv in H. subst. repeat eexists. Qed.
Lemma order_body : forall sc os os' lo hi sep m t, Permutation os os' ->
  Body sc (Var os lo hi sep m) t -> Body sc (Var os' lo hi sep m) t.
Proof.
  intros sc os os' lo hi sep m t H Hb.
  pose proof (Permutation_length H) as Hlen. pose proof (Permutation_map fst H) as Hmap.
  inversion Hb as [| |sc0 os0 lo0 hi0 sep0 m0 sel rest parts t0 Hl Hn H1 Hp Hc Hq Ha Hd Hg
      |sc0 os0 lo0 hi0 sep0 m0 sel v sel' rest parts t0 Hl Hm Hp Hc Ha Hv Hg
      |sc0 v q lo0 hi0 sep0 m0 t0 Hm Hl Hv|sc0 w mw vars q lo0 hi0 sep0 m0 path opts t0 n Hp Ho Hn Hbo| | | |]; subst.
  - apply B_choice with (sel := sel) (rest := rest) (parts := parts); auto.
    + intros K. apply Hl. now apply (lone_perm os' os (Permutation_sym H)).
    + intros ->. apply Hn. now apply Permutation_nil, Permutation_sym.
    + now rewrite <- Hlen.
    + now rewrite <- Hmap.
    + now rewrite <- Hlen.
    + intros Hr v l Hs. destruct (Hq Hr v l Hs) as (q & Hin & Hpos). exists q. split; [|exact Hpos]. now apply (Permutation_in _ H).
  - apply B_cut with (sel := sel) (v := v) (sel' := sel') (rest := rest) (parts := parts); auto.
    + intros K. apply Hl. now apply (lone_perm os' os (Permutation_sym H)).
    + now rewrite <- Hmap.
    + now rewrite <- Hlen.
  - apply Permutation_length_1_inv in H. now subst.
  - apply Permutation_length_1_inv in H. now subst.
Qed.
Lemma order_void : forall sc os os' lo hi sep m, Permutation os os' ->
  VoidBody sc (Var os lo hi sep m) -> VoidBody sc (Var os' lo hi sep m).
Proof.
  intros sc os os' lo hi sep m H Hb. inversion Hb; subst.
  - apply Permutation_nil in H. subst. constructor.
  - apply Permutation_length_1_inv in H. now subst.
  - apply Permutation_length_1_inv in H. now subst.
Qed.
Lemma same_order : forall os os' lo hi sep m, Permutation os os' -> Same (Var os lo hi sep m) (Var os' lo hi sep m).
Proof.
  intros os os' lo hi sep m H. apply same_body; [reflexivity| | |].
  - rewrite !nonempty_var. split; intros K ->; apply K; [now apply Permutation_nil, Permutation_sym|now apply Permutation_nil].
  - intros sc t. split; apply order_body; auto using Permutation_sym.
  - intros sc. split; apply order_void; auto using Permutation_sym.
Qed.

(** * Sequences inside sequences *)
Lemma bound_app : forall sc pre a b post x o, finder x a = finder x b ->
  Bound sc (pre ++ a ++ post) x o -> Bound sc (pre ++ b ++ post) x o.
Proof. intros sc pre a b post x o H. apply bound_finder. now rewrite !finder_app, H. Qed.
(** Replacing some parts by others that give the same texts, joined without
    a separator. *)
Lemma seq_swap : forall sc pre a b post m t, Forall (fun c => ~ is_assign c) a -> Forall (fun c => ~ is_assign c) b ->
  (forall sc1 u, (exists ps, Forall2 (Produces sc1) a ps /\ u = concat ps) -> exists ps, Forall2 (Produces sc1) b ps /\ u = concat ps) ->
  Body sc (Seq (pre ++ a ++ post) [] m) t -> Body sc (Seq (pre ++ b ++ post) [] m) t.
Proof.
  intros sc pre a b post m t Ha Hb H. rewrite !seq_plain. intros (sc1 & parts & Hs & Hx & Hp & ->).
  rewrite !plain_app, (plain_all _ Ha) in Hp.
  apply Forall2_app_inv_l in Hp as (p1 & r & H1 & Hr & ->). apply Forall2_app_inv_l in Hr as (p2 & p3 & H2 & H3 & ->).
  destruct (H sc1 (concat p2)) as (p2' & H2' & Hc); [now exists p2|].
  exists sc1, (p1 ++ p2' ++ p3). split; [exact Hs|split; [|split]].
  - intros x. apply (bound_app sc pre a b post); [now rewrite !finder_plain|apply Hx].
  - rewrite !plain_app, (plain_all _ Hb). now repeat apply Forall2_app.
  - now rewrite !concat_app, Hc.
Qed.
Lemma same_swap : forall pre a b post m, (pre ++ a ++ post <> [] <-> pre ++ b ++ post <> []) ->
  Forall (fun c => ~ is_assign c) a -> Forall (fun c => ~ is_assign c) b ->
  (forall sc u, (exists ps, Forall2 (Produces sc) a ps /\ u = concat ps) <-> exists ps, Forall2 (Produces sc) b ps /\ u = concat ps) ->
  Same (Seq (pre ++ a ++ post) [] m) (Seq (pre ++ b ++ post) [] m).
Proof.
  intros pre a b post m Hn Ha Hb H. apply same_body; [reflexivity| | |].
  - now rewrite !nonempty_seq.
  - intros sc t. split; apply seq_swap; auto; intros sc1 u; apply H.
  - intros sc. split; intros K; destruct (void_seq _ _ _ _ K).
Qed.
Lemma middle : forall (A : Type) (pre : list A) x post, pre ++ x :: post <> [].
Proof. intros A [|? ?] x post; discriminate. Qed.
Lemma single_parts : forall sc x u, (exists ps, Forall2 (Produces sc) [x] ps /\ u = concat ps) <-> Produces sc x u.
Proof.
  intros sc x u. split.
  - intros (ps & H & ->). inversion H as [|? p ? l Hp Hl]; subst. inversion Hl; subst. cbn. now rewrite app_nil_r.
  - intros H. exists [u]. split; [constructor; [exact H|constructor]|cbn; now rewrite app_nil_r].
Qed.
Lemma lit_text : forall sc s m t, Produces sc (Lit s m) t <-> t = s.
Proof. intros sc s m t. rewrite produces_iff. split; [now inversion 1|intros ->; constructor]. Qed.
Lemma not_assign : forall c, match c with Assign _ _ _ _ => False | _ => True end -> ~ is_assign c.
Proof. intros c H (n & v & i & o & ->). exact H. Qed.

Lemma same_grouped : forall pre ins post m, ins <> [] -> Forall (fun part => ~ is_assign part) ins ->
  Same (Seq (pre ++ Seq ins [] None :: post) [] m) (Seq (pre ++ ins ++ post) [] m).
Proof.
  intros pre ins post m Hn Hi. apply (same_swap pre [Seq ins [] None] ins post m); auto; [|repeat constructor; now apply not_assign|].
  { split; intros _; [destruct ins; [now destruct Hn|]|]; apply middle. }
  intros sc u. rewrite single_parts, produces_iff, enter_quiet by now left. now apply seq_calm.
Qed.
Lemma same_joined : forall pre a b post m,
  Same (Seq (pre ++ Lit a None :: Lit b None :: post) [] m) (Seq (pre ++ Lit (a ++ b) None :: post) [] m).
Proof.
  intros pre a b post m. apply (same_swap pre [Lit a None; Lit b None] [Lit (a ++ b) None] post m);
    [split; intros _; apply middle|repeat constructor; now apply not_assign|repeat constructor; now apply not_assign|].
  intros sc u. rewrite single_parts, lit_text. split.
  - intros (ps & H & ->). inversion H as [|? p ? l Hp Hl]; subst. inversion Hl as [|? p' ? l' Hp' Hl']; subst. inversion Hl'; subst.
    apply lit_text in Hp, Hp'. subst. cbn. now rewrite app_nil_r.
  - intros ->. exists [a; b]. split; [repeat (constructor; [now apply lit_text|]); constructor|cbn; now rewrite app_nil_r].
Qed.
Lemma same_blank : forall pre post m, pre ++ post <> [] -> Same (Seq (pre ++ Lit [] None :: post) [] m) (Seq (pre ++ post) [] m).
Proof.
  intros pre post m Hn. apply (same_swap pre [Lit [] None] [] post m); [|repeat constructor; now apply not_assign|constructor|].
  { split; intros _; [exact Hn|apply middle]. }
  intros sc u. rewrite single_parts, lit_text. split.
  - intros ->. exists []. split; [constructor|reflexivity].
  - intros (ps & H & ->). now inversion H.
Qed.
Lemma same_alone : forall x sep, Solid x -> Nonempty x -> Same (Seq [x] sep None) x.
Proof.
  intros x sep Hs Hn.
  assert (Hx : Forall (fun c => ~ is_assign c) [x]) by (repeat constructor; apply not_assign; now destruct x).
  assert (He : forall sc, enter sc (Seq [x] sep None) = sc) by (intros; apply enter_quiet; now left).
  destruct moved as (Hmove & _).
  split.
  - rewrite nonempty_seq. split; [auto|discriminate].
  - intros sc t. rewrite produces_iff, He. split.
    + intros Hb. apply single_parts, (seq_calm sc [x] None t Hx).
      inversion Hb as [|sc0 tokens sep0 m0 sc1 toks parts t0 Hsb Hbd Hp Ha Hc Hg| | | | | | | |]; subst.
      apply plain_iff in Hp. rewrite (plain_all _ Hx) in Hp. subst toks.
      apply all_iff in Ha. inversion Ha as [|? p ? l Hp Hl]; subst. inversion Hl; subst.
      assert (t = p) as ->.
      { destruct (sc_method sc) eqn:Hm; [|rewrite Hc by reflexivity; cbn; apply app_nil_r|]; apply (glued_single sep); apply Hg; discriminate. }
      apply seq_plain. exists sc1, [p]. rewrite (plain_all _ Hx). split; [exact Hsb|split; [exact Hbd|split; [exact Ha|cbn; now rewrite app_nil_r]]].
    + intros H. apply B_seq with (sc' := sc) (toks := [x]) (parts := [t]).
      * repeat split.
      * intros y. apply Bound_outer. apply finder_none. now apply finder_plain.
      * apply plain_iff. now rewrite plain_all.
      * apply all_iff. constructor; [exact H|constructor].
      * intros _. cbn. now rewrite app_nil_r.
      * intros _. constructor.
  - intros sc. split; intros K; [|destruct (solid_void _ _ Hs K)]. apply void_iff in K. destruct (void_seq _ _ _ _ K).
Qed.

Lemma three_parts : forall sc a v d t,
  (exists ps, Forall2 (Produces sc) [Lit a None; v; Lit d None] ps /\ t = concat ps) <->
  exists u, Produces sc v u /\ t = a ++ u ++ d.
Proof.
  intros sc a v d t. split.
  - intros (ps & H & ->). inversion H as [|? p ? l Hp Hl]; subst. inversion Hl as [|? p' ? l' Hp' Hl']; subst.
    inversion Hl' as [|? p'' ? l'' Hp'' Hl'']; subst. inversion Hl''; subst. apply lit_text in Hp, Hp''. subst.
    exists p'. split; [exact Hp'|cbn; now rewrite app_nil_r].
  - intros (u & Hu & ->). exists [a; u; d]. split; [|cbn; now rewrite app_nil_r].
    constructor; [now apply lit_text|constructor; [exact Hu|constructor; [now apply lit_text|constructor]]].
Qed.
Lemma solid_plain : forall c, Solid c -> ~ is_assign c.
Proof. intros c H. apply not_assign. now destruct c. Qed.
Lemma same_spread : forall a os d sep m m', quiet m' -> os <> [] -> Forall (fun o => Solid (fst o)) os -> weighty os ->
  Same (Seq [Lit a None; Var os 1 1 sep m'; Lit d None] [] m)
       (Var (map (fun o => (Seq [Lit a None; fst o; Lit d None] [] None, snd o)) os) 1 1 sep m).
Proof.
  intros a os d sep m m' Hm Hn Hs Hw.
  assert (Hl : ~ lone_wildcard os).
  { intros (w & mw & vs & q & ->). inversion Hs as [|? ? K]; subst. exact K. }
  set (os' := map (fun o => (Seq [Lit a None; fst o; Lit d None] [] None, snd o)) os).
  assert (Hl' : ~ lone_wildcard os').
  { intros (w & mw & vs & q & K). unfold os' in K. destruct os as [|o [|? ?]]; discriminate. }
  assert (Hn' : os' <> []) by (unfold os'; destruct os; [now destruct Hn|discriminate]).
  assert (Hw' : weighty os').
  { unfold os', weighty. clear -Hw. induction Hw; constructor; auto. }
  assert (Hc : forall v, ~ is_assign v -> Forall (fun c => ~ is_assign c) [Lit a None; v; Lit d None]).
  { intros v Hv. constructor; [now apply not_assign|constructor; [exact Hv|constructor; [now apply not_assign|constructor]]]. }
  apply same_body; [reflexivity| | |].
  - rewrite nonempty_seq, nonempty_var. split; [auto|discriminate].
  - intros sc t. rewrite (seq_calm sc _ m t (Hc _ (not_assign (Var os 1 1 sep m') I))), three_parts, var_one by assumption.
    assert (Hin : forall v, In v (map fst os') <-> exists o, In o (map fst os) /\ v = Seq [Lit a None; o; Lit d None] [] None).
    { intros v. unfold os'. rewrite map_map. cbn [fst]. rewrite in_map_iff. split.
      - intros (o & <- & Ho). exists (fst o). split; [now apply in_map|reflexivity].
      - intros (o & Ho & ->). apply in_map_iff in Ho as (p & <- & Hp). eauto. }
    assert (Hsol : forall o, In o (map fst os) -> Solid o).
    { intros o Ho. apply in_map_iff in Ho as (p & <- & Hp). exact (proj1 (Forall_forall _ _) Hs _ Hp). }
    assert (Hseq : forall o u, Solid o -> (Produces sc (Seq [Lit a None; o; Lit d None] [] None) u <-> exists x, Produces sc o x /\ u = a ++ x ++ d)).
    { intros o u Ho. rewrite produces_iff, enter_quiet by now left. rewrite (seq_calm sc _ None u (Hc _ (solid_plain _ Ho))). apply three_parts. }
    split.
    + intros (u & Hu & ->). rewrite produces_iff, enter_quiet, var_one in Hu by assumption.
      destruct Hu as (o & Ho & [Hu|(_ & Hu & _)]); [|destruct (solid_void sc o (Hsol _ Ho) Hu)].
      eexists. split; [apply Hin; eauto|]. left. apply Hseq; eauto.
    + intros (v & Hv & Hg). apply Hin in Hv as (o & Ho & ->).
      destruct Hg as [Hu|(_ & Hu & _)]; [|apply void_iff in Hu; destruct (void_seq _ _ _ _ Hu)].
      apply Hseq in Hu as (x & Hx & ->); [|auto]. exists x. split; [|reflexivity].
      rewrite produces_iff, enter_quiet, var_one by assumption. exists o. split; [exact Ho|now left].
  - intros sc. rewrite var_void by assumption. split; [intros K; destruct (void_seq _ _ _ _ K)|].
    intros (_ & v & q & K & Hv). unfold os' in K. destruct os as [|o [|? ?]]; try discriminate. injection K as <- _.
    apply void_iff in Hv. destruct (void_seq _ _ _ _ Hv).
Qed.

(** * Inside larger templates *)
Lemma default_refers : forall sc n x y c, Same x y -> Refers sc n (Some x) c -> exists c', Refers sc n (Some y) c' /\ Same c c'.
Proof.
  intros sc n x y c Hs Hr. destruct Hr as [v Hv Hn|v Hv [= <-] Hn|v u Hv Hn Hk|u Hv Hd Hk].
  - exists v. split; [now apply Refers_var|apply Same_refl].
  - exists y. split; [|exact Hs]. apply Refers_default; auto. now apply (same_nonempty _ _ Hs).
  - exists u. split; [now apply Refers_unknown_var with (v := v)|apply Same_refl].
  - exists u. split; [|apply Same_refl]. apply Refers_unknown; auto. intros v [= <-]. rewrite <- (same_nonempty _ _ Hs). now apply Hd.
Qed.
Lemma same_default : forall n x y, Same x y -> Same (Access n (Some x)) (Access n (Some y)).
Proof.
  assert (D : forall n x y sc t, Same x y -> Body sc (Access n (Some x)) t -> Body sc (Access n (Some y)) t).
  { intros n x y sc t Hs Hb. inversion Hb; subst.
    match goal with K : Refers _ _ _ _ |- _ => destruct (default_refers _ _ _ _ _ Hs K) as (c' & Hr & Hc) end.
    apply B_access with (c := c'); [exact Hr|]. now apply (same_texts _ _ Hc). }
  assert (V : forall n x y sc, Same x y -> VoidBody sc (Access n (Some x)) -> VoidBody sc (Access n (Some y))).
  { intros n x y sc Hs Hb. inversion Hb; subst.
    match goal with K : Refers _ _ _ _ |- _ => destruct (default_refers _ _ _ _ _ Hs K) as (c' & Hr & Hc) end.
    apply V_access with (c := c'); [exact Hr|]. now apply (same_void _ _ Hc). }
  intros n x y H. apply same_body; [reflexivity|split; intros _; split; discriminate| |].
  - intros sc t. split; apply D; auto using Same_sym.
  - intros sc. split; apply V; auto using Same_sym.
Qed.
Lemma Givens_sym : forall a b, Forall2 Given a b -> Forall2 Given b a.
Proof. induction 1 as [|x y a b [Hn Hs]]; constructor; auto. split; [now symmetry|now apply Same_sym]. Qed.
Lemma same_given : forall w m vars vars', Forall2 Given vars vars' -> Same (Wild w m vars) (Wild w m vars').
Proof.
  assert (D : forall w m vars vars' sc t, Forall2 Given vars vars' -> Body sc (Wild w m vars) t -> Body sc (Wild w m vars') t).
  { destruct moved as (Hp & _ & _ & Hpath & _). intros w m vars vars' sc t H Hb.
    inversion Hb as [| | | | | |sc0 w0 m0 vars0 path sc1 v c t0 u P1 N1 He Hd Hr Ht Htd|sc0 w0 m0 vars0 path sc1 name t0 P1 N1 He Hw Hc Ht| |]; subst;
      destruct (extended _ _ _ _ _ (Scopes_refl sc) H He) as (sc1' & He' & H1).
    - apply B_wild with (path := path) (sc' := sc1') (v := v) (c := c) (t := t0); auto. eapply Hp; eauto.
    - apply B_missing with (path := path) (sc' := sc1') (name := name); auto. intros c Hw'. eapply Hpath; eauto. }
  assert (V : forall w m vars vars' sc, VoidBody sc (Wild w m vars) -> VoidBody sc (Wild w m vars')).
  { intros w m vars vars' sc H. inversion H; subst. eapply V_wild; eauto. }
  intros w m vars vars' H. apply same_body; [reflexivity|split; intros _; split; discriminate| |].
  - intros sc t. split; apply D; auto using Givens_sym.
  - intros sc. split; apply V.
Qed.
Lemma same_wrap : forall w w' i i' m, Same w w' -> Same i i' -> Same (Wrap w i m) (Wrap w' i' m).
Proof.
  assert (D : forall w w' i i' m sc t, Same w w' -> Same i i' -> Body sc (Wrap w i m) t -> Body sc (Wrap w' i' m) t).
  { intros w w' i i' m sc t Hw Hi Hb.
    inversion Hb as [| | | | | | | | |sc0 wr inn m0 tw ti uw ui b a Hm Hpw Hpi Tw Ti Hc]; subst.
    apply B_wrap with (tw := tw) (ti := ti) (uw := uw); auto; [now apply (same_texts _ _ Hw)|now apply (same_texts _ _ Hi)]. }
  assert (V : forall w w' i i' m sc, Same w w' -> Same i i' -> VoidBody sc (Wrap w i m) -> VoidBody sc (Wrap w' i' m)).
  { intros w w' i i' m sc Hw Hi Hb. inversion Hb; subst; [apply V_wrap_outer|apply V_wrap_inner]; auto;
      [now apply (same_void _ _ Hw)|now apply (same_void _ _ Hi)]. }
  intros w w' i i' m Hw Hi. apply same_body; [reflexivity|split; intros _; split; discriminate| |].
  - intros sc t. split; apply D; auto using Same_sym.
  - intros sc. split; apply V; auto using Same_sym.
Qed.

Theorem akin_same : forall x y, Akin x y -> Same x y.
Proof.
  intros x y H. induction H as
    [pre opts opts' q post sep sep' m m' Hm Hn Hl Hf W1 W2 W3
    |pre v q mid q' post sep m Hl Hs Hw
    |opts opts' lo hi sep m Hf W1 W2
    |opts opts' lo hi sep m Hp
    |pre ins post m Hn Hi
    |pre a b post m
    |pre post m Hn
    |x sep Hs Hn
    |a opts d sep m m' Hm Hn Hs Hw
    |x|x y _ IH|x y z _ IH1 _ IH2
    |x y pre post sep m _ IH Hx Hy
    |x y q pre post lo hi sep m _ IH Hw L1 L2
    |n x y o pre post sep m _ IH
    |n x y o pre post sep m _ IH Hx Hy
    |n x y _ IH
    |w m n x y pre post _ IH
    |x y i m _ IH|w x y m _ IH].
  - now apply same_nested.
  - now apply same_repeated.
  - now apply same_weights.
  - now apply same_order.
  - now apply same_grouped.
  - apply same_joined.
  - now apply same_blank.
  - now apply same_alone.
  - now apply same_spread.
  - apply Same_refl.
  - now apply Same_sym.
  - eapply Same_trans; eauto.
  - apply same_seq, token_at. now apply Token_plain.
  - apply same_options; auto; [now apply option_at|].
    apply weighty_app in Hw as [W1 W2]. apply weighty_cons in W2 as [Wq W2]. apply weighty_app. split; [exact W1|now apply weighty_cons].
  - apply same_seq, token_at. now apply Token_lazy.
  - apply same_seq, token_at. now apply Token_now.
  - now apply same_default.
  - apply same_given. apply Forall2_app; [apply Givens_refl|]. constructor; [now split|apply Givens_refl].
  - apply same_wrap; [exact IH|apply Same_refl].
  - apply same_wrap; [apply Same_refl|exact IH].
Qed.

Theorem akin_allowed : forall c x y u, Akin x y -> (Allowed E c (WCmd x) u <-> Allowed E c (WCmd y) u).
Proof.
  assert (D : forall c x y u, Same x y -> Allowed E c (WCmd x) u -> Allowed E c (WCmd y) u).
  { intros c x y u Hs (cmd & t & Hr & Ht & Htd). inversion Hr; subst.
    exists y, t. split; [constructor; now apply (same_nonempty _ _ Hs)|]. split; [now apply (same_texts _ _ Hs)|exact Htd]. }
  intros c x y u H. apply akin_same in H. split; apply D; auto using Same_sym.
Qed.
Theorem akin_texts : forall c s s' x y u, Akin x y -> s <> [] -> s' <> [] -> env_parse E s = Ok x -> env_parse E s' = Ok y ->
  (Allowed E c (WStr s) u <-> Allowed E c (WStr s') u).
Proof.
  assert (D : forall c s s' x y u, Same x y -> s' <> [] -> env_parse E s = Ok x -> env_parse E s' = Ok y ->
    Allowed E c (WStr s) u -> Allowed E c (WStr s') u).
  { intros c s s' x y u Hs N' Hx Hy (cmd & t & Hr & Ht & Htd). inversion Hr; subst.
    exists y, t. split; [now constructor|]. split; [apply (same_texts _ _ Hs); congruence|exact Htd]. }
  intros c s s' x y u H N N' Hx Hy. apply akin_same in H. split; [apply (D c s s' x y)|apply (D c s' s y x)]; auto using Same_sym.
Qed.
End Akin.
