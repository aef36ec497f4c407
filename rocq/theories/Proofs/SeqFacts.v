(** One generation of a sequence uses one set of variable values. *)
From Coq Require Import String NArith ZArith QArith Qcanon Bool Arith List Lia Permutation.
From Verif.Model Require Import Str Utils Command Rng Values Context Sampler.
From Verif.Spec Require Import Text Comb Items Lang.
From Verif.Proofs Require Import StrFacts UtilsFacts CommandFacts CombFacts RngFacts ValuesFacts DictFacts Soundness FuelFacts RunFacts.
Import ListNotations.
Local Open Scope nat_scope.

Lemma LastAssign_unique : forall x ts v i o v' i' o',
  LastAssign x ts v i o -> LastAssign x ts v' i' o' -> v = v' /\ i = i' /\ o = o'.
Proof.
  intros x ts v i o v' i' o' (p1 & q1 & E1 & H1) (p2 & q2 & E2 & H2).
  rewrite E1 in E2. clear E1. revert p2 E2.
  induction p1 as [|a p1 IH]; intros [|b p2] E2; cbn in E2.
  - injection E2 as <- <- <- ->. auto.
  - injection E2 as <- ->. exfalso. eapply H1. apply in_app_iff. right. now left.
  - injection E2 as -> <-. exfalso. eapply H2. apply in_app_iff. right. now left.
  - injection E2 as _ E2. eauto.
Qed.

Lemma LastAssign_NoAssign : forall x ts v i o, LastAssign x ts v i o -> ~ NoAssign x ts.
Proof.
  intros x ts v i o (p & q & -> & H) Hn. eapply Hn. apply in_app_iff. right. now left.
Qed.

Section S.
Variable G : rng_impl.
Variable E : env.

Lemma seq_first : forall f n c tokens sep m g r, mk n c (Seq tokens sep m) = MOk g ->
  post G (next G E f g r)
    (fun x => exists nf sc' toks,
       SameBut (enter (scope_of c) (Seq tokens sep m)) sc' /\
       (forall y, Bound E (enter (scope_of c) (Seq tokens sep m)) tokens y (sc_var sc' y)) /\
       Plain tokens toks /\
       Step G E nf (SeqText E sc' toks sep) x) True.
Proof.
  intros f n c tokens sep m g r H. destruct n as [|n]; [discriminate|]. cbn [mk] in H.
  rewrite <- scope_enter. set (c1 := with_method _ c) in *.
  assert (Hm : c_method c1 = chosen_method c (Seq tokens sep m)) by reflexivity.
  clearbody c1. destruct f as [|f]; [exact I|].
  assert (Hcase : (c_method c1 <> Combinatorial /\ g = GSeqStart c1 tokens sep) \/
                  (c_method c1 = Combinatorial /\ g = GCSeqStart c1 tokens sep)).
  { rewrite Hm. destruct (chosen_method c _); injection H as <-;
      [left|right|left]; split; congruence. }
  pose proof (next_ok G E f) as Hnx. clear H Hm.
  destruct Hcase as [[Hm ->]|[Hm ->]]; unfold_next G E.
  - eapply post_pep with (S' := True). eapply post_bind; [eapply assignments_ok; exact Hnx|].
    intros [toks c'] r' (Hp & Hsb & Hmm & Hb). cbn [fst snd] in *.
    eapply post_bind; [apply mk_all_ok|]. intros gens r'' Hg.
    eapply post_impl; [eapply Hnx with (nf := true) (V := True)
      (P := SeqText E (scope_of c') toks sep)| |auto].
    + eapply I_seqloop; [exact Hg|]. intros ts t Ha Hgl. exists ts. split; [assumption|].
      split; [|auto]. intros Hx. cbn in Hx. congruence.
    + intros x Hx. exists true, (scope_of c'), toks. auto.
  - eapply post_bind with (Q1 := fun x => coll_inv G E (snd (snd x)) (fst x) /\
            Plain tokens (fst (snd x)) /\ SameBut (scope_of c1) (scope_of (snd (snd x))) /\
            c_method (snd (snd x)) = c_method c1 /\
            forall y, Bound E (scope_of c1) tokens y (sc_var (scope_of (snd (snd x))) y)).
    { eapply post_pep. eapply post_bind; [eapply assignments_ok; exact Hnx|].
      intros [toks c'] r' Hp. cbn beta iota.
      eapply post_bind with (Q1 := coll_inv G E c').
      - apply new_collection_ok; [exact Hnx|]. destruct Hp as (_ & _ & Hm' & _). cbn in Hm'. congruence.
      - intros coll r'' Hc. cbn. auto. }
    intros [coll [toks c']] r' (Hc & Hp & Hsb & Hmm & Hb). cbn [fst snd] in *.
    eapply post_impl; [eapply Hnx with (nf := false) (V := True)
      (P := SeqText E (scope_of c') toks sep)| |auto].
    + eapply I_cseqloop; [congruence|exact I|exact Hc|constructor|].
      intros ts Ha. exists ts. split; [assumption|]. split; [auto|]. intros Hx. exfalso. apply Hx. cbn. congruence.
    + intros x Hx. exists false, (scope_of c'), toks. auto.
Qed.

Lemma seq_generation : forall f n k c tokens sep m g r ts e r',
  mk n c (Seq tokens sep m) = MOk g -> collect G E f k g r = (ts, e, r') -> ts <> [] ->
  exists sc' toks,
    SameBut (enter (scope_of c) (Seq tokens sep m)) sc' /\
    (forall y, Bound E (enter (scope_of c) (Seq tokens sep m)) tokens y (sc_var sc' y)) /\
    Plain tokens toks /\
    Forall (SeqText E sc' toks sep) ts.
Proof.
  intros f n k c tokens sep m g r ts e r' Hm H Hne.
  destruct k as [|k]; cbn [collect] in H; [injection H as <- <- <-; congruence|].
  pose proof (seq_first f _ _ _ _ _ _ r Hm) as Hx.
  destruct (next G E f g r) as [[t g'] r1|r1|e1 r1|]; try (injection H as <- <- <-; congruence).
  destruct Hx as (nf & sc' & toks & Hsb & Hb & Hp & Ht & Hi). cbn [fst snd] in *.
  destruct (collect G E f k g' r1) as [[ts1 e1] r2] eqn:Hc. injection H as <- <- <-.
  exists sc', toks. repeat (split; [assumption|]).
  constructor; [assumption|]. now destruct (collect_inv G E _ _ _ _ _ _ _ _ _ _ Hi Hc).
Qed.

(** What a bound immediate variable is. *)
Lemma Bound_immediate_inv : forall sc ts x v ovr o,
  LastAssign x ts v true ovr -> (ovr = false -> sc_var sc x = None) -> Bound E sc ts x o ->
  exists t, o = Some (Lit t None) /\ Produces E sc v t \/
            exists s m, v = Lit s m /\ o = Some v.
Proof.
  intros sc ts x v ovr o HL Ho Hb.
  destruct Hb as [sc ts x Hn|sc ts x v1 i v0 H1 H2|sc ts x v1 o1 H1 H2|sc ts x s m o1 H1 H2|sc ts x v1 o1 t H1 H2 H3 H4].
  - exfalso. eapply LastAssign_NoAssign; eassumption.
  - destruct (LastAssign_unique _ _ _ _ _ _ _ _ HL H1) as (_ & _ & ->). rewrite Ho in H2 by reflexivity. discriminate.
  - destruct (LastAssign_unique _ _ _ _ _ _ _ _ HL H1) as (_ & ? & _). discriminate.
  - destruct (LastAssign_unique _ _ _ _ _ _ _ _ HL H1) as (-> & _ & _). exists []. right. eauto.
  - destruct (LastAssign_unique _ _ _ _ _ _ _ _ HL H1) as (-> & _ & _). exists t. left. auto.
Qed.

(** An access to a variable whose value is a literal. *)
Lemma access_literal : forall sc x s m d t, sc_var sc x = Some (Lit s m) ->
  Produces E sc (Access x d) t -> t = s.
Proof.
  intros sc x s m d t Hx H. inversion H as [? ? ? Hb]; subst. inversion Hb; subst.
  assert (c = Lit s m).
  { match goal with H : Refers _ _ _ _ |- _ => destruct H as [v Hv|v Hv|v u Hv Hne|u Hv] end;
      cbn in Hv; rewrite Hx in Hv; try discriminate; injection Hv as <-; [reflexivity|].
    exfalso. apply Hne. split; discriminate. }
  subst c. eapply Prod_Lit. eassumption.
Qed.

Lemma ProducesAll_nth : forall sc toks parts i cmd, ProducesAll E sc toks parts ->
  nth_error toks i = Some cmd -> exists t, nth_error parts i = Some t /\ Produces E sc cmd t.
Proof.
  intros sc toks. induction toks as [|c toks IH]; intros parts i cmd H Hn; [now destruct i|].
  destruct (All_cons_inv _ _ _ _ _ H) as (t & ts & -> & Ht & Hts).
  destruct i as [|i]; cbn in *; [injection Hn as ->; eauto|]. eauto.
Qed.
End S.
