(** Facts about tabs, for C02. *)
From Coq Require Import NArith Bool Arith List Lia.
From Verif.Model Require Import Str Command Parser.
From Verif.Spec Require Import Text Syntax Tabs.
From Verif.Proofs Require Import ParserFacts.
Import ListNotations.
Local Open Scope nat_scope.

Lemma Expanded_expandtabs : forall t col u, Expanded col t u <-> u = expandtabs_from col t.
Proof.
  induction t as [|c t IH]; intros col u; cbn [expandtabs_from].
  - split; [intros H; now inversion H|intros ->; constructor].
  - destruct (N.eqb_spec c 9) as [->|H9].
    + pose proof (Nat.div_mod col 8) as HD. pose proof (Nat.mod_upper_bound col 8) as HU. split.
      * intros H. inversion H as [| ? k ? v Hk [st Hst] Hv|? ? ? ? [D|D]|]; subst; try discriminate; try contradiction.
        assert (k = 8 - col mod 8) as -> by lia. f_equal. now apply IH.
      * intros ->. apply Expanded_tab; [lia| |now apply IH]. exists (S (col / 8)). lia.
    + destruct (N.eqb_spec c 10) as [->|H10]; [|destruct (N.eqb_spec c 13) as [->|H13]]; cbn [orb]; (split;
        [intros H; inversion H; subst; try congruence; try tauto; f_equal; now apply IH
        |intros ->; first [apply Expanded_line; [auto; fail|now apply IH]|apply Expanded_char; [exact H9|exact H10|exact H13|now apply IH]]]).
Qed.

Lemma Expanded_total : forall t col, exists u, Expanded col t u.
Proof. intros t col. eexists. apply Expanded_expandtabs. reflexivity. Qed.
Lemma Expanded_no_tab : forall col t u, Expanded col t u -> ~ In 9%N u.
Proof. intros col t u H. apply Expanded_expandtabs in H as ->. apply expandtabs_from_notab. Qed.

Lemma expandtabs_blank : forall t col, In 9%N t -> In 32%N (expandtabs_from col t).
Proof.
  induction t as [|c t IH]; intros col H; [destruct H|]. cbn [expandtabs_from].
  destruct (N.eqb_spec c 9) as [->|Hc].
  - apply in_or_app. left. pose proof (Nat.mod_upper_bound col 8).
    destruct (8 - col mod 8) as [|k] eqn:E; [lia|]. left. reflexivity.
  - destruct H as [->|H]; [congruence|]. right. now apply IH.
Qed.

Lemma isalnum_all : forall alnum t, isalnum alnum t = true -> forall c, In c t -> alnum c = true.
Proof. intros alnum [|d t] H; [discriminate|]. exact (proj1 (forallb_forall _ _) H). Qed.

Lemma parse_expanded : forall alnum C t u, alnum 9%N = false -> alnum 32%N = false ->
  Expanded 0 t u -> parse alnum C t = parse alnum C u.
Proof.
  intros alnum C t u H9 H32 H. pose proof (Expanded_no_tab _ _ _ H) as Hu.
  apply Expanded_expandtabs in H. fold (expandtabs t) in H.
  unfold parse, parse_raw, depth. rewrite (expandtabs_id u Hu). rewrite <- H.
  unfold parse_depth. cbn [Nat.add parsers]. destruct (parsers alnum C (length u)) as [V T].
  cbn [parsers snd]. unfold parse_body, grammar_body. rewrite (expandtabs_id u Hu), <- H.
  destruct (in_dec N.eq_dec 9%N t) as [Hin|Hout].
  - assert (isalnum alnum t = false) as ->.
    { apply not_true_is_false. intros E. pose proof (isalnum_all _ _ E _ Hin). congruence. }
    assert (isalnum alnum u = false) as ->; [|reflexivity].
    apply not_true_is_false. intros E. subst u. pose proof (isalnum_all _ _ E _ (expandtabs_blank _ _ Hin)). congruence.
  - rewrite (expandtabs_id t Hout) in H. now subst u.
Qed.
