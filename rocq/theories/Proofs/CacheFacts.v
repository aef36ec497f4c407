(** The cache of parsers. *)
From Coq Require Import String NArith ZArith QArith Qcanon Bool List.
From Verif.Model Require Import Str Command Rng Context Parser ParserCache.
From Verif.Proofs Require Import StrFacts.
Import ListNotations.
Local Open Scope nat_scope.

Lemma config_eqb_eq : forall a b, config_eqb a b = true -> a = b.
Proof.
  intros [a1 a2 a3 a4 a5 a6 a7] [b1 b2 b3 b4 b5 b6 b7] H. unfold config_eqb in H. cbn in H.
  repeat (apply andb_true_iff in H as [H ?]). now rewrite !str_eqb_eq in *; subst.
Qed.
Lemma create_parser_parse : forall alnum C s, isalnum alnum s = false ->
  create_parser alnum C s = parse alnum C s.
Proof.
  intros alnum C s H. unfold create_parser, parse, parse_raw, parse_depth, depth.
  cbn [Nat.add pred parsers].
  destruct (parsers alnum C (length (expandtabs s))) as [V T] eqn:E. cbn [parsers snd].
  unfold parse_body at 2. now rewrite H.
Qed.
Definition Good (alnum : char -> bool) (cache : parser_cache) : Prop :=
  forall C p s, cache_find C cache = Some p -> isalnum alnum s = false -> p s = parse alnum C s.
Lemma good_step : forall alnum C s cache, Good alnum cache ->
  fst (parse_with_cache alnum C s cache) = parse alnum C s /\
  Good alnum (snd (parse_with_cache alnum C s cache)).
Proof.
  intros alnum C s cache H. unfold parse_with_cache.
  destruct (isalnum alnum s) eqn:Ea; cbn [fst snd].
  - split; [|assumption]. unfold parse, parse_raw, parse_depth, depth. cbn [Nat.add parsers].
    destruct (parsers alnum C (length (expandtabs s))) as [V T]. cbn [parsers snd].
    unfold parse_body at 1. now rewrite Ea.
  - unfold get_cached_parser. destruct (cache_find C cache) as [p|] eqn:E; cbn [fst snd].
    + split; [now apply H|assumption].
    + split; [now apply create_parser_parse|].
      intros C' p' s' Hf Hs'.
      assert (Hc : forall l, cache_find C' (l ++ [(C, create_parser alnum C)]) = Some p' ->
                 cache_find C' l = Some p' \/ (C' = C /\ p' = create_parser alnum C)).
      { induction l as [|[C1 p1] l IH]; cbn.
        - destruct (config_eqb C' C) eqn:Ec; [|discriminate]. intros [= <-].
          right. split; [now apply config_eqb_eq|reflexivity].
        - destruct (config_eqb C' C1); [now left|exact IH]. }
      destruct (Hc _ Hf) as [H'|[-> ->]]; [now apply H|now apply create_parser_parse].
Qed.
Lemma good_collected : forall alnum C cache, Good alnum cache ->
  Good alnum (cache_step alnum (Collected C) cache).
Proof.
  intros alnum C cache H C' p s Hf Hs. apply H; [|assumption]. cbn in Hf. clear H.
  induction cache as [|[C1 p1] cache IH]; cbn in *; [discriminate|].
  destruct (config_eqb C C1) eqn:E1; cbn in Hf.
  - destruct (config_eqb C' C1) eqn:E2; [|now apply IH]. exfalso.
    apply config_eqb_eq in E1, E2. subst C1 C'. clear IH.
    induction cache as [|[C2 p2] cache IH]; cbn in Hf; [discriminate|].
    destruct (config_eqb C C2) eqn:E; cbn in Hf; [now apply IH|]. rewrite E in Hf. now apply IH.
  - destruct (config_eqb C' C1); [assumption|now apply IH].
Qed.
