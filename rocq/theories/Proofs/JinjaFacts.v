(** The functions of jinja_extensions.py that call generators. *)
From Coq Require Import String NArith ZArith QArith Qcanon Bool Arith List Lia.
From Verif.Model Require Import Str Command Rng Values Context Sampler Parser Generators Session.
From Verif.Spec Require Import Text Comb Items Names Lookup Enum Sure Choices Syntax Lang Everyday FileWildcard.
From Verif.Proofs Require Import StrFacts GeneratorFacts EverydayFacts EndFacts.
Import ListNotations.
Local Open Scope nat_scope.

Lemma all_combinations_list : forall G E c prompt ts, c_method c = Combinatorial -> EnumPrompt E c (WStr prompt) ts ->
  exists f, forall m r, f <= m -> jinja_all_combinations G E m c prompt r = Ret (firstn (N.to_nat 1000) ts) r.
Proof.
  intros G E c prompt ts Hc H. destruct (combinatorial_list G E c prompt (Some max_images) ts Hc H) as (f & Hf).
  exists f. intros m r Hm. unfold jinja_all_combinations. rewrite Hf; [reflexivity|exact Hm|].
  cbn [at_most]. rewrite firstn_length. lia.
Qed.

Lemma random_sample_allowed : forall G E fuel c prompt r t r', c_method c <> Combinatorial ->
  jinja_random_sample G E fuel c prompt r = Ret t r' -> Allowed E c (WStr prompt) t.
Proof.
  intros G E fuel c prompt r t r' Hc H. unfold jinja_random_sample in H.
  destruct (random_generate G E fuel c prompt 1 SNone r) as [ps r1|e r1|] eqn:Hg; try discriminate. cbn [bind] in H.
  destruct ps as [|p ps]; [discriminate|]. injection H as -> ->.
  apply random_unseeded in Hg; [|destruct (c_method c); [reflexivity|congruence|reflexivity]|reflexivity].
  destruct Hg as [_ Hg]. now inversion Hg.
Qed.

Lemma random_sample_first : forall G E fuel c prompt r t r',
  jinja_random_sample G E fuel c prompt r = Ret t r' <-> random_generate G E fuel c prompt 1 SNone r = Ret [t] r'.
Proof.
  intros G E fuel c prompt r t r'. unfold jinja_random_sample.
  destruct (random_generate G E fuel c prompt 1 SNone r) as [ps r1|e r1|] eqn:Hg; cbn [bind]; try (split; discriminate).
  assert (Hl : length ps <= 1).
  { unfold random_generate, effective_seeds in Hg. unfold drain_mk in Hg.
    destruct (sample_prompts E fuel c (WStr prompt) (Some 1)) as [g|e|]; try discriminate.
    cbn [drain] in Hg. destruct (next G E fuel g r) as [[p g'] r2|r2|e r2|]; try discriminate; [|injection Hg as <- _; cbn; lia].
    destruct (next G E fuel g' r2) as [[p' g''] r3|r3|e r3|]; try discriminate. injection Hg as <- _. cbn. lia. }
  destruct ps as [|p [|p' ps]]; cbn in Hl; try lia; split; congruence.
Qed.

Lemma random_sample_nothing : forall G E fuel c r, jinja_random_sample G E (S fuel) c [] r = Exn EStopIteration r.
Proof. reflexivity. Qed.

Lemma random_sample_served : forall G alnum C E c prompt cmd r,
  (forall s, env_parse E s = parse alnum C s) -> prompt <> [] -> parse alnum C prompt = Ok cmd ->
  c_method c <> Combinatorial -> c_vars c = [] -> c_busy c = [] ->
  Everyday E (c_ignws c) no_names (c_method c) cmd ->
  exists n t r', (forall m, n <= m -> jinja_random_sample G E m c prompt r = Ret t r') /\ Allowed E c (WStr prompt) t.
Proof.
  intros G alnum C E c prompt cmd r Hp Hne Hcmd Hc Hv Hb He.
  destruct (everyday_prompts G alnum C E c prompt cmd 1 SNone r Hp Hne Hcmd Hc Hv Hb He) as (n & ts & r' & H & Hl & Ha);
    [constructor|].
  destruct ts as [|t [|t' ts]]; try discriminate. exists n, t, r'. split; [|now inversion Ha].
  intros m Hm. apply random_sample_first. now apply H.
Qed.

Lemma to_wildcard_name : forall ww name squash, WildcardName ww squash name -> ~ EndsWith (ww ++ name) ww ->
  to_wildcard ww name = ww ++ name ++ ww.
Proof.
  intros ww name squash (Hne & _ & _ & _ & Hn & _) He. unfold to_wildcard.
  assert (H1 : startswith name ww = false).
  { destruct (startswith name ww) eqn:Hs; [|reflexivity]. apply startswith_spec in Hs. destruct Hs as [q ->].
    specialize (Hn [] (q ++ ww)). rewrite <- app_assoc in Hn. specialize (Hn eq_refl).
    destruct (ww ++ q) eqn:Hx; [congruence|]. cbn in Hn. lia. }
  rewrite H1.
  assert (H2 : endswith (ww ++ name) ww = false).
  { destruct (endswith (ww ++ name) ww) eqn:Hs; [|reflexivity]. apply endswith_spec in Hs. contradiction. }
  rewrite H2. now rewrite <- app_assoc.
Qed.
