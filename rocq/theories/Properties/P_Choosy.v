(** C101: random sampling draws what combinatorial sampling lists. *)
From Coq Require Import String NArith ZArith QArith Qcanon Bool Arith List Lia.
From Verif.Model Require Import Str Utils Command Float Rng Values Context Sampler Parser Generators.
From Verif.Spec Require Import Text Comb Items StreamRng Lang Enum Choices Draws Choosy.
From Verif.Proofs Require Import StrFacts EnumFacts EndFacts ChoosyFacts.
From Verif.Properties Require Import P_Sampler P_Parser P_EndToEnd P_Live P_Alike.
Import ListNotations.
Local Open Scope nat_scope.

(** The combinatorial generator gives exactly [ts], given enough fuel. *)
Definition ListsAll (G : rng_impl) (E : env) (d : ctx) (template : text) (ts : list text) : Prop :=
  exists f, forall m steps r, f <= m -> length ts < steps -> combinatorial_generate G E m steps d template None r = Ret ts r.
(** Some numbers make the random sampler give [u] first. *)
Definition CanBeDrawn (E : env) (c : ctx) (template : text) (u : text) : Prop :=
  exists n draws g g', forall m rest, n <= m -> sample_prompts E m c (WStr template) None = MOk g /\
    next stream_rng E m g (draws ++ rest) = @OVal stream_rng _ (u, g') rest.

Lemma lists_unique : forall G E d template ts us, ListsAll G E d template ts -> ListsAll G E d template us -> ts = us.
Proof.
  intros G E d template ts us [f Hf] [f2 Hf2].
  specialize (Hf (max f f2) (S (length ts + length us)) (prim_seed G 0)). specialize (Hf2 (max f f2) (S (length ts + length us)) (prim_seed G 0)).
  assert (K : @Ret (rng_state G) (list text) ts (prim_seed G 0) = Ret us (prim_seed G 0)) by (rewrite <- Hf by lia; apply Hf2; lia).
  now injection K.
Qed.
Lemma lists_choices : forall G E d template cmd ts, c_method d = Combinatorial -> template <> [] -> env_parse E template = Ok cmd ->
  OneChoice cmd -> ListsAll G E d template ts -> ts = map (fun t => if c_ignws d then squash_whitespace t else t) (choices cmd).
Proof.
  intros G E d template cmd ts Hd Hn Hp Ho H. destruct (one_choice_generated G E d template cmd None Hd Hn Hp Ho) as (us & Ht & f & Hf).
  rewrite (lists_unique G E d template ts us H) by (exists f; exact Hf). clear - Ht.
  induction Ht as [|a b l m Hab _ IH]; [reflexivity|]. cbn [map]. rewrite <- IH. apply Tidy_fun in Hab. now rewrite Hab.
Qed.

(** * C101 *)
(** No sampler gives any other prompts than the combinatorial generator. *)
Theorem C101_no_other_prompts : forall G1 G2 E c d template cmd, c_method d = Combinatorial -> c_ignws c = c_ignws d ->
  template <> [] -> env_parse E template = Ok cmd -> OneChoice cmd ->
  exists ts, ListsAll G1 E d template ts /\
    forall limit n g f k r us e r', sample_prompts E n c (WStr template) limit = MOk g ->
      collect G2 E f k g r = (us, e, r') -> incl us ts.
Proof.
  intros G1 G2 E c d template cmd Hd Hi Hn Hp Ho.
  destruct (one_choice_generated G1 E d template cmd None Hd Hn Hp Ho) as (ts & Ht & f0 & Hf).
  exists ts. split; [now exists f0|]. intros limit n g f k r us e r' Hg Hc u Hu.
  pose proof (C14_every_prompt_is_allowed _ _ _ _ _ _ _ _ _ _ _ _ _ Hg Hc) as Ha. rewrite Forall_forall in Ha.
  destruct (Ha u Hu) as (x & t & Hr & Hx & Hu'). assert (x = cmd) by (inversion Hr; congruence). subst x.
  apply (allowed_choices E cmd Ho) in Hx. rewrite Hi in Hu'. apply Tidy_fun in Hu'. subst u. clear - Ht Hx.
  induction Ht as [|a b l m Hab _ IH]; [destruct Hx|]. destruct Hx as [->|Hx]; [|right; auto].
  apply Tidy_fun in Hab. now left.
Qed.

(** With fair chances the random sampler can draw exactly these prompts. *)
Theorem C101_the_list_can_be_drawn : forall G E c d template cmd, c_method c = Random -> c_method d = Combinatorial ->
  c_ignws c = c_ignws d -> template <> [] -> env_parse E template = Ok cmd -> Choosy cmd ->
  exists ts, ListsAll G E d template ts /\ forall u, In u ts <-> CanBeDrawn E c template u.
Proof.
  intros G E c d template cmd Hm Hd Hi Hn Hp Hc.
  destruct (one_choice_generated G E d template cmd None Hd Hn Hp (choosy_one _ Hc)) as (ts & Ht & f0 & Hf).
  exists ts. split; [now exists f0|]. intros u. split.
  - intros Hu. apply C56_drawable_prompts_are_drawn.
    assert (K : exists t, In t (choices cmd) /\ Tidy (c_ignws d) t u).
    { clear - Ht Hu. induction Ht as [|a b l m Hab _ IH]; [destruct Hu|]. destruct Hu as [->|Hu]; [exists a; split; [now left|exact Hab]|].
      destruct (IH Hu) as (t & K1 & K2). exists t. split; [now right|exact K2]. }
    destruct K as (t & K1 & K2). apply DrP with (c := cmd) (t := t).
    + now constructor.
    + now apply choices_drawn.
    + cbn. now rewrite Hi.
  - intros (n & draws & g & g' & H). destruct (H n [] (le_n n)) as [Hg Hx].
    assert (Hcol : collect stream_rng E n 1 g (draws ++ []) = ([u], EndLimit g', Some ([] : list N))) by (cbn [collect]; rewrite Hx; reflexivity).
    destruct (C101_no_other_prompts G stream_rng E c d template cmd Hd Hi Hn Hp (choosy_one _ Hc)) as (ts2 & [f2 K1] & K2).
    assert (ts2 = ts) by (apply (lists_unique G E d template); [now exists f2|exists f0; exact Hf]).
    subst ts2. apply (K2 _ _ _ _ _ _ _ _ _ Hg Hcol). now left.
Qed.

(** * Examples *)
Definition outing_text : text := $"{a {red|blue} cat|a dog} {2::runs|sits}".
Definition outing : command :=
  Seq [Var [(Seq [plainly "a "; Var [one "red"; one "blue"] 1 1 $"," None; plainly " cat"] [] None, 1%Qc); one "a dog"] 1 1 $"," None;
       plainly " "; Var [(plainly "runs", Q2Qc 2); one "sits"] 1 1 $"," None] [] None.
Definition outings : list text :=
  [$"a red cat runs"; $"a red cat sits"; $"a blue cat runs"; $"a blue cat sits"; $"a dog runs"; $"a dog sits"].
Example C101_example_parsed : env_parse zoo outing_text = Ok outing.
Proof. vm_compute. reflexivity. Qed.
Example C101_example_choosy : Choosy outing.
Proof.
  assert (Hw : forall a b, Forall (fun o => Wide (snd o) (map snd [(a, 1%Qc); (b, 1%Qc)])) [(a : command, 1%Qc); (b, 1%Qc)])
    by (intros a b; repeat constructor; vm_compute; congruence).
  constructor. constructor.
  { constructor; [discriminate| |apply Hw]. constructor; [|repeat constructor].
    constructor. constructor; [constructor|]. constructor; [|repeat constructor].
    constructor; [discriminate|repeat constructor|apply Hw]. }
  constructor; [constructor|]. constructor; [|constructor].
  constructor; [discriminate|repeat constructor|]. repeat constructor; vm_compute; congruence.
Qed.
Example C101_example_listed : combinatorial_generate stream_rng zoo 50 50 (fresh Combinatorial true) outing_text None [] = Ret outings [].
Proof. vm_compute. reflexivity. Qed.

Example C101_example : forall u, In u outings <-> CanBeDrawn zoo (fresh Random true) outing_text u.
Proof.
  destruct (C101_the_list_can_be_drawn stream_rng zoo (fresh Random true) (fresh Combinatorial true) outing_text outing) as (ts & [f Hf] & K);
    [reflexivity|reflexivity|reflexivity|discriminate|exact C101_example_parsed|exact C101_example_choosy|].
  assert (Hl : ts = map squash_whitespace (choices outing)).
  { apply (lists_choices stream_rng zoo (fresh Combinatorial true) outing_text outing);
      [reflexivity|discriminate|exact C101_example_parsed|exact (choosy_one _ C101_example_choosy)|now exists f]. }
  replace (map squash_whitespace (choices outing)) with outings in Hl by (vm_compute; reflexivity). subst ts. exact K.
Qed.
(** Cyclical runs give some of these prompts too, and no others. *)
Example C101_example_cyclical : forall G n g f k r us e r', sample_prompts zoo n (fresh Cyclical true) (WStr outing_text) None = MOk g ->
  collect G zoo f k g r = (us, e, r') -> incl us outings.
Proof.
  intros G. pose proof (choosy_one _ C101_example_choosy) as Ho.
  destruct (C101_no_other_prompts stream_rng G zoo (fresh Cyclical true) (fresh Combinatorial true) outing_text outing) as (ts & Hl & K);
    [reflexivity|reflexivity|discriminate|exact C101_example_parsed|exact Ho|].
  apply (lists_choices stream_rng zoo (fresh Combinatorial true) outing_text outing) in Hl;
    [|reflexivity|discriminate|exact C101_example_parsed|exact Ho].
  replace (map _ (choices outing)) with outings in Hl by (vm_compute; reflexivity). subst ts.
  intros n g f k r us e r' Hg Hc. exact (K None n g f k r us e r' Hg Hc).
Qed.
Example C101_example_drawn : random_generate stream_rng zoo 50 (fresh Random true) outing_text 1 SNone [0; 0; 0; half53; 0; top53]%N =
  Ret [$"a blue cat sits"] [].
Proof. vm_compute. reflexivity. Qed.

(** When several options are chosen, equal ones are not listed together, but drawn. *)
Theorem C101_several_options_refuted : exists E template u r r',
  combinatorial_generate stream_rng E 50 50 (fresh Combinatorial true) template None [] = Ret [] [] /\
  random_generate stream_rng E 50 (fresh Random true) template 1 SNone r = Ret [u] r'.
Proof.
  exists zoo, $"{2$$a|a}", $"a,a", [], []. split; vm_compute; reflexivity.
Qed.
(** A single option with bounds is always drawn, but listed with the empty choice. *)
Lemma single_drawn : forall E c template s q lo hi sep u, c_method c = Random ->
  env_parse E template = Ok (Var [(Lit s None, q)] lo hi sep None) -> CanBeDrawn E c template u -> Tidy (c_ignws c) s u.
Proof.
  intros E c template s q lo hi sep u Hm Hp (n & draws & g & g' & H). destruct (H n [] (le_n n)) as [Hg Hx].
  assert (Hcol : collect stream_rng E n 1 g (draws ++ []) = ([u], EndLimit g', Some ([] : list N))) by (cbn [collect]; rewrite Hx; reflexivity).
  pose proof (C14_every_prompt_is_allowed _ _ _ _ _ _ _ _ _ _ _ _ _ Hg Hcol) as Ha. rewrite Forall_forall in Ha.
  destruct (Ha u (or_introl eq_refl)) as (x & t & Hr & Hpr & Ht).
  assert (x = Var [(Lit s None, q)] lo hi sep None) by (inversion Hr; congruence). subst x.
  inversion Hpr as [? ? ? B]; subst. inversion B; subst.
  - match goal with K : _ = Random -> length _ <> 1 |- _ => now destruct (K Hm) end.
  - match goal with K : _ = Cyclical |- _ => cbn in K; rewrite Hm in K; discriminate end.
  - match goal with K : Produces _ _ _ t |- _ => inversion K as [? ? ? B2]; subst; inversion B2; subst end. exact Ht.
Qed.
Theorem C101_optional_texts_refuted : exists E template,
  combinatorial_generate stream_rng E 50 50 (fresh Combinatorial true) template None [] = Ret [[]; $"a"] [] /\
  ~ CanBeDrawn E (fresh Random true) template [].
Proof.
  exists zoo, $"{0-1$$a}". split; [vm_compute; reflexivity|]. intros H.
  apply (single_drawn zoo (fresh Random true) $"{0-1$$a}" $"a" 1%Qc 0 1 $"," [] eq_refl) in H; [|vm_compute; reflexivity].
  apply Tidy_fun in H. vm_compute in H. discriminate.
Qed.

Print Assumptions C101_no_other_prompts.
Print Assumptions C101_the_list_can_be_drawn.
Print Assumptions C101_several_options_refuted.
Print Assumptions C101_optional_texts_refuted.
