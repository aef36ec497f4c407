(** C95: templates that are written differently and stand for the same prompts,
    whichever way they are sampled. *)
From Coq Require Import String NArith ZArith QArith Qcanon Bool Arith List Permutation Lia.
From Verif.Model Require Import Str Utils Command Float Rng Values Context Sampler Parser Generators.
From Verif.Spec Require Import Text Comb Items StreamRng Lang Draws Alike Akin.
From Verif.Proofs Require Import StrFacts AkinFacts.
From Verif.Properties Require Import P_Sampler P_Parser P_Generators P_EndToEnd P_Live P_Alike.
Import ListNotations.
Local Open Scope nat_scope.

(** * C95 *)
(** Akin templates have the same prompts, under every sampler and whatever the
    variables mean. *)
Theorem C95_akin_templates_allow_the_same_prompts : forall E c s s' x y u, Akin x y ->
  s <> [] -> s' <> [] -> env_parse E s = Ok x -> env_parse E s' = Ok y ->
  (Allowed E c (WStr s) u <-> Allowed E c (WStr s') u).
Proof. exact akin_texts. Qed.
Theorem C95_akin_commands_allow_the_same_prompts : forall E c x y u, Akin x y ->
  (Allowed E c (WCmd x) u <-> Allowed E c (WCmd y) u).
Proof. exact akin_allowed. Qed.
(** As a part of any template, in any scope. *)
Theorem C95_akin_commands_produce_the_same_texts : forall E sc x y t, Akin x y ->
  (Produces E sc x t <-> Produces E sc y t).
Proof. intros E sc x y t H. exact (same_texts E _ _ (akin_same E x y H) sc t). Qed.

(** So no sampler gives a prompt for the one that the other does not have. *)
Theorem C95_no_run_gives_another_prompt : forall G E f c s s' x y limit g f' n r ts e r', Akin x y ->
  s <> [] -> s' <> [] -> env_parse E s = Ok x -> env_parse E s' = Ok y ->
  sample_prompts E f c (WStr s) limit = MOk g -> collect G E f' n g r = (ts, e, r') ->
  Forall (Allowed E c (WStr s')) ts.
Proof.
  intros G E f c s s' x y limit g f' n r ts e r' H N N' Hx Hy Hg Hc.
  eapply Forall_impl; [|exact (C14_every_prompt_is_allowed G E f c _ limit g f' n r ts e r' Hg Hc)].
  intros u Hu. exact (proj1 (akin_texts E c s s' x y u H N N' Hx Hy) Hu).
Qed.
(** And at random each prompt that the one gives can be drawn from the other. *)
Theorem C95_random_prompts_can_be_drawn_from_both : forall G E f c x y limit g f' n r ts e r', Akin x y ->
  FairValues E -> Fair E y -> c_method c = Random ->
  sample_prompts E f c (WCmd x) limit = MOk g -> collect G E f' n g r = (ts, e, r') ->
  Forall (fun u => exists k draws g1 g2, forall m rest, k <= m ->
    sample_prompts E m c (WCmd y) None = MOk g1 /\
    next stream_rng E m g1 (draws ++ rest) = @OVal stream_rng _ (u, g2) rest) ts.
Proof.
  intros G E f c x y limit g f' n r ts e r' H Hv Hf Hm Hg Hc.
  eapply Forall_impl; [|exact (C14_every_prompt_is_allowed G E f c _ limit g f' n r ts e r' Hg Hc)].
  intros u Hu. apply (C56_fair_templates_reach_every_allowed_prompt E c (WCmd y) u); auto.
  - intros cmd Hr. now inversion Hr; subst.
  - exact (proj1 (akin_allowed E c x y u H) Hu).
Qed.

(** * Examples *)
Definition blue_text : text := $"${c={red|{dark|light} blue}}${c} and ${c}, {2$$x|y}".
Definition hues_text : text := $"${c={red|dark blue|light blue}}${c} and ${c}, {2$$3::y|x}".
Definition blue_opt : command := Seq [Var [one "dark"; one "light"] 1 1 $"," None; plainly " blue"] [] None.
Definition hues_rest (v : command) : list command :=
  [Access $"c" None; plainly " and "; Access $"c" None; plainly ", "; v].
Definition blue_cmd : command :=
  Seq (Assign $"c" (Var [one "red"; (blue_opt, 1%Qc)] 1 1 $"," None) false true
       :: hues_rest (Var [one "x"; one "y"] 2 2 $"," None)) [] None.
Definition hues_cmd : command :=
  Seq (Assign $"c" (Var [one "red"; one "dark blue"; one "light blue"] 1 1 $"," None) false true
       :: hues_rest (Var [(plainly "y", Q2Qc 3); one "x"] 2 2 $"," None)) [] None.
Example C95_example_parsed : env_parse zoo blue_text = Ok blue_cmd /\ env_parse zoo hues_text = Ok hues_cmd.
Proof. split; vm_compute; reflexivity. Qed.
Ltac weigh := repeat constructor; vm_compute; reflexivity.
Ltac no_lone := intros (? & ? & ? & ? & K); discriminate.
Ltac no_assign := intros (? & ? & ? & ? & K); discriminate.
Lemma shade : forall s, Akin (Seq [Lit [] None; plainly s; plainly " blue"] [] None) (plainly (String.append s " blue")).
Proof.
  intros s. replace (plainly (String.append s " blue")) with (Lit (([] ++ $s) ++ $" blue") None).
  - eapply Akin_trans; [apply (Akin_texts [] [] $s [plainly " blue"])|].
    eapply Akin_trans; [apply (Akin_texts [] ([] ++ $s) $" blue" [])|].
    apply Akin_alone; [exact I|split; discriminate].
  - unfold plainly. f_equal. unfold of_string. cbn [app]. induction s as [|ch s IH]; cbn; [reflexivity|now f_equal].
Qed.
Example C95_example_akin : Akin blue_cmd hues_cmd.
Proof.
  eapply Akin_trans.
  { apply (Akin_value $"c" _ (Var [one "red"; one "dark blue"; one "light blue"] 1 1 $"," None) true []).
    eapply Akin_trans.
    - (* dark blue or light blue *)
      apply (Akin_option blue_opt (Var [one "dark blue"; one "light blue"] 1 1 $"," None) 1%Qc [one "red"] []);
        [|weigh|no_lone|no_lone].
      eapply Akin_trans; [apply Akin_sym; apply (Akin_blank [] [Var [one "dark"; one "light"] 1 1 $"," None; plainly " blue"]); discriminate|].
      eapply Akin_trans; [apply Akin_spread; [now left|discriminate|repeat constructor|weigh]|].
      cbn [map fst snd one].
      eapply Akin_trans; [apply (Akin_option _ (plainly "dark blue") 1%Qc []); [apply (shade "dark")|weigh|no_lone|no_lone]|].
      apply (Akin_option _ (plainly "light blue") 1%Qc [one "dark blue"]); [apply (shade "light")|weigh|no_lone|no_lone].
    - (* three options *)
      apply (Akin_nested [one "red"] [one "dark blue"; one "light blue"] [one "dark blue"; one "light blue"] 1%Qc []);
        [now left|discriminate|no_lone|reflexivity|weigh|weigh|weigh]. }
  (* the other variant in another order, with other weights *)
  apply (Akin_part _ (Var [(plainly "y", Q2Qc 3); one "x"] 2 2 $"," None)
    (Assign $"c" (Var [one "red"; one "dark blue"; one "light blue"] 1 1 $"," None) false true
     :: [Access $"c" None; plainly " and "; Access $"c" None; plainly ", "]) []); [|no_assign|no_assign].
  eapply Akin_trans; [apply Akin_order; apply perm_swap|].
  apply Akin_weights; [reflexivity|weigh|weigh].
Qed.
(** Runs at random and a list of all: the same prompts, in another order. *)
Example C95_example_run :
  prompts (random_generate stream_rng zoo 60 (fresh Random false) blue_text 1 SNone [half53; half53; 0; 0; 0; 0; 0]%N)
    = Some [$"dark blue and red, x,y"] /\
  prompts (random_generate stream_rng zoo 60 (fresh Random false) hues_text 1 SNone [half53; half53; 0; 0; 0; 0; 0]%N)
    = Some [$"dark blue and red, y,x"] /\
  match prompts (combinatorial_generate stream_rng zoo 60 50 (fresh Combinatorial false) blue_text None []),
        prompts (combinatorial_generate stream_rng zoo 60 50 (fresh Combinatorial false) hues_text None []) with
  | Some l, Some l' => length l = 18 /\ length l' = 18 /\ nth 1 l [] = $"red and red, y,x" /\ nth 1 l' [] = $"red and red, x,y"
  | _, _ => False
  end.
Proof. vm_compute. repeat split. Qed.
(** What the first template gave at random can be had from the second. *)
Example C95_example_allowed : Allowed zoo (fresh Random false) (WStr hues_text) $"dark blue and red, x,y".
Proof.
  destruct C95_example_parsed as [Hx Hy].
  assert (N : blue_text <> []) by discriminate. assert (N' : hues_text <> []) by discriminate.
  apply (C95_akin_templates_allow_the_same_prompts zoo (fresh Random false) blue_text hues_text blue_cmd hues_cmd
    $"dark blue and red, x,y" C95_example_akin N N' Hx Hy).
  pose proof (proj1 C95_example_run) as Hrun.
  destruct (random_generate stream_rng zoo 60 (fresh Random false) blue_text 1 SNone [half53; half53; 0; 0; 0; 0; 0]%N)
    as [ts r|e r|] eqn:Hg; [|discriminate|discriminate].
  injection Hrun as ->.
  pose proof (C54_random_without_seeds stream_rng zoo 60 (fresh Random false) blue_text 1 SNone
    [half53; half53; 0; 0; 0; 0; 0]%N _ r eq_refl eq_refl Hg) as [_ Ha].
  exact (Forall_inv Ha).
Qed.
(** Templates that are fair: one of [a], [b], [c], grouped or not. *)
Definition grouped_abc : command :=
  Var [(lit "a", 1%Qc); (Var (opts ["b"; "c"]%string) 1 1 $"," None, 1%Qc)] 1 1 $"," None.
Definition plain_abc : command := Var (opts ["a"; "b"; "c"]%string) 1 1 $"," None.
Example C95_example_abc : Akin grouped_abc plain_abc.
Proof.
  apply (Akin_nested [(lit "a", 1%Qc)] (opts ["b"; "c"]%string) (opts ["b"; "c"]%string) 1%Qc []);
    [now left|discriminate|no_lone|reflexivity|weigh|weigh|weigh].
Qed.
Example C95_example_fair : Fair env0 plain_abc /\ Fair env0 grouped_abc /\ FairValues env0.
Proof.
  assert (Hl : forall s, Fair env0 (lit s)) by (intros s; constructor; discriminate).
  split; [|split; [|exact C56_fair_env]];
  repeat constructor; cbn [fst snd map]; try discriminate; auto; try apply Hl.
Qed.

(** An option of weight 0 is not drawn at random: other weights do matter then. *)
Theorem C95_zero_weights_refuted : exists os os' u, map fst os = map fst os' /\ ~ weighty os /\ weighty os' /\
  Allowed env0 (ctx0 Random) (WCmd (Var os' 1 1 [] None)) u /\ ~ Allowed env0 (ctx0 Random) (WCmd (Var os 1 1 [] None)) u.
Proof.
  exists [(lit "a", 0%Qc); (lit "b", 1%Qc)], [(lit "a", 1%Qc); (lit "b", 1%Qc)], $"a".
  split; [reflexivity|]. split; [|split; [weigh|split]].
  - intros H. inversion H as [|? ? K]; subst. vm_compute in K. discriminate.
  - exists (Var [(lit "a", 1%Qc); (lit "b", 1%Qc)] 1 1 [] None), $"a". split; [constructor; split; discriminate|split; [|reflexivity]].
    constructor. apply var_one; [no_lone|discriminate|weigh|]. exists (lit "a"). split; [now left|]. left. constructor. constructor.
  - intros (cmd & t & Hr & Ht & Htd). inversion Hr; subst. cbn in Htd. subst t. apply produces_iff in Ht.
    apply var_chosen in Ht as (sel & rest & parts & Hp & Hc & Hq & Ha & Hg); [|cbn; lia|discriminate].
    assert (Hs : length sel = 1) by (clear -Hc; unfold clamp in Hc; cbn [length] in Hc; lia).
    destruct sel as [|v [|? ?]]; try discriminate.
    inversion Ha as [|? x ? l Hv Hl]; subst. inversion Hl; subst. apply glued_single in Hg. subst x.
    destruct (Hq eq_refl v [] eq_refl) as (q & [[= <- <-]|[[= <- <-]|[]]] & Hpos).
    + vm_compute in Hpos. discriminate.
    + apply lit_text in Hv. discriminate.
Qed.
(** Nor does the rule for nested variants hold where two options are chosen:
    only [{2$$a|b|c}] has the prompt [b,c]. *)
Theorem C95_several_options_refuted : exists pre os q u, weighty (pre ++ [(Var os 1 1 $"," None, q)]) /\ weighty os /\
  Allowed env0 (ctx0 Combinatorial) (WCmd (Var (pre ++ os) 2 2 $"," None)) u /\
  ~ Allowed env0 (ctx0 Combinatorial) (WCmd (Var (pre ++ [(Var os 1 1 $"," None, q)]) 2 2 $"," None)) u.
Proof.
  exists [(lit "a", 1%Qc)], (opts ["b"; "c"]%string), 1%Qc, $"b,c". split; [weigh|]. split; [weigh|split].
  - destruct (sample_prompts env0 60 (ctx0 Combinatorial) (WCmd (Var ([(lit "a", 1%Qc)] ++ opts ["b"; "c"]%string) 2 2 $"," None)) None) as [g|e|] eqn:Hg;
      [|vm_compute in Hg; discriminate|vm_compute in Hg; discriminate].
    destruct (collect stream_rng env0 60 9 g []) as [[ts e] r] eqn:Hc.
    pose proof (C14_every_prompt_is_allowed stream_rng env0 60 _ _ _ g 60 9 _ ts e r Hg Hc) as Ha.
    vm_compute in Hg. injection Hg as <-. vm_compute in Hc. injection Hc as <- _ _.
    apply (proj1 (Forall_forall _ _) Ha). vm_compute. auto 10.
  - intros (cmd & t & Hr & Ht & Htd). inversion Hr; subst. cbn in Htd. subst t. apply produces_iff in Ht.
    apply var_chosen in Ht as (sel & rest & parts & Hp & Hc & Hq & Ha & Hg); [|cbn; lia|discriminate].
    assert (Hs : length sel = 2) by (clear -Hc; unfold clamp, opts in Hc; cbn [length app map] in Hc; lia).
    destruct sel as [|v [|w [|? ?]]]; try discriminate.
    inversion Ha as [|? x ? l Hv Hl]; subst. inversion Hl as [|? y ? l' Hw Hl']; subst. inversion Hl'; subst.
    cbn [map fst app] in Hp. pose proof (Permutation_length Hp) as Hlen. destruct rest; [|discriminate].
    assert (Hx : x = $"a" \/ y = $"a").
    { apply Permutation_length_2_inv in Hp as [[= -> ->]|[= -> ->]].
      - left. now apply lit_text in Hv.
      - right. now apply lit_text in Hw. }
    inversion Hg as [|ts Hs0|ts mid u Hlt Hs0 Hd Htr]; subst; [discriminate|]. clear -Hx Hd Htr. destruct Hx as [->| ->].
    + cbn [interleave flat_map app] in Hd. destruct Hd as [Hd|[_ ->]]; [discriminate|].
      destruct Htr as [Htr|[_ Htr]]; discriminate.
    + assert (Hlast : last (interleave $"," [x; $"a"]) 0%N = 97%N).
      { replace (interleave $"," [x; $"a"]) with ((x ++ $",") ++ [97%N]) by (cbn; now rewrite <- app_assoc). apply last_last. }
      assert (Hmid : mid = $"b,c" ++ $"," \/ mid = $"b,c") by (destruct Htr as [Htr|[_ Htr]]; auto).
      destruct Hd as [Hd|[_ Hd]].
      * assert (K : interleave $"," [x; $"a"] = $"," ++ mid) by exact Hd. rewrite K in Hlast.
        destruct Hmid as [Hm|Hm]; rewrite Hm in Hlast; discriminate.
      * assert (K : mid = interleave $"," [x; $"a"]) by exact Hd. rewrite <- K in Hlast.
        destruct Hmid as [Hm|Hm]; rewrite Hm in Hlast; discriminate.
Qed.

Print Assumptions C95_akin_templates_allow_the_same_prompts.
Print Assumptions C95_akin_commands_allow_the_same_prompts.
Print Assumptions C95_akin_commands_produce_the_same_texts.
Print Assumptions C95_no_run_gives_another_prompt.
Print Assumptions C95_random_prompts_can_be_drawn_from_both.
Print Assumptions C95_zero_weights_refuted.
Print Assumptions C95_several_options_refuted.
