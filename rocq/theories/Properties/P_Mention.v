(** C84: prompts depend on nothing but what the template mentions. *)
From Coq Require Import String NArith ZArith QArith Qcanon Bool Arith List Lia.
From Verif.Model Require Import Str Utils Command Rng Values Context Sampler Parser Generators.
From Verif.Spec Require Import Text Lang StreamRng Mention.
From Verif.Proofs Require Import StrFacts UtilsFacts Soundness MentionFacts.
From Verif.Properties Require Import P_Sampler P_Parser P_EndToEnd.
Import ListNotations.
Local Open Scope nat_scope.

Lemma drain_twin : forall G E1 E2 V W, AlikeOn W E1 E2 -> ValuesWithin E1 V W ->
  forall f n g h r, tw G E1 V W g h -> drain G E1 f n g r = drain G E2 f n h r.
Proof.
  intros G E1 E2 V W HE HV f n. induction n as [|n IH]; intros g h r Hg; cbn [drain]; [reflexivity|].
  pose proof (proj1 (next_twin G E1 E2 V W HE HV f) g h r Hg) as HT.
  destruct (next G E1 f g r) as [[t g'] r1|r1|e r1|], (next G E2 f h r) as [[t' h'] r2|r2|e' r2|]; cbn in HT; try contradiction.
  - destruct HT as [-> [E' Hg']]. cbn in E', Hg'. subst t'. now rewrite (IH g' h' r2 Hg').
  - now subst.
  - now destruct HT as [-> ->].
  - reflexivity.
Qed.
Lemma seeded_twin : forall G E1 E2 V W, AlikeOn W E1 E2 -> ValuesWithin E1 V W ->
  forall f l g h r, tw G E1 V W g h -> seeded_loop G E1 f l g r = seeded_loop G E2 f l h r.
Proof.
  intros G E1 E2 V W HE HV f l. induction l as [|z l IH]; intros g h r Hg; cbn [seeded_loop]; [reflexivity|].
  pose proof (proj1 (next_twin G E1 E2 V W HE HV f) g h (prim_seed G z) Hg) as HT.
  destruct (next G E1 f g (prim_seed G z)) as [[t g'] r1|r1|e r1|], (next G E2 f h (prim_seed G z)) as [[t' h'] r2|r2|e' r2|];
    cbn in HT; try contradiction.
  - destruct HT as [-> [E' Hg']]. cbn in E', Hg'. subst t'. now rewrite (IH g' h' r2 Hg').
  - now subst.
  - now destruct HT as [-> ->].
  - reflexivity.
Qed.

(** * C84 *)
(** The same calls of the generators: the same prompts or the same exception,
    and the same use of the random source. *)
Theorem C84_random_generator : forall G E1 E2 V W c1 c2 fuel template num seeds r,
  AlikeOn W E1 E2 -> ValuesWithin E1 V W -> AlikeIn E1 V W c1 c2 ->
  (forall cmd, Reads E1 (WStr template) cmd -> Within E1 V W cmd) ->
  random_generate G E1 fuel c1 template num seeds r = random_generate G E2 fuel c2 template num seeds r.
Proof.
  intros G E1 E2 V W c1 c2 fuel template num seeds r HE HV Hc Hp. unfold random_generate.
  pose proof (twin_prompts G E1 E2 V W HE fuel c1 c2 (WStr template) (Some num) Hc Hp) as HM.
  destruct (sample_prompts E1 fuel c1 (WStr template) (Some num)) as [g|e|],
    (sample_prompts E2 fuel c2 (WStr template) (Some num)) as [h|e'|]; cbn in HM; try contradiction; subst;
    destruct (effective_seeds seeds num) as [[l|e0]|]; cbn [drain_mk]; try reflexivity.
  - eapply seeded_twin; eassumption.
  - eapply drain_twin; eassumption.
Qed.
Theorem C84_combinatorial_generator : forall G E1 E2 V W c1 c2 fuel steps template limit r,
  AlikeOn W E1 E2 -> ValuesWithin E1 V W -> AlikeIn E1 V W c1 c2 ->
  (forall cmd, Reads E1 (WStr template) cmd -> Within E1 V W cmd) ->
  combinatorial_generate G E1 fuel steps c1 template limit r
  = combinatorial_generate G E2 fuel steps c2 template limit r.
Proof.
  intros G E1 E2 V W c1 c2 fuel steps template limit r HE HV Hc Hp. unfold combinatorial_generate.
  pose proof (twin_prompts G E1 E2 V W HE fuel c1 c2 (WStr template) limit Hc Hp) as HM.
  destruct (sample_prompts E1 fuel c1 (WStr template) limit) as [g|e|],
    (sample_prompts E2 fuel c2 (WStr template) limit) as [h|e'|]; cbn in HM |- *; try contradiction; subst; try reflexivity.
  eapply drain_twin; eassumption.
Qed.
(** Any number of prompts of any template or command, with any sampler. *)
Theorem C84_sampling : forall G E1 E2 V W c1 c2 p limit fuel,
  AlikeOn W E1 E2 -> ValuesWithin E1 V W -> AlikeIn E1 V W c1 c2 ->
  (forall cmd, Reads E1 p cmd -> Within E1 V W cmd) ->
  match sample_prompts E1 fuel c1 p limit, sample_prompts E2 fuel c2 p limit with
  | MOk g, MOk h => forall f n r,
      let '(ts, e, s) := collect G E1 f n g r in
      let '(us, e', s') := collect G E2 f n h r in
      ts = us /\ s = s' /\ (e = EndStop <-> e' = EndStop) /\ forall x, e = EndRaise x <-> e' = EndRaise x
  | MErr e, MErr e' => e = e'
  | MFuel, MFuel => True
  | _, _ => False
  end.
Proof.
  intros G E1 E2 V W c1 c2 p limit fuel HE HV Hc Hp.
  pose proof (twin_prompts G E1 E2 V W HE fuel c1 c2 p limit Hc Hp) as HM.
  destruct (sample_prompts E1 fuel c1 p limit) as [g|e|], (sample_prompts E2 fuel c2 p limit) as [h|e'|];
    cbn in HM; try contradiction; auto.
  intros f n r. pose proof (collect_twin G E1 E2 V W HE HV f n g h r HM) as HC.
  destruct (collect G E1 f n g r) as [[ts e] s], (collect G E2 f n h r) as [[us e'] s'].
  destruct HC as (-> & -> & HC). split; [reflexivity|]. split; [reflexivity|].
  destruct e, e'; try contradiction; (split; [|intros x]); split; intros H; try discriminate; try congruence; auto.
Qed.

(** Plain names mean the wildcard of that name. *)
Lemma plain_name : forall E s m sc name, env_parse E s = Ok (Lit s m) -> Word s ->
  Path E sc (WStr s) name -> name = s.
Proof.
  intros E s m sc name Hp Hw H. inversion H as [? ? c t u Hr Hpr Ht]; subst.
  inversion Hr as [? ? _ Hc|]; subst. rewrite Hp in Hc. injection Hc as <-.
  apply Prod_Lit in Hpr. subst t. unfold Tidy in Ht. destruct (sc_squash sc); [|exact Ht].
  destruct Ht as (ws & Hws & ->). rewrite <- (squash_words s ws Hws).
  rewrite (squash_words s [s]); [cbn; now rewrite ?app_nil_r|]. pose proof (Words_interleave [s]) as HI. cbn in HI. rewrite ?app_nil_r in HI. apply HI. constructor; [exact Hw|constructor].
Qed.

(** A wildcard whose value is a template with a variant and another wildcard;
    a third wildcard and a variable that only the second environment and
    context have. *)
Definition garden (more : bool) : env :=
  {| env_parse := parse ascii_alnum default_parser_config;
     env_lookup := fun path =>
       if str_eqb path $"plant" then [{| w_content := $"{old|__colour__} tree"; w_weight_opt := None |};
                                      {| w_content := $"fern"; w_weight_opt := None |}]
       else if str_eqb path $"colour" then [{| w_content := $"red"; w_weight_opt := None |}]
       else if more then animals else [];
     env_wrap := $"__" |}.
Definition gardener (more : bool) : ctx :=
  {| c_method := Combinatorial; c_ignws := false;
     c_vars := ($"size", lit "big") :: (if more then [($"x", lit "y")] else []); c_unknown := None; c_busy := [] |}.
Definition garden_names (t : text) : Prop := t = $"plant" \/ t = $"colour".
Lemma within_name : forall V b s m vars, env_parse (garden b) s = Ok (Lit s None) -> Word s -> garden_names s ->
  Forall (fun kv => Within (garden b) V garden_names (snd kv)) vars ->
  Within (garden b) V garden_names (Wild (WStr s) m vars).
Proof.
  intros V b s m vars Hp Hw Hn Hv. constructor; [| |exact Hv].
  - intros c Hr. inversion Hr as [? ? _ Hc|]; subst. rewrite Hp in Hc. injection Hc as <-. constructor.
  - intros sc name H. rewrite (plain_name _ _ _ _ _ Hp Hw H). exact Hn.
Qed.
Lemma letters_word : forall s, s <> [] -> forallb (fun c => N.leb 97 c && N.leb c 122)%N s = true -> Word s.
Proof.
  intros s Hs H. split; [exact Hs|]. rewrite forallb_forall in H. apply Forall_forall. intros c Hc Hsp.
  specialize (H c Hc). apply andb_true_iff in H as [H1 H2]. apply N.leb_le in H1, H2.
  unfold Space in Hsp. cbn in Hsp. repeat (destruct Hsp as [Hsp|Hsp]; [subst c; lia|]). exact Hsp.
Qed.
Example C84_example :
  AlikeOn garden_names (garden false) (garden true) /\
  ValuesWithin (garden false) (eq $"size") garden_names /\
  AlikeIn (garden false) (eq $"size") garden_names (gardener false) (gardener true) /\
  (forall cmd, Reads (garden false) (WStr $"a ${size} __plant__") cmd ->
     Within (garden false) (eq $"size") garden_names cmd).
Proof.
  assert (Hplant : Word $"plant") by (apply letters_word; [discriminate|reflexivity]).
  assert (Hcolour : Word $"colour") by (apply letters_word; [discriminate|reflexivity]).
  split; [|split; [|split]].
  - split; [reflexivity|]. split; [reflexivity|]. intros name [-> | ->]; vm_compute; reflexivity.
  - intros name i c [-> | ->] Hi Hc; cbn in Hi.
    + destruct Hi as [<-|[<-|[]]]; vm_compute in Hc; injection Hc as <-; [|constructor].
      constructor. constructor; [|constructor; [constructor|constructor]]. constructor.
      constructor; [constructor|constructor; [|constructor]]. cbn [fst].
      apply (within_name (eq $"size") false $"colour"); [vm_compute; reflexivity|exact Hcolour|right; reflexivity|constructor].
    + destruct Hi as [<-|[]]; vm_compute in Hc; injection Hc as <-. constructor.
  - split; [reflexivity|]. split; [reflexivity|]. split; [reflexivity|]. split; [reflexivity|].
    split; [intros u Hu; discriminate|]. intros x <-. split; [vm_compute; reflexivity|].
    intros v Hv. vm_compute in Hv. injection Hv as <-. constructor.
  - intros cmd Hr. inversion Hr as [? ? _ Hc|]; subst. vm_compute in Hc. injection Hc as <-.
    constructor. apply Forall_cons; [constructor|].
    apply Forall_cons; [constructor; [reflexivity|intros; discriminate]|].
    apply Forall_cons; [constructor|]. apply Forall_cons; [|constructor].
    apply (within_name (eq $"size") false $"plant"); [vm_compute; reflexivity|exact Hplant|left; reflexivity|constructor].
Qed.
Example C84_example_prompts :
  combinatorial_generate stream_rng (garden true) 60 9 (gardener true) $"a ${size} __plant__" None []
  = @Ret (list N) _ [$"a big old tree"; $"a big red tree"; $"a big fern"] [].
Proof. vm_compute. reflexivity. Qed.
(** What the values mention has to be counted: [__plant__] alone depends on
    the wildcard [colour]. *)
Definition pruned : env :=
  {| env_parse := env_parse (garden false);
     env_lookup := fun path => if str_eqb path $"colour" then [] else env_lookup (garden false) path;
     env_wrap := $"__" |}.
Example C84_values_matter : AlikeOn (eq $"plant") (garden false) pruned /\
  combinatorial_generate stream_rng (garden false) 60 9 (gardener true) $"__plant__" None []
  <> combinatorial_generate stream_rng pruned 60 9 (gardener true) $"__plant__" None [].
Proof.
  split; [|vm_compute; discriminate]. split; [reflexivity|]. split; [reflexivity|].
  intros name <-. vm_compute. reflexivity.
Qed.

Print Assumptions C84_random_generator.
Print Assumptions C84_combinatorial_generator.
Print Assumptions C84_sampling.
