(** C55, C56: endless sampling serves every request, and random sampling can
    draw every allowed prompt. *)
From Coq Require Import String NArith ZArith QArith Qcanon Bool Arith List Permutation Lia.
From Verif.Model Require Import Str Utils Command Rng Values Context Sampler Generators.
From Verif.Spec Require Import Text Comb Items StreamRng Lang Sure Draws.
From Verif.Proofs Require Import CommandFacts ValuesFacts LiveFacts ServeFacts ReachFacts FairFacts.
From Verif.Properties Require Import P_Sampler.
Import ListNotations.
Local Open Scope nat_scope.

(** * C55 *)
(** From some amount of fuel on, the run of any length succeeds, with the same
    prompts for every larger amount, whatever the random generator does. *)
Theorem C55_endless_templates_never_fail : forall G E c p cmd k r,
  Reads E p cmd -> Sure E (scope_of c) (c_busy c) cmd ->
  exists n g ts g' r', (forall m, n <= m ->
    sample_prompts E m c p None = MOk g /\ collect G E m k g r = (ts, EndLimit g', Some r')) /\
    length ts = k.
Proof. exact sure_run. Qed.

Theorem C55_every_request_is_served : forall G E c template cmd num seeds r,
  Reads E (WStr template) cmd -> Sure E (scope_of c) (c_busy c) cmd -> Usable num seeds ->
  exists n ts r', (forall m, n <= m -> random_generate G E m c template num seeds r = Ret ts r') /\
    length ts = num.
Proof. exact sure_generate. Qed.

(** Without the condition on cyclical variants sampling never answers. *)
Theorem C55_too_few_options_hang : forall G E c opts lo hi sep m fuel g,
  resolve (c_method c) m = Cyclical -> opts <> [] -> ~ lone_wildcard opts ->
  (forall k sel, (clamp (length opts) (Z.min lo hi) <= Z.of_nat k <= clamp (length opts) (Z.max lo hi))%Z ->
     ~ Selection k (map fst opts) sel) ->
  sample_prompts E fuel c (WCmd (Var opts lo hi sep m)) None = MOk g ->
  forall fuel' r, next G E fuel' g r = OFuel.
Proof. exact no_selection_hangs. Qed.

(** Without the condition on bounds random variants fail. *)
Theorem C55_refuted_for_negative_bounds : exists cmd,
  cmd = Var (opts ["a"; "b"]%string) (-2) (-1) $"," None /\
  run Random cmd 1 [] = ([], Some EValue).
Proof. eexists. split; [reflexivity|]. vm_compute. reflexivity. Qed.

(** Wildcard, variable, random and cyclical variants. *)
Definition served : command :=
  Seq [Assign $"x" (Wild (WStr $"animal") None []) true true;
       Var (opts ["a"; "b"; "c"]%string) 1 2 $"+" None;
       Access $"x" None;
       Var (opts ["u"; "v"; "u"]%string) 1 2 $"," (Some Cyclical)] $" " None.

Lemma served_path : forall E sc path, env_parse E = env_parse env0 -> sc_squash sc = false ->
  Path E sc (WStr $"animal") path -> path = $"animal".
Proof.
  intros E sc path He Hs H. inversion H as [sc' w c t u Hr Hp Ht]; subst.
  inversion Hr as [s c' Hne Hpa|]; subst. rewrite He in Hpa. cbn in Hpa. injection Hpa as <-.
  inversion Hp as [sc' c' t' Hb]; subst. inversion Hb; subst. rewrite Hs in Ht. exact Ht.
Qed.

Lemma served_animal : forall sc busy, sc_method sc = Random -> sc_squash sc = false ->
  Sure env0 sc busy (Wild (WStr $"animal") None []).
Proof.
  intros sc busy Hm Hs. constructor.
  assert (Hm' : sc_method (enter sc (Wild (WStr $"animal") None [])) = Random) by exact Hm.
  apply Sure_wild with (path_cmd := lit "animal") (meaning := fun v => Lit v None).
  - now rewrite Hm'.
  - constructor; [discriminate|reflexivity].
  - constructor. constructor. cbn. now rewrite Hm.
  - intros path Hp _ _ v q Hin. apply served_path in Hp; [|reflexivity|exact Hs]. subst.
    destruct Hin as [[= <- <-]|[[= <- <-]|[]]]; discriminate.
  - intros path Hp _. apply served_path in Hp; [|reflexivity|exact Hs]. subst. exists $"cat". rewrite Hm'.
    exists 1%Qc. split; [left; reflexivity|]. intros _. reflexivity.
  - intros path v Hp Hd. apply served_path in Hp; [|reflexivity|exact Hs]. subst. rewrite Hm' in Hd.
    destruct Hd as (q & [[= <- <-]|[[= <- <-]|[]]] & _); (constructor; [discriminate|reflexivity]).
  - intros path sc' v _ Hx _. destruct Hx as ((Hx & _) & _). constructor. constructor. cbn. rewrite Hx, Hm'. discriminate.
  - intros path sc' cmd _ _ _ [=].
Qed.

Example C55_served_is_sure : Sure env0 (scope_of (ctx0 Random)) [] served.
Proof.
  constructor. apply Sure_seq.
  - discriminate.
  - intros x v ovr Hin _. destruct Hin as [[= <- <- <-]|[|[|[|[]]]]]; try discriminate.
    now apply served_animal.
  - intros sc' toks tok (Hm & Hs & Hu) Hb Hp Hin. cbn in Hm, Hs.
    assert (Htoks : toks = tl [Assign $"x" (Wild (WStr $"animal") None []) true true;
       Var (opts ["a"; "b"; "c"]%string) 1 2 $"+" None; Access $"x" None;
       Var (opts ["u"; "v"; "u"]%string) 1 2 $"," (Some Cyclical)]).
    { repeat match goal with
      | H : Plain _ _ |- _ => inversion H; subst; clear H
      | H : ~ is_assign (Assign _ _ _ _) |- _ => exfalso; apply H; do 4 eexists; reflexivity end. reflexivity. }
    subst toks. destruct Hin as [<-|[<-|[<-|[]]]].
    + constructor. apply Sure_random; cbn [enter sc_method mark_of resolve].
      * exact Hm.
      * intros (w & m & vs & q & [=]).
      * discriminate.
      * right. split; [lia|]. intros v q Hin. repeat (destruct Hin as [[= <- <-]|Hin]; [reflexivity|]). destruct Hin.
      * intros v q Hin. repeat (destruct Hin as [[= <- <-]|Hin]; [constructor; constructor; cbn; rewrite Hm; discriminate|]). destruct Hin.
    + specialize (Hb $"x"). constructor.
      assert (Hv : exists t, sc_var sc' $"x" = Some (Lit t None)).
      { assert (Hla : forall v i o, LastAssign $"x" [Assign $"x" (Wild (WStr $"animal") None []) true true;
          Var (opts ["a"; "b"; "c"]%string) 1 2 $"+" None; Access $"x" None;
          Var (opts ["u"; "v"; "u"]%string) 1 2 $"," (Some Cyclical)] v i o ->
          v = Wild (WStr $"animal") None [] /\ i = true /\ o = true).
        { intros v i o (pre & post & He & _). destruct pre as [|a [|b [|c [|d pre]]]]; try discriminate He.
          - injection He as <- <- <- _. auto.
          - cbn in He. injection He as _ _ _ _ He. destruct pre; discriminate He. }
        inversion Hb as [e1 e2 e3 Hn|e1 e2 e3 e4 e5 e6 Hl|e1 e2 e3 e4 e5 Hl|e1 e2 e3 e4 e5 e6 Hl|e1 e2 e3 e4 e5 t Hl]; subst.
        - exfalso. eapply Hn. left. reflexivity.
        - apply Hla in Hl as (_ & _ & [=]).
        - apply Hla in Hl as (_ & [=] & _).
        - apply Hla in Hl as ([=] & _ & _).
        - eauto. }
      destruct Hv as (t & Hv). apply Sure_access with (v := Lit t None).
      * apply Refers_var; [exact Hv|]. split; discriminate.
      * intros [].
      * constructor. constructor. cbn. rewrite Hm. discriminate.
    + constructor. apply Sure_cyclical with (k := 2) (sel := [lit "v"; lit "u"]); cbn [enter sc_method mark_of resolve].
      * reflexivity.
      * intros (w & m & vs & q & [=]).
      * discriminate.
      * lia.
      * cbn. lia.
      * split; [reflexivity|]. split.
        -- repeat constructor; cbn; intuition discriminate.
        -- intros v [<-|[<-|[]]]; cbn; tauto.
      * intros v q Hin. repeat (destruct Hin as [[= <- <-]|Hin]; [constructor; constructor; cbn; discriminate|]). destruct Hin.
Qed.
Example C55_example_run :
  run Random served 4 [1; 1; half53; top53; 0; 0]%N
  = ([$"b+c dog u"; $"a dog v"; $"a dog u"; $"a dog u,v"], None).
Proof. vm_compute. reflexivity. Qed.
(** Two equal options: no two of them are different, so nothing is yielded. *)
Example C55_example_hang : forall fuel' r,
  next stream_rng env0 fuel' (GYVarStart (ctx0 Cyclical) (opts ["a"; "a"]%string) 2 2 $",") r = OFuel.
Proof.
  apply (C55_too_few_options_hang stream_rng env0 (ctx0 Cyclical) (opts ["a"; "a"]%string) 2 2 $"," None 1).
  - reflexivity.
  - discriminate.
  - intros (w & m & vs & q & [=]).
  - intros k sel Hk (Hl & Hn & Hi). cbn in Hk. destruct sel as [|a [|b [|c sel]]]; cbn in Hl; try lia.
    assert (Ha : a = lit "a") by (destruct (Hi a ltac:(now left)) as [<-|[<-|[]]]; reflexivity).
    assert (Hb : b = lit "a") by (destruct (Hi b ltac:(right; now left)) as [<-|[<-|[]]]; reflexivity).
    subst. inversion Hn as [|? ? Hx _]. apply Hx. now left.
  - reflexivity.
Qed.

(** * C56 *)
Theorem C56_drawable_prompts_are_drawn : forall E c p u, Drawn E c p u ->
  exists n draws g g', forall m rest, n <= m ->
    sample_prompts E m c p None = MOk g /\
    next stream_rng E m g (draws ++ rest) = @OVal stream_rng _ (u, g') rest.
Proof. exact drawn_first. Qed.

Theorem C56_fair_templates_reach_every_allowed_prompt : forall E c p u,
  FairValues E -> c_method c = Random -> (forall cmd, Reads E p cmd -> Fair E cmd) ->
  (Allowed E c p u <->
   exists n draws g g', forall m rest, n <= m ->
     sample_prompts E m c p None = MOk g /\
     next stream_rng E m g (draws ++ rest) = @OVal stream_rng _ (u, g') rest).
Proof.
  intros E c p u Hv Hm Hf. split.
  - intros H. apply drawn_first. now apply fair_allowed_drawn.
  - intros (n & draws & g & g' & H). destruct (H n [] (le_n n)) as [Hg Hn].
    assert (Hc : collect stream_rng E n 1 g (draws ++ []) = ([u], EndLimit g', Some ([] : list N))).
    { cbn [collect]. rewrite Hn. reflexivity. }
    pose proof (C14_every_prompt_is_allowed stream_rng E n c p None g n 1 (draws ++ []) _ _ _ Hg Hc) as Ha.
    now inversion Ha.
Qed.

(** Weights 1, 2 and 1/2; a nested variant; a wildcard. *)
Definition fair_cmd : command :=
  Seq [Var [(lit "a", 1%Qc); (Var (opts ["b"; "c"]%string) 0 2 $"&" None, Q2Qc (2 # 1)); (lit "d", Q2Qc (1 # 2))] 1 3 $"+" None;
       Wild (WStr $"animal") None []] $" " None.
Example C56_fair_cmd : Fair env0 fair_cmd.
Proof.
  assert (Hl : forall s, Fair env0 (lit s)) by (intros s; constructor; discriminate).
  constructor; [discriminate|]. repeat constructor; cbn [fst snd map]; try discriminate; auto; try apply Hl.
  intros c [= <-]. constructor. discriminate.
Qed.
Example C56_fair_env : FairValues env0.
Proof.
  intros path. cbn [env0 env_lookup env_parse]. split; [|split].
  - left. destruct (str_eqb path $"animal"); intros a b Ha Hb; cbn in Ha, Hb; [|destruct Ha].
    destruct Ha as [<-|[<-|[]]], Hb as [<-|[<-|[]]]; reflexivity.
  - intros v q c _ [= <-]. constructor. discriminate.
  - intros os (vals & cmds & Hl & Hp & ->). rewrite map_length.
    assert (Hlen : length cmds = length vals) by (clear -Hp; induction Hp; cbn; congruence).
    assert (Hv : length vals <= 2).
    { pose proof (Listed_unique _ _ _ Hl (iterate_weighted_Listed (env_lookup env0 path))) as ->.
      cbn [env0 env_lookup]. destruct (str_eqb path $"animal"); vm_compute; repeat constructor. }
    lia.
Qed.
(** Options 3 and 2 of the outer variant, nothing of the inner one, and the
    second animal. *)
Example C56_example :
  run Random fair_cmd 1 [1; top53; half53; 0; 1]%N = ([$"d dog"], None).
Proof. vm_compute. reflexivity. Qed.
Example C56_example_drawn : Drawn env0 (ctx0 Random) (WCmd fair_cmd) $"d dog".
Proof.
  apply fair_allowed_drawn.
  - exact C56_fair_env.
  - reflexivity.
  - intros cmd H. inversion H; subst. exact C56_fair_cmd.
  - destruct (sample_prompts env0 50 (ctx0 Random) (WCmd fair_cmd) None) as [g|e|] eqn:Hg; try discriminate.
    destruct (collect stream_rng env0 50 1 g [1; top53; half53; 0; 1]%N) as [[ts e] r] eqn:Hc.
    pose proof (C14_every_prompt_is_allowed _ _ _ _ _ _ _ _ _ _ _ _ _ Hg Hc) as Ha.
    vm_compute in Hg. injection Hg as <-. vm_compute in Hc. injection Hc as <- _ _. now inversion Ha.
Qed.

Print Assumptions C55_endless_templates_never_fail.
Print Assumptions C55_every_request_is_served.
Print Assumptions C55_too_few_options_hang.
Print Assumptions C55_refuted_for_negative_bounds.
Print Assumptions C56_drawable_prompts_are_drawn.
Print Assumptions C56_fair_templates_reach_every_allowed_prompt.
