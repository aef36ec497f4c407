(** C15-C17, C22, C27, C48: combinatorial runs, missing and lone wildcards. *)
From Coq Require Import String NArith ZArith QArith Qcanon Bool Arith List Permutation Lia.
From Verif.Model Require Import Str Utils Command Rng Values Context Sampler.
From Verif.Spec Require Import Text Comb Items StreamRng Lang Enum Choices.
From Verif.Proofs Require Import StrFacts UtilsFacts CommandFacts ValuesFacts DictFacts Soundness FuelFacts RunFacts
  EnumFacts BindFacts EnumRun CombRun PureFacts WildRun EndFacts.
From Verif.Properties Require Import P_Sampler.
Import ListNotations.
Local Open Scope nat_scope.

(** * C15 *)
(** The run yields the specified list, in order, then stops; fewer requests
    yield the first of them.  The random generator is not used. *)
Theorem C15_enumerates_in_order : forall G E c p ts, c_method c = Combinatorial -> EnumPrompt E c p ts ->
  exists f, forall m, f <= m -> exists g, sample_prompts E m c p None = MOk g /\
    forall n r, (length ts < n -> collect G E m n g r = (ts, EndStop, Some r)) /\
      (n <= length ts -> exists g', collect G E m n g r = (firstn n ts, EndLimit g', Some r)).
Proof. exact enum_run. Qed.

(** Every template of literals, sequences and variants is covered. *)
Theorem C15_simple_templates_are_enumerated : forall E c cmd, Simple cmd ->
  exists ts, Enum E c cmd ts /\ ts <> [].
Proof. exact Simple_lists. Qed.

(** Sequences: the product of the lists of the parts, leftmost slowest. *)
Theorem C15_sequence_is_product : forall G E c tokens sep lists, c_method c = Combinatorial ->
  c_ignws c = false -> tokens <> [] ->
  Forall (fun tok => ~ is_assign tok) tokens -> EnumAll E c tokens lists ->
  Forall (fun l => l <> []) lists ->
  exists f, forall m, f <= m -> exists g, sample_prompts E m c (WCmd (Seq tokens sep None)) None = MOk g /\
    forall n r, length (product lists) < n ->
      collect G E m n g r = (map (interleave sep) (product lists), EndStop, Some r).
Proof.
  intros G E c tokens sep lists Hc Hw Hne Ha Hl Hnon.
  assert (He : EnumPrompt E c (WCmd (Seq tokens sep None)) (map (interleave sep) (product lists))).
  { eapply EnP_reads with (ts := map (interleave sep) (product lists)).
    - constructor. split; [intros s m [=]; contradiction|discriminate].
    - apply Enum_product; auto; [now left|]. pose proof (EnumAll_length _ _ _ _ Hl) as Hlen. clear -Hnon Hlen.
      revert tokens Hlen. induction Hnon as [|l ls Hl _ IH]; intros [|t ts] H; cbn in H; try discriminate; constructor; auto.
    - rewrite Hw. generalize (map (interleave sep) (product lists)). induction l; constructor; auto. reflexivity. }
  destruct (enum_run G E c _ _ Hc He) as (f & Hf). exists f. intros m Hm.
  destruct (Hf m Hm) as (g & Hg & Hr). exists g. split; [exact Hg|]. intros n r Hn.
  apply Hr. now rewrite map_length.
Qed.

Definition nested : command :=
  Seq [Var (opts ["a"; "b"]%string) 1 2 $"-" None;
       lit " ";
       Var [(Seq [lit "x"; Var (opts ["1"; "2"]%string) 1 1 $"," None] [] None, 1%Qc); (lit "y", 1%Qc)] 1 1 $"," None]
      [] None.
Example C15_example :
  run Combinatorial nested 20 []
  = ([$"a x1"; $"a x2"; $"a y"; $"b x1"; $"b x2"; $"b y";
      $"a-b x1"; $"a-b x2"; $"a-b y"; $"b-a x1"; $"b-a x2"; $"b-a y"], None) /\ Simple nested.
Proof.
  split; [vm_compute; reflexivity|]. repeat first [constructor | discriminate | (cbn; lia) | (left; reflexivity)].
Qed.

(** A variant lists its selections of each size, those with repeated texts
    left out, so a selection of two equal options lists nothing. *)
Example C15_equal_options_example :
  run Combinatorial (Var (opts ["a"; "a"]%string) 2 2 $"," None) 9 [] = ([], None) /\
  run Combinatorial (Var (opts ["a"; "a"]%string) 1 1 $"," None) 9 [] = ([$"a"], None).
Proof. split; vm_compute; reflexivity. Qed.

(** Variables, a wildcard and a cyclical option: "${x={a|b}}${y=!{c|d}}$x$y
    __animal__{2$$ {1|2}|{@p|q|r}}" and its list, as in the theorem. *)
Definition ab : command := Var (opts ["a"; "b"]%string) 1 1 $"," None.
Definition cd : command := Var (opts ["c"; "d"]%string) 1 1 $"," None.
Definition bound : command :=
  Seq [Assign $"x" ab false true; Assign $"y" cd true true; Access $"x" None; Access $"y" None;
       Wild (WStr $"animal") None []] [] None.
Example C15_variables_example :
  run Combinatorial bound 20 [] = ([$"accat"; $"acdog"; $"bccat"; $"bcdog"], None) /\
  EnumPrompt env0 (ctx0 Combinatorial) (WCmd bound) [$"accat"; $"acdog"; $"bccat"; $"bcdog"].
Proof.
  split; [vm_compute; reflexivity|].
  assert (Hab : forall c, Enum env0 c ab [$"a"; $"b"]).
  { intros c. change [$"a"; $"b"] with (choices ab). apply one_choice_lists.
    repeat first [constructor | discriminate]. }
  assert (Hcd : forall c, Enum env0 c cd [$"c"; $"d"]).
  { intros c. change [$"c"; $"d"] with (choices cd). apply one_choice_lists.
    repeat first [constructor | discriminate]. }
  pose (bs := [($"x", ab); ($"y", Lit $"c" None)]).
  pose (c' := with_variables bs (ctx0 Combinatorial)).
  apply EnP_reads with (cmd := bound) (ts := [$"accat"; $"acdog"; $"bccat"; $"bcdog"]).
  - constructor. split; discriminate.
  - refine (En_seq env0 (ctx0 Combinatorial) _ [] None bs [(cd, $"c")] c' _ (fun _ _ => [])
      (map (map (fun t _ => t)) [[$"a"; $"b"]; [$"c"]; [$"cat"; $"dog"]]) _ _ _ _ _ _).
    + now left.
    + apply As_lazy; [discriminate|]. apply As_immediate; [discriminate|discriminate|].
      apply Assigned_plain. repeat constructor; intros (n & v & i & o & [=]).
    + apply EnF_finite with (ts := [$"d"]); [apply Hcd|constructor].
    + split; [apply with_variables_Extended|reflexivity].
    + do 2 apply Plain_drop. apply Plain_plain. repeat constructor; intros (n & v & i & o & [=]).
    + apply Enum_parts; [|repeat constructor; discriminate].
      constructor; [|constructor; [|constructor; [|constructor]]].
      * apply En_access with (v := ab); [|intros []|apply Hab].
        apply Refers_var; [reflexivity|]. split; discriminate.
      * apply En_access with (v := Lit $"c" None); [|intros []|constructor; now left].
        apply Refers_var; [reflexivity|]. split; discriminate.
      * change [$"cat"; $"dog"] with (concat [[$"cat"]; [$"dog"]]).
        apply En_wild with (path := $"animal") (c' := c') (vals := [$"cat"; $"dog"]).
        -- now left.
        -- apply EnPa_finite with (rest := []).
           apply EnP_reads with (cmd := Lit $"animal" None) (ts := [$"animal"]);
             [constructor; [discriminate|reflexivity]|constructor; now left|repeat constructor].
        -- discriminate.
        -- apply Extends_nil.
        -- exact (iterate_weighted_Listed (env_lookup env0 $"animal")).
        -- cbn [map].
           constructor; [|constructor; [|constructor]].
           ++ apply EnP_reads with (cmd := Lit $"cat" None) (ts := [$"cat"]);
             [constructor; [discriminate|reflexivity]|constructor; now left|repeat constructor].
           ++ apply EnP_reads with (cmd := Lit $"dog" None) (ts := [$"dog"]);
             [constructor; [discriminate|reflexivity]|constructor; now left|repeat constructor].
  - repeat constructor.
Qed.

(** A cyclical option in a selection moves on with each array of the others to
    its right, and starts again for each value to its left. *)
Definition pqr : command := Var (opts ["p"; "q"; "r"]%string) 1 1 $"," (Some Cyclical).
Example C15_cyclical_option_example :
  run Combinatorial (Var [(ab, 1%Qc); (pqr, 1%Qc)] 2 2 [] None) 20 [] = ([$"ap"; $"bp"; $"pa"; $"qb"], None).
Proof. vm_compute. reflexivity. Qed.

(** * C16 *)
Theorem C16_single_choice_has_no_repeats : forall G E c opts sep m fuel g f n r ts e r',
  resolve (c_method c) m = Combinatorial -> mk fuel c (Var opts 1 1 sep m) = MOk g ->
  collect G E f n g r = (ts, e, r') -> NoDup ts.
Proof.
  intros G E c opts sep m fuel g f n r ts e r' Hm H Hc. destruct fuel as [|fuel]; [discriminate|].
  cbn [mk] in H. rewrite chosen_method_resolve in H. cbn [mark_of] in H. rewrite Hm in H.
  injection H as <-. eapply single_choice_NoDup; eassumption.
Qed.

(** A multi-choice does not repeat a list of chosen texts. *)
Theorem C16_selections_are_not_repeated : forall G E c opts lo hi sep m fuel g f n r ts e r',
  resolve (c_method c) m = Combinatorial -> mk fuel c (Var opts lo hi sep m) = MOk g ->
  collect G E f n g r = (ts, e, r') -> exists arrs, NoDup arrs /\ Forall2 (Glued sep) arrs ts.
Proof.
  intros G E c opts lo hi sep m fuel g f n r ts e r' Hm H Hc. destruct fuel as [|fuel]; [discriminate|].
  cbn [mk] in H. rewrite chosen_method_resolve in H. cbn [mark_of] in H. rewrite Hm in H.
  injection H as <-. destruct (var_selections _ _ _ _ _ _ _ _ _ _ _ _ _ Hc) as (arrs & -> & Hn & _).
  exists arrs. split; [assumption|]. clear. induction arrs; cbn; constructor; auto. apply joined_Glued.
Qed.

Example C16_example :
  run Combinatorial (Var [(lit "a", 1%Qc); (Var (opts ["b"; "a"]%string) 1 1 $"," None, 1%Qc);
                          (Wild (WStr $"animal") None [], 1%Qc); (lit "cat", 1%Qc)] 1 1 $"," None) 9 []
  = ([$"a"; $"b"; $"cat"; $"dog"], None).
Proof. vm_compute. reflexivity. Qed.

(** Texts of a multi-choice can coincide, and so can texts after squashing. *)
Theorem C16_multi_choice_texts_are_distinct_refuted : exists cmd ts,
  (exists o lo hi, cmd = Var o lo hi [] None) /\ run Combinatorial cmd 99 [] = (ts, None) /\ ~ NoDup ts.
Proof.
  exists (Var [(Var (opts ["a"; "ab"]%string) 1 1 [] None, 1%Qc);
               (Var (opts ["b"; ""]%string) 1 1 [] None, 1%Qc)] 2 2 [] None).
  exists [$"ab"; $"a"; $"abb"; $"ab"; $"ba"; $"bab"; $"a"; $"ab"].
  split; [do 3 eexists; reflexivity|]. split; [vm_compute; reflexivity|].
  intros H. inversion H as [|? ? Hn _]; subst. apply Hn. right. right. now left.
Qed.

Theorem C16_squashed_texts_are_distinct_refuted : exists cmd ts,
  run_limit {| c_method := Combinatorial; c_ignws := true; c_vars := []; c_unknown := None; c_busy := [] |}
    cmd None 9 [] = (ts, None) /\ ~ NoDup ts.
Proof.
  exists (Var (opts ["a"; "a "]%string) 1 1 $"," None), [$"a"; $"a"].
  split; [vm_compute; reflexivity|]. intros H. inversion H as [|? ? Hn _]; subst. apply Hn. now left.
Qed.

(** * C17 *)
(** Texts, kind of ending and random state do not depend on the random
    generator, and it is left as it was. *)
Theorem C17_combinatorial_runs_use_no_randomness : forall G E c p limit fuel g f n, DetEnv E -> DetCtx E c ->
  (forall cmd, p = WCmd cmd -> Deterministic E cmd) ->
  (forall s cmd, p = WStr s -> env_parse E s = Ok cmd -> Deterministic E cmd) ->
  sample_prompts E fuel c p limit = MOk g ->
  exists ts e, forall r, collect G E f n g r = (ts, e, match e with EndFuel => None | _ => Some r end).
Proof. exact run_pure. Qed.

Definition det_template : command :=
  Seq [Assign $"x" (Var (opts ["p"; "q"]%string) 1 1 $"," None) true true;
       Var (opts ["a"; "b"; "c"]%string) 2 2 $"+" None; Wild (WStr $"animal") None []; Access $"x" None] $" " None.
Example C17_example :
  Deterministic env0 det_template /\ DetEnv env0 /\ DetCtx env0 (ctx0 Combinatorial) /\
  snd (collect stream_rng env0 50 3
    (match sample_prompts env0 50 (ctx0 Combinatorial) (WCmd det_template) None with MOk g => g | _ => GDone end)
    [7; 8]%N) = Some [7; 8]%N /\
  run Combinatorial det_template 3 [7; 8]%N = ([$"a+b cat p"; $"a+b dog p"; $"a+c cat p"], None).
Proof.
  assert (Hp : forall s cmd, env_parse env0 s = Ok cmd -> Deterministic env0 cmd).
  { intros s cmd [= <-]. constructor. now left. }
  split; [|split; [|split; [|split; vm_compute; reflexivity]]].
  - unfold det_template.
    repeat first [constructor | (left; reflexivity) | (intros; discriminate) | (intros; eapply Hp; eassumption)].
  - intros path item cmd _ H. eapply Hp; eassumption.
  - split; [reflexivity|]. split; [constructor|discriminate].
Qed.

(** One random part is enough to use it. *)
Example C17_random_part_example :
  run Combinatorial (Var (opts ["a"; "b"]%string) 1 1 $"," (Some Random)) 1 [0; 0]%N = ([$"a"], None) /\
  run Combinatorial (Var (opts ["a"; "b"]%string) 1 1 $"," (Some Random)) 1 [0; top53]%N = ([$"b"], None).
Proof. split; vm_compute; reflexivity. Qed.

(** * C22 *)
Theorem C22_only_finite_parts_multiply : forall G E c tokens ks sep m fuel g f n r ts e r',
  c_method c = Combinatorial -> m = None \/ m = Some Combinatorial ->
  Forall (fun tok => ~ is_assign tok) tokens -> Forall2 (PartSize E c) tokens ks ->
  mk fuel c (Seq tokens sep m) = MOk g -> collect G E f n g r = (ts, e, r') ->
  length ts <= fold_right Nat.mul 1 ks /\ (e = EndStop -> length ts = fold_right Nat.mul 1 ks).
Proof.
  intros G E c tokens ks sep m fuel g f n r ts e r' Hc Hm Ha Hk H Hcol. destruct fuel as [|fuel]; [discriminate|].
  cbn [mk] in H. rewrite (chosen_comb c (Seq tokens sep m) Hc Hm) in H. rewrite with_method_comb in H by assumption.
  injection H as <-. eapply seq_count; eassumption.
Qed.

Definition mixed_seq : command :=
  Seq [Var (opts ["a"; "b"]%string) 1 1 $"," None; Var (opts ["p"; "q"; "r"]%string) 1 1 $"," (Some Random);
       Var (opts ["x"; "y"; "z"]%string) 1 1 $"," None; Var (opts ["u"; "v"; "w"]%string) 1 1 $"," (Some Cyclical)]
      [] None.
Example C22_example :
  run Combinatorial mixed_seq 50 [0; 0; 0; top53; 0; half53]%N
  = ([$"apxu"; $"aryv"; $"aqzw"; $"bpxu"; $"bpyv"; $"bpzw"], None).
Proof. vm_compute. reflexivity. Qed.

(** * C27 *)
Theorem C27_missing_wildcard_falls_back : forall G E c w name path m vars t,
  PlainPath E c w name path -> env_lookup E path = [] -> Wrapped (env_wrap E) name t ->
  exists g, (forall f, sample_prompts E (S f) c (WCmd (Wild w m vars)) None = MOk g) /\
    forall f k r, 7 <= f -> exists g', collect G E f k g r
      = (repeat (if c_ignws c then squash_whitespace t else t) k, EndLimit g', Some r).
Proof. exact missing_run. Qed.

(** So a combinatorial run of it never ends, whatever the fuel. *)
Theorem C27_combinatorial_never_stops : forall G E c w name path m vars,
  c_method c = Combinatorial -> PlainPath E c w name path -> env_lookup E path = [] ->
  exists g, (forall f, sample_prompts E (S f) c (WCmd (Wild w m vars)) None = MOk g) /\
    forall f k r ts e r', collect G E f k g r = (ts, e, r') -> e <> EndStop.
Proof.
  intros G E c w name path m vars Hc Hp Hl.
  assert (Ht : exists t, Wrapped (env_wrap E) name t) by (eexists; apply to_wildcard_Wrapped).
  destruct Ht as (t & Ht). destruct (missing_run G E c w name path m vars t Hp Hl Ht) as (g & Hg & Hr).
  exists g. split; [exact Hg|]. intros f k r ts e r' H ->.
  destruct (Hr (7 + f) k r ltac:(lia)) as (g' & Hx).
  rewrite (collect_more G E f (7 + f) k g r ts EndStop r' ltac:(lia) H) in Hx; discriminate.
Qed.

Example C27_example :
  PlainPath env0 (ctx0 Cyclical) (WStr $"no/such") $"no/such" $"no/such" /\
  run Random (Wild (WStr $"no/such") None []) 2 [] = ([$"__no/such__"; $"__no/such__"], None) /\
  run Cyclical (Wild (WStr $"no/such") None []) 2 [] = ([$"__no/such__"; $"__no/such__"], None) /\
  run Combinatorial (Wild (WStr $"no/such") None []) 2 [] = ([$"__no/such__"; $"__no/such__"], None).
Proof.
  split; [do 2 eexists; repeat split; try reflexivity; discriminate|].
  repeat split; vm_compute; reflexivity.
Qed.

(** * C48 *)
Theorem C48_lone_wildcard_is_its_values : forall G E c w name path mw vars q lo hi sep m opts n,
  PlainPath E c w name path -> OptionsOf E path opts -> n = Z.of_nat (length (env_lookup E path)) ->
  exists g g',
    (forall f, mk (S f) c (Var [(Wild w mw vars, q)] lo hi sep m) = MOk g) /\
    (forall f, mk (S f) c (Var opts (Z.max 0 (Z.min (Z.min lo hi) n)) (Z.min (Z.max lo hi) n) sep m) = MOk g') /\
    forall f k r ts e r',
      (collect G E f (S k) g' r = (ts, e, r') -> e <> EndFuel ->
        collect G E (S (5 + f)) (S k) g r = (ts, e, r')) /\
      (collect G E f (S k) g r = (ts, e, r') -> e <> EndFuel ->
        collect G E (5 + f) (S k) g' r = (ts, e, r')).
Proof.
  intros G E c w name path mw vars q lo hi sep m opts n Hp Ho Hn.
  destruct (lone_next G E c w name path mw vars q lo hi sep m opts n Hp Ho Hn) as (g & g' & H1 & H2 & H3).
  exists g, g'. split; [exact H1|]. split; [exact H2|]. intros f k. now apply lone_collect.
Qed.

Example C48_example :
  let v lo hi := Var [(Wild (WStr $"animal") None [], 1%Qc)] lo hi $"+" None in
  run Combinatorial (v 1 9)%Z 9 [] = ([$"cat"; $"dog"; $"cat+dog"; $"dog+cat"], None) /\
  run Cyclical (v 1 1)%Z 3 [] = ([$"cat"; $"dog"; $"cat"], None) /\
  run Random (v 2 2)%Z 2 [0; 0; 0; 0; top53; 0]%N = ([$"cat+dog"; $"dog+cat"], None) /\
  OptionsOf env0 $"animal" (opts ["cat"; "dog"]%string).
Proof.
  repeat split; try (vm_compute; reflexivity).
  exists [$"cat"; $"dog"], [lit "cat"; lit "dog"]. split; [|split; [repeat constructor|reflexivity]].
  change [$"cat"; $"dog"] with (iterate_weighted (env_lookup env0 $"animal")).
  apply ValuesFacts.iterate_weighted_Listed.
Qed.

Print Assumptions C15_enumerates_in_order.
Print Assumptions C15_simple_templates_are_enumerated.
Print Assumptions C15_sequence_is_product.
Print Assumptions C16_single_choice_has_no_repeats.
Print Assumptions C16_selections_are_not_repeated.
Print Assumptions C16_multi_choice_texts_are_distinct_refuted.
Print Assumptions C16_squashed_texts_are_distinct_refuted.
Print Assumptions C17_combinatorial_runs_use_no_randomness.
Print Assumptions C22_only_finite_parts_multiply.
Print Assumptions C27_missing_wildcard_falls_back.
Print Assumptions C27_combinatorial_never_stops.
Print Assumptions C48_lone_wildcard_is_its_values.
