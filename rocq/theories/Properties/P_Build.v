(** C75: commands made by callers. *)
From Coq Require Import String NArith ZArith QArith Qcanon Bool Arith List Lia.
From Verif.Model Require Import Str Command Rng Values Context Parser Sampler Build.
From Verif.Spec Require Import Text Lang Names Syntax Build Select Enum.
From Verif.Proofs Require Import StrFacts PlainFacts SyntaxFacts MakeFacts EnumFacts EnumRun.
From Verif.Properties Require Import P_Sampler P_Comb.
Import ListNotations.
Local Open Scope nat_scope.

(** [from_literals_and_weights] makes what the parser reads in the same texts
    and weights written as a variant. *)
Theorem C75_variants_as_written : forall ww alnum options entries,
  WrapText ww -> LettersAndDigits (standard ww) alnum ->
  options <> [] -> Forall2 (Entry ww) options entries ->
  let o := interleave $"|" entries in
  ~ MarkStart o -> ~ BlankStart o -> Uncommented ($"{" ++ o ++ $"}") ->
  exists c, variant_from_literals (map fst options) (Some (map snd options)) 1 1 $"," None = Some c /\
    parse alnum (standard ww) ($"{" ++ o ++ $"}") = Ok c.
Proof.
  intros ww alnum options entries Hw Ha Hne Hf o Hm Hb Hu.
  exists (Var (map as_option options) 1 1 $"," None). split.
  - unfold variant_from_literals. rewrite !map_length, Nat.eqb_refl. cbn. do 2 f_equal.
    clear. induction options as [|[t q] l IH]; [reflexivity|]. cbn. now rewrite IH.
  - exact (proj1 (written_parse ww Hw alnum Ha _ _ (written_variants ww options entries Hne Hf Hm Hb) Hu)).
Qed.

(** Without weights every option has weight 1. *)
Theorem C75_default_weights : forall ls lo hi sep m,
  variant_from_literals ls None lo hi sep m
  = variant_from_literals ls (Some (map (fun _ => 1%Qc) ls)) lo hi sep m.
Proof.
  intros ls lo hi sep m. unfold variant_from_literals. rewrite !map_length, repeat_length, Nat.eqb_refl.
  do 3 f_equal. induction ls as [|x ls IH]; [reflexivity|]. cbn. now rewrite IH.
Qed.

(** It is refused exactly when the numbers of texts and weights differ, and
    else has the texts, the weights and ordered bounds that are not negative. *)
Theorem C75_variant_fields : forall ls ws lo hi sep m,
  (variant_from_literals ls (Some ws) lo hi sep m = None <-> length ls <> length ws) /\
  forall c, variant_from_literals ls (Some ws) lo hi sep m = Some c ->
    exists vs mn mx, c = Var vs mn mx sep m /\ map fst vs = map (fun t => Lit t None) ls /\ map snd vs = ws /\
      mn = Z.max 0 (Z.min lo hi) /\ mx = Z.max lo hi.
Proof.
  intros ls ws lo hi sep m. unfold variant_from_literals. rewrite map_length.
  destruct (Nat.eqb_spec (length ls) (length ws)) as [E|E]; (split; [split; congruence|]); [|discriminate].
  intros c [= <-]. unfold mk_variant, post_init_bounds.
  assert (Hc : map fst (combine (map (fun s => Lit s None) ls) ws) = map (fun t => Lit t None) ls /\
               map snd (combine (map (fun s => Lit s None) ls) ws) = ws).
  { revert ws E. induction ls as [|x ls IH]; intros [|w ws] E; try discriminate; [now split|].
    cbn. destruct (IH ws) as [E1 E2]; [now injection E|]. now rewrite E1, E2. }
  destruct Hc as [H1 H2].
  destruct (Z.leb_spec lo hi); do 3 eexists; (split; [reflexivity|]); repeat split; try assumption; lia.
Qed.

(** Adding literals writes them with a blank in between; nothing else can be
    added. *)
Theorem C75_literals_added : forall ww alnum a b,
  WrapText ww -> LettersAndDigits (standard ww) alnum ->
  Plain (standard ww) (a ++ $" " ++ b) -> ~ BeginsComment (a ++ $" " ++ b) ->
  literal_add (Lit a None) (Lit b None) = parse alnum (standard ww) (a ++ $" " ++ b).
Proof.
  intros ww alnum a b Hw Ha Hp Hc. cbn [literal_add]. symmetry.
  refine (proj1 (plain_parse alnum (standard ww) (standard_marks ww Hw) _ _ Hp Hc)).
  intros E. now apply app_eq_nil in E as [_ E].
Qed.
Theorem C75_only_literals_are_added : forall a b c,
  literal_add a b = Ok c -> IsLiteral a /\ IsLiteral b /\ IsLiteral c.
Proof.
  intros a b c H. destruct a; cbn in H; try discriminate. destruct b; try discriminate.
  injection H as <-. repeat split; repeat eexists.
Qed.

(** [from_literals] of a sequence: texts stand for themselves, commands for what
    they list; the prompts are all combinations with the separator between
    the parts. *)
Inductive Part_of_sequence (E : env) (c : ctx) : str + command -> list text -> Prop :=
| Part_text : forall t, Part_of_sequence E c (inl t) [t]
| Part_command : forall cmd t ts, (forall x v i o, cmd <> Assign x v i o) -> Enum E c cmd (t :: ts) ->
    Part_of_sequence E c (inr cmd) (t :: ts).
Theorem C75_sequences_of_texts_and_commands : forall G E c vs sep m lists,
  c_method c = Combinatorial -> c_ignws c = false -> m = None \/ m = Some Combinatorial ->
  vs <> [] -> Forall2 (Part_of_sequence E c) vs lists ->
  let ts := map (interleave sep) (product lists) in
  exists f, forall k, f <= k -> exists g, sample_prompts E k c (WCmd (sequence_from_literals vs sep m)) None = MOk g /\
    forall n r, length ts < n -> collect G E k n g r = (ts, EndStop, Some r).
Proof.
  intros G E c vs sep m lists Hc Hw Hm Hne Hl ts.
  assert (He : Enum E c (sequence_from_literals vs sep m) ts).
  { apply Enum_product.
    - destruct Hm as [->| ->]; [left; reflexivity|right; reflexivity].
    - clear - Hl. induction Hl as [|v l vs ls [t|cmd t ts Ha He] _ IH]; cbn; constructor; auto;
        intros (? & ? & ? & ? & E'); [discriminate E'|apply (Ha _ _ _ _ E')].
    - clear - Hl Hm. induction Hl as [|v l vs ls [t|cmd t ts Ha He] _ IH]; cbn; constructor; auto.
      constructor. destruct Hm as [->| ->]; [left; reflexivity|right; reflexivity].
    - clear - Hl. induction Hl as [|v l vs ls [t|cmd t ts Ha He] _ IH]; cbn; constructor; auto; discriminate. }
  destruct (C15_enumerates_in_order G E c (WCmd (sequence_from_literals vs sep m)) ts Hc) as (f & Hf).
  { eapply EnP_reads; [constructor|exact He|rewrite Hw].
    - split; [|discriminate]. intros ? ? E'. destruct vs; [congruence|discriminate E'].
    - clear. induction ts; constructor; [reflexivity|assumption]. }
  exists f. intros k Hk. destruct (Hf k Hk) as (g & Hg & Hr). exists g. split; [exact Hg|]. intros n r Hn. apply Hr, Hn.
Qed.
Example C75_sequences_example :
  let vs := [inl $"a"; inr (Var [(Lit $"x" None, 1%Qc); (Lit $"y" None, 1%Qc)] 1 1 $"," None); inl $"b"] in
  fst (run Combinatorial (sequence_from_literals vs $"-" None) 9 []) = [$"a-x-b"; $"a-y-b"].
Proof. vm_compute. reflexivity. Qed.

(** [cross]: all pairs of different values, by the first one and then by the
    second one. *)
Theorem C75_cross : forall A (eqb : A -> A -> bool) (l1 l2 : list A),
  (forall a b, eqb a b = true <-> a = b) ->
  (forall a b, In (a, b) (cross eqb l1 l2) <-> In a l1 /\ In b l2 /\ a <> b) /\
  (NoDup l1 -> NoDup l2 -> NoDup (cross eqb l1 l2)).
Proof.
  intros A eqb l1 l2 He. split.
  - intros a b. unfold cross. rewrite in_flat_map. split.
    + intros (x & Hx & H). apply in_map_iff in H as (y & E & H). injection E as -> ->.
      apply filter_In in H as [H1 H2]. repeat split; try assumption. intros ->.
      rewrite (proj2 (He b b) eq_refl) in H2. discriminate.
    + intros (H1 & H2 & H3). exists a. split; [assumption|]. apply in_map_iff. exists b. split; [reflexivity|].
      apply filter_In. split; [assumption|]. destruct (eqb a b) eqn:E; [|reflexivity]. now apply He in E.
  - intros H1 H2. induction H1 as [|x l1 Hx H1 IH]; [constructor|]. unfold cross. cbn [flat_map].
    fold (cross eqb l1 l2).
    assert (HN : NoDup (map (fun e2 => (x, e2)) (filter (fun e2 => negb (eqb x e2)) l2))).
    { apply FinFun.Injective_map_NoDup; [intros u v E; now injection E|]. now apply NoDup_filter. }
    assert (HD : forall p, In p (map (fun e2 => (x, e2)) (filter (fun e2 => negb (eqb x e2)) l2)) -> ~ In p (cross eqb l1 l2)).
    { intros p Hp Hq. apply in_map_iff in Hp as (y & <- & _). unfold cross in Hq.
      apply in_flat_map in Hq as (z & Hz & Hq). apply in_map_iff in Hq as (w & E & _). injection E as -> _. contradiction. }
    revert HN HD. generalize (map (fun e2 => (x, e2)) (filter (fun e2 => negb (eqb x e2)) l2)).
    induction l as [|p l IHl]; intros HN HD; cbn; [exact IH|]. inversion HN; subst. constructor.
    + rewrite in_app_iff. intros [H|H]; [contradiction|]. apply (HD p); [now left|exact H].
    + apply IHl; [assumption|]. intros q Hq. apply HD. now right.
Qed.

(** Adding two collections of values: first the one, then the other, each as
    often as before. *)
Theorem C75_values_added : forall a b,
  map w_str (values_add a b) = map w_str a ++ map w_str b /\
  iterate_weighted (values_add a b) = iterate_weighted a ++ iterate_weighted b /\
  length (values_add a b) = length a + length b.
Proof.
  intros a b. unfold values_add. split; [apply map_app|]. split; [|apply app_length].
  unfold iterate_weighted. now rewrite !flat_map_concat_map, map_app, concat_app.
Qed.
Example C75_values_added_example :
  iterate_weighted (values_add [{| w_content := $"a"; w_weight_opt := Some (Q2Qc 2) |}]
                               [{| w_content := $"b"; w_weight_opt := None |}]) = [$"a"; $"a"; $"b"].
Proof. vm_compute. reflexivity. Qed.

Example C75_example :
  Forall2 (Entry $"__") [($"red fox", 1%Qc); ($"b", Q2Qc (25 # 10))] [$"red fox"; $"2.5::b"] /\
  interleave $"|" [$"red fox"; $"2.5::b"] = $"red fox|2.5::b" /\
  ~ MarkStart $"red fox|2.5::b" /\ ~ BlankStart $"red fox|2.5::b" /\
  variant_from_literals [$"red fox"; $"b"] (Some [1%Qc; Q2Qc (25 # 10)]) 1 1 $"," None
  = Some (Var [(Lit $"red fox" None, 1%Qc); (Lit $"b" None, Q2Qc (25 # 10))] 1 1 $"," None) /\
  parse (fun _ => false) (standard $"__") $"{red fox|2.5::b}"
  = Ok (Var [(Lit $"red fox" None, 1%Qc); (Lit $"b" None, Q2Qc (25 # 10))] 1 1 $"," None) /\
  variant_from_literals [$"a"] (Some []) 1 1 $"," None = None /\
  literal_add (Lit $"a" None) (Lit $"b" (Some Random)) = Ok (Lit $"a b" None) /\
  cross Nat.eqb [1; 2] [2; 1; 3] = [(1, 2); (1, 3); (2, 1); (2, 3)].
Proof.
  assert (HC : forall t, forallb (fun c => negb (N.eqb c 95)) t = true -> ~ Contains t $"__").
  { intros t H (a & b & E). subst t. rewrite !forallb_app in H. cbn in H.
    rewrite andb_false_r in H. discriminate. }
  assert (HO : forall t, forallb (fun c => negb (existsb (N.eqb c) $"#{$%|}")) t = true -> Forall (Ordinary Inside) t).
  { intros t H. rewrite forallb_forall in H. apply Forall_forall. intros c Hc Hin. specialize (H c Hc).
    apply negb_true_iff in H. rewrite <- not_true_iff_false in H. apply H. apply existsb_exists.
    exists c. split; [exact Hin|apply N.eqb_refl]. }
  split; [|split; [reflexivity|split; [|split; [|split; [|split]]]]].
  - constructor; [|constructor; [|constructor]].
    + apply Entry_plain.
      { split; [discriminate|]. split; [now apply HO|now apply HC]. }
      { intros (c & r & E & Hb). injection E as <- _. cbn in Hb. repeat (destruct Hb as [Hb|Hb]; try discriminate); exact Hb. }
      intros wt q r Hw E.
      assert (Hs : In 58%N $"red fox") by (rewrite E, !in_app_iff; right; left; now left).
      cbn in Hs. repeat (destruct Hs as [Hs|Hs]; try discriminate); exact Hs.
    + apply (Entry_weighted $"__" $"b" $"2.5" (Q2Qc (25 # 10))).
      * split; [discriminate|]. split; [now apply HO|now apply HC].
      * apply (Weight_real [] false [50%N] [53%N] 25%N (Q2Qc (25 # 10))); [now left| |apply Qc_is_canon; vm_compute; reflexivity].
        apply (Numeral_more [50%N] 2 5); [apply (Numeral_one 2); reflexivity|reflexivity].
  - intros (c & r & E & Hb). injection E as <- _. cbn in Hb. repeat (destruct Hb as [Hb|Hb]; try discriminate); exact Hb.
  - intros (c & r & E & Hb). injection E as <- _. cbn in Hb. repeat (destruct Hb as [Hb|Hb]; try discriminate); exact Hb.
  - vm_compute. reflexivity.
  - vm_compute. reflexivity.
  - vm_compute. auto.
Qed.

Print Assumptions C75_variants_as_written.
Print Assumptions C75_default_weights.
Print Assumptions C75_variant_fields.
Print Assumptions C75_literals_added.
Print Assumptions C75_only_literals_are_added.
Print Assumptions C75_sequences_of_texts_and_commands.
Print Assumptions C75_cross.
Print Assumptions C75_values_added.
