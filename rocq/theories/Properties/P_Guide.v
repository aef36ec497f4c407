(** C85: choosing several options, as the syntax guide describes it. *)
From Coq Require Import String NArith ZArith QArith Qcanon Bool Arith List Permutation Lia.
From Verif.Model Require Import Str Utils Command Rng Values Context Sampler Parser.
From Verif.Spec Require Import Text Syntax Comb Items Lang StreamRng Guide.
From Verif.Proofs Require Import StrFacts TokenFacts Soundness ValuesFacts GuideFacts.
From Verif.Properties Require Import P_Sampler P_Parser P_EndToEnd P_Mention.
Import ListNotations.
Local Open Scope nat_scope.

(** * C85 *)
(** [{-n$$...}] is [{1-n$$...}], whatever follows. *)
Theorem C85_lower_bound_left_out : forall ww alnum mark m upper n rest,
  WrapText ww -> alnum 123%N = false -> MarkText mark m -> Numeral upper n -> ~ In 9%N rest ->
  parse alnum (standard ww) ($"{" ++ mark ++ $"-" ++ upper ++ $"$$" ++ rest) =
  parse alnum (standard ww) ($"{" ++ mark ++ $"1-" ++ upper ++ $"$$" ++ rest).
Proof. intros; eapply upper_alone; eassumption. Qed.
(** [{n$$...}] is [{n-n$$...}], and the bounds may be given in either order. *)
Theorem C85_one_number : forall ww alnum mark m number n rest,
  WrapText ww -> alnum 123%N = false -> MarkText mark m -> Numeral number n -> ~ In 9%N rest ->
  parse alnum (standard ww) ($"{" ++ mark ++ number ++ $"$$" ++ rest) =
  parse alnum (standard ww) ($"{" ++ mark ++ number ++ $"-" ++ number ++ $"$$" ++ rest).
Proof. intros; eapply number_alone; eassumption. Qed.
Theorem C85_bounds_in_either_order : forall ww alnum mark m lower n upper k rest,
  WrapText ww -> alnum 123%N = false -> MarkText mark m -> Numeral lower n -> Numeral upper k ->
  ~ In 9%N rest ->
  parse alnum (standard ww) ($"{" ++ mark ++ lower ++ $"-" ++ upper ++ $"$$" ++ rest) =
  parse alnum (standard ww) ($"{" ++ mark ++ upper ++ $"-" ++ lower ++ $"$$" ++ rest).
Proof. intros; eapply either_order; eassumption. Qed.
(** [{n-$$...}] is [{n-k$$...}] where [k] is the number of options. *)
Theorem C85_upper_bound_left_out : forall ww alnum mark m lower n upper rest vs lo hi sep,
  WrapText ww -> alnum 123%N = false -> MarkText mark m -> Numeral lower n ->
  Numeral upper (N.of_nat (length vs)) -> ~ In 9%N rest ->
  parse alnum (standard ww) ($"{" ++ mark ++ lower ++ $"-" ++ $"$$" ++ rest) = Ok (Var vs lo hi sep m) ->
  parse alnum (standard ww) ($"{" ++ mark ++ lower ++ $"-" ++ upper ++ $"$$" ++ rest) = Ok (Var vs lo hi sep m).
Proof. intros; eapply lower_alone; eassumption. Qed.
Example C85_bounds_example :
  parse ascii_alnum default_parser_config $"{2-$$a|b|c}" =
    Ok (Var [(lit "a", 1%Qc); (lit "b", 1%Qc); (lit "c", 1%Qc)] 2 3 $"," None) /\
  parse ascii_alnum default_parser_config $"{@-2$$ and $$a|b}" =
  parse ascii_alnum default_parser_config $"{@1-2$$ and $$a|b}" /\
  Numeral $"3" 3 /\ MarkText $"@" (Some Cyclical) /\ WrapText $"__" /\ ascii_alnum 123%N = false.
Proof.
  split; [vm_compute; reflexivity|]. split.
  - apply (C85_lower_bound_left_out $"__" ascii_alnum $"@" (Some Cyclical) $"2" 2 $" and $$a|b}");
      [apply default_wrap|reflexivity|constructor|apply (Numeral_one 2); reflexivity|].
    cbn. intuition discriminate.
  - split; [apply (Numeral_one 3); reflexivity|]. split; [constructor|]. split; [apply default_wrap|reflexivity].
Qed.
(** The guide says that [{1-$$a|b|c}] is [{1-2$$a|b|c}]; it is not. *)
Theorem C85_guide_on_the_upper_bound_refuted :
  parse ascii_alnum default_parser_config $"{1-$$a|b|c}" <>
  parse ascii_alnum default_parser_config $"{1-2$$a|b|c}".
Proof. intros H. vm_compute in H. discriminate H. Qed.
(** The guide gives a comma and a space as the separator; it is a comma. *)
Theorem C85_guide_on_the_separator_refuted :
  parse ascii_alnum default_parser_config $"{2$$a|b|c}" <>
  parse ascii_alnum default_parser_config $"{2$$, $$a|b|c}" /\
  parse ascii_alnum default_parser_config $"{2$$a|b|c}" =
  parse ascii_alnum default_parser_config $"{2$$,$$a|b|c}".
Proof. split; [intros H; vm_compute in H; discriminate H|vm_compute; reflexivity]. Qed.

(** Asking for more options than there are is asking for all of them: the
    same texts, the same end and the same use of the random source. *)
Theorem C85_no_more_than_there_are : forall G E fuel c vs lo hi sep m limit g,
  ~ lone_wildcard vs -> limit <> Some 0 ->
  sample_prompts E fuel c (WCmd (Var vs lo hi sep m)) limit = MOk g ->
  exists h,
    sample_prompts E fuel c
      (WCmd (Var vs (Z.min lo (Z.of_nat (length vs))) (Z.min hi (Z.of_nat (length vs))) sep m)) limit = MOk h /\
    forall f n r, n <> 0 -> collect G E f n g r = collect G E f n h r.
Proof.
  intros G E fuel c vs lo hi sep m limit g Hl H0 H.
  destruct (samegen_prompts E fuel c vs lo hi (Z.min lo (Z.of_nat (length vs))) (Z.min hi (Z.of_nat (length vs)))
              sep m limit g (eq_sym (range_cut _ _ _)) Hl H0 H) as (h & Hh & Hgh).
  exists h. split; [exact Hh|]. intros f n r Hn. apply samegen_collect; assumption.
Qed.
(** Options that are texts: every prompt shows as many of them as asked for,
    as far as there are so many, and each at most once. *)
Theorem C85_several_texts : forall G E fuel c opts texts lo hi sep m limit g f n r ts e r',
  Texts opts texts -> 2 <= length opts \/ (1 <= Z.min lo hi)%Z ->
  sample_prompts E fuel c (WCmd (Var opts lo hi sep m)) limit = MOk g ->
  collect G E f n g r = (ts, e, r') ->
  Forall (fun u => exists t, Picked texts lo hi sep t /\ Tidy (c_ignws c) t u) ts.
Proof.
  intros G E fuel c opts texts lo hi sep m limit g f n r ts e r' HT Hlo Hg Hc.
  pose proof (C14_every_prompt_is_allowed _ _ _ _ _ _ _ _ _ _ _ _ _ Hg Hc) as HA.
  eapply Forall_impl; [|exact HA]. intros u (cmd & t & Hr & Hp & Ht). exists t. split; [|exact Ht].
  inversion Hr; subst. inversion Hp as [? ? ? Hb]; subst. eapply body_picked; eassumption.
Qed.
Lemma picked_once : forall texts shown others : list text, NoDup texts ->
  Permutation texts (shown ++ others) -> NoDup shown /\ incl shown texts.
Proof.
  intros texts shown others Hn HP. pose proof (Permutation_NoDup HP Hn) as Hd. split.
  - clear -Hd. induction shown as [|x l IH]; [constructor|]. cbn in Hd. inversion Hd as [|? ? H1 H2]; subst.
    constructor; [|apply IH, H2]. intros K. apply H1, in_or_app. left; exact K.
  - intros x Hx. eapply Permutation_in; [apply Permutation_sym, HP|]. apply in_or_app. left; exact Hx.
Qed.
(** ... so different texts are never repeated. *)
Theorem C85_no_repeats : forall G E fuel c opts texts lo hi sep m limit g f n r ts e r',
  Texts opts texts -> NoDup texts -> 2 <= length opts \/ (1 <= Z.min lo hi)%Z ->
  sample_prompts E fuel c (WCmd (Var opts lo hi sep m)) limit = MOk g ->
  collect G E f n g r = (ts, e, r') ->
  Forall (fun u => exists shown t, NoDup shown /\ incl shown texts /\ Glued sep shown t /\
                                   Tidy (c_ignws c) t u) ts.
Proof.
  intros G E fuel c opts texts lo hi sep m limit g f n r ts e r' HT Hn Hlo Hg Hc.
  eapply Forall_impl; [|eapply C85_several_texts; eassumption].
  intros u (t & (shown & others & HP & _ & HG) & Ht).
  destruct (picked_once _ _ _ Hn HP) as [H1 H2]. eauto 8.
Qed.
(** ... and asking for all of them, or more, shows all of them. *)
Theorem C85_all_texts : forall G E fuel c opts texts lo hi sep m limit g f n r ts e r',
  Texts opts texts -> opts <> [] -> (Z.of_nat (length opts) <= Z.min lo hi)%Z ->
  sample_prompts E fuel c (WCmd (Var opts lo hi sep m)) limit = MOk g ->
  collect G E f n g r = (ts, e, r') ->
  Forall (fun u => exists shown t, Permutation texts shown /\ Glued sep shown t /\ Tidy (c_ignws c) t u) ts.
Proof.
  intros G E fuel c opts texts lo hi sep m limit g f n r ts e r' HT Hne Hlo Hg Hc.
  assert (H1 : 2 <= length opts \/ (1 <= Z.min lo hi)%Z)
    by (right; destruct opts as [|o os]; [congruence|cbn [length] in Hlo; lia]).
  eapply Forall_impl; [|eapply (C85_several_texts G E); eassumption].
  intros u (t & (shown & others & HP & HL & HG) & Ht).
  rewrite <- (Forall2_lens _ _ _ _ _ HT) in HL. pose proof (Permutation_length HP) as Hl.
  rewrite <- (Forall2_lens _ _ _ _ _ HT), app_length in Hl. unfold clamp in HL.
  assert (others = []) by (destruct others as [|x o]; [reflexivity|cbn in Hl; lia]). subst others.
  rewrite app_nil_r in HP. eauto.
Qed.
Definition flavours : list (command * Qc) := [(lit "chocolate", 1%Qc); (lit "vanilla", 1%Qc)].
Example C85_flavours_are_texts : Texts flavours [$"chocolate"; $"vanilla"] /\
  NoDup [$"chocolate"; $"vanilla"] /\ ~ lone_wildcard flavours.
Proof.
  split; [repeat constructor; eexists; reflexivity|]. split.
  - constructor; [cbn; intuition discriminate|]. constructor; [cbn; intuition discriminate|constructor].
  - intros (w & m & vs & q & H). discriminate.
Qed.
Example C85_flavours_run :
  run Random (Var flavours 7 7 $" & " None) 3 [1; 0; 3; 0; 5; 1; 2; 2]%N =
    run Random (Var flavours 2 2 $" & " None) 3 [1; 0; 3; 0; 5; 1; 2; 2]%N /\
  run Combinatorial (Var flavours 7 7 $" & " None) 9 [] =
    ([$"chocolate & vanilla"; $"vanilla & chocolate"], None).
Proof. vm_compute. split; reflexivity. Qed.
(** The same text given twice can be shown twice, although the guide says that
    options are chosen without repeats. *)
Theorem C85_equal_texts_refuted :
  exists r, run Random (Var [(lit "a", 1%Qc); (lit "a", 1%Qc)] 2 2 $"," None) 1 r = ([$"a,a"], None).
Proof. exists []. vm_compute. reflexivity. Qed.

(** [{n$$__name__}]: the values are the options, so that different plain
    values are never repeated. *)
Definition PlainValues (E : env) (items : list witem) : Prop :=
  Forall (fun i => w_weight_opt i = None /\ env_parse E (w_content i) = Ok (Lit (w_content i) None)) items.
Lemma plain_listed : forall E items vals, PlainValues E items -> Listed (pairs items) vals ->
  vals = map w_content items.
Proof.
  intros E items vals H. revert vals. induction H as [|i items [Hw _] _ IH]; intros vals Hl.
  - inversion Hl. reflexivity.
  - cbn [pairs map] in Hl. rewrite Hw in Hl. inversion Hl as [|t w n rest out Hi Hr]; subst.
    assert (n = 1).
    { apply (IntegerPart_unique 1%Qc); [exact Hi|]. split; [intros _; vm_compute; discriminate|vm_compute; reflexivity]. }
    subst n. cbn [repeat app map]. f_equal. apply IH, Hr.
Qed.
Theorem C85_values_without_repeats : forall G E fuel c name mn mw q lo hi sep m limit g f n r ts e r',
  env_parse E name = Ok (Lit name mn) -> Word name ->
  PlainValues E (env_lookup E name) -> NoDup (map w_content (env_lookup E name)) ->
  (1 <= Z.min lo hi)%Z ->
  sample_prompts E fuel c (WCmd (Var [(Wild (WStr name) mw [], q)] lo hi sep m)) limit = MOk g ->
  collect G E f n g r = (ts, e, r') ->
  Forall (fun u => exists shown t, NoDup shown /\ incl shown (map w_content (env_lookup E name)) /\
                     (Z.of_nat (length shown) <= Z.max lo hi)%Z /\
                     (Z.min (Z.min lo hi) (Z.of_nat (length (env_lookup E name))) <= Z.of_nat (length shown))%Z /\
                     Glued sep shown t /\ Tidy (c_ignws c) t u) ts.
Proof.
  intros G E fuel c name mn mw q lo hi sep m limit g f n r ts e r' Hp Hw HV Hd Hlo Hg Hc.
  pose proof (C14_every_prompt_is_allowed _ _ _ _ _ _ _ _ _ _ _ _ _ Hg Hc) as HA.
  eapply Forall_impl; [|exact HA]. intros u (cmd & t & Hr & Hpr & Ht).
  inversion Hr; subst. inversion Hpr as [? ? ? Hb]; subst.
  assert (HL : lone_wildcard [(Wild (WStr name) mw [], q)]) by (repeat eexists).
  inversion Hb; subst; try contradiction.
  match goal with HP : Path _ _ _ _ |- _ => apply (plain_name E name mn _ _ Hp Hw) in HP; subst path end.
  match goal with HO : OptionsOf _ _ _ |- _ => destruct HO as (vals & cmds & Hl & Hcm & ->) end.
  rewrite (plain_listed E _ _ HV Hl) in *.
  assert (HT : Texts (map (fun c => (c, 1%Qc)) cmds) (map w_content (env_lookup E name))).
  { unfold Texts. clear -Hcm HV. revert cmds Hcm. induction HV as [|i items [_ Hi] _ IH]; intros cmds Hcm;
      inversion Hcm as [|? c0 ? cs H1 H2]; subst; cbn [map]; constructor; [|apply IH, H2].
    rewrite Hi in H1. injection H1 as <-. exists None. reflexivity. }
  set (k := Z.of_nat (length (env_lookup E name))) in *.
  destruct (env_lookup E name) as [|i items] eqn:EI.
  { inversion Hcm; subst. match goal with HB : Body _ _ (Var (map _ []) _ _ _ _) _ |- _ => inversion HB; subst; try congruence end.
    - match goal with HP : Permutation _ _ |- _ => apply Permutation_length in HP; rewrite !app_length in HP; cbn in HP; lia end. }
  assert (Hk : (1 <= k)%Z) by (unfold k; cbn [length]; lia).
  match goal with HB : Body _ _ (Var (map _ cmds) _ _ _ _) _ |- _ =>
    apply (body_picked _ _ _ _ _ _ _ _ _ HT) in HB; [|right; lia] end.
  match goal with K : Picked _ _ _ _ _ |- _ => destruct K as (shown & others & HPerm & HS & HG) end.
  rewrite map_length in HS. fold k in HS.
  destruct (picked_once _ _ _ Hd HPerm) as [H1 H2]. exists shown, t. unfold clamp in HS.
  split; [exact H1|]. split; [exact H2|]. split; [lia|]. split; [lia|]. split; [exact HG|exact Ht].
Qed.
(** Values chosen from a wildcard, and values that weights list twice. *)
Definition parlour (weight : option Qc) : env :=
  {| env_parse := parse ascii_alnum default_parser_config;
     env_lookup := fun path => if str_eqb path $"flavours"
       then [{| w_content := $"mint"; w_weight_opt := weight |}; {| w_content := $"lemon"; w_weight_opt := None |}]
       else [];
     env_wrap := $"__" |}.
Example C85_values_example :
  env_parse (parlour None) $"flavours" = Ok (Lit $"flavours" None) /\ Word $"flavours" /\
  PlainValues (parlour None) (env_lookup (parlour None) $"flavours") /\
  NoDup (map w_content (env_lookup (parlour None) $"flavours")) /\
  parse ascii_alnum default_parser_config $"{2$$__flavours__}" =
    Ok (Var [(Wild (WStr $"flavours") None [], 1%Qc)] 2 2 $"," None).
Proof.
  split; [vm_compute; reflexivity|]. split; [apply letters_word; [discriminate|reflexivity]|].
  split; [repeat constructor|]. split; [|vm_compute; reflexivity].
  constructor; [cbn; intuition discriminate|]. constructor; [cbn; intuition discriminate|constructor].
Qed.
(** The guide says that [{2$$__flavours__}] guarantees that there are no
    duplicates; a value whose weight is 2 is listed twice. *)
Theorem C85_weighted_values_refuted : exists r,
  match sample_prompts (parlour (Some (Q2Qc 2))) 50 (ctx0 Random) (WStr $"{2$$__flavours__}") None with
  | MOk g => fst (fst (collect stream_rng (parlour (Some (Q2Qc 2))) 50 1 g r)) = [$"mint,mint"]
  | _ => False
  end.
Proof. exists []. vm_compute. reflexivity. Qed.

Print Assumptions C85_lower_bound_left_out.
Print Assumptions C85_one_number.
Print Assumptions C85_bounds_in_either_order.
Print Assumptions C85_upper_bound_left_out.
Print Assumptions C85_guide_on_the_upper_bound_refuted.
Print Assumptions C85_guide_on_the_separator_refuted.
Print Assumptions C85_no_more_than_there_are.
Print Assumptions C85_several_texts.
Print Assumptions C85_no_repeats.
Print Assumptions C85_all_texts.
Print Assumptions C85_equal_texts_refuted.
Print Assumptions C85_values_without_repeats.
Print Assumptions C85_weighted_values_refuted.
