(** C94: templates that are written differently and list the same prompts. *)
From Coq Require Import String NArith ZArith QArith Qcanon Bool Arith List Lia.
From Verif.Model Require Import Str Utils Command Float Rng Values Context Sampler Parser Generators.
From Verif.Spec Require Import Text Comb Items StreamRng Lang Enum Choices Chance Alike.
From Verif.Proofs Require Import StrFacts EnumFacts BindFacts EnumRun EndFacts ShareFacts ChanceFacts ChanceRun AlikeFacts.
From Verif.Properties Require Import P_Sampler P_Parser P_EndToEnd.
Import ListNotations.
Local Open Scope nat_scope.

(** * C94 *)
(** Alike templates stand for the same list of texts, in the same order. *)
Theorem C94_alike_templates_have_the_same_list : forall E c x y ts, Alike x y -> c_method c = Combinatorial ->
  (Enum E c x ts <-> Enum E c y ts).
Proof. intros E c x y ts H Hc. exact (proj2 (proj2 (proj2 (alike_equal E x y H))) c ts Hc). Qed.

(** The generator returns the same prompts for them, whatever the limit. *)
Theorem C94_alike_templates_give_the_same_prompts : forall G E c s s' x y limit ts,
  c_method c = Combinatorial -> Alike x y -> s <> [] -> s' <> [] ->
  env_parse E s = Ok x -> env_parse E s' = Ok y -> EnumPrompt E c (WStr s) ts ->
  exists f, forall m steps r, f <= m -> length (at_most limit ts) < steps ->
    combinatorial_generate G E m steps c s limit r = Ret (at_most limit ts) r /\
    combinatorial_generate G E m steps c s' limit r = Ret (at_most limit ts) r.
Proof. exact alike_generated. Qed.

(** * Examples *)
Lemma tidy_kept : forall l : list text, Forall2 (Tidy false) l l.
Proof. induction l; constructor; auto. reflexivity. Qed.
Definition one (s : string) : command * Qc := (plainly s, 1%Qc).
Definition long_text : text := $"a {b|{3::c|b}} d, __animal__".
Definition short_text : text := $"{a b d|a c d}, __animal__".
Definition long_cmd : command :=
  Seq [plainly "a "; Var [one "b"; (Var [(plainly "c", Q2Qc 3); one "b"] 1 1 $"," None, 1%Qc)] 1 1 $"," None;
       plainly " d, "; Wild (WStr $"animal") None []] [] None.
Definition short_cmd : command :=
  Seq [Var [one "a b d"; one "a c d"] 1 1 $"," None; plainly ", "; Wild (WStr $"animal") None []] [] None.
Example C94_example_parsed : env_parse zoo long_text = Ok long_cmd /\ env_parse zoo short_text = Ok short_cmd.
Proof. split; vm_compute; reflexivity. Qed.
Lemma merged : forall b, Alike (Seq [plainly "a "; plainly b; plainly " d"] [] None) (plainly (String.append "a " (String.append b " d"))).
Proof.
  intros b. replace (plainly (String.append "a " (String.append b " d"))) with (Lit (($"a " ++ $b) ++ $" d") None).
  - eapply Alike_trans; [apply (Alike_texts [] $"a " $b [plainly " d"])|].
    eapply Alike_trans; [apply (Alike_texts [] ($"a " ++ $b) $" d" [])|].
    apply Alike_alone; [constructor; now left|split; discriminate|reflexivity].
  - unfold plainly. f_equal. clear. unfold of_string. cbn. do 2 f_equal. induction b as [|ch b IH]; cbn; [reflexivity|now f_equal].
Qed.
Example C94_example_alike : Alike long_cmd short_cmd.
Proof.
  (* no variant inside the variant, no option twice *)
  eapply Alike_trans.
  { apply (Alike_part _ (Var [one "b"; one "c"] 1 1 $"," None) [plainly "a "]).
    - eapply Alike_trans.
      + apply (Alike_nested [one "b"] _ [(plainly "c", Q2Qc 3); one "b"] 1%Qc []); [now left|now left|discriminate| |reflexivity].
        intros (w & m & vs & q & K). discriminate.
      + eapply Alike_trans.
        * apply (Alike_repeated [] (plainly "b") 1%Qc [(plainly "c", Q2Qc 3)] 1%Qc []); [now left|now left|].
          intros (w & m & vs & q & K). discriminate.
        * apply Alike_weights. reflexivity.
    - now left.
    - intros (? & ? & ? & ? & K); discriminate. }
  (* the text behind it in two *)
  eapply Alike_trans.
  { apply Alike_sym. apply (Alike_texts [plainly "a "; Var [one "b"; one "c"] 1 1 $"," None] $" d" $", " [Wild (WStr $"animal") None []]). }
  (* the first three parts together, the texts inside *)
  eapply Alike_trans.
  { apply Alike_sym. apply (Alike_grouped [] [plainly "a "; Var [one "b"; one "c"] 1 1 $"," None; plainly " d"]
      [plainly ", "; Wild (WStr $"animal") None []]); [discriminate|].
    repeat constructor; intros (? & ? & ? & ? & K); discriminate. }
  apply (Alike_part _ _ []); [|now left|intros (? & ? & ? & ? & K); discriminate].
  eapply Alike_trans.
  { apply Alike_spread; [now left|now left|discriminate|]. constructor; [constructor; now left|constructor; [constructor; now left|constructor]]. }
  cbn [map fst snd one].
  assert (Hl : forall v o, ~ lone_wildcard [v; o]) by (intros v o (w & m & vs & q & K); discriminate).
  eapply Alike_trans.
  { apply (Alike_option _ (plainly "a b d") 1%Qc []); [apply (merged "b")|now left|now left|apply Hl|apply Hl]. }
  apply (Alike_option _ (plainly "a c d") 1%Qc [one "a b d"]); [apply (merged "c")|now left|now left|apply Hl|apply Hl].
Qed.
(** The other hypothesis: there is a list. *)
Definition ten_prompts : list text :=
  flat_map (fun a => map (fun b => of_string a ++ $", " ++ of_string b) ["cat"; "big dog"; "small dog"; "big dog"; "small dog"]%string)
    ["a b d"; "a c d"]%string.
Definition dog_cmd : command := Seq [Var [one "big"; one "small"] 1 1 $"," None; plainly " dog"] [] None.
Lemma dogs : EnumPrompt zoo (fresh Combinatorial false) (WStr $"{big|small} dog") [$"big dog"; $"small dog"].
Proof.
  apply EnP_reads with (cmd := dog_cmd) (ts := [$"big dog"; $"small dog"]); [apply Reads_text; [discriminate|exact dog_parsed]| |apply tidy_kept].
  replace [$"big dog"; $"small dog"] with (choices dog_cmd) by (vm_compute; reflexivity).
  apply one_choice_lists. repeat first [left; reflexivity|discriminate|constructor].
Qed.
Example C94_example_listed : EnumPrompt zoo (fresh Combinatorial false) (WStr long_text) ten_prompts.
Proof.
  destruct C94_example_parsed as [Hl Hs].
  apply EnP_reads with (cmd := long_cmd) (ts := ten_prompts); [apply Reads_text; [discriminate|exact Hl]| |apply tidy_kept].
  apply (C94_alike_templates_have_the_same_list zoo (fresh Combinatorial false) _ _ ten_prompts C94_example_alike eq_refl).
  replace ten_prompts with (map (interleave []) (product [choices (Var [one "a b d"; one "a c d"] 1 1 $"," None); [$", "];
    concat [[$"cat"]; [$"big dog"; $"small dog"]; [$"big dog"; $"small dog"]]])) by (vm_compute; reflexivity).
  apply Enum_product; [now left|repeat constructor; intros (? & ? & ? & ? & K); discriminate| |].
  - constructor; [|constructor; [constructor; now left|constructor; [|constructor]]].
    + apply one_choice_lists. constructor; [now left|discriminate|].
      constructor; [constructor; now left|constructor; [constructor; now left|constructor]].
    + eapply En_wild with (path := $"animal") (vals := [$"cat"; $"{big|small} dog"; $"{big|small} dog"]).
      * now left.
      * apply EnPa_finite with (rest := []). apply EnP_reads with (cmd := plainly "animal") (ts := [$"animal"]); [apply Reads_text; [discriminate|vm_compute; reflexivity]| |apply tidy_kept].
        constructor. now left.
      * discriminate.
      * apply Extends_nil.
      * change [$"cat"; $"{big|small} dog"; $"{big|small} dog"] with (repeat $"cat" 1 ++ repeat $"{big|small} dog" 2 ++ []).
        constructor; [|constructor; [|constructor]]; split; vm_compute; congruence.
      * cbn [map]. constructor; [|constructor; [exact dogs|constructor; [exact dogs|constructor]]].
        apply EnP_reads with (cmd := plainly "cat") (ts := [$"cat"]); [apply Reads_text; [discriminate|vm_compute; reflexivity]| |apply tidy_kept].
        constructor. now left.
  - repeat constructor; discriminate.
Qed.
Example C94_example_run :
  prompts (combinatorial_generate stream_rng zoo 60 30 (fresh Combinatorial false) long_text None []) = Some ten_prompts /\
  prompts (combinatorial_generate stream_rng zoo 60 30 (fresh Combinatorial false) short_text None []) = Some ten_prompts /\
  prompts (combinatorial_generate stream_rng zoo 60 30 (fresh Combinatorial false) short_text (Some 3) []) = Some (firstn 3 ten_prompts).
Proof. vm_compute. auto. Qed.

(** At random such templates are not the same: in [{a|{b|c}}] half of the
    numbers give [a], in [{a|b|c}] about a third. *)
Definition inner_bc : command := Var [one "b"; one "c"] 1 1 $"," None.
Theorem C94_same_chances_refuted : exists x y l l', Alike x y /\ Outcomes ieee_round x l /\ Outcomes ieee_round y l' /\
  chance text_dec $"a" l <> chance text_dec $"a" l'.
Proof.
  exists (Var [one "a"; (inner_bc, 1%Qc)] 1 1 $"," None), (Var [one "a"; one "b"; one "c"] 1 1 $"," None).
  assert (Hh : Stretches ieee_round [1; 1]%Qc [0; 4503599627370496; 9007199254740992]%N)
    by (apply stretches_check; [repeat constructor; discriminate|vm_compute; reflexivity|reflexivity]).
  assert (Ht : Stretches ieee_round [1; 1; 1]%Qc [0; 3002399751580331; 6004799503160661; 9007199254740992]%N)
    by (apply stretches_check; [repeat constructor; discriminate|vm_compute; reflexivity|reflexivity]).
  assert (Hlit : forall s, Outcomes ieee_round (plainly s) [(of_string s, 1%Qc)]) by (intros s; apply Out_text; now left).
  do 2 eexists. split; [|split; [|split]].
  - apply (Alike_nested [one "a"] [one "b"; one "c"] [one "b"; one "c"] 1%Qc []); [now left|now left|discriminate| |reflexivity].
    intros (w & m & vs & q & K). discriminate.
  - eapply Out_choice; [now left|cbn; lia|repeat constructor; discriminate|exact Hh|].
    apply OutO_cons; [apply Hlit|]. apply OutO_cons; [|constructor].
    eapply Out_choice; [now left|cbn; lia|repeat constructor; discriminate|exact Hh|].
    apply OutO_cons; [apply Hlit|]. apply OutO_cons; [apply Hlit|constructor].
  - eapply Out_choice; [now left|cbn; lia|repeat constructor; discriminate|exact Ht|].
    apply OutO_cons; [apply Hlit|]. apply OutO_cons; [apply Hlit|]. apply OutO_cons; [apply Hlit|constructor].
  - intros K. apply (f_equal this) in K. vm_compute in K. discriminate.
Qed.
(** Nor when several options are chosen: [{2$$a|{b|c}}] and [{2$$a|b|c}] list
    different prompts, since [b] and [c] do not exclude each other any more. *)
Theorem C94_several_options_refuted : exists pre opts q x y,
  env_parse zoo x = Ok (Var (pre ++ [(Var opts 1 1 $"," None, q)]) 2 2 $"," None) /\
  env_parse zoo y = Ok (Var (pre ++ opts) 2 2 $"," None) /\
  prompts (combinatorial_generate stream_rng zoo 60 30 (fresh Combinatorial false) x None []) =
    Some [$"a,b"; $"a,c"; $"b,a"; $"c,a"] /\
  prompts (combinatorial_generate stream_rng zoo 60 30 (fresh Combinatorial false) y None []) =
    Some [$"a,b"; $"a,c"; $"b,a"; $"b,c"; $"c,a"; $"c,b"].
Proof. exists [one "a"], [one "b"; one "c"], 1%Qc, $"{2$$a|{b|c}}", $"{2$$a|b|c}". vm_compute. auto. Qed.

Print Assumptions C94_alike_templates_have_the_same_list.
Print Assumptions C94_alike_templates_give_the_same_prompts.
Print Assumptions C94_same_chances_refuted.
Print Assumptions C94_several_options_refuted.
