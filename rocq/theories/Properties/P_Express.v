(** C81: which commands have a text. *)
From Coq Require Import String NArith ZArith QArith Qcanon Bool Arith List Sorted Lia.
From Verif.Model Require Import Str Command Rng Context Parser.
From Verif.Spec Require Import Text Names Lookup Lang Syntax Shape Express.
From Verif.Proofs Require Import StrFacts TokenFacts SyntaxFacts ExpressFacts.
From Verif.Properties Require Import P_Parser P_EndToEnd.
Import ListNotations.
Local Open Scope nat_scope.

(** * C81 *)
(** Every command put together from literals, variants with any bounds,
    separators and decimal weights, variables, wraps and wildcards with any
    path and variables, is what the parser reads in some text. *)
Theorem C81_every_writable_command_has_a_text : forall ww alnum c,
  CleanWrap ww -> LettersAndDigits (standard ww) alnum -> Say ww false Top c ->
  exists t, Uncommented t /\ parse alnum (standard ww) t = Ok c.
Proof.
  intros ww alnum c Hw Ha Hc. destruct (say_written ww Hw c Hc) as (t & Ht & Hu).
  exists t. split; [exact Hu|]. exact (C02_written_templates_parse_back ww alnum c t (proj1 Hw) Ha Ht Hu).
Qed.

Lemma default_clean : CleanWrap $"__".
Proof.
  split; [apply default_wrap|]. repeat constructor; unfold Space; cbn; intuition discriminate.
Qed.

Lemma legible_check : forall v p s t, t = $s -> t <> [] ->
  forallb (fun c => negb (existsb (N.eqb c) match p with Top => $"#{$%" | Inside => $"#{$%|}" | Path => $"#{$%()" end)) t = true ->
  forallb (fun i => negb (startswith (skipn i (t ++ $"__")) $"__")) (seq 0 (length t)) = true ->
  calm t = true -> (v = true -> forallb (fun c => negb (existsb (N.eqb c) $",)")) t = true) ->
  Legible $"__" v p t.
Proof.
  assert (HX : forall l t, forallb (fun c => negb (existsb (N.eqb c) l)) t = true -> Forall (fun c => ~ In c l) t).
  { intros l t H. apply Forall_forall. intros c Hc Hi. rewrite forallb_forall in H. specialize (H c Hc).
    rewrite negb_true_iff in H. rewrite (proj2 (existsb_exists (N.eqb c) l)) in H; [discriminate H|].
    exists c. split; [exact Hi|apply N.eqb_refl]. }
  intros v p s t _ H1 H2 H3 H4 H5. split; [exact H1|]. split; [|split; [|split]].
  - destruct p; apply HX in H2; exact H2.
  - apply nowrap_check, H3.
  - apply calm_unc, H4.
  - intros Hv. apply HX, H5, Hv.
Qed.

(** An option that begins with a blank, a negative weight, bounds on options
    fewer than them, a separator with a slash, a computed path, a variable of
    a wildcard that is a variant, an empty default. *)
Definition odd_command : command :=
  Seq [plainly "a, b "; 
       Var [(plainly " x/", Q2Qc (-1 # 4)); (Seq [] [] None, 1%Qc)] 0 7 $"/" (Some Combinatorial);
       Wild (WCmd (Seq [Var [(plainly "p", 1%Qc)] 1 1 $"," None; plainly "|q"] [] None)) None
         [($"k", Seq [Var [(plainly "m", Q2Qc 12); (Access $"k" None, 1%Qc)] 1 1 $"," None; plainly " z"] [] None)];
       Assign $"v" (Wrap (plainly "!") (Access $"w" (Some (Seq [] [] None))) None) false false] [] None.
Ltac legible := eapply legible_check; [reflexivity|discriminate|reflexivity|reflexivity|reflexivity|
  try (intros E; discriminate E); try (intros _; reflexivity)].
Ltac decimal n k := exists n, k; apply Qc_is_canon; reflexivity.
Example C81_example_writable : Say $"__" false Top odd_command.
Proof.
  apply Say_many; [discriminate| |].
  - constructor; [|constructor; [|constructor; [|constructor; [|constructor]]]].
    + constructor. legible.
    + apply Item_variants; [discriminate|lia| |].
      * right. split; [split; [discriminate|repeat constructor; cbn; try lia; intuition discriminate]|].
        split; [apply calm_unc; reflexivity|intros E; discriminate E].
      * constructor; [|constructor; [|constructor]]; cbn [fst snd]; split.
        -- apply Say_one. constructor. legible.
        -- decimal (-25)%Z 2.
        -- apply Say_many; [discriminate|constructor|]. intros [|? ?] ? ? ? E; discriminate E.
        -- decimal 1%Z 0.
    + eapply Item_wildcard; [discriminate|constructor| | | | | |].
      * intros (t & m & E). discriminate E.
      * apply Say_many; [discriminate| |].
        -- constructor; [|constructor; [|constructor]].
           ++ apply Item_variants; [discriminate|lia|left; reflexivity|]. constructor; [|constructor]. split; cbn [fst snd].
              ** apply Say_one. constructor. legible.
              ** decimal 1%Z 0.
           ++ constructor. legible.
        -- intros pre a b post E [(t & m & ->) _].
           destruct pre as [|? [|? [|? ?]]]; discriminate E.
      * split; discriminate.
      * intros _ b Hb. inversion Hb as [|? ? ? ? ? Hb']; subst. inversion Hb'.
      * intros _. split; [reflexivity|]. intros t Ht. inversion Ht as [|cs ? ? ? ? E]; subst.
        destruct cs as [|? [|? [|? ?]]]; try discriminate E. injection E as E1 E2. subst. intros K.
        inversion K as [|? ? K1]; subst. unfold Blank in K1. cbn in K1. intuition discriminate.
      * repeat constructor.
      * constructor; [|constructor]. cbn [fst snd]. split; [apply letter_name; right; vm_compute; split; discriminate|]. split.
        -- apply Say_many; [discriminate| |].
           ++ constructor; [|constructor; [|constructor]].
              ** apply Item_variants; [discriminate|lia|left; reflexivity|].
                 constructor; [|constructor; [|constructor]]; split; cbn [fst snd].
                 --- apply Say_one. constructor. legible.
                 --- decimal 12%Z 0.
                 --- apply Say_one. apply Item_access; [discriminate|apply letter_name; right; vm_compute; split; discriminate|].
                     intros c E. discriminate E.
                 --- decimal 1%Z 0.
              ** constructor. legible.
           ++ intros pre a b post E [(t & m & ->) _].
              destruct pre as [|? [|? [|? ?]]]; discriminate E.
        -- intros b [Hb|Hb].
           ++ inversion Hb as [|? ? ? ? ? Hb']; subst. inversion Hb'.
           ++ inversion Hb as [|c cs ? ? ? Hb' E]; subst.
              destruct cs as [|? [|? [|? ?]]]; try discriminate E. injection E as E1 E2. subst.
              inversion Hb' as [x t ? E'|]; subst. change [32%N; 122%N] with ([32%N] ++ [122%N]) in E'.
              apply app_inj_tail in E' as [_ ->]. unfold Space. cbn. intuition discriminate.
    + apply Item_assign; [apply letter_name; right; vm_compute; split; discriminate| |intros b Hb; inversion Hb].
      apply Say_one. apply Item_wrap; [discriminate| | |].
      * apply Say_one. constructor. legible.
      * apply Say_one. apply Item_access; [discriminate|apply letter_name; right; vm_compute; split; discriminate|].
        intros c E. injection E as <-. split.
        -- apply Say_many; [discriminate|constructor|]. intros [|? ?] ? ? ? E; discriminate E.
        -- intros b Hb. inversion Hb.
      * intros b [Hb|Hb]; inversion Hb; subst. unfold Blank. cbn. intuition discriminate.
  - intros pre a b post E [(t & m & ->) (t' & m' & ->)].
    destruct pre as [|? [|? [|? [|? [|? ?]]]]]; discriminate E.
Qed.
(** Its text, written by hand. *)
Example C81_example_text : exists c, parse ascii_alnum default_parser_config
  $"a, b {!0-7$$/$$-0.25:: x/|1::}__{1-1$$1::p}|q(k={1-1$$12::m|1::${k}} z)__${v?=%{!$$${w:}}}" = Ok c /\
  cmd_eqb c odd_command = true.
Proof. eexists. split; [vm_compute; reflexivity|vm_compute; reflexivity]. Qed.

(** Commands that no text gives: literals side by side, a literal with a mark,
    a sequence with a separator, bounds in the wrong order. *)
Example C81_example_no_text : forall alnum C t,
  parse alnum C t <> Ok (Seq [plainly "a"; plainly "b"] [] None) /\
  parse alnum C t <> Ok (Lit $"a" (Some Random)) /\
  parse alnum C t <> Ok (Seq [plainly "a"; Access $"x" None] $"," None) /\
  parse alnum C t <> Ok (Var [(plainly "a", 1%Qc)] 2 1 $"," None).
Proof.
  intros alnum C t. repeat split; intros E; apply C57_parsed_commands_are_well_formed in E; inversion E; subst;
    try match goal with H : Piece _ _ |- _ => inversion H; subst; lia end.
  match goal with H : Top <> Path -> Apart _ |- _ =>
    apply (H ltac:(discriminate) [] (plainly "a") (plainly "b") []); [reflexivity|split; eexists _, _; reflexivity] end.
Qed.

Print Assumptions C81_every_writable_command_has_a_text.
