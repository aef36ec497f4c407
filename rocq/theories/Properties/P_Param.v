(** C87: passing a value to a wildcard is assigning it before. *)
From Coq Require Import String NArith ZArith QArith Qcanon Bool Arith List Lia.
From Verif.Model Require Import Str Utils Command Rng Values Context Sampler Parser.
From Verif.Spec Require Import Text Lang StreamRng Mention Param.
From Verif.Proofs Require Import StrFacts CommandFacts Soundness MentionFacts ParamFacts.
From Verif.Properties Require Import P_Sampler P_Parser P_EndToEnd P_Mention.
Import ListNotations.
Local Open Scope nat_scope.

Lemma made_par : forall G E W0 W1 x value w wm before after parts parts' sep m c p p' limit fuel,
  AlikeIn E (fun y => y <> x) W0 c c ->
  Passed E W0 x value (Wild w wm (before ++ after)) (Wild w wm (before ++ (x, value) :: after)) parts parts' ->
  In (Assign x value false true) parts ->
  Reads E p (Seq parts sep m) -> Reads E p' (Seq parts' sep m) -> fuel <> 0 ->
  exists g h, sample_prompts E fuel c p limit = MOk g /\ sample_prompts E fuel c p' limit = MOk h /\
    par G E W0 W1 x value w wm before after g h.
Proof.
  intros G E W0 W1 x value w wm before after parts parts' sep m c p p' limit fuel Hc HI Hin Hp Hp' Hf.
  assert (HR : forall q ts, Reads E q (Seq ts sep m) -> sample_prompts E fuel c q limit =
    match mk fuel c (Seq ts sep m) with
    | MOk g => let g := if c_ignws c then GSquash g else g in MOk (match limit with None => g | Some n => GSlice n g end)
    | y => y end).
  { intros q ts Hq. inversion Hq as [s ? Hs Hps|? Hne]; subst; unfold sample_prompts.
    - destruct s; [congruence|]. rewrite Hps. reflexivity.
    - apply truthy_Nonempty in Hne. rewrite Hne. reflexivity. }
  rewrite (HR _ _ Hp), (HR _ _ Hp'). destruct fuel as [|k]; [congruence|]. cbn [mk].
  change (chosen_method c (Seq parts' sep m)) with (chosen_method c (Seq parts sep m)).
  set (cm := chosen_method c (Seq parts sep m)).
  assert (HA : AlikeIn E (fun y => y <> x) W0 (with_method cm c) (with_method cm c)) by (now apply Ag_method).
  assert (HG : exists g h, match cm with Combinatorial => MOk (GCSeqStart (with_method cm c) parts sep)
                            | _ => MOk (GSeqStart (with_method cm c) parts sep) end = MOk g /\
               match cm with Combinatorial => MOk (GCSeqStart (with_method cm c) parts' sep)
                            | _ => MOk (GSeqStart (with_method cm c) parts' sep) end = MOk h /\
               par G E W0 W1 x value w wm before after g h).
  { destruct cm eqn:Ecm; do 2 eexists; (split; [reflexivity|]); (split; [reflexivity|]);
      first [apply par_seq; assumption|apply par_cseq; assumption]. }
  destruct HG as (g & h & -> & -> & HG). cbn zeta.
  destruct limit, (c_ignws c); do 2 eexists; (split; [reflexivity|]); (split; [reflexivity|]);
    repeat (first [exact HG|apply par_slice|apply par_squash]).
Qed.

(** * C87 *)
(** A sequence with [${x=value}] among its parts, in which only wildcards
    [bare] may use the variable, gives the prompts, the exceptions and the use
    of the random source of the sequence without the assignment in which the
    value is passed to those wildcards.  [W0] has the names of the wildcards
    that the other parts use, [W1] those that the wildcards [bare] use. *)
Theorem C87_passing_is_assigning : forall G E W0 W1 x value w wm before after parts parts' sep m c p p' limit fuel,
  ValuesWithin E (fun y => y <> x) W0 -> ValuesWithin E (fun _ => True) W1 -> (forall y, W0 y -> W1 y) ->
  Within E (fun _ => True) W1 value -> Forall (fun kv => Within E (fun _ => True) W1 (snd kv)) (before ++ after) ->
  (forall cmd, Reads E w cmd -> Within E (fun y => y <> x) W0 cmd) ->
  (forall sc name, Path E sc w name -> W1 name) ->
  ~ In x (map fst (before ++ after)) ->
  AlikeIn E (fun y => y <> x) W0 c c ->
  Passed E W0 x value (Wild w wm (before ++ after)) (Wild w wm (before ++ (x, value) :: after)) parts parts' ->
  In (Assign x value false true) parts ->
  Reads E p (Seq parts sep m) -> Reads E p' (Seq parts' sep m) -> fuel <> 0 ->
  exists g h, sample_prompts E fuel c p limit = MOk g /\ sample_prompts E fuel c p' limit = MOk h /\
    forall f n r,
      let '(ts, e, s) := collect G E f n g r in
      let '(us, e', s') := collect G E f n h r in
      ts = us /\ s = s' /\ (e = EndStop <-> e' = EndStop) /\ forall y, e = EndRaise y <-> e' = EndRaise y.
Proof.
  intros G E W0 W1 x value w wm before after parts parts' sep m c p p' limit fuel
    HV0 HV1 HW Hval Hvars Hr Hpath Hx Hc HI Hin Hp Hp' Hf.
  destruct (made_par G E W0 W1 x value w wm before after parts parts' sep m c p p' limit fuel Hc HI Hin Hp Hp' Hf)
    as (g & h & Hg & Hh & HG).
  exists g, h. split; [exact Hg|]. split; [exact Hh|]. intros f n r.
  exact (collect_par G E W0 W1 x value w wm before after HV0 HV1 HW Hval Hvars Hr Hpath Hx f n g h r HG).
Qed.

(** The guide's template.  [wardrobe] passes the value on to another one. *)
Definition wardrobes : env :=
  {| env_parse := parse ascii_alnum default_parser_config;
     env_lookup := fun path =>
       if str_eqb path $"clothes" then [{| w_content := $"In ${season}, I wear ${season} __garment__"; w_weight_opt := None |}]
       else if str_eqb path $"garment" then [{| w_content := $"shirts"; w_weight_opt := None |};
                                            {| w_content := $"trousers for ${season}"; w_weight_opt := None |}]
       else [];
     env_wrap := $"__" |}.
Definition seasons : command := Var [(lit "summer", 1%Qc); (lit "winter", 1%Qc)] 1 1 $"," None.
Definition assigned : list command :=
  [Assign $"season" seasons false true; lit " "; Wild (WStr $"clothes") None []; lit "."].
Definition passed : list command :=
  [lit " "; Wild (WStr $"clothes") None [($"season", seasons)]; lit "."].
Definition clothing (t : text) : Prop := t = $"clothes" \/ t = $"garment".
Lemma within_wardrobe : forall V s vars, env_parse wardrobes s = Ok (Lit s None) -> Word s -> clothing s ->
  Forall (fun kv => Within wardrobes V clothing (snd kv)) vars -> Within wardrobes V clothing (Wild (WStr s) None vars).
Proof.
  intros V s vars Hp Hw Hn Hv. constructor; [| |exact Hv].
  - intros c Hr. inversion Hr as [? ? _ Hc|]; subst. rewrite Hp in Hc. injection Hc as <-. constructor.
  - intros sc name H. rewrite (plain_name _ _ _ _ _ Hp Hw H). exact Hn.
Qed.
Lemma reads_parsed : forall E s cmd t, env_parse E s = Ok t -> Reads E (WStr s) cmd -> cmd = t.
Proof. intros E s cmd t Hp H. inversion H as [? ? _ Hc|]; subst. congruence. Qed.
Example C87_example :
  Reads wardrobes (WStr $"${season={summer|winter}} __clothes__.") (Seq assigned [] None) /\
  Reads wardrobes (WStr $" __clothes(season={summer|winter})__.") (Seq passed [] None) /\
  Passed wardrobes (fun _ => False) $"season" seasons (Wild (WStr $"clothes") None [])
    (Wild (WStr $"clothes") None [($"season", seasons)]) assigned passed /\
  ValuesWithin wardrobes (fun _ => True) clothing /\
  (forall sc name, Path wardrobes sc (WStr $"clothes") name -> clothing name) /\
  (forall cmd, Reads wardrobes (WStr $"clothes") cmd -> Within wardrobes (fun y => y <> $"season") (fun _ => False) cmd) /\
  AlikeIn wardrobes (fun y => y <> $"season") (fun _ => False) (ctx0 Random) (ctx0 Random).
Proof.
  split; [constructor; [discriminate|vm_compute; reflexivity]|].
  split; [constructor; [discriminate|vm_compute; reflexivity]|].
  split. { apply Passed_assign, Passed_other; [constructor|discriminate|discriminate|]. apply Passed_use.
    apply Passed_other; [constructor|discriminate|discriminate|]. apply Passed_end. }
  split. { intros name i c [-> | ->] Hi Hc; cbn in Hi.
    - destruct Hi as [<-|[]]. vm_compute in Hc. injection Hc as <-. constructor.
      constructor; [constructor|]. constructor; [constructor; [exact I|discriminate]|].
      constructor; [constructor|]. constructor; [constructor; [exact I|discriminate]|].
      constructor; [constructor|]. constructor; [|constructor].
      apply (within_wardrobe _ $"garment"); [vm_compute; reflexivity|apply letters_word; [discriminate|reflexivity]|right; reflexivity|constructor].
    - destruct Hi as [<-|[<-|[]]]; vm_compute in Hc; injection Hc as <-; [constructor|]. constructor.
      constructor; [constructor|]. constructor; [constructor; [exact I|discriminate]|]. constructor. }
  assert (Hp : env_parse wardrobes $"clothes" = Ok (Lit $"clothes" None)) by (vm_compute; reflexivity).
  split. { intros sc name H. left. eapply plain_name; [exact Hp|apply letters_word; [discriminate|reflexivity]|exact H]. }
  split. { intros cmd H. apply (reads_parsed _ _ _ _ Hp) in H. subst cmd. constructor. }
  split; [reflexivity|]. split; [reflexivity|]. split; [reflexivity|]. split; [reflexivity|].
  split; [discriminate|]. intros y _. split; [reflexivity|]. intros v K. discriminate K.
Qed.
Definition wear (m : method) (ts : list command) (n : nat) (stream : list N) : list text :=
  match sample_prompts wardrobes 60 (ctx0 m) (WCmd (Seq ts [] None)) None with
  | MOk g => fst (fst (collect stream_rng wardrobes 60 n g stream))
  | _ => []
  end.
Example C87_example_run :
  wear Combinatorial assigned 20 [] = wear Combinatorial passed 20 [] /\
  wear Random assigned 3 [1; 0; 1; 0; 1; 1; 0; 1; 1]%N = wear Random passed 3 [1; 0; 1; 0; 1; 1; 0; 1; 1]%N /\
  length (wear Combinatorial passed 20 []) = 12 /\
  hd [] (wear Combinatorial passed 20 []) = $" In summer, I wear summer shirts.".
Proof. split; [vm_compute; reflexivity|]. split; [vm_compute; reflexivity|]. split; vm_compute; reflexivity. Qed.
(** The guide says that only a literal string can be passed.  A template can. *)
Theorem C87_only_literals_refuted : exists s value,
  parse ascii_alnum default_parser_config s = Ok (Wild (WStr $"clothes") None [($"season", value)]) /\
  forall t m, value <> Lit t m.
Proof. exists $"__clothes(season={summer|winter})__", seasons. split; [vm_compute; reflexivity|discriminate]. Qed.
(** Another part that uses the variable needs the assignment. *)
Theorem C87_other_uses_refuted :
  wear Combinatorial (assigned ++ [Access $"season" None]) 20 [] <> wear Combinatorial (passed ++ [Access $"season" None]) 20 [].
Proof. intros H. vm_compute in H. discriminate H. Qed.

Print Assumptions C87_passing_is_assigning.
Print Assumptions C87_only_literals_refuted.
Print Assumptions C87_other_uses_refuted.
(** In braces of its own a wildcard loses what is passed to it, whichever the
    sampler: the options are its values, sampled without it. *)
Definition braced (vars : list (str * command)) : command := Var [(Wild (WStr $"clothes") None vars, 1%Qc)] 1 1 $"," None.
Theorem C87_lone_in_braces_refuted :
  parse ascii_alnum default_parser_config $"{__clothes(season=winter)__}" = Ok (braced [($"season", lit "winter")]) /\
  parse ascii_alnum default_parser_config $"${season=winter}{__clothes__}" =
    Ok (Seq [Assign $"season" (lit "winter") false true; braced []] [] None) /\
  forall m, hd [] (wear m [Assign $"season" (lit "winter") false true; braced []] 3 [0; 0; 0; 0]%N) =
      $"In winter, I wear winter shirts" /\
    exists g r, sample_prompts wardrobes 60 (ctx0 m) (WCmd (braced [($"season", lit "winter")])) None = MOk g /\
      collect stream_rng wardrobes 60 3 g [0; 0; 0; 0]%N = ([], EndRaise EKey, r).
Proof.
  split; [vm_compute; reflexivity|]. split; [vm_compute; reflexivity|]. intros m. split; [destruct m; vm_compute; reflexivity|].
  destruct m; do 2 eexists; (split; [vm_compute; reflexivity|]); vm_compute; reflexivity.
Qed.

Print Assumptions C87_passing_is_assigning.
Print Assumptions C87_only_literals_refuted.
Print Assumptions C87_other_uses_refuted.
Print Assumptions C87_lone_in_braces_refuted.
