(** C86: a variable is its value written out. *)
From Coq Require Import String NArith ZArith QArith Qcanon Bool Arith List Lia.
From Verif.Model Require Import Str Utils Command Rng Values Context Sampler Parser.
From Verif.Spec Require Import Text Lang StreamRng Mention Inline.
From Verif.Proofs Require Import StrFacts CommandFacts Soundness MentionFacts InlineFacts.
From Verif.Properties Require Import P_Sampler P_Parser P_EndToEnd P_Mention.
Import ListNotations.
Local Open Scope nat_scope.

Lemma made_inl : forall G E W x value parts parts' sep m c p p' limit fuel,
  AlikeIn E (fun y => y <> x) W c c -> ~ In x (c_busy c) ->
  (c_method c = Combinatorial -> sampling_method value = None) ->
  Inlined E W x value parts parts' -> In (Assign x value false true) parts ->
  Reads E p (Seq parts sep m) -> Reads E p' (Seq parts' sep m) -> fuel <> 0 ->
  exists g h, sample_prompts E fuel c p limit = MOk g /\ sample_prompts E fuel c p' limit = MOk h /\
    inl G E W x value g h.
Proof.
  intros G E W x value parts parts' sep m c p p' limit fuel Hc Hb Hm HI Hin Hp Hp' Hf.
  assert (HR : forall q ts, Reads E q (Seq ts sep m) -> sample_prompts E fuel c q limit =
    match mk fuel c (Seq ts sep m) with
    | MOk g => let g := if c_ignws c then GSquash g else g in MOk (match limit with None => g | Some n => GSlice n g end)
    | y => y end).
  { intros q ts Hq. inversion Hq as [s ? Hs Hps|? Hne]; subst; unfold sample_prompts.
    - destruct s; [congruence|]. rewrite Hps. reflexivity.
    - apply truthy_Nonempty in Hne. rewrite Hne. reflexivity. }
  rewrite (HR _ _ Hp), (HR _ _ Hp'). destruct fuel as [|k]; [congruence|]. cbn [mk].
  change (chosen_method c (Seq parts' sep m)) with (chosen_method c (Seq parts sep m)).
  set (cm := chosen_method c (Seq parts sep m)).
  assert (Hcm : cm = Combinatorial -> sampling_method value = None).
  { intros K. apply Hm. unfold cm, chosen_method in K. cbn [sampling_method] in K.
    destruct (c_method c); [|reflexivity|]; destruct m as [[]|]; cbn in K; congruence. }
  assert (HA : AlikeIn E (fun y => y <> x) W (with_method cm c) (with_method cm c)) by (now apply Ag_method).
  assert (HG : exists g h, match cm with Combinatorial => MOk (GCSeqStart (with_method cm c) parts sep)
                            | _ => MOk (GSeqStart (with_method cm c) parts sep) end = MOk g /\
               match cm with Combinatorial => MOk (GCSeqStart (with_method cm c) parts' sep)
                            | _ => MOk (GSeqStart (with_method cm c) parts' sep) end = MOk h /\ inl G E W x value g h).
  { destruct cm eqn:Ecm; do 2 eexists; (split; [reflexivity|]); (split; [reflexivity|]);
      constructor; auto. }
  destruct HG as (g & h & -> & -> & HG). cbn zeta.
  destruct limit, (c_ignws c); do 2 eexists; (split; [reflexivity|]); (split; [reflexivity|]);
    repeat (first [exact HG|apply inl_slice|apply inl_squash]).
Qed.
Lemma ends : forall e e', same_end e e' ->
  (e = EndStop <-> e' = EndStop) /\ forall y, e = EndRaise y <-> e' = EndRaise y.
Proof.
  intros [g| |y|] [h| |y'|] H; cbn in H; try contradiction; subst;
    (split; [|intros z]); split; intros K; try discriminate; congruence.
Qed.

(** * C86 *)
(** A sequence with [${x=value}] among its parts gives the prompts, the
    exceptions and the use of the random source of the sequence that has the
    value for each [${x}] and no assignment. *)
Theorem C86_value_written_out : forall G E W x value parts parts' sep m c p p' limit fuel,
  ValuesWithin E (fun y => y <> x) W -> Within E (fun y => y <> x) W value -> Nonempty value ->
  (forall y v i o, value <> Assign y v i o) ->
  AlikeIn E (fun y => y <> x) W c c -> ~ In x (c_busy c) ->
  (c_method c = Combinatorial -> sampling_method value = None) ->
  Inlined E W x value parts parts' -> In (Assign x value false true) parts ->
  Reads E p (Seq parts sep m) -> Reads E p' (Seq parts' sep m) -> fuel <> 0 ->
  exists g h, sample_prompts E fuel c p limit = MOk g /\ sample_prompts E fuel c p' limit = MOk h /\
    (forall f n r ts e s, collect G E f n g r = (ts, e, Some s) ->
       exists e', collect G E f n h r = (ts, e', Some s) /\
         (e = EndStop <-> e' = EndStop) /\ forall y, e = EndRaise y <-> e' = EndRaise y) /\
    (forall f n r ts e s, collect G E f n h r = (ts, e, Some s) ->
       exists e', collect G E (S f) n g r = (ts, e', Some s) /\
         (e = EndStop <-> e' = EndStop) /\ forall y, e = EndRaise y <-> e' = EndRaise y).
Proof.
  intros G E W x value parts parts' sep m c p p' limit fuel HV Hval Hne Hno Hc Hb Hm HI Hin Hp Hp' Hf.
  destruct (made_inl G E W x value parts parts' sep m c p p' limit fuel Hc Hb Hm HI Hin Hp Hp' Hf) as (g & h & Hg & Hh & HG).
  exists g, h. split; [exact Hg|]. split; [exact Hh|]. split; intros f n r ts e s H.
  - pose proof (collect_inl G E W x value HV Hval Hne Hno true n f f g h r eq_refl HG) as HC. rewrite H in HC.
    destruct (collect G E f n h r) as [[us e'] s'].
    destruct HC as [K|(<- & <- & K)]; [discriminate|]. exists e'. split; [reflexivity|]. apply ends, K.
  - pose proof (collect_inl G E W x value HV Hval Hne Hno false n (S f) f g h r eq_refl HG) as HC. rewrite H in HC.
    destruct (collect G E (S f) n g r) as [[us e'] s'].
    destruct HC as [K|(-> & -> & K)]; [discriminate|]. exists e'. split; [reflexivity|].
    destruct (ends _ _ K) as [K1 K2]. split; [symmetry; exact K1|]. intros y. symmetry. apply K2.
Qed.
(** So it does not matter where the assignment stands, nor how often. *)
Theorem C86_place_of_the_assignment : forall G E W x value parts1 parts2 parts' sep m c p1 p2 p' limit fuel,
  ValuesWithin E (fun y => y <> x) W -> Within E (fun y => y <> x) W value -> Nonempty value ->
  (forall y v i o, value <> Assign y v i o) ->
  AlikeIn E (fun y => y <> x) W c c -> ~ In x (c_busy c) ->
  (c_method c = Combinatorial -> sampling_method value = None) ->
  Inlined E W x value parts1 parts' -> In (Assign x value false true) parts1 ->
  Inlined E W x value parts2 parts' -> In (Assign x value false true) parts2 ->
  Reads E p1 (Seq parts1 sep m) -> Reads E p2 (Seq parts2 sep m) -> Reads E p' (Seq parts' sep m) -> fuel <> 0 ->
  exists g h, sample_prompts E fuel c p1 limit = MOk g /\ sample_prompts E fuel c p2 limit = MOk h /\
    forall f n r ts e s, collect G E f n g r = (ts, e, Some s) ->
       exists e', collect G E (S f) n h r = (ts, e', Some s) /\
         (e = EndStop <-> e' = EndStop) /\ forall y, e = EndRaise y <-> e' = EndRaise y.
Proof.
  intros G E W x value parts1 parts2 parts' sep m c p1 p2 p' limit fuel HV Hval Hne Hno Hc Hb Hm H1 I1 H2 I2 R1 R2 R' Hf.
  destruct (C86_value_written_out G E W x value parts1 parts' sep m c p1 p' limit fuel HV Hval Hne Hno Hc Hb Hm H1 I1 R1 R' Hf)
    as (g & k & Hg & Hk & Hgk & _).
  destruct (C86_value_written_out G E W x value parts2 parts' sep m c p2 p' limit fuel HV Hval Hne Hno Hc Hb Hm H2 I2 R2 R' Hf)
    as (h & k' & Hh & Hk' & _ & Hkh).
  rewrite Hk in Hk'. injection Hk' as <-. exists g, h. split; [exact Hg|]. split; [exact Hh|].
  intros f n r ts e s H. destruct (Hgk _ _ _ _ _ _ H) as (e1 & E1 & A1 & B1).
  destruct (Hkh _ _ _ _ _ _ E1) as (e2 & E2 & A2 & B2). exists e2. split; [exact E2|]. split; [now rewrite A1|].
  intros y. now rewrite B1.
Qed.

(** [${s={hot|cold}}In ${s}, not ${s}] and [In {hot|cold}, not {hot|cold}]. *)
Definition no_wildcards : env :=
  {| env_parse := parse ascii_alnum default_parser_config; env_lookup := fun _ => []; env_wrap := $"__" |}.
Definition hot_cold : command := Var [(lit "hot", 1%Qc); (lit "cold", 1%Qc)] 1 1 $"," None.
Definition with_s : list command :=
  [Assign $"s" hot_cold false true; lit "In "; Access $"s" None; lit ", not "; Access $"s" None].
Definition without_s : list command := [lit "In "; hot_cold; lit ", not "; hot_cold].
Example C86_example :
  Reads no_wildcards (WStr $"${s={hot|cold}}In ${s}, not ${s}") (Seq with_s [] None) /\
  Reads no_wildcards (WStr $"In {hot|cold}, not {hot|cold}") (Seq without_s [] None) /\
  Inlined no_wildcards (fun _ => False) $"s" hot_cold with_s without_s /\
  ValuesWithin no_wildcards (fun y => y <> $"s") (fun _ => False) /\
  Within no_wildcards (fun y => y <> $"s") (fun _ => False) hot_cold /\ Nonempty hot_cold /\
  AlikeIn no_wildcards (fun y => y <> $"s") (fun _ => False) (ctx0 Random) (ctx0 Random).
Proof.
  split; [constructor; [discriminate|vm_compute; reflexivity]|].
  split; [constructor; [discriminate|vm_compute; reflexivity]|].
  split; [apply Inlined_assign, Inlined_other; [constructor|]; apply Inlined_use, Inlined_other; [constructor|]; apply Inlined_use, Inlined_end|]. split; [intros name i c []|].
  split; [constructor; constructor; [constructor|]; constructor; [constructor|constructor]|].
  split; [split; intros; discriminate|].
  split; [reflexivity|]. split; [reflexivity|]. split; [reflexivity|]. split; [reflexivity|].
  split; [discriminate|]. intros y _. split; [reflexivity|]. intros v K. discriminate K.
Qed.
Example C86_example_run :
  run Combinatorial (Seq with_s [] None) 9 [] = run Combinatorial (Seq without_s [] None) 9 [] /\
  run Random (Seq with_s [] None) 4 [0; 1; 1; 0; 0; 0; 1; 1]%N = run Random (Seq without_s [] None) 4 [0; 1; 1; 0; 0; 0; 1; 1]%N /\
  fst (run Combinatorial (Seq with_s [] None) 9 []) =
    [$"In hot, not hot"; $"In hot, not cold"; $"In cold, not hot"; $"In cold, not cold"].
Proof. split; [vm_compute; reflexivity|]. split; vm_compute; reflexivity. Qed.
(** With the combinatorial sampler the value must not have a marker of its own:
    [${s={~hot|cold}}In ${s}] is endless, [In {~hot|cold}] gives one prompt. *)
Theorem C86_marked_value_refuted : exists value,
  parse ascii_alnum default_parser_config $"${s={~hot|cold}}In ${s}" =
    Ok (Seq [Assign $"s" value false true; lit "In "; Access $"s" None] [] None) /\
  parse ascii_alnum default_parser_config $"In {~hot|cold}" = Ok (Seq [lit "In "; value] [] None) /\
  length (fst (run Combinatorial (Seq [Assign $"s" value false true; lit "In "; Access $"s" None] [] None) 9 [])) = 9 /\
  length (fst (run Combinatorial (Seq [lit "In "; value] [] None) 9 [])) = 1.
Proof.
  exists (Var [(lit "hot", 1%Qc); (lit "cold", 1%Qc)] 1 1 $"," (Some Random)).
  split; [vm_compute; reflexivity|]. split; [vm_compute; reflexivity|]. split; vm_compute; reflexivity.
Qed.
(** An immediate value is not the value written out: [${s=!{hot|cold}}] chooses
    once. *)
Theorem C86_immediate_value_refuted :
  run Combinatorial (Seq [Assign $"s" hot_cold true true; Access $"s" None; lit ", "; Access $"s" None] [] None) 9 [] <>
  run Combinatorial (Seq [hot_cold; lit ", "; hot_cold] [] None) 9 [].
Proof. intros H. vm_compute in H. discriminate H. Qed.

Print Assumptions C86_value_written_out.
Print Assumptions C86_place_of_the_assignment.
Print Assumptions C86_marked_value_refuted.
Print Assumptions C86_immediate_value_refuted.
