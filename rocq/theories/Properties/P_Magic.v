(** C72: which language model a MagicPrompt generator uses. *)
From Coq Require Import String NArith Bool Arith List Lia.
From Verif.Model Require Import Str Rng Command Context Magic.
From Verif.Spec Require Import Text Magic.
From Verif.Proofs Require Import PipelineFacts.
Import ListNotations.
Local Open Scope nat_scope.

(** Generator [i] got its model last in the call [e].  The calls up to [e]
    that ask for the same model begin with [s].  Then [i] uses the pipeline
    loaded for [s], on the device of the generator that made the call [s]. *)
Theorem C72_uses_the_pipeline_of_the_first_call : forall device (xs : list (magic_call device)) l st i a e a' s,
  magic_run xs no_magics = Some (l, st) ->
  GotLast (combine xs l) i a e -> Streak (a ++ [e]) a' s -> loadable (fst s) ->
  exists p n, used_pipeline st i = Ok p /\
    p_model p = asked (fst e) /\ FromDevice a' (fst s) (p_device p) /\
    Runs (map (fun x => asked (fst x)) a') n /\ p_serial p = n.
Proof.
  intros device xs l st i a e a' s H Hl Hs Hok.
  destruct (run_inv xs l st H) as [_ I]. destruct (i_used _ _ I _ _ _ Hl) as (g & Hg & HP).
  destruct (HP _ _ Hs) as (n & HR & H1 & _). destruct (H1 Hok) as (d & Hd & E).
  exists {| p_model := asked (fst s); p_device := d; p_serial := n |}, n.
  unfold used_pipeline. rewrite Hg, E. cbn. repeat split; try assumption.
  destruct Hs as (b & Eb & Hb & _). destruct (snoc_cases b) as [->|(b' & z & ->)].
  - apply snoc_inv in Eb as [_ ->]. reflexivity.
  - replace (a' ++ s :: b' ++ [z]) with ((a' ++ s :: b') ++ [z]) in Eb by now rewrite <- app_assoc.
    apply snoc_inv in Eb as [_ ->]. symmetry. apply Hb. rewrite in_app_iff. right. now left.
Qed.

(** If that first load failed, [i] has no pipeline, and [generate] raises. *)
Theorem C72_nothing_after_a_failed_load : forall device (xs : list (magic_call device)) l st i a e a' s,
  magic_run xs no_magics = Some (l, st) ->
  GotLast (combine xs l) i a e -> Streak (a ++ [e]) a' s -> ~ loadable (fst s) ->
  used_pipeline st i = Err EType.
Proof.
  intros device xs l st i a e a' s H Hl Hs Hok.
  destruct (run_inv xs l st H) as [_ I]. destruct (i_used _ _ I _ _ _ Hl) as (g & Hg & HP).
  destruct (HP _ _ Hs) as (n & _ & _ & H2). unfold used_pipeline. now rewrite Hg, (H2 Hok).
Qed.

(** As long as every model can be loaded, every generator uses the model it
    asked for last. *)
Theorem C72_uses_the_model_asked_for : forall device (xs : list (magic_call device)) l st i a e,
  magic_run xs no_magics = Some (l, st) -> Forall loadable xs ->
  GotLast (combine xs l) i a e ->
  exists p, used_pipeline st i = Ok p /\ p_model p = asked (fst e).
Proof.
  intros device xs l st i a e H Hok Hl. destruct (streak_exists a e) as (a' & s & Hs & _).
  destruct (C72_uses_the_pipeline_of_the_first_call _ _ _ _ _ _ _ _ _ H Hl Hs) as (p & n & H1 & H2 & _).
  - destruct Hs as (b & Eb & _). destruct Hl as (b2 & El & _).
    assert (Hin : In s (combine xs l)).
    { rewrite El. replace (a ++ e :: b2) with ((a ++ [e]) ++ b2) by now rewrite <- app_assoc.
      rewrite Eb, !in_app_iff. left. right. now left. }
    destruct s as [x y]. apply in_combine_l in Hin. rewrite Forall_forall in Hok. now apply Hok.
  - eauto.
Qed.

(** A model is loaded once for each run of calls asking for it. *)
Theorem C72_one_load_for_each_change : forall device (xs : list (magic_call device)) l st,
  magic_run xs no_magics = Some (l, st) -> Runs (map asked xs) (k_loads (g_class st)).
Proof.
  intros device xs l st H. destruct (run_inv xs l st H) as [E I]. pose proof (i_runs _ _ I) as HR.
  replace (map (fun e => asked (fst e)) (combine xs l)) with (map asked xs) in HR; [exact HR|].
  clear - E. revert l E. induction xs as [|x xs IH]; intros [|y l] E; cbn in *; try discriminate; try reflexivity.
  f_equal. apply IH. now injection E.
Qed.

(** [model_name] of any generator is the model anybody asked for last. *)
Theorem C72_model_name : forall device (xs : list (magic_call device)) x l st i,
  magic_run (xs ++ [x]) no_magics = Some (l, st) -> asked x <> [] -> model_name st i = Some (asked x).
Proof.
  intros device xs x l st i H Hx. destruct (run_inv _ l st H) as [E I].
  destruct (snoc_cases l) as [->|(l' & y & ->)]; [destruct xs; discriminate|].
  rewrite !app_length in E. cbn in E.
  assert (Ec : combine (xs ++ [x]) (l' ++ [y]) = combine xs l' ++ [(x, y)]).
  { assert (E' : length l' = length xs) by lia. clear - E'.
    revert l' E'. induction xs as [|z xs IH]; intros [|w l'] E'; cbn in *; try discriminate; [reflexivity|].
    f_equal. apply IH. now injection E'. }
  pose proof (i_name _ _ I _ _ Ec) as Hn. cbn in Hn. unfold model_name. rewrite Hn.
  now destruct (asked x).
Qed.

(** Two models, asked for in turn; the second generator keeps its own. *)
Definition calls72 : list (magic_call nat) :=
  [MakeMagic $"one" 0 true true; MakeMagic $"one" 1 true true; MakeMagic $"two" 1 true true;
   SetModel 0 $"two" true; MakeMagic $"one" 2 true false; SetModel 2 $"one" true].
Example C72_example : exists l st, magic_run calls72 no_magics = Some (l, st) /\
  Forall loadable calls72 /\
  used_pipeline st 0 = Ok {| p_model := $"two"; p_device := 1; p_serial := 1 |} /\
  used_pipeline st 1 = Ok {| p_model := $"one"; p_device := 0; p_serial := 0 |} /\
  used_pipeline st 2 = Ok {| p_model := $"one"; p_device := 2; p_serial := 2 |} /\
  k_loads (g_class st) = 3 /\ model_name st 0 = Some $"one".
Proof. do 2 eexists. split; [vm_compute; reflexivity|]. repeat split; repeat constructor. Qed.
(** The hypotheses of the first theorem for generator 0. *)
Example C72_example_history : exists l st a e a' s,
  magic_run calls72 no_magics = Some (l, st) /\ GotLast (combine calls72 l) 0 a e /\
  Streak (a ++ [e]) a' s /\ loadable (fst s) /\ fst s <> fst e /\ FromDevice a' (fst s) 1.
Proof.
  do 2 eexists.
  exists [(MakeMagic $"one" 0 true true, MadeMagic 0); (MakeMagic $"one" 1 true true, MadeMagic 1);
          (MakeMagic $"two" 1 true true, MadeMagic 2)], (SetModel 0 $"two" true, ModelSet),
         [(MakeMagic $"one" 0 true true, MadeMagic 0); (MakeMagic $"one" 1 true true, MadeMagic 1)],
         (MakeMagic $"two" 1 true true, MadeMagic 2).
  split; [vm_compute; reflexivity|]. split.
  { eexists. split; [vm_compute; reflexivity|]. split; [right; now exists $"two", true|].
    intros x Hx [Hg|(n & o & Hg)]; cbn in Hx; repeat (destruct Hx as [<-|Hx]; [discriminate|]); contradiction. }
  split.
  { eexists. split; [reflexivity|]. split.
    - intros x Hx. cbn in Hx. destruct Hx as [<-|[]]. reflexivity.
    - intros b x E. change ([(MakeMagic $"one" 0 true true, MadeMagic 0)] ++ [(MakeMagic $"one" 1 true true, MadeMagic 1)] = b ++ [x]) in E.
      apply snoc_inv in E as [_ <-]. vm_compute. discriminate. }
  split; [reflexivity|]. split; [discriminate|reflexivity].
Qed.

(** A generator can be made without an exception and have no pipeline: when
    the same model could not be loaded before, it is not tried again. *)
Theorem C72_a_made_generator_works_refuted : exists (xs : list (magic_call nat)) l st,
  magic_run xs no_magics = Some (l, st) /\ last l ModelSet = MadeMagic 0 /\
  (exists y, last xs y = MakeMagic $"one" 0 true true) /\ used_pipeline st 0 = Err EType.
Proof.
  exists [MakeMagic $"one" 0 false true; MakeMagic $"one" 0 true true]. do 2 eexists.
  split; [vm_compute; reflexivity|]. split; [reflexivity|]. split; [|reflexivity].
  exists (SetModel 0 [] true). reflexivity.
Qed.
(** The device asked for is not always the device used. *)
Theorem C72_device_asked_for_refuted : exists (xs : list (magic_call nat)) l st p,
  magic_run xs no_magics = Some (l, st) /\ Forall loadable xs /\
  nth_error xs 1 = Some (MakeMagic $"one" 1 true true) /\ nth_error l 1 = Some (MadeMagic 1) /\
  used_pipeline st 1 = Ok p /\ p_device p = 0.
Proof.
  exists [MakeMagic $"one" 0 true true; MakeMagic $"one" 1 true true]. do 3 eexists.
  split; [vm_compute; reflexivity|]. repeat split; repeat constructor.
Qed.
(** The name a generator reports is not always that of the model it uses. *)
Theorem C72_reported_name_refuted : exists (xs : list (magic_call nat)) l st p,
  magic_run xs no_magics = Some (l, st) /\ Forall loadable xs /\
  used_pipeline st 0 = Ok p /\ p_model p = $"one" /\ model_name st 0 = Some $"two".
Proof.
  exists [MakeMagic $"one" 0 true true; MakeMagic $"two" 0 true true]. do 3 eexists.
  split; [vm_compute; reflexivity|]. repeat split; repeat constructor.
Qed.

Print Assumptions C72_uses_the_pipeline_of_the_first_call.
Print Assumptions C72_nothing_after_a_failed_load.
Print Assumptions C72_uses_the_model_asked_for.
Print Assumptions C72_one_load_for_each_change.
Print Assumptions C72_model_name.
Print Assumptions C72_a_made_generator_works_refuted.
Print Assumptions C72_device_asked_for_refuted.
Print Assumptions C72_reported_name_refuted.
