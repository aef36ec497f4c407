(** C28 (lookups), C30, C31, C32, C34 (lookups): the wildcard manager. *)
From Coq Require Import String NArith ZArith QArith Qcanon Bool Arith List Permutation Sorted Lia.
From Verif.Model Require Import Str Utils Rng Values Context Names Structured TextFile Tree Manager.
From Verif.Spec Require Import Text Names Files Tree Lookup StreamRng.
From Verif.Proofs Require Import StrFacts NamesFacts GlobFacts FileFacts TreeFacts BuildFacts
  ManagerFacts LookupFacts.
From Verif.Properties Require Import P_Files P_Tree.
Import ListNotations.
Local Open Scope nat_scope.

(** Every value a lookup returns comes from a registered collection, and a
    text collection is a file below one of the roots. *)
Theorem C28_lookups_stay_inside : forall P G ww roots fs s d sh r ops wc out v,
  UniqueNames fs -> Forall keeps_files ops ->
  lookup P G ww roots wc (run_ops P G ww roots ops (fresh G fs s d sh r)) = Ok out -> In v out ->
  exists name c vs, In (name, c) (build_map P fs roots) /\ CollHas fs c vs /\ In v vs /\
    forall path cache, c = CText path cache ->
      exists prefix items root es dir f content,
        In (prefix, items) roots /\ In (RPath root) items /\ fs_get root fs = Some (FDir es) /\
        VisibleFile es dir f content /\ path = root ++ dir ++ [f].
Proof.
  intros P G ww roots fs s d sh r ops wc out v Hu Hops E Hv.
  destruct (lookup_answer P G ww roots fs s d sh r ops wc Hu Hops) as (raw & out' & E' & HF & HA).
  rewrite E in E'. injection E' as <-. apply (Answer_In _ _ _ _ _ HA) in Hv.
  destruct (Found_In ww fs _ _ _ v HF Hv) as (name & c & vs & Hin & Hc & Hi).
  exists name, c, vs. split; [assumption|]. split; [assumption|]. split; [assumption|].
  intros path cache ->. apply build_map_text in Hin as
    (_ & prefix & items & root & es & dir & f & stem & content & H1 & H2 & H3 & H4 & _ & H5 & _).
  exists prefix, items, root, es, dir, f, content. auto 6.
Qed.

(** [get_file] only hands out registered collections, under a safe name. *)
Theorem C28_get_file : forall P ww roots fs name st n c,
  snd (get_file P ww roots fs name st) = Ok (n, c) ->
  Cleaned ww name (Some n) /\ SafeName n /\ In (n, c) (get_tree P roots fs st).
Proof.
  intros P ww roots fs name st n c. unfold get_file.
  destruct (clean_wildcard name ww) as [n'|e] eqn:E; [|discriminate]. cbn [snd].
  destruct (od_get n' (get_tree P roots fs st)) as [c'|] eqn:Eg; [|discriminate].
  intros H. injection H as <- <-. split; [now apply Cleaned_iff|].
  split; [exact (clean_safe _ _ _ E)|]. now apply od_get_In.
Qed.
Theorem C28_get_file_rejects : forall P ww roots fs name st,
  Cleaned ww name None -> get_file P ww roots fs name st = (st, Err EValue).
Proof.
  intros P ww roots fs name st H. apply Cleaned_iff in H. unfold get_file. now rewrite H.
Qed.

(** C30: every lookup, whatever was done before, answers with the values found
    (see Found), as the flags ask. *)
Theorem C30_values : forall P G ww roots fs s d sh r ops wc,
  UniqueNames fs -> Forall keeps_files ops ->
  let w' := run_ops P G ww roots ops (fresh G fs s d sh r) in
  exists raw out, lookup P G ww roots wc w' = Ok out /\
    Found fs ww (build_map P fs roots) wc raw /\
    Answer (m_sort (w_man G w')) (m_dedup (w_man G w')) (sh = false /\ Forall calm_op ops) raw out.
Proof. exact lookup_answer. Qed.

(** In particular: exactly the values of the matching collections. *)
Theorem C30_nothing_else_nothing_missing : forall P G ww roots fs s d sh r ops wc pattern raw,
  UniqueNames fs -> Forall keeps_files ops ->
  Cleaned ww wc (Some pattern) -> Gathered fs pattern (build_map P fs roots) raw -> raw <> [] ->
  exists out, lookup P G ww roots wc (run_ops P G ww roots ops (fresh G fs s d sh r)) = Ok out /\
    forall v, In v out <->
      exists name c vs, In (name, c) (build_map P fs roots) /\ Glob pattern name /\
        CollHas fs c vs /\ In v vs.
Proof.
  intros P G ww roots fs s d sh r ops wc pattern raw Hu Hops Hc Hg Hne.
  destruct (lookup_answer P G ww roots fs s d sh r ops wc Hu Hops) as (raw' & out & E & HF & HA).
  exists out. split; [assumption|]. intros v. rewrite (Answer_In _ _ _ _ _ HA).
  assert (HM : forall l, Matched fs ww (build_map P fs roots) wc l -> l = raw).
  { intros l H. apply Cleaned_iff in Hc. destruct H as [[H _]|(p & H & Hl)]; apply Cleaned_iff in H.
    - congruence.
    - assert (p = pattern) by congruence. subst p.
      apply gather_Gathered in Hl, Hg; try assumption; try apply build_map_erased. congruence. }
  assert (raw' = raw) as ->.
  { destruct HF as [[H _]|(H & _)]; apply HM in H; [assumption|congruence]. }
  split.
  - intros Hv. destruct (Gathered_In _ _ _ _ Hg v Hv) as (n & c & vs & H). eauto.
  - intros (n & c & vs & Hin & HG & HC & Hv). eapply Gathered_complete; eauto.
Qed.

(** With de-duplication off, each item as often as the collections hold it. *)
Theorem C30_multiplicities : forall P G ww roots fs s sh r wc,
  UniqueNames fs ->
  exists raw out, lookup P G ww roots wc (fresh G fs s false sh r) = Ok out /\
    Found fs ww (build_map P fs roots) wc raw /\ Permutation raw out.
Proof.
  intros P G ww roots fs s sh r wc Hu.
  destruct (lookup_answer P G ww roots fs s false sh r [] wc Hu (Forall_nil _))
    as (raw & out & E & HF & (mid & _ & Hm & Hp & _)).
  exists raw, out. cbn in Hm. rewrite (Hm eq_refl) in Hp. auto.
Qed.

Theorem C30_shuffle_is_a_permutation : forall G (l : list witem) r,
  Permutation (fst (shuffled G l r)) l.
Proof. intros. apply shuffled_perm. Qed.

Definition roots1 : root_map :=
  [([], [RPath [$"r1"]; RMap [($"m", [item $"v"; item $"b"; item $"v"]); ($"n/m", [item $"w"; item $"b"])]])].
Notation look s d ops wc :=
  (lookup lib0 stream_rng $"__" roots1 wc
     (run_ops lib0 stream_rng $"__" roots1 ops (fresh stream_rng fs0 s d false []))).

Example C30_example :
  look true true [] $"[mn]*" = Ok [item $"b"; item $"v"; item $"w"] /\
  look false true [] $"__[mn]*__" = Ok [item $"v"; item $"b"; item $"w"] /\
  look false false [] $"[mn]*" = Ok [item $"v"; item $"b"; item $"v"; item $"w"; item $"b"] /\
  look true true [] $"sub/b" = Ok [item $"two"] /\
  look true true [] $"b" = Ok [item $"two"] /\
  look true true [] $"../m" = Ok [] /\
  look true true [OGet $"m"; OShuffle true; OGet $"m"] $"m" = Ok [item $"v"; item $"b"].
Proof. vm_compute. repeat split. Qed.
Example C30_example_fs : UniqueNames fs0.
Proof.
  assert (HF : forall es, NoDup (map fst es) -> Forall (fun e => UniqueNames (snd e)) es ->
               UniqueNames (FDir es)).
  { intros es H1 H2. constructor; [assumption|]. intros name n Hin.
    rewrite Forall_forall in H2. exact (H2 _ Hin). }
  unfold fs0. repeat first [apply HF | apply UniqueNames_file | apply Forall_nil | apply Forall_cons |
    apply NoDup_nil | apply NoDup_cons | progress cbn [snd fst map]];
  cbn; intros H; repeat (destruct H as [H|H]; [discriminate|]); exact H.
Qed.

(** C31: transparency. *)
Theorem C31_cache_transparent : forall P G ww roots fs s d r ops wc,
  Forall keeps_files ops -> Forall calm_op ops ->
  let w' := run_ops P G ww roots ops (fresh G fs s d false r) in
  forall r', lookup P G ww roots wc w'
  = lookup P G ww roots wc (fresh G fs (m_sort (w_man G w')) (m_dedup (w_man G w')) false r').
Proof.
  intros P G ww roots fs s d r ops wc Hk Hc w' r'.
  pose proof (lookup_transparent P G ww roots (fresh G fs s d false r) ops wc
    (fresh_Inv P G ww roots _ fs s d false r eq_refl) (quiets_calm _ Hk Hc) r') as H.
  cbn zeta in H. fold w' in H. rewrite H. do 2 f_equal.
  now destruct (run_Inv P G ww roots _ ops (fresh G fs s d false r) (quiets_calm _ Hk Hc)
    (fresh_Inv P G ww roots _ fs s d false r eq_refl)) as [E _].
Qed.

(** Anything may have happened before the cache was last cleared, changes of
    the files included. *)
Theorem C31_transparent_after_clear : forall P G ww roots w0 before clear ops wc,
  clear = OClear \/ (exists b, clear = OSort b) \/ (exists b, clear = ODedup b) ->
  Forall keeps_files ops -> Forall calm_op ops ->
  m_shuffle (w_man G (run_ops P G ww roots before w0)) = false ->
  let w' := run_ops P G ww roots (before ++ clear :: ops) w0 in
  forall r', lookup P G ww roots wc w'
  = lookup P G ww roots wc
      (fresh G (w_fs G w') (m_sort (w_man G w')) (m_dedup (w_man G w')) false r').
Proof.
  intros P G ww roots w0 before clear ops wc Hclear Hk Hc Hsh w' r'.
  set (w1 := run_ops P G ww roots before w0) in *.
  assert (Ew : w' = run_ops P G ww roots ops (step P G ww roots clear w1)).
  { unfold w', w1, run_ops. now rewrite fold_left_app. }
  rewrite Ew. apply lookup_transparent; [|now apply quiets_calm].
  destruct Hclear as [->|[[b ->]|[b ->]]]; cbn [step w_fs w_man]; apply clear_Inv; exact Hsh.
Qed.

(** With shuffling on at some time: the same values in some order. *)
Theorem C31_same_values_with_shuffling : forall P G ww roots fs s d sh r ops wc,
  Forall keeps_files ops ->
  let w' := run_ops P G ww roots ops (fresh G fs s d sh r) in
  forall r',
  match lookup P G ww roots wc
          (fresh G (w_fs G w') (m_sort (w_man G w')) (m_dedup (w_man G w')) false r'),
        lookup P G ww roots wc w' with
  | Ok l, Ok l' => Permutation l l'
  | Err e, Err e' => e = e'
  | _, _ => False
  end.
Proof.
  intros P G ww roots fs s d sh r ops wc Hk w' r'.
  apply (lookup_same_values P G ww roots (fresh G fs s d sh r) ops wc
    (fresh_Inv P G ww roots _ fs s d sh r I) (quiets _ Hk) r').
Qed.

Example C31_example :
  Forall keeps_files [OGet $"*m"; OSort false; OGet $"*m"; ONames; OFile $"a"; OSort true; OGet $"x"].
Proof. repeat constructor; discriminate. Qed.
(** Sorting and shuffling on, a lookup, shuffling off: still not sorted. *)
Theorem C31_transparent_after_shuffling_refuted : exists P G ww roots fs r ops wc,
  UniqueNames fs /\ Forall keeps_files ops /\
  let w' := run_ops P G ww roots ops (fresh G fs true true false r) in
  m_shuffle (w_man G w') = false /\ m_sort (w_man G w') = true /\
  lookup P G ww roots wc w' <> lookup P G ww roots wc (fresh G fs true true false r).
Proof.
  exists lib0, stream_rng, $"__", roots1, fs0, [], [OShuffle true; OGet $"m"; OShuffle false], $"m".
  split; [apply C30_example_fs|]. split; [repeat constructor; discriminate|].
  split; [reflexivity|]. split; [reflexivity|]. vm_compute. discriminate.
Qed.
(** Writing a file through the manager does not clear the cached answer. *)
Theorem C31_transparent_after_write_refuted : exists P G ww roots fs r name text wc,
  UniqueNames fs /\
  let w' := run_ops P G ww roots [OGet wc; OWrite name text] (fresh G fs true true false r) in
  lookup P G ww roots wc w' <> lookup P G ww roots wc (fresh G (w_fs G w') true true false r).
Proof.
  exists lib0, stream_rng, $"__", roots1, fs0, [], $"a", $"new", $"a".
  split; [apply C30_example_fs|]. vm_compute. discriminate.
Qed.

(** C32 *)
Theorem C32_cache_bounded : forall P G ww roots fs s d sh r ops,
  length (m_cache (w_man G (run_ops P G ww roots ops (fresh G fs s d sh r)))) <= 101.
Proof.
  intros. apply (run_small P G ww roots). unfold Small. cbn. lia.
Qed.
(** The bound is reached. *)
Example C32_tight :
  length (m_cache (w_man stream_rng (run_ops lib0 stream_rng $"__" []
    (map (fun n => OGet [N.of_nat n]) (seq 1000 101)) (fresh stream_rng (FDir []) true true false []))))
  = 101 /\
  length (m_cache (w_man stream_rng (run_ops lib0 stream_rng $"__" []
    (map (fun n => OGet [N.of_nat n]) (seq 1000 102)) (fresh stream_rng (FDir []) true true false []))))
  = 1.
Proof. vm_compute. auto. Qed.

(** C34 at the level of lookups: a plain name finds the collection of that
    name, or, if that gives no values, all whose name ends in "/name". *)
Theorem C34_plain_lookup : forall ww fs t n l, SafeName n -> n <> [] -> NoGlob n ->
  ~ StartsWith n ww -> ~ EndsWith n ww ->
  ~ StartsWith ([42; 42; 47]%N ++ n) ww -> ~ EndsWith ([42; 42; 47]%N ++ n) ww ->
  (Found fs ww t n l <->
   (Selected fs (eq n) t l /\ l <> []) \/
   (Selected fs (eq n) t [] /\ Selected fs (fun m => EndsWith m (slash :: n)) t l)).
Proof. intros ww fs t n l. now apply Found_plain. Qed.
Example C34_plain_example : SafeName $"b" /\ NoGlob $"b" /\
  ~ StartsWith $"b" $"__" /\ ~ EndsWith $"b" $"__" /\
  ~ StartsWith ([42; 42; 47]%N ++ $"b") $"__" /\ ~ EndsWith ([42; 42; 47]%N ++ $"b") $"__".
Proof.
  split; [apply (clean_safe $"b" $"__"); reflexivity|].
  split; [repeat constructor; intros [H|[H|H]]; discriminate|].
  split; [|split; [|split]]; intros H; (apply startswith_spec in H || apply endswith_spec in H);
    vm_compute in H; discriminate.
Qed.
(** The fallback does not help a wrapped name: only the trailing wrap is
    dropped from "**/__b__". *)
Theorem C34_wrapped_fallback_refuted : exists P G ww roots fs r n v,
  UniqueNames fs /\ lookup P G ww roots n (fresh G fs true true false r) = Ok [v] /\
  lookup P G ww roots (to_wildcard ww n) (fresh G fs true true false r) = Ok [].
Proof.
  exists lib0, stream_rng, $"__", roots1, fs0, [], $"b", (item $"two").
  split; [apply C30_example_fs|]. split; vm_compute; reflexivity.
Qed.

Print Assumptions C28_lookups_stay_inside.
Print Assumptions C28_get_file.
Print Assumptions C28_get_file_rejects.
Print Assumptions C30_values.
Print Assumptions C30_nothing_else_nothing_missing.
Print Assumptions C30_multiplicities.
Print Assumptions C30_shuffle_is_a_permutation.
Print Assumptions C31_cache_transparent.
Print Assumptions C31_transparent_after_clear.
Print Assumptions C31_same_values_with_shuffling.
Print Assumptions C31_transparent_after_shuffling_refuted.
Print Assumptions C31_transparent_after_write_refuted.
Print Assumptions C32_cache_bounded.
Print Assumptions C34_plain_lookup.
Print Assumptions C34_wrapped_fallback_refuted.
