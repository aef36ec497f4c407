(** C70, C71: files written through the manager, and new managers. *)
From Coq Require Import String NArith ZArith QArith Qcanon Bool Arith List Permutation Sorted Lia.
From Verif.Model Require Import Str Utils Command Rng Values Context Names Structured TextFile Tree Manager Parser Stack.
From Verif.Spec Require Import Text Names Files Tree Lookup Write FileWildcard StreamRng Syntax.
From Verif.Proofs Require Import StrFacts NamesFacts GlobFacts FileFacts TreeFacts BuildFacts
  ManagerFacts LookupFacts StackFacts WriteFacts.
From Verif.Properties Require Import P_Files P_Tree P_Manager P_Stack.
Import ListNotations.
Local Open Scope nat_scope.

(** * C70: a write rewrites the file of that name, and nothing else. *)
Theorem C70_write_rewrites_one_file : forall P G ww roots fs s d sh r ops name t,
  UniqueNames fs -> OneNamePerFile (build_map P fs roots) -> (forall o, In o ops -> forall fs', o <> OExternal fs') ->
  let w := run_ops P G ww roots ops (fresh G fs s d sh r) in
  let answer := snd (write_file P ww roots (w_fs G w) name t (w_man G w)) in
  let fs' := w_fs G (step P G ww roots (OWrite name t) w) in
  (Cleaned ww name None /\ answer = Err EValue /\ fs' = w_fs G w) \/
  (exists n, Cleaned ww name (Some n) /\
    ((~ In n (map fst (build_map P fs roots)) /\ answer = Err EKey /\ fs' = w_fs G w) \/
     (exists items, In (n, CList items) (build_map P fs roots) /\ answer = Err EAttribute /\ fs' = w_fs G w) \/
     (exists path, In (n, CText path None) (build_map P fs roots) /\ answer = Ok tt /\
        Rewritten t (w_fs G w) path fs'))).
Proof.
  intros P G ww roots fs s d sh r ops name t Hu Hone Hout w answer fs'.
  destruct (history_build P G ww roots fs s d sh r ops Hu Hone) as (Hb & Hu' & Ht).
  { apply Forall_forall. exact Hout. }
  fold w in Hb, Hu', Ht.
  assert (Hone' : OneNamePerFile (build_map P (w_fs G w) roots)) by now rewrite Hb.
  pose proof (write_file_ok P ww roots (w_fs G w) (w_man G w) name t Hu' Hone' Ht) as H.
  unfold answer, fs'. cbn [step].
  destruct (write_file P ww roots (w_fs G w) name t (w_man G w)) as [[st fs2] a]. cbn [snd w_fs].
  destruct H as (_ & _ & _ & _ & H). rewrite Hb in H.
  destruct (clean_wildcard name ww) as [n|e] eqn:Ec.
  - right. exists n. split; [now apply Cleaned_iff|].
    destruct (od_get n (build_map P fs roots)) as [[items|path c]|] eqn:En.
    + right. left. exists items. split; [now apply od_get_In|exact H].
    + right. right. exists path. apply od_get_In in En. pose proof En as Ec'.
      apply build_map_text in Ec' as [-> _]. split; [exact En|exact H].
    + left. split; [now apply od_get_None|exact H].
  - left. destruct (clean_cases name ww) as [[p Hp]|Hp]; [congruence|].
    rewrite Ec in Hp. injection Hp as ->. split; [now apply Cleaned_iff|exact H].
Qed.

(** What rewriting means for the files. *)
Theorem C70_other_files_are_untouched : forall t fs path fs', UniqueNames fs -> Rewritten t fs path fs' ->
  UniqueNames fs' /\
  forall q c, FileAt fs' q c <-> (q = path /\ c = t) \/ (q <> path /\ FileAt fs q c).
Proof.
  intros t fs path fs' Hu Hr. split; [eapply Rewritten_unique; eassumption|]. intros q c.
  now apply (Rewritten_files t fs path fs' Hr Hu).
Qed.

(** A wildcard not asked for since the cache was last cleared is answered from
    the files as they are now, whatever was written. *)
Theorem C70_new_questions_see_the_writes : forall P G ww roots fs s d sh r before after wc,
  UniqueNames fs -> OneNamePerFile (build_map P fs roots) ->
  (forall o, In o (before ++ after) -> forall fs', o <> OExternal fs') ->
  before = [] \/ (exists b0 cl, before = b0 ++ [cl] /\
                    (cl = OClear \/ (exists b, cl = OSort b) \/ (exists b, cl = ODedup b))) ->
  ~ In (OGet wc) after ->
  let w' := run_ops P G ww roots (before ++ after) (fresh G fs s d sh r) in
  m_shuffle (w_man G w') = false ->
  forall r', lookup P G ww roots wc w' =
    lookup P G ww roots wc (fresh G (w_fs G w') (m_sort (w_man G w')) (m_dedup (w_man G w')) false r').
Proof.
  intros P G ww roots fs s d sh r before after wc Hu Hone Hout Hb Hn w' Hsh r'.
  apply history_uncached; try assumption. apply Forall_forall. exact Hout.
Qed.

(** With one root folder no file has two names. *)
Theorem C70_one_folder : forall P fs prefix root, OneNamePerFile (build_map P fs [(prefix, [RPath root])]).
Proof. exact one_folder. Qed.

(** What was last written to a text file is what a lookup of its name finds. *)
Theorem C70_written_values_are_found : forall P G ww roots fs s d sh r a name path t c before after lines,
  UniqueNames fs -> OneNamePerFile (build_map P fs roots) ->
  SafeName name -> NoGlob name -> ~ StartsWith name ww -> ~ EndsWith name ww ->
  In (name, CText path None) (build_map P fs roots) ->
  let ops := a ++ OWrite name t :: c in
  (forall o, In o ops -> forall fs', o <> OExternal fs') ->
  (forall n2 t2, In (OWrite n2 t2) c -> ~ Cleaned ww n2 (Some name)) ->
  ops = before ++ after ->
  before = [] \/ (exists b0 cl, before = b0 ++ [cl] /\
                    (cl = OClear \/ (exists b, cl = OSort b) \/ (exists b, cl = ODedup b))) ->
  ~ In (OGet name) after ->
  FileValues t lines -> lines <> [] ->
  let w' := run_ops P G ww roots ops (fresh G fs s d sh r) in
  m_shuffle (w_man G w') = false -> m_sort (w_man G w') = true -> m_dedup (w_man G w') = true ->
  exists vals, InOrder lines vals /\ lookup P G ww roots name w' = Ok (map unweighted vals).
Proof.
  intros P G ww roots fs s d sh r a name path t c before after lines Hu Hone Hs Hg H1 H2 Hin ops Hout Hlast Eops Hb Hn
    Hv Hne w' Hsh Hso Hde.
  assert (Ho : Forall NoOutside ops) by (apply Forall_forall; exact Hout).
  assert (Hc : Cleaned ww name (Some name)) by now apply (Cleaned_of_safe ww name Hs H1 H2).
  pose proof (last_write P G ww roots fs s d sh r a name t c name path Hu Hone Ho Hc Hin Hlast) as Hf.
  destruct (history_build P G ww roots fs s d sh r ops Hu Hone Ho) as (Eb & Hu' & _).
  fold ops in Hf. change (run_ops P G ww roots ops (fresh G fs s d sh r)) with w' in Hf, Eb, Hu'.
  destruct (stack_collection P G (fun _ => false) (standard ww) ww roots (w_fs G w') r name (CText path None) lines
              Hu' Hs Hg H1 H2) as (vals & Hio & Hl).
  - now rewrite Eb.
  - now apply CollHas_text with (content := t).
  - exact Hne.
  - exists vals. split; [exact Hio|]. rewrite <- Hl, <- stack_lookup by exact Hu'.
    rewrite <- Hso at 1. rewrite <- Hde at 1. unfold w' in *. rewrite Eops in *.
    apply (history_uncached P G ww roots fs s d sh r before after name); assumption.
Qed.

(** A file registered under two names: the other name may go on giving the old
    values, also for questions not asked before. *)
Theorem C70_two_names_refuted : exists P G ww roots fs r ops wc,
  UniqueNames fs /\ (forall o, In o ops -> forall fs', o <> OExternal fs') /\ ~ In (OGet wc) ops /\
  let w' := run_ops P G ww roots ops (fresh G fs true true false r) in
  m_shuffle (w_man G w') = false /\
  lookup P G ww roots wc w' <> lookup P G ww roots wc (fresh G (w_fs G w') true true false r).
Proof.
  exists lib0, stream_rng, $"__", [($"p", [RPath [$"r2"]]); ($"q", [RPath [$"r2"]])], fs0, [],
    [OGet $"p/a"; OWrite $"q/a" $"new"], $"p/*".
  split; [apply C30_example_fs|]. split.
  { intros o Ho fs' ->. cbn in Ho. intuition discriminate. }
  split. { intros Ho. cbn in Ho. intuition discriminate. }
  split; [reflexivity|]. vm_compute. discriminate.
Qed.

(** Folder w of [fs1]: a question, a write to sub/hues, another question, a
    write to another file, and a new question. *)
Definition ops70 : list mop :=
  [OGet $"hues"; OWrite $"sub/hues" $"zinc
amber"; OGet $"hues"; OWrite $"__hues__" $"other2"].
Notation w70 := (run_ops lib0 stream_rng $"__" [([], [RPath [$"w"]])] ops70 (fresh stream_rng fs1 true true false [])).
Example C70_example :
  lookup lib0 stream_rng $"__" [([], [RPath [$"w"]])] $"sub/hues" w70 = Ok [unweighted $"amber"; unweighted $"zinc"] /\
  lookup lib0 stream_rng $"__" [([], [RPath [$"w"]])] $"hues" w70 = Ok [unweighted $"other"] /\
  lookup lib0 stream_rng $"__" [([], [RPath [$"w"]])] $"hue?" w70 = Ok [unweighted $"other2"] /\
  snd (write_file lib0 $"__" [([], [RPath [$"w"]])] fs1 $"../x" $"t" init_state) = Err EValue /\
  snd (write_file lib0 $"__" [([], [RPath [$"w"]])] fs1 $"x" $"t" init_state) = Err EKey /\
  snd (write_file lib0 $"__" [([], [RMap [($"x", [])]])] fs1 $"x" $"t" init_state) = Err EAttribute.
Proof. vm_compute. repeat split. Qed.
(** The hypotheses hold here. *)
Example C70_example_hypotheses :
  UniqueNames fs1 /\ OneNamePerFile (build_map lib0 fs1 [([], [RPath [$"w"]])]) /\
  SafeName $"sub/hues" /\ NoGlob $"sub/hues" /\ ~ StartsWith $"sub/hues" $"__" /\ ~ EndsWith $"sub/hues" $"__" /\
  In ($"sub/hues", CText [$"w"; $"sub"; $"hues.txt"] None) (build_map lib0 fs1 [([], [RPath [$"w"]])]) /\
  (forall o, In o ops70 -> forall fs', o <> OExternal fs') /\
  ops70 = [OGet $"hues"] ++ OWrite $"sub/hues" $"zinc
amber" :: [OGet $"hues"; OWrite $"__hues__" $"other2"] /\
  (forall n2 t2, In (OWrite n2 t2) [OGet $"hues"; OWrite $"__hues__" $"other2"] -> ~ Cleaned $"__" n2 (Some $"sub/hues")) /\
  ~ In (OGet $"sub/hues") ops70 /\
  FileValues $"zinc
amber" [$"zinc"; $"amber"] /\
  m_shuffle (w_man stream_rng w70) = false /\ m_sort (w_man stream_rng w70) = true /\ m_dedup (w_man stream_rng w70) = true.
Proof.
  split; [apply C61_example_names|]. split; [apply C70_one_folder|].
  split; [apply (clean_safe $"sub/hues" $"__"); reflexivity|].
  split; [repeat constructor; intros [H|[H|H]]; discriminate|].
  split; [intros H; apply startswith_spec in H; vm_compute in H; discriminate|].
  split; [intros H; apply endswith_spec in H; vm_compute in H; discriminate|].
  split; [vm_compute; auto|].
  split. { intros o Ho fs' ->. cbn in Ho. intuition discriminate. }
  split; [reflexivity|]. split.
  { intros n2 t2 [H|[H|[]]]; [discriminate|]. injection H as <- <-. intros H. apply Cleaned_iff in H.
    vm_compute in H. discriminate. }
  split. { intros Ho. cbn in Ho. intuition discriminate. }
  split; [apply text_values_iff; vm_compute; reflexivity|]. repeat split.
Qed.

(** * C71: a manager just made. *)
Definition first_answer (P : pylib) (G : rng_impl) (ww : text) (path : option (list text)) (rm : root_map)
    (fs : fsnode) (r : rng_state G) (wc : text) : res (list witem) :=
  match new_manager path rm with
  | Err e => Err e
  | Ok (roots, st) => lookup P G ww roots wc {| w_fs := fs; w_man := st; w_rng := r |}
  end.

(** Made with a folder, it looks below that folder; with a root map, at those
    roots; sorted, without duplicates, not shuffled. *)
Theorem C71_new_manager : forall P G ww path rm roots fs r wc, UniqueNames fs ->
  (exists root, path = Some root /\ rm = [] /\ roots = [([], [RPath root])]) \/
  (path = None /\ roots = rm) ->
  exists raw mid out, first_answer P G ww path rm fs r wc = Ok out /\
    Found fs ww (build_map P fs roots) wc raw /\ Deduplicated raw mid /\ StablySorted mid out.
Proof.
  intros P G ww path rm roots fs r wc Hu Hr.
  assert (E : first_answer P G ww path rm fs r wc = lookup P G ww roots wc (fresh G fs true true false r)).
  { unfold first_answer, new_manager. destruct Hr as [(root & -> & -> & ->)|[-> ->]]; [reflexivity|].
    destruct rm as [|x rm]; reflexivity. }
  destruct (lookup_answer P G ww roots fs true true false r [] wc Hu (Forall_nil _)) as (raw & out & El & HF & HA).
  cbn [run_ops fold_left fresh w_man m_sort m_dedup] in El, HA.
  destruct HA as (mid & Hd & _ & _ & Hs & _). exists raw, mid, out. rewrite E.
  split; [exact El|]. split; [exact HF|]. split; [now apply Hd|]. apply Hs; [|reflexivity].
  split; [reflexivity|constructor].
Qed.
Theorem C71_two_roots_are_refused : forall P G ww root rm fs r wc, rm <> [] ->
  new_manager (Some root) rm = Err EValue /\ first_answer P G ww (Some root) rm fs r wc = Err EValue.
Proof. intros P G ww root [|x rm] fs r wc H; [congruence|]. split; reflexivity. Qed.
Theorem C71_no_roots_no_values : forall P G ww fs r wc, first_answer P G ww None [] fs r wc = Ok [].
Proof.
  intros P G ww fs r wc. unfold first_answer. cbn [new_manager init_roots].
  unfold lookup, get_values, get_values_cached. cbn [init_state m_cache od_get].
  assert (H : forall w st, m_tree st = None \/ m_tree st = Some [] ->
    snd (matching_values P ww [] fs w st) = Ok [] /\
    (m_tree (fst (matching_values P ww [] fs w st)) = None \/ m_tree (fst (matching_values P ww [] fs w st)) = Some []) /\
    m_shuffle (fst (matching_values P ww [] fs w st)) = m_shuffle st).
  { intros w st Ht. unfold matching_values. destruct (clean_wildcard w ww) as [p|e]; [|auto].
    replace (get_tree P [] fs st) with (@nil (str * coll)); [cbn; auto|].
    unfold get_tree. destruct Ht as [-> | ->]; reflexivity. }
  destruct (H wc init_state (or_introl eq_refl)) as (H1 & H2 & H3). cbn [w_fs w_man].
  destruct (matching_values P ww [] fs wc init_state) as [st1 r1]. cbn [fst snd] in *. subst r1.
  assert (Hf : forall w st, m_shuffle st = false ->
    snd (finish_values w [] st) = [] /\ m_shuffle (fst (finish_values w [] st)) = false).
  { intros w st Hsh. unfold finish_values. cbn. split; [|exact Hsh]. destruct (m_dedup st), (m_sort st && negb (m_shuffle st)); reflexivity. }
  destruct (startswith wc $"**").
  - destruct (Hf wc st1) as [Hf1 Hf2]; [exact H3|]. destruct (finish_values wc [] st1). cbn in *. rewrite Hf2. now subst.
  - destruct (H ($"**/" ++ wc) st1 H2) as (G1 & G2 & G3).
    destruct (matching_values P ww [] fs ($"**/" ++ wc) st1) as [st2 r2]. cbn [fst snd] in *. subst r2.
    destruct (Hf wc st2) as [Hf1 Hf2]; [rewrite G3; exact H3|]. destruct (finish_values wc [] st2). cbn in *. rewrite Hf2. now subst.
Qed.
(** The manager of C61-C64 is the one made with a folder. *)
Theorem C71_folder : forall P G alnum ww fs root r wc, UniqueNames fs ->
  first_answer P G ww (Some root) [] fs r wc = Ok (env_lookup (folder P G alnum ww fs root r) wc).
Proof. intros P G alnum ww fs root r wc Hu. unfold folder. rewrite <- stack_lookup by exact Hu. reflexivity. Qed.
Example C71_example :
  first_answer lib0 stream_rng $"__" (Some [$"w"]) [] fs1 [] $"sub/hues"
    = Ok [unweighted $"azure"; unweighted $"light  blue"; unweighted $"red"] /\
  first_answer lib0 stream_rng $"__" None [([], [RMap [($"a", [item $"y"; item $"x"; item $"y"])]])] fs1 [] $"a"
    = Ok [item $"x"; item $"y"] /\
  first_answer lib0 stream_rng $"__" (Some [$"w"]) [([], [])] fs1 [] $"a" = Err EValue.
Proof. vm_compute. repeat split. Qed.

Print Assumptions C70_write_rewrites_one_file.
Print Assumptions C70_other_files_are_untouched.
Print Assumptions C70_new_questions_see_the_writes.
Print Assumptions C70_one_folder.
Print Assumptions C70_written_values_are_found.
Print Assumptions C70_two_names_refuted.
Print Assumptions C71_new_manager.
Print Assumptions C71_two_roots_are_refused.
Print Assumptions C71_no_roots_no_values.
Print Assumptions C71_folder.
