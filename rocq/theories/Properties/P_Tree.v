(** C33, C39, C49: the wildcard tree and how it is built. *)
From Coq Require Import String NArith ZArith QArith Qcanon Bool Arith List Permutation Lia.
From Verif.Model Require Import Str Utils Rng Values Context Names Structured TextFile Tree.
From Verif.Spec Require Import Text Names Files Tree.
From Verif.Proofs Require Import StrFacts NamesFacts FileFacts TreeFacts BuildFacts.
From Verif.Properties Require Import P_Files.
Import ListNotations.
Local Open Scope nat_scope.

Theorem C33_walk_lists_the_mapping : forall {A} (m : list (str * A)),
  NoDup (map fst m) -> (forall name c, In (name, c) m -> NoEmptyComponent name) ->
  Permutation (walk_items (from_map m)) m.
Proof. exact @from_map_walk. Qed.

Theorem C33_full_names : forall {A} (m : list (str * A)),
  NoDup (map fst m) -> (forall name c, In (name, c) m -> NoEmptyComponent name) ->
  Permutation (walk_full_names (from_map m)) (map fst m).
Proof.
  intros A m H1 H2. rewrite walk_full_names_items. now apply Permutation_map, from_map_walk.
Qed.

(** The names of the manager's own tree are always distinct. *)
Theorem C33_names_distinct : forall P fs roots, NoDup (map fst (build_map P fs roots)).
Proof. exact build_map_NoDup. Qed.

Example C33_example :
  walk_items (from_map [($"a/b", 1); ($"a", 2); ($"c/d/e", 3); ($"a/b/f", 4)])
  = [($"a", 2); ($"a/b", 1); ($"a/b/f", 4); ($"c/d/e", 3)].
Proof. vm_compute. reflexivity. Qed.
Example C33_example_names : NoEmptyComponent $"c/d/e".
Proof.
  split; [|split].
  - apply contains_false. vm_compute. reflexivity.
  - discriminate.
  - intros t E. change $"c/d/e" with ($"c/d/" ++ [101%N]) in E.
    apply app_inj_tail in E as [_ E]. discriminate.
Qed.
(** Empty components are listed differently. *)
Theorem C33_any_names_refuted : exists m : list (str * nat),
  NoDup (map fst m) /\ ~ Permutation (walk_full_names (from_map m)) (map fst m).
Proof.
  exists [($"a/", 1)]. split; [repeat constructor; intros []|].
  intros H. apply Permutation_length_1_inv in H. vm_compute in H. discriminate.
Qed.

(** The tree has the mapping it was made from, and so has the tree that is made
    from its nodes alone or whose mapping is made anew. *)
Lemma od_get_iff : forall {A} (d : list (str * A)) k v, NoDup (map fst d) -> (od_get k d = Some v <-> In (k, v) d).
Proof. intros A d k v H. split; [apply od_get_In|intros; now apply od_get_NoDup]. Qed.
Lemma updated_map : forall {A} (m l : list (str * A)), NoDup (map fst m) -> Permutation l m ->
  forall k, od_get k (od_update [] l) = od_get k m.
Proof.
  intros A m l Hm Hl k.
  assert (Hn : NoDup (map fst (rev l))).
  { rewrite map_rev. apply NoDup_rev. eapply Permutation_NoDup; [apply Permutation_map, Permutation_sym, Hl|exact Hm]. }
  assert (HI : forall v, od_get k (rev l) = Some v <-> od_get k m = Some v).
  { intros v. rewrite !od_get_iff by assumption. rewrite <- in_rev.
    split; apply Permutation_in; [exact Hl|apply Permutation_sym, Hl]. }
  rewrite od_get_update. destruct (od_get k (rev l)) as [v|] eqn:E1, (od_get k m) as [w|] eqn:E2; cbn; auto.
  - specialize (HI v). destruct HI as [HI _]. specialize (HI eq_refl). congruence.
  - specialize (HI v). destruct HI as [HI _]. specialize (HI eq_refl). discriminate.
  - specialize (HI w). destruct HI as [_ HI]. specialize (HI eq_refl). discriminate.
Qed.
Theorem C33_the_tree_maps_the_same : forall {A} (m : list (str * A)) name,
  NoDup (map fst m) -> (forall name c, In (name, c) m -> NoEmptyComponent name) ->
  (forall c, get_collection (tree_of_map m) name = Some c <-> In (name, c) m) /\
  get_collection_names (tree_of_map m) = map fst m /\
  get_collection (update_file_map (tree_of_map m)) name = get_collection (tree_of_map m) name /\
  get_collection (make_tree (t_root (tree_of_map m)) []) name = get_collection (tree_of_map m) name /\
  Permutation (get_collection_names (make_tree (t_root (tree_of_map m)) [])) (map fst m).
Proof.
  intros A m name Hm He.
  assert (HT : t_map (tree_of_map m) = m /\ t_root (tree_of_map m) = from_map m) by (destruct m; split; reflexivity).
  destruct HT as [HT HR]. pose proof (from_map_walk m Hm He) as HW.
  unfold get_collection, get_collection_names, update_file_map, make_tree. cbn [t_map t_root].
  rewrite HT, HR. split; [intros c; now apply od_get_iff|]. split; [reflexivity|].
  split; [now apply updated_map|]. split; [now apply updated_map|].
  apply NoDup_Permutation; [apply od_update_NoDup; constructor|exact Hm|].
  intros k. pose proof (updated_map m _ Hm HW k) as HK.
  split; intros Hin.
  - destruct (od_get k m) as [v|] eqn:Ev; [apply od_get_In in Ev; apply (in_map fst) in Ev; exact Ev|].
    apply od_get_None in HK. contradiction.
  - destruct (od_get k (od_update [] (walk_items (from_map m)))) as [v|] eqn:Ev; [apply od_get_In in Ev; apply (in_map fst) in Ev; exact Ev|].
    symmetry in HK. apply od_get_None in HK. contradiction.
Qed.
Example C33_tree_example :
  t_map (make_tree (t_root (tree_of_map [($"a/b", 1); ($"a", 2); ($"c/d/e", 3)])) []) =
    [($"a", 2); ($"a/b", 1); ($"c/d/e", 3)].
Proof. vm_compute. reflexivity. Qed.
(** With an empty component a name of the mapping is lost when it is made anew. *)
Theorem C33_made_anew_refuted : exists m : list (str * nat), NoDup (map fst m) /\
  get_collection (tree_of_map m) $"a/" = Some 1 /\
  get_collection (update_file_map (tree_of_map m)) $"a/" = None.
Proof.
  exists [($"a/", 1)]. split; [repeat constructor; intros []|]. split; vm_compute; reflexivity.
Qed.

(** What the tree maps a name to: the last definition under a prefix and name
    that make it, slashes at the ends apart. *)
Theorem C39_last_definition_counts : forall P fs roots name c,
  In (name, c) (build_map P fs roots) <->
  LastNamed (Definitions (mappingify P fs) roots) name c.
Proof. exact build_map_spec. Qed.

(** No definition is lost: its name is present. *)
Theorem C39_every_definition_has_its_name : forall P fs roots prefix n c0,
  In (prefix, n, c0) (Definitions (mappingify P fs) roots) ->
  exists name c, SlashTrimmed (prefix ++ [slash] ++ n) name /\ In (name, c) (build_map P fs roots).
Proof.
  intros P fs roots prefix n c0 H. exists (combine_name_parts prefix n).
  destruct (od_get (combine_name_parts prefix n) (build_map P fs roots)) as [c|] eqn:E.
  - exists c. split; [apply combine_trimmed|now apply od_get_In].
  - exfalso. rewrite build_map_update, od_get_update in E.
    destruct (od_get (combine_name_parts prefix n) (rev (map qualified_def _))) eqn:E2; [discriminate|].
    apply od_get_None in E2. apply E2. apply in_map_iff.
    exists (combine_name_parts prefix n, c0). split; [reflexivity|]. apply -> in_rev.
    apply in_map_iff. exists (prefix, n, c0). auto.
Qed.

(** A name defined by one definition only has that one's collection. *)
Theorem C39_defined_once : forall P fs roots prefix n c0 name,
  In (prefix, n, c0) (Definitions (mappingify P fs) roots) ->
  SlashTrimmed (prefix ++ [slash] ++ n) name ->
  (forall prefix' n' c', In (prefix', n', c') (Definitions (mappingify P fs) roots) ->
     SlashTrimmed (prefix' ++ [slash] ++ n') name -> c' = c0) ->
  In (name, c0) (build_map P fs roots).
Proof.
  intros P fs roots prefix n c0 name H Ht Honly.
  destruct (C39_every_definition_has_its_name _ _ _ _ _ _ H) as (name' & c & Ht' & Hin).
  pose proof (SlashTrimmed_unique _ _ _ Ht Ht') as <-.
  pose proof (proj1 (build_map_spec P fs roots name c) Hin) as (d1 & p & m & d2 & E & Hs & _).
  assert (c = c0) as <-; [|assumption]. apply (Honly p m); [|assumption].
  rewrite E. apply in_or_app. right. now left.
Qed.

(** Prefixes: "prefix/name", or the name alone for the empty prefix. *)
Theorem C39_prefix : forall a b name,
  (forall t, a <> slash :: t) -> (forall t, b <> t ++ [slash]) -> a <> [] -> b <> [] ->
  (SlashTrimmed (a ++ [slash] ++ b) name <-> name = a ++ [slash] ++ b).
Proof.
  intros a b name H1 H2 H3 H4. rewrite combine_iff, combine_plain by assumption. split; congruence.
Qed.
Theorem C39_empty_prefix : forall b name,
  (forall t, b <> slash :: t) -> (forall t, b <> t ++ [slash]) ->
  (SlashTrimmed ([slash] ++ b) name <-> name = b).
Proof.
  intros b name H1 H2. change ([slash] ++ b) with ([] ++ [slash] ++ b).
  rewrite combine_iff, combine_nil_l by assumption. split; congruence.
Qed.

Definition item (s : str) : witem := {| w_content := s; w_weight_opt := None |}.
Definition fs0 : fsnode := FDir
  [($"r1", FDir [($"a.txt", FFile $"one"); ($".git", FDir [($"h.txt", FFile $"no")]);
                 ($"sub", FDir [($"b.txt", FFile $"two"); ($"c.json", FFile $"J");
                                ($"notes.md", FFile $"x")])]);
   ($"r2", FDir [($"a.txt", FFile $"three")])].
Definition roots0 : root_map :=
  [([], [RPath [$"r1"]; RMap [($"m", [item $"v"])]]); ([], [RPath [$"r2"]]); ($"p", [RPath [$"r2"]])].

Example C39_example :
  build_map lib0 fs0 roots0
  = [($"a", CText [$"r2"; $"a.txt"] None); ($"sub/b", CText [$"r1"; $"sub"; $"b.txt"] None);
     ($"sub/warm", CList [item $"red"]); ($"m", CList [item $"v"]);
     ($"p/a", CText [$"r2"; $"a.txt"] None)].
Proof. vm_compute. reflexivity. Qed.
(** Prefix "a/" and name "b" make "a//b", which no cleaned wildcard equals. *)
Example C39_slash_prefix :
  build_map lib0 fs0 [($"p/", [RPath [$"r2"]])] = [($"p//a", CText [$"r2"; $"a.txt"] None)].
Proof. vm_compute. reflexivity. Qed.

(** C49: scanning a directory. *)
Theorem C49_scan : forall es dir file content,
  In (dir, file, content) (os_walk [] (FDir es)) <-> VisibleFile es dir file content.
Proof.
  intros es dir file content. rewrite os_walk_spec. unfold VisibleFile. split.
  - intros (rel & -> & H). exact H.
  - intros H. exists dir. auto.
Qed.
Theorem C49_text_collections_are_visible_files : forall P root es name path cache,
  In (name, CText path cache) (build_map_from_path P root (FDir es)) ->
  exists dir f stem content, VisibleFile es dir f content /\ HasSuffix f stem $".txt" /\
    path = root ++ dir ++ [f] /\ cache = None /\ name = interleave [slash] (dir ++ [stem]).
Proof. exact dir_text_collections. Qed.
Theorem C49_text_files_found : forall P root es dir f stem content,
  VisibleFile es dir f content -> HasSuffix f stem $".txt" ->
  exists c, In (interleave [slash] (dir ++ [stem]), c) (build_map_from_path P root (FDir es)).
Proof. exact dir_text_found. Qed.
(** Of several files defining a name, the last one scanned counts. *)
Theorem C49_last_file_counts : forall P root n name c,
  In (name, c) (build_map_from_path P root n) <->
  LastDef (flat_map (fun f => collections_from_path P root (fst (fst f)) (snd (fst f)) (snd f))
             (os_walk [] n)) name c.
Proof.
  intros P root n name c. rewrite build_map_from_path_spec.
  assert (E : flat_map (file_defs P root) (os_walk [] n)
    = flat_map (fun f => collections_from_path P root (fst (fst f)) (snd (fst f)) (snd f)) (os_walk [] n)).
  { apply flat_map_ext. intros [[dir f] content]. reflexivity. }
  now rewrite E.
Qed.
Example C49_example :
  VisibleFile [($"sub", FDir [($"b.txt", FFile $"two")])] [$"sub"] $"b.txt" $"two" /\
  HasSuffix $"b.txt" $"b" $".txt".
Proof.
  split; [split|].
  - econstructor; [now left|]. econstructor; [now left|]. constructor.
  - constructor; [|constructor]. intros [t H]. discriminate.
  - split; [reflexivity|]. split; [discriminate|]. exists $"txt". split; [reflexivity|].
    split; [discriminate|]. cbn. intros H. repeat (destruct H as [H|H]; [discriminate|]). exact H.
Qed.

Print Assumptions C33_walk_lists_the_mapping.
Print Assumptions C33_full_names.
Print Assumptions C33_names_distinct.
Print Assumptions C33_any_names_refuted.
Print Assumptions C33_the_tree_maps_the_same.
Print Assumptions C33_made_anew_refuted.
Print Assumptions C39_last_definition_counts.
Print Assumptions C39_every_definition_has_its_name.
Print Assumptions C39_defined_once.
Print Assumptions C39_prefix.
Print Assumptions C39_empty_prefix.
Print Assumptions C49_scan.
Print Assumptions C49_text_collections_are_visible_files.
Print Assumptions C49_text_files_found.
Print Assumptions C49_last_file_counts.
