From Coq Require Import String NArith ZArith QArith Qcanon Bool Arith List Permutation Lia.
From Verif.Model Require Import Str Utils Rng Values Context Names Structured TextFile Tree.
From Verif.Spec Require Import Text Names Files Tree.
From Verif.Proofs Require Import StrFacts UtilsFacts NamesFacts TreeFacts.
Import ListNotations.
Local Open Scope nat_scope.

Section Build.
Variable P : pylib.

(** * The root map *)
Definition qualified_def (d : str * str * coll) : str * coll :=
  match d with (root, n, c) => (combine_name_parts root n, c) end.

Lemma build_map_update : forall fs roots,
  build_map P fs roots
  = od_update [] (map qualified_def (Definitions (mappingify P fs) roots)).
Proof.
  intros fs roots. unfold build_map, Definitions. generalize (@nil (str * coll)).
  induction roots as [|[root items] roots IH]; intros acc; [reflexivity|].
  cbn [fold_left flat_map fst snd]. rewrite map_app, od_update_app, <- IH. f_equal. clear IH.
  revert acc. induction items as [|item items IH]; intros acc; [reflexivity|].
  cbn [fold_left flat_map]. rewrite map_app, od_update_app, <- IH. f_equal. clear IH.
  rewrite map_map. unfold od_update. cbn [qualified_def].
  generalize (mappingify P fs item). intros l. revert acc.
  induction l as [|[n c] l IH]; intros acc; [reflexivity|]. cbn. apply IH.
Qed.

Lemma build_map_NoDup : forall fs roots, NoDup (map fst (build_map P fs roots)).
Proof. intros. rewrite build_map_update. apply od_update_NoDup. constructor. Qed.

Lemma combine_iff : forall a b n,
  SlashTrimmed (a ++ [slash] ++ b) n <-> combine_name_parts a b = n.
Proof.
  intros a b n. split.
  - intros H. eapply SlashTrimmed_unique; [apply combine_trimmed|exact H].
  - intros <-. apply combine_trimmed.
Qed.

Lemma LastDef_map : forall defs name c,
  LastDef (map qualified_def defs) name c <-> LastNamed defs name c.
Proof.
  intros defs name c. split.
  - intros (d1 & d2 & E & Hn).
    apply map_eq_app in E as (e1 & e2 & -> & E1 & E2).
    destruct e2 as [|[[root n] c'] e2]; [discriminate|]. cbn in E2.
    injection E2 as Ename Ec E2. subst.
    exists e1, root, n, e2. split; [reflexivity|]. split; [apply combine_trimmed|].
    intros root' n' c'' Hin Ht. apply combine_iff in Ht. apply Hn.
    apply (in_map qualified_def) in Hin. apply (in_map fst) in Hin.
    cbn [qualified_def fst] in Hin. now rewrite Ht in Hin.
  - intros (d1 & root & n & d2 & -> & Ht & Hlast). apply combine_iff in Ht.
    exists (map qualified_def d1), (map qualified_def d2). split.
    + rewrite map_app. cbn [map qualified_def]. now rewrite Ht.
    + intros Hin. apply in_map_iff in Hin as (x & Ex & Hin).
      apply in_map_iff in Hin as ([[root' n'] c'] & <- & Hin). cbn in Ex.
      eapply Hlast; [exact Hin|]. now apply combine_iff.
Qed.

Lemma build_map_spec : forall fs roots name c,
  In (name, c) (build_map P fs roots) <->
  LastNamed (Definitions (mappingify P fs) roots) name c.
Proof. intros. rewrite build_map_update, od_update_LastDef. apply LastDef_map. Qed.

(** * Directories *)
Lemma os_walk_eq : forall dir es, os_walk dir (FDir es) =
  flat_map (fun e => match snd e with
                     | FFile content => [(dir, fst e, content)]
                     | FDir _ => []
                     end) es ++
  flat_map (fun e => if startswith (fst e) $"." then [] else os_walk (dir ++ [fst e]) (snd e)) es.
Proof.
  intros dir es. cbn [os_walk]. f_equal.
  induction es as [|[name child] es IH]; cbn [flat_map]; [reflexivity|]. cbn [fst snd].
  now rewrite IH.
Qed.

Fixpoint fsnode_ind' (Q : fsnode -> Prop) (Hf : forall c, Q (FFile c))
    (Hd : forall es, Forall (fun e => Q (snd e)) es -> Q (FDir es)) (n : fsnode) : Q n :=
  match n with
  | FFile c => Hf c
  | FDir es =>
      Hd es ((fix go (es : list (str * fsnode)) : Forall (fun e => Q (snd e)) es :=
                match es with
                | [] => Forall_nil _
                | e :: es' => Forall_cons e (fsnode_ind' Q Hf Hd (snd e)) (go es')
                end) es)
  end.

Lemma startswith_dot : forall name, startswith name $"." = true <-> Hidden name.
Proof. intros name. rewrite startswith_spec. reflexivity. Qed.

Lemma os_walk_spec : forall n pre dir file content,
  In (dir, file, content) (os_walk pre n) <->
  exists rel, dir = pre ++ rel /\ FileAt n (rel ++ [file]) content /\
    Forall (fun d => ~ Hidden d) rel.
Proof.
  apply (fsnode_ind' (fun n => forall pre dir file content,
    In (dir, file, content) (os_walk pre n) <->
    exists rel, dir = pre ++ rel /\ FileAt n (rel ++ [file]) content /\
      Forall (fun d => ~ Hidden d) rel)).
  - intros c pre dir file content. split; [intros []|].
    intros (rel & _ & H & _). inversion H as [? E0 E1|]; subst. destruct rel; discriminate.
  - intros es IH pre dir file content. rewrite os_walk_eq, in_app_iff, !in_flat_map. split.
    + intros [([name [c|es']] & Hin & H)|([name child] & Hin & H)]; cbn [fst snd] in H.
      * destruct H as [E|[]]. injection E as <- <- <-. exists []. rewrite app_nil_r.
        split; [reflexivity|]. split; [|constructor]. cbn. econstructor; [exact Hin|constructor].
      * destruct H.
      * destruct (startswith name $".") eqn:Es; [destruct H|].
        rewrite Forall_forall in IH. apply (IH _ Hin) in H as (rel & -> & Hf & Hh).
        exists (name :: rel). rewrite <- app_assoc. split; [reflexivity|]. split.
        -- cbn. econstructor; [exact Hin|exact Hf].
        -- constructor; [|assumption]. intros Hd. apply startswith_dot in Hd. congruence.
    + intros (rel & -> & Hf & Hh). destruct rel as [|d rel].
      * left. cbn in Hf. inversion Hf as [|? ? n ? ? Hin Hf']; subst.
        inversion Hf'; subst. exists (file, FFile content). split; [assumption|].
        cbn. left. now rewrite app_nil_r.
      * right. cbn in Hf. inversion Hf as [|? ? n ? ? Hin Hf']; subst.
        inversion Hh as [|? ? Hd Hh']; subst.
        exists (d, n). split; [assumption|]. cbn [fst snd].
        destruct (startswith d $".") eqn:Es; [apply startswith_dot in Es; tauto|].
        rewrite Forall_forall in IH. apply (IH _ Hin). exists rel. rewrite <- app_assoc. auto.
Qed.

(** File name extensions. *)
Lemma rfind_dot_spec : forall s, match rfind_dot s with
  | Some (a, b) => s = a ++ b /\ exists e, b = 46%N :: e /\ ~ In 46%N e
  | None => ~ In 46%N s
  end.
Proof.
  induction s as [|c s IH]; cbn [rfind_dot]; [intros []|].
  destruct (rfind_dot s) as [[a b]|].
  - destruct IH as (-> & e & -> & H). split; [reflexivity|]. now exists e.
  - destruct (N.eqb_spec c 46) as [->|Hc].
    + split; [reflexivity|]. now exists s.
    + intros [E|H]; [congruence|tauto].
Qed.

Lemma last_dot_unique : forall a e a' e', a ++ 46%N :: e = a' ++ 46%N :: e' ->
  ~ In 46%N e -> ~ In 46%N e' -> a = a' /\ e = e'.
Proof.
  induction a as [|c a IH]; intros e a' e' E H H'; destruct a' as [|d a']; cbn in E.
  - injection E as ->. auto.
  - injection E as _ ->. exfalso. apply H. apply in_app_iff. right. now left.
  - injection E as _ <-. exfalso. apply H'. apply in_app_iff. right. now left.
  - injection E as -> E. destruct (IH _ _ _ E H H') as [-> ->]. auto.
Qed.

Lemma split_suffix_has : forall name stem suffix, HasSuffix name stem suffix ->
  split_suffix name = (stem, suffix).
Proof.
  intros name stem suffix (-> & Hs & ext & -> & He & Hd). unfold split_suffix.
  pose proof (rfind_dot_spec (stem ++ 46%N :: ext)) as H.
  destruct (rfind_dot (stem ++ 46%N :: ext)) as [[a b]|].
  - destruct H as (E & e & -> & Hd'). destruct (last_dot_unique _ _ _ _ E Hd Hd') as [<- <-].
    destruct stem; [congruence|]. destruct ext; [congruence|reflexivity].
  - exfalso. apply H. apply in_app_iff. right. now left.
Qed.

Lemma split_suffix_inv : forall name stem suffix, split_suffix name = (stem, suffix) ->
  suffix <> [] -> HasSuffix name stem suffix.
Proof.
  intros name stem suffix H Hne. unfold split_suffix in H.
  pose proof (rfind_dot_spec name) as Hr.
  destruct (rfind_dot name) as [[a b]|]; [|injection H as _ <-; congruence].
  destruct Hr as (-> & e & -> & Hd).
  destruct a as [|c a]; [injection H as _ <-; congruence|].
  destruct e as [|d e]; [injection H as _ <-; congruence|].
  injection H as <- <-. split; [reflexivity|]. split; [congruence|].
  exists (d :: e). repeat split; auto. congruence.
Qed.

Lemma file_name_snoc : forall dir x,
  file_name_from_path (dir ++ [x]) = interleave [slash] (dir ++ [fst (split_suffix x)]).
Proof.
  intros dir x. unfold file_name_from_path.
  assert (E : drop_suffix (dir ++ [x]) = dir ++ [fst (split_suffix x)]).
  { induction dir as [|y dir IH]; [reflexivity|]. cbn [app drop_suffix].
    destruct (dir ++ [x]) as [|z l] eqn:El; [destruct dir; discriminate|].
    rewrite IH. reflexivity. }
  destruct (dir ++ [x]) as [|z l] eqn:El; [destruct dir; discriminate|].
  rewrite <- El in *. rewrite E. apply join_interleave.
Qed.

(** What one file defines. *)
Definition file_defs (root : list str) (f : list str * str * str) : list (str * coll) :=
  match f with (dir, filename, content) => collections_from_path P root dir filename content end.

Lemma build_map_from_path_update : forall root n,
  build_map_from_path P root n = od_update [] (flat_map (file_defs root) (os_walk [] n)).
Proof.
  intros root n. unfold build_map_from_path. rewrite <- od_update_flat_map.
  generalize (@nil (str * coll)). generalize (os_walk [] n). intros l.
  induction l as [|[[dir f] c] l IH]; intros acc; [reflexivity|]. cbn [fold_left]. apply IH.
Qed.

Lemma build_map_from_path_spec : forall root n name c,
  In (name, c) (build_map_from_path P root n) <->
  LastDef (flat_map (file_defs root) (os_walk [] n)) name c.
Proof. intros. rewrite build_map_from_path_update. apply od_update_LastDef. Qed.

Lemma LastDef_In : forall {A} (defs : list (str * A)) name c,
  LastDef defs name c -> In (name, c) defs.
Proof. intros A defs name c (d1 & d2 & -> & _). apply in_app_iff. right. now left. Qed.

(** Text collections of a file: only .txt files, named by their place. *)
Lemma collections_text : forall root dir f content name path cache,
  In (name, CText path cache) (collections_from_path P root dir f content) <->
  exists stem, HasSuffix f stem $".txt" /\ path = root ++ dir ++ [f] /\ cache = None /\
    name = interleave [slash] (dir ++ [stem]).
Proof.
  intros root dir f content name path cache. unfold collections_from_path.
  destruct (split_suffix f) as [stem suffix] eqn:Es. cbn [fst snd].
  assert (Hstr : forall data,
    ~ In (name, CText path cache)
      (match data with
       | None => []
       | Some d => map (fun nc : str * list witem =>
                 ((match file_name_from_path dir with [] => [] | _ => file_name_from_path dir ++ $"/" end)
                  ++ fst nc, CList (snd nc))) (parse_data P stem d)
       end)).
  { intros [d|]; [|intros []]. intros H. apply in_map_iff in H as (x & E & _). discriminate. }
  destruct (str_eqb_spec suffix $".txt") as [->|Hn].
  - split.
    + intros [E|[]]. injection E as <- <- <-. exists stem.
      split; [apply split_suffix_inv; [assumption|discriminate]|]. repeat split.
      rewrite file_name_snoc, Es. reflexivity.
    + intros (stem' & Hs & -> & -> & ->). apply split_suffix_has in Hs. rewrite Es in Hs.
      injection Hs as <-. left. rewrite file_name_snoc, Es. reflexivity.
  - split.
    + intros H. exfalso. destruct (str_eqb suffix $".json"); [eapply (Hstr (py_json P content)); exact H|].
      destruct (str_eqb suffix $".yaml"); [eapply (Hstr (py_yaml P content)); exact H|destruct H].
    + intros (stem' & Hs & _). apply split_suffix_has in Hs. rewrite Es in Hs. injection Hs as _ E.
      exfalso. apply Hn. exact E.
Qed.

(** Every text collection found below a directory. *)
Lemma dir_text_collections : forall root es name path cache,
  In (name, CText path cache) (build_map_from_path P root (FDir es)) ->
  exists dir f stem content, VisibleFile es dir f content /\ HasSuffix f stem $".txt" /\
    path = root ++ dir ++ [f] /\ cache = None /\ name = interleave [slash] (dir ++ [stem]).
Proof.
  intros root es name path cache H. apply build_map_from_path_spec, LastDef_In in H.
  apply in_flat_map in H as ([[dir f] content] & Hin & H). cbn [file_defs] in H.
  apply os_walk_spec in Hin as (rel & -> & Hf & Hh). cbn [app] in *.
  apply collections_text in H as (stem & Hs & -> & -> & ->).
  exists rel, f, stem, content. unfold VisibleFile. auto 7.
Qed.

(** Every visible text file is found. *)
Lemma dir_text_found : forall root es dir f stem content,
  VisibleFile es dir f content -> HasSuffix f stem $".txt" ->
  exists c, In (interleave [slash] (dir ++ [stem]), c) (build_map_from_path P root (FDir es)).
Proof.
  intros root es dir f stem content [Hf Hh] Hs.
  assert (Hin : In (interleave [slash] (dir ++ [stem]), CText (root ++ dir ++ [f]) None)
                   (flat_map (file_defs root) (os_walk [] (FDir es)))).
  { apply in_flat_map. exists (dir, f, content). split.
    - apply os_walk_spec. exists dir. auto.
    - cbn [file_defs]. apply collections_text. exists stem. auto. }
  destruct (od_get (interleave [slash] (dir ++ [stem])) (build_map_from_path P root (FDir es)))
    as [c|] eqn:E.
  - exists c. now apply od_get_In.
  - exfalso. rewrite build_map_from_path_update, od_get_update in E.
    destruct (od_get (interleave [slash] (dir ++ [stem]))
               (rev (flat_map (file_defs root) (os_walk [] (FDir es))))) eqn:E2; [discriminate|].
    apply od_get_None in E2. apply E2. apply in_map_iff.
    eexists. split; [|apply -> in_rev; exact Hin]. reflexivity.
Qed.

(** * Files exist *)
Lemma fs_get_FileAt : forall n, UniqueNames n -> forall path c,
  fs_get path n = Some (FFile c) <-> FileAt n path c.
Proof.
  intros n H path c. revert n H. induction path as [|p path IH]; intros n H.
  - cbn. split.
    + intros E. injection E as ->. constructor.
    + intros F. now inversion F.
  - cbn [fs_get]. destruct n as [c0|es].
    + split; [discriminate|]. intros F; inversion F.
    + inversion H as [|? Hnd Hch]; subst. split.
      * destruct (od_get p es) as [n|] eqn:E; [|discriminate]. intros Hg.
        apply od_get_In in E. econstructor; [exact E|]. apply IH; [eauto|exact Hg].
      * intros F. inversion F as [|? ? n ? ? Hin F']; subst.
        apply (proj2 (od_get_NoDup p n es Hnd)) in Hin. rewrite Hin.
        apply IH; [|exact F']. exact (Hch p n (od_get_In _ _ _ Hin)).
Qed.

Lemma FileAt_app : forall n path es, UniqueNames n -> fs_get path n = Some (FDir es) ->
  forall rel c, FileAt (FDir es) rel c -> FileAt n (path ++ rel) c.
Proof.
  intros n path. revert n. induction path as [|p path IH]; intros n es H Hg rel c F.
  - cbn in Hg. injection Hg as ->. exact F.
  - cbn [fs_get] in Hg. destruct n as [c0|es0]; [discriminate|].
    destruct (od_get p es0) as [n|] eqn:E; [|discriminate]. apply od_get_In in E.
    cbn [app]. econstructor; [exact E|]. inversion H as [|? _ Hch]; subst.
    eapply IH; eauto.
Qed.

(** Every text collection of the whole tree stands for an existing file below
    one of the root directories. *)
Lemma build_map_text : forall fs roots name path cache,
  In (name, CText path cache) (build_map P fs roots) ->
  cache = None /\
  exists prefix items root es dir f stem content,
    In (prefix, items) roots /\ In (RPath root) items /\ fs_get root fs = Some (FDir es) /\
    VisibleFile es dir f content /\ HasSuffix f stem $".txt" /\ path = root ++ dir ++ [f] /\
    SlashTrimmed (prefix ++ [slash] ++ interleave [slash] (dir ++ [stem])) name.
Proof.
  intros fs roots name path cache H. apply build_map_spec in H.
  destruct H as (d1 & root & n & d2 & E & Ht & _).
  assert (Hin : In (root, n, CText path cache) (Definitions (mappingify P fs) roots)).
  { rewrite E. apply in_app_iff. right. now left. }
  unfold Definitions in Hin. apply in_flat_map in Hin as ([prefix items] & Hr & Hin).
  apply in_flat_map in Hin as (item & Hi & Hin). cbn [fst snd] in *.
  apply in_map_iff in Hin as ([n' c'] & E' & Hin). cbn in E'. injection E' as <- <- Ec. subst c'.
  destruct item as [p|m]; cbn [mappingify] in Hin.
  - destruct (fs_get p fs) as [[c0|es]|] eqn:Eg; try destruct Hin.
    apply dir_text_collections in Hin as (dir & f & stem & content & Hv & Hs & -> & -> & ->).
    split; [reflexivity|]. exists prefix, items, p, es, dir, f, stem, content. auto 8.
  - apply in_map_iff in Hin as (x & Ex & _). discriminate.
Qed.

Lemma build_map_text_exists : forall fs roots name path cache, UniqueNames fs ->
  In (name, CText path cache) (build_map P fs roots) ->
  exists content, fs_get path fs = Some (FFile content).
Proof.
  intros fs roots name path cache Hu H.
  apply build_map_text in H as (_ & prefix & items & root & es & dir & f & stem & content
    & _ & _ & Hg & [Hf _] & _ & -> & _).
  exists content. apply fs_get_FileAt; [assumption|]. eapply FileAt_app; eauto.
Qed.
End Build.
