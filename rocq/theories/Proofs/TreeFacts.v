From Coq Require Import String NArith ZArith QArith Qcanon Bool Arith List Permutation Lia.
From Verif.Model Require Import Str Utils Rng Values Context Names Structured TextFile Tree.
From Verif.Spec Require Import Text Names Files Tree.
From Verif.Proofs Require Import StrFacts UtilsFacts NamesFacts.
Import ListNotations.
Local Open Scope nat_scope.

(** * Ordered dictionaries *)
Section Od.
Context {A : Type}.

Lemma od_get_In : forall k (d : list (str * A)) v, od_get k d = Some v -> In (k, v) d.
Proof.
  induction d as [|[k' v'] d IH]; cbn; intros v H; [discriminate|].
  destruct (str_eqb_spec k k') as [<-|_]; [injection H as <-; now left|right; auto].
Qed.

Lemma od_get_None : forall k (d : list (str * A)), od_get k d = None <-> ~ In k (map fst d).
Proof.
  induction d as [|[k' v'] d IH]; cbn; [tauto|].
  destruct (str_eqb_spec k k') as [<-|H].
  - split; [discriminate|]. intros F. exfalso. apply F. now left.
  - rewrite IH. intuition.
Qed.

Lemma od_get_NoDup : forall k v (d : list (str * A)), NoDup (map fst d) ->
  (od_get k d = Some v <-> In (k, v) d).
Proof.
  intros k v d H. split; [apply od_get_In|].
  induction d as [|[k' v'] d IH]; cbn; intros Hin; [destruct Hin|].
  inversion H as [|? ? Hk Hd]; subst. destruct Hin as [E|Hin].
  - injection E as -> ->. now rewrite str_eqb_refl.
  - destruct (str_eqb_spec k k') as [<-|_]; [|auto].
    exfalso. apply Hk. apply (in_map fst) in Hin. exact Hin.
Qed.

Lemma od_get_set_same : forall k v (d : list (str * A)), od_get k (od_set k v d) = Some v.
Proof.
  induction d as [|[k' v'] d IH]; cbn; [now rewrite str_eqb_refl|].
  destruct (str_eqb k k') eqn:E; cbn; rewrite E; auto.
Qed.

Lemma od_get_set_other : forall k k' v (d : list (str * A)), k <> k' ->
  od_get k (od_set k' v d) = od_get k d.
Proof.
  induction d as [|[k2 v2] d IH]; cbn; intros H.
  - destruct (str_eqb_spec k k'); congruence.
  - destruct (str_eqb_spec k' k2) as [<-|H2]; cbn.
    + destruct (str_eqb_spec k k'); [congruence|reflexivity].
    + destruct (str_eqb k k2); auto.
Qed.

Lemma od_set_absent : forall k v (d : list (str * A)), ~ In k (map fst d) ->
  od_set k v d = d ++ [(k, v)].
Proof.
  induction d as [|[k' v'] d IH]; cbn; intros H; [reflexivity|].
  destruct (str_eqb_spec k k') as [<-|_]; [exfalso; apply H; now left|].
  f_equal. apply IH. tauto.
Qed.

Lemma od_set_present : forall k v v0 (d : list (str * A)), od_get k d = Some v0 ->
  exists d1 d2, d = d1 ++ (k, v0) :: d2 /\ ~ In k (map fst d1) /\
    od_set k v d = d1 ++ (k, v) :: d2.
Proof.
  induction d as [|[k' v'] d IH]; cbn; intros H; [discriminate|].
  destruct (str_eqb_spec k k') as [<-|Hk].
  - injection H as ->. exists [], d. repeat split; auto.
  - destruct (IH H) as (d1 & d2 & -> & Hn & ->). exists ((k', v') :: d1), d2.
    repeat split; auto. cbn. intuition.
Qed.

Lemma od_set_keys : forall k v (d : list (str * A)) x,
  In x (map fst (od_set k v d)) <-> x = k \/ In x (map fst d).
Proof.
  intros k v d x. destruct (od_get k d) as [v0|] eqn:E.
  - destruct (od_set_present k v v0 d E) as (d1 & d2 & -> & _ & ->).
    rewrite !map_app, !in_app_iff. cbn. intuition.
  - apply od_get_None in E. rewrite od_set_absent by assumption.
    rewrite map_app, in_app_iff. cbn. intuition.
Qed.

Lemma od_set_NoDup : forall k v (d : list (str * A)), NoDup (map fst d) ->
  NoDup (map fst (od_set k v d)).
Proof.
  intros k v d H. destruct (od_get k d) as [v0|] eqn:E.
  - destruct (od_set_present k v v0 d E) as (d1 & d2 & -> & _ & ->).
    rewrite !map_app in *. exact H.
  - apply od_get_None in E. rewrite od_set_absent by assumption.
    rewrite map_app. cbn. eapply Permutation_NoDup; [apply Permutation_cons_append|].
    now constructor.
Qed.

Lemma od_set_length : forall k v (d : list (str * A)), length (od_set k v d) <= S (length d).
Proof.
  intros k v d. destruct (od_get k d) as [v0|] eqn:E.
  - destruct (od_set_present k v v0 d E) as (d1 & d2 & -> & _ & ->).
    rewrite !app_length. cbn. lia.
  - apply od_get_None in E. rewrite od_set_absent by assumption. rewrite app_length. cbn. lia.
Qed.

(** [update]: the last definition wins. *)
Lemma od_update_snoc : forall (d l : list (str * A)) k v,
  od_update d (l ++ [(k, v)]) = od_set k v (od_update d l).
Proof. intros. unfold od_update. now rewrite fold_left_app. Qed.

Lemma od_update_NoDup : forall (l d : list (str * A)), NoDup (map fst d) ->
  NoDup (map fst (od_update d l)).
Proof.
  unfold od_update. induction l as [|[k v] l IH]; cbn; intros d H; [assumption|].
  apply IH. now apply od_set_NoDup.
Qed.

Lemma od_get_update : forall (l d : list (str * A)) k,
  od_get k (od_update d l) =
  match od_get k (rev l) with Some v => Some v | None => od_get k d end.
Proof.
  intros l. induction l as [|[k0 v0] l IH] using rev_ind; intros d k; [reflexivity|].
  rewrite od_update_snoc, rev_app_distr. cbn [rev app od_get].
  destruct (str_eqb_spec k k0) as [->|H].
  - now rewrite od_get_set_same.
  - rewrite od_get_set_other by assumption. apply IH.
Qed.

Lemma od_get_rev_LastDef : forall (l : list (str * A)) k v,
  od_get k (rev l) = Some v <-> LastDef l k v.
Proof.
  intros l k v. induction l as [|[k0 v0] l IH] using rev_ind.
  - cbn. split; [discriminate|]. intros (d1 & d2 & E & _). destruct d1; discriminate.
  - rewrite rev_app_distr. cbn [rev app od_get].
    destruct (str_eqb_spec k k0) as [->|H].
    + split.
      * intros E. injection E as ->. exists l, []. split; [reflexivity|intros []].
      * intros (d1 & d2 & E & Hn). destruct (rev d2) as [|x r] eqn:Er.
        -- apply (f_equal (@rev _)) in Er. rewrite rev_involutive in Er. cbn in Er. subst d2.
           apply app_inj_tail in E as [_ E]. now injection E as ->.
        -- apply (f_equal (@rev _)) in Er. rewrite rev_involutive in Er. cbn in Er. subst d2.
           change (d1 ++ (k0, v) :: rev r ++ [x]) with (d1 ++ ((k0, v) :: rev r) ++ [x]) in E.
           rewrite app_assoc in E. apply app_inj_tail in E as [_ <-].
           exfalso. apply Hn. rewrite map_app, in_app_iff. right. now left.
    + rewrite IH. split.
      * intros (d1 & d2 & -> & Hn). exists d1, (d2 ++ [(k0, v0)]). split; [now rewrite <- app_assoc|].
        rewrite map_app, in_app_iff. cbn. intuition.
      * intros (d1 & d2 & E & Hn). destruct (rev d2) as [|x r] eqn:Er.
        -- apply (f_equal (@rev _)) in Er. rewrite rev_involutive in Er. cbn in Er. subst d2.
           apply app_inj_tail in E as [_ E]. congruence.
        -- apply (f_equal (@rev _)) in Er. rewrite rev_involutive in Er. cbn in Er. subst d2.
           change (d1 ++ (k, v) :: rev r ++ [x]) with (d1 ++ ((k, v) :: rev r) ++ [x]) in E.
           rewrite app_assoc in E. apply app_inj_tail in E as [-> <-].
           exists d1, (rev r). split; [reflexivity|]. intros Hin. apply Hn.
           rewrite map_app, in_app_iff. now left.
Qed.

Lemma od_update_LastDef : forall (l : list (str * A)) k v,
  In (k, v) (od_update [] l) <-> LastDef l k v.
Proof.
  intros l k v. rewrite <- od_get_NoDup by (apply od_update_NoDup; constructor).
  rewrite od_get_update, <- od_get_rev_LastDef. destruct (od_get k (rev l)); cbn; split; congruence.
Qed.

Lemma od_update_app : forall (d l1 l2 : list (str * A)),
  od_update d (l1 ++ l2) = od_update (od_update d l1) l2.
Proof. intros. unfold od_update. now rewrite fold_left_app. Qed.

(** Nested loops that store into one dictionary. *)
Lemma od_update_flat_map : forall {B} (f : B -> list (str * A)) (l : list B) d,
  fold_left (fun acc b => od_update acc (f b)) l d = od_update d (flat_map f l).
Proof.
  intros B f. induction l as [|b l IH]; cbn [fold_left flat_map]; intros d; [reflexivity|].
  now rewrite IH, od_update_app.
Qed.
End Od.

(** * [split("/")] *)
Lemma split_char_aux_join : forall sep s cur,
  join [sep] (split_char_aux sep cur s) = rev cur ++ s.
Proof.
  intros sep s. induction s as [|c s IH]; intros cur; cbn [split_char_aux].
  - cbn. now rewrite app_nil_r.
  - destruct (N.eqb_spec c sep) as [->|_].
    + assert (Hne : split_char_aux sep [] s <> []).
      { clear IH. generalize (@nil N). induction s as [|d s IH]; intros cur'; cbn; [congruence|].
        destruct (N.eqb d sep); [congruence|apply IH]. }
      specialize (IH []). cbn in IH.
      destruct (split_char_aux sep [] s) as [|p ps] eqn:E; [congruence|].
      cbn [join] in *. rewrite IH. reflexivity.
    + rewrite IH. cbn. now rewrite <- app_assoc.
Qed.

Lemma split_char_join : forall sep s, join [sep] (split_char sep s) = s.
Proof. intros. unfold split_char. now rewrite split_char_aux_join. Qed.

Lemma split_char_aux_no_sep : forall sep s cur, ~ In sep cur ->
  Forall (fun p => ~ In sep p) (split_char_aux sep cur s).
Proof.
  intros sep s. induction s as [|c s IH]; intros cur H; cbn [split_char_aux].
  - constructor; [|constructor]. now rewrite <- in_rev.
  - destruct (N.eqb_spec c sep) as [->|Hc].
    + constructor; [now rewrite <- in_rev|]. apply IH. intros [].
    + apply IH. intros [E|Hin]; [congruence|tauto].
Qed.

Lemma split_char_no_sep : forall sep s, Forall (fun p => ~ In sep p) (split_char sep s).
Proof. intros. apply split_char_aux_no_sep. intros []. Qed.

Lemma split_char_nonempty : forall sep s, split_char sep s <> [].
Proof.
  intros sep s. unfold split_char. generalize (@nil N).
  induction s as [|d s IH]; intros cur'; cbn; [congruence|].
  destruct (N.eqb d sep); [congruence|apply IH].
Qed.

Lemma split_char_inj : forall sep a b, split_char sep a = split_char sep b -> a = b.
Proof. intros sep a b H. rewrite <- (split_char_join sep a), H. apply split_char_join. Qed.

(** Without empty components, no part is empty (unless the name is). *)
Lemma join_empty_part : forall ps, ps <> [] -> In [] ps ->
  join [slash] ps = [] \/ Contains (join [slash] ps) [slash; slash] \/
  (exists t, join [slash] ps = slash :: t) \/ (exists t, join [slash] ps = t ++ [slash]).
Proof.
  induction ps as [|p ps IH]; intros H Hin; [congruence|].
  destruct ps as [|q ps].
  - destruct Hin as [->|[]]. now left.
  - rewrite join_cons2. destruct Hin as [->|Hin].
    + right; right; left. cbn. eauto.
    + right. destruct (IH ltac:(congruence) Hin) as [E|[(a & b & E)|[[t E]|[t E]]]]; rewrite E.
      * right; right. exists p. now rewrite app_nil_r.
      * left. exists (p ++ [slash] ++ a), b. now rewrite <- !app_assoc.
      * left. exists p, t. reflexivity.
      * right; right. exists (p ++ [slash] ++ t). now rewrite <- !app_assoc.
Qed.

Lemma NoEmpty_parts : forall n, NoEmptyComponent n -> n <> [] ->
  Forall (fun p => p <> []) (split_char slash n).
Proof.
  intros n (Hd & Hh & Hl) Hn. apply Forall_forall. intros p Hp ->.
  destruct (join_empty_part _ (split_char_nonempty slash n) Hp) as [E|[E|[[t E]|[t E]]]];
    rewrite split_char_join in E; [congruence|tauto|eapply Hh; exact E|eapply Hl; exact E].
Qed.

(** * The node tree *)
Section Nodes.
Context {A : Type}.

Fixpoint node_ind' (Pn : node A -> Prop)
    (H : forall path ch co, Forall (fun kc => Pn (snd kc)) ch -> Pn (Node path ch co))
    (n : node A) : Pn n :=
  match n with
  | Node path ch co =>
      H path ch co ((fix go (ch : list (str * node A)) : Forall (fun kc => Pn (snd kc)) ch :=
                       match ch with
                       | [] => Forall_nil _
                       | kc :: ch' => Forall_cons kc (node_ind' Pn H (snd kc)) (go ch')
                       end) ch)
  end.

(** The stored collections with the list of keys leading to them. *)
Fixpoint contents (n : node A) : list (list str * A) :=
  match n with
  | Node _ ch co =>
      map (fun nc => ([fst nc], snd nc)) co ++
      (fix go (ch : list (str * node A)) : list (list str * A) :=
         match ch with
         | [] => []
         | (k, c) :: ch' => map (fun pc => (k :: fst pc, snd pc)) (contents c) ++ go ch'
         end) ch
  end.

Definition child_contents (kc : str * node A) : list (list str * A) :=
  map (fun pc => (fst kc :: fst pc, snd pc)) (contents (snd kc)).

Lemma contents_eq : forall path ch co, contents (Node path ch co) =
  map (fun nc => ([fst nc], snd nc)) co ++ flat_map child_contents ch.
Proof.
  intros path ch co. cbn [contents]. f_equal.
  induction ch as [|[k c] ch IH]; cbn; [reflexivity|]. now rewrite IH.
Qed.

Lemma walk_eq : forall path ch (co : list (str * A)), walk_items (Node path ch co) =
  map (fun nc => (combine_name_parts path (fst nc), snd nc)) co ++
  flat_map (fun kc => walk_items (snd kc)) ch.
Proof.
  intros path ch co. cbn [walk_items get_items qualify_name]. f_equal.
  induction ch as [|[k c] ch IH]; cbn; [reflexivity|]. now rewrite IH.
Qed.

Lemma contents_nonempty : forall n p c, In (p, c) (contents n) -> p <> [].
Proof.
  intros n. destruct n as [path ch co]. intros p c H. rewrite contents_eq in H.
  apply in_app_iff in H as [H|H].
  - apply in_map_iff in H as (x & E & _). injection E as <- _. congruence.
  - apply in_flat_map in H as (kc & _ & H). apply in_map_iff in H as (x & E & _).
    injection E as <- _. congruence.
Qed.

Lemma map_fst_contents_single : forall path ch co k,
  In [k] (map fst (contents (Node path ch co))) <-> In k (map fst co).
Proof.
  intros path ch co k. rewrite contents_eq, map_app, in_app_iff. split.
  - intros [H|H].
    + rewrite map_map in H. apply in_map_iff in H as (x & E & Hx). injection E as <-.
      now apply in_map.
    + apply in_map_iff in H as (y & E & H). apply in_flat_map in H as (kc & _ & H).
      apply in_map_iff in H as ([p c] & E' & H). subst y. cbn in E. injection E as _ E. subst p.
      apply contents_nonempty in H. congruence.
  - intros H. left. rewrite map_map. apply in_map_iff in H as (x & <- & Hx).
    apply in_map_iff. now exists x.
Qed.

Lemma insert_contents : forall parts c n, parts <> [] ->
  ~ In parts (map fst (contents n)) ->
  Permutation (contents (tree_insert parts c n)) ((parts, c) :: contents n).
Proof.
  induction parts as [|part parts IH]; intros c n Hne Hn; [congruence|].
  destruct n as [path ch co]. destruct parts as [|q parts].
  - cbn [tree_insert]. rewrite !contents_eq.
    rewrite map_fst_contents_single in Hn. rewrite od_set_absent by assumption.
    rewrite map_app. cbn. rewrite <- app_assoc. cbn. symmetry. apply Permutation_middle.
  - set (ps := q :: parts) in *.
    change (tree_insert (part :: ps) c (Node path ch co)) with
      (Node path (od_set part (tree_insert ps c
          (match od_get part ch with
           | Some child => child
           | None => Node (combine_name_parts path part) [] []
           end)) ch) co).
    rewrite !contents_eq.
    assert (Hps : ps <> []) by (unfold ps; congruence).
    destruct (od_get part ch) as [child|] eqn:Eg.
    + assert (Hc : ~ In ps (map fst (contents child))).
      { intros H. apply Hn. rewrite contents_eq, map_app, in_app_iff. right.
        apply in_map_iff in H as ([p x] & E & H). cbn in E. subst p.
        apply in_map_iff. exists (part :: ps, x). split; [reflexivity|].
        apply in_flat_map. exists (part, child). split; [now apply od_get_In|].
        unfold child_contents. apply in_map_iff. now exists (ps, x). }
      destruct (od_set_present part (tree_insert ps c child) child ch Eg) as (d1 & d2 & -> & _ & ->).
      rewrite !flat_map_app. cbn [flat_map].
      assert (E : Permutation (child_contents (part, tree_insert ps c child))
                    ((part :: ps, c) :: child_contents (part, child))).
      { unfold child_contents. cbn [fst snd].
        rewrite (Permutation_map _ (IH c child Hps Hc)). reflexivity. }
      rewrite E. cbn [app]. rewrite !app_assoc.
      rewrite <- Permutation_middle. rewrite <- !app_assoc. reflexivity.
    + apply od_get_None in Eg. rewrite od_set_absent by assumption.
      rewrite flat_map_app. cbn [flat_map]. rewrite app_nil_r.
      assert (E : Permutation (child_contents (part, tree_insert ps c (Node (combine_name_parts path part) [] [])))
                    [(part :: ps, c)]).
      { unfold child_contents. cbn [fst snd].
        rewrite (Permutation_map _ (IH c (Node (combine_name_parts path part) [] []) Hps (fun H => H))).
        reflexivity. }
      rewrite E. rewrite app_assoc. symmetry. apply Permutation_cons_append.
Qed.

(** Node paths follow the keys. *)
Inductive PathsOk : node A -> Prop :=
| PathsOk_node : forall path ch co,
    (forall k p c d, In (k, Node p c d) ch -> p = combine_name_parts path k /\ PathsOk (Node p c d)) ->
    PathsOk (Node path ch co).

Definition node_path (n : node A) : str := match n with Node p _ _ => p end.

Lemma insert_path : forall parts (c : A) (n : node A),
  node_path n = node_path (tree_insert parts c n).
Proof. intros [|p [|q ps]] c [path ch co]; reflexivity. Qed.

Lemma insert_PathsOk : forall parts (c : A) n, PathsOk n -> PathsOk (tree_insert parts c n).
Proof.
  induction parts as [|part parts IH]; intros c n Hn; destruct n as [path ch co]; [exact Hn|].
  inversion Hn as [? ? ? H]; subst. destruct parts as [|q parts].
  - cbn [tree_insert]. now constructor.
  - set (ps := q :: parts) in *.
    change (tree_insert (part :: ps) c (Node path ch co)) with
      (Node path (od_set part (tree_insert ps c
          (match od_get part ch with
           | Some child => child
           | None => Node (combine_name_parts path part) [] []
           end)) ch) co).
    clearbody ps.
    assert (Hch : exists p c0 d0, (match od_get part ch with
           | Some child => child
           | None => Node (combine_name_parts path part) [] []
           end) = Node p c0 d0 /\ p = combine_name_parts path part /\ PathsOk (Node p c0 d0)).
    { destruct (od_get part ch) as [[p c0 d0]|] eqn:Eg.
      - apply od_get_In in Eg. destruct (H _ _ _ _ Eg) as [Hp Hok].
        exists p, c0, d0. auto.
      - exists (combine_name_parts path part), [], []. split; [reflexivity|]. split; [reflexivity|].
        constructor. intros ? ? ? ? []. }
    destruct Hch as (p & c0 & d0 & -> & Hp & Hok).
    constructor. intros k p' c' d' Hin.
    destruct (od_get part ch) as [ch0|] eqn:Eg.
    + destruct (od_set_present part (tree_insert ps c (Node p c0 d0)) ch0 ch Eg)
        as (e1 & e2 & Ech & _ & Es). rewrite Es in Hin.
      apply in_app_iff in Hin as [Hin|[Hin|Hin]].
      * apply (H k). rewrite Ech. apply in_app_iff. now left.
      * injection Hin as <- E. pose proof (insert_path ps c (Node p c0 d0)) as Hpp.
        pose proof (IH c (Node p c0 d0) Hok) as Hok'. rewrite E in Hpp, Hok'. cbn in Hpp. subst p'. auto.
      * apply (H k). rewrite Ech. apply in_app_iff. right. now right.
    + apply od_get_None in Eg. rewrite od_set_absent in Hin by assumption.
      apply in_app_iff in Hin as [Hin|[Hin|[]]]; [now apply (H k)|].
      injection Hin as <- E. pose proof (insert_path ps c (Node p c0 d0)) as Hpp.
      pose proof (IH c (Node p c0 d0) Hok) as Hok'. rewrite E in Hpp, Hok'. cbn in Hpp. subst p'. auto.
Qed.

(** The name that walking reports for a list of keys. *)
Fixpoint walked_name (path : str) (parts : list str) : str :=
  match parts with
  | [] => path
  | p :: ps => walked_name (combine_name_parts path p) ps
  end.

Lemma walk_contents : forall n, PathsOk n ->
  walk_items n = map (fun pc => (walked_name (node_path n) (fst pc), snd pc)) (contents n).
Proof.
  apply (node_ind' (fun n => PathsOk n ->
    walk_items n = map (fun pc => (walked_name (node_path n) (fst pc), snd pc)) (contents n))).
  intros path ch co Hch Hok. inversion Hok as [? ? ? H]; subst.
  rewrite walk_eq, contents_eq, map_app, map_map. cbn [fst snd walked_name node_path]. f_equal.
  clear Hok. induction ch as [|[k [p c d]] ch IH]; [reflexivity|].
  inversion Hch as [|? ? Hc Hch']; subst. cbn [flat_map]. rewrite map_app. f_equal.
  - destruct (H k p c d (or_introl eq_refl)) as [Hp Hok]. cbn [snd] in *.
    rewrite (Hc Hok). unfold child_contents. rewrite map_map. cbn [fst snd walked_name node_path].
    rewrite <- Hp. reflexivity.
  - apply IH; [assumption|]. intros k' p' c' d' Hin. apply (H k'). now right.
Qed.

Lemma walk_full_names_items : forall n : node A, walk_full_names n = map fst (walk_items n).
Proof.
  apply node_ind'. intros path ch co Hch. rewrite walk_eq, map_app.
  cbn [walk_full_names qualify_name]. rewrite map_map. cbn [fst]. f_equal.
  induction ch as [|[k c] ch IH]; cbn; [reflexivity|]. inversion Hch; subst.
  rewrite map_app. cbn [snd] in *. rewrite IH by assumption. now f_equal.
Qed.
End Nodes.

Lemma is_slash_eq : forall c, is_slash c = true <-> slash = c.
Proof. intros c. unfold is_slash, slash. rewrite N.eqb_eq. split; congruence. Qed.

Lemma is_slash_false : forall c, is_slash c = false <-> slash <> c.
Proof. intros c. rewrite <- is_slash_eq. destruct (is_slash c); intuition congruence. Qed.

(** [combine_name_parts] trims slashes. *)
Lemma combine_trimmed : forall a b, SlashTrimmed (a ++ [slash] ++ b) (combine_name_parts a b).
Proof.
  intros a b. unfold combine_name_parts. cbn [join app].
  change (a ++ ($"/" ++ b)) with (a ++ [slash] ++ b).
  destruct (strip_by_split is_slash (a ++ [slash] ++ b)) as (x & y & E & Hx & Hy).
  exists x, y. split; [exact E|].
  split; [apply Forall_forall; intros c Hc; rewrite forallb_forall in Hx; apply is_slash_eq; auto|].
  split; [apply Forall_forall; intros c Hc; rewrite forallb_forall in Hy; apply is_slash_eq; auto|].
  split; intros t Et.
  - apply strip_by_head in Et. discriminate.
  - apply strip_by_last in Et. discriminate.
Qed.

Lemma SlashTrimmed_unique : forall s r r', SlashTrimmed s r -> SlashTrimmed s r' -> r = r'.
Proof.
  assert (H : forall s r, SlashTrimmed s r -> strip_by is_slash s = r).
  { intros s r (a & b & -> & Ha & Hb & Hh & Hl). apply strip_edges.
    - eapply Forall_impl; [|exact Ha]. intros c <-. reflexivity.
    - eapply Forall_impl; [|exact Hb]. intros c <-. reflexivity.
    - intros c t ->. apply is_slash_false. intros <-. eapply Hh; reflexivity.
    - intros c t ->. apply is_slash_false. intros <-. eapply Hl; reflexivity. }
  intros s r r' H1 H2. rewrite <- (H _ _ H1). now apply H.
Qed.

(** Two parts without slashes at their ends are joined by a slash. *)
Lemma combine_plain : forall a b,
  (forall t, a <> slash :: t) -> (forall t, b <> t ++ [slash]) -> a <> [] -> b <> [] ->
  combine_name_parts a b = a ++ [slash] ++ b.
Proof.
  intros a b Ha Hb Ha0 Hb0. eapply SlashTrimmed_unique; [apply combine_trimmed|].
  exists [], []. rewrite app_nil_r. repeat split; auto.
  - intros t E. destruct a as [|c a]; [congruence|]. cbn in E. injection E as -> _. now apply (Ha a).
  - intros t E. destruct (exists_last Hb0) as (b' & c & ->).
    rewrite !app_assoc in E. apply app_inj_tail in E as [_ ->]. now apply (Hb b').
Qed.

Lemma combine_nil_l : forall b, (forall t, b <> slash :: t) -> (forall t, b <> t ++ [slash]) ->
  combine_name_parts [] b = b.
Proof.
  intros b Hh Hl. eapply SlashTrimmed_unique; [apply combine_trimmed|].
  exists [slash], []. rewrite app_nil_r. repeat split; auto.
Qed.

Lemma walked_name_join : forall ps p, Forall (fun q => q <> [] /\ ~ In slash q) ps ->
  p <> [] -> (forall t, p <> slash :: t) -> walked_name p ps = join [slash] (p :: ps).
Proof.
  induction ps as [|q ps IH]; intros p H Hp Hh; [reflexivity|].
  inversion H as [|? ? [Hq0 Hq] Hps]; subst. cbn [walked_name].
  assert (Hql : forall t, q <> t ++ [slash]).
  { intros t ->. apply Hq. apply in_app_iff. right. now left. }
  rewrite combine_plain by assumption. rewrite IH.
  - destruct ps as [|r ps]; cbn [join]; now rewrite <- ?app_assoc.
  - assumption.
  - destruct p; [congruence|discriminate].
  - intros t E. destruct p as [|c p]; [congruence|]. cbn in E. injection E as -> _. now apply (Hh p).
Qed.

Lemma walked_name_root : forall n, NoEmptyComponent n -> walked_name [] (split_char slash n) = n.
Proof.
  intros n Hn. destruct n as [|c n0]; [reflexivity|]. remember (c :: n0) as n.
  assert (Hne : n <> []) by (subst; congruence).
  pose proof (NoEmpty_parts n Hn Hne) as H1. pose proof (split_char_no_sep slash n) as H2.
  pose proof (split_char_join slash n) as Ej.
  destruct (split_char slash n) as [|p ps] eqn:E; [now apply split_char_nonempty in E|].
  inversion H1 as [|? ? Hp Hps]; subst. inversion H2 as [|? ? Hp' Hps']; subst.
  assert (Hps2 : Forall (fun q => q <> [] /\ ~ In slash q) ps).
  { apply Forall_forall. intros q Hq. rewrite Forall_forall in Hps, Hps'. split; auto. }
  cbn [walked_name]. rewrite combine_nil_l.
  - rewrite walked_name_join; auto. intros t ->. apply Hp'. now left.
  - intros t ->. apply Hp'. now left.
  - intros t ->. apply Hp'. apply in_app_iff. right. now left.
Qed.

(** * [from_map] *)
Lemma from_map_contents : forall {A} (m : list (str * A)), NoDup (map fst m) ->
  Permutation (contents (from_map m)) (map (fun nc => (split_char slash (fst nc), snd nc)) m) /\
  PathsOk (from_map m) /\ exists ch co, from_map m = Node [] ch co.
Proof.
  intros A m. induction m as [|[name c] m IH] using rev_ind; intros Hnd.
  - cbn. split; [constructor|]. split; [constructor; intros ? ? ? ? []|]. now exists [], [].
  - rewrite map_app in Hnd. cbn in Hnd.
    assert (Hnd' : NoDup (map fst m) /\ ~ In name (map fst m)).
    { apply (Permutation_NoDup (Permutation_sym (Permutation_cons_append _ _))) in Hnd.
      inversion Hnd; subst. auto. }
    destruct Hnd' as [Hm Hname]. destruct (IH Hm) as (Hp & Hok & ch & co & Er).
    unfold from_map in *. rewrite fold_left_app. cbn [fold_left fst snd].
    set (root := fold_left _ m _) in *.
    assert (Hnot : ~ In (split_char slash name) (map fst (contents root))).
    { intros H. apply (Permutation_in _ (Permutation_map fst Hp)) in H.
      rewrite map_map in H. cbn in H. apply in_map_iff in H as ([n' c'] & E & Hin).
      cbn in E. apply split_char_inj in E. subst n'. apply Hname.
      apply (in_map fst) in Hin. exact Hin. }
    split; [|split].
    + change 47%N with slash. rewrite insert_contents; [|apply split_char_nonempty|assumption].
      rewrite map_app. cbn. rewrite Hp. apply Permutation_cons_append.
    + now apply insert_PathsOk.
    + pose proof (insert_path (split_char 47 name) c root) as E. rewrite Er in E at 1.
      destruct (tree_insert (split_char 47 name) c root) as [p' ch' co']. cbn in E. subst p'. eauto.
Qed.

Lemma from_map_walk : forall {A} (m : list (str * A)), NoDup (map fst m) ->
  (forall name c, In (name, c) m -> NoEmptyComponent name) ->
  Permutation (walk_items (from_map m)) m.
Proof.
  intros A m Hnd Hn. destruct (from_map_contents m Hnd) as (Hp & Hok & ch & co & Er).
  pose proof (walk_contents _ Hok) as Hw. rewrite Hw, Er. cbn [node_path]. rewrite <- Er.
  rewrite (Permutation_map _ Hp), map_map. cbn [fst snd].
  erewrite map_ext_in with (g := fun x => x); [now rewrite map_id|].
  intros [name c] Hin. cbn [fst snd]. f_equal. apply walked_name_root. eauto.
Qed.
