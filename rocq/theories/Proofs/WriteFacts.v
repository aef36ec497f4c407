From Coq Require Import String NArith ZArith QArith Qcanon Bool Arith List Permutation Sorted Lia.
From Verif.Model Require Import Str Utils Rng Values Context Names Structured TextFile Tree Manager.
From Verif.Spec Require Import Text Names Files Tree Lookup Write.
From Verif.Proofs Require Import StrFacts UtilsFacts NamesFacts GlobFacts FileFacts TreeFacts BuildFacts
  RngFacts ManagerFacts.
Import ListNotations.
Local Open Scope nat_scope.

(** * Rewriting a file *)
Lemma od_get_split : forall A k (v : A) d, od_get k d = Some v ->
  exists d1 d2, d = d1 ++ (k, v) :: d2 /\ ~ In k (map fst d1) /\ forall v', od_set k v' d = d1 ++ (k, v') :: d2.
Proof.
  intros A k v d. induction d as [|[k' v0] d IH]; cbn; [discriminate|].
  destruct (str_eqb_spec k k') as [<-|Hne].
  - intros E. injection E as ->. exists [], d. cbn. split; [reflexivity|]. split; [tauto|]. intros v'. reflexivity.
  - intros E. destruct (IH E) as (d1 & d2 & -> & Hn & Hs). exists ((k', v0) :: d1), d2. cbn.
    split; [reflexivity|]. split; [intros [H|H]; [congruence|tauto]|]. intros v'. now rewrite Hs.
Qed.

Lemma od_get_mid : forall A k (v : A) d1 d2, ~ In k (map fst d1) -> od_get k (d1 ++ (k, v) :: d2) = Some v.
Proof.
  intros A k v d1 d2. induction d1 as [|[k' v0] d1 IH]; cbn; intros H.
  - now rewrite str_eqb_refl.
  - destruct (str_eqb_spec k k') as [<-|_]; [tauto|]. apply IH. tauto.
Qed.

Lemma od_get_mid_other : forall A k k' (v v' : A) d1 d2, k <> k' ->
  od_get k (d1 ++ (k', v) :: d2) = od_get k (d1 ++ (k', v') :: d2).
Proof.
  intros A k k' v v' d1 d2 H. induction d1 as [|[k0 v0] d1 IH]; cbn.
  - destruct (str_eqb_spec k k'); [congruence|reflexivity].
  - destruct (str_eqb k k0); auto.
Qed.

Lemma fs_write_rewrites : forall path t n c, fs_get path n = Some (FFile c) ->
  exists n', fs_write path t n = Some n' /\ Rewritten t n path n'.
Proof.
  induction path as [|p path IH]; intros t n c H; cbn in H.
  - injection H as ->. exists (FFile t). split; [reflexivity|constructor].
  - destruct n as [c0|es]; [discriminate|]. destruct (od_get p es) as [m|] eqn:E; [|discriminate].
    destruct (IH t m c H) as (m' & Hw & Hr). cbn [fs_write]. rewrite E, Hw.
    destruct (od_get_split _ p m es E) as (d1 & d2 & -> & _ & Hs).
    exists (FDir (od_set p m' (d1 ++ (p, m) :: d2))). split; [reflexivity|]. rewrite Hs. now constructor.
Qed.

Lemma Rewritten_unique : forall t n path n', Rewritten t n path n' -> UniqueNames n -> UniqueNames n'.
Proof.
  intros t n path n' H. induction H as [c|es1 p n es2 path n' H IH]; intros Hu; [constructor|].
  inversion Hu as [|? Hd Hc]; subst. constructor.
  - rewrite map_app. rewrite map_app in Hd. exact Hd.
  - intros name m Hin. apply in_app_iff in Hin as [Hin|[E|Hin]].
    + apply (Hc name). apply in_app_iff. now left.
    + injection E as <- <-. apply IH, (Hc p). apply in_app_iff. right. now left.
    + apply (Hc name). apply in_app_iff. right. now right.
Qed.

Lemma unique_mid : forall (p : str) (n : fsnode) es1 es2, NoDup (map fst (es1 ++ (p, n) :: es2)) -> ~ In p (map fst es1).
Proof.
  intros p n es1 es2 H Hin. rewrite map_app in H. cbn in H. apply NoDup_remove_2 in H. apply H.
  apply in_app_iff. now left.
Qed.

Lemma Rewritten_get : forall t n path n', Rewritten t n path n' -> UniqueNames n ->
  fs_get path n' = Some (FFile t) /\
  forall q, (exists rest m m', path = q ++ rest /\ fs_get q n = Some m /\ fs_get q n' = Some m' /\ Rewritten t m rest m') \/
            ((forall rest, path <> q ++ rest) /\ fs_get q n' = fs_get q n).
Proof.
  intros t n path n' H. induction H as [c|es1 p n es2 path n' H IH]; intros Hu.
  - split; [reflexivity|]. intros [|x q].
    + left. exists [], (FFile c), (FFile t). repeat split. constructor.
    + right. split; [intros rest E; discriminate|reflexivity].
  - inversion Hu as [|? Hd Hc]; subst. pose proof (unique_mid _ _ _ _ Hd) as Hp.
    assert (Hn : UniqueNames n). { apply (Hc p). apply in_app_iff. right. now left. }
    destruct (IH Hn) as [Hg Hq]. split.
    + cbn [fs_get]. rewrite od_get_mid by exact Hp. exact Hg.
    + intros [|x q].
      * left. exists (p :: path), (FDir (es1 ++ (p, n) :: es2)), (FDir (es1 ++ (p, n') :: es2)).
        repeat split. now constructor.
      * cbn [fs_get]. destruct (str_eqb_spec x p) as [->|Hx].
        -- rewrite !od_get_mid by exact Hp.
           destruct (Hq q) as [(rest & m & m' & -> & H1 & H2 & H3)|[H1 H2]].
           ++ left. exists rest, m, m'. auto.
           ++ right. split; [|exact H2]. intros rest E. injection E as E. exact (H1 rest E).
        -- right. split; [intros rest E; injection E as E _; congruence|].
           now rewrite (od_get_mid_other _ x p n' n) by exact Hx.
Qed.

Lemma Rewritten_files : forall t n path n', Rewritten t n path n' -> UniqueNames n ->
  forall q c, FileAt n' q c <-> (q = path /\ c = t) \/ (q <> path /\ FileAt n q c).
Proof.
  intros t n path n' H Hu q c. pose proof (Rewritten_unique _ _ _ _ H Hu) as Hu'.
  destruct (Rewritten_get t n path n' H Hu) as [Hg Hq].
  rewrite <- (fs_get_FileAt n' Hu'), <- (fs_get_FileAt n Hu).
  destruct (Hq q) as [(rest & m & m' & E & H1 & H2 & H3)|[H1 H2]].
  - destruct H3 as [c0|es1 p m es2 path' m' H3].
    + rewrite app_nil_r in E. subst q. rewrite H2. split; [intros Hc; injection Hc as ->; auto|].
      intros [[_ ->]|[Hne _]]; [reflexivity|congruence].
    + rewrite H1, H2. split; [discriminate|]. intros [[-> ->]|[_ Hf]]; [congruence|discriminate].
  - rewrite H2. split.
    + intros Hf. right. split; [|exact Hf]. intros ->. apply (H1 []). now rewrite app_nil_r.
    + intros [[-> _]|[_ Hf]]; [|exact Hf]. exfalso. apply (H1 []). now rewrite app_nil_r.
Qed.

Section Build.
Variable P : pylib.

(** * The map of the tree does not depend on the contents of text files *)
Lemma walk_rewritten : forall t n path n', Rewritten t n path n' ->
  forall q f stem, path = q ++ [f] -> HasSuffix f stem $".txt" ->
  forall root pre, flat_map (file_defs P root) (os_walk pre n') = flat_map (file_defs P root) (os_walk pre n).
Proof.
  intros t n path n' H. induction H as [c|es1 p n es2 path n' H IH]; intros q f stem Hp Hs root pre; [reflexivity|].
  rewrite !os_walk_eq. rewrite !flat_map_app. cbn [flat_map fst snd]. rewrite !flat_map_app. f_equal; f_equal; f_equal.
  - destruct H as [c|es1' p' n es2' path n' H].
    + destruct q as [|x q]; [|destruct q; discriminate]. injection Hp as ->.
      cbn [flat_map file_defs app]. rewrite !app_nil_r. unfold collections_from_path.
      rewrite (split_suffix_has _ _ _ Hs). cbn [fst snd]. now rewrite str_eqb_refl.
    + reflexivity.
  - destruct (startswith p $"."); [reflexivity|].
    destruct q as [|x q].
    + injection Hp as -> ->. inversion H; subst; reflexivity.
    + injection Hp as -> ->. eapply IH; [reflexivity|exact Hs].
Qed.

Lemma flat_map_congr : forall A B (f g : A -> list B) l, (forall a, f a = g a) -> flat_map f l = flat_map g l.
Proof. intros A B f g l H. induction l as [|a l IH]; cbn; [reflexivity|]. now rewrite H, IH. Qed.

Lemma build_map_rewritten : forall roots t fs path fs', Rewritten t fs path fs' -> UniqueNames fs ->
  forall q f stem, path = q ++ [f] -> HasSuffix f stem $".txt" ->
  build_map P fs' roots = build_map P fs roots.
Proof.
  intros roots t fs path fs' H Hu q f stem Hp Hs. rewrite !build_map_update. do 2 f_equal.
  unfold Definitions. apply flat_map_congr. intros root. apply flat_map_congr. intros item. f_equal.
  destruct item as [p|m]; [|reflexivity]. cbn [mappingify].
  destruct (Rewritten_get _ _ _ _ H Hu) as [_ Hq].
  destruct (Hq p) as [(rest & m & m' & E & H1 & H2 & H3)|[_ H2]]; [|now rewrite H2].
  rewrite H1, H2. destruct H3 as [c|es1 x m es2 rest m' H3]; [reflexivity|].
  rewrite !build_map_from_path_update. f_equal.
  assert (Hr : Rewritten t (FDir (es1 ++ (x, m) :: es2)) (x :: rest) (FDir (es1 ++ (x, m') :: es2))) by now constructor.
  destruct (@exists_last _ (x :: rest)) as (q' & f' & Ef); [discriminate|].
  assert (f' = f) as ->.
  { rewrite Hp, Ef in E. rewrite app_assoc in E. now apply app_inj_tail in E as [_ ->]. }
  eapply walk_rewritten; [exact Hr|exact Ef|exact Hs].
Qed.

Lemma text_suffix : forall fs roots name path cache, In (name, CText path cache) (build_map P fs roots) ->
  exists q f stem, path = q ++ [f] /\ HasSuffix f stem $".txt".
Proof.
  intros fs roots name path cache H.
  apply build_map_text in H as (_ & prefix & items & root & es & dir & f & stem & content & _ & _ & _ & _ & Hs & -> & _).
  exists (root ++ dir), f, stem. split; [now rewrite app_assoc|exact Hs].
Qed.

(** One root folder registers every file under one name. *)
Lemma one_folder : forall fs prefix root, OneNamePerFile (build_map P fs [(prefix, [RPath root])]).
Proof.
  intros fs prefix root n1 n2 path c1 c2 H1 H2.
  apply build_map_text in H1 as (_ & p1 & i1 & r1 & es1 & d1 & f1 & s1 & t1 & Hr1 & Hi1 & Hg1 & _ & Hs1 & E1 & Ht1).
  apply build_map_text in H2 as (_ & p2 & i2 & r2 & es2 & d2 & f2 & s2 & t2 & Hr2 & Hi2 & Hg2 & _ & Hs2 & E2 & Ht2).
  destruct Hr1 as [E|[]]. injection E as <- <-. destruct Hr2 as [E|[]]. injection E as <- <-.
  destruct Hi1 as [E|[]]. injection E as <-. destruct Hi2 as [E|[]]. injection E as <-.
  rewrite E1 in E2. apply app_inv_head in E2. apply app_inj_tail in E2 as [<- <-].
  apply split_suffix_has in Hs1, Hs2. rewrite Hs1 in Hs2. injection Hs2 as <-.
  eapply SlashTrimmed_unique; eassumption.
Qed.
End Build.

(** * Histories with writes *)
Section W.
Variable P : pylib.
Variable G : rng_impl.
Variable ww : str.
Variable roots : root_map.
Notation build fs := (build_map P fs roots).
Notation TreeOk := (TreeOk P roots).

Lemma erase_get : forall t n, od_get n (erase_map t) = option_map erase (od_get n t).
Proof.
  intros t n. induction t as [|[m c] t IH]; [reflexivity|]. cbn.
  destruct (str_eqb n m); [reflexivity|exact IH].
Qed.

Lemma In_erase : forall t n path c, In (n, CText path c) t -> In (n, CText path None) (erase_map t).
Proof. intros t n path c H. apply in_map_iff. exists (n, CText path c). split; [reflexivity|exact H]. Qed.

Lemma od_set_In : forall A k (v : A) d n c, In (n, c) (od_set k v d) -> (n = k /\ c = v) \/ In (n, c) d.
Proof.
  intros A k v d n c. induction d as [|[k' v'] d IH]; cbn.
  - intros [E|[]]. injection E as <- <-. auto.
  - destruct (str_eqb_spec k k') as [<-|_]; cbn.
    + intros [E|H]; [injection E as <- <-; auto|auto].
    + intros [E|H]; [auto|]. destruct (IH H) as [H'|H']; auto.
Qed.

(** A successful write. *)
Lemma write_tree : forall fs fs' t n path c text, UniqueNames fs -> OneNamePerFile (build fs) ->
  erase_map t = build fs -> TreeValid fs t -> od_get n t = Some (CText path c) ->
  Rewritten text fs path fs' ->
  build fs' = build fs /\
  erase_map (od_set n (CText path None) t) = build fs' /\ TreeValid fs' (od_set n (CText path None) t).
Proof.
  intros fs fs' t n path c text Hu Hone He Hv Hg Hr.
  assert (Hin : In (n, CText path None) (build fs)).
  { rewrite <- He. eapply In_erase, od_get_In, Hg. }
  destruct (text_suffix P fs roots n path None Hin) as (q & f & stem & Hp & Hs).
  assert (Eb : build fs' = build fs) by (eapply build_map_rewritten; eassumption).
  split; [exact Eb|]. rewrite Eb. split.
  - destruct (od_get_split _ n _ t Hg) as (t1 & t2 & Et & Hn & Hset).
    rewrite Hset, <- He, Et. unfold erase_map. rewrite !map_app. reflexivity.
  - destruct (od_get_split _ n _ t Hg) as (t1 & t2 & Et & Hn & Hset). rewrite Hset.
    assert (Hnd : NoDup (map fst t)).
    { assert (Em : map fst (erase_map t) = map fst t) by (unfold erase_map; rewrite map_map; reflexivity).
      rewrite <- Em, He. apply build_map_NoDup. }
    rewrite Et, map_app in Hnd. cbn in Hnd. apply NoDup_remove_2 in Hnd. rewrite <- map_app in Hnd.
    assert (Hother : forall m cc, In (m, cc) (t1 ++ t2) -> CacheValid fs' cc).
    { intros m cc Hm.
      assert (Hmt : In (m, cc) t).
      { rewrite Et. apply in_app_iff in Hm as [Hm|Hm]; apply in_app_iff; [now left|right; now right]. }
      pose proof (proj1 (Forall_forall _ _) Hv _ Hmt) as Hcv. cbn [snd] in Hcv.
      destruct cc as [e|path2 [l|]]; [exact I| |exact I]. cbn [CacheValid] in *.
      assert (Hne : path2 <> path).
      { intros ->. apply Hnd. apply (in_map fst) in Hm. cbn [fst] in Hm.
        replace n with m; [exact Hm|]. eapply Hone; [|exact Hin]. rewrite <- He. eapply In_erase. exact Hmt. }
      destruct Hcv as (content & Hf & Hl). exists content. split; [|exact Hl].
      pose proof (Rewritten_unique _ _ _ _ Hr Hu) as Hu'.
      apply (fs_get_FileAt fs' Hu'). apply (Rewritten_files _ _ _ _ Hr Hu). right. split; [exact Hne|].
      now apply (fs_get_FileAt fs Hu). }
    apply Forall_app. split.
    + apply Forall_forall. intros [m cc] Hm. apply (Hother m). apply in_app_iff. now left.
    + constructor; [exact I|]. apply Forall_forall. intros [m cc] Hm. apply (Hother m). apply in_app_iff. now right.
Qed.

(** What a write does. *)
Lemma write_file_ok : forall fs st name t, UniqueNames fs -> OneNamePerFile (build fs) -> TreeOk fs st ->
  match write_file P ww roots fs name t st with
  | (st', fs', r) =>
      TreeOk fs' st' /\ same_flags st st' /\ UniqueNames fs' /\ build fs' = build fs /\
      match clean_wildcard name ww with
      | Err e => r = Err e /\ fs' = fs
      | Ok n =>
          match od_get n (build fs) with
          | None => r = Err EKey /\ fs' = fs
          | Some (CList _) => r = Err EAttribute /\ fs' = fs
          | Some (CText path _) => r = Ok tt /\ Rewritten t fs path fs'
          end
      end
  end.
Proof.
  intros fs st name t Hu Hone Ht. unfold write_file, get_file.
  destruct (clean_wildcard name ww) as [n|e] eqn:Ec; [|repeat split; auto].
  destruct (get_tree_ok P roots fs st Ht) as [He Hv].
  set (tr := get_tree P roots fs st) in *.
  assert (Ht1 : TreeOk fs (set_tree tr st)) by (split; assumption).
  pose proof (erase_get tr n) as Hg. rewrite He in Hg. rewrite Hg.
  destruct (od_get n tr) as [[e|path c]|] eqn:En; cbn [option_map erase].
  - split; [exact Ht1|]. split; [repeat split|]. split; [exact Hu|]. split; [reflexivity|]. split; reflexivity.
  - assert (Hex : exists content, fs_get path fs = Some (FFile content)).
    { apply (build_map_text_exists P fs roots n path None Hu). rewrite <- He. eapply In_erase, od_get_In, En. }
    destruct Hex as [content Hex]. destruct (fs_write_rewrites path t fs content Hex) as (fs' & Hw & Hr).
    rewrite Hw. change (get_tree P roots fs (set_tree tr st)) with tr.
    destruct (write_tree fs fs' tr n path c t Hu Hone He Hv En Hr) as (Eb & He' & Hv').
    split; [split; assumption|]. split; [repeat split|].
    split; [eapply Rewritten_unique; eassumption|]. split; [exact Eb|]. split; [reflexivity|exact Hr].
  - split; [exact Ht1|]. split; [repeat split|]. split; [exact Hu|]. split; [reflexivity|]. split; reflexivity.
Qed.

(** A lookup that is not answered from the cache. *)
Definition uncached (st : mstate) : mstate :=
  {| m_tree := m_tree st; m_cache := []; m_sort := m_sort st; m_dedup := m_dedup st; m_shuffle := m_shuffle st |}.
Lemma matching_uncached : forall fs w st,
  snd (matching_values P ww roots fs w (uncached st)) = snd (matching_values P ww roots fs w st) /\
  fst (matching_values P ww roots fs w (uncached st)) = uncached (fst (matching_values P ww roots fs w st)).
Proof.
  intros fs w st. unfold matching_values. destruct (clean_wildcard w ww) as [p|e]; [|auto].
  change (get_tree P roots fs (uncached st)) with (get_tree P roots fs st).
  destruct (gather fs p (get_tree P roots fs st)) as [t r]. auto.
Qed.

Lemma get_cached_tree : forall fs w st, TreeOk fs st ->
  let (st', r) := get_values_cached P ww roots fs w st in
  TreeOk fs st' /\ m_sort st' = m_sort st /\ m_dedup st' = m_dedup st /\ m_shuffle st' = m_shuffle st /\
  (forall w', od_get w' (m_cache st') <> None -> w' = w \/ od_get w' (m_cache st) <> None) /\
  (od_get w (m_cache st) = None -> r = pure_values P ww roots (m_sort st) (m_dedup st) (m_shuffle st) fs w).
Proof.
  intros fs w st Ht. unfold get_values_cached.
  destruct (od_get w (m_cache st)) as [vs|] eqn:Ew.
  { split; [exact Ht|]. repeat split; auto. discriminate. }
  pose proof (matching_values_ok P ww roots fs w st Ht) as Hm.
  destruct (matching_values P ww roots fs w st) as [st1 r1]. destruct Hm as (Hr1 & Ht1 & Ec1 & Es1 & Ed1 & Eh1).
  assert (Hfin : forall st2 l, TreeOk fs st2 -> m_cache st2 = m_cache st -> m_sort st2 = m_sort st -> m_dedup st2 = m_dedup st ->
    m_shuffle st2 = m_shuffle st -> pure_found P ww roots fs w = Ok l ->
    let (st', r) := (let (st', ws) := finish_values w l st2 in (st', Ok ws)) in
    TreeOk fs st' /\ m_sort st' = m_sort st /\ m_dedup st' = m_dedup st /\ m_shuffle st' = m_shuffle st /\
    (forall w', od_get w' (m_cache st') <> None -> w' = w \/ od_get w' (m_cache st) <> None) /\
    (@None (list witem) = None -> r = pure_values P ww roots (m_sort st) (m_dedup st) (m_shuffle st) fs w)).
  { intros st2 l Ht2 Ec2 Es2 Ed2 Eh2 Hl. pose proof (finish_values_ok w l st2) as Hf.
    destruct (finish_values w l st2) as [st' ws]. destruct Hf as (-> & Et & Es & Ed & Eh & Ec).
    split. { unfold ManagerFacts.TreeOk in *. now rewrite Et. }
    split; [congruence|]. split; [congruence|]. split; [congruence|]. split.
    - intros w' Hw. destruct (str_eqb_spec w' w) as [->|Hne]; [now left|]. right.
      destruct Ec as [Ec|Ec]; rewrite Ec in Hw.
      + rewrite od_get_set_other in Hw by exact Hne. now rewrite Ec2 in Hw.
      + exfalso. apply Hw. cbn. destruct (str_eqb_spec w' w); [congruence|reflexivity].
    - intros _. unfold pure_values. rewrite Hl. now rewrite Es2, Ed2, Eh2. }
  destruct r1 as [[|v vs]|e].
  - destruct (startswith w $"**") eqn:Esw.
    + apply Hfin; auto. unfold pure_found. now rewrite <- Hr1, Esw.
    + pose proof (matching_values_ok P ww roots fs ($"**/" ++ w) st1 Ht1) as Hm2.
      destruct (matching_values P ww roots fs ($"**/" ++ w) st1) as [st2 r2].
      destruct Hm2 as (Hr2 & Ht2 & Ec2 & Es2 & Ed2 & Eh2).
      assert (Hpf : pure_found P ww roots fs w = r2).
      { unfold pure_found. rewrite <- Hr1, Esw. now rewrite Hr2. }
      destruct r2 as [l|e].
      * apply Hfin; congruence || auto.
      * split; [exact Ht2|]. split; [congruence|]. split; [congruence|]. split; [congruence|].
        split; [intros w' Hw; right; congruence|]. intros _. unfold pure_values. now rewrite Hpf.
  - apply Hfin; auto. unfold pure_found. now rewrite <- Hr1.
  - split; [exact Ht1|]. split; [congruence|]. split; [congruence|]. split; [congruence|].
    split; [intros w' Hw; right; congruence|]. intros _. unfold pure_values, pure_found. now rewrite <- Hr1.
Qed.

Definition NoOutside (o : mop) : Prop := forall fs, o <> OExternal fs.
Definition Clears (o : mop) : Prop := o = OClear \/ (exists b, o = OSort b) \/ (exists b, o = ODedup b).

(** Everything the manager knows agrees with the files, answers to the
    wildcards [asked] excepted. *)
Definition WInv (b : list (str * coll)) (asked : list str) (w : world G) : Prop :=
  UniqueNames (w_fs G w) /\ build (w_fs G w) = b /\ TreeOk (w_fs G w) (w_man G w) /\
  forall wc, od_get wc (m_cache (w_man G w)) <> None -> In wc asked.

Definition asked_after (o : mop) (asked : list str) : list str :=
  match o with
  | OGet wc => wc :: asked
  | OClear | OSort _ | ODedup _ => []
  | _ => asked
  end.

Lemma step_WInv : forall b asked o w, OneNamePerFile b -> NoOutside o -> WInv b asked w ->
  WInv b (asked_after o asked) (step P G ww roots o w).
Proof.
  intros b asked o w Hone Ho (Hu & Hb & Ht & Hc).
  destruct o as [wc|name| |x|x|x| |n t|fs']; cbn [step asked_after].
  - pose proof (get_cached_tree (w_fs G w) wc (w_man G w) Ht) as H. unfold get_values.
    destruct (get_values_cached P ww roots (w_fs G w) wc (w_man G w)) as [st v].
    destruct H as (Ht' & _ & _ & _ & Hk & _).
    assert (HW : forall r, WInv b (wc :: asked) {| w_fs := w_fs G w; w_man := st; w_rng := r |}).
    { intros r. split; [exact Hu|]. split; [exact Hb|]. split; [exact Ht'|]. cbn [w_man].
      intros w' Hw. destruct (Hk w' Hw) as [->|Hw']; [now left|right; now apply Hc]. }
    destruct v as [l|e]; [|apply HW]. destruct (m_shuffle st); [|apply HW].
    destruct (shuffled G l (w_rng G w)). apply HW.
  - split; [exact Hu|]. split; [exact Hb|]. cbn [w_fs w_man]. unfold get_file.
    destruct (clean_wildcard name ww); [|split; [exact Ht|exact Hc]]. cbn [fst].
    destruct (get_tree_ok P roots _ _ Ht). split; [split; assumption|exact Hc].
  - split; [exact Hu|]. split; [exact Hb|]. cbn [w_fs w_man]. unfold get_collection_names. cbn [fst].
    destruct (get_tree_ok P roots _ _ Ht). split; [split; assumption|exact Hc].
  - split; [exact Hu|]. split; [exact Hb|]. split; [exact I|]. cbn. congruence.
  - split; [exact Hu|]. split; [exact Hb|]. split; [exact I|]. cbn. congruence.
  - split; [exact Hu|]. split; [exact Hb|]. split; [exact Ht|exact Hc].
  - split; [exact Hu|]. split; [exact Hb|]. split; [exact I|]. cbn. congruence.
  - assert (Hone' : OneNamePerFile (build (w_fs G w))) by now rewrite Hb.
    pose proof (write_file_ok (w_fs G w) (w_man G w) n t Hu Hone' Ht) as H.
    destruct (write_file P ww roots (w_fs G w) n t (w_man G w)) as [[st fs'] r].
    destruct H as (Ht' & (Ec & _) & Hu' & Hb' & _).
    split; [exact Hu'|]. split; [cbn; congruence|]. split; [exact Ht'|]. cbn [w_man]. rewrite Ec. exact Hc.
  - destruct (Ho fs' eq_refl).
Qed.

Lemma run_WInv : forall b ops asked w, OneNamePerFile b -> Forall NoOutside ops -> WInv b asked w ->
  WInv b (fold_left (fun a o => asked_after o a) ops asked) (run_ops P G ww roots ops w).
Proof.
  intros b ops. unfold run_ops. induction ops as [|o ops IH]; intros asked w Hone Ho H; [exact H|].
  inversion Ho as [|? ? H1 H2]; subst. cbn [fold_left]. apply IH; [exact Hone|exact H2|]. now apply step_WInv.
Qed.

Lemma asked_In : forall ops asked wc, In wc (fold_left (fun a o => asked_after o a) ops asked) ->
  In wc asked \/ In (OGet wc) ops.
Proof.
  induction ops as [|o ops IH]; intros asked wc H; [now left|]. cbn [fold_left] in H.
  destruct (IH _ _ H) as [H'|H']; [|right; now right].
  destruct o; cbn in H'; try (destruct H' as [->|H']); try tauto; right; now left.
Qed.

Lemma fresh_WInv : forall fs s d sh r, UniqueNames fs -> WInv (build fs) [] (fresh G fs s d sh r).
Proof.
  intros fs s d sh r Hu. split; [exact Hu|]. split; [reflexivity|]. split; [exact I|]. cbn. congruence.
Qed.

Lemma lookup_uncached : forall b asked w wc, WInv b asked w -> ~ In wc asked ->
  m_shuffle (w_man G w) = false -> forall r,
  lookup P G ww roots wc w =
  lookup P G ww roots wc (fresh G (w_fs G w) (m_sort (w_man G w)) (m_dedup (w_man G w)) false r).
Proof.
  intros b asked w wc (Hu & Hb & Ht & Hc) Hn Hsh r. rewrite lookup_fresh. unfold lookup, get_values.
  pose proof (get_cached_tree (w_fs G w) wc (w_man G w) Ht) as H.
  destruct (get_values_cached P ww roots (w_fs G w) wc (w_man G w)) as [st v].
  destruct H as (_ & _ & _ & Eh & _ & Hv). rewrite Hsh in Eh, Hv.
  assert (En : od_get wc (m_cache (w_man G w)) = None).
  { destruct (od_get wc (m_cache (w_man G w))) eqn:E; [|reflexivity]. exfalso. apply Hn, Hc. congruence. }
  specialize (Hv En). rewrite <- Hv. destruct v as [l|e]; [|reflexivity]. now rewrite Eh.
Qed.

(** The last cache reset, if any, and what was asked after it. *)
Lemma history_uncached : forall fs s d sh r before after wc,
  UniqueNames fs -> OneNamePerFile (build fs) -> Forall NoOutside (before ++ after) ->
  before = [] \/ (exists b0 cl, before = b0 ++ [cl] /\ Clears cl) -> ~ In (OGet wc) after ->
  let w' := run_ops P G ww roots (before ++ after) (fresh G fs s d sh r) in
  m_shuffle (w_man G w') = false ->
  forall r', lookup P G ww roots wc w' =
    lookup P G ww roots wc (fresh G (w_fs G w') (m_sort (w_man G w')) (m_dedup (w_man G w')) false r').
Proof.
  intros fs s d sh r before after wc Hu Hone Ho Hb Hn w' Hsh r'.
  pose proof (run_WInv (build fs) (before ++ after) [] _ Hone Ho (fresh_WInv fs s d sh r Hu)) as HW. fold w' in HW.
  eapply lookup_uncached; [exact HW| |exact Hsh].
  intros Hin. rewrite fold_left_app in Hin. apply asked_In in Hin as [Hin|Hin]; [|exact (Hn Hin)].
  destruct Hb as [->|(b0 & cl & -> & Hcl)]; [exact Hin|].
  rewrite fold_left_app in Hin. cbn [fold_left] in Hin.
  destruct Hcl as [->|[[x ->]|[x ->]]]; exact Hin.
Qed.

(** The registered names stay as they are. *)
Lemma history_build : forall fs s d sh r ops, UniqueNames fs -> OneNamePerFile (build fs) -> Forall NoOutside ops ->
  let w' := run_ops P G ww roots ops (fresh G fs s d sh r) in
  build (w_fs G w') = build fs /\ UniqueNames (w_fs G w') /\ TreeOk (w_fs G w') (w_man G w').
Proof.
  intros fs s d sh r ops Hu Hone Ho w'.
  destruct (run_WInv (build fs) ops [] _ Hone Ho (fresh_WInv fs s d sh r Hu)) as (H1 & H2 & H3 & _). auto.
Qed.
End W.

(** * The last write counts *)
Section Last.
Variable P : pylib.
Variable G : rng_impl.
Variable ww : str.
Variable roots : root_map.
Notation build fs := (build_map P fs roots).

Lemma od_get_of_In : forall (t : list (str * coll)) n c, NoDup (map fst t) -> In (n, c) t -> od_get n t = Some c.
Proof. intros t n c Hd Hin. now apply (od_get_NoDup n c t Hd). Qed.

Lemma step_files : forall b asked o w name path content, OneNamePerFile b -> NoOutside o -> WInv P G roots b asked w ->
  In (name, CText path None) b -> (forall n2 t2, o = OWrite n2 t2 -> ~ Cleaned ww n2 (Some name)) ->
  FileAt (w_fs G w) path content -> FileAt (w_fs G (step P G ww roots o w)) path content.
Proof.
  intros b asked o w name path content Hone Ho (Hu & Hb & Ht & Hc) Hin Hw Hf.
  destruct o as [wc|m| |x|x|x| |n t|fs']; cbn [step w_fs]; try exact Hf.
  - destruct (get_values P G ww roots (w_fs G w) wc (w_man G w) (w_rng G w)) as [[st v] r]. exact Hf.
  - assert (Hone' : OneNamePerFile (build (w_fs G w))) by now rewrite Hb.
    pose proof (write_file_ok P ww roots (w_fs G w) (w_man G w) n t Hu Hone' Ht) as H.
    destruct (write_file P ww roots (w_fs G w) n t (w_man G w)) as [[st fs'] r]. cbn [w_fs].
    destruct H as (_ & _ & Hu' & Hb' & H).
    destruct (clean_wildcard n ww) as [n'|e] eqn:Ec; [|destruct H as [_ ->]; exact Hf].
    destruct (od_get n' (build (w_fs G w))) as [[es|path' c']|] eqn:En.
    + destruct H as [_ ->]. exact Hf.
    + destruct H as [_ Hr]. apply (Rewritten_files _ _ _ _ Hr Hu). right. split; [|exact Hf].
      intros <-. apply od_get_In in En. rewrite Hb in En.
      apply (Hw n t eq_refl). apply Cleaned_iff. rewrite Ec. f_equal. eapply Hone; eassumption.
    + destruct H as [_ ->]. exact Hf.
  - destruct (Ho fs' eq_refl).
Qed.

Lemma run_files : forall b ops asked w name path content, OneNamePerFile b -> Forall NoOutside ops -> WInv P G roots b asked w ->
  In (name, CText path None) b -> (forall n2 t2, In (OWrite n2 t2) ops -> ~ Cleaned ww n2 (Some name)) ->
  FileAt (w_fs G w) path content -> FileAt (w_fs G (run_ops P G ww roots ops w)) path content.
Proof.
  intros b ops. unfold run_ops. induction ops as [|o ops IH]; intros asked w name path content Hone Ho HW Hin Hw Hf; [exact Hf|].
  inversion Ho as [|? ? H1 H2]; subst. cbn [fold_left].
  eapply (IH (asked_after o asked)); [exact Hone|exact H2|now apply step_WInv|exact Hin| |].
  - intros n2 t2 H. apply (Hw n2 t2). now right.
  - eapply step_files; try eassumption. intros n2 t2 ->. apply (Hw n2 t2). now left.
Qed.

Lemma last_write : forall fs s d sh r a nm t c name path, UniqueNames fs -> OneNamePerFile (build fs) ->
  Forall NoOutside (a ++ OWrite nm t :: c) -> Cleaned ww nm (Some name) -> In (name, CText path None) (build fs) ->
  (forall n2 t2, In (OWrite n2 t2) c -> ~ Cleaned ww n2 (Some name)) ->
  FileAt (w_fs G (run_ops P G ww roots (a ++ OWrite nm t :: c) (fresh G fs s d sh r))) path t.
Proof.
  intros fs s d sh r a nm t c name path Hu Hone Ho Hc Hin Hlast.
  apply Forall_app in Ho as [Ha Hoc]. inversion Hoc as [|? ? Ho Hcc]; subst.
  pose proof (run_WInv P G ww roots (build fs) a [] _ Hone Ha (fresh_WInv P G roots fs s d sh r Hu)) as HW.
  set (asked := fold_left _ a []) in HW. unfold run_ops. rewrite fold_left_app. cbn [fold_left].
  change (fold_left _ a (fresh G fs s d sh r)) with (run_ops P G ww roots a (fresh G fs s d sh r)).
  set (w := run_ops P G ww roots a (fresh G fs s d sh r)) in *.
  change (fold_left _ c ?x) with (run_ops P G ww roots c x).
  eapply run_files with (asked := asked); [exact Hone|exact Hcc| |exact Hin|exact Hlast|].
  - now apply (step_WInv P G ww roots (build fs) asked (OWrite nm t)).
  - destruct HW as (Hu' & Hb & Ht & _).
    assert (Hone' : OneNamePerFile (build (w_fs G w))) by now rewrite Hb.
    pose proof (write_file_ok P ww roots (w_fs G w) (w_man G w) nm t Hu' Hone' Ht) as H. cbn [step].
    destruct (write_file P ww roots (w_fs G w) nm t (w_man G w)) as [[st fs'] rr]. cbn [w_fs].
    destruct H as (_ & _ & _ & _ & H). apply Cleaned_iff in Hc. rewrite Hc in H.
    rewrite Hb, (od_get_of_In _ name (CText path None)) in H; [|apply build_map_NoDup|exact Hin].
    destruct H as [_ Hr]. apply (Rewritten_files _ _ _ _ Hr Hu'). left. auto.
Qed.
End Last.
