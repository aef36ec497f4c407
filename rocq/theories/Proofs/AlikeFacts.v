(** Alike templates have the same lists. *)
From Coq Require Import String NArith ZArith QArith Qcanon Bool Arith List Permutation Lia.
From Verif.Model Require Import Str Utils Command Rng Values Context Sampler Generators.
From Verif.Spec Require Import Text Comb Items Lang Enum Choices StreamRng Alike.
From Verif.Proofs Require Import StrFacts UtilsFacts CommandFacts CombFacts ValuesFacts DictFacts
  Soundness FuelFacts RunFacts EnumFacts BindFacts CycleFacts EnumRun CombRun EndFacts.
Import ListNotations.
Local Open Scope nat_scope.

(** * The way variables are stored does not matter *)
Lemma same_scope : forall c d, Same c d -> forall sc bs, Extended (scope_of c) bs sc -> Extended (scope_of d) bs sc.
Proof.
  intros c d (H1 & H2 & H3 & H4 & H5) sc bs [(E1 & E2 & E3) Hv]. cbn [scope_of sc_method sc_squash sc_unknown sc_var] in *.
  split; [repeat split; cbn; congruence|]. intros x. destruct (Hv x) as [K|[K1 K2]]; [now left|right]. split; [exact K1|]. cbn. now rewrite H5.
Qed.
Lemma same_extends : forall c d bs c', Same c d -> Extends c bs c' -> Extends d bs c'.
Proof. intros c d bs c' H [H1 H2]. split; [eapply same_scope; eassumption|]. destruct H as (_ & _ & _ & H & _). congruence. Qed.
Lemma same_assigned : forall c d toks bs need, Same c d -> Assigned (scope_of c) toks bs need -> Assigned (scope_of d) toks bs need.
Proof.
  intros c d toks bs need (H1 & H2 & H3 & H4 & H5) H.
  assert (Hv : forall x, sc_var (scope_of d) x = sc_var (scope_of c) x) by (intros x; cbn; now rewrite H5).
  induction H; [apply As_nil|apply As_skip|apply As_kept|apply As_lazy|apply As_literal|apply As_immediate]; rewrite ?Hv; auto.
Qed.
Lemma same_as : forall m c d, Same c d -> Same (as_method m c) (as_method m d).
Proof. intros m c d (H1 & H2 & H3 & H4 & H5). repeat split; assumption. Qed.
Lemma same_busy : forall c d (x : text), Same c d -> ~ In x (c_busy c) -> ~ In x (c_busy d).
Proof. intros c d x (_ & _ & _ & H & _) K. now rewrite H. Qed.
Lemma same_method : forall c d, Same c d -> c_method d = c_method c.
Proof. intros c d (H & _). exact H. Qed.
Lemma same_ignws : forall c d, Same c d -> c_ignws d = c_ignws c.
Proof. intros c d (_ & H & _). exact H. Qed.

Section Same.
Variable E : env.
Lemma cyc_same :
  (forall c cmd s, Cyc E c cmd s -> forall d, Same c d -> Cyc E d cmd s) /\
  (forall c cmds ss, CycAll E c cmds ss -> forall d, Same c d -> CycAll E d cmds ss) /\
  (forall c sels sss, CycSels E c sels sss -> forall d, Same c d -> CycSels E d sels sss) /\
  (forall c vals ss, CycTexts E c vals ss -> forall d, Same c d -> CycTexts E d vals ss) /\
  (forall c need, CycFirsts E c need -> forall d, Same c d -> CycFirsts E d need) /\
  (forall c w path, CycPath E c w path -> forall d, Same c d -> CycPath E d w path).
Proof.
  apply (Cyc_mutind E); intros.
  - eapply Cy_lit; [rewrite (same_method _ _ H1); eassumption|assumption].
  - match goal with Hd : Same ?cc ?dd |- _ => pose proof (same_as m' _ _ Hd) as Hd'; pose proof (same_method _ _ Hd) as Hm' end.
    eapply Cy_seq with (m' := m') (c' := c'); [congruence|assumption|eapply same_assigned; eassumption|eauto|eapply same_extends; eassumption| | |]; eassumption.
  - match goal with Hd : Same ?cc ?dd |- _ => pose proof (same_as Cyclical _ _ Hd) as Hd'; pose proof (same_method _ _ Hd) as Hm' end.
    eapply Cy_var; [congruence| | | | | |]; eauto.
  - match goal with Hd : Same ?cc ?dd |- _ => pose proof (same_as Random _ _ Hd) as Hd'; pose proof (same_method _ _ Hd) as Hm' end.
    eapply Cy_single; [congruence|assumption|]. eauto.
  - match goal with Hd : Same ?cc ?dd |- _ => pose proof (same_as m' _ _ Hd) as Hd'; pose proof (same_method _ _ Hd) as Hm' end.
    eapply Cy_lone with (m' := m'); [congruence| | | | |]; eauto.
  - match goal with Hd : Same ?cc ?dd |- _ => pose proof (same_as Cyclical _ _ Hd) as Hd'; pose proof (same_method _ _ Hd) as Hm' end.
    eapply Cy_wild; [congruence|eauto|assumption|eapply same_extends; eassumption|eassumption|assumption|eassumption|assumption].
  - match goal with Hd : Same ?cc ?dd |- _ => pose proof (same_as m' _ _ Hd) as Hd'; pose proof (same_method _ _ Hd) as Hm' end.
    eapply Cy_missing with (m' := m'); [congruence|assumption|eauto|assumption|eapply same_extends; eassumption| | | |]; eassumption.
  - match goal with Hd : Same ?cc ?dd |- _ => pose proof (Same_inside x _ _ Hd) as Hd' end.
    eapply Cy_access; [eapply Same_Refers; eassumption|eapply same_busy; eassumption|eauto].
  - match goal with Hd : Same ?cc ?dd |- _ => pose proof (same_as Random _ _ Hd) as Hd'; pose proof (same_method _ _ Hd) as Hm' end.
    eapply Cy_wrap; [congruence| | |eassumption]; eauto.
  - constructor.
  - constructor; eauto.
  - constructor.
  - constructor; eauto.
  - constructor.
  - match goal with Hd : Same ?cc ?dd |- _ => pose proof (same_ignws _ _ Hd) as Hm' end.
    econstructor; eauto. rewrite Hm'. assumption.
  - constructor.
  - constructor; eauto.
  - match goal with Hd : Same ?cc ?dd |- _ => pose proof (same_ignws _ _ Hd) as Hm' end.
    econstructor; eauto. rewrite Hm'. assumption.
Qed.
Lemma enum_same :
  (forall c cmd ts, Enum E c cmd ts -> forall d, Same c d -> Enum E d cmd ts) /\
  (forall c stream whole toks ls, TimedParts E c stream whole toks ls -> forall d, Same c d -> TimedParts E d stream whole toks ls) /\
  (forall c sels arrs, EnumSels E c sels arrs -> forall d, Same c d -> EnumSels E d sels arrs) /\
  (forall c sel ars, EnumCombo E c sel ars -> forall d, Same c d -> EnumCombo E d sel ars) /\
  (forall c p ts, EnumPrompt E c p ts -> forall d, Same c d -> EnumPrompt E d p ts) /\
  (forall c ps ls, EnumPrompts E c ps ls -> forall d, Same c d -> EnumPrompts E d ps ls) /\
  (forall c need, EnumFirsts E c need -> forall d, Same c d -> EnumFirsts E d need) /\
  (forall c w path, EnumPath E c w path -> forall d, Same c d -> EnumPath E d w path).
Proof.
  apply (Enum_mutind E); intros.
  - now constructor.
  - eapply En_seq; [assumption|eapply same_assigned; eassumption|eauto|eapply same_extends; eassumption|eassumption|eassumption].
  - eapply En_var; eauto.
  - now constructor.
  - eapply En_lone; eauto.
  - eapply En_wild; [assumption|eauto|assumption|eapply same_extends; eassumption|eassumption|eassumption].
  - match goal with Hd : Same ?cc ?dd |- _ => pose proof (Same_inside x _ _ Hd) as Hd' end.
    eapply En_access; [eapply Same_Refers; eassumption|eapply same_busy; eassumption|eauto].
  - eapply En_wrap; eauto.
  - constructor.
  - apply TP_finite; eauto.
  - eapply TP_endless; eauto. eapply (proj1 cyc_same); eassumption.
  - constructor.
  - constructor; eauto.
  - constructor.
  - apply EnC_finite; eauto.
  - eapply EnC_endless; eauto. eapply (proj1 cyc_same); eassumption.
  - match goal with Hd : Same ?cc ?dd |- _ => pose proof (same_ignws _ _ Hd) as Hm' end.
    eapply EnP_reads; eauto. rewrite Hm'. assumption.
  - constructor.
  - now constructor.
  - constructor.
  - constructor; eauto.
  - constructor.
  - eapply EnF_finite; eauto.
  - eapply EnF_endless; eauto. eapply (proj1 cyc_same); eassumption.
  - eapply EnPa_finite; eauto.
  - eapply EnPa_endless. eapply (proj2 (proj2 (proj2 (proj2 (proj2 cyc_same))))); eassumption.
Qed.
Lemma extends_nil_same : forall c c', Extends c [] c' -> Same c' c.
Proof.
  intros c c' [[(E1 & E2 & E3) Hv] Hb]. cbn [scope_of sc_method sc_squash sc_unknown sc_var] in *.
  repeat split; try congruence. intros x. destruct (Hv x) as [(pre & v & post & Hp & _)|[_ H]]; [|now rewrite H].
  destruct pre; discriminate Hp.
Qed.

(** * Lists are unique *)
Lemma enum_unique : forall c cmd l l', c_method c = Combinatorial -> Enum E c cmd l -> Enum E c cmd l' -> l = l'.
Proof.
  intros c cmd l l' Hc H H'.
  destruct (proj1 (enum_gives stream_rng E) _ _ _ H _ (Same_refl c) Hc) as (n & g & Hg & He).
  destruct (proj1 (enum_gives stream_rng E) _ _ _ H' _ (Same_refl c) Hc) as (n' & g' & Hg' & He').
  assert (g = g').
  { pose proof (Hg (Nat.max n n') ltac:(lia)) as K. rewrite (Hg' (Nat.max n n') ltac:(lia)) in K. congruence. }
  subst g'. destruct (Emits_collect _ _ _ _ He) as (f & Hf). destruct (Emits_collect _ _ _ _ He') as (f' & Hf').
  set (k := S (length l + length l')).
  pose proof (proj1 (Hf (Nat.max f f') k [] ltac:(lia)) ltac:(unfold k; lia)) as K.
  pose proof (proj1 (Hf' (Nat.max f f') k [] ltac:(lia)) ltac:(unfold k; lia)) as K'. congruence.
Qed.

(** * One option out of several *)
(** What an option contributes. *)
Definition Ones (c : ctx) (v : command) (l : list text) : Prop :=
  Enum E c v l \/ (~ finite_mark v /\ exists s, Cyc E c v s /\ l = [s 0]).
Lemma combo_one : forall c v ars, EnumCombo E c [v] ars -> exists l, Ones c v l /\ ars = map (fun t => [t]) l.
Proof.
  intros c v ars H. inversion H as [|? ? ? ts ars' He Hr|? ? ? s ars' Hf Hcy Hr]; subst; inversion Hr; subst.
  - exists ts. split; [now left|]. clear. induction ts as [|t ts IH]; [reflexivity|]. cbn in *. now rewrite IH.
  - exists [s 0]. split; [right; eauto|reflexivity].
Qed.
Lemma one_combo : forall c v l, Ones c v l -> EnumCombo E c [v] (map (fun t => [t]) l).
Proof.
  intros c v l [H|(Hf & s & Hs & ->)].
  - replace (map (fun t => [t]) l) with (flat_map (fun t => map (cons t) [[]]) l); [apply EnC_finite; [exact H|constructor]|].
    clear. induction l as [|t l IH]; [reflexivity|]. cbn in *. now rewrite IH.
  - change (map (fun t => [t]) [s 0]) with (map (fun ja => s (fst ja) :: snd ja) (numbered [@nil text])).
    apply EnC_endless; [exact Hf|exact Hs|constructor].
Qed.
Lemma sels_ones : forall c vs arrs, EnumSels E c (map (fun v => [v]) vs) arrs ->
  exists ls, Forall2 (Ones c) vs ls /\ arrs = map (fun t => [t]) (concat ls).
Proof.
  intros c vs. induction vs as [|v vs IH]; intros arrs H; inversion H; subst.
  - exists []. split; [constructor|reflexivity].
  - match goal with K : EnumCombo _ _ _ _ |- _ => apply combo_one in K as (l & Hl & ->) end.
    match goal with K : EnumSels _ _ _ _ |- _ => apply IH in K as (ls & Hls & ->) end.
    exists (l :: ls). split; [now constructor|]. cbn. now rewrite map_app.
Qed.
Lemma ones_sels : forall c vs ls, Forall2 (Ones c) vs ls ->
  EnumSels E c (map (fun v => [v]) vs) (map (fun t => [t]) (concat ls)).
Proof.
  intros c vs ls H. induction H as [|v l vs ls Hl _ IH]; cbn; [constructor|]. rewrite map_app. apply EnS_cons; [now apply one_combo|exact IH].
Qed.
Lemma sizes_one : forall n, 1 <= n -> sizes n 1 1 = [1].
Proof. intros n H. unfold sizes, clamp. rewrite Z.min_id, Z.max_id. rewrite !Z.min_l by lia. reflexivity. Qed.
Lemma sift_fun : forall (A : Type) (P : A -> Prop) l o o', Sift P l o -> Sift P l o' -> o = o'.
Proof.
  intros A P l o o' H. revert o'. induction H as [|x l o Hx _ IH|x l o Hx _ IH]; intros o' H'; inversion H'; subst; try contradiction; auto.
  f_equal. auto.
Qed.
Lemma first_fun : forall (A : Type) (seen l o o' : list A), FirstOnly seen l o -> FirstOnly seen l o' -> o = o'.
Proof.
  intros A seen l o o' H. revert o'. induction H as [|seen x l o Hx _ IH|seen x l o Hx _ IH]; intros o' H'; inversion H'; subst; try contradiction; auto.
  f_equal. auto.
Qed.
Lemma glued_singles : forall sep l ts, Forall2 (Glued sep) (map (fun t => [t]) l) ts -> ts = l.
Proof.
  intros sep l. induction l as [|t l IH]; intros ts H; inversion H as [|? u ? us Hg Hr]; subst; [reflexivity|]. f_equal; [|now apply IH].
  inversion Hg; subst; [reflexivity|cbn; now rewrite app_nil_r|cbn in *; congruence].
Qed.
Lemma singles_glued : forall sep l, Forall2 (Glued sep) (map (fun t => [t]) l) l.
Proof. intros sep l. induction l; cbn; constructor; auto. constructor. Qed.
Lemma enum_one : forall c opts sep m ts, opts <> [] -> ~ lone_wildcard opts -> quiet m ->
  (Enum E c (Var opts 1 1 sep m) ts <-> exists ls, Forall2 (Ones c) (map fst opts) ls /\ ts = firsts (concat ls)).
Proof.
  intros c opts sep m ts Hne Hl Hm.
  assert (H1 : 1 <= length opts) by (destruct opts; [congruence|cbn; lia]).
  assert (HS : Selections (map fst opts) (sizes (length opts) 1 1) (map (fun v => [v]) (map fst opts))).
  { rewrite sizes_one by exact H1. exists [map (fun x => [x]) (map fst opts)]. split; [|cbn; now rewrite app_nil_r].
    constructor; [|constructor]. cbn [repeat]. rewrite product_one. apply sift_singles. }
  split.
  - intros H. inversion H as [| |? ? ? ? ? ? sels arrs kept outs ? Hf _ _ Hsel Hs Hk Ho Hg| | | | |]; subst; try congruence;
      [|exfalso; apply Hl; repeat eexists].
    assert (sels = map (fun v => [v]) (map fst opts)).
    { destruct Hsel as (per & Hper & ->). rewrite sizes_one in Hper by exact H1.
      inversion Hper as [|? ss ? rest Hss Hr]; subst. inversion Hr; subst. cbn [concat repeat] in *. rewrite app_nil_r.
      rewrite product_one in Hss. eapply sift_fun; [exact Hss|apply sift_singles]. }
    subst sels. apply sels_ones in Hs as (ls & Hls & ->). exists ls. split; [exact Hls|].
    rewrite (sift_fun _ _ _ _ _ Hk (sift_singles _ _)) in *. 
    rewrite (first_fun _ _ _ _ _ Ho (first_single _ [] _ (firsts_only (concat ls)))) in Hg.
    now apply glued_singles in Hg.
  - intros (ls & Hls & ->). eapply En_var with (kept := map (fun t => [t]) (concat ls)) (outs := map (fun t => [t]) (firsts (concat ls))).
    + exact Hm.
    + exact Hne.
    + exact Hl.
    + exact HS.
    + apply ones_sels, Hls.
    + apply sift_singles.
    + apply (first_single _ []). apply firsts_only.
    + apply singles_glued.
Qed.

(** * The laws *)
Definition Equal (x y : command) : Prop :=
  mark_of x = mark_of y /\ (is_assign x <-> is_assign y) /\ (Nonempty x <-> Nonempty y) /\
  forall c ts, c_method c = Combinatorial -> (Enum E c x ts <-> Enum E c y ts).

Lemma equal_refl : forall x, Equal x x.
Proof. intros x. split; [reflexivity|]. split; [tauto|]. split; [tauto|]. tauto. Qed.
Lemma equal_sym : forall x y, Equal x y -> Equal y x.
Proof.
  intros x y (Hk & Has & Hn & Hxy). split; [congruence|]. split; [tauto|]. split; [tauto|]. intros c ts Hc. symmetry. now apply Hxy.
Qed.
Lemma var_equal : forall opts opts' lo hi sep m, (opts = [] <-> opts' = []) ->
  (forall c ts, c_method c = Combinatorial -> (Enum E c (Var opts lo hi sep m) ts <-> Enum E c (Var opts' lo hi sep m) ts)) ->
  Equal (Var opts lo hi sep m) (Var opts' lo hi sep m).
Proof.
  intros opts opts' lo hi sep m Hn H. split; [reflexivity|]. split; [split; intros (? & ? & ? & ? & K); discriminate|].
  split; [|exact H]. unfold Nonempty. split; intros [_ K]; (split; [discriminate|]); intros lo' hi' s' m' H';
    injection H' as Ho _ _ _ _; apply Hn in Ho; eapply K; rewrite Ho; reflexivity.
Qed.
Lemma seq_equal : forall toks toks' sep m, (toks = [] <-> toks' = []) ->
  (forall c ts, c_method c = Combinatorial -> (Enum E c (Seq toks sep m) ts <-> Enum E c (Seq toks' sep m) ts)) ->
  Equal (Seq toks sep m) (Seq toks' sep m).
Proof.
  intros toks toks' sep m Hn H. split; [reflexivity|]. split; [split; intros (? & ? & ? & ? & K); discriminate|].
  split; [|exact H]. unfold Nonempty. split; intros [K _]; (split; [|discriminate]); intros s' m' H';
    injection H' as Ho _ _; apply Hn in Ho; eapply K; rewrite Ho; reflexivity.
Qed.
Lemma app_cons_nil : forall (A : Type) (pre post : list A) x, pre ++ x :: post = [] <-> False.
Proof. intros. split; [intros H; destruct pre; discriminate|tauto]. Qed.

(** First occurrences only. *)
Definition out (a : list text) (u : text) : bool := if in_dec (list_eq_dec N.eq_dec) u a then false else true.
Lemma out_ext : forall a b u, (In u a <-> In u b) -> out a u = out b u.
Proof. intros a b u H. unfold out. destruct (in_dec _ u a), (in_dec _ u b); tauto. Qed.
Lemma filter_filter : forall (A : Type) (f g : A -> bool) l, filter f (filter g l) = filter (fun x => g x && f x) l.
Proof. intros A f g l. induction l as [|x l IH]; [reflexivity|]. cbn. destruct (g x); cbn; destruct (f x); now rewrite IH. Qed.
Lemma firsts_eq : forall t l, firsts (t :: l) = t :: filter (out [t]) (firsts l).
Proof.
  intros t l. cbn [firsts]. f_equal. apply filter_ext. intros u. unfold out.
  destruct (list_eq_dec N.eq_dec u t) as [->|H]; destruct (in_dec _ _ [t]) as [K|K]; auto; [destruct K; now left|].
  destruct K as [K|[]]. congruence.
Qed.
Lemma firsts_in : forall l u, In u (firsts l) <-> In u l.
Proof.
  induction l as [|t l IH]; intros u; [reflexivity|]. rewrite firsts_eq. cbn [In]. rewrite filter_In, IH. unfold out.
  destruct (in_dec _ u [t]) as [[K|[]]|K]; cbn in *; intuition congruence.
Qed.
Lemma firsts_filter : forall p l, filter p (firsts l) = firsts (filter p l).
Proof.
  intros p l. induction l as [|t l IH]; [reflexivity|]. rewrite firsts_eq. cbn [filter]. destruct (p t) eqn:Hp.
  - rewrite firsts_eq. f_equal. rewrite <- IH, !filter_filter. apply filter_ext. intros u. apply andb_comm.
  - rewrite filter_filter, <- IH. apply filter_ext. intros u. unfold out. destruct (in_dec _ u [t]) as [[K|[]]|K]; cbn; congruence.
Qed.
Lemma firsts_app : forall a b, firsts (a ++ b) = firsts a ++ filter (out a) (firsts b).
Proof.
  intros a b. induction a as [|t a IH].
  - cbn [firsts app]. rewrite <- (filter_ext (fun _ => true)); [|intros u; unfold out; destruct (in_dec _ u []) as [[]|]; reflexivity].
    induction (firsts b) as [|u l IHl]; cbn; [reflexivity|now f_equal].
  - cbn [app]. rewrite !firsts_eq, IH. cbn [app]. f_equal. rewrite filter_app. f_equal. rewrite filter_filter.
    apply filter_ext. intros u. unfold out. cbn [In].
    destruct (in_dec _ u a), (in_dec _ u [t]) as [K|K], (in_dec _ u (t :: a)) as [L|L]; cbn in *; tauto.
Qed.
Lemma firsts_firsts : forall l, firsts (firsts l) = firsts l.
Proof.
  induction l as [|t l IH]; [reflexivity|]. rewrite firsts_eq, firsts_eq. f_equal. rewrite <- firsts_filter, IH, filter_filter.
  apply filter_ext. intros u. now destruct (out [t] u).
Qed.
Lemma firsts_inner : forall a b c, firsts (a ++ firsts b ++ c) = firsts (a ++ b ++ c).
Proof.
  intros a b c. rewrite !(firsts_app a). f_equal. f_equal. rewrite !firsts_app, firsts_firsts. f_equal.
  apply filter_ext. intros u. apply out_ext, firsts_in.
Qed.
Lemma firsts_again : forall y x c, incl x y -> firsts (y ++ x ++ c) = firsts (y ++ c).
Proof.
  intros y x c H. rewrite !(firsts_app y). f_equal. rewrite !firsts_filter, filter_app. f_equal.
  replace (filter (out y) x) with (@nil text); [reflexivity|].
  symmetry. induction x as [|u x IH]; [reflexivity|]. cbn. unfold out at 1.
  destruct (in_dec _ u y) as [_|K]; [|destruct K; apply H; now left]. apply IH. intros z Hz. apply H. now right.
Qed.
Lemma firsts_repeated : forall a x b c, firsts (a ++ x ++ b ++ x ++ c) = firsts (a ++ x ++ b ++ c).
Proof.
  intros a x b c. transitivity (firsts ((a ++ x ++ b) ++ x ++ c)); [now rewrite <- !app_assoc|].
  rewrite firsts_again; [now rewrite <- !app_assoc|]. intros u Hu. rewrite !in_app_iff. auto.
Qed.
Lemma firsts_map : forall (f : text -> text) l, (forall x y, f x = f y -> x = y) -> firsts (map f l) = map f (firsts l).
Proof.
  intros f l Hf. induction l as [|t l IH]; [reflexivity|]. cbn [map]. rewrite !firsts_eq. cbn [map]. f_equal. rewrite IH. clear IH.
  induction (firsts l) as [|u k IH]; [reflexivity|]. cbn [map filter]. 
  assert (Ho : out [f t] (f u) = out [t] u).
  { unfold out. destruct (in_dec _ (f u) [f t]) as [[K|[]]|K], (in_dec _ u [t]) as [[L|[]]|L]; auto.
    - destruct L. left. now apply Hf.
    - destruct K. left. now rewrite L. }
  rewrite Ho, IH. now destruct (out [t] u).
Qed.

(** ** Options *)
Lemma ones_finite : forall c v l, finite_mark v -> Ones c v l <-> Enum E c v l.
Proof. intros c v l H. split; [intros [K|[K _]]; [exact K|contradiction]|now left]. Qed.
Lemma lone_two : forall (A : list (command * Qc)) v q pre post, A = pre ++ (v, q) :: post -> lone_wildcard A ->
  pre = [] /\ post = [] /\ exists x m vs, v = Wild x m vs.
Proof.
  intros A v q pre post -> (x & m & vs & q' & H). destruct pre as [|p pre].
  - injection H as -> -> ->. eauto 6.
  - injection H as _ H. destruct pre; discriminate.
Qed.
Lemma nested_equal : forall pre opts opts' q post sep sep' m m', quiet m -> quiet m' ->
  opts <> [] -> ~ lone_wildcard opts -> map fst opts' = map fst opts ->
  Equal (Var (pre ++ (Var opts 1 1 sep' m', q) :: post) 1 1 sep m) (Var (pre ++ opts' ++ post) 1 1 sep m).
Proof.
  intros pre opts opts' q post sep sep' m m' Hm Hm' Hne Hl Ho.
  assert (Hne' : opts' <> []) by (intros ->; destruct opts; [congruence|discriminate]).
  assert (Hn2 : pre ++ opts' ++ post <> []) by (destruct pre; [destruct opts'; [congruence|discriminate]|discriminate]).
  assert (Hl1 : ~ lone_wildcard (pre ++ (Var opts 1 1 sep' m', q) :: post)).
  { intros K. destruct (lone_two _ _ _ _ _ eq_refl K) as (_ & _ & x & mx & vs & L). discriminate. }
  assert (Hl2 : ~ lone_wildcard (pre ++ opts' ++ post)).
  { intros (w & mw & vs & q0 & K). apply Hl. destruct pre as [|p pre].
    - destruct opts' as [|o opts']; [congruence|]. injection K as -> K. apply app_eq_nil in K as [-> _].
      destruct opts as [|[v q1] [|? ?]]; try discriminate Ho. injection Ho as <-. repeat eexists.
    - injection K as _ K. apply app_eq_nil in K as [_ K]. apply app_eq_nil in K as [K _]. congruence. }
  apply var_equal; [rewrite app_cons_nil; tauto|]. intros c ts _.
  rewrite enum_one by (auto; intros K; apply app_cons_nil in K; exact K). rewrite enum_one by assumption.
  rewrite !map_app. cbn [map fst]. rewrite Ho. split.
  - intros (ls & H & ->). apply Forall2_app_inv_l in H as (l1 & l2 & H1 & H2 & ->).
    inversion H2 as [|? l ? l3 Hx H3]; subst. apply ones_finite in Hx; [|exact Hm'].
    apply enum_one in Hx as (li & Hi & ->); try assumption. exists (l1 ++ li ++ l3).
    split; [repeat apply Forall2_app; assumption|]. rewrite !concat_app. cbn [concat]. rewrite ?concat_app. apply firsts_inner.
  - intros (ls & H & ->). apply Forall2_app_inv_l in H as (l1 & l2 & H1 & H2 & ->).
    apply Forall2_app_inv_l in H2 as (li & l3 & Hi & H3 & ->). exists (l1 ++ firsts (concat li) :: l3). split.
    + apply Forall2_app; [exact H1|]. constructor; [|exact H3]. left. apply enum_one; eauto.
    + rewrite !concat_app. cbn [concat]. rewrite ?concat_app. symmetry. apply firsts_inner.
Qed.
Lemma repeated_equal : forall pre v q mid q' post sep m, quiet m -> finite_mark v ->
  ~ lone_wildcard (pre ++ (v, q) :: mid ++ post) ->
  Equal (Var (pre ++ (v, q) :: mid ++ (v, q') :: post) 1 1 sep m) (Var (pre ++ (v, q) :: mid ++ post) 1 1 sep m).
Proof.
  intros pre v q mid q' post sep m Hm Hv Hl.
  assert (Hl1 : ~ lone_wildcard (pre ++ (v, q) :: mid ++ (v, q') :: post)).
  { intros K. destruct (lone_two _ _ _ _ _ eq_refl K) as (_ & L & _). destruct mid; discriminate. }
  apply var_equal; [rewrite !app_cons_nil; tauto|]. intros c ts Hc.
  rewrite enum_one by (auto; intros K; apply app_cons_nil in K; exact K).
  rewrite enum_one by (auto; intros K; apply app_cons_nil in K; exact K).
  rewrite !map_app. cbn [map fst]. rewrite !map_app. cbn [map fst]. split.
  - intros (ls & H & ->). apply Forall2_app_inv_l in H as (l1 & l2 & H1 & H2 & ->).
    inversion H2 as [|? l ? l3 Hx H3]; subst. apply Forall2_app_inv_l in H3 as (l4 & l5 & H4 & H5 & ->).
    inversion H5 as [|? l' ? l6 Hx' H6]; subst. apply ones_finite in Hx; [|exact Hv]. apply ones_finite in Hx'; [|exact Hv].
    assert (l' = l) as -> by (eapply enum_unique; eassumption).
    exists (l1 ++ l :: l4 ++ l6). split; [apply Forall2_app; [exact H1|constructor; [now left|now apply Forall2_app]]|].
    rewrite !concat_app. cbn [concat]. rewrite ?concat_app. cbn [concat].
    apply firsts_repeated.
  - intros (ls & H & ->). apply Forall2_app_inv_l in H as (l1 & l2 & H1 & H2 & ->).
    inversion H2 as [|? l ? l3 Hx H3]; subst. apply Forall2_app_inv_l in H3 as (l4 & l6 & H4 & H6 & ->).
    exists (l1 ++ l :: l4 ++ l :: l6). split; [apply Forall2_app; [exact H1|constructor; [exact Hx|apply Forall2_app; [exact H4|now constructor]]]|].
    rewrite !concat_app. cbn [concat]. rewrite ?concat_app. cbn [concat].
    symmetry. apply firsts_repeated.
Qed.
Lemma weights_equal : forall opts opts' lo hi sep m, map fst opts = map fst opts' ->
  Equal (Var opts lo hi sep m) (Var opts' lo hi sep m).
Proof.
  assert (Hx : forall opts opts' lo hi sep m c ts, map fst opts = map fst opts' ->
    Enum E c (Var opts lo hi sep m) ts -> Enum E c (Var opts' lo hi sep m) ts).
  { intros opts opts' lo hi sep m c ts Ho H.
    assert (Hlen : length opts' = length opts) by (rewrite <- (map_length fst opts), Ho; now rewrite map_length).
    inversion H; subst.
    - eapply En_var; try eassumption.
      + intros ->. destruct opts; [congruence|discriminate].
      + intros (w & mw & vs & q & ->). destruct opts as [|[v q0] [|? ?]]; try discriminate Hlen. injection Ho as ->.
        match goal with K : ~ lone_wildcard _ |- _ => apply K end. repeat eexists.
      + rewrite <- Ho, Hlen. eassumption.
    - destruct opts'; [|discriminate]. now constructor.
    - destruct opts' as [|[v q'] [|? ?]]; try discriminate Hlen. injection Ho as <-. eapply En_lone; try eassumption. reflexivity. }
  intros opts opts' lo hi sep m Ho. apply var_equal.
  - split; intros ->; [destruct opts'|destruct opts]; auto; discriminate.
  - intros c ts _. split; apply Hx; congruence.
Qed.
Lemma option_equal : forall x y q pre post sep m, Equal x y -> finite_mark x -> quiet m ->
  ~ lone_wildcard (pre ++ (x, q) :: post) -> ~ lone_wildcard (pre ++ (y, q) :: post) ->
  Equal (Var (pre ++ (x, q) :: post) 1 1 sep m) (Var (pre ++ (y, q) :: post) 1 1 sep m).
Proof.
  intros x y q pre post sep m (Hk & _ & _ & Hxy) Hf Hm Hx Hy.
  assert (Hfy : finite_mark y) by (unfold finite_mark in *; congruence).
  apply var_equal; [rewrite !app_cons_nil; tauto|]. intros c ts Hc.
  rewrite enum_one by (auto; intros K; apply app_cons_nil in K; exact K).
  rewrite enum_one by (auto; intros K; apply app_cons_nil in K; exact K).
  rewrite !map_app. cbn [map fst]. split; intros (ls & H & ->); exists ls; (split; [|reflexivity]);
    apply Forall2_app_inv_l in H as (l1 & l2 & H1 & H2 & ->); inversion H2 as [|? l ? l3 Hv H3]; subst;
    (apply Forall2_app; [exact H1|]); constructor; auto; apply ones_finite in Hv; auto; left; now apply Hxy.
Qed.

(** ** Parts of sequences *)
Lemma assigned_parts : forall sc ins ins', Forall (fun p => ~ is_assign p) ins -> Forall (fun p => ~ is_assign p) ins' ->
  forall pre post bs need, Assigned sc (pre ++ ins ++ post) bs need -> Assigned sc (pre ++ ins' ++ post) bs need.
Proof.
  intros sc ins ins' Hi Hi' pre post. induction pre as [|t pre IH]; intros bs need H; cbn [app] in *.
  - assert (H' : Assigned sc post bs need).
    { clear Hi'. induction Hi as [|p ins Hp _ IH]; [exact H|]. cbn [app] in H.
      inversion H; subst; try (now exfalso; apply Hp; repeat eexists). auto. }
    clear H Hi. induction Hi' as [|p ins' Hp _ IH]; [exact H'|]. now apply As_skip.
  - inversion H; subst; [apply As_skip|apply As_kept|apply As_lazy|apply As_literal|apply As_immediate]; auto.
Qed.
Lemma plain_parts : forall ins, Forall (fun p => ~ is_assign p) ins -> forall pre post toks, Plain (pre ++ ins ++ post) toks ->
  exists p1 p2, toks = p1 ++ ins ++ p2 /\ Plain pre p1 /\ Plain post p2.
Proof.
  intros ins Hi pre post. induction pre as [|t pre IH]; intros toks H; cbn [app] in *.
  - exists []. clear - Hi H. revert toks H. induction Hi as [|p ins Hp _ IH]; intros toks H; cbn [app] in *.
    + exists toks. split; [reflexivity|split; [constructor|exact H]].
    + inversion H; subst; [exfalso; apply Hp; repeat eexists|].
      match goal with K : Plain (ins ++ post) _ |- _ => destruct (IH _ K) as (p2 & -> & J1 & J2) end. exists p2. auto.
  - inversion H; subst;
      match goal with K : Plain (pre ++ ins ++ post) _ |- _ => destruct (IH _ K) as (p1 & p2 & -> & J1 & J2) end.
    + exists p1, p2. split; [reflexivity|]. split; [now constructor|exact J2].
    + exists (t :: p1), p2. split; [reflexivity|]. split; [now constructor|exact J2].
Qed.
Lemma parts_plain : forall ins, Forall (fun p => ~ is_assign p) ins -> forall pre post p1 p2, Plain pre p1 -> Plain post p2 ->
  Plain (pre ++ ins ++ post) (p1 ++ ins ++ p2).
Proof.
  intros ins Hi pre post p1 p2 H H2. induction H; cbn [app]; try (now constructor).
  induction Hi; cbn [app]; [exact H2|now constructor].
Qed.
Lemma occ_parts : forall (tok : command) ins ins', Forall (fun p => p <> tok) ins -> Forall (fun p => p <> tok) ins' ->
  forall pre post n, Occ tok (pre ++ ins ++ post) n -> Occ tok (pre ++ ins' ++ post) n.
Proof.
  intros tok ins ins' Hi Hi' pre post. induction pre as [|t pre IH]; intros n H; cbn [app] in *.
  - assert (H' : Occ tok post n).
    { clear Hi'. induction Hi as [|p ins Hp _ IH]; [exact H|]. cbn [app] in H. inversion H; subst; [congruence|auto]. }
    clear H Hi. induction Hi' as [|p ins' Hp _ IH]; [exact H'|]. now apply Occ_other.
  - inversion H; subst; [apply Occ_same|apply Occ_other]; auto.
Qed.
Lemma finite_other : forall tok ins, ~ finite_mark tok -> Forall finite_mark ins -> Forall (fun p => p <> tok) ins.
Proof. intros tok ins H. apply Forall_impl. intros p Hp ->. contradiction. Qed.
(** The finite parts [ins] are replaced by [ins']. *)
Lemma timed_parts : forall c stream ins ins' w1 w2, Forall finite_mark ins -> Forall finite_mark ins' ->
  forall k1 k2 ls, TimedParts E c stream (w1 ++ ins ++ w2) (k1 ++ ins ++ k2) ls ->
  exists l1 lists l2, ls = l1 ++ map (map (fun t _ => t)) lists ++ l2 /\ EnumAll E c ins lists /\
    Forall2 (fun tok l => mark_of tok = None -> l <> []) ins lists /\
    forall lists', EnumAll E c ins' lists' -> Forall2 (fun tok l => mark_of tok = None -> l <> []) ins' lists' ->
      TimedParts E c stream (w1 ++ ins' ++ w2) (k1 ++ ins' ++ k2) (l1 ++ map (map (fun t _ => t)) lists' ++ l2).
Proof.
  intros c stream ins ins' w1 w2 Hi Hi'.
  assert (Hocc : forall tok a b n, ~ finite_mark tok -> Occ tok (a ++ ins ++ b) n -> Occ tok (a ++ ins' ++ b) n)
    by (intros tok a b n Hf; apply occ_parts; now apply finite_other).
  assert (Hrest : forall k ls, TimedParts E c stream (w1 ++ ins ++ w2) k ls -> TimedParts E c stream (w1 ++ ins' ++ w2) k ls).
  { induction k as [|t k IH]; intros ls H; inversion H; subst; [constructor|apply TP_finite; auto|]. eapply TP_endless; eauto. }
  assert (Hnew : forall k2 l2, TimedParts E c stream (w1 ++ ins' ++ w2) k2 l2 -> forall lists', EnumAll E c ins' lists' ->
    Forall2 (fun tok l => mark_of tok = None -> l <> []) ins' lists' ->
    TimedParts E c stream (w1 ++ ins' ++ w2) (ins' ++ k2) (map (map (fun t _ => t)) lists' ++ l2)).
  { intros k2 l2 H lists' He. clear Hi' Hocc Hrest. generalize (w1 ++ ins' ++ w2) as whole, H. clear H. intros whole H.
    induction He as [|tok l toks lists' Ht _ IH]; intros Hn; [exact H|]. inversion Hn; subst. cbn [app map]. apply TP_finite; auto. }
  induction k1 as [|t k1 IH]; intros k2 ls H; cbn [app] in *.
  - exists []. cbn [app].
    assert (exists lists l2, ls = map (map (fun t _ => t)) lists ++ l2 /\ EnumAll E c ins lists /\
      Forall2 (fun tok l => mark_of tok = None -> l <> []) ins lists /\ TimedParts E c stream (w1 ++ ins ++ w2) k2 l2) as (lists & l2 & -> & H1 & H2 & H3).
    { clear - Hi H. revert ls H. generalize (w1 ++ ins ++ w2) as whole. intros whole.
      induction Hi as [|p ins Hp _ IH]; intros ls H; cbn [app] in *.
      - exists [], ls. repeat split; [constructor|constructor|exact H].
      - inversion H; subst; [|contradiction].
        match goal with K : TimedParts _ _ _ _ (ins ++ k2) _ |- _ => destruct (IH _ K) as (lists & l2 & -> & J1 & J2 & J3) end.
        exists (ts :: lists), l2. repeat split; [constructor; auto|constructor; auto|exact J3]. }
    exists lists, l2. repeat split; auto.
  - inversion H; subst;
      match goal with K : TimedParts _ _ _ _ (k1 ++ ins ++ k2) _ |- _ => destruct (IH _ _ K) as (l1 & lists & l2 & -> & J1 & J2 & J3) end.
    + exists (map (fun t _ => t) ts :: l1), lists, l2. repeat split; auto. intros lists' Ha Hb. cbn [app]. apply TP_finite; auto.
    + eexists (_ :: l1), lists, l2. repeat split; [exact J1|exact J2|]. intros lists' Ha Hb. cbn [app]. eapply TP_endless; eauto.
Qed.
Lemma seq_parts : forall ins ins' sep m, Forall finite_mark ins -> Forall finite_mark ins' ->
  Forall (fun p => ~ is_assign p) ins -> Forall (fun p => ~ is_assign p) ins' ->
  (forall c lists, c_method c = Combinatorial -> EnumAll E c ins lists -> Forall2 (fun tok l => mark_of tok = None -> l <> []) ins lists ->
     exists lists', EnumAll E c ins' lists' /\ Forall2 (fun tok l => mark_of tok = None -> l <> []) ins' lists' /\
       forall (l1 l2 : list (list (nat -> text))),
         Forall2 (fun a b => forall j, interleave sep (at_time a j) = interleave sep (at_time b j))
           (product (l1 ++ map (map (fun t _ => t)) lists ++ l2)) (product (l1 ++ map (map (fun t _ => t)) lists' ++ l2))) ->
  forall pre post c ts, c_method c = Combinatorial -> Enum E c (Seq (pre ++ ins ++ post) sep m) ts -> Enum E c (Seq (pre ++ ins' ++ post) sep m) ts.
Proof.
  intros ins ins' sep m Hi Hi' Ha Ha' Hx pre post c ts Hc H.
  inversion H as [|? ? ? ? bs need c' toks stream ls Hm Has Hfs Hext Hpl Htp| | | | | |]; subst.
  apply (plain_parts ins Ha) in Hpl as (p1 & p2 & -> & Hp1 & Hp2).
  destruct (timed_parts _ _ _ ins' _ _ Hi Hi' _ _ _ Htp) as (l1 & lists & l2 & -> & H1 & H2 & H3).
  assert (Hc' : c_method c' = Combinatorial) by (destruct Hext as [[(K & _) _] _]; cbn in K; congruence).
  destruct (Hx c' lists Hc' H1 H2) as (lists' & H1' & H2' & HR).
  specialize (HR l1 l2). specialize (H3 _ H1' H2').
  assert (Heq : forall (A B : list (list (nat -> text))), Forall2 (fun a b => forall j, interleave sep (at_time a j) = interleave sep (at_time b j)) A B ->
    map (fun ja => interleave sep (at_time (snd ja) (fst ja))) (numbered A) = map (fun ja => interleave sep (at_time (snd ja) (fst ja))) (numbered B)).
  { intros A B K. unfold numbered. generalize 0 as k. induction K as [|a b A B Hab _ IH]; intros k; [reflexivity|].
    cbn. f_equal; [apply Hab|apply IH]. }
  rewrite (Heq _ _ HR).
  eapply En_seq; [exact Hm|eapply assigned_parts; [exact Ha|exact Ha'|exact Has]|exact Hfs|exact Hext|apply (parts_plain _ Ha' _ _ _ _ Hp1 Hp2)|exact H3].
Qed.
(** What is shown inside a sequence. *)
Definition Shows (sep : text) (b b' : list (nat -> text)) : Prop :=
  forall a d j, interleave sep (at_time (a ++ b ++ d) j) = interleave sep (at_time (a ++ b' ++ d) j).
Lemma forall2_flat : forall (A A' B B' : Type) (R : A -> A' -> Prop) (Q : B -> B' -> Prop) f g l l', Forall2 R l l' ->
  (forall x y, R x y -> Forall2 Q (f x) (g y)) -> Forall2 Q (flat_map f l) (flat_map g l').
Proof. intros A A' B B' R Q f g l l' H Hq. induction H; cbn; [constructor|]. apply Forall2_app; auto. Qed.
Lemma forall2_map : forall (A A' B B' : Type) (R : A -> A' -> Prop) (Q : B -> B' -> Prop) f g l l', Forall2 R l l' ->
  (forall x y, R x y -> Q (f x) (g y)) -> Forall2 Q (map f l) (map g l').
Proof. intros A A' B B' R Q f g l l' H Hq. induction H; cbn; constructor; auto. Qed.
Lemma forall2_refl : forall (A : Type) (l : list A), Forall2 eq l l.
Proof. induction l; constructor; auto. Qed.
Lemma shown : forall sep X X', Forall2 (Shows sep) (product X) (product X') -> forall l1 l2,
  Forall2 (fun a b => forall j, interleave sep (at_time a j) = interleave sep (at_time b j)) (product (l1 ++ X ++ l2)) (product (l1 ++ X' ++ l2)).
Proof.
  intros sep X X' H l1 l2. rewrite !product_app. eapply forall2_flat; [apply forall2_refl|]. intros a ? <-.
  eapply forall2_map with (R := fun u v => forall j, interleave sep (at_time (a ++ u) j) = interleave sep (at_time (a ++ v) j)); [|auto].
  eapply forall2_flat; [exact H|]. intros b b' Hb. eapply forall2_map; [apply forall2_refl|]. intros d ? <- j. apply Hb.
Qed.
Lemma shown_again : forall sep (ps : list (list (nat -> text))), Forall2 (Shows sep) ps ps.
Proof. intros sep ps. induction ps; constructor; auto. intros a' d j. reflexivity. Qed.
Lemma shown_sym : forall sep ps qs, Forall2 (Shows sep) ps qs -> Forall2 (Shows sep) qs ps.
Proof. intros sep ps qs H. induction H; constructor; auto. intros a d j. symmetry. apply H. Qed.
Lemma part_equal : forall x y pre post sep m, Equal x y -> finite_mark x -> ~ is_assign x ->
  Equal (Seq (pre ++ x :: post) sep m) (Seq (pre ++ y :: post) sep m).
Proof.
  assert (Hdir : forall x y, Equal x y -> finite_mark x -> ~ is_assign x -> forall pre post sep m c ts, c_method c = Combinatorial ->
    Enum E c (Seq (pre ++ x :: post) sep m) ts -> Enum E c (Seq (pre ++ y :: post) sep m) ts).
  { intros x y (Hk & Has & _ & Hxy) Hf Hna pre post sep m c ts Hc H.
    assert (Hfy : finite_mark y) by (unfold finite_mark in *; congruence). assert (Hnay : ~ is_assign y) by tauto.
    apply (seq_parts [x] [y] sep m); auto. intros d lists Hd Hl Hn. exists lists. split; [|split].
    - inversion Hl as [|? l ? ? Hx Hr]; subst. inversion Hr; subst. constructor; [now apply Hxy|constructor].
    - inversion Hn as [|? l ? ? Hx Hr]; subst. inversion Hr; subst. constructor; [now rewrite <- Hk|constructor].
    - apply shown, shown_again. }
  intros x y pre post sep m He Hf Hna. apply seq_equal; [rewrite !app_cons_nil; tauto|]. intros c ts Hc. split; [now apply Hdir|].
  pose proof (equal_sym _ _ He) as He'. destruct He as (Hk & Has & Hn & Hxy).
  apply Hdir; auto; [unfold finite_mark in *; congruence|tauto].
Qed.

(** ** Grouping *)
Lemma interleave_app : forall sep a b, a <> [] -> interleave sep (a ++ b) = interleave sep a ++ flat_map (fun y => sep ++ y) b.
Proof. intros sep [|x a] b H; [congruence|]. cbn. now rewrite flat_map_app, app_assoc. Qed.
Lemma interleave_tail : forall sep b, b <> [] -> flat_map (fun y => sep ++ y) b = sep ++ interleave sep b.
Proof. intros sep [|x b] H; [congruence|]. cbn. now rewrite app_assoc. Qed.
Lemma interleave_group : forall sep a b d, b <> [] -> interleave sep (a ++ [interleave sep b] ++ d) = interleave sep (a ++ b ++ d).
Proof.
  intros sep a b d Hb. destruct a as [|x a].
  - cbn [app]. rewrite (interleave_app sep b d Hb). reflexivity.
  - rewrite !(interleave_app sep (x :: a)) by discriminate. f_equal. rewrite !flat_map_app, (interleave_tail sep b Hb).
    cbn. now rewrite app_nil_r.
Qed.
Lemma product_const : forall (lists : list (list text)),
  product (map (map (fun t (_ : nat) => t)) lists) = map (map (fun t _ => t)) (product lists).
Proof.
  induction lists as [|l lists IH]; [reflexivity|]. cbn [product map]. rewrite IH. clear IH.
  induction l as [|x l IH]; [reflexivity|]. cbn [flat_map map]. rewrite map_app, IH. f_equal. rewrite !map_map. reflexivity.
Qed.
Lemma product_length : forall (A : Type) (ls : list (list A)) b, In b (product ls) -> length b = length ls.
Proof.
  intros A ls. induction ls as [|l ls IH]; intros b H; cbn [product] in H.
  - destruct H as [<-|[]]. reflexivity.
  - apply in_flat_map in H as (x & _ & H). apply in_map_iff in H as (b' & <- & H). cbn. f_equal. now apply IH.
Qed.
Lemma group_shows : forall sep lists, lists <> [] ->
  Forall2 (Shows sep) (product (map (map (fun t _ => t)) [map (interleave sep) (product lists)]))
                      (product (map (map (fun t _ => t)) lists)).
Proof.
  intros sep lists Hl. rewrite !product_const, product_one, map_map. 
  assert (H : forall b, In b (product lists) -> b <> []) by (intros b Hb ->; apply product_length in Hb; destruct lists; [congruence|discriminate]).
  induction (product lists) as [|b ps IH]; cbn [map]; [constructor|]. constructor; [|apply IH; intros b' Hb; apply H; now right].
  intros a d j. unfold at_time. rewrite !map_app, map_map. cbn [map]. rewrite map_id. apply interleave_group. apply H. now left.
Qed.
Lemma timed_length : forall c stream whole toks ls, TimedParts E c stream whole toks ls -> length ls = length toks.
Proof. intros c stream whole toks. induction toks; intros ls H; inversion H; subst; cbn; auto. Qed.
Lemma seq_lists : forall c ins sep m ts, Forall finite_mark ins -> Forall (fun p => ~ is_assign p) ins ->
  Enum E c (Seq ins sep m) ts -> exists lists, EnumAll E c ins lists /\
    Forall2 (fun tok l => mark_of tok = None -> l <> []) ins lists /\ ts = map (interleave sep) (product lists).
Proof.
  intros c ins sep m ts Hi Ha H.
  inversion H as [|? ? ? ? bs need c' toks stream ls Hm Has Hfs Hext Hpl Htp| | | | | |]; subst.
  assert (bs = []) as ->.
  { clear - Has Ha. induction Ha as [|p ins Hp _ IH]; inversion Has; subst; auto; exfalso; apply Hp; repeat eexists. }
  assert (toks = ins) as ->.
  { clear - Hpl Ha. revert toks Hpl. induction Ha as [|p ins Hp _ IH]; intros toks Hpl; inversion Hpl; subst; auto; [exfalso; apply Hp; repeat eexists|].
    f_equal. auto. }
  pose proof (extends_nil_same _ _ Hext) as Hs.
  pose proof (timed_parts c' stream ins ins [] [] Hi Hi [] [] ls) as K. cbn [app] in K. rewrite app_nil_r in K.
  destruct (K Htp) as (l1 & lists & l2 & -> & H1 & H2 & _). exists lists.
  assert (length (l1 ++ map (map (fun t _ => t)) lists ++ l2) = length ins).
  { eapply timed_length. exact Htp. }
  assert (l1 = [] /\ l2 = []) as [-> ->].
  { pose proof (EnumAll_length _ _ _ _ H1) as L. rewrite !app_length, map_length in H0. destruct l1, l2; cbn in *; auto; lia. }
  cbn [app] in *. rewrite app_nil_r. split; [|split; [exact H2|]].
  - clear - H1 Hs. induction H1; constructor; auto. eapply (proj1 enum_same); eassumption.
  - rewrite <- (parts_const lists), map_map. reflexivity.
Qed.
Lemma grouped_equal : forall pre ins post sep m, ins <> [] ->
  Forall (fun part => mark_of part = None /\ ~ is_assign part) ins ->
  Equal (Seq (pre ++ Seq ins sep None :: post) sep m) (Seq (pre ++ ins ++ post) sep m).
Proof.
  intros pre ins post sep m Hne Hall.
  assert (Hi : Forall finite_mark ins) by (eapply Forall_impl; [|exact Hall]; intros p [K _]; now left).
  assert (Ha : Forall (fun p => ~ is_assign p) ins) by (eapply Forall_impl; [|exact Hall]; intros p [_ K]; exact K).
  assert (Hi1 : Forall finite_mark [Seq ins sep None]) by (constructor; [now left|constructor]).
  assert (Ha1 : Forall (fun p => ~ is_assign p) [Seq ins sep None]) by (constructor; [intros (? & ? & ? & ? & K); discriminate|constructor]).
  apply seq_equal; [rewrite app_cons_nil; split; [tauto|]; intros K; apply app_eq_nil in K as [_ K]; apply app_eq_nil in K as [K _]; congruence|].
  intros c ts Hc. split; intros H.
  - apply (seq_parts [Seq ins sep None] ins sep m); auto. intros d lists Hd Hl Hn.
    inversion Hl as [|? l ? ? Hx Hr]; subst. inversion Hr; subst. clear Hl Hr.
    apply seq_lists in Hx as (lists & H1 & H2 & ->); [|assumption|assumption]. exists lists. split; [exact H1|split; [exact H2|]].
    apply shown, group_shows. intros ->. inversion H1; subst. congruence.
  - apply (seq_parts ins [Seq ins sep None] sep m); auto. intros d lists Hd Hl Hn.
    exists [map (interleave sep) (product lists)]. split; [|split].
    + constructor; [|constructor]. apply Enum_product; auto. now left.
    + constructor; [|constructor]. intros _. apply map_ne, EndFacts.product_nonempty.
      clear - Hn Hall. induction Hn as [|p l ins lists Hp _ IH]; constructor; inversion Hall; subst; auto. apply Hp. tauto.
    + apply shown, shown_sym, group_shows. intros ->. inversion Hl; subst. congruence.
Qed.

(** ** Spreading *)
Lemma same_lists : forall x y, mark_of x = mark_of y -> ~ is_assign x -> ~ is_assign y -> Nonempty x -> Nonempty y ->
  (forall c, c_method c = Combinatorial -> exists l, Enum E c x l /\ Enum E c y l) -> Equal x y.
Proof.
  intros x y Hm Hx Hy Hnx Hny H. split; [exact Hm|]. split; [tauto|]. split; [tauto|]. intros c ts Hc.
  destruct (H c Hc) as (l & H1 & H2). split; intros K.
  - now rewrite (enum_unique _ _ _ _ Hc K H1).
  - now rewrite (enum_unique _ _ _ _ Hc K H2).
Qed.
Lemma simple_mark : forall cmd, Simple cmd -> finite_mark cmd /\ ~ is_assign cmd.
Proof. intros cmd H. inversion H; subst; (split; [assumption|intros (? & ? & ? & ? & K); discriminate]). Qed.
Lemma simple_wild : forall cmd w m vs, Simple cmd -> cmd <> Wild w m vs.
Proof. intros cmd w m vs H. inversion H; discriminate. Qed.
Lemma around_product : forall (a d : text) l, map (interleave []) (product [[a]; l; [d]]) = map (fun t => a ++ t ++ d) l.
Proof.
  intros a d l. cbn [product flat_map map app]. rewrite app_nil_r. rewrite !map_map. 
  induction l as [|t l IH]; [reflexivity|]. cbn [flat_map map app]. rewrite IH. cbn. now rewrite app_nil_r.
Qed.
Lemma around_list : forall c a v d l m, finite_mark (Lit a m) -> Enum E c v l -> l <> [] -> ~ is_assign v ->
  Enum E c (Seq [Lit a None; v; Lit d None] [] m) (map (fun t => a ++ t ++ d) l).
Proof.
  intros c a v d l m Hm Hv Hl Ha. rewrite <- around_product. apply Enum_product.
  - exact Hm.
  - repeat constructor; try exact Ha; intros (? & ? & ? & ? & K); discriminate.
  - constructor; [constructor; now left|]. constructor; [exact Hv|]. constructor; [constructor; now left|constructor].
  - constructor; [discriminate|]. constructor; [auto|]. constructor; [discriminate|constructor].
Qed.
Lemma spread_equal : forall a opts d sep m m', quiet m -> quiet m' -> opts <> [] -> Forall (fun o => Simple (fst o)) opts ->
  Equal (Seq [Lit a None; Var opts 1 1 sep m'; Lit d None] [] m)
        (Var (map (fun o => (Seq [Lit a None; fst o; Lit d None] [] None, snd o)) opts) 1 1 sep m).
Proof.
  intros a opts d sep m m' Hm Hm' Hne Hs.
  assert (Hl : ~ lone_wildcard opts).
  { intros (w & mw & vs & q & ->). inversion Hs as [|? ? K _]; subst. cbn in K. now apply (simple_wild _ w mw vs K). }
  assert (Hl2 : ~ lone_wildcard (map (fun o => (Seq [Lit a None; fst o; Lit d None] [] None, snd o)) opts)).
  { intros (w & mw & vs & q & K). destruct opts as [|? [|? ?]]; discriminate K. }
  assert (Hne2 : map (fun o : command * Qc => (Seq [Lit a None; fst o; Lit d None] [] None, snd o)) opts <> []) by (destruct opts; [congruence|discriminate]).
  apply same_lists; try reflexivity; try (intros (? & ? & ? & ? & K); discriminate).
  { split; discriminate. }
  { split; [discriminate|]. intros lo hi s' m0 K. injection K as K _ _ _ _. contradiction. }
  intros c Hc.
  assert (exists ls, Forall2 (Enum E c) (map fst opts) ls /\ Forall (fun l => l <> []) ls) as (ls & H1 & H2).
  { clear - Hs. induction Hs as [|o opts Ho _ (ls & H1 & H2)]; [exists []; split; constructor|].
    destruct (Simple_lists E c _ Ho) as (l & Hl & Hn). exists (l :: ls). split; constructor; auto. }
  exists (map (fun t => a ++ t ++ d) (firsts (concat ls))). split.
  - apply around_list; [exact Hm| | |intros (? & ? & ? & ? & K); discriminate].
    + apply enum_one; try assumption. exists ls. split; [|reflexivity]. clear - H1. induction H1; constructor; auto. now left.
    + apply firsts_nonempty. destruct opts; [congruence|]. inversion H1; subst. inversion H2; subst. destruct y; [congruence|discriminate].
  - apply enum_one; try assumption. exists (map (map (fun t => a ++ t ++ d)) ls). split.
    + rewrite map_map. cbn [fst]. clear - H1 H2 Hs. revert ls H1 H2. induction Hs as [|o opts Ho _ IH]; intros ls H1 H2; inversion H1; subst; cbn [map]; constructor.
      * inversion H2; subst. left. apply around_list; auto; [now left|]. now apply simple_mark.
      * inversion H2; subst. auto.
    + rewrite <- concat_map. symmetry. apply firsts_map. intros x y K. apply app_inv_head in K. now apply app_inv_tail in K.
Qed.

(** ** Texts *)
Lemma texts_lists : forall c ws lists, EnumAll E c (map (fun t => Lit t None) ws) lists -> lists = map (fun t => [t]) ws.
Proof.
  intros c ws. induction ws as [|w ws IH]; intros lists H; inversion H as [|? l ? ls Hx Hr]; subst; [reflexivity|].
  inversion Hx; subst. cbn. f_equal. auto.
Qed.
Lemma lists_texts : forall c ws, EnumAll E c (map (fun t => Lit t None) ws) (map (fun t => [t]) ws) /\
  Forall2 (fun tok (l : list text) => mark_of tok = None -> l <> []) (map (fun t => Lit t None) ws) (map (fun t => [t]) ws) /\
  Forall finite_mark (map (fun t => Lit t None) ws) /\ Forall (fun p => ~ is_assign p) (map (fun t => Lit t None) ws).
Proof.
  intros c ws. induction ws as [|w ws (H1 & H2 & H3 & H4)]; [repeat split; constructor|]. cbn [map].
  split; [constructor; [constructor; now left|exact H1]|]. split; [constructor; [discriminate|exact H2]|].
  split; constructor; auto; [now left|]. intros (? & ? & ? & ? & K); discriminate.
Qed.
Lemma texts_dir : forall ws vs, interleave [] ws = interleave [] vs -> ws <> [] -> vs <> [] -> forall pre post m c ts, c_method c = Combinatorial ->
  Enum E c (Seq (pre ++ map (fun t => Lit t None) ws ++ post) [] m) ts -> Enum E c (Seq (pre ++ map (fun t => Lit t None) vs ++ post) [] m) ts.
Proof.
  intros ws vs Hwv Hw Hv pre post m c ts Hc H. 
  destruct (lists_texts c ws) as (_ & _ & Hf & Ha), (lists_texts c vs) as (_ & _ & Hf' & Ha').
  apply (seq_parts (map (fun t => Lit t None) ws) (map (fun t => Lit t None) vs) [] m); auto. intros d lists Hd Hl Hn.
  apply texts_lists in Hl as ->. exists (map (fun t => [t]) vs). destruct (lists_texts d vs) as (H1 & H2 & _).
  split; [exact H1|split; [exact H2|]]. apply shown. rewrite !product_const.
  assert (Hp : forall us : list text, product (map (fun t => [t]) us) = [us]).
  { induction us as [|u us IH]; [reflexivity|]. cbn [map product flat_map]. rewrite IH. reflexivity. }
  rewrite !Hp. cbn [map]. constructor; [|constructor]. intros a b j. unfold at_time. rewrite !map_app, !map_map, !map_id.
  rewrite <- (interleave_group [] _ ws), <- (interleave_group [] _ vs) by assumption. now rewrite Hwv.
Qed.
Lemma texts_equal : forall pre a b post m,
  Equal (Seq (pre ++ Lit a None :: Lit b None :: post) [] m) (Seq (pre ++ Lit (a ++ b) None :: post) [] m).
Proof.
  intros pre a b post m. apply seq_equal; [rewrite !app_cons_nil; tauto|]. intros c ts Hc.
  split; intros H; [apply (texts_dir [a; b] [a ++ b])|apply (texts_dir [a ++ b] [a; b])]; auto; try discriminate; cbn; now rewrite !app_nil_r.
Qed.
Lemma alone_equal : forall x sep, Simple x -> Nonempty x -> mark_of x = None -> Equal (Seq [x] sep None) x.
Proof.
  intros x sep Hs Hn Hm. destruct (simple_mark x Hs) as [Hf Ha]. apply same_lists; auto.
  - intros (? & ? & ? & ? & K); discriminate.
  - split; discriminate.
  - intros c Hc. destruct (Simple_lists E c x Hs) as (l & Hl & Hne). exists l. split; [|exact Hl].
    replace l with (map (interleave sep) (product [l])).
    + apply Enum_product; [now left|constructor; [exact Ha|constructor]|constructor; [exact Hl|constructor]|constructor; [auto|constructor]].
    + rewrite product_one, map_map. cbn. clear. induction l as [|t l IH]; [reflexivity|]. cbn. now rewrite app_nil_r, IH.
Qed.

(** ** Wraps *)
Lemma wrap_equal : forall x y w z m, Equal x y -> Equal w z -> Equal (Wrap x w m) (Wrap y z m).
Proof.
  assert (Hp : forall x y c l, Equal x y -> c_method c = Combinatorial -> EnumPrompt E c (WCmd x) l -> EnumPrompt E c (WCmd y) l).
  { intros x y c l (_ & _ & Hn & Hxy) Hc H. inversion H as [? ? cmd ts us Hr He Ht| |]; subst.
    - inversion Hr; subst. eapply EnP_reads; [apply Reads_command; tauto|apply Hxy; eassumption|exact Ht].
    - apply EnP_falsy. tauto. }
  pose proof equal_sym as Hs.
  intros x y w z m Hx Hw. split; [reflexivity|]. split; [split; intros (? & ? & ? & ? & K); discriminate|].
  split; [split; intros _; split; discriminate|]. intros c ts Hc.
  split; intros H; inversion H as [| | | | | | |? ? ? ? ws is ? Hm H1 H2 H3]; subst; (eapply En_wrap; [exact Hm| | |exact H3]); eapply Hp; eauto.
Qed.
Theorem alike_equal : forall x y, Alike x y -> Equal x y.
Proof.
  intros x y H. induction H.
  - now apply nested_equal.
  - now apply repeated_equal.
  - now apply weights_equal.
  - now apply grouped_equal.
  - apply texts_equal.
  - now apply alone_equal.
  - now apply spread_equal.
  - apply equal_refl.
  - now apply equal_sym.
  - destruct IHAlike1 as (Hk & Has & Hn & Hxy), IHAlike2 as (Hk' & Has' & Hn' & Hxy'). split; [congruence|]. split; [tauto|]. split; [tauto|].
    intros c ts Hc. rewrite Hxy by exact Hc. now apply Hxy'.
  - now apply part_equal.
  - now apply option_equal.
  - apply wrap_equal; [assumption|apply equal_refl].
  - apply wrap_equal; [apply equal_refl|assumption].
Qed.
End Same.

(** * Runs *)
Lemma alike_prompts : forall E c s s' x y ts, c_method c = Combinatorial -> Alike x y -> s <> [] -> s' <> [] ->
  env_parse E s = Ok x -> env_parse E s' = Ok y -> EnumPrompt E c (WStr s) ts -> EnumPrompt E c (WStr s') ts.
Proof.
  intros E c s s' x y ts Hc Ha Hs Hs' Hx Hy H. inversion H as [? ? cmd us vs Hr He Ht| |]; subst; [|congruence].
  inversion Hr; subst. assert (cmd = x) as -> by congruence.
  eapply EnP_reads with (cmd := y); [apply Reads_text; [assumption|exact Hy]|exact (proj1 (proj2 (proj2 (proj2 (alike_equal E _ _ Ha))) _ _ Hc) He)|exact Ht].
Qed.
Lemma alike_generated : forall G E c s s' x y limit ts, c_method c = Combinatorial -> Alike x y -> s <> [] -> s' <> [] ->
  env_parse E s = Ok x -> env_parse E s' = Ok y -> EnumPrompt E c (WStr s) ts ->
  exists f, forall m steps r, f <= m -> length (at_most limit ts) < steps ->
    combinatorial_generate G E m steps c s limit r = Ret (at_most limit ts) r /\
    combinatorial_generate G E m steps c s' limit r = Ret (at_most limit ts) r.
Proof.
  intros G E c s s' x y limit ts Hc Ha Hs Hs' Hx Hy H.
  pose proof (alike_prompts E c s s' x y ts Hc Ha Hs Hs' Hx Hy H) as H'.
  destruct (combinatorial_list G E c s limit ts Hc H) as (f & Hf).
  destruct (combinatorial_list G E c s' limit ts Hc H') as (f' & Hf').
  exists (Nat.max f f'). intros m steps r Hm Hl. split; [apply Hf|apply Hf']; auto; lia.
Qed.
