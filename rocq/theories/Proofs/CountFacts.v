(** Counting what a combinatorial run lists. *)
From Coq Require Import NArith ZArith QArith Qcanon Bool Arith List Permutation Lia.
From Verif.Model Require Import Str Command Values Context Rng Utils Sampler.
From Verif.Spec Require Import Text Comb Items Lang Enum Count.
From Verif.Proofs Require Import StrFacts CommandFacts UtilsFacts CombFacts Soundness EnumFacts EnumRun ExhaustFacts MixedFacts StackFacts.
Import ListNotations.
Local Open Scope nat_scope.

Lemma sum_app : forall a b, sum (a ++ b) = sum a + sum b.
Proof. intros a b. unfold sum. induction a as [|x a IH]; cbn; [reflexivity|]. rewrite IH. lia. Qed.
Lemma sum_Permutation : forall a b, Permutation a b -> sum a = sum b.
Proof. unfold sum. induction 1; cbn; lia. Qed.
Lemma sum_flat_map : forall {A} (f : A -> list nat) l, sum (flat_map f l) = sum (map (fun x => sum (f x)) l).
Proof. intros A f l. induction l as [|x l IH]; cbn; [reflexivity|]. rewrite sum_app, IH. reflexivity. Qed.
Lemma sum_scale : forall n l, sum (map (fun x => n * x) l) = n * sum l.
Proof. intros n l. unfold sum. induction l as [|x l IH]; cbn; [lia|]. rewrite IH. lia. Qed.
Lemma length_flat_map : forall {A B} (f : A -> list B) l, length (flat_map f l) = sum (map (fun x => length (f x)) l).
Proof. intros A B f l. induction l as [|x l IH]; cbn; [reflexivity|]. rewrite app_length, IH. reflexivity. Qed.
Lemma product_length : forall {A} (ls : list (list A)), length (product ls) = prod (map (@length A) ls).
Proof.
  intros A ls. induction ls as [|l ls IH]; [reflexivity|]. cbn [product]. rewrite length_flat_map.
  cbn [map]. unfold prod in *. cbn [fold_right]. rewrite <- IH. clear IH.
  induction l as [|x l IH]; [reflexivity|]. unfold sum in *. cbn [map fold_right length]. rewrite IH, map_length. reflexivity.
Qed.

(** * Selections one member at a time *)
Fixpoint choose {A} (l : list A) (k : nat) : list (list A) :=
  match k with
  | O => [[]]
  | S k' => flat_map (fun p => map (cons (fst p)) (choose (snd p) k')) (picks l)
  end.
Lemma picks_In : forall {A} (l : list A) x r, In (x, r) (picks l) -> exists a b, l = a ++ x :: b /\ r = a ++ b.
Proof.
  intros A l. induction l as [|y l IH]; intros x r H; [destruct H|]. cbn in H. destruct H as [E|H].
  - injection E as <- <-. exists [], l. auto.
  - apply in_map_iff in H as ([x' r'] & E & H). cbn in E. injection E as <- <-.
    destruct (IH x' r' H) as (a & b & -> & ->). exists (y :: a), b. auto.
Qed.
Lemma In_picks : forall {A} (l : list A) x, In x l -> exists r, In (x, r) (picks l).
Proof.
  intros A l x. induction l as [|y l IH]; intros H; [destruct H|]. destruct H as [->|H].
  - exists l. left. reflexivity.
  - destruct (IH H) as (r & Hr). exists (y :: r). right. apply in_map_iff. exists (x, r). auto.
Qed.
Lemma picks_fst : forall {A} (l : list A), map fst (picks l) = l.
Proof. intros A l. induction l as [|x l IH]; [reflexivity|]. cbn. rewrite map_map. cbn. f_equal. exact IH. Qed.
Lemma choose_In : forall {A} k (l t : list A), NoDup l -> (In t (choose l k) <-> Selection k l t).
Proof.
  intros A k. induction k as [|k IH]; intros l t Hl.
  - cbn. unfold Selection. split.
    + intros [<-|[]]. repeat split; [constructor|intros x []].
    + intros (H & _ & _). destruct t; [auto|discriminate].
  - cbn [choose]. rewrite in_flat_map. split.
    + intros ([x r] & Hp & Ht). cbn [fst snd] in Ht. apply in_map_iff in Ht as (u & <- & Hu).
      apply picks_In in Hp as (a & b & -> & ->). pose proof (NoDup_remove_1 _ _ _ Hl) as H1.
      pose proof (NoDup_remove_2 _ _ _ Hl) as H2. apply (IH _ u H1) in Hu as (A1 & A2 & A3).
      repeat split; [cbn; lia|constructor; [|exact A2]|].
      * intros Hx. apply H2, A3, Hx.
      * intros y [<-|Hy]; [apply in_or_app; right; left; reflexivity|].
        apply A3, in_app_or in Hy. apply in_or_app. destruct Hy; [left|right; right]; assumption.
    + intros (H1 & H2 & H3). destruct t as [|x t]; [discriminate|]. inversion H2 as [|? ? Hx Ht]; subst.
      destruct (In_picks l x) as (r & Hr); [apply H3; left; reflexivity|]. exists (x, r). split; [exact Hr|].
      cbn [fst snd]. apply in_map. apply picks_In in Hr as (a & b & -> & ->).
      apply IH; [exact (NoDup_remove_1 _ _ _ Hl)|]. repeat split; [cbn in H1; lia|exact Ht|].
      intros y Hy. assert (Hy' : In y (a ++ x :: b)) by (apply H3; right; exact Hy).
      apply in_or_app. apply in_app_or in Hy' as [Hy'|[->|Hy']]; auto. contradiction.
Qed.
Lemma NoDup_flat_map : forall {A B} (f : A -> list B) l,
  NoDup l -> (forall x, In x l -> NoDup (f x)) ->
  (forall x y b, In x l -> In y l -> In b (f x) -> In b (f y) -> x = y) -> NoDup (flat_map f l).
Proof.
  intros A B f l Hl. induction Hl as [|x l Hx Hl IH]; intros H1 H2; [constructor|]. cbn.
  assert (Hf : NoDup (flat_map f l)).
  { apply IH; [intros y Hy; apply H1; right; exact Hy|]. intros y z b Hy Hz. apply H2; right; assumption. }
  pose proof (H1 x (or_introl eq_refl)) as Hfx.
  assert (Hd : forall b, In b (f x) -> ~ In b (flat_map f l)).
  { intros b Hb Hi. apply in_flat_map in Hi as (y & Hy & Hb'). apply Hx.
    rewrite (H2 x y b); auto; [left; reflexivity|right; exact Hy]. }
  clear -Hf Hfx Hd. induction (f x) as [|b bs IH]; [exact Hf|]. inversion Hfx; subst. cbn. constructor.
  - intros Hi. apply in_app_or in Hi as [Hi|Hi]; [contradiction|]. apply (Hd b); [left; reflexivity|exact Hi].
  - apply IH; [assumption|]. intros b' Hb'. apply Hd. right. exact Hb'.
Qed.
Lemma NoDup_map_inj : forall {A B} (f : A -> B) l, (forall x y, f x = f y -> x = y) -> NoDup l -> NoDup (map f l).
Proof.
  intros A B f l Hf H. induction H as [|x l Hx H IH]; cbn; constructor; [|exact IH].
  intros Hi. apply in_map_iff in Hi as (y & E & Hy). apply Hf in E. subst. contradiction.
Qed.
Lemma choose_NoDup : forall {A} k (l : list A), NoDup l -> NoDup (choose l k).
Proof.
  intros A k. induction k as [|k IH]; intros l Hl; [repeat constructor; intros []|].
  cbn [choose]. apply NoDup_flat_map.
  - apply (NoDup_map_inv fst). rewrite picks_fst. exact Hl.
  - intros [x r] Hp. cbn [fst snd]. apply NoDup_map_inj; [congruence|]. apply IH.
    apply picks_In in Hp as (a & b & -> & ->). exact (NoDup_remove_1 _ _ _ Hl).
  - intros [x r] [y s] t Hx Hy Ht Ht'. cbn [fst snd] in *.
    apply in_map_iff in Ht as (u & <- & _). apply in_map_iff in Ht' as (u' & E & _). injection E as <- _.
    f_equal. apply picks_In in Hx as (a & b & -> & ->). apply picks_In in Hy as (a' & b' & E & ->).
    assert (a = a' /\ b = b') as [-> ->]; [|reflexivity].
    clear -Hl E. revert a' E. induction a as [|z a IH]; intros [|z' a'] E; cbn in *.
    + injection E as ->. auto.
    + injection E as <- ->. exfalso. inversion Hl; subst. apply H1, in_or_app. right. left. reflexivity.
    + injection E as E1 E2. subst. exfalso. inversion Hl; subst. apply H1, in_or_app. right. left. reflexivity.
    + injection E as <- E. inversion Hl; subst. destruct (IH H2 a' E) as [-> ->]. auto.
Qed.
Lemma picks_map : forall {A B} (f : A -> B) l, picks (map f l) = map (fun p => (f (fst p), map f (snd p))) (picks l).
Proof.
  intros A B f l. induction l as [|x l IH]; [reflexivity|]. cbn. rewrite IH, !map_map. reflexivity.
Qed.
Lemma choose_weight : forall {A} (f : A -> nat) k l,
  sum (map (fun t => prod (map f t)) (choose l k)) = ways (map f l) k.
Proof.
  intros A f k. induction k as [|k IH]; intros l; [reflexivity|].
  cbn [choose ways]. rewrite picks_map, map_map. cbn [fst snd].
  assert (E : forall ps, sum (map (fun t => prod (map f t)) (flat_map (fun p => map (cons (fst p)) (choose (snd p) k)) ps))
    = sum (map (fun p : A * list A => f (fst p) * ways (map f (snd p)) k) ps)).
  { intros ps. induction ps as [|p ps IHp]; [reflexivity|]. cbn [flat_map map]. rewrite map_app, sum_app, IHp.
    unfold sum at 3. cbn [fold_right]. f_equal. rewrite map_map. rewrite <- IH, <- sum_scale, map_map.
    reflexivity. }
  apply E.
Qed.
Lemma combos_weight : forall (f : command -> nat) k vals, NoDup vals ->
  sum (map (fun t => prod (map f t)) (get_value_combinations k vals)) = ways (map f vals) k.
Proof.
  intros f k vals H. rewrite <- choose_weight. apply sum_Permutation, Permutation_map.
  apply NoDup_Permutation; [apply combos_NoDup, H|apply choose_NoDup, H|].
  intros t. rewrite combos_In, choose_In by exact H. reflexivity.
Qed.

(** * Products of lists without common members *)
Lemma function_of : forall {B} (xs : list command) (ls : list B) (d : B), NoDup xs -> length xs = length ls ->
  exists g, map g xs = ls.
Proof.
  intros B xs. induction xs as [|x xs IH]; intros [|l ls] d Hn Hl; try discriminate Hl.
  - exists (fun _ => d). reflexivity.
  - inversion Hn as [|? ? Hx Hn']; subst. destruct (IH ls d Hn') as (g & Hg); [now injection Hl|].
    exists (fun y => if cmd_eqb y x then l else g y). cbn. rewrite cmd_eqb_refl. f_equal. rewrite <- Hg.
    apply map_ext_in. intros y Hy. destruct (cmd_eqb_spec y x) as [->|]; [contradiction|reflexivity].
Qed.
Section Owner.
Variable g : command -> list text.
Variable xs : list command.
Hypothesis Hg : NoDup (concat (map g xs)).
Hypothesis Hxs : NoDup xs.

Lemma owner : forall x y t, In x xs -> In y xs -> In t (g x) -> In t (g y) -> x = y.
Proof.
  revert Hg Hxs. induction xs as [|z zs IH]; intros Hg' Hxs' x y t Hx Hy Htx Hty; [destruct Hx|].
  cbn in Hg'. inversion Hxs'; subst.
  assert (Hd : forall w, In w zs -> In t (g z) -> In t (g w) -> False).
  { intros w Hw H H'. assert (Hc : In t (concat (map g zs))) by (apply in_concat; exists (g w); split; [apply in_map, Hw|exact H']).
    clear -Hg' H Hc. induction (g z) as [|u us IHu]; [destruct H|]. cbn in Hg'. inversion Hg'; subst.
    destruct H as [->|H]; [apply H2, in_or_app; auto|auto]. }
  destruct Hx as [->|Hx], Hy as [->|Hy]; auto.
  - exfalso; eauto.
  - exfalso; eauto.
  - apply (IH) with (t := t); auto. clear -Hg'. induction (g z); [exact Hg'|]. inversion Hg'; auto.
Qed.
Lemma g_NoDup : forall x, In x xs -> NoDup (g x).
Proof.
  revert Hg. induction xs as [|z zs IH]; intros Hg' x Hx; [destruct Hx|]. cbn in Hg'. destruct Hx as [->|Hx].
  - clear -Hg'. induction (g x) as [|u us IHu]; [constructor|]. cbn in Hg'. inversion Hg'; subst. constructor; auto.
    intros Hu. apply H1, in_or_app; auto.
  - apply IH; auto.
    + inversion Hxs; assumption.
    + clear -Hg'. induction (g z); [exact Hg'|]. inversion Hg'; auto.
Qed.
Lemma product_In : forall sel a, In a (product (map g sel)) -> Forall2 (fun x t => In t (g x)) sel a.
Proof.
  induction sel as [|x sel IH]; intros a H; cbn in H.
  - destruct H as [<-|[]]. constructor.
  - apply in_flat_map in H as (t & Ht & H). apply in_map_iff in H as (a' & <- & Ha). constructor; auto.
Qed.
Lemma array_NoDup : forall sel a, incl sel xs -> NoDup sel -> In a (product (map g sel)) -> NoDup a.
Proof.
  intros sel a Hi Hn Ha. apply product_In in Ha. induction Ha as [|x t sel a Hx Ha IH]; [constructor|].
  inversion Hn as [|? ? Hnx Hn']; subst. constructor.
  - intros Ht. assert (Hy : exists y, In y sel /\ In t (g y)).
    { clear -Ha Ht. induction Ha as [|y u sel a Hy Ha IH]; [destruct Ht|]. destruct Ht as [->|Ht]; [exists y; split; [left; reflexivity|exact Hy]|].
      destruct (IH Ht) as (z & Hz & Hz'). exists z. split; [right; exact Hz|exact Hz']. }
    destruct Hy as (y & Hy & Hty). apply Hnx. rewrite (owner x y t); auto; [apply Hi; left; reflexivity|apply Hi; right; exact Hy].
  - apply IH; [intros y Hy; apply Hi; right; exact Hy|exact Hn'].
Qed.
Lemma array_owner : forall s s' a, incl s xs -> incl s' xs ->
  In a (product (map g s)) -> In a (product (map g s')) -> s = s'.
Proof.
  intros s s' a Hi Hi' Ha Ha'. apply product_In in Ha. apply product_In in Ha'. revert s' Hi' Ha'.
  induction Ha as [|x t s a Hx Ha IH]; intros s' Hi' Ha'; inversion Ha'; subst; [reflexivity|]. f_equal.
  - apply (owner x x0 t); auto; [apply Hi|apply Hi']; left; reflexivity.
  - apply IH; auto; [intros y Hy; apply Hi|intros y Hy; apply Hi']; right; exact Hy.
Qed.
Lemma product_NoDup : forall ls : list (list text), Forall (@NoDup text) ls -> NoDup (product ls).
Proof.
  intros ls H. induction H as [|l ls Hl Hls IH]; [repeat constructor; intros []|]. cbn [product].
  apply NoDup_flat_map; [exact Hl| |].
  - intros x _. apply NoDup_map_inj; [congruence|exact IH].
  - intros x y b _ _ Hb Hb'. apply in_map_iff in Hb as (u & <- & _). apply in_map_iff in Hb' as (u' & E & _). now injection E.
Qed.
Lemma arrays_NoDup : forall sels, NoDup sels -> Forall (fun s => incl s xs /\ NoDup s) sels ->
  NoDup (flat_map (fun s => product (map g s)) sels).
Proof.
  intros sels Hn Hs. rewrite Forall_forall in Hs. apply NoDup_flat_map; [exact Hn| |].
  - intros s Hin. apply product_NoDup. apply Forall_forall. intros l Hl. apply in_map_iff in Hl as (x & <- & Hx).
    apply g_NoDup. apply (Hs s Hin), Hx.
  - intros s s' a H1 H2 Ha Ha'. apply (array_owner s s' a); auto; [apply (Hs s H1)|apply (Hs s' H2)].
Qed.
End Owner.

Lemma Sift_all : forall {A} (P : A -> Prop) l, Forall P l -> Sift P l l.
Proof. intros A P l H. induction H; constructor; auto. Qed.
Lemma FirstOnly_all : forall {A} (l seen : list A), NoDup l -> (forall x, In x l -> ~ In x seen) -> FirstOnly seen l l.
Proof.
  intros A l. induction l as [|x l IH]; intros seen Hn Hs; [constructor|]. inversion Hn; subst. constructor.
  - apply Hs. left. reflexivity.
  - apply IH; auto. intros y Hy [->|Hi]; [contradiction|]. apply (Hs y); auto. right. exact Hy.
Qed.

(** * Variants *)
Lemma bounds_NoDup : forall opts lo hi, NoDup (map fst opts) -> NoDup (map snd (bound_combos opts lo hi)).
Proof.
  intros opts lo hi Hn. unfold bound_combos. rewrite adjust_range_clamp.
  set (zs := zrange _ _).
  assert (E : map snd (flat_map (fun b : Z => map (pair b) (get_value_combinations (Z.to_nat b) (values opts))) zs)
    = flat_map (fun k => get_value_combinations k (values opts)) (map Z.to_nat zs)).
  { induction zs as [|z zs IH]; [reflexivity|]. cbn. rewrite map_app, IH, map_map. cbn. rewrite map_id. reflexivity. }
  rewrite E. clear E. unfold zs. rewrite zrange_sizes. apply NoDup_flat_map.
  - unfold sizes. apply seq_NoDup.
  - intros k _. apply combos_NoDup, Hn.
  - intros k k' t _ _ H1 H2. apply combos_In in H1 as (<- & _). apply combos_In in H2 as (<- & _). reflexivity.
Qed.

Lemma variant_count : forall E c opts lo hi sep m ls,
  finite_mark (Var opts lo hi sep m) -> opts <> [] -> ~ lone_wildcard opts -> NoDup (map fst opts) ->
  EnumAll E c (map fst opts) ls -> NoDup (concat ls) ->
  exists ts, Enum E c (Var opts lo hi sep m) ts /\
    length ts = sum (map (ways (map (@length text) ls)) (sizes (length opts) lo hi)).
Proof.
  intros E c opts lo hi sep m ls Hm Hne Hw Hn He Hc.
  destruct (function_of (map fst opts) ls [] Hn (EnumFacts.Forall2_len _ _ _ He)) as (g & Hg).
  set (sels := map snd (bound_combos opts lo hi)).
  pose proof (combos_Selections opts lo hi) as HS. fold sels in HS.
  assert (Hsel : Forall (fun s => incl s (map fst opts) /\ NoDup s) sels).
  { apply Forall_forall. intros s Hs. unfold sels, bound_combos in Hs. rewrite adjust_range_clamp in Hs.
    apply in_map_iff in Hs as ([z s'] & Es & Hs). cbn in Es. subst s'. apply in_flat_map in Hs as (z' & _ & Hs).
    apply in_map_iff in Hs as (s' & Es & Hs). injection Es as _ ->. apply combos_In in Hs as (_ & A & B). split; assumption. }
  assert (HgE : forall x, In x (map fst opts) -> Enum E c x (g x)).
  { rewrite <- Hg in He. clear -He. induction (map fst opts) as [|x xs IH]; intros y Hy; [destruct Hy|].
    inversion He; subst. destruct Hy as [->|Hy]; [assumption|]. apply IH; assumption. }
  set (arrs := flat_map (fun s => product (map g s)) sels).
  assert (Har : EnumSels E c sels arrs).
  { unfold arrs. clear HS arrs. induction Hsel as [|s sels' [Hs _] Hsel IH]; [constructor|]. cbn [flat_map]. constructor; [|exact IH].
    apply Enum_combo. clear -Hs HgE. induction s as [|x s IH]; [constructor|]. constructor.
    - apply HgE, Hs. left. reflexivity.
    - apply IH. intros y Hy. apply Hs. right. exact Hy. }
  rewrite <- Hg in Hc.
  assert (Hnd : NoDup arrs) by (apply (arrays_NoDup g (map fst opts)); auto; apply bounds_NoDup, Hn).
  assert (Hnd' : Forall (@NoDup text) arrs).
  { apply Forall_forall. intros a Ha. apply in_flat_map in Ha as (s & Hs & Ha). rewrite Forall_forall in Hsel.
    destruct (Hsel s Hs). apply (array_NoDup g (map fst opts) Hc Hn s a); assumption. }
  exists (map (fun a => joined a sep) arrs). split.
  - eapply En_var; eauto; [apply Sift_all, Hnd'|apply FirstOnly_all; [exact Hnd|intros x _ []]|].
    clear. induction arrs; cbn; constructor; auto. apply joined_Glued.
  - rewrite map_length. unfold arrs. rewrite length_flat_map.
    transitivity (sum (map (fun s => prod (map (fun x => length (g x)) s)) sels)).
    { f_equal. apply map_ext. intros s. rewrite product_length, map_map. reflexivity. }
    rewrite <- Hg, map_map. rewrite <- zrange_sizes. unfold sels, bound_combos. rewrite adjust_range_clamp.
    set (zs := zrange _ _). clearbody zs. induction zs as [|z zs IH]; [reflexivity|].
    cbn [flat_map map]. rewrite !map_app, sum_app, IH. unfold sum at 3. cbn [fold_right]. f_equal.
    rewrite map_map, map_map. cbn [snd]. exact (combos_weight (fun x => length (g x)) (Z.to_nat z) (map fst opts) Hn).
Qed.

(** * Flat templates *)
Lemma ways_ones : forall k n, ways (repeat 1 n) k = falling n k.
Proof.
  intros k. induction k as [|k IH]; intros n; [reflexivity|]. cbn [ways falling].
  assert (H : forall p, In p (picks (repeat 1 n)) -> fst p = 1 /\ snd p = repeat 1 (n - 1)).
  { induction n as [|n IHn]; intros p Hp; [destruct Hp|]. cbn in Hp. destruct Hp as [<-|Hp]; cbn.
    - rewrite Nat.sub_0_r. auto.
    - apply in_map_iff in Hp as (q & <- & Hq). destruct (IHn q Hq) as [A B]. cbn. rewrite A, B. split; [reflexivity|].
      destruct n; [destruct Hq|]. cbn. rewrite Nat.sub_0_r. reflexivity. }
  assert (L : length (picks (repeat 1 n)) = n) by (rewrite <- (map_length fst), picks_fst; apply repeat_length).
  transitivity (length (picks (repeat 1 n)) * falling (n - 1) k); [|rewrite L; reflexivity].
  clear L. revert H. generalize (picks (repeat 1 n)). intros ps H. induction ps as [|p ps IHp]; [reflexivity|].
  unfold sum in *. cbn [map fold_right length]. rewrite IHp by (intros q Hq; apply H; right; exact Hq).
  destruct (H p) as [-> ->]; [left; reflexivity|]. rewrite IH. lia.
Qed.
Lemma sizes_between : forall n lo hi, lo <= hi -> sizes n (Z.of_nat lo) (Z.of_nat hi) = between n lo hi.
Proof. intros n lo hi H. unfold sizes, between, clamp. f_equal; lia. Qed.
Lemma falling_pos : forall k n, k <= n -> 0 < falling n k.
Proof. induction k as [|k IH]; intros n H; cbn; [lia|]. specialize (IH (n - 1) ltac:(lia)). destruct n; [lia|]. nia. Qed.
Lemma part_count_pos : forall p, FlatPart p -> 0 < part_count p.
Proof.
  intros [t|os lo hi sep]; cbn [part_count FlatPart]; [lia|]. intros (H1 & H2 & H3). unfold between.
  replace (S (Nat.min hi (length os)) - Nat.min lo (length os)) with (S (Nat.min hi (length os) - Nat.min lo (length os))) by lia.
  unfold sum. cbn [seq map fold_right]. pose proof (falling_pos (Nat.min lo (length os)) (length os) ltac:(lia)) as K.
  apply Nat.add_pos_l, K.
Qed.
Lemma concat_singles : forall {A} (l : list A), concat (map (fun x => [x]) l) = l.
Proof. intros A l. induction l as [|x l IH]; [reflexivity|]. cbn. rewrite IH. reflexivity. Qed.
Lemma part_listed : forall E c p, FlatPart p -> exists ts, Enum E c (part_command p) ts /\ length ts = part_count p.
Proof.
  intros E c [t|os lo hi sep] H.
  - exists [t]. split; [constructor; left; reflexivity|reflexivity].
  - destruct H as (H1 & H2 & H3). cbn [part_command part_count].
    assert (Hf : map fst (map (fun o : text * Qc => (Lit (fst o) None, snd o)) os) = map (fun t => Lit t None) (map fst os))
      by (rewrite !map_map; reflexivity).
    destruct (variant_count E c (map (fun o : text * Qc => (Lit (fst o) None, snd o)) os) (Z.of_nat lo) (Z.of_nat hi) sep None
                (map (fun x => [x]) (map fst os))) as (ts & Ht & Hl).
    + left. reflexivity.
    + destruct os; [congruence|discriminate].
    + intros (w & m & vs & q & E'). destruct os; discriminate E'.
    + rewrite Hf. apply NoDup_map_inj; [congruence|exact H2].
    + rewrite Hf. clear. induction (map fst os) as [|t ts IH]; cbn; constructor; auto. constructor. left. reflexivity.
    + rewrite concat_singles. exact H2.
    + exists ts. split; [exact Ht|]. rewrite Hl, map_length, sizes_between by exact H3. f_equal. apply map_ext.
      intros k. rewrite map_map. cbn [length].
      replace (map (fun _ : text => 1) (map fst os)) with (repeat 1 (length os)); [apply ways_ones|].
      clear. induction os; cbn; [reflexivity|]. f_equal. assumption.
Qed.
Lemma flat_listed : forall E c parts sep, Forall FlatPart parts ->
  exists ts, Enum E c (Seq (map part_command parts) sep None) ts /\ length ts = prod (map part_count parts).
Proof.
  intros E c parts sep H.
  assert (HL : exists lists, EnumAll E c (map part_command parts) lists /\ map (@length text) lists = map part_count parts /\
    Forall2 (fun tok l => mark_of tok = None -> l <> []) (map part_command parts) lists).
  { induction H as [|p parts Hp H (lists & A & B & C)]; [exists []; repeat split; constructor|].
    destruct (part_listed E c p Hp) as (ts & Ht & Hl). exists (ts :: lists). repeat split.
    - constructor; assumption.
    - cbn. rewrite Hl, B. reflexivity.
    - constructor; [|exact C]. intros _ ->. pose proof (part_count_pos p Hp). cbn in Hl. lia. }
  destruct HL as (lists & A & B & C). exists (map (interleave sep) (product lists)). split.
  - apply Enum_product; auto; [left; reflexivity|]. clear. induction parts as [|[t|os lo hi s] parts IH]; cbn; constructor; auto;
      intros (? & ? & ? & ? & E); discriminate E.
  - rewrite map_length, product_length, B. reflexivity.
Qed.
