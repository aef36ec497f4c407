(** Bounds and value combinations (Model/Command.v) against Spec/Comb.v. *)
From Coq Require Import ZArith QArith Qcanon Bool Arith List Lia Permutation Sorted.
From Verif.Model Require Import Str Command.
From Verif.Spec Require Import Comb.
From Verif.Proofs Require Import CommandFacts.
Import ListNotations.
Local Open Scope nat_scope.

(** * Bounds *)
Lemma sampler_bounds : forall n lo hi,
  (let (mn, mx) := post_init_bounds lo hi in adjust_range n mn mx)
  = (clamp n (Z.min lo hi), clamp n (Z.max lo hi)).
Proof.
  intros n lo hi. unfold post_init_bounds, adjust_range, clamp.
  destruct (Z.leb_spec lo hi); unfold post_init_bounds;
  match goal with |- context [Z.leb ?a ?b] => destruct (Z.leb_spec a b) end;
  f_equal; lia.
Qed.

Lemma clamp_range : forall n z, (0 <= clamp n z <= Z.of_nat n)%Z.
Proof. intros; unfold clamp; lia. Qed.

Lemma clamp_id : forall n z, (0 <= z <= Z.of_nat n)%Z -> clamp n z = z.
Proof. intros; unfold clamp; lia. Qed.

Lemma clamp_mono : forall n y z, (y <= z)%Z -> (clamp n y <= clamp n z)%Z.
Proof. intros; unfold clamp; lia. Qed.

(** [adjust_range] on arbitrary stored bounds. *)
Lemma adjust_range_spec : forall n lo hi a b, adjust_range n lo hi = (a, b) ->
  (0 <= a)%Z /\ (a <= Z.of_nat n)%Z /\ (b <= Z.of_nat n)%Z.
Proof.
  intros n lo hi a b. unfold adjust_range, post_init_bounds.
  match goal with |- context [Z.leb ?a ?b] => destruct (Z.leb_spec a b) end;
  intros [= <- <-]; lia.
Qed.

(** * Lexicographic tuples *)
Fixpoint tuples {A} (k : nat) (l : list A) : list (list A) :=
  match k with
  | O => [[]]
  | S k' => flat_map (fun v => map (cons v) (tuples k' l)) l
  end.

Fixpoint nodupb (t : list command) : bool :=
  match t with
  | [] => true
  | x :: t' => negb (existsb (cmd_eqb x) t') && nodupb t'
  end.

Lemma existsb_cmd : forall x t, existsb (cmd_eqb x) t = true <-> In x t.
Proof.
  intros x t. rewrite existsb_exists. split.
  - intros (y & Hy & E). destruct (cmd_eqb_spec x y); congruence.
  - intros H. exists x. split; [assumption|]. apply cmd_eqb_refl.
Qed.

Lemma nodupb_spec : forall t, nodupb t = true <-> NoDup t.
Proof.
  induction t as [|x t IH]; cbn; [split; [constructor|reflexivity]|].
  rewrite andb_true_iff, negb_true_iff, IH.
  rewrite <- not_true_iff_false, existsb_cmd. split.
  - intros [H1 H2]; constructor; assumption.
  - intros H; inversion H; auto.
Qed.

Lemma filter_flat_map : forall {A B} (f : B -> bool) (g : A -> list B) l,
  filter f (flat_map g l) = flat_map (fun x => filter f (g x)) l.
Proof.
  intros A B f g l. induction l as [|x l IH]; cbn; [reflexivity|].
  now rewrite filter_app, IH.
Qed.

Lemma filter_map : forall {A B} (f : B -> bool) (g : A -> B) l,
  filter f (map g l) = map g (filter (fun x => f (g x)) l).
Proof.
  intros A B f g l. induction l as [|x l IH]; cbn; [reflexivity|].
  destruct (f (g x)); cbn; now rewrite IH.
Qed.

Lemma filter_filter : forall {A} (f g : A -> bool) l,
  filter f (filter g l) = filter (fun x => g x && f x) l.
Proof.
  intros A f g l. induction l as [|x l IH]; cbn; [reflexivity|].
  destruct (g x); cbn; [destruct (f x); cbn|]; now rewrite IH.
Qed.

Lemma filter_none : forall {A} (l : list A), filter (fun _ => false) l = [].
Proof. induction l; auto. Qed.

Lemma flat_map_filter : forall {A B} (p : A -> bool) (g : A -> list B) l,
  flat_map g (filter p l) = flat_map (fun x => if p x then g x else []) l.
Proof.
  intros A B p g l. induction l as [|x l IH]; cbn; [reflexivity|].
  destruct (p x); cbn; now rewrite IH.
Qed.

Lemma tuples_avoid : forall v k l,
  filter (fun t => negb (existsb (cmd_eqb v) t)) (tuples k l)
  = tuples k (filter (fun x => negb (cmd_eqb x v)) l).
Proof.
  intros v k l. induction k as [|k IH]; cbn; [reflexivity|].
  rewrite filter_flat_map, flat_map_filter. apply flat_map_ext. intros x.
  rewrite filter_map. cbn.
  destruct (cmd_eqb_spec x v) as [->|Hn]; cbn.
  - rewrite cmd_eqb_refl. cbn. now rewrite filter_none.
  - destruct (cmd_eqb_spec v x); [congruence|]. cbn. now rewrite IH.
Qed.

Lemma combos_tuples : forall k vals,
  get_value_combinations k vals = filter nodupb (tuples k vals).
Proof.
  induction k as [|k IH]; intros vals; [reflexivity|].
  cbn [get_value_combinations tuples].
  rewrite filter_flat_map. apply flat_map_ext. intros v.
  rewrite filter_map. cbn. f_equal.
  rewrite IH, <- tuples_avoid. apply filter_filter.
Qed.

Lemma tuples_In : forall {A} k (l t : list A),
  In t (tuples k l) <-> length t = k /\ incl t l.
Proof.
  intros A k l. induction k as [|k IH]; intros t; cbn.
  - split.
    + intros [<-|[]]. split; [reflexivity|]. intros x [].
    + intros [H _]. destruct t; [now left|discriminate].
  - rewrite in_flat_map. split.
    + intros (v & Hv & Ht). apply in_map_iff in Ht as (t' & <- & Ht').
      apply IH in Ht' as [Hl Hi]. split; [cbn; lia|]. intros x [<-|Hx]; auto.
    + intros [Hl Hi]. destruct t as [|v t]; [discriminate|].
      exists v. split; [apply Hi; now left|]. apply in_map. apply IH.
      split; [cbn in Hl; lia|]. intros x Hx; apply Hi; now right.
Qed.

Lemma combos_In : forall k vals t,
  In t (get_value_combinations k vals) <-> Selection k vals t.
Proof.
  intros k vals t. rewrite combos_tuples, filter_In, tuples_In, nodupb_spec.
  unfold Selection. tauto.
Qed.

Lemma NoDup_filter' : forall {A} (f : A -> bool) l, NoDup l -> NoDup (filter f l).
Proof. intros; now apply NoDup_filter. Qed.

Lemma StronglySorted_app : forall {A} (R : A -> A -> Prop) l1 l2,
  StronglySorted R l1 -> StronglySorted R l2 ->
  (forall x y, In x l1 -> In y l2 -> R x y) -> StronglySorted R (l1 ++ l2).
Proof.
  induction l1 as [|x l1 IH]; cbn; intros l2 H1 H2 H; [assumption|].
  inversion H1; subst. constructor.
  - apply IH; auto.
  - apply Forall_app. split; [assumption|]. apply Forall_forall. intros y Hy. apply H; auto.
Qed.

Lemma StronglySorted_filter : forall {A} (R : A -> A -> Prop) f l,
  StronglySorted R l -> StronglySorted R (filter f l).
Proof.
  induction l as [|x l IH]; cbn; intros H; [constructor|].
  inversion H; subst. destruct (f x); [|auto]. constructor; [auto|].
  apply Forall_forall. intros y Hy. apply filter_In in Hy as [Hy _].
  rewrite Forall_forall in H3. auto.
Qed.

Lemma tuples_sorted : forall {A} k (l : list A), StronglySorted (Before l) (tuples k l).
Proof.
  intros A k l. induction k as [|k IH]; cbn.
  { constructor; constructor. }
  assert (Hg : forall m off, (forall i x, nth_error m i = Some x -> nth_error l (off + i) = Some x) ->
     StronglySorted (Before l) (flat_map (fun v => map (cons v) (tuples k l)) m)).
  { induction m as [|v m IHm]; intros off Hoff; cbn; [constructor|].
    apply StronglySorted_app.
    - clear - IH. induction IH as [|t ts Hs IHs Hf]; cbn; constructor; [assumption|].
      apply Forall_forall. intros u Hu. apply in_map_iff in Hu as (u' & <- & Hu').
      rewrite Forall_forall in Hf.
      destruct (Hf u' Hu') as (c & a & b & i & j & ta & tb & -> & -> & H1 & H2 & H3).
      exists (v :: c), a, b, i, j, ta, tb. auto.
    - apply (IHm (S off)). intros i x Hx. rewrite Nat.add_succ_comm. now apply Hoff.
    - intros t u Ht Hu. apply in_map_iff in Ht as (t' & <- & _).
      apply in_flat_map in Hu as (w & Hw & Hu). apply in_map_iff in Hu as (u' & <- & _).
      apply In_nth_error in Hw as (j & Hj).
      exists [], v, w, off, (S off + j), t', u'. repeat split.
      + rewrite <- (Nat.add_0_r off). now apply Hoff.
      + rewrite Nat.add_succ_comm. now apply Hoff.
      + lia. }
  apply (Hg l 0). auto.
Qed.

Lemma combos_sorted : forall k vals,
  StronglySorted (Before vals) (get_value_combinations k vals).
Proof. intros. rewrite combos_tuples. apply StronglySorted_filter, tuples_sorted. Qed.

Lemma Before_irrefl : forall {A} (l t : list A), NoDup l -> ~ Before l t t.
Proof.
  intros A l t Hn (c & a & b & i & j & ta & tb & -> & E & H1 & H2 & H3).
  apply app_inv_head in E. injection E as -> ->.
  assert (i = j); [|lia]. apply (proj1 (NoDup_nth_error l) Hn i j).
  - apply nth_error_Some. congruence.
  - congruence.
Qed.

Lemma sorted_NoDup : forall {A} (R : A -> A -> Prop) l,
  (forall x, ~ R x x) -> StronglySorted R l -> NoDup l.
Proof.
  intros A R l HR. induction 1 as [|x l Hs IH Hf]; constructor; [|assumption].
  intros Hx. rewrite Forall_forall in Hf. exact (HR x (Hf x Hx)).
Qed.

Lemma combos_NoDup : forall k vals, NoDup vals -> NoDup (get_value_combinations k vals).
Proof.
  intros k vals H. eapply sorted_NoDup; [|apply combos_sorted].
  intros t. now apply Before_irrefl.
Qed.

Lemma filter_remove_length : forall vals v, NoDup vals -> In v vals ->
  length (filter (fun x => negb (cmd_eqb x v)) vals) = length vals - 1.
Proof.
  induction vals as [|x vals IH]; intros v Hn Hv; [destruct Hv|].
  inversion Hn as [|? ? Hx Hn']; subst. cbn.
  destruct (cmd_eqb_spec x v) as [->|Hne]; cbn.
  - rewrite Nat.sub_0_r. f_equal.
    clear - Hx. induction vals as [|y vals IH]; cbn; [reflexivity|].
    destruct (cmd_eqb_spec y v) as [->|Hne]; cbn.
    + exfalso; apply Hx; now left.
    + f_equal. apply IH. intros H; apply Hx; now right.
  - destruct Hv as [->|Hv]; [congruence|]. rewrite (IH v Hn' Hv).
    destruct vals; [destruct Hv|cbn; lia].
Qed.

Lemma flat_map_length_const : forall {A B} (f : A -> list B) l n,
  (forall x, In x l -> length (f x) = n) -> length (flat_map f l) = length l * n.
Proof.
  intros A B f l n H. induction l as [|x l IH]; cbn; [reflexivity|].
  rewrite app_length, (H x), IH; [reflexivity| |now left].
  intros y Hy; apply H; now right.
Qed.

Lemma combos_length : forall k vals, NoDup vals ->
  length (get_value_combinations k vals) = falling (length vals) k.
Proof.
  induction k as [|k IH]; intros vals Hn; [reflexivity|].
  cbn [get_value_combinations falling].
  rewrite (flat_map_length_const _ _ (falling (length vals - 1) k)); [reflexivity|].
  intros v Hv. rewrite map_length, IH by now apply NoDup_filter.
  now rewrite filter_remove_length.
Qed.

Lemma combos_0 : forall vals, get_value_combinations 0 vals = [[]].
Proof. reflexivity. Qed.

Lemma zrange_In : forall lo hi z, In z (zrange lo hi) <-> (lo <= z <= hi)%Z.
Proof.
  intros lo hi z. unfold zrange. rewrite in_map_iff. split.
  - intros (i & <- & Hi). apply in_seq in Hi. lia.
  - intros H. exists (Z.to_nat (z - lo)). split; [lia|]. apply in_seq. lia.
Qed.
