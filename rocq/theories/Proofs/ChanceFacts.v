(** Counting random numbers. *)
From Coq Require Import String NArith ZArith QArith Qcanon Bool Arith List Permutation Lia.
From Verif.Model Require Import Str Float Utils Command Rng Values Context Sampler.
From Verif.Spec Require Import Text Comb Items StreamRng Lang Draws Rolls Share Chance.
From Verif.Proofs Require Import StrFacts CommandFacts FloatFacts RngFacts Soundness EnumFacts ExhaustFacts RunFacts FuelFacts ShareFacts RollFacts RollRun.
Import ListNotations.
Local Open Scope nat_scope.
Local Notation unit53 := Chance.unit53.

(** * Sums *)
Lemma total_cons : forall x l, total (x :: l) = (x + total l)%Qc.
Proof. reflexivity. Qed.
Lemma total_nil : total [] = 0%Qc.
Proof. reflexivity. Qed.
Lemma total_app : forall a b, total (a ++ b) = (total a + total b)%Qc.
Proof. induction a as [|x a IH]; intros b; cbn [app]; rewrite ?total_cons, ?total_nil, ?IH; ring. Qed.
Lemma total_scale : forall {A} (f : A -> Qc) q l, total (map (fun x => q * f x)%Qc l) = (q * total (map f l))%Qc.
Proof. intros A f q. induction l as [|x l IH]; cbn [map]; rewrite ?total_cons, ?total_nil, ?IH; ring. Qed.
Lemma total_ext : forall {A} (f g : A -> Qc) l, (forall x, In x l -> f x = g x) -> total (map f l) = total (map g l).
Proof. intros A f g l H. f_equal. now apply map_ext_in. Qed.

Definition NQ (n : nat) : Qc := Q2Qc (inject_Z (Z.of_nat n)).
Lemma NQ_plus : forall a b, NQ (a + b) = (NQ a + NQ b)%Qc.
Proof.
  intros a b. unfold NQ. apply Qc_is_canon. cbn [this Q2Qc Qcplus]. rewrite !Qred_correct.
  rewrite Nat2Z.inj_add, inject_Z_plus. reflexivity.
Qed.
Lemma NQ_mult : forall a b, NQ (a * b) = (NQ a * NQ b)%Qc.
Proof.
  intros a b. unfold NQ. apply Qc_is_canon. cbn [this Q2Qc Qcmult]. rewrite !Qred_correct.
  rewrite Nat2Z.inj_mul, inject_Z_mult. reflexivity.
Qed.
Lemma NQ_S : forall a, NQ (S a) = (1 + NQ a)%Qc.
Proof. intros a. change (S a) with (1 + a). rewrite NQ_plus. reflexivity. Qed.
Lemma NQ_0 : NQ 0 = 0%Qc.
Proof. reflexivity. Qed.
Lemma NQ_pos : forall n, 0 < n -> NQ n <> 0%Qc.
Proof.
  intros n H He. unfold NQ in He. apply (f_equal this) in He. cbn [this Q2Qc] in He.
  assert (H0 : (inject_Z (Z.of_nat n) == 0)%Q) by (rewrite <- Qred_correct, He; reflexivity).
  unfold Qeq in H0. cbn in H0. lia.
Qed.
Lemma total_const : forall {A} (q : Qc) (l : list A), total (map (fun _ => q) l) = (NQ (length l) * q)%Qc.
Proof.
  intros A q. induction l as [|x l IH]; cbn [map length]; rewrite ?total_cons, ?total_nil, ?IH, ?NQ_S, ?NQ_0; ring.
Qed.

(** The average of a test over outcomes. *)
Definition mean {A} (l : list (A * Qc)) (g : A -> Qc) : Qc := total (map (fun o => snd o * g (fst o))%Qc l).
Lemma mean_cons : forall {A} (a : A) q l g, mean ((a, q) :: l) g = (q * g a + mean l g)%Qc.
Proof. reflexivity. Qed.
Lemma mean_app : forall {A} (l l' : list (A * Qc)) g, mean (l ++ l') g = (mean l g + mean l' g)%Qc.
Proof. intros. unfold mean. now rewrite map_app, total_app. Qed.
Lemma mean_scaled : forall {A} q (l : list (A * Qc)) g, mean (scaled q l) g = (q * mean l g)%Qc.
Proof.
  intros. unfold mean, scaled. rewrite map_map, <- total_scale. apply total_ext. intros x _. cbn. ring.
Qed.
Lemma mean_both : forall {A} (l : list (A * Qc)) l' g,
  mean (both l l') g = mean l (fun a => mean l' (fun b => g (a :: b))).
Proof.
  intros A l l' g. induction l as [|[a q] l IH]; [reflexivity|]. unfold both. cbn [flat_map]. fold (both l l').
  rewrite mean_app, IH, mean_cons. f_equal.
  unfold mean. rewrite map_map, <- total_scale. apply total_ext. intros x _. cbn. ring.
Qed.
Lemma mean_ext : forall {A} (l : list (A * Qc)) g h, (forall a, g a = h a) -> mean l g = mean l h.
Proof. intros A l g h H. unfold mean. apply total_ext. intros x _. now rewrite H. Qed.
Lemma mean_renamed : forall {A B} (R : A -> B -> Prop) (f : A -> B) l l' g, (forall a b, R a b -> b = f a) ->
  Forall2 (fun o o' => R (fst o) (fst o') /\ snd o = snd o') l l' -> mean l' g = mean l (fun a => g (f a)).
Proof.
  intros A B R f l l' g Hf H. unfold mean. induction H as [|[a q] [b q'] l l' [Hab Hq] H IH]; [reflexivity|].
  cbn [map fst snd] in *. rewrite !total_cons, IH. apply Hf in Hab. now subst.
Qed.
Lemma mean_chance : forall {A} (dec : forall a b : A, {a = b} + {a <> b}) (a : A) l, mean l (fun b => if dec b a then 1 else 0)%Qc = chance dec a l.
Proof. intros A dec a l. unfold mean, chance. apply total_ext. intros x _. destruct (dec (fst x) a); ring. Qed.

(** * Decision trees *)
Inductive tree (A : Type) : Type :=
| Leaf : A -> tree A
| Node : (N -> tree A) -> tree A.
Arguments Leaf {A}. Arguments Node {A}.

Fixpoint run {A} (t : tree A) (s : list N) : option (A * list N) :=
  match t with
  | Leaf a => Some (a, s)
  | Node k => match s with [] => None | x :: s' => run (k x) s' end
  end.
Fixpoint bindt {A B} (t : tree A) (f : A -> tree B) : tree B :=
  match t with
  | Leaf a => f a
  | Node k => Node (fun x => bindt (k x) f)
  end.

Lemma run_bind : forall {A B} (t : tree A) (f : A -> tree B) s,
  run (bindt t f) s = match run t s with Some (a, s') => run (f a) s' | None => None end.
Proof. induction t as [a|k IH]; intros f s; cbn; [reflexivity|]. destruct s; [reflexivity|]. apply IH. Qed.

Inductive Fits {A} : nat -> tree A -> Prop :=
| Fits_leaf : forall n a, Fits n (Leaf a)
| Fits_node : forall n k, (forall x, Fits n (k x)) -> Fits (S n) (Node k).

Lemma Fits_more : forall {A} n (t : tree A), Fits n t -> forall m, n <= m -> Fits m t.
Proof.
  intros A n t H. induction H as [n a|n k H IH]; intros m Hm; [constructor|].
  destruct m as [|m]; [lia|]. constructor. intros x. apply IH. lia.
Qed.
Lemma Fits_bind : forall {A C} n m (t : tree A) (f : A -> tree C), Fits n t -> (forall a, Fits m (f a)) ->
  Fits (n + m) (bindt t f).
Proof.
  intros A C n m t f H Hf. induction H as [n a|n k H IH]; cbn.
  - apply (Fits_more m); [apply Hf|lia].
  - constructor. intros x. apply IH.
Qed.

Section Box.
Variable B : nat.
Hypothesis HB : 0 < B.
Definition below : list N := map N.of_nat (seq 0 B).
Lemma below_In : forall x, In x below <-> (x < N.of_nat B)%N.
Proof.
  intros x. unfold below. rewrite in_map_iff. split.
  - intros (k & <- & H). apply in_seq in H. lia.
  - intros H. exists (N.to_nat x). rewrite N2Nat.id. split; [reflexivity|]. apply in_seq. lia.
Qed.
Lemma below_NoDup : NoDup below.
Proof. unfold below. apply FinFun.Injective_map_NoDup; [|apply seq_NoDup]. intros a b H. lia. Qed.
Lemma below_length : length below = B.
Proof. unfold below. now rewrite map_length, seq_length. Qed.

Fixpoint E {A} (t : tree A) (g : A -> Qc) : Qc :=
  match t with
  | Leaf a => g a
  | Node k => (total (map (fun x => E (k x) g) below) / NQ B)%Qc
  end.
Lemma E_bind : forall {A C} (t : tree A) (f : A -> tree C) g, E (bindt t f) g = E t (fun a => E (f a) g).
Proof.
  intros A C t f g. induction t as [a|k IH]; cbn; [reflexivity|]. f_equal. apply total_ext. intros x _. apply IH.
Qed.
Lemma E_ext : forall {A} (t : tree A) g h, (forall a, g a = h a) -> E t g = E t h.
Proof.
  intros A t g h H. induction t as [a|k IH]; cbn; [apply H|]. f_equal. apply total_ext. intros x _. apply IH.
Qed.

Fixpoint box (n : nat) : list (list N) :=
  match n with
  | O => [[]]
  | S n' => flat_map (fun x => map (cons x) (box n')) below
  end.
Lemma box_In : forall n s, In s (box n) <-> length s = n /\ Forall (fun x => x < N.of_nat B)%N s.
Proof.
  induction n as [|n IH]; intros s; cbn [box].
  - split; [intros [<-|[]]; now split|]. intros [H _]. destruct s; [now left|discriminate].
  - rewrite in_flat_map. split.
    + intros (x & Hx & H). apply in_map_iff in H. destruct H as (s' & <- & H). apply IH in H. apply below_In in Hx.
      destruct H as [H1 H2]. split; [cbn; lia|now constructor].
    + intros [H1 H2]. destruct s as [|x s]; [discriminate|]. inversion H2; subst. exists x.
      split; [now apply below_In|]. apply in_map. apply IH. split; [now injection H1|assumption].
Qed.
Lemma NoDup_app_intro : forall {A} (l l' : list A), NoDup l -> NoDup l' -> (forall x, In x l -> ~ In x l') -> NoDup (l ++ l').
Proof.
  intros A l l' H. induction H as [|x l Hx H IH]; intros H' Hd; [assumption|]. cbn. constructor.
  - rewrite in_app_iff. intros [K|K]; [contradiction|]. apply (Hd x); [now left|assumption].
  - apply IH; [assumption|]. intros y Hy. apply Hd. now right.
Qed.
Lemma box_NoDup : forall n, NoDup (box n).
Proof.
  induction n as [|n IH]; cbn [box]; [repeat constructor; intros []|].
  assert (H : forall l, NoDup l -> NoDup (flat_map (fun x : N => map (cons x) (box n)) l)).
  { intros l Hl. induction Hl as [|x l Hx Hl IHl]; [constructor|]. cbn. apply NoDup_app_intro.
    - apply FinFun.Injective_map_NoDup; [|assumption]. intros a b K. now injection K.
    - assumption.
    - intros s Hs K. apply in_map_iff in Hs. destruct Hs as (s' & <- & _). apply in_flat_map in K.
      destruct K as (y & Hy & K). apply in_map_iff in K. destruct K as (s2 & K & _). injection K as -> _. contradiction. }
  apply H, below_NoDup.
Qed.
Lemma box_length : forall n, length (box n) = B ^ n.
Proof.
  induction n as [|n IH]; cbn [box Nat.pow]; [reflexivity|].
  rewrite <- below_length at 1. generalize below. induction l as [|x l IHl]; [reflexivity|].
  cbn. rewrite app_length, map_length, IH, IHl. reflexivity.
Qed.

Definition hit {A} (P : A -> bool) (t : tree A) (s : list N) : bool :=
  match run t s with Some (a, _) => P a | None => false end.

Lemma filter_flat_map : forall {X Y} (P : Y -> bool) (f : X -> list Y) l,
  length (filter P (flat_map f l)) = fold_right (fun x n => length (filter P (f x)) + n) 0 l.
Proof.
  intros X Y P f. induction l as [|x l IH]; [reflexivity|]. cbn. rewrite filter_app, app_length, IH. reflexivity.
Qed.
Lemma filter_map_length : forall {X Y} (P : Y -> bool) (f : X -> Y) l,
  length (filter P (map f l)) = length (filter (fun x => P (f x)) l).
Proof. intros X Y P f. induction l as [|x l IH]; [reflexivity|]. cbn. destruct (P (f x)); cbn; now rewrite IH. Qed.

Lemma count : forall {A} (P : A -> bool) (t : tree A) n, Fits n t ->
  NQ (length (filter (hit P t) (box n))) = (NQ (B ^ n) * E t (fun a => if P a then 1 else 0))%Qc.
Proof.
  intros A P t n H. induction H as [n a|n k H IH].
  - cbn [E]. unfold hit. cbn [run]. destruct (P a).
    + replace (filter (fun _ => true) (box n)) with (box n).
      * rewrite box_length. ring.
      * generalize (box n). induction l as [|x l IHl]; [reflexivity|]. cbn. now rewrite <- IHl.
    + replace (filter (fun _ => false) (box n)) with (@nil (list N)).
      * cbn [length]. rewrite NQ_0. ring.
      * generalize (box n). induction l as [|x l IHl]; [reflexivity|]. cbn. now rewrite <- IHl.
  - cbn [box E]. rewrite filter_flat_map. change (B ^ S n) with (B * B ^ n). rewrite NQ_mult.
    assert (Hs : forall l, NQ (fold_right (fun x m => length (filter (hit P (Node k)) (map (cons x) (box n))) + m) 0 l)
                 = (NQ (B ^ n) * total (map (fun x => E (k x) (fun a => if P a then 1 else 0)%Qc) l))%Qc).
    { induction l as [|x l IHl]; cbn [fold_right map]; rewrite ?total_cons, ?total_nil; [rewrite NQ_0; ring|]. rewrite NQ_plus, IHl.
      rewrite filter_map_length. rewrite (filter_ext _ (hit P (k x))) by reflexivity. rewrite IH. ring. }
    rewrite Hs. field. now apply NQ_pos.
Qed.

End Box.

(** * Stretches *)
Inductive Climb : list N -> N -> Prop :=
| Climb_end : forall e, Climb [e] e
| Climb_step : forall a b l e, (a <= b)%N -> Climb (b :: l) e -> Climb (a :: b :: l) e.

Lemma Climb_of : forall cuts n e, length cuts = S n -> nth n cuts 0%N = e ->
  (forall k, k < n -> (nth k cuts 0 <= nth (S k) cuts 0)%N) -> Climb cuts e.
Proof.
  induction cuts as [|a cuts IH]; intros n e Hl He Ho; [discriminate|].
  destruct cuts as [|b cuts]; destruct n as [|n]; try discriminate.
  - cbn in He. subst. constructor.
  - constructor.
    + apply (Ho 0). lia.
    + apply IH with n; [cbn in *; lia|assumption|]. intros k Hk. apply (Ho (S k)). lia.
Qed.
Lemma Climb_le : forall a l e, Climb (a :: l) e -> (a <= e)%N.
Proof.
  intros a l e H. remember (a :: l) as cuts eqn:Hc. revert a l Hc.
  induction H as [e|a b l e Hab H IH]; intros a0 l0 K; injection K as <- <-; [lia|]. specialize (IH b l eq_refl). lia.
Qed.

Fixpoint sel {X} (d : X) (cuts : list N) (xs : list X) (x : N) : X :=
  match cuts, xs with
  | _ :: ((b :: _) as rest), y :: ys => if (x <? b)%N then y else sel d rest ys x
  | _, _ => d
  end.
Definition range (a b : N) : list N := map N.of_nat (seq (N.to_nat a) (N.to_nat (b - a))).
Lemma range_In : forall a b x, In x (range a b) -> (a <= x < b)%N.
Proof. intros a b x H. apply in_map_iff in H. destruct H as (k & <- & H). apply in_seq in H. lia. Qed.
Lemma range_app : forall a b c, (a <= b)%N -> (b <= c)%N -> range a c = range a b ++ range b c.
Proof.
  intros a b c H1 H2. unfold range. rewrite <- map_app. f_equal.
  replace (N.to_nat (c - a)) with (N.to_nat (b - a) + N.to_nat (c - b)) by lia.
  rewrite seq_app. do 2 f_equal. lia.
Qed.

Fixpoint lengths (cuts : list N) : list nat :=
  match cuts with
  | a :: (b :: _) as rest => N.to_nat (b - a) :: lengths rest
  | _ => []
  end.
Fixpoint dot {X} (h : X -> Qc) (ns : list nat) (xs : list X) : Qc :=
  match ns, xs with
  | n :: ns', x :: xs' => (NQ n * h x + dot h ns' xs')%Qc
  | _, _ => 0%Qc
  end.
Lemma sel_total : forall {X} (d : X) (h : X -> Qc) cuts e, Climb cuts e -> forall xs a l, cuts = a :: l ->
  length l = length xs -> total (map (fun x => h (sel d cuts xs x)) (range a e)) = dot h (lengths cuts) xs.
Proof.
  intros X d h cuts e H. induction H as [e|a b l e Hab H IH]; intros xs a0 l0 K Hl; injection K as <- <-.
  - unfold range. rewrite N.sub_diag. reflexivity.
  - destruct xs as [|y ys]; [discriminate|]. rewrite (range_app a b e) by (try assumption; now apply Climb_le in H).
    rewrite map_app, total_app.
    assert (H1 : total (map (fun x => h (sel d (a :: b :: l) (y :: ys) x)) (range a b)) = (NQ (N.to_nat (b - a)) * h y)%Qc).
    { rewrite (total_ext _ (fun _ => h y)).
      - rewrite total_const. do 2 f_equal. unfold range. now rewrite map_length, seq_length.
      - intros x Hx. apply range_In in Hx. cbn [sel]. destruct (N.ltb_spec x b); [reflexivity|lia]. }
    assert (H2 : total (map (fun x => h (sel d (a :: b :: l) (y :: ys) x)) (range b e)) = dot h (lengths (b :: l)) ys).
    { rewrite <- (IH ys b l eq_refl) by (cbn in *; lia). apply total_ext. intros x Hx. apply range_In in Hx.
      change (sel d (a :: b :: l) (y :: ys) x) with (if (x <? b)%N then y else sel d (b :: l) ys x).
      destruct (N.ltb_spec x b); [lia|reflexivity]. }
    rewrite H1, H2. reflexivity.
Qed.
Lemma sel_at : forall {X} (d : X) cuts e, Climb cuts e -> forall xs a l x, cuts = a :: l ->
  length l = length xs -> (a <= x < e)%N -> exists i, nth_error xs i = Some (sel d cuts xs x) /\
    (nth i cuts 0 <= x < nth (S i) cuts 0)%N.
Proof.
  intros X d cuts e H. induction H as [e|a b l e Hab H IH]; intros xs a0 l0 x K Hl Hx; injection K as <- <-; [lia|].
  destruct xs as [|y ys]; [discriminate|].
  change (sel d (a :: b :: l) (y :: ys) x) with (if (x <? b)%N then y else sel d (b :: l) ys x). destruct (N.ltb_spec x b) as [Hb|Hb].
  - exists 0. split; [reflexivity|]. cbn. lia.
  - destruct (IH ys b l x eq_refl ltac:(cbn in *; lia) ltac:(lia)) as (i & H1 & H2). exists (S i). split; assumption.
Qed.
Lemma below_range : forall B, below B = range 0 (N.of_nat B).
Proof. intros B. unfold below, range. rewrite N.sub_0_r, Nat2N.id. reflexivity. Qed.

Definition mass : nat := N.to_nat unit53.
Lemma mass_pos : 0 < mass.
Proof. unfold mass, unit53. lia. Qed.
Lemma mass_N : N.of_nat mass = unit53.
Proof. apply N2Nat.id. Qed.
Lemma NQ_mass : NQ mass <> 0%Qc.
Proof. apply NQ_pos, mass_pos. Qed.
Lemma mass_Z : Z.of_nat mass = Z.of_N unit53.
Proof. apply N_nat_Z. Qed.
Global Opaque mass.

Lemma shares_lengths : forall cuts e, Climb cuts e ->
  shares cuts = map (fun n => (NQ n / NQ mass)%Qc) (lengths cuts).
Proof.
  intros cuts e H. induction H as [e|a b l e Hab H IH]; [reflexivity|].
  change (shares (a :: b :: l)) with (Q2Qc ((Z.of_N b - Z.of_N a) # 9007199254740992) :: shares (b :: l)).
  change (lengths (a :: b :: l)) with (N.to_nat (b - a) :: lengths (b :: l)). cbn [map]. f_equal; [|exact IH].
  replace (Z.of_N b - Z.of_N a)%Z with (Z.of_nat (N.to_nat (b - a))) by lia. unfold NQ.
  rewrite mass_Z. generalize (N.to_nat (b - a)). intros n.
  unfold Qcdiv, Qcinv, Qcmult. apply Qc_is_canon. cbn [this Q2Qc]. rewrite !Qred_correct.
  change (inject_Z (Z.of_N unit53)) with (9007199254740992 # 1)%Q.
  unfold Qeq, inject_Z. cbn. lia.
Qed.

(** * Laws *)
Section Laws.
Variable Env : env.
Let G := stream_rng.
Definition Fine (s : list N) : Prop := Forall (fun x => x < unit53)%N s.

Definition Law {A} (R : list N -> A -> list N -> Prop) (l : list (A * Qc)) : Prop :=
  exists n t, Fits n t /\ (forall g, E mass t g = mean l g) /\
    forall s a s', Fine s -> run t s = Some (a, s') -> R s a s' /\ Fine s'.

Lemma law_ret : forall {A} (R : list N -> A -> list N -> Prop) a, (forall s, R s a s) -> Law R [(a, 1%Qc)].
Proof.
  intros A R a H. exists 0, (Leaf a). split; [constructor|]. split; [intros g; unfold mean; cbn; ring|].
  intros s b s' Hs [= <- <-]. now split.
Qed.
Lemma law_cons : forall {A} (R : list N -> A -> list N -> Prop) (Rs Rs' : list N -> list A -> list N -> Prop) l l',
  Law R l -> Law Rs l' -> (forall s a s1 b s2, R s a s1 -> Rs s1 b s2 -> Rs' s (a :: b) s2) -> Law Rs' (both l l').
Proof.
  intros A R Rs Rs' l l' (n & t & Hn & Ht & Hr) (n' & t' & Hn' & Ht' & Hr') H.
  exists (n + n'), (bindt t (fun a => bindt t' (fun b => Leaf (a :: b)))). split; [|split].
  - apply Fits_bind; [assumption|]. intros a. replace n' with (n' + 0) by lia. apply Fits_bind; [assumption|]. constructor.
  - intros g. rewrite E_bind, mean_both, <- Ht. apply E_ext. intros a. rewrite E_bind. apply (Ht' (fun b => g (a :: b))).
  - intros s x s' Hs Hx. rewrite run_bind in Hx. destruct (run t s) as [[a s1]|] eqn:H1; [|discriminate].
    rewrite run_bind in Hx. destruct (run t' s1) as [[b s2]|] eqn:H2; [|discriminate]. injection Hx as <- <-.
    destruct (Hr _ _ _ Hs H1) as [K1 F1]. destruct (Hr' _ _ _ F1 H2) as [K2 F2]. split; [|assumption]. eapply H; eassumption.
Qed.
Lemma law_map : forall {A C} (R : list N -> A -> list N -> Prop) (R' : list N -> C -> list N -> Prop) f l l',
  Law R l -> (forall g, mean l' g = mean l (fun a => g (f a))) -> (forall s a s', R s a s' -> R' s (f a) s') -> Law R' l'.
Proof.
  intros A C R R' f l l' (n & t & Hn & Ht & Hr) Hm H.
  exists n, (bindt t (fun a => Leaf (f a))). split; [|split].
  - replace n with (n + 0) by lia. apply Fits_bind; [assumption|]. constructor.
  - intros g. rewrite E_bind, Hm. apply (Ht (fun a => g (f a))).
  - intros s x s' Hs Hx. rewrite run_bind in Hx. destruct (run t s) as [[a s1]|] eqn:H1; [|discriminate].
    injection Hx as <- <-. destruct (Hr _ _ _ Hs H1). split; auto.
Qed.
Lemma law_sub : forall {A} (R R' : list N -> A -> list N -> Prop) l, Law R l ->
  (forall s a s', R s a s' -> R' s a s') -> Law R' l.
Proof. intros A R R' l H H'. apply (law_map R R' (fun a => a) l); [assumption|reflexivity|assumption]. Qed.

(** One of several. *)
Definition LawOf (Rs : list (list N -> text -> list N -> Prop)) (qs : list Qc) (l : list (text * Qc)) : Prop :=
  exists n ts, length ts = length qs /\ Forall (Fits n) ts /\
    Forall2 (fun R t => forall s a s', Fine s -> run t s = Some (a, s') -> R s a s' /\ Fine s') Rs ts /\
    forall g, total (map (fun o => fst o * E mass (snd o) g)%Qc (combine qs ts)) = mean l g.

Lemma lawof_cons : forall R Rs q qs l l', Law R l -> LawOf Rs qs l' -> LawOf (R :: Rs) (q :: qs) (scaled q l ++ l').
Proof.
  intros R Rs q qs l l' (n & t & Hn & Ht & Hr) (n' & ts & Hl & Hn' & Hr' & Ht').
  exists (n + n'), (t :: ts). split; [cbn; lia|]. split; [|split].
  - constructor; [apply (Fits_more n); [assumption|lia]|]. eapply Forall_impl; [|exact Hn'].
    intros x Hx. apply (Fits_more n'); [assumption|lia].
  - constructor; assumption.
  - intros g. cbn [combine map]. rewrite total_cons, Ht', mean_app, mean_scaled. cbn [fst snd]. now rewrite Ht.
Qed.

Lemma dot_combine : forall (h : tree text -> Qc) ns ts, (dot h ns ts / NQ mass)%Qc
  = total (map (fun o => fst o * h (snd o))%Qc (combine (map (fun n => (NQ n / NQ mass)%Qc) ns) ts)).
Proof.
  intros h. induction ns as [|n ns IH]; intros [|t ts]; cbn [dot map combine]; rewrite ?total_nil, ?total_cons;
    try (field; apply NQ_mass). rewrite <- IH. cbn [fst snd]. field. apply NQ_mass.
Qed.

Lemma law_pick : forall Rs ws cuts l (R : list N -> text -> list N -> Prop), Stretches ieee_round ws cuts ->
  Forall (fun w => 0 <= w)%Qc ws -> LawOf Rs (shares cuts) l ->
  (forall x0 x1 s i R' a s', Picked G ws (x1 :: s) i s -> nth_error Rs i = Some R' -> R' s a s' -> R (x0 :: x1 :: s) a s') ->
  Law R l.
Proof.
  intros Rs ws cuts l R [S1 S2 S3 S4 S5] Hw (n & ts & Hl & Hn & Hr & Ht) HR.
  pose proof (Climb_of cuts _ _ S1 S3 S4) as HC.
  destruct cuts as [|c0 cs]; [discriminate|]. cbn in S2. subst c0.
  assert (Hls : forall cuts, length (shares cuts) = pred (length cuts)).
  { clear. induction cuts as [|a [|b cuts] IH]; [reflexivity|reflexivity|].
    change (shares (a :: b :: cuts)) with (Q2Qc ((Z.of_N b - Z.of_N a) # 9007199254740992) :: shares (b :: cuts)).
    cbn [length]. rewrite IH. reflexivity. }
  assert (Hlt : length cs = length ts) by (rewrite Hl, Hls; reflexivity).
  set (d := Leaf (@nil N) : tree text).
  exists (S (S n)), (Node (fun _ => Node (fun x => sel d (0%N :: cs) ts x))). split; [|split].
  - constructor. intros _. constructor. intros x.
    assert (Hall : forall cuts ts x, Forall (Fits n) ts -> Fits n (sel d cuts ts x)).
    { clear. induction cuts as [|a [|b cuts] IH]; intros ts x H; [constructor|constructor|].
      destruct H as [|t ts Ht H]; [constructor|].
      change (sel d (a :: b :: cuts) (t :: ts) x) with (if (x <? b)%N then t else sel d (b :: cuts) ts x).
      destruct (x <? b)%N; [assumption|]. now apply IH. }
    now apply Hall.
  - intros g.
    assert (Hin : E mass (Node (fun x => sel d (0%N :: cs) ts x)) g = mean l g).
    { cbn [E]. rewrite below_range, mass_N.
      rewrite (sel_total d (fun t => E mass t g) _ _ HC ts _ _ eq_refl Hlt).
      rewrite dot_combine, <- Ht. f_equal. f_equal. f_equal. symmetry. exact (shares_lengths _ _ HC). }
    change (E mass (Node (fun _ => Node (fun x => sel d (0%N :: cs) ts x))) g)
      with (total (map (fun _ => E mass (Node (fun x => sel d (0%N :: cs) ts x)) g) (below mass)) / NQ mass)%Qc.
    rewrite Hin, total_const, below_length. field. apply NQ_mass.
  - intros s a s' Hs Hx. cbn [run] in Hx. destruct s as [|x0 [|x1 s]]; try discriminate.
    inversion Hs as [|? ? _ Hs1]; subst. inversion Hs1 as [|? ? Hx1 Hs2]; subst.
    destruct (sel_at d _ _ HC ts _ _ x1 eq_refl Hlt ltac:(lia)) as (i & Hi & Hc).
    assert (Hr' : exists R', nth_error Rs i = Some R' /\
      forall s a s', Fine s -> run (sel d (0%N :: cs) ts x1) s = Some (a, s') -> R' s a s' /\ Fine s').
    { clear -Hr Hi. revert i Hi. generalize (sel d (0%N :: cs) ts x1). intros t. induction Hr as [|R0 t0 Rs ts H0 H IH]; intros [|i] Hi; try discriminate.
      - cbn in Hi. injection Hi as ->. exists R0. split; [reflexivity|assumption].
      - apply IH, Hi. }
    destruct Hr' as (R' & HR' & Hrun). destruct (Hrun _ _ _ Hs2 Hx) as [K F]. split; [|assumption].
    eapply HR; [|exact HR'|exact K].
    assert (Hlen : i < length ws).
    { apply nth_error_Some. assert (i < length ts) by (apply nth_error_Some; congruence).
      intros Hnone. apply nth_error_None in Hnone. cbn in S1. lia. }
    split; [assumption|]. split; [assumption|]. exists x1, (fl G (Q2Qc (Z.of_N x1 # 9007199254740992) * float_sum (fl G) ws)%Qc).
    split; [reflexivity|]. split.
    + rewrite N.mod_small by exact Hx1. reflexivity.
    + exact (S5 i x1 Hlen Hc).
Qed.

Lemma first_at : forall vs (v : command), In v vs -> exists j, FirstAt vs v j /\ j < length vs.
Proof.
  intros vs v Hin. destruct (In_nth_error _ _ Hin) as [k Hk].
  destruct (cwr_step_equal_weights cmd_eqb cmd_eqb_spec v vs 1%Qc Hin) as (j & Hj & _).
  exists j. split; [assumption|]. apply nth_error_Some. destruct Hj as [-> _]. discriminate.
Qed.

Lemma Chosen_one : forall vs ws (r : rng_state G) i r' v, Picked G ws r i r' -> nth_error vs i = Some v ->
  length vs = length ws -> Chosen G vs ws 1 r [v] r'.
Proof.
  intros vs ws r i r' v Hp Hv Hl.
  destruct (first_at vs v) as (j & Hj & Hlt); [eapply nth_error_In, Hv|].
  destruct (nth_error ws j) as [w|] eqn:Hw; [|apply nth_error_None in Hw; lia].
  econstructor; [exact Hp|exact Hv|exact Hj|exact Hw| | |constructor].
  - apply (remove_first_Without _ cmd_eqb_spec). eapply nth_error_In, Hv.
  - apply (remove_first_Without _ Qc_eq_bool_spec). eapply nth_error_In, Hw.
Qed.

Lemma unmarked_random : forall m, Unmarked m -> resolve Random m = Random.
Proof. intros m [-> | ->]; reflexivity. Qed.
Lemma enter_random : forall sc cmd m, sc_method sc = Random -> mark_of cmd = m -> Unmarked m -> sc_method (enter sc cmd) = Random.
Proof. intros sc cmd m H <- Hm. cbn. rewrite H. now apply unmarked_random. Qed.

Lemma Extended_refl : forall sc, Extended sc [] sc.
Proof. intros sc. split; [repeat split|]. intros x. right. now split. Qed.

Lemma outcomes_law :
  (forall cmd l, Outcomes ieee_round cmd l -> ~ is_assign cmd /\ (forall w m vs, cmd <> Wild w m vs) /\
     forall sc busy, sc_method sc = Random -> Law (Rolls G Env sc busy cmd) l) /\
  (forall ts l, OutcomesAll ieee_round ts l -> Forall (fun c => ~ is_assign c) ts /\
     forall sc busy, sc_method sc = Random -> Law (RollsAll G Env sc busy ts) l) /\
  (forall cs qs l, OutcomesOf ieee_round cs qs l ->
     forall sc busy, sc_method sc = Random -> LawOf (map (Rolls G Env sc busy) cs) qs l).
Proof.
  apply Outcomes_mutind.
  - intros s m Hm. split; [intros (? & ? & ? & ? & ?); discriminate|]. split; [discriminate|]. intros sc busy Hsc.
    apply law_ret. intros r. constructor; [now apply (enter_random _ _ m)|constructor].
  - intros ts sep m l l' Hm _ [Hna IH] Hg. split; [intros (? & ? & ? & ? & ?); discriminate|]. split; [discriminate|].
    intros sc busy Hsc. set (sc1 := enter sc (Seq ts sep m)).
    assert (H1 : sc_method sc1 = Random) by now apply (enter_random _ _ m).
    apply (law_map (RollsAll G Env sc1 busy ts) _ (fun parts => joined parts sep) l); [now apply IH| |].
    + intros g. apply (mean_renamed (Glued sep)); [|exact Hg]. intros a b. apply Glued_joined.
    + intros s parts s' Hp. constructor; [assumption|]. apply Ro_seq with [] s sc1 ts parts.
      * clear -Hna. induction Hna as [|t ts Ht H IH]; [constructor|]. now constructor.
      * apply Extended_refl.
      * clear -Hna. induction Hna as [|t ts Ht H IH]; [constructor|]. now constructor.
      * exact Hp.
      * apply joined_Glued.
  - intros v q lo hi sep m l Hm _ (Hna & Hnw & IH). split; [intros (? & ? & ? & ? & ?); discriminate|]. split; [discriminate|].
    intros sc busy Hsc. set (sc1 := enter sc (Var [(v, q)] lo hi sep m)).
    assert (H1 : sc_method sc1 = Random) by now apply (enter_random _ _ m).
    apply (law_sub (Rolls G Env sc1 busy v)); [now apply IH|]. intros s a s' H.
    constructor; [assumption|]. apply Ro_single; [|assumption]. intros (w & m' & vs & q' & [= -> _]). eapply Hnw. reflexivity.
  - intros opts sep m cuts l Hm Hl Hw Hs _ IH. split; [intros (? & ? & ? & ? & ?); discriminate|]. split; [discriminate|].
    intros sc busy Hsc. set (sc1 := enter sc (Var opts 1 1 sep m)).
    assert (H1 : sc_method sc1 = Random) by now apply (enter_random _ _ m).
    apply (law_pick (map (Rolls G Env sc1 busy) (map fst opts)) _ _ _ _ Hs).
    + apply Forall_map. exact Hw.
    + now apply IH.
    + intros x0 x1 s i R' a s' Hp Hi HR. rewrite nth_error_map in Hi.
      destruct (nth_error (map fst opts) i) as [v|] eqn:Hv; [|discriminate]. injection Hi as <-.
      constructor; [assumption|].
      apply (@Ro_choice G) with (k := 1%Z) (r1 := x1 :: s) (sel := [v]) (r2 := s) (parts := [a]).
      * assumption.
      * unfold Counted, clamp. replace (Z.min (Z.max 1 1) (Z.of_nat (length opts))) with 1%Z by lia.
        replace (Z.min (Z.max 0 (Z.min 1 1)) (Z.of_nat (length opts))) with 1%Z by lia.
        split; [lia|]. exists x0. split; [reflexivity|]. rewrite N.mod_1_r. reflexivity.
      * apply (Chosen_one _ _ _ i); [assumption|assumption|]. now rewrite !map_length.
      * econstructor; [exact HR|constructor].
      * constructor.
  - split; [constructor|]. intros sc busy Hsc. apply law_ret. intros s. constructor.
  - intros c cs l l' _ (Hc & _ & IHc) _ (Hcs & IHcs). split; [now constructor|]. intros sc busy Hsc.
    apply (law_cons (Rolls G Env sc busy c) (RollsAll G Env sc busy cs)); [now apply IHc|now apply IHcs|].
    intros s a s1 b s2 Ha Hb. econstructor; eassumption.
  - intros sc busy Hsc. exists 0, []. repeat split; try constructor.
  - intros c cs q qs l l' _ (_ & _ & IHc) _ IHcs sc busy Hsc. cbn [map]. apply lawof_cons; auto.
Qed.

Lemma rolled_law : forall c p cmd l l', c_method c = Random -> Reads Env p cmd -> Outcomes ieee_round cmd l ->
  Tidied (c_ignws c) l l' -> Law (Rolled G Env c p) l'.
Proof.
  intros c p cmd l l' Hc Hr Ho Ht. destruct (proj1 outcomes_law _ _ Ho) as (_ & _ & H).
  apply (law_map (Rolls G Env (scope_of c) (c_busy c) cmd) _ (fun t => if c_ignws c then squash_whitespace t else t) l).
  - now apply H.
  - intros g. apply (mean_renamed (Tidy (c_ignws c))); [|exact Ht]. intros a b. apply Tidy_fun.
  - intros s a s' Ha. econstructor; [exact Hr|exact Ha|]. cbn. destruct (c_ignws c); [apply squash_Tidy|reflexivity].
Qed.
Lemma rolled_many_law : forall c p l k, Law (Rolled G Env c p) l ->
  Law (fun s us s' => RolledMany G Env c p s us s' /\ length us = k) (repeated k l).
Proof.
  intros c p l k H. induction k as [|k IH]; cbn [repeated].
  - apply law_ret. intros s. split; [constructor|reflexivity].
  - eapply law_cons; [exact H|exact IH|]. intros s a s1 b s2 Ha [Hb Hl]. split; [econstructor; eassumption|]. cbn. lia.
Qed.

Lemma fits_run : forall {A} n (t : tree A), Fits n t -> forall s, n <= length s -> exists a s', run t s = Some (a, s').
Proof.
  intros A n t H. induction H as [n a|n k H IH]; intros s Hs; [now exists a, s|].
  destruct s as [|x s]; [cbn in Hs; lia|]. cbn. apply IH. cbn in Hs. lia.
Qed.

Lemma law_count : forall {A} (dec : forall a b : A, {a = b} + {a <> b}) (R : list N -> A -> list N -> Prop) l, Law R l ->
  (forall s a s1 b s2, R s a s1 -> R s b s2 -> a = b) ->
  exists n0, forall n, n0 <= n -> forall a, exists hits, NoDup hits /\
    (forall s, In s hits <-> Numbers n s /\ exists s', R s a s') /\
    NQ (length hits) = (NQ (mass ^ n) * chance dec a l)%Qc.
Proof.
  intros A dec R l (n0 & t & Hn & Ht & Hr) Hd. exists n0. intros n Hle a.
  exists (filter (hit (fun b => if dec b a then true else false) t) (box mass n)). split; [|split].
  - apply NoDup_filter, box_NoDup, mass_pos.
  - intros s. rewrite filter_In, (box_In mass mass_pos), mass_N. unfold Numbers. split.
    + intros [Hs Hh]. split; [exact Hs|]. unfold hit in Hh. destruct (run t s) as [[b s']|] eqn:Hx; [|discriminate].
      destruct (dec b a) as [->|]; [|discriminate]. exists s'. eapply Hr; [exact (proj2 Hs)|exact Hx].
    + intros [Hs [s' HR]]. split; [exact Hs|]. unfold hit.
      destruct (fits_run n0 t Hn s ltac:(lia)) as (b & s2 & Hx). rewrite Hx.
      destruct (Hr _ _ _ (proj2 Hs) Hx) as [HR2 _]. rewrite (Hd _ _ _ _ _ HR2 HR). destruct (dec a a); congruence.
  - rewrite count; [|apply mass_pos|apply (Fits_more n0); assumption]. f_equal. rewrite <- mean_chance, <- Ht.
    apply E_ext. intros b. now destruct (dec b a).
Qed.

(** * Runs *)
Definition GivesFirst (c : ctx) (p : wpath) (s : list N) (u : text) : Prop :=
  exists fuel g g' s', sample_prompts Env fuel c p None = MOk g /\ next G Env fuel g s = OVal (u, g') s'.

Lemma gives_rolled : forall c p s u u' s', Rolled G Env c p s u s' -> GivesFirst c p s u' -> u' = u.
Proof.
  intros c p s u u' s' H (fuel & g & g' & s2 & Hg & Hx). destruct (rolled_first _ _ _ _ _ _ _ H) as (n & g0 & g0' & Hn).
  destruct (Hn (n + fuel) ltac:(lia)) as [H1 H2].
  destruct (le_sample_prompts Env fuel (n + fuel) c p None ltac:(lia)) as [K|K]; [congruence|].
  rewrite Hg in K. rewrite H1 in K. injection K as ->.
  rewrite (next_more G Env fuel (n + fuel)) in H2; [|lia|rewrite Hx; discriminate]. rewrite Hx in H2. now injection H2.
Qed.

Lemma first_chance : forall c p cmd l l', c_method c = Random -> Reads Env p cmd -> Outcomes ieee_round cmd l ->
  Tidied (c_ignws c) l l' ->
  exists n0, forall n, n0 <= n -> forall u, exists hits, NoDup hits /\
    (forall s, In s hits <-> Numbers n s /\ GivesFirst c p s u) /\
    NQ (length hits) = (NQ (mass ^ n) * chance text_dec u l')%Qc.
Proof.
  intros c p cmd l l' Hc Hr Ho Ht. pose proof (rolled_law _ _ _ _ _ Hc Hr Ho Ht) as HL.
  destruct HL as (n1 & t & Hf & Hm & Hrun).
  destruct (law_count text_dec (Rolled G Env c p) l') as [n0 H].
  { exists n1, t. auto. }
  { intros s a s1 b s2 H1 H2. now destruct (rolled_det _ _ _ _ _ _ _ _ _ H1 H2). }
  exists (n0 + n1). intros n Hn u. destruct (H n ltac:(lia) u) as (hits & H1 & H2 & H3). exists hits. split; [assumption|].
  split; [|assumption]. intros s. rewrite H2. split; intros [Hs Hx]; (split; [exact Hs|]).
  - destruct Hx as [s' Hx]. destruct (rolled_first _ _ _ _ _ _ _ Hx) as (m & g & g' & Hg).
    destruct (Hg m ltac:(lia)). now exists m, g, g', s'.
  - destruct (fits_run n1 t Hf s ltac:(destruct Hs; lia)) as (b & s2 & Hb).
    destruct (Hrun _ _ _ (proj2 Hs) Hb) as [HR _]. pose proof (gives_rolled _ _ _ _ _ _ HR Hx) as ->. eauto.
Qed.
End Laws.
