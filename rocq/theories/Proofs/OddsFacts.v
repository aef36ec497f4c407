(** Chances for every kind of template. *)
From Coq Require Import String NArith ZArith QArith Qcanon Bool Arith List Permutation Lia.
From Verif.Model Require Import Str Float Utils Command Rng Values Context Sampler.
From Verif.Spec Require Import Text Comb Items StreamRng Lang Draws Rolls Share Chance Odds.
From Verif.Proofs Require Import StrFacts CommandFacts FloatFacts RngFacts Soundness EnumFacts ExhaustFacts RunFacts FuelFacts ShareFacts
  RollFacts RollRun ChanceFacts ChanceRun.
Import ListNotations.
Local Open Scope nat_scope.
Local Notation unit53 := Chance.unit53.

(** * Sums over places *)
Fixpoint imean {A} (l : list (A * Qc)) (g : nat -> Qc) : Qc :=
  match l with
  | [] => 0%Qc
  | o :: l' => (snd o * g 0%nat + imean l' (fun i => g (S i)))%Qc
  end.
Lemma imean_cons : forall {A} (o : A * Qc) l g, imean (o :: l) g = (snd o * g 0%nat + imean l (fun i => g (S i)))%Qc.
Proof. reflexivity. Qed.
Lemma imean_ext : forall {A} (l : list (A * Qc)) g h, (forall i, i < length l -> g i = h i) -> imean l g = imean l h.
Proof.
  intros A. induction l as [|o l IH]; intros g h H; [reflexivity|]. rewrite !imean_cons. f_equal.
  - rewrite H; [reflexivity|cbn; lia].
  - apply IH. intros i Hi. apply H. cbn. lia.
Qed.
Lemma imean_app : forall {A} (l l' : list (A * Qc)) g,
  imean (l ++ l') g = (imean l g + imean l' (fun i => g (length l + i)%nat))%Qc.
Proof.
  intros A. induction l as [|o l IH]; intros l' g; cbn [app length].
  - cbn [imean]. rewrite Qcplus_0_l. reflexivity.
  - rewrite !imean_cons, IH. rewrite Qcplus_assoc. reflexivity.
Qed.
Lemma imean_scaled : forall {A} q (l : list (A * Qc)) g, imean (scaled q l) g = (q * imean l g)%Qc.
Proof.
  intros A q. induction l as [|o l IH]; intros g; [cbn; ring|]. unfold scaled in *. cbn [map].
  rewrite !imean_cons, IH. cbn [snd]. ring.
Qed.
Lemma imean_renamed : forall {A B} (S : A -> B -> Prop) l l' g, Renamed S l l' -> imean l' g = imean l g.
Proof.
  intros A B S l l' g H. revert g. induction H as [|o o' l l' [_ Hq] H IH]; intros g; [reflexivity|].
  rewrite !imean_cons, IH, Hq. reflexivity.
Qed.
Lemma imean_mean : forall {A} (d : A) (f : A -> Qc) l, imean l (fun i => f (nth i (map fst l) d)) = mean l f.
Proof.
  intros A d f. induction l as [|[a q] l IH]; [reflexivity|]. rewrite imean_cons, mean_cons. cbn [map fst nth snd]. now rewrite IH.
Qed.

Lemma Q2Qc_zero : forall z p, Q2Qc (z # p) = 0%Qc -> z = 0%Z.
Proof.
  intros z p H. apply (f_equal this) in H. cbn [this Q2Qc] in H.
  assert (K : (z # p == 0)%Q) by (rewrite <- Qred_correct, H; reflexivity). unfold Qeq in K. cbn in K. lia.
Qed.

Section Odds.
Variable B : nat.
Let G := stream_rng.

Definition FineB (s : list N) : Prop := Forall (fun x => x < N.of_nat B)%N s.

Definition Does {A} (R : list N -> A -> list N -> Prop) (l : list (A * Qc)) (t : tree nat) : Prop :=
  forall s i s', FineB s -> run t s = Some (i, s') ->
    exists a q, nth_error l i = Some (a, q) /\ q <> 0%Qc /\ R s a s' /\ FineB s'.
Definition ILaw {A} (R : list N -> A -> list N -> Prop) (l : list (A * Qc)) : Prop :=
  exists n t, Fits n t /\ (forall g, E B t g = imean l g) /\ Does R l t.

Lemma ilaw_ret : forall {A} (R : list N -> A -> list N -> Prop) a, (forall s, R s a s) -> ILaw R [(a, 1%Qc)].
Proof.
  intros A R a H. exists 0, (Leaf 0). split; [constructor|]. split; [intros g; cbn [E imean snd]; ring|].
  intros s i s' Hs [= <- <-]. exists a, 1%Qc. split; [reflexivity|]. split; [discriminate|]. now split.
Qed.
Lemma renamed_nth : forall {A C} (S : A -> C -> Prop) l l' i a q, Renamed S l l' -> nth_error l i = Some (a, q) ->
  exists c, nth_error l' i = Some (c, q) /\ S a c.
Proof.
  intros A C S l l' i a q H. revert i. induction H as [|[a0 q0] [c0 q1] l l' [Hs Hq] H IH]; intros [|i] Hi; try discriminate.
  - cbn in *. injection Hi as -> ->. subst q1. now exists c0.
  - apply IH, Hi.
Qed.
Lemma ilaw_rename : forall {A C} (S : A -> C -> Prop) (R : list N -> A -> list N -> Prop) (R' : list N -> C -> list N -> Prop) l l',
  ILaw R l -> Renamed S l l' -> (forall s a s' c, R s a s' -> S a c -> R' s c s') -> ILaw R' l'.
Proof.
  intros A C S R R' l l' (n & t & Hn & Ht & Hr) HS H. exists n, t. split; [assumption|]. split.
  - intros g. rewrite Ht. symmetry. eapply imean_renamed, HS.
  - intros s i s' Hs Hx. destruct (Hr _ _ _ Hs Hx) as (a & q & Hi & Hq & HR & Hf).
    destruct (renamed_nth _ _ _ _ _ _ HS Hi) as (c & Hc & Hac). exists c, q. eauto 6.
Qed.
Lemma renamed_map : forall {A C} (f : A -> C) (l : list (A * Qc)), Renamed (fun a c => c = f a) l (map (fun o => (f (fst o), snd o)) l).
Proof. intros A C f. induction l as [|o l IH]; constructor; [split; reflexivity|assumption]. Qed.
Lemma ilaw_map : forall {A C} (f : A -> C) (R : list N -> A -> list N -> Prop) (R' : list N -> C -> list N -> Prop) l,
  ILaw R l -> (forall s a s', R s a s' -> R' s (f a) s') -> ILaw R' (map (fun o => (f (fst o), snd o)) l).
Proof. intros A C f R R' l H HR. eapply ilaw_rename; [exact H|apply renamed_map|]. intros s a s' c Ha ->. auto. Qed.
Lemma ilaw_sub : forall {A} (R R' : list N -> A -> list N -> Prop) l, ILaw R l ->
  (forall s a s', R s a s' -> R' s a s') -> ILaw R' l.
Proof.
  intros A R R' l (n & t & Hn & Ht & Hr) H. exists n, t. split; [assumption|]. split; [assumption|].
  intros s i s' Hs Hx. destruct (Hr _ _ _ Hs Hx) as (a & q & Hi & Hq & HR & Hf). exists a, q. eauto 6.
Qed.

(** * One of several *)
Definition ILaws {A} (Rs : list ((list N -> A -> list N -> Prop) * Qc)) (l : list (A * Qc)) : Prop :=
  exists n ts, Forall2 (fun r t => snd r <> 0%Qc -> Does (fst r) l t) Rs ts /\ Forall (Fits n) ts /\
    forall g, total (map (fun o => snd (fst o) * E B (snd o) g)%Qc (combine Rs ts)) = imean l g.

Lemma ilaws_nil : forall {A}, @ILaws A [] [].
Proof. intros A. exists 0, []. repeat split; constructor. Qed.
Lemma ilaws_never : forall {A} (R : list N -> A -> list N -> Prop) Rs l, ILaws Rs l -> ILaws ((R, 0%Qc) :: Rs) l.
Proof.
  intros A R Rs l (n & ts & Hr & Hn & Ht). exists n, (Leaf 0 :: ts). split; [|split].
  - constructor; [|assumption]. cbn. intros K. now contradiction K.
  - constructor; [constructor|assumption].
  - intros g. cbn [combine map]. rewrite total_cons, Ht. cbn [fst snd]. ring.
Qed.
Lemma combine_map_r : forall {X Y Z} (f : Y -> Z) (xs : list X) (ys : list Y),
  combine xs (map f ys) = map (fun o => (fst o, f (snd o))) (combine xs ys).
Proof. intros X Y Z f. induction xs as [|x xs IH]; intros [|y ys]; cbn; try reflexivity. now rewrite IH. Qed.
Lemma ilaws_cons : forall {A} (R : list N -> A -> list N -> Prop) Rs q l l', ILaw R l -> ILaws Rs l' ->
  ILaws ((R, q) :: Rs) (scaled q l ++ l').
Proof.
  intros A R Rs q l l' (n & t & Hn & Ht & Hr) (n' & ts & Hr' & Hn' & Ht').
  set (sh := fun t : tree nat => bindt t (fun i => Leaf (length l + i))).
  assert (Hll : length (scaled q l) = length l) by apply map_length.
  exists (n + n'), (t :: map sh ts). split; [|split].
  - constructor.
    + cbn [fst snd]. intros Hq s i s' Hs Hx. destruct (Hr _ _ _ Hs Hx) as (a & p & Hi & Hp & HR & Hf).
      exists a, (q * p)%Qc. split; [|split; [|now split]].
      * rewrite nth_error_app1; [|rewrite Hll; apply nth_error_Some; congruence].
        unfold scaled. now rewrite nth_error_map, Hi.
      * intros K. apply Qcmult_integral in K. tauto.
    + clear -Hr' Hll. induction Hr' as [|r t0 Rs ts H Hr' IH]; cbn [map]; constructor; [|assumption].
      intros Hq s i s' Hs Hx. unfold sh in Hx. rewrite run_bind in Hx. destruct (run t0 s) as [[k s1]|] eqn:H1; [|discriminate].
      cbn in Hx. injection Hx as <- <-. destruct (H Hq _ _ _ Hs H1) as (a & p & Hi & Hp & HR & Hf).
      exists a, p. split; [|now repeat split]. rewrite nth_error_app2 by (rewrite Hll; lia). rewrite Hll.
      now replace (length l + k - length l) with k by lia.
  - constructor; [apply (Fits_more n); [assumption|lia]|]. apply Forall_map. eapply Forall_impl; [|exact Hn'].
    intros x Hx. unfold sh. apply (Fits_more (n' + 0)); [|lia]. apply Fits_bind; [assumption|constructor].
  - intros g. cbn [combine map]. rewrite total_cons, imean_app, imean_scaled, Hll. cbn [fst snd]. rewrite Ht. f_equal.
    rewrite <- Ht', combine_map_r, map_map. apply total_ext. intros [r t0] _. cbn [fst snd]. unfold sh. now rewrite E_bind.
Qed.

Lemma ilaw_then : forall {X A} (R0 : list N -> X -> list N -> Prop) l0 Rs l (R : list N -> A -> list N -> Prop),
  ILaw R0 l0 -> ILaws Rs l -> map snd Rs = map snd l0 ->
  (forall i x q R1 s s1 a s2, nth_error l0 i = Some (x, q) -> nth_error Rs i = Some (R1, q) ->
     R0 s x s1 -> R1 s1 a s2 -> R s a s2) ->
  ILaw R l.
Proof.
  intros X A R0 l0 Rs l R (n & t & Hn & Ht & Hr) (n' & ts & Hr' & Hn' & Ht') Hq HR.
  exists (n + n'), (bindt t (fun i => nth i ts (Leaf 0))). split; [|split].
  - apply Fits_bind; [assumption|]. intros i. destruct (nth_in_or_default i ts (Leaf 0)) as [K| ->]; [|constructor].
    rewrite Forall_forall in Hn'. now apply Hn'.
  - intros g. rewrite E_bind, Ht, <- Ht'. clear -Hq Hr'. revert l0 Hq.
    induction Hr' as [|[R1 q] t0 Rs ts H Hr' IH]; intros [|[x q0] l0] Hq; try discriminate; [reflexivity|].
    cbn [map snd] in Hq. injection Hq as -> Hq. rewrite imean_cons. cbn [combine map nth]. rewrite total_cons. cbn [fst snd].
    f_equal. now apply IH.
  - intros s k s' Hs Hx. rewrite run_bind in Hx. destruct (run t s) as [[i s1]|] eqn:H1; [|discriminate].
    destruct (Hr _ _ _ Hs H1) as (x & q & Hi & Hq0 & Hx0 & Hf).
    assert (Hj : exists R1 t1, nth_error Rs i = Some (R1, q) /\ nth_error ts i = Some t1 /\ (q <> 0%Qc -> Does R1 l t1)).
    { clear -Hr' Hq Hi. revert l0 i Hq Hi. induction Hr' as [|[R1 q1] t0 Rs ts H Hr' IH]; intros [|[x0 q0] l0] [|i] Hq Hi; try discriminate.
      - cbn in Hq, Hi. injection Hi as -> ->. injection Hq as -> _. exists R1, t0. now repeat split.
      - cbn in Hq, Hi. injection Hq as _ Hq. exact (IH l0 i Hq Hi). }
    destruct Hj as (R1 & t1 & Hj1 & Hj2 & Hj3). rewrite (nth_error_nth _ _ _ Hj2) in Hx.
    destruct (Hj3 Hq0 _ _ _ Hf Hx) as (a & p & Ha & Hp & HR1 & Hf2). exists a, p.
    split; [assumption|]. split; [assumption|]. split; [|assumption]. eapply HR; eassumption.
Qed.

(** * Both *)
Lemma both_cons : forall {A} (a : A) q l l', both ((a, q) :: l) l' = scaled q (map (fun o => (a :: fst o, snd o)) l') ++ both l l'.
Proof.
  intros A a q l l'. unfold both. cbn [flat_map fst snd]. f_equal. unfold scaled. rewrite map_map. reflexivity.
Qed.
Lemma ilaw_both : forall {A} (R : list N -> A -> list N -> Prop) (Rs Rs' : list N -> list A -> list N -> Prop) l l',
  ILaw R l -> ILaw Rs l' -> (forall s a s1 b s2, R s a s1 -> Rs s1 b s2 -> Rs' s (a :: b) s2) -> ILaw Rs' (both l l').
Proof.
  intros A R Rs Rs' l l' H H' HR.
  apply (ilaw_then R l (map (fun o => ((fun s b s' => exists b', b = fst o :: b' /\ Rs s b' s') : list N -> list A -> list N -> Prop, snd o)) l)).
  - assumption.
  - clear HR H. induction l as [|[a q] l IH]; [apply ilaws_nil|]. rewrite both_cons. cbn [map fst snd]. apply ilaws_cons; [|exact IH].
    apply (ilaw_map (cons a) Rs); [assumption|]. intros s b s' Hb. now exists b.
  - rewrite map_map. reflexivity.
  - intros i x q R1 s s1 a s2 Hi HR1 H1 H2. rewrite nth_error_map, Hi in HR1. cbn in HR1. injection HR1 as <-.
    destruct H2 as (b & -> & Hb). eapply HR; eassumption.
Qed.
Lemma ilaw_ignore : forall {A C} (R1 : list N -> A -> list N -> Prop) (R2 : list N -> C -> list N -> Prop) l1 l2,
  ILaw R1 l1 -> ILaw R2 l2 -> (forall n t, @Fits nat n t -> E B t (fun _ => 1%Qc) = 1%Qc) ->
  ILaw (fun s a s2 => exists c s1, R1 s a s1 /\ R2 s1 c s2) l1.
Proof.
  intros A C R1 R2 l1 l2 (n & t & Hn & Ht & Hr) (n' & t' & Hn' & Ht' & Hr') Hone.
  exists (n + n'), (bindt t (fun i => bindt t' (fun _ => Leaf i))). split; [|split].
  - apply Fits_bind; [assumption|]. intros i. apply (Fits_more (n' + 0)); [|lia]. apply Fits_bind; [assumption|constructor].
  - intros g. rewrite E_bind, Ht. apply imean_ext. intros i _. rewrite E_bind. cbn [E].
    clear -Hn' Hone.
    assert (H : E B t' (fun _ => g i) = (g i * E B t' (fun _ => 1%Qc))%Qc).
    { clear. induction t' as [a|k IH]; cbn [E]; [ring|].
      rewrite (total_ext _ (fun x => g i * E B (k x) (fun _ => 1))%Qc) by (intros; apply IH). rewrite total_scale. unfold Qcdiv. ring. }
    rewrite H, (Hone _ _ Hn'). ring.
  - intros s i s' Hs Hx. rewrite run_bind in Hx. destruct (run t s) as [[i1 s1]|] eqn:H1; [|discriminate].
    rewrite run_bind in Hx. destruct (run t' s1) as [[i2 s2]|] eqn:H2; [|discriminate]. cbn in Hx. injection Hx as <- <-.
    destruct (Hr _ _ _ Hs H1) as (a & q & Ha & Hq & HR1 & F1). destruct (Hr' _ _ _ F1 H2) as (c & p & Hc & _ & HR2 & F2).
    exists a, q. split; [assumption|]. split; [assumption|]. split; [|assumption]. eauto.
Qed.
Hypothesis HB : 0 < B.
Lemma etree_one : forall {A} n (t : tree A), Fits n t -> E B t (fun _ => 1%Qc) = 1%Qc.
Proof.
  intros A n t H. induction H as [n a|n k H IH]; [reflexivity|]. cbn [E].
  rewrite (total_ext _ (fun _ => 1%Qc)) by (intros; apply IH). rewrite total_const, below_length. field. now apply NQ_pos.
Qed.
Lemma ilaw_one : forall {A} (R : list N -> A -> list N -> Prop) l, ILaw R l -> total (map snd l) = 1%Qc.
Proof.
  intros A R l (n & t & Hn & Ht & _). rewrite <- (etree_one n t Hn), Ht. clear.
  induction l as [|o l IH]; [reflexivity|]. cbn [map]. rewrite total_cons, imean_cons, IH. ring.
Qed.

(** * Single numbers *)
Lemma below_mult : forall a k (h : N -> Qc), 0 < a ->
  total (map (fun x => h (x mod N.of_nat a)%N) (below (a * k))) = (NQ k * total (map h (below a)))%Qc.
Proof.
  intros a k h Ha. unfold below. rewrite !map_map. induction k as [|k IH].
  - rewrite Nat.mul_0_r. cbn [seq map]. rewrite total_nil, NQ_0. ring.
  - replace (a * S k) with (a * k + a) by lia. rewrite seq_app, map_app, total_app, IH, NQ_S. cbn [plus].
    enough (H : total (map (fun x => h (N.of_nat x mod N.of_nat a)%N) (seq (a * k) a)) = total (map (fun x => h (N.of_nat x)) (seq 0 a))) by (rewrite H; ring).
    f_equal. replace (seq (a * k) a) with (map (fun x => a * k + x) (seq 0 a)).
    + rewrite map_map. apply map_ext_in. intros x Hx. apply in_seq in Hx. f_equal.
      rewrite Nat2N.inj_add, Nat2N.inj_mul, N.add_comm, N.mul_comm, N.mod_add by lia. apply N.mod_small. lia.
    + assert (H : forall b n c, map (fun x => b + x) (seq c n) = seq (b + c) n).
      { intros b. induction n as [|n IHn]; intros c; [reflexivity|]. cbn. rewrite IHn. f_equal. f_equal. lia. }
      rewrite H. f_equal. lia.
Qed.

Lemma E_mod : forall a k (h : N -> nat) g, 0 < a -> B = a * k ->
  E B (Node (fun x => Leaf (h (x mod N.of_nat a)%N))) g = (total (map (fun x => g (h x)) (below a)) / NQ a)%Qc.
Proof.
  intros a k h g Ha Hk. cbn [E]. rewrite Hk at 1. rewrite (below_mult a k (fun x => g (h x)) Ha).
  rewrite Hk, NQ_mult.
  assert (Hk0 : 0 < k) by (destruct k; lia). field. split; now apply NQ_pos.
Qed.

Definition evenly (n : nat) : list (nat * Qc) := map (fun k => (k, one_in n)) (seq 0 n).
Lemma one_in_NQ : forall n, one_in n = (1 / NQ n)%Qc.
Proof. reflexivity. Qed.
Lemma one_in_nonzero : forall n, 0 < n -> one_in n <> 0%Qc.
Proof.
  intros n Hn H. rewrite one_in_NQ in H. assert (K : (1 = NQ n * (1 / NQ n))%Qc) by (field; now apply NQ_pos).
  rewrite H in K. rewrite Qcmult_0_r in K. discriminate.
Qed.
Lemma imean_evenly : forall n g, imean (evenly n) g = (total (map g (seq 0 n)) / NQ n)%Qc.
Proof.
  intros n g. unfold evenly.
  assert (H : forall (q : Qc) m c, imean (map (fun k : nat => (k, q)) (seq c m)) (fun i => g (c + i)) = (q * total (map g (seq c m)))%Qc).
  { intros q. induction m as [|m IH]; intros c; [cbn; ring|]. cbn [seq map]. rewrite imean_cons, total_cons. cbn [snd].
    rewrite Nat.add_0_r. rewrite (imean_ext _ _ (fun i => g (S c + i))); [rewrite IH; ring|]. intros i _. f_equal. lia. }
  transitivity (one_in n * total (map g (seq 0 n)))%Qc; [exact (H (one_in n) n 0)|]. rewrite one_in_NQ. unfold Qcdiv. ring.
Qed.

Lemma divide_nat : forall a, N.divide (N.of_nat a) (N.of_nat B) -> exists k, B = a * k.
Proof. intros a [k Hk]. exists (N.to_nat k). lia. Qed.
Lemma nth_error_seq : forall n i, i < n -> nth_error (seq 0 n) i = Some i.
Proof.
  intros n i Hi. rewrite (nth_error_nth' _ 0) by now rewrite seq_length. now rewrite seq_nth.
Qed.

Lemma ilaw_below : forall n, 0 < n -> N.divide (N.of_nat n) (N.of_nat B) ->
  ILaw (fun s k s' => exists y, s = y :: s' /\ k = N.to_nat (y mod N.of_nat n)) (evenly n).
Proof.
  intros n Hn Hd. destruct (divide_nat _ Hd) as [k Hk].
  exists 1, (Node (fun x => Leaf (N.to_nat (x mod N.of_nat n)))). split; [|split].
  - constructor. intros x. constructor.
  - intros g. rewrite (E_mod n k N.to_nat g Hn Hk), imean_evenly. f_equal. f_equal. unfold below. rewrite map_map.
    apply map_ext. intros a. now rewrite Nat2N.id.
  - intros s i s' Hs Hx. destruct s as [|y s]; [discriminate|]. cbn in Hx. injection Hx as <- <-.
    assert (Hlt : N.to_nat (y mod N.of_nat n) < n) by (pose proof (N.mod_lt y (N.of_nat n) ltac:(lia)); lia).
    exists (N.to_nat (y mod N.of_nat n)), (one_in n). split; [|split; [|split]].
    + unfold evenly. rewrite nth_error_map, nth_error_seq by assumption. reflexivity.
    + now apply one_in_nonzero.
    + now exists y.
    + now inversion Hs.
Qed.

Lemma dot_imean : forall (g : nat -> Qc) ns c, (dot g ns (seq c (length ns)) / NQ mass)%Qc
  = imean (combine (seq c (length ns)) (map (fun n => (NQ n / NQ mass)%Qc) ns)) (fun i => g (c + i)).
Proof.
  intros g. induction ns as [|n ns IH]; intros c; cbn [length seq dot map combine].
  - cbn [imean]. field. apply NQ_mass.
  - rewrite imean_cons. cbn [snd]. rewrite Nat.add_0_r.
    rewrite (imean_ext _ _ (fun i => g (S c + i))) by (intros i _; f_equal; lia).
    rewrite <- IH. field. apply NQ_mass.
Qed.
Lemma lengths_length : forall cuts, length (lengths cuts) = pred (length cuts).
Proof.
  induction cuts as [|a [|b cuts] IH]; [reflexivity|reflexivity|].
  change (lengths (a :: b :: cuts)) with (N.to_nat (b - a) :: lengths (b :: cuts)). cbn [length]. now rewrite IH.
Qed.
Lemma nth_error_combine_both : forall {X Y} (xs : list X) (ys : list Y) i x y, nth_error xs i = Some x -> nth_error ys i = Some y ->
  nth_error (combine xs ys) i = Some (x, y).
Proof.
  intros X Y. induction xs as [|x0 xs IH]; intros [|y0 ys] [|i] x y Hx Hy; try discriminate.
  - cbn in *. congruence.
  - cbn in *. now apply IH.
Qed.

Lemma nth_error_combine : forall {X Y} (xs : list X) (ys : list Y) i x y, nth_error (combine xs ys) i = Some (x, y) ->
  nth_error xs i = Some x /\ nth_error ys i = Some y.
Proof.
  intros X Y. induction xs as [|x0 xs IH]; intros [|y0 ys] [|i] x y H; try discriminate.
  - cbn in *. injection H as -> ->. now split.
  - cbn in *. now apply IH.
Qed.

Hypothesis Hmass : N.divide unit53 (N.of_nat B).

Lemma ilaw_pick : forall ws cuts, Forall (fun w => 0 <= w)%Qc ws -> Stretches ieee_round ws cuts ->
  ILaw (Picked G ws) (combine (seq 0 (length ws)) (shares cuts)).
Proof.
  intros ws cuts Hw HS. pose proof (cuts_climb _ _ HS) as HC.
  rewrite <- mass_N in Hmass. destruct (divide_nat _ Hmass) as [k Hk].
  pose proof (st_length _ _ _ HS) as Hl. pose proof (st_start _ _ _ HS) as H0.
  destruct cuts as [|c0 cs]; [discriminate|]. cbn in H0. subst c0. injection Hl as Hl.
  set (xs := seq 0 (length ws)).
  assert (Hxs : length cs = length xs) by (unfold xs; rewrite seq_length; exact Hl).
  exists 1, (Node (fun x => Leaf (sel 0 (0%N :: cs) xs (x mod N.of_nat mass)))). split; [|split].
  - constructor. intros x. constructor.
  - intros g. rewrite (E_mod mass k (sel 0 (0%N :: cs) xs) g mass_pos Hk).
    rewrite below_range, mass_N, (sel_total 0 g _ _ HC xs _ _ eq_refl Hxs).
    rewrite (shares_lengths _ _ HC).
    assert (Hn : length ws = length (lengths (0%N :: cs))) by (rewrite lengths_length; cbn; lia).
    unfold xs. rewrite Hn. exact (dot_imean g (lengths (0%N :: cs)) 0).
  - intros s i s' Hs Hx. destruct s as [|y s]; [discriminate|]. cbn [run] in Hx.
    pose proof (f_equal (fun o => match o with Some p => fst p | None => 0 end) Hx) as Hi. cbn [fst] in Hi.
    assert (s = s') as <- by now injection Hx.
    assert (Hy : (y mod unit53 < unit53)%N) by (apply N.mod_lt; discriminate).
    rewrite mass_N in Hi.
    destruct (sel_at 0 _ _ HC xs _ _ (y mod unit53)%N eq_refl Hxs (conj (N.le_0_l _) Hy)) as (i' & Hi' & Hc).
    rewrite Hi in Hi'. assert (Hlt : i' < length ws).
    { rewrite <- (seq_length (length ws) 0). apply nth_error_Some. fold xs. congruence. }
    unfold xs in Hi'. rewrite nth_error_seq in Hi' by assumption. injection Hi' as ->.
    destruct (nth_error (shares (0%N :: cs)) i) as [q|] eqn:Hq.
    2:{ apply nth_error_None in Hq. rewrite shares_length in Hq. cbn in Hq. lia. }
    exists i, q. split; [|split; [|split]].
    + apply nth_error_combine_both; [now apply nth_error_seq|assumption].
    + apply shares_nth in Hq. intros K. rewrite K in Hq. symmetry in Hq. apply Q2Qc_zero in Hq. lia.
    + split; [assumption|]. split; [assumption|]. eexists y, _. split; [reflexivity|]. split; [reflexivity|].
      exact (st_points _ _ _ HS i _ Hlt Hc).
    + now inversion Hs.
Qed.

Lemma ilaw_picks : forall ws cuts k, Forall (fun w => 0 <= w)%Qc ws -> Stretches ieee_round ws cuts ->
  exists l, ILaw (PickedMany G ws k) l.
Proof.
  intros ws cuts k Hw HS. induction k as [|k [l IH]].
  - exists [([], 1%Qc)]. apply ilaw_ret. constructor.
  - eexists. eapply ilaw_both; [eapply ilaw_pick; eassumption|exact IH|]. intros s a s1 b s2 H1 H2. econstructor; eassumption.
Qed.

(** * Choosing *)
Definition Picking (vs : list command) (ws : list Qc) (k : nat) (v : command) (s : list N) (sel : list command) (s' : list N) : Prop :=
  exists j w vs' ws' sel', FirstAt vs v j /\ nth_error ws j = Some w /\ Without v vs vs' /\ Without w ws ws' /\
    sel = v :: sel' /\ Chosen G vs' ws' k s sel' s'.

Lemma choosing_law :
  (forall vs ws k l, Choosing ieee_round vs ws k l -> ILaw (Chosen G vs ws k) l) /\
  (forall vs ws k cs qs l, ChoosingEach ieee_round vs ws k cs qs l -> length cs = length qs /\
     ILaws (combine (map (Picking vs ws k) cs) qs) l).
Proof.
  apply Choosing_mutind.
  - intros vs ws. apply ilaw_ret. constructor.
  - intros vs ws k cuts l Hw HS _ [Hl IH].
    eapply (ilaw_then (Picked G ws) _ _ _ _ (ilaw_pick ws cuts Hw HS) IH).
    + assert (Hq : length (shares cuts) = length ws) by (rewrite shares_length, (st_length _ _ _ HS); reflexivity).
      assert (Hsnd : forall {X} (xs : list X) (qs : list Qc), length xs = length qs -> map snd (combine xs qs) = qs).
      { clear. intros X. induction xs as [|x xs IH]; intros [|q qs] H; try discriminate; [reflexivity|]. cbn. f_equal. apply IH. now injection H. }
      rewrite !Hsnd; [reflexivity| |]; rewrite ?map_length, ?seq_length; congruence.
    + intros i x q R1 s s1 a s2 Hi HR1 Hp H1.
      apply nth_error_combine in Hi. destruct Hi as [Hi _].
      assert (x = i) as -> by (assert (i < length ws) by (rewrite <- (seq_length (length ws) 0); apply nth_error_Some; congruence);
        rewrite nth_error_seq in Hi by assumption; now injection Hi).
      apply nth_error_combine in HR1. destruct HR1 as [HR1 _]. rewrite nth_error_map in HR1.
      destruct (nth_error vs i) as [v|] eqn:Hv; [|discriminate]. injection HR1 as <-.
      destruct H1 as (j & w & vs' & ws' & sel' & H2 & H3 & H4 & H5 & -> & H6).
      econstructor; eassumption.
  - intros vs ws k. split; [reflexivity|apply ilaws_nil].
  - intros vs ws k v cs qs l _ [Hl IH]. split; [cbn; lia|]. cbn [map combine]. now apply ilaws_never.
  - intros vs ws k v cs q qs j w vs' ws' l l' Hj Hw Hv1 Hw1 _ IH _ [Hl IH']. split; [cbn; lia|].
    cbn [map combine]. apply ilaws_cons; [|assumption].
    apply (ilaw_map (cons v) (Chosen G vs' ws' k)); [assumption|]. intros s a s' Ha. exists j, w, vs', ws', a. repeat (split; [assumption || reflexivity|]). assumption.
Qed.

Lemma choosing_some_law : forall vs ws q ks l, ChoosingSome ieee_round vs ws q ks l ->
  ILaws (map (fun k => (Chosen G vs ws k, q)) ks) l.
Proof.
  intros vs ws q ks l H. induction H as [|k ks l l' H1 H IH]; [apply ilaws_nil|]. cbn [map]. apply ilaws_cons; [|assumption].
  now apply choosing_law.
Qed.

Lemma counted_law : forall vs ws lo hi n l, (Z.of_nat n = hi - lo + 1)%Z -> 0 < n -> (0 <= lo)%Z -> N.divide (N.of_nat n) (N.of_nat B) ->
  ChoosingSome ieee_round vs ws (one_in n) (seq (Z.to_nat lo) n) l ->
  ILaw (fun s sel s' => exists k s1, Counted G lo hi s k s1 /\ Chosen G vs ws (Z.to_nat k) s1 sel s') l.
Proof.
  intros vs ws lo hi n l Hn Hpos Hlo Hd H. apply choosing_some_law in H.
  eapply (ilaw_then _ _ _ _ _ (ilaw_below n Hpos Hd) H).
  - unfold evenly. rewrite !map_map. cbn [snd].
    assert (Hc : forall a b m, map (fun _ : nat => one_in n) (seq a m) = map (fun _ : nat => one_in n) (seq b m)).
    { clear. intros a b m. revert a b. induction m as [|m IH]; intros a b; [reflexivity|]. cbn. f_equal. apply IH. }
    apply Hc.
  - intros i x q R1 s s1 a s2 Hi HR1 (y & -> & Hy) H1. rewrite nth_error_map in HR1.
    unfold evenly in Hi. rewrite nth_error_map in Hi.
    destruct (nth_error (seq 0 n) i) as [i'|] eqn:Hs; [|discriminate].
    assert (Hlt : i < n) by (rewrite <- (seq_length n 0); apply nth_error_Some; congruence).
    rewrite nth_error_seq in Hs by assumption. injection Hs as <-. cbn in Hi.
    assert (i = x) as -> by now injection Hi.
    rewrite (nth_error_nth' _ 0) in HR1 by now rewrite seq_length. rewrite seq_nth in HR1 by assumption. cbn in HR1.
    injection HR1 as <-. exists (lo + Z.of_nat x)%Z, s1. split.
    + split; [lia|]. exists y. split; [reflexivity|]. replace (Z.to_N (hi - lo + 1)) with (N.of_nat n) by lia.
      rewrite Hy, N_nat_Z. reflexivity.
    + now replace (Z.to_nat (lo + Z.of_nat x)) with (Z.to_nat lo + x) by lia.
Qed.
End Odds.
