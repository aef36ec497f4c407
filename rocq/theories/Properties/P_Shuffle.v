(** C73: shuffled wildcard values. *)
From Coq Require Import String NArith ZArith QArith Qcanon Bool Arith List Permutation Lia.
From Verif.Model Require Import Str Rng Values Context Structured TextFile Tree Manager.
From Verif.Spec Require Import Text Names Files Tree Lookup StreamRng Shuffle.
From Verif.Proofs Require Import ManagerFacts LookupFacts ShuffleFacts.
From Verif.Properties Require Import P_Files P_Tree P_Manager.
Import ListNotations.
Local Open Scope nat_scope.

(** A shuffle of n values asks for numbers below n, n-1, ..., 2 and for nothing
    else, and its result depends on the answers only. *)
Theorem C73_same_draws_same_order : forall A (l : list A) G (r r1 : rng_state G) G' (r' r1' : rng_state G') ds,
  Answers G r (order_bounds (length l)) ds r1 -> Answers G' r' (order_bounds (length l)) ds r1' ->
  fst (shuffled G l r) = fst (shuffled G' l r') /\ snd (shuffled G l r) = r1.
Proof.
  intros A l G r r1 G' r' r1' ds H H'. rewrite (shuffled_arrange G A l r ds r1 H).
  now rewrite (shuffled_arrange G' A l r' ds r1' H').
Qed.

(** Every order of different values comes from exactly one series of draws. *)
Theorem C73_each_order_in_one_way : forall A (l p : list A), NoDup l -> Permutation l p ->
  exists ds, Draws (length l) ds /\
    (forall G r r1, Answers G r (order_bounds (length l)) ds r1 -> shuffled G l r = (p, r1)) /\
    (forall ds' G r r1, Answers G r (order_bounds (length l)) ds' r1 -> Draws (length l) ds' ->
       fst (shuffled G l r) = p -> ds' = ds).
Proof.
  intros A l p Hn Hp. destruct (shuffled_bijective A l p Hn Hp) as (ds & H1 & H2 & H3).
  exists ds. split; [assumption|]. split.
  - intros G r r1 H. rewrite (shuffled_arrange G A l r ds r1 H). now rewrite H2.
  - intros ds' G r r1 H Hd E. rewrite (shuffled_arrange G A l r ds' r1 H) in E. now apply H3.
Qed.

(** Every source answers with one of the n! series, and every series is the
    answer of some source. *)
Theorem C73_series_of_draws : forall n,
  (forall G r, exists ds r', Answers G r (order_bounds n) ds r' /\ Draws n ds) /\
  (forall ds, Draws n ds -> exists G r r', Answers G r (order_bounds n) ds r') /\
  exists L, NoDup L /\ (forall ds, In ds L <-> Draws n ds) /\ length L = fact n.
Proof.
  intros n. split; [intros G r; apply answers_exist|]. split; [|apply draws_counted].
  intros ds H. exists stream_rng, (map N.of_nat ds), []. now apply draws_answered.
Qed.

(** Values are moved about, never looked at. *)
Theorem C73_values_are_not_looked_at : forall G A B (f : A -> B) l r,
  shuffled G (map f l) r = (map f (fst (shuffled G l r)), snd (shuffled G l r)).
Proof. intros G A B f l r. unfold shuffled. rewrite map_length. apply shuffle_from_map. Qed.

(** While shuffling is on, a lookup shuffles one list of values, whatever the
    random source answers: so every order of the values found is an answer. *)
Theorem C73_lookups_give_every_order : forall P G ww roots fs s d sh r ops wc,
  UniqueNames fs -> Forall keeps_files ops ->
  let w' := run_ops P G ww roots ops (fresh G fs s d sh r) in
  m_shuffle (w_man G w') = true ->
  exists raw l, Found fs ww (build_map P fs roots) wc raw /\
    (m_dedup (w_man G w') = true -> NoDup l /\ forall i, In i l <-> In i raw) /\
    (m_dedup (w_man G w') = false -> Permutation raw l) /\
    forall p, Permutation l p -> NoDup l ->
      exists ds, Draws (length l) ds /\
        forall r1 r2, Answers G r1 (order_bounds (length l)) ds r2 ->
          lookup P G ww roots wc (with_source G w' r1) = Ok p.
Proof.
  intros P G ww roots fs s d sh r ops wc Hu Hk w' Hsh.
  destruct (lookup_answer P G ww roots fs s d sh r ops wc Hu Hk) as (raw & out & E & HF & HA).
  fold w' in E, HA.
  destruct (run_Inv P G ww roots (fun _ => True) ops (fresh G fs s d sh r) (quiets _ Hk)
    (fresh_Inv P G ww roots _ fs s d sh r I)) as [Ef HI]. fold w' in Ef, HI.
  rewrite <- Ef in HI.
  destruct (lookup_shuffles P G ww roots w' wc HI Hsh out E) as (l & Hl & Hr).
  exists raw, l. split; [assumption|]. destruct HA as (mid & H1 & H2 & H3 & _).
  assert (Hm : Permutation mid l) by (now rewrite Hl).
  split; [|split].
  - intros Hd. destruct (H1 Hd) as (Hn & Hin & _). split; [eapply Permutation_NoDup; eassumption|].
    intros i. rewrite <- (Hin i). split; apply Permutation_in; [now symmetry|assumption].
  - intros Hd. now rewrite <- (H2 Hd).
  - intros p Hp Hn. destruct (C73_each_order_in_one_way _ l p Hn Hp) as (ds & Hd & Ha & _).
    exists ds. split; [assumption|]. intros r1 r2 H. rewrite Hr. now rewrite (Ha G r1 r2 H).
Qed.

Example C73_example :
  Draws 3 [0; 1] /\ Answers stream_rng [0; 1; 7]%N (order_bounds 3) [0; 1] [7]%N /\
  shuffled stream_rng [$"a"; $"b"; $"c"] [0; 1; 7]%N = ([$"c"; $"b"; $"a"], [7]%N) /\
  map (fun s => fst (shuffled stream_rng [1; 2; 3] s)) [[0; 0]; [0; 1]; [1; 0]; [1; 1]; [2; 0]; [2; 1]]%N
  = [[2; 3; 1]; [3; 2; 1]; [3; 1; 2]; [1; 3; 2]; [2; 1; 3]; [1; 2; 3]].
Proof.
  split; [repeat constructor|]. split; [|vm_compute; auto].
  cbn. econstructor; [reflexivity|]. econstructor; [reflexivity|]. constructor.
Qed.
Definition ops73 := [OSort false; OGet $"m"; OShuffle true].
Example C73_example_lookup :
  UniqueNames fs0 /\ Forall keeps_files ops73 /\
  m_shuffle (w_man stream_rng (run_ops lib0 stream_rng $"__" roots1 ops73 (fresh stream_rng fs0 true true false []))) = true /\
  map (fun s => lookup lib0 stream_rng $"__" roots1 $"m"
         (with_source stream_rng (run_ops lib0 stream_rng $"__" roots1 ops73 (fresh stream_rng fs0 true true false [])) s))
    [[0]; [1]]%N = [Ok [item $"b"; item $"v"]; Ok [item $"v"; item $"b"]].
Proof. split; [apply C30_example_fs|]. split; [repeat constructor; discriminate|]. vm_compute. auto. Qed.

Print Assumptions C73_same_draws_same_order.
Print Assumptions C73_each_order_in_one_way.
Print Assumptions C73_series_of_draws.
Print Assumptions C73_values_are_not_looked_at.
Print Assumptions C73_lookups_give_every_order.
