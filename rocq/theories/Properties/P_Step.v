(** C83: which combinations several cyclical variants go through. *)
From Coq Require Import String NArith ZArith QArith Qcanon Bool Arith List Lia.
From Verif.Model Require Import Str Command Rng Values Context Sampler.
From Verif.Spec Require Import Text Comb Lang Cycle.
From Verif.Proofs Require Import StrFacts CommandFacts Soundness StepFacts.
From Verif.Properties Require Import P_Sampler P_Cycle.
Import ListNotations.
Local Open Scope nat_scope.

(** Cyclical variants side by side, each choosing one of some texts. *)
Definition side_by_side (tss : list (list (text * Qc))) : command :=
  Seq (map (fun ts => Var (literals ts) 1 1 $"," (Some Cyclical)) tss) [] None.

Lemma side_run : forall G E c tss, c_method c <> Combinatorial -> c_ignws c = false ->
  tss <> [] -> Forall (fun ts => ts <> []) tss ->
  exists f, forall m, f <= m -> exists g, sample_prompts E m c (WCmd (side_by_side tss)) None = MOk g /\
    forall n r, exists g', collect G E m n g r =
      (map (fun k => concat (map (fun ts => turn ts k) tss)) (seq 0 n), EndLimit g', Some r).
Proof.
  intros G E c tss Hc Hw Hne Ht. set (s := fun k => concat (map (fun ts => turn ts k) tss)).
  assert (HC : Cyc E c (side_by_side tss) s).
  { pose proof (C20_variants_stay_in_step E c tss (map (fun _ => $",") tss) [] s Hc Ht (map_length _ _)) as H.
    assert (Ec : map (fun x => Var (literals (fst x)) 1 1 (snd x) (Some Cyclical)) (combine tss (map (fun _ => $",") tss))
                 = map (fun ts => Var (literals ts) 1 1 $"," (Some Cyclical)) tss).
    { clear. induction tss as [|ts tss IH]; [reflexivity|]. cbn [map combine fst snd]. f_equal. exact IH. }
    rewrite Ec in H. apply H. intros k. apply Glued_plain. reflexivity. }
  apply (C20_kth_prompt G E c (side_by_side tss) s s); auto.
  - split; [|discriminate]. intros ? ? E'. destruct tss; [congruence|discriminate E'].
  - intros k. rewrite Hw. reflexivity.
Qed.

(** * C83 *)
(** Two variants: option number i of the first meets option number j of the
    second exactly when i and j leave the same remainder modulo the greatest
    common divisor of the numbers of options, and the least common multiple
    is enough prompts to see all of these. *)
Theorem C83_pairs_that_meet : forall G E c ts us, c_method c <> Combinatorial -> c_ignws c = false ->
  ts <> [] -> us <> [] ->
  exists f, forall m, f <= m -> exists g, sample_prompts E m c (WCmd (side_by_side [ts; us])) None = MOk g /\
    forall n r ps e r', collect G E m n g r = (ps, e, r') -> Nat.lcm (length ts) (length us) <= n ->
      forall x, In x ps <-> exists i j a b,
        nth_error (map fst ts) i = Some a /\ nth_error (map fst us) j = Some b /\
        i mod Nat.gcd (length ts) (length us) = j mod Nat.gcd (length ts) (length us) /\ x = a ++ b.
Proof.
  intros G E c ts us Hc Hw Ht Hu.
  destruct (side_run G E c [ts; us] Hc Hw) as (f & Hf); [discriminate|repeat constructor; assumption|].
  exists f. intros m Hm. destruct (Hf m Hm) as (g & Hg & Hr). exists g. split; [exact Hg|].
  intros n r ps e r' Hcol Hn x. destruct (Hr n r) as (g' & E'). rewrite E' in Hcol. injection Hcol as <- _ _.
  assert (Lt : 0 < length ts) by (destruct ts; [congruence|cbn; lia]).
  assert (Lu : 0 < length us) by (destruct us; [congruence|cbn; lia]).
  assert (Hturn : forall l k i a, k mod length l = i -> nth_error (map fst l) i = Some a -> turn l k = a).
  { intros l k i a <- Ha. unfold turn. apply nth_error_nth, Ha. }
  rewrite in_map_iff. split.
  - intros (k & <- & _). cbn [map concat]. rewrite app_nil_r.
    assert (Hnth : forall l : list (text * Qc), 0 < length l -> nth_error (map fst l) (k mod length l) = Some (turn l k)).
    { intros l Hl. unfold turn. apply nth_error_nth'. rewrite map_length. apply Nat.mod_upper_bound. lia. }
    exists (k mod length ts), (k mod length us), (turn ts k), (turn us k). repeat split; auto.
    apply step_apart; assumption.
  - intros (i & j & a & b & Ha & Hb & Hij & ->).
    assert (Hi : i < length ts) by (rewrite <- (map_length fst); apply nth_error_Some; congruence).
    assert (Hj : j < length us) by (rewrite <- (map_length fst); apply nth_error_Some; congruence).
    destruct (step_together (length ts) (length us) i j Lt Lu Hi Hj Hij) as (k & Hk & H1 & H2).
    exists k. split; [|apply in_seq; lia]. cbn [map concat]. rewrite app_nil_r.
    rewrite (Hturn ts k i a H1 Ha), (Hturn us k j b H2 Hb). reflexivity.
Qed.

(** So every combination appears if the numbers have no common divisor... *)
Theorem C83_coprime_variants_meet_everywhere : forall G E c ts us,
  c_method c <> Combinatorial -> c_ignws c = false -> ts <> [] -> us <> [] ->
  Nat.gcd (length ts) (length us) = 1 ->
  exists f, forall m, f <= m -> exists g, sample_prompts E m c (WCmd (side_by_side [ts; us])) None = MOk g /\
    forall n r ps e r', collect G E m n g r = (ps, e, r') -> length ts * length us <= n ->
      forall x, In x ps <-> exists a b, In a (map fst ts) /\ In b (map fst us) /\ x = a ++ b.
Proof.
  intros G E c ts us Hc Hw Ht Hu Hg. destruct (C83_pairs_that_meet G E c ts us Hc Hw Ht Hu) as (f & Hf).
  exists f. intros m Hm. destruct (Hf m Hm) as (g & Hgg & Hr). exists g. split; [exact Hgg|].
  intros n r ps e r' Hcol Hn x. rewrite (Hr n r ps e r' Hcol).
  - rewrite Hg. split.
    + intros (i & j & a & b & Ha & Hb & _ & ->). exists a, b. repeat split; eapply nth_error_In; eassumption.
    + intros (a & b & Ha & Hb & ->). apply In_nth_error in Ha as (i & Ha). apply In_nth_error in Hb as (j & Hb).
      exists i, j, a, b. rewrite !Nat.mod_1_r. auto.
  - unfold Nat.lcm. rewrite Hg, Nat.div_1_r. exact Hn.
Qed.

(** Any number of variants together come back after any common multiple of
    their numbers of options. *)
Theorem C83_prompts_come_back : forall G E c tss l, c_method c <> Combinatorial -> c_ignws c = false ->
  tss <> [] -> Forall (fun ts => ts <> [] /\ Nat.divide (length ts) l) tss ->
  exists f, forall m, f <= m -> exists g, sample_prompts E m c (WCmd (side_by_side tss)) None = MOk g /\
    forall n r ps e r', collect G E m n g r = (ps, e, r') ->
      length ps = n /\ forall k, k + l < n -> nth_error ps (k + l) = nth_error ps k.
Proof.
  intros G E c tss l Hc Hw Hne Ht.
  destruct (side_run G E c tss Hc Hw Hne) as (f & Hf).
  { eapply Forall_impl; [|exact Ht]. intros ts [H _]. exact H. }
  exists f. intros m Hm. destruct (Hf m Hm) as (g & Hg & Hr). exists g. split; [exact Hg|].
  intros n r ps e r' Hcol. destruct (Hr n r) as (g' & E'). rewrite E' in Hcol. injection Hcol as <- _ _.
  split; [rewrite map_length; apply seq_length|]. intros k Hk.
  assert (Hn : forall (h : nat -> text) q, q < n -> nth_error (map h (seq 0 n)) q = Some (h q)).
  { intros h q Hq. rewrite (map_nth_error h q (seq 0 n) (d := q)); [reflexivity|].
    rewrite (nth_error_nth' (seq 0 n) 0) by (rewrite seq_length; exact Hq). rewrite seq_nth by exact Hq. reflexivity. }
  rewrite !Hn by lia. do 2 f_equal. apply map_ext_in. intros ts Hin. rewrite Forall_forall in Ht.
  destruct (Ht ts Hin) as [H1 H2]. unfold turn. rewrite step_period; [reflexivity| |exact H2].
  destruct ts; [congruence|cbn; lia].
Qed.

(** [{@a|b}{@x|y|z}] shows all six pairs, [{@a|b}{@w|x|y|z}] only four of
    eight. *)
Definition texts (ss : list string) : list (text * Qc) := map (fun s => ($s, 1%Qc)) ss.
Example C83_example :
  fst (run Random (side_by_side [texts ["a"; "b"]%string; texts ["x"; "y"; "z"]%string]) 6 [])
  = [$"ax"; $"by"; $"az"; $"bx"; $"ay"; $"bz"] /\
  fst (run Random (side_by_side [texts ["a"; "b"]%string; texts ["w"; "x"; "y"; "z"]%string]) 6 [])
  = [$"aw"; $"bx"; $"ay"; $"bz"; $"aw"; $"bx"].
Proof. split; vm_compute; reflexivity. Qed.

Print Assumptions C83_pairs_that_meet.
Print Assumptions C83_coprime_variants_meet_everywhere.
Print Assumptions C83_prompts_come_back.
