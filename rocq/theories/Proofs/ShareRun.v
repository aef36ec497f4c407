(** Single random choices: which option the random number selects. *)
From Coq Require Import String NArith ZArith QArith Qcanon Bool Arith List Lia.
From Verif.Model Require Import Str Utils Command Float Rng Values Context Sampler.
From Verif.Spec Require Import Text Comb Items Lang Enum Share.
From Verif.Proofs Require Import StrFacts UtilsFacts CommandFacts RngFacts DrawFacts ShareFacts Soundness FuelFacts RunFacts EnumFacts BindFacts CycleFacts GeneratorFacts.
Import ListNotations.
Local Open Scope nat_scope.

Section Run.
Variable G : rng_impl.
Variable E : env.
Notation next := (next G E).
Notation float_sum := (Comb.float_sum (fl G)).

Variable c : ctx.
Variable opts : list (command * Qc).
Variable texts : list text.
Variable sep : text.
Hypothesis Hlen : 2 <= length opts.
Hypothesis Htexts : Forall2 (fun o t => exists s, Cyc E c (fst o) s /\ s 0 = t) opts texts.
Variable cuts : list N.
Hypothesis Hdraw : forall r : rng_state G, exists i,
  draw_index G (accumulate G (weights opts)) r = (i, snd (prim_random G r)) /\
  i < length (weights opts) /\ (nth i cuts 0 <= N.modulo (fst (prim_random G r)) (2 ^ 53) < nth (S i) cuts 0)%N.
Hypothesis Hpos : (0 < float_sum (weights opts))%Qc.

Let loop := GRVarLoop c opts 1 1 sep.
Let after (r : rng_state G) := snd (prim_random G (snd (prim_below G 1 r))).
Let number (r : rng_state G) := N.modulo (fst (prim_random G (snd (prim_below G 1 r)))) (2 ^ 53).

Lemma options_fuel : forall os ts,
  Forall2 (fun (o : command * Qc) t => exists s, Cyc E c (fst o) s /\ s 0 = t) os ts ->
  exists n, Forall2 (fun o t => forall m (r : rng_state G), n <= m ->
    exists g g', mk m c (fst o) = MOk g /\ next m g r = OVal (t, g') r) os ts.
Proof.
  intros os ts H. induction H as [|o t os ts (s & Hs & Ht) _ (n & IH)].
  - exists 0. constructor.
  - destruct (proj1 (cyc_gives G E) _ _ _ Hs _ (Same_refl c)) as (n1 & g & Hg & gs & n2 & H0 & Hf).
    exists (n + n1 + n2). constructor.
    + intros m r Hle. exists g, (gs 1). split; [apply Hg; lia|]. rewrite <- H0, Hf by lia. now rewrite Ht.
    + clear -IH. induction IH as [|x y l l' H1 _ IH]; constructor; [|exact IH]. intros m r Hle. apply H1. lia.
Qed.

Lemma lookup2 : forall {A B} (P : A -> B -> Prop) l l', Forall2 P l l' -> forall i, i < length l ->
  exists a b, nth_error l i = Some a /\ nth_error l' i = Some b /\ P a b.
Proof.
  intros A B P l l' H. induction H as [|a b l l' Hab _ IH]; intros i Hi; [cbn in Hi; lia|].
  destruct i as [|i]; [now exists a, b|]. apply IH. cbn in Hi. lia.
Qed.

Lemma one_choice : exists n, forall m r, n <= m -> exists i t, nth_error texts i = Some t /\
  (nth i cuts 0 <= number r < nth (S i) cuts 0)%N /\ next (S m) loop r = OVal (t, loop) (after r).
Proof.
  destruct (options_fuel _ _ Htexts) as (n & Hn). exists n. intros m r Hmn.
  destruct (Hdraw (snd (prim_below G 1 r))) as (i & Hi & Hil & Hcut).
  unfold weights in Hil. rewrite map_length in Hil.
  destruct (lookup2 _ _ _ Hn i Hil) as (o & t & Ho & Ht & Hot).
  exists i, t. split; [exact Ht|]. split; [exact Hcut|].
  destruct (Hot m (after r) Hmn) as (g & g' & Hg & Hg').
  unfold loop. unfold_next G E. rewrite adjust_range_clamp.
  replace (clamp (length opts) (Z.min 1 1)) with 1%Z by (unfold clamp; lia).
  replace (Z.min (Z.max 1 1) (Z.of_nat (length opts))) with 1%Z by lia.
  unfold randint, randbelow. change (1 <=? 1)%Z with true. change (N.of_nat (Z.to_nat (1 - 1 + 1))) with 1%N.
  destruct (prim_below G 1 r) as [x r1] eqn:Hb. cbn [snd] in Hi, Hcut.
  rewrite N.mod_1_r. change (1 + Z.of_nat (N.to_nat 0))%Z with 1%Z. cbn iota beta zeta. rewrite Z.min_id.
  unfold choose_without_replacement.
  replace (Z.of_nat (length (values opts)) <? 1)%Z with false
    by (symmetry; apply Z.ltb_ge; unfold values; rewrite map_length; lia).
  assert (Hw : exists w1 w2 ws, weights opts = w1 :: w2 :: ws).
  { clear -Hlen. destruct opts as [|[v1 q1] [|[v2 q2] os]]; cbn in Hlen; try lia. cbn. eauto. }
  assert (Hv : exists w1 w2 ws, values opts = w1 :: w2 :: ws).
  { clear -Hlen. destruct opts as [|[v1 q1] [|[v2 q2] os]]; cbn in Hlen; try lia. cbn. eauto. }
  destruct Hw as (w1 & w2 & ws & Hw). destruct Hv as (v1 & v2 & vs & Hv).
  replace (match weights opts with [] => map (fun _ => 1%Qc) (values opts) | _ :: _ => weights opts end)
    with (weights opts) by now rewrite Hw.
  cbv zeta.
  replace (negb (length (values opts) =? length (weights opts))) with false
    by (unfold values, weights; rewrite !map_length, Nat.eqb_refl; reflexivity).
  assert (Hcwr : forall (x : rres G (list command)) y z, match values opts with [] => x | [v] => y v | _ => z end = z)
    by (intros; now rewrite Hv).
  rewrite Hcwr. cbn [Z.to_nat].
  change (Pos.to_nat 1) with 1. cbn [cwr_loop].
  assert (Hch : choices G (accumulate G (weights opts)) 1 r1 = ROk [i] (snd (prim_random G r1))).
  { unfold choices. destruct (accumulate G (weights opts)) as [|q qs] eqn:Hacc; [rewrite Hw in Hacc; discriminate|].
    rewrite <- Hacc in *. rewrite accumulate_sum.
    destruct (Qc_leb _ _) eqn:Hle; [apply Qc_leb_spec in Hle; now apply Qcle_not_lt in Hle|].
    cbn [draw_indices]. now rewrite Hi. }
  rewrite Hch. unfold values at 1. rewrite nth_error_map, Ho. cbn [option_map].
  destruct (cwr_remaining cmd_eqb (fst o) (values opts) (weights opts)) as [vals' ws']. cbn [cwr_loop lift_rres obind mk_all].
  unfold after in Hg'. rewrite Hb in Hg'. cbn [snd] in Hg'.
  rewrite Hg. cbn [lift_mk obind rotate_all]. rewrite Hg'. cbn [obind rotate_all pep479].
  unfold after. rewrite Hb. cbn [snd]. reflexivity.
Qed.

End Run.

Section Whole.
Variable G : rng_impl.
Variable E : env.

(** Any generator that starts like the loop. *)
Lemma started_collect : forall (texts : list text) (cuts : list N) (g0 g1 : gen) b fuel,
  (forall r, next G E (S fuel) g0 r = next G E fuel g1 r) ->
  (forall f r, fuel <= S f -> exists i t, nth_error texts i = Some t /\
    (nth i cuts 0 <= N.modulo (fst (prim_random G (snd (prim_below G 1 r)))) (2 ^ 53) < nth (S i) cuts 0)%N /\
    next G E (S f) g1 r = OVal (t, g1) (snd (prim_random G (snd (prim_below G 1 r))))) ->
  0 < fuel ->
  let wrap g := if b : bool then GSquash g else g in
  forall n r g, g = g0 \/ g = g1 -> exists us g' r',
    collect G E (if b then S (S fuel) else S fuel) n (wrap g) r = (us, EndLimit g', Some r') /\
    Forall2 (fun x u => exists i t, nth_error texts i = Some t /\ Tidy b t u /\ (nth i cuts 0 <= x < nth (S i) cuts 0)%N)
            (choice_numbers G n r) us.
Proof.
  intros texts cuts g0 g1 b fuel H0 H1 Hf wrap. induction n as [|n IH]; intros r g Hg; cbn [collect choice_numbers].
  { exists [], (wrap g), r. split; [reflexivity|constructor]. }
  destruct fuel as [|f0]; [lia|].
  assert (Hn : exists i t, nth_error texts i = Some t /\
    (nth i cuts 0 <= N.modulo (fst (prim_random G (snd (prim_below G 1 r)))) (2 ^ 53) < nth (S i) cuts 0)%N /\
    next G E (S (S f0)) g r = OVal (t, g1) (snd (prim_random G (snd (prim_below G 1 r))))).
  { destruct Hg as [->| ->]; [rewrite H0|]; apply H1; lia. }
  destruct Hn as (i & t & Ht & Hc & Hx).
  assert (Hw : next G E (if b then S (S (S f0)) else S (S f0)) (wrap g) r =
    OVal (if b then squash_whitespace t else t, wrap g1) (snd (prim_random G (snd (prim_below G 1 r))))).
  { destruct b; subst wrap; cbn beta iota; [|exact Hx]. revert Hx. generalize (S (S f0)). intros m1 Hx. unfold_next G E. now rewrite Hx. }
  rewrite Hw.
  destruct (IH (snd (prim_random G (snd (prim_below G 1 r)))) g1 (or_intror eq_refl)) as (us & g' & r' & Hus & HF).
  rewrite Hus. exists ((if b then squash_whitespace t else t) :: us), g', r'. split; [reflexivity|].
  destruct (prim_random G (snd (prim_below G 1 r))) as [x r2]. cbn [fst snd] in *. constructor; [|exact HF].
  exists i, t. repeat split; try assumption; try apply Hc. destruct b; [apply squash_Tidy|reflexivity].
Qed.

Theorem share_run : forall c opts texts sep m,
  resolve (c_method c) m = Random -> 2 <= length opts ->
  Forall2 (fun o t => exists s, Cyc E (as_method Random c) (fst o) s /\ s 0 = t) opts texts ->
  Forall (fun w => 0 <= w)%Qc (weights opts) -> (0 < Comb.float_sum (fl G) (weights opts))%Qc ->
  exists cuts, Cuts 1 (Comb.float_sum (fl G)) (weights opts) cuts /\
  exists f, forall fuel, f <= fuel -> exists g, sample_prompts E fuel c (WCmd (Var opts 1 1 sep m)) None = MOk g /\
  forall n r, exists us g' r', collect G E fuel n g r = (us, EndLimit g', Some r') /\
    Forall2 (fun x u => exists i t, nth_error texts i = Some t /\ Tidy (c_ignws c) t u /\
                                    (nth i cuts 0 <= x < nth (S i) cuts 0)%N) (choice_numbers G n r) us.
Proof.
  intros c opts texts sep m Hm Hlen Ht Hnn Hpos.
  destruct (cut_points G _ Hnn Hpos) as (cuts & Hcuts & Hd). exists cuts. split; [exact Hcuts|].
  destruct (one_choice G E _ opts texts sep Hlen Ht cuts Hd Hpos) as (f & Hone).
  exists (S (S (S (S f)))). intros [|[|[|fuel]]] Hfuel; try lia.
  exists (if c_ignws c then GSquash (GRVarStart (as_method Random c) opts 1 1 sep)
          else GRVarStart (as_method Random c) opts 1 1 sep).
  split.
  { unfold sample_prompts. replace (truthy (Var opts 1 1 sep m)) with true by (destruct opts; [cbn in Hlen; lia|reflexivity]).
    cbn [negb mk]. rewrite chosen_method_resolve. cbn [mark_of]. rewrite Hm. reflexivity. }
  intros n r.
  assert (Hs : forall k r, next G E (S k) (GRVarStart (as_method Random c) opts 1 1 sep) r =
                           next G E k (GRVarLoop (as_method Random c) opts 1 1 sep) r).
  { intros k r0. clear -Hlen. destruct opts as [|[v1 q1] [|o2 os]]; cbn in Hlen; try lia. reflexivity. }
  destruct (c_ignws c) eqn:Hb.
  - apply (started_collect texts cuts _ _ true (S fuel) (Hs _)); [|lia|now left].
    intros k r0 Hk. apply Hone. lia.
  - apply (started_collect texts cuts _ _ false (S (S fuel)) (Hs _)); [|lia|now left].
    intros k r0 Hk. apply Hone. lia.
Qed.

Theorem share_run_snd : forall c opts texts sep m,
  resolve (c_method c) m = Random -> 2 <= length opts ->
  Forall2 (fun o t => exists s, Cyc E (as_method Random c) (fst o) s /\ s 0 = t) opts texts ->
  Forall (fun o => 0 <= snd o)%Qc opts -> (0 < Comb.float_sum (fl G) (map snd opts))%Qc ->
  exists cuts, Cuts 1 (Comb.float_sum (fl G)) (map snd opts) cuts /\
  exists f, forall fuel, f <= fuel -> exists g, sample_prompts E fuel c (WCmd (Var opts 1 1 sep m)) None = MOk g /\
  forall n r, exists us g' r', collect G E fuel n g r = (us, EndLimit g', Some r') /\
    Forall2 (fun x u => exists i t, nth_error texts i = Some t /\ Tidy (c_ignws c) t u /\
                                    (nth i cuts 0 <= x < nth (S i) cuts 0)%N) (choice_numbers G n r) us.
Proof.
  intros c opts texts sep m Hm Hlen Ht Hn Hp. apply (share_run c opts texts sep m Hm Hlen Ht); [|exact Hp].
  apply Forall_forall. intros w Hw. apply in_map_iff in Hw. destruct Hw as (o & <- & Ho).
  rewrite Forall_forall in Hn. now apply Hn.
Qed.
End Whole.
