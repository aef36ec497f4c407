(** Generators and their random sources. *)
From Coq Require Import String NArith ZArith QArith Qcanon Bool Arith List Lia.
From Verif.Model Require Import Str Command Rng Values Context Sampler Generators Session.
From Verif.Spec Require Import Text Session.
Import ListNotations.
Local Open Scope nat_scope.

Section Session.
Variable G : rng_impl.
Variable E : env.
Notation R := (rng_state G).
Notation kind := (kind G).

Definition linked (k : kind) : bool := match k with Linked _ _ => true | _ => false end.
Definition count (ks : list kind) : nat := length (filter linked ks).
Definition gen_of (o : nat) (k : kind) : generator :=
  match k with
  | Linked _ b => RandomGen (new_context Random b) (Own o)
  | Unlinked b => RandomGen (new_context Random b) Shared
  | Listing b => CombinatorialGen (new_context Combinatorial b)
  end.
Fixpoint gens_of (o : nat) (ks : list kind) : list generator :=
  match ks with
  | [] => []
  | k :: ks' => gen_of o k :: gens_of (if linked k then S o else o) ks'
  end.
Definition Inv (s : session G) (ks : list kind) : Prop :=
  s_gens G s = gens_of 0 ks /\ length (s_own G s) = count ks.

Lemma count_app : forall a b, count (a ++ b) = count a + count b.
Proof. intros a b. unfold count. now rewrite filter_app, app_length. Qed.
Lemma gens_app : forall a o b, gens_of o (a ++ b) = gens_of o a ++ gens_of (o + count a) b.
Proof.
  induction a as [|k a IH]; intros o b; cbn [app gens_of].
  - unfold count. cbn. now rewrite Nat.add_0_r.
  - rewrite IH. unfold count. cbn [filter]. destruct (linked k); cbn [length]; [|reflexivity].
    now rewrite Nat.add_succ_r.
Qed.
Lemma gens_nth : forall ks o j, nth_error (gens_of o ks) j =
  match nth_error ks j with Some k => Some (gen_of (o + count (firstn j ks)) k) | None => None end.
Proof.
  induction ks as [|k ks IH]; intros o [|j]; cbn [gens_of nth_error firstn]; try reflexivity.
  - unfold count. cbn. now rewrite Nat.add_0_r.
  - rewrite IH. destruct (nth_error ks j); [|reflexivity]. unfold count. cbn [filter].
    destruct (linked k); cbn [length]; [|reflexivity]. now rewrite Nat.add_succ_r.
Qed.

Lemma set_nth_length : forall {A} i (x : A) l, length (set_nth i x l) = length l.
Proof. intros A i x l. revert i. induction l as [|y l IH]; intros [|i]; cbn; auto. Qed.
Lemma set_nth_same : forall {A} i (x : A) l, i < length l -> nth_error (set_nth i x l) i = Some x.
Proof. intros A i x l. revert i. induction l as [|y l IH]; intros [|i] H; cbn in *; try lia; auto. apply IH. lia. Qed.
Lemma set_nth_other : forall {A} i j (x : A) l, i <> j -> nth_error (set_nth i x l) j = nth_error l j.
Proof.
  intros A i j x l. revert i j. induction l as [|y l IH]; intros [|i] [|j] H; cbn; auto; try congruence.
Qed.

(** What the creations do. *)
Definition new_own (x : call G) : list R :=
  flat_map (fun k : kind => match k with Linked st _ => [st] | _ => [] end) (makes G x).
Lemma make_step : forall fuel x s ks, Inv s ks -> (forall i q, x <> Ask i q) ->
  exists s', perform G E fuel x s = Some (Prompts [], s') /\ Inv s' (ks ++ makes G x) /\
    s_shared G s' = s_shared G s /\ s_own G s' = s_own G s ++ new_own x.
Proof.
  intros fuel x s ks [Hg Ho] Hx.
  assert (H0 : forall l, s_gens G s ++ l = gens_of 0 ks ++ l) by (intros; now rewrite Hg).
  destruct x as [[z|] [|] b os|b|[|] b os|i q]; try (exfalso; eapply Hx; reflexivity);
    (eexists; split; [reflexivity|]); cbn; unfold new_own; cbn [flat_map makes app];
    (split; [split; cbn [s_gens s_own]|split; [reflexivity|]]);
    rewrite ?gens_app, ?count_app, ?app_length, ?app_nil_r, <- ?app_assoc, ?H0, ?Ho; try reflexivity;
    cbn; try lia; rewrite ?Nat.add_0_r; try reflexivity;
    rewrite ?app_length, <- ?app_assoc, ?Hg, ?Ho; reflexivity.
Qed.

Definition source_of (ks : list kind) (i : nat) (k : kind) : source :=
  if linked k then Own (count (firstn i ks)) else Shared.

Lemma generate_replies : forall fuel o k q r a r',
  generate G E fuel (gen_of o k) q r = Some (a, r') -> Replies G E fuel k q r a r'.
Proof.
  intros fuel o k q r a r' H. unfold generate in H.
  destruct k as [st b|b|b]; cbn [gen_of] in H; econstructor; try reflexivity;
  [change (plain_context Random b) with (new_context Random b)
  |change (plain_context Random b) with (new_context Random b)
  |change (plain_context Combinatorial b) with (new_context Combinatorial b); fold max_images];
  match type of H with match ?x with _ => _ end = _ => destruct x eqn:Hx end; try discriminate;
  injection H as <- <-; constructor.
Qed.

Lemma ask_step : forall fuel i q s ks a s', Inv s ks -> perform G E fuel (Ask i q) s = Some (a, s') ->
  exists k r r', nth_error ks i = Some k /\ read_source G (source_of ks i k) s = Some r /\
    Replies G E fuel k q r a r' /\ s' = write_source G (source_of ks i k) r' s.
Proof.
  intros fuel i q s ks a s' [Hg Ho] H. cbn [perform] in H. rewrite Hg, gens_nth in H. cbn [Nat.add] in H.
  destruct (nth_error ks i) as [k|] eqn:Hk; [|discriminate].
  assert (Hs : match gen_of (count (firstn i ks)) k with RandomGen _ rand => rand | CombinatorialGen _ => Shared end
               = source_of ks i k) by (destruct k; reflexivity).
  rewrite Hs in H. destruct (read_source G (source_of ks i k) s) as [r|] eqn:Hr; [|discriminate].
  destruct (generate G E fuel (gen_of (count (firstn i ks)) k) q r) as [[a' r']|] eqn:Hgen; [|discriminate].
  injection H as <- <-. exists k, r, r'. repeat split; try assumption. now apply generate_replies in Hgen.
Qed.

Lemma write_inv : forall src r s ks, Inv s ks -> Inv (write_source G src r s) ks.
Proof. intros [|i] r s ks [Hg Ho]; split; cbn; auto. now rewrite set_nth_length. Qed.

Lemma ask_not : forall x : call G, (forall i q, x <> Ask i q) \/ exists i q, x = Ask i q.
Proof. intros [| | |i q]; [left; discriminate..|right; eauto]. Qed.

Theorem shared_thread : forall fuel calls s ks answers s', Inv s ks ->
  perform_all G E fuel calls s = Some (answers, s') ->
  Thread G E fuel (fun _ k => linked k = false) ks (s_shared G s) calls answers.
Proof.
  intros fuel calls. induction calls as [|x calls IH]; intros s ks answers s' HI H; cbn [perform_all] in H.
  - injection H as <- <-. constructor.
  - destruct (perform G E fuel x s) as [[a s1]|] eqn:H1; [|discriminate].
    destruct (perform_all G E fuel calls s1) as [[l s2]|] eqn:H2; [|discriminate]. injection H as <- <-.
    destruct (ask_not x) as [Hx|(i & q & ->)].
    + destruct (make_step fuel x s ks HI Hx) as (s3 & H3 & HI3 & Hsh & _).
      rewrite H3 in H1. injection H1 as <- <-. apply Th_make; [exact Hx|]. rewrite <- Hsh. eapply IH; eassumption.
    + destruct (ask_step _ _ _ _ _ _ _ HI H1) as (k & r & r' & Hk & Hr & HR & ->).
      unfold source_of in *. destruct (linked k) eqn:Hl.
      * eapply Th_other; [exact Hk|congruence|]. eapply IH in H2; [|apply write_inv; exact HI]. exact H2.
      * injection Hr as <-. eapply Th_mine; [exact Hk|exact Hl|exact HR|].
        eapply IH in H2; [|apply write_inv; exact HI]. exact H2.
Qed.

Lemma count_firstn : forall ks i j k, i < j -> nth_error ks i = Some k -> linked k = true ->
  count (firstn i ks) < count (firstn j ks).
Proof.
  induction ks as [|k0 ks IH]; intros [|i] [|j] k Hij Hk Hl; try lia; try discriminate.
  - injection Hk as ->. unfold count. cbn. rewrite Hl. cbn. lia.
  - cbn [firstn]. assert (H := IH i j k ltac:(lia) Hk Hl). unfold count in *. cbn [filter].
    destruct (linked k0); cbn [length]; lia.
Qed.
Lemma count_nth : forall ks i k, nth_error ks i = Some k -> linked k = true -> count (firstn i ks) < count ks.
Proof.
  intros ks i k Hk Hl. assert (Hi : i < length ks) by (apply nth_error_Some; congruence).
  rewrite <- (firstn_all ks) at 2. eapply count_firstn; eassumption.
Qed.
Lemma new_own_nth : forall x i st b, nth_error (makes G x) i = Some (Linked st b) ->
  nth_error (new_own x) (count (firstn i (makes G x))) = Some st.
Proof.
  intros x. unfold new_own. generalize (makes G x) as ks. induction ks as [|k ks IH]; intros [|i] st b H; cbn in H; try discriminate.
  - injection H as ->. reflexivity.
  - specialize (IH _ _ _ H). destruct k as [st0 b0|b0|b0]; cbn [flat_map app firstn]; unfold count in *; cbn [filter linked length]; exact IH.
Qed.

Theorem own_thread : forall fuel i st b calls s ks answers s' r, Inv s ks ->
  perform_all G E fuel calls s = Some (answers, s') ->
  nth_error (ks ++ flat_map (makes G) calls) i = Some (Linked st b) ->
  (i < length ks -> nth_error (s_own G s) (count (firstn i ks)) = Some r) -> (length ks <= i -> r = st) ->
  Thread G E fuel (fun j _ => j = i) ks r calls answers.
Proof.
  intros fuel i st b calls. induction calls as [|x calls IH]; intros s ks answers s' r HI H Hi Hin Hout; cbn [perform_all] in H.
  - injection H as <- <-. constructor.
  - destruct (perform G E fuel x s) as [[a s1]|] eqn:H1; [|discriminate].
    destruct (perform_all G E fuel calls s1) as [[l s2]|] eqn:H2; [|discriminate]. injection H as <- <-.
    cbn [flat_map] in Hi.
    destruct (ask_not x) as [Hx|(j & q & ->)].
    + destruct (make_step fuel x s ks HI Hx) as (s3 & H3 & HI3 & _ & Hown).
      rewrite H3 in H1. injection H1 as <- <-. apply Th_make; [exact Hx|].
      rewrite app_assoc in Hi.
      eapply IH; [exact HI3|exact H2|exact Hi| |].
      * intros Hl. rewrite Hown. destruct (Nat.lt_ge_cases i (length ks)) as [Hlt|Hge].
        -- rewrite firstn_app, (proj2 (Nat.sub_0_le i (length ks))) by lia. cbn [firstn]. rewrite app_nil_r.
           rewrite nth_error_app1; [now apply Hin|]. apply nth_error_Some. rewrite Hin by assumption. discriminate.
        -- rewrite nth_error_app1 in Hi by exact Hl. rewrite nth_error_app2 in Hi by exact Hge.
           rewrite firstn_app, firstn_all2 by exact Hge. rewrite count_app.
           rewrite nth_error_app2 by (destruct HI as [_ ->]; lia). destruct HI as [_ ->].
           replace (count ks + count (firstn (i - length ks) (makes G x)) - count ks)
             with (count (firstn (i - length ks) (makes G x))) by lia.
           rewrite Hout by exact Hge. eapply new_own_nth. exact Hi.
      * intros Hl. rewrite app_length in Hl. apply Hout. lia.
    + cbn [makes app] in Hi. destruct (ask_step _ _ _ _ _ _ _ HI H1) as (k & r0 & r' & Hk & Hr & HR & ->).
      assert (Hj : j < length ks) by (apply nth_error_Some; congruence).
      destruct (Nat.eq_dec j i) as [->|Hne].
      * rewrite nth_error_app1 in Hi by exact Hj. rewrite Hi in Hk. injection Hk as <-.
        unfold source_of in *. cbn [linked read_source] in *. rewrite Hin in Hr by exact Hj. injection Hr as <-.
        eapply Th_mine; [exact Hi|reflexivity|exact HR|].
        eapply IH; [apply write_inv; exact HI|exact H2|rewrite nth_error_app1; [exact Hi|exact Hj]| |lia].
        intros _. cbn [write_source s_own]. apply set_nth_same.
        destruct HI as [_ ->]. eapply count_nth; [exact Hi|reflexivity].
      * eapply Th_other; [exact Hk|exact Hne|].
        eapply IH; [apply write_inv; exact HI|exact H2|exact Hi| |exact Hout].
        intros Hl. unfold source_of. destruct (linked k) eqn:Hlk; cbn [write_source s_own]; [|now apply Hin].
        rewrite set_nth_other; [now apply Hin|].
        rewrite nth_error_app1 in Hi by exact Hl.
        destruct (Nat.lt_gt_cases j i) as [Hji _]. destruct (Hji Hne) as [Hlt|Hgt].
        -- assert (Hc := count_firstn ks j i k Hlt Hk Hlk). lia.
        -- assert (Hc := count_firstn ks i j _ Hgt Hi eq_refl). lia.
Qed.

Lemma start_inv : forall r, Inv (start G r) [].
Proof. intros r. split; reflexivity. Qed.

Lemma own_source : forall fuel calls r0 answers s' i st b,
  perform_all G E fuel calls (start G r0) = Some (answers, s') ->
  nth_error (flat_map (makes G) calls) i = Some (Linked st b) ->
  Thread G E fuel (fun j _ => j = i) [] st calls answers.
Proof.
  intros fuel calls r0 answers s' i st b H Hi. eapply own_thread; [apply start_inv|exact H|exact Hi| |reflexivity].
  intros Hl. cbn in Hl. lia.
Qed.

Lemma shared_source : forall fuel calls r0 answers s',
  perform_all G E fuel calls (start G r0) = Some (answers, s') ->
  Thread G E fuel (fun _ k => forall st b, k <> Linked st b) [] r0 calls answers.
Proof.
  intros fuel calls r0 answers s' H. apply (shared_thread fuel calls (start G r0) [] answers s' (start_inv r0)) in H.
  cbn [start s_shared] in H. revert H. generalize (@nil kind) r0. intros ks r H.
  induction H as [ks r|ks r x calls' a answers' Hx _ IH|ks r i q k calls' a answers' Hk Hm _ IH
                  |ks r i q k a r' calls' answers' Hk Hm HR _ IH].
  - constructor.
  - now apply Th_make.
  - eapply Th_other; [exact Hk| |exact IH]. intros Hn. apply Hm. destruct k; try reflexivity. exfalso. now eapply Hn.
  - eapply Th_mine; [exact Hk| |exact HR|exact IH]. intros st b ->. discriminate.
Qed.

Lemma Result_fun : forall A (x : out R A) f a r a' r', Result G x f a r -> Result G x f a' r' -> a = a' /\ r = r'.
Proof. intros A x f a r a' r' H H'. destruct H; inversion H'; subst; auto. Qed.

Lemma replies_fun : forall fuel st st' b q r a r' a' r'',
  Replies G E fuel (Linked st b) q r a r' -> Replies G E fuel (Linked st' b) q r a' r'' -> a = a' /\ r' = r''.
Proof.
  intros fuel st st' b q r a r' a' r'' H H'. inversion H; inversion H'; subst. eapply Result_fun; eassumption.
Qed.

(** A dialogue from one source. *)
Inductive Talk (fuel : nat) (b : bool) : R -> list (request * answer) -> Prop :=
| Tk_nil : forall r, Talk fuel b r []
| Tk_cons : forall st r q a r' l, Replies G E fuel (Linked st b) q r a r' -> Talk fuel b r' l -> Talk fuel b r ((q, a) :: l).
Lemma talk_fun : forall fuel b r l l', Talk fuel b r l -> Talk fuel b r l' -> map fst l = map fst l' -> l = l'.
Proof.
  intros fuel b r l l' H. revert l'. induction H as [r|st r q a r' l HR _ IH]; intros l' H' Hm.
  - destruct l'; [reflexivity|discriminate].
  - destruct H' as [r|st' r q' a' r'' l' HR' H']; [discriminate|]. cbn in Hm. injection Hm as <- Hm.
    destruct (replies_fun _ _ _ _ _ _ _ _ _ _ HR HR') as [<- <-]. f_equal. now apply IH.
Qed.
Lemma thread_talk : forall fuel i st b ks r calls answers,
  Thread G E fuel (fun j _ => j = i) ks r calls answers ->
  nth_error (ks ++ flat_map (makes G) calls) i = Some (Linked st b) -> Talk fuel b r (dialogue G i calls answers).
Proof.
  intros fuel i st b ks r calls answers H.
  induction H as [ks r|ks r x calls a answers Hx _ IH|ks r j q k calls a answers Hk Hm _ IH
                  |ks r j q k a r' calls answers Hk Hm HR _ IH]; intros Hi.
  - constructor.
  - cbn [flat_map] in Hi. rewrite app_assoc in Hi. specialize (IH Hi).
    destruct x; try exact IH. exfalso. now eapply Hx.
  - cbn [dialogue]. destruct (Nat.eqb_spec i j) as [->|_]; [now exfalso; apply Hm|]. apply IH. exact Hi.
  - subst j. cbn [dialogue]. rewrite Nat.eqb_refl.
    assert (Hl : i < length ks) by (apply nth_error_Some; congruence).
    cbn [flat_map makes app] in Hi. specialize (IH Hi). rewrite nth_error_app1 in Hi by exact Hl.
    rewrite Hi in Hk. injection Hk as <-. econstructor; eassumption.
Qed.

Theorem same_state_same_answers : forall fuel calls r0 answers s1 i calls' r0' answers' s1' i' st b,
  perform_all G E fuel calls (start G r0) = Some (answers, s1) ->
  perform_all G E fuel calls' (start G r0') = Some (answers', s1') ->
  nth_error (flat_map (makes G) calls) i = Some (Linked st b) ->
  nth_error (flat_map (makes G) calls') i' = Some (Linked st b) ->
  map fst (dialogue G i calls answers) = map fst (dialogue G i' calls' answers') ->
  dialogue G i calls answers = dialogue G i' calls' answers'.
Proof.
  intros fuel calls r0 answers s1 i calls' r0' answers' s1' i' st b H H' Hi Hi' Hm.
  eapply talk_fun; [| |exact Hm].
  - eapply thread_talk; [eapply own_source; eassumption|exact Hi].
  - eapply thread_talk; [eapply own_source; eassumption|exact Hi'].
Qed.

(** Seeds given to the call. *)
Lemma seeded_forgets : forall fuel c t n seeds l r r' ts r2, effective_seeds seeds n = Some (Ok l) -> 0 < n ->
  random_generate G E fuel c t n seeds r = Ret ts r2 -> random_generate G E fuel c t n seeds r' = Ret ts r2.
Proof.
  intros fuel c t n seeds l r r' ts r2 He Hn H. unfold random_generate in *. rewrite He in *.
  destruct (sample_prompts E fuel c (WStr t) (Some n)) as [g|e|]; try discriminate.
  destruct l as [|z l]; [|exact H].
  exfalso. unfold effective_seeds in He. destruct seeds as [|z|[|z [|z' zs]]]; try discriminate.
  - destruct (Z.eqb z 0); [discriminate|].
    destruct (Nat.eqb _ n); [|discriminate]. injection He as He. destruct n; [lia|discriminate].
  - destruct (Nat.eqb _ n); [|discriminate]. injection He as He. destruct n; [lia|discriminate].
  - destruct (Nat.eqb _ n); [|discriminate]. injection He as He. discriminate.
Qed.

Lemma perform_all_app : forall fuel a b s, perform_all G E fuel (a ++ b) s =
  match perform_all G E fuel a s with
  | None => None
  | Some (l, s1) => match perform_all G E fuel b s1 with None => None | Some (l', s2) => Some (l ++ l', s2) end
  end.
Proof.
  intros fuel a b. induction a as [|x a IH]; intros s; cbn [app perform_all].
  - destruct (perform_all G E fuel b s) as [[l s1]|]; reflexivity.
  - destruct (perform G E fuel x s) as [[y s1]|]; [|reflexivity]. rewrite IH.
    destruct (perform_all G E fuel a s1) as [[l s2]|]; [|reflexivity].
    destruct (perform_all G E fuel b s2) as [[l' s3]|]; reflexivity.
Qed.
Lemma unlinked_seed : forall fuel pre post seed seed' b os os' s,
  perform_all G E fuel (pre ++ NewRandom seed true b os :: post) s =
  perform_all G E fuel (pre ++ NewRandom seed' true b os' :: post) s.
Proof. intros. rewrite !perform_all_app. reflexivity. Qed.
End Session.
