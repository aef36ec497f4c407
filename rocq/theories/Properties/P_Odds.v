(** C90: the chances of prompts, for every kind of template. *)
From Coq Require Import String NArith ZArith QArith Qcanon Bool Arith List Lia.
From Verif.Model Require Import Str Utils Command Float Rng Values Context Sampler.
From Verif.Spec Require Import Text Comb Items StreamRng Lang Draws Rolls Seeds Sure Share Chance Odds.
From Verif.Proofs Require Import StrFacts FloatFacts ShareFacts ChanceFacts ChanceRun OddsFacts OddsRun.
From Verif.Properties Require Import P_Sampler P_Chance.
Import ListNotations.
Local Open Scope nat_scope.
Local Notation unit53 := Chance.unit53.

(** * C90 *)
(** Count the sequences of [n] raw random numbers, each one of M, [n] large
    enough: the part of them for which the first prompt is [u] is the chance of
    [u]. *)
Theorem C90_chance_of_a_prompt : forall M E c p l, M <> 0%N -> N.divide unit53 M ->
  OddsPath M ieee_round E (scope_of c) (c_busy c) p l ->
  exists n0, forall n, n0 <= n -> forall u, exists hits, NoDup hits /\
    (forall s, In s hits <-> NumbersBelow M n s /\
       exists fuel g g' s', sample_prompts E fuel c p None = MOk g /\
         next stream_rng E fuel g s = @OVal stream_rng _ (u, g') s') /\
    number hits = (sequences M n * chance text_dec u l)%Qc.
Proof.
  intros M E c p l HM Hd Ho. rewrite <- (N2Nat.id M) in Hd, Ho.
  destruct (first_odds (N.to_nat M) ltac:(lia) Hd E c p l Ho) as [n0 H].
  exists n0. intros n Hn u. destruct (H n Hn u) as (hits & H1 & H2 & H3). exists hits. rewrite N2Nat.id in H2.
  split; [exact H1|]. split; [exact H2|]. rewrite <- sequences_NQ. exact H3.
Qed.

(** As long as nothing is remembered between prompts, the chance of a list of
    [k] prompts is the product of their chances (by [C89_runs_multiply]). *)
Theorem C90_chance_of_a_run : forall M E c p cmd l k, M <> 0%N -> N.divide unit53 M ->
  NoMemoryCtx E c -> NoMemory E cmd -> Reads E p cmd -> Sure E (scope_of c) (c_busy c) cmd ->
  OddsPath M ieee_round E (scope_of c) (c_busy c) p l ->
  exists n0, forall n, n0 <= n -> forall us, exists hits, NoDup hits /\
    (forall s, In s hits <-> NumbersBelow M n s /\
       exists fuel g g' s', sample_prompts E fuel c p None = MOk g /\
         collect stream_rng E fuel k g s = (us, EndLimit g', Some s')) /\
    number hits = (sequences M n * chance texts_dec us (repeated k l))%Qc.
Proof.
  intros M E c p cmd l k HM Hd Hc Hn Hr Hs Ho. rewrite <- (N2Nat.id M) in Hd, Ho.
  destruct (many_odds (N.to_nat M) ltac:(lia) Hd E c p cmd l k Hc Hn Hr Hs Ho) as [n0 H].
  exists n0. intros n Hle us. destruct (H n Hle us) as (hits & H1 & H2 & H3). exists hits. rewrite N2Nat.id in H2.
  split; [exact H1|]. split; [exact H2|]. rewrite <- sequences_NQ. exact H3.
Qed.

(** The chances add up to 1. *)
Theorem C90_chances_add_up : forall M E c p l, M <> 0%N -> N.divide unit53 M ->
  OddsPath M ieee_round E (scope_of c) (c_busy c) p l -> total (map snd l) = 1%Qc.
Proof.
  intros M E c p l HM Hd Ho. rewrite <- (N2Nat.id M) in Hd, Ho. exact (odds_one (N.to_nat M) ltac:(lia) Hd E _ _ _ _ Ho).
Qed.

(** A wildcard whose values are plain texts of the same weight gives each of
    them equally often: exactly, unlike a choice (C89). *)
Theorem C90_wildcards_are_even : forall M E sc busy name m items,
  sc_method sc = Random -> Unmarked m -> name <> [] -> env_parse E name = Ok (Lit name None) ->
  Tidy (sc_squash sc) name name -> items = env_lookup E name -> items <> [] ->
  AllEqual (map snd (pairs items)) -> N.divide (N.of_nat (length items)) M ->
  (forall it, In it items -> w_content it <> [] /\ env_parse E (w_content it) = Ok (Lit (w_content it) None) /\
     Tidy (sc_squash sc) (w_content it) (w_content it)) ->
  exists l, Odds M ieee_round E sc busy (Wild (WStr name) m []) l /\
    forall v, chance text_dec v l
      = (number (filter (fun it => if text_dec (w_content it) v then true else false) items) / number items)%Qc.
Proof. exact even_wildcard. Qed.

(** * Examples *)
Definition M6 : N := 54043195528445952.
Lemma M6_fits : M6 <> 0%N /\ N.divide unit53 M6 /\ N.divide 1 M6 /\ N.divide 2 M6 /\ N.divide 3 M6.
Proof. split; [discriminate|]. repeat split; [exists 6%N|exists M6|exists 27021597764222976%N|exists 18014398509481984%N]; reflexivity. Qed.

(** A wildcard with three values: each has a chance of exactly one third. *)
Definition env3 : env := {|
  env_parse := fun s => Ok (Lit s None);
  env_lookup := fun s => if str_eqb s $"colour"
                         then map (fun s => {| w_content := of_string s; w_weight_opt := None |}) ["red"; "green"; "blue"]%string
                         else [];
  env_wrap := $"__"
|}.
Example C90_a_third : exists l, Odds M6 ieee_round env3 (scope_of (ctx0 Random)) [] (Wild (WStr $"colour") None []) l /\
  chance text_dec $"green" l = Q2Qc (1 # 3).
Proof.
  destruct (C90_wildcards_are_even M6 env3 (scope_of (ctx0 Random)) [] $"colour" None (env_lookup env3 $"colour")) as (l & H1 & H2);
    try reflexivity; try discriminate.
  - now left.
  - intros a b [<-|[<-|[<-|[]]]] [<-|[<-|[<-|[]]]]; reflexivity.
  - exact (proj2 (proj2 (proj2 (proj2 M6_fits)))).
  - intros it [<-|[<-|[<-|[]]]]; repeat split; discriminate.
  - exists l. split; [exact H1|]. rewrite H2. apply Qc_is_canon. vm_compute. reflexivity.
Qed.

(** A choice of one of two, in any scope. *)
Definition half : Qc := Q2Qc (4503599627370496 # 9007199254740992).
Lemma lit_odds : forall E sc busy s, sc_method sc = Random -> Odds M6 ieee_round E sc busy (lit s) [($s, 1%Qc)].
Proof. intros E sc busy s H. constructor; [cbn; now rewrite H|constructor]. Qed.
Lemma lits_odds : forall E sc busy ss, sc_method sc = Random ->
  OddsAll M6 ieee_round E sc busy (map lit ss) [(map of_string ss, 1%Qc)].
Proof.
  intros E sc busy ss H. induction ss as [|s ss IH]; [constructor|].
  replace [(map of_string (s :: ss), 1%Qc)] with (both [($s, 1%Qc)] [(map of_string ss, 1%Qc)]).
  - constructor; [now apply lit_odds|exact IH].
  - unfold both. cbn [flat_map map fst snd app]. do 2 f_equal.
Qed.
Lemma renamed_joined : forall sep (l : list (list text * Qc)), Renamed (Glued sep) l (map (fun o => (joined (fst o) sep, snd o)) l).
Proof. exact glued_map. Qed.

(** The options [a] and [b]: one of them, or both. *)
Definition one_of : list (list command * Qc) := [([lit "a"], half * 1); ([lit "b"], half * 1)]%Qc.
Definition two_of : list (list command * Qc) :=
  [([lit "a"; lit "b"], half * (1 * 1)); ([lit "b"; lit "a"], half * (1 * 1))]%Qc.
Lemma first_a : FirstAt [lit "a"; lit "b"] (lit "a") 0 /\ Without (lit "a") [lit "a"; lit "b"] [lit "b"].
Proof. split; [split; [reflexivity|intros j Hj; lia]|]. exists [], [lit "b"]. repeat split. intros []. Qed.
Lemma first_b : FirstAt [lit "a"; lit "b"] (lit "b") 1 /\ Without (lit "b") [lit "a"; lit "b"] [lit "a"].
Proof.
  split; [split; [reflexivity|intros [|j] Hj; [discriminate|lia]]|].
  exists [lit "a"], []. repeat split. intros [K|[]]. discriminate.
Qed.
Lemma first_alone : forall {A} (x : A), FirstAt [x] x 0 /\ Without x [x] [].
Proof. intros A x. split; [split; [reflexivity|intros j Hj; lia]|]. exists [], []. repeat split. intros []. Qed.
Lemma first_weight : Without 1%Qc [1; 1]%Qc [1%Qc].
Proof. exists [], [1%Qc]. repeat split. intros []. Qed.
Lemma whole : Stretches ieee_round [1%Qc] [0; 9007199254740992]%N.
Proof. apply stretches_check; [repeat constructor; discriminate|vm_compute; reflexivity|reflexivity]. Qed.
Lemma weights2 : Forall (fun w => 0 <= w)%Qc [1; 1]%Qc.
Proof. repeat constructor; discriminate. Qed.
Lemma whole_share : shares [0; 9007199254740992]%N = [1%Qc].
Proof. cbn [shares]. f_equal. apply Qc_is_canon. vm_compute. reflexivity. Qed.

Lemma choose_one : Choosing ieee_round [lit "a"; lit "b"] [1; 1]%Qc 1 one_of.
Proof.
  eapply Cho_more; [exact weights2|exact C89_halves|].
  apply (ChE_cons ieee_round _ _ _ (lit "a") _ half _ 0 1%Qc [lit "b"] [1%Qc] [([], 1%Qc)] [([lit "b"], half * 1)%Qc]);
    [apply first_a|reflexivity|apply first_a|exact first_weight|constructor|].
  apply (ChE_cons ieee_round _ _ _ (lit "b") _ half _ 1 1%Qc [lit "a"] [1%Qc] [([], 1%Qc)] []);
    [apply first_b|reflexivity|apply first_b|exact first_weight|constructor|constructor].
Qed.
Lemma choose_alone : forall v, Choosing ieee_round [v] [1%Qc] 1 [([v], 1 * 1)%Qc].
Proof.
  intros v. eapply Cho_more; [repeat constructor; discriminate|exact whole|]. rewrite whole_share.
  apply (ChE_cons ieee_round _ _ _ v _ 1%Qc _ 0 1%Qc [] [] [([], 1%Qc)] []);
    [apply first_alone|reflexivity|apply first_alone|apply first_alone|constructor|constructor].
Qed.
Lemma choose_two : Choosing ieee_round [lit "a"; lit "b"] [1; 1]%Qc 2 two_of.
Proof.
  eapply Cho_more; [exact weights2|exact C89_halves|].
  apply (ChE_cons ieee_round _ _ _ (lit "a") _ half _ 0 1%Qc [lit "b"] [1%Qc] [([lit "b"], 1 * 1)%Qc] [([lit "b"; lit "a"], half * (1 * 1))%Qc]);
    [apply first_a|reflexivity|apply first_a|exact first_weight|apply choose_alone|].
  apply (ChE_cons ieee_round _ _ _ (lit "b") _ half _ 1 1%Qc [lit "a"] [1%Qc] [([lit "a"], 1 * 1)%Qc] []);
    [apply first_b|reflexivity|apply first_b|exact first_weight|apply choose_alone|constructor].
Qed.

(** The texts of a list of selections. *)
Fixpoint mixed (l : list (list string * Qc)) : list (list text * Qc) :=
  match l with
  | [] => []
  | (ss, q) :: l' => scaled q [(map of_string ss, 1%Qc)] ++ mixed l'
  end.
Lemma mixed_odds : forall E sc busy l, sc_method sc = Random ->
  OddsMix M6 ieee_round E (map (fun o => (JAll sc busy (fst o), snd o)) (map (fun o => (map lit (fst o), snd o)) l)) (mixed l).
Proof.
  intros E sc busy l H. induction l as [|[ss q] l IH]; [constructor|]. cbn [map mixed fst snd].
  apply OdM_cons; [constructor; now apply lits_odds|exact IH].
Qed.

(** [{a|b}]. *)
Definition ab_texts : list (text * Qc) := map (fun o => (joined (fst o) $",", snd o))
  (mixed [(["a"], one_in 1 * (half * 1)); (["b"], one_in 1 * (half * 1))]%string%Qc).
Lemma ab_odds : forall E sc busy, sc_method sc = Random -> Odds M6 ieee_round E sc busy ab ab_texts.
Proof.
  intros E sc busy H. constructor; [cbn; now rewrite H|].
  eapply (Od_choice M6 ieee_round E (enter sc ab) busy _ 1 1 $"," None 1%Z 1 (scaled (one_in 1) one_of ++ []));
    [cbn; lia|reflexivity|reflexivity|lia|apply M6_fits| | |apply renamed_joined].
  - apply (ChS_cons ieee_round _ _ _ 1); [exact choose_one|constructor].
  - apply (mixed_odds E (enter sc ab) busy [(["a"], one_in 1 * (half * 1)); (["b"], one_in 1 * (half * 1))]%string%Qc).
    cbn. now rewrite H.
Qed.

(** [{1-2$$a|b}]: a, b, both one way round and the other, a quarter each. *)
Definition some_ab : command := Var (opts ["a"; "b"]%string) 1 2 $"," None.
Example C90_several : exists l, Odds M6 ieee_round env0 (scope_of (ctx0 Random)) [] some_ab l /\
  Forall (fun u => chance text_dec (of_string u) l = Q2Qc (1 # 4)) ["a"; "b"; "a,b"; "b,a"]%string.
Proof.
  eexists. split.
  - constructor; [reflexivity|].
    eapply (Od_choice M6 ieee_round env0 _ [] _ 1 2 $"," None 1%Z 2 (scaled (one_in 2) one_of ++ scaled (one_in 2) two_of ++ []));
      [cbn; lia|reflexivity|reflexivity|lia|apply M6_fits| | |apply renamed_joined].
    + apply (ChS_cons ieee_round _ _ _ 1); [exact choose_one|].
      apply (ChS_cons ieee_round _ _ _ 2); [exact choose_two|constructor].
    + apply (mixed_odds env0 _ [] [(["a"], one_in 2 * (half * 1)); (["b"], one_in 2 * (half * 1));
        (["a"; "b"], one_in 2 * (half * (1 * 1))); (["b"; "a"], one_in 2 * (half * (1 * 1)))]%string%Qc). reflexivity.
  - repeat constructor; apply Qc_is_canon; vm_compute; reflexivity.
Qed.

(** [${x=!{a|b}}${x} ${x}] is [a a] or [b b]; [${x={a|b}}${x} ${x}] may be
    [a b] as well. *)
Definition twice (immediate : bool) : command :=
  Seq [Assign $"x" ab immediate true; Access $"x" None; lit " "; Access $"x" None] [] None.
Lemma access_odds : forall sc v l, sc_method sc = Random -> Nonempty v ->
  Odds M6 ieee_round env0 (with_var sc $"x" v) [$"x"] v l -> Odds M6 ieee_round env0 (with_var sc $"x" v) [] (Access $"x" None) l.
Proof.
  intros sc v l H Hv Ho. constructor; [exact H|].
  assert (He : enter (with_var sc $"x" v) (Access $"x" None) = with_var sc $"x" v) by reflexivity.
  rewrite He. eapply Od_access; [|intros []|exact Ho]. apply Refers_var; [reflexivity|assumption].
Qed.
Lemma twice_odds : forall sc v l, sc_method sc = Random -> Nonempty v ->
  Odds M6 ieee_round env0 (with_var sc $"x" v) [$"x"] v l ->
  OddsJob M6 ieee_round env0 (JAll (with_var sc $"x" v) [] [Access $"x" None; lit " "; Access $"x" None])
    (both l (both [($" ", 1%Qc)] (both l [([], 1%Qc)]))).
Proof.
  intros sc v l H Hv Ho. constructor. constructor; [now apply access_odds|]. constructor; [now apply lit_odds|].
  constructor; [now apply access_odds|constructor].
Qed.
Lemma twice_plain : forall i, Plain [Assign $"x" ab i true; Access $"x" None; lit " "; Access $"x" None]
  [Access $"x" None; lit " "; Access $"x" None].
Proof. intros i. constructor. repeat (constructor; [intros (? & ? & ? & ? & ?); discriminate|]). constructor. Qed.

Definition twice_job (cmd v : command) : job :=
  JAll (with_var (enter (scope_of (ctx0 Random)) cmd) $"x" v) [] [Access $"x" None; lit " "; Access $"x" None].
Example C90_lazy_variable : exists l, Odds M6 ieee_round env0 (scope_of (ctx0 Random)) [] (twice false) l /\
  chance text_dec $"a a" l = Q2Qc (1 # 4) /\ chance text_dec $"a b" l = Q2Qc (1 # 4).
Proof.
  eexists. split.
  - constructor; [reflexivity|]. 
    eapply (Od_seq M6 ieee_round env0 _ [] _ [] None _ _ [(twice_job (twice false) ab, (1 * 1)%Qc)]);
      [|apply twice_plain| | |apply renamed_joined].
    + apply OdB_lazy; [discriminate|]. repeat (apply OdB_plain; [intros (? & ? & ? & ? & ?); discriminate|]). constructor.
    + constructor; [|constructor]. split; [|reflexivity]. eexists. split; [apply extended_one|reflexivity].
    + apply OdM_cons; [|constructor]. apply twice_odds; [reflexivity|split; discriminate|now apply ab_odds].
  - split; apply Qc_is_canon; vm_compute; reflexivity.
Qed.
Example C90_immediate_variable : exists l, Odds M6 ieee_round env0 (scope_of (ctx0 Random)) [] (twice true) l /\
  chance text_dec $"a a" l = Q2Qc (1 # 2) /\ chance text_dec $"a b" l = 0%Qc.
Proof.
  eexists. split.
  - constructor; [reflexivity|]. 
    eapply (Od_seq M6 ieee_round env0 _ [] _ [] None _ _
      [(twice_job (twice true) (lit "a"), (one_in 1 * (half * 1) * 1 * 1)%Qc); (twice_job (twice true) (lit "b"), (one_in 1 * (half * 1) * 1 * 1)%Qc)]);
      [|apply twice_plain| | |apply renamed_joined].
    + eapply OdB_now; [discriminate|discriminate|now apply ab_odds|].
      repeat (apply OdB_plain; [intros (? & ? & ? & ? & ?); discriminate|]). constructor.
    + repeat (constructor; [split; [eexists; split; [apply extended_one|reflexivity]|reflexivity]|]). constructor.
    + repeat (apply OdM_cons; [apply twice_odds; [reflexivity|split; discriminate|constructor; [reflexivity|constructor]]|]). constructor.
  - split; apply Qc_is_canon; vm_compute; reflexivity.
Qed.

(** A third of all number sequences gives [green]. *)
Example C90_a_third_of_all : exists n0, forall n, n0 <= n -> exists hits, NoDup hits /\
  (forall s, In s hits <-> NumbersBelow M6 n s /\
     exists fuel g g' s', sample_prompts env3 fuel (ctx0 Random) (WCmd (Wild (WStr $"colour") None [])) None = MOk g /\
       next stream_rng env3 fuel g s = @OVal stream_rng _ ($"green", g') s') /\
  number hits = (sequences M6 n * Q2Qc (1 # 3))%Qc.
Proof.
  destruct C90_a_third as (l & Hl & Hq).
  assert (Ho : OddsPath M6 ieee_round env3 (scope_of (ctx0 Random)) (c_busy (ctx0 Random)) (WCmd (Wild (WStr $"colour") None [])) l).
  { eapply OdP; [constructor; split; discriminate|exact Hl|]. clear. induction l as [|o l IH]; constructor; [split; reflexivity|assumption]. }
  destruct (C90_chance_of_a_prompt M6 env3 (ctx0 Random) _ l (proj1 M6_fits) (proj1 (proj2 M6_fits)) Ho) as [n0 H].
  exists n0. intros n Hn. destruct (H n Hn $"green") as (hits & H1 & H2 & H3). exists hits. rewrite Hq in H3. auto.
Qed.

Print Assumptions C90_chance_of_a_prompt.
Print Assumptions C90_chance_of_a_run.
Print Assumptions C90_chances_add_up.
Print Assumptions C90_wildcards_are_even.
