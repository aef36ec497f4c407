(** Plain text, the shortcut for letters and digits, independence of the
    recursion depth, and comments. *)
From Coq Require Import String NArith ZArith QArith Qcanon Bool Arith List Lia.
From Verif.Model Require Import Str Command Rng Context Parser.
From Verif.Spec Require Import Text Names Syntax.
From Verif.Proofs Require Import StrFacts ParserFacts TokenFacts.
Import ListNotations.
Local Open Scope nat_scope.

Lemma mem_In : forall c l, mem c l = true <-> In c l.
Proof.
  intros c l; unfold mem. rewrite existsb_exists. split.
  - intros (x & Hx & E). apply N.eqb_eq in E. subst; exact Hx.
  - intros H; exists c; split; [exact H|apply N.eqb_refl].
Qed.

(** * More depth never changes a result *)
Definition upto {A} (r r' : pres A) : Prop := r = PFuel \/ r = r'.
Notation "r <~ r'" := (upto r r') (at level 70).
Lemma upto_refl : forall A (r : pres A), r <~ r.
Proof. right; reflexivity. Qed.
Lemma upto_trans : forall A (a b c : pres A), a <~ b -> b <~ c -> a <~ c.
Proof. intros A a b c [->| ->] H; [left; reflexivity|exact H]. Qed.
Lemma upto_eq : forall A (r r' : pres A), r <~ r' -> r <> PFuel -> r = r'.
Proof. intros A r r' [H|H] N; congruence. Qed.
Lemma upto_bind : forall A B (r r' : pres A) (k k' : A -> str -> pres B),
  r <~ r' -> (forall a s, k a s <~ k' a s) ->
  (let! (x, s) := r in k x s) <~ (let! (x, s) := r' in k' x s).
Proof.
  intros A B r r' k k' [->| ->] Hk; [left; reflexivity|].
  destruct r' as [x s| |e|]; [apply Hk|right; reflexivity..].
Qed.
Lemma upto_popt : forall A (p p' : str -> pres A) s, p s <~ p' s -> popt p s <~ popt p' s.
Proof. intros A p p' s [H|H]; unfold popt; rewrite H; [left; reflexivity|right; reflexivity]. Qed.
Lemma upto_alt : forall A (p p' q q' : str -> pres A) s, p s <~ p' s -> q s <~ q' s ->
  alt p q s <~ alt p' q' s.
Proof.
  intros A p p' q q' s [H|H] Hq; unfold alt; rewrite H; [left; reflexivity|].
  destruct (p' s) as [x r| |e|]; [right; reflexivity|exact Hq|right; reflexivity..].
Qed.
Lemma upto_rounds : forall A stop (p p' : str -> pres A) n m s, n <= m ->
  (forall s, p s <~ p' s) -> many_rounds n stop p s <~ many_rounds m stop p' s.
Proof.
  intros A stop p p'; induction n as [|n IH]; intros m s Hnm Hp; [left; reflexivity|].
  destruct m as [|m]; [lia|]. cbn [many_rounds]. destruct (stop s); [right; reflexivity|].
  destruct (Hp s) as [->| ->]; [left; reflexivity|].
  destruct (p' s) as [x r| |e|]; [|right; reflexivity..].
  apply (upto_bind _ _ _ _ (fun l s'' => POk (x :: l) s'') (fun l s'' => POk (x :: l) s''));
    [apply IH; [lia|exact Hp]|intros; right; reflexivity].
Qed.
Lemma upto_many : forall A stop (p p' : str -> pres A) s,
  (forall s, p s <~ p' s) -> many stop p s <~ many stop p' s.
Proof. intros; apply upto_rounds; auto. Qed.
Lemma upto_many1 : forall A stop (p p' : str -> pres A) s,
  (forall s, p s <~ p' s) -> many1 stop p s <~ many1 stop p' s.
Proof.
  intros A stop p p' s H. unfold many1. destruct (upto_many _ stop p p' s H) as [->| ->];
    [left; reflexivity|right; reflexivity].
Qed.

Section Depth.
Variable alnum : char -> bool.
Variable C : parser_config.
Section Rec.
Variables V V' T T' : str -> pres command.
Hypothesis HV : forall s, V s <~ V' s.
Hypothesis HT : forall s, T s <~ T' s.

Ltac step :=
  first
    [ apply HV
    | apply upto_refl
    | apply upto_popt
    | match goal with
      | |- (match ?r with POk _ _ => _ | PFail => PFail | PRaise _ => _ | PFuel => PFuel end) <~ _ =>
          apply (upto_bind _ _ _ _ (fun x s => _) (fun x s => _)); [|intros ? ?]
      end ].

Lemma variant_up : forall s, variant V s <~ variant V' s.
Proof. intros s; unfold variant. repeat step. Qed.
Lemma variants_list_up : forall s, variants_list V s <~ variants_list V' s.
Proof.
  intros s; unfold variants_list. step; [apply variant_up|]. step; [|apply upto_refl].
  apply upto_many. intros s1. step; [apply upto_refl|]. apply variant_up.
Qed.
Lemma variants_up : forall s, variants C V s <~ variants C V' s.
Proof.
  intros s; unfold variants. do 3 (step; [apply upto_refl|]).
  step; [apply variants_list_up|]. apply upto_refl.
Qed.
Lemma access_up : forall s, access C V s <~ access C V' s.
Proof.
  intros s; unfold access. do 2 (step; [apply upto_refl|]).
  step; [|apply upto_refl]. apply upto_popt. step; [apply upto_refl|apply HV].
Qed.
Lemma variable_access_up : forall s, variable_access C V s <~ variable_access C V' s.
Proof.
  intros s; unfold variable_access. destruct (access_up s) as [->| ->];
    [left; reflexivity|right; reflexivity].
Qed.
Lemma wildcard_variable_access_up : forall s,
  wildcard_variable_access C V s <~ wildcard_variable_access C V' s.
Proof.
  intros s; unfold wildcard_variable_access. destruct (access_up s) as [->| ->];
    [left; reflexivity|right; reflexivity].
Qed.
Lemma variable_assignment_up : forall s,
  variable_assignment C V s <~ variable_assignment C V' s.
Proof.
  intros s; unfold variable_assignment. do 5 (step; [apply upto_refl|]).
  step; [apply HV|apply upto_refl].
Qed.
Lemma wrap_command_up : forall s, wrap_command C V s <~ wrap_command C V' s.
Proof.
  intros s; unfold wrap_command. step; [apply upto_refl|]. step; [apply HV|].
  step; [apply upto_refl|]. step; [apply HV|apply upto_refl].
Qed.
Lemma wildcard_chunk_up : forall s, wildcard_chunk C V s <~ wildcard_chunk C V' s.
Proof.
  intros s; unfold wildcard_chunk.
  apply upto_alt; [apply wildcard_variable_access_up|].
  apply upto_alt; [apply variants_up|apply upto_refl].
Qed.
Lemma wildcard_prompt_up : forall s, wildcard_prompt C V s <~ wildcard_prompt C V' s.
Proof.
  intros s; unfold wildcard_prompt.
  step; [apply upto_many1, wildcard_chunk_up|apply upto_refl].
Qed.
Lemma spec_pairs_up : forall l d, spec_pairs alnum T l d <~ spec_pairs alnum T' l d.
Proof.
  induction l as [|kv l IH]; intros d; cbn [spec_pairs]; [apply upto_refl|].
  destruct (partition_eq kv) as [key value].
  step; [|apply IH]. unfold spec_value. destruct (isalnum alnum (strip value)); [apply upto_refl|apply HT].
Qed.
Lemma wildcard_up : forall s, wildcard alnum C V T s <~ wildcard alnum C V' T' s.
Proof.
  intros s; unfold wildcard. do 2 (step; [apply upto_refl|]).
  step; [apply wildcard_prompt_up|]. do 2 (step; [apply upto_refl|]).
  step; [|apply upto_refl]. destruct a2 as [t|]; [apply spec_pairs_up|apply upto_refl].
Qed.
Lemma chunk_up : forall s, chunk alnum C V T s <~ chunk alnum C V' T' s.
Proof.
  intros s; unfold chunk.
  apply upto_alt; [apply variable_assignment_up|].
  apply upto_alt; [apply variable_access_up|].
  apply upto_alt; [apply wrap_command_up|].
  apply upto_alt; [apply variants_up|].
  apply upto_alt; [apply wildcard_up|apply upto_refl].
Qed.
Lemma variant_chunk_up : forall s, variant_chunk alnum C V T s <~ variant_chunk alnum C V' T' s.
Proof.
  intros s; unfold variant_chunk.
  apply upto_alt; [apply variable_access_up|].
  apply upto_alt; [apply wrap_command_up|].
  apply upto_alt; [apply variants_up|].
  apply upto_alt; [apply wildcard_up|apply upto_refl].
Qed.
Lemma variant_prompt_up : forall s,
  variant_prompt_body alnum C V T s <~ variant_prompt_body alnum C V' T' s.
Proof.
  intros s; unfold variant_prompt_body.
  step; [apply upto_many, variant_chunk_up|apply upto_refl].
Qed.
Lemma grammar_up : forall s, grammar_body alnum C V T s <~ grammar_body alnum C V' T' s.
Proof.
  intros s; unfold grammar_body, prompt. step; [|apply upto_refl].
  step; [apply upto_many, chunk_up|apply upto_refl].
Qed.
Lemma parse_up : forall s, parse_body alnum C V T s <~ parse_body alnum C V' T' s.
Proof.
  intros s; unfold parse_body. destruct (isalnum alnum s); [apply upto_refl|apply grammar_up].
Qed.
End Rec.

Lemma parsers_up : forall n m, n <= m ->
  (forall s, variant_prompt alnum C n s <~ variant_prompt alnum C m s) /\
  (forall s, parse_depth alnum C n s <~ parse_depth alnum C m s).
Proof.
  induction n as [|n IH]; intros m Hm; [split; left; reflexivity|].
  destruct m as [|m]; [lia|]. specialize (IH m ltac:(lia)).
  unfold variant_prompt, parse_depth in *. cbn [parsers].
  destruct (parsers alnum C n) as [V T], (parsers alnum C m) as [V' T']; cbn [fst snd] in *.
  destruct IH as [HV HT]. split; intros s; [apply variant_prompt_up|apply parse_up]; assumption.
Qed.

Lemma parse_raw_depth : WfConfig C -> forall n s, depth s <= n ->
  parse_raw alnum C s = parse_depth alnum C n s.
Proof.
  intros HC n s Hn. apply upto_eq; [apply parsers_up, Hn|].
  destruct (parse_outcome alnum C HC s) as [(c & E)|[E|E]]; rewrite E; discriminate.
Qed.
Lemma parse_depth_S : forall n s, parse_depth alnum C (S n) s =
  parse_body alnum C (variant_prompt alnum C n) (parse_depth alnum C n) s.
Proof.
  intros n s; unfold variant_prompt, parse_depth; cbn [parsers].
  destruct (parsers alnum C n); reflexivity.
Qed.
Lemma variant_prompt_S : forall n s, variant_prompt alnum C (S n) s =
  variant_prompt_body alnum C (variant_prompt alnum C n) (parse_depth alnum C n) s.
Proof.
  intros n s; unfold variant_prompt, parse_depth; cbn [parsers].
  destruct (parsers alnum C n); reflexivity.
Qed.
Lemma grammar_raw_unfold : forall s, grammar_raw alnum C s =
  grammar_body alnum C (variant_prompt alnum C (depth s)) (parse_depth alnum C (depth s)) s.
Proof.
  intros s; unfold grammar_raw, variant_prompt, parse_depth.
  destruct (parsers alnum C (depth s)); reflexivity.
Qed.
Lemma parse_raw_unfold : forall s, parse_raw alnum C s =
  parse_body alnum C (variant_prompt alnum C (S (length (expandtabs s))))
    (parse_depth alnum C (S (length (expandtabs s)))) s.
Proof. intros s; unfold parse_raw, depth. cbn [plus]. apply parse_depth_S. Qed.

(** * Plain text *)
Hypothesis HM : Marks C.

Lemma top_bad_spec : forall c, top_bad C c = false <-> ~ Reserved C c.
Proof.
  intros c; unfold top_bad. destruct (mem c _) eqn:E.
  - apply mem_In in E. split; [discriminate|]. intros H; exfalso; apply H. unfold Reserved.
    rewrite !in_app_iff in E. destruct E as [[E|[]]|E]; [left; symmetry; exact E|tauto].
  - split; [|reflexivity]. intros _ H. assert (mem c ($"#" ++ variant_start C ++ variable_start C ++ wrap_start C) = true).
    { apply mem_In. rewrite !in_app_iff. unfold Reserved in H. cbn. intuition. }
    congruence.
Qed.

Definition Unreserved (t : str) : Prop := Forall (fun c => ~ Reserved C c) t.
(** What ends a run of plain text. *)
Definition Ends (k : str) : Prop := k = [] \/ exists c r, k = c :: r /\ Reserved C c.

Lemma run_hit : forall t k, Unreserved t -> Ends k ->
  (forall a b, t ++ k = a ++ wildcard_wrap C ++ b -> length t <= length a) ->
  literal_run C (top_bad C) (t ++ k) = (t, k).
Proof.
  intros t k Ht. induction Ht as [|c t Hc Ht IH]; intros Hk Hn; cbn [app].
  - destruct Hk as [->|(c & r & -> & Hc)]; [reflexivity|]. cbn [literal_run].
    destruct (top_bad C c) eqn:E; [rewrite orb_true_r; reflexivity|].
    apply top_bad_spec in E. contradiction.
  - cbn [literal_run]. assert (E1 : startswith (c :: t ++ k) (wildcard_wrap C) = false).
    { apply startswith_false. intros [q E]. specialize (Hn [] q E). cbn in Hn. lia. }
    apply top_bad_spec in Hc. rewrite E1, Hc. cbn [orb].
    rewrite IH; [reflexivity|exact Hk|].
    intros a b E. specialize (Hn (c :: a) b). cbn in Hn. rewrite E in Hn. specialize (Hn eq_refl). lia.
Qed.
Lemma no_wrap_end : forall t k, ~ Contains t (wildcard_wrap C) -> Ends k ->
  (forall c r, k = c :: r -> ~ In c (wildcard_wrap C)) ->
  forall a b, t ++ k = a ++ wildcard_wrap C ++ b -> length t <= length a.
Proof.
  intros t k Hn Hk Hw a b E. rewrite app_assoc in E. apply app_split in E.
  destruct E as [(l & E1 & E2)|(l & E1 & E2)].
  - exfalso; apply Hn. exists a, l. rewrite app_assoc. exact E1.
  - apply app_split in E1. destruct E1 as [(l' & F1 & F2)|(l' & F1 & F2)].
    + rewrite F1, app_length. lia.
    + destruct l as [|x l].
      * rewrite app_nil_r in F2. exfalso; apply Hn. exists a, []. rewrite F2, app_nil_r. exact F1.
      * exfalso. apply (Hw x (l ++ b) E2). rewrite F2. apply in_or_app; right; left; reflexivity.
Qed.

Lemma tok_not : forall t s, skip s = s -> ~ StartsWith s t -> tok t s = PFail.
Proof.
  intros t s Hs Hn; unfold tok. rewrite Hs. apply startswith_false in Hn. rewrite Hn. reflexivity.
Qed.
Lemma unreserved_start : forall m c s, m <> [] ->
  (m = variant_start C \/ m = variable_start C \/ m = wrap_start C) ->
  ~ Reserved C c -> ~ StartsWith (c :: s) m.
Proof.
  intros m c s Hm Hc Hr [q E]. destruct m as [|x m]; [congruence|]. injection E as -> _.
  apply Hr. unfold Reserved. destruct Hc as [<-|[<-|<-]]; cbn; tauto.
Qed.

Section Chunk.
Variables V T : str -> pres command.
Lemma chunk_literal : forall c s, skip (c :: s) = c :: s -> ~ Reserved C c ->
  ~ StartsWith (c :: s) (wildcard_wrap C) ->
  chunk alnum C V T (c :: s) = literal_sequence C (top_bad C) (c :: s).
Proof.
  intros c s Hs Hr Hw. destruct HM as (M1 & M2 & M3 & M4).
  unfold chunk, alt, variable_assignment, variable_access, access, wrap_command, variants, wildcard.
  rewrite !(tok_not _ _ Hs); auto; apply unreserved_start; auto.
Qed.
Lemma chunk_nil : chunk alnum C V T [] = PFail.
Proof.
  destruct HM as (M1 & M2 & M3 & M4).
  assert (N : forall m, m <> [] -> ~ StartsWith [] m).
  { intros m Hm [q E]. symmetry in E. apply app_eq_nil in E. tauto. }
  unfold chunk, alt, variable_assignment, variable_access, access, wrap_command, variants, wildcard.
  rewrite !(tok_not _ []); auto. 
Qed.

Theorem plain_grammar : forall t, t <> [] -> Plain C t -> ~ BeginsComment t ->
  grammar_body alnum C V T t = POk (Lit t None) [].
Proof.
  intros t Hne [Hp Hw] Hc. unfold grammar_body.
  assert (Htab : ~ In 9%N t).
  { intros H; rewrite Forall_forall in Hp. apply Hp in H. tauto. }
  assert (Hu : Unreserved t) by (eapply Forall_impl; [|exact Hp]; cbn; tauto).
  rewrite (expandtabs_id t Htab). unfold prompt. rewrite (skip_plain t Hc).
  pose proof (skip_plain t Hc) as Hs.
  assert (Hrun : literal_run C (top_bad C) t = (t, [])).
  { pose proof (run_hit t [] Hu (or_introl eq_refl)) as H. rewrite app_nil_r in H. apply H.
    intros a b E. exfalso; apply Hw. exists a, b; exact E. }
  assert (Hlit : literal_sequence C (top_bad C) t = POk (Lit t None) []).
  { unfold literal_sequence, many1, many. cbn [many_rounds never]. unfold literal at 1.
    rewrite Hs, Hrun. destruct t as [|c t]; [congruence|]. reflexivity. }
  destruct t as [|c t]; [congruence|].
  assert (Hch : chunk alnum C V T (c :: t) = POk (Lit (c :: t) None) []).
  { rewrite chunk_literal; auto.
    - inversion Hu; assumption.
    - intros [q E]. apply Hw. exists [], q. exact E. }
  unfold many. cbn [length many_rounds never]. rewrite Hch, chunk_nil. reflexivity.
Qed.
End Chunk.

Theorem plain_parse : forall t, t <> [] -> Plain C t -> ~ BeginsComment t ->
  parse alnum C t = Ok (Lit t None) /\ grammar alnum C t = Ok (Lit t None).
Proof.
  intros t H1 H2 H3. unfold parse, grammar. rewrite parse_raw_unfold, grammar_raw_unfold.
  unfold parse_body. rewrite !plain_grammar by assumption.
  destruct (isalnum alnum t); split; reflexivity.
Qed.

(** * Letters and digits *)
Lemma alnum_plain : LettersAndDigits C alnum -> forall t, isalnum alnum t = true ->
  t <> [] /\ Plain C t /\ ~ BeginsComment t.
Proof.
  intros [HL (w & Hw1 & Hw2)] t H. destruct t as [|c t]; [discriminate|].
  unfold isalnum in H. rewrite forallb_forall in H.
  split; [discriminate|]. split; [split|].
  - apply Forall_forall. intros x Hx. apply H, HL in Hx. tauto.
  - intros (a & b & E). assert (Hin : In w (c :: t)).
    { rewrite E, !in_app_iff. auto. }
    apply H in Hin. congruence.
  - intros (u & r & E & Hu & Hr). destruct u as [|x u].
    + cbn in E. assert (Hc : alnum c = true) by (apply H; left; reflexivity).
      apply HL in Hc. destruct Hc as (K1 & K2 & K3 & K4).
      destruct Hr as [[q Hq]|[[q Hq]|(b & a & Hq)]]; rewrite Hq in E; injection E as E _; subst c; try congruence.
      apply K1. left; reflexivity.
    + cbn in E. injection E as -> E. inversion Hu; subst.
      assert (Hc : alnum x = true) by (apply H; left; reflexivity).
      apply HL in Hc. tauto.
Qed.
Theorem shortcut_agrees : LettersAndDigits C alnum -> forall t, isalnum alnum t = true ->
  parse alnum C t = grammar alnum C t /\ grammar alnum C t = Ok (Lit t None).
Proof.
  intros HL t H. destruct (alnum_plain HL t H) as (H1 & H2 & H3).
  destruct (plain_parse t H1 H2 H3) as [-> ->]. auto.
Qed.

(** * Comments *)
Lemma expandtabs_from_app : forall a col b, ~ In 9%N a -> exists col',
  expandtabs_from col (a ++ b) = a ++ expandtabs_from col' b.
Proof.
  induction a as [|c a IH]; intros col b H; cbn [app]; [eexists; reflexivity|].
  cbn [expandtabs_from]. destruct (N.eqb_spec c 9) as [->|_]; [exfalso; apply H; left; reflexivity|].
  destruct (IH (if N.eqb c 10 || N.eqb c 13 then 0 else S col) b) as [col' E].
  { intros K; apply H; right; exact K. }
  exists col'. rewrite E. reflexivity.
Qed.
Lemma expandtabs_line : forall body col b, OneLine body -> exists body',
  OneLine body' /\
  expandtabs_from col (body ++ $"
" ++ b) = body' ++ $"
" ++ expandtabs_from 0 b.
Proof.
  induction body as [|c body IH]; intros col b H.
  - exists []. split; [intros []|]. reflexivity.
  - assert (H' : OneLine body) by (intros K; apply H; right; exact K).
    cbn [app expandtabs_from]. destruct (N.eqb_spec c 9) as [->|_].
    + destruct (IH (col + (8 - col mod 8)) b H') as (body' & O & ->).
      exists (repeat 32%N (8 - col mod 8) ++ body'). split.
      * intros K; apply in_app_or in K. destruct K as [K|K]; [|exact (O K)].
        apply repeat_spec in K. discriminate.
      * rewrite <- app_assoc. reflexivity.
    + destruct (IH (if N.eqb c 10 || N.eqb c 13 then 0 else S col) b H') as (body' & O & ->).
      exists (c :: body'). split; [|reflexivity].
      intros [->|K]; [apply H; left; reflexivity|exact (O K)].
Qed.
Lemma rest_of_line_app : forall body k, OneLine body -> (k = [] \/ exists r, k = 10%N :: r) ->
  rest_of_line (body ++ k) = k.
Proof.
  induction body as [|c body IH]; intros k H Hk; unfold rest_of_line in *; cbn [app].
  - destruct Hk as [->|[r ->]]; reflexivity.
  - cbn [drop_while]. destruct (N.eqb_spec c 10) as [->|_]; [exfalso; apply H; left; reflexivity|].
    cbn [negb]. apply IH; [|exact Hk]. intros K; apply H; right; exact K.
Qed.
Lemma skip_step : forall s r, ignored s = Some r -> skip s = skip r.
Proof.
  intros s r H. unfold skip. pose proof (ignored_shorter _ _ H) as L. apply Shorter_length in L.
  destruct (length s) as [|n] eqn:E; [lia|]. cbn [skip_rounds]. rewrite H.
  assert (K : forall m m' x, length x <= m -> length x <= m' -> skip_rounds m x = skip_rounds m' x).
  { induction m as [|m IH]; intros m' x Hm Hm'.
    - destruct x; [|cbn in Hm; lia]. destruct m'; reflexivity.
    - destruct m' as [|m']; [destruct x; [reflexivity|cbn in Hm'; lia]|].
      cbn [skip_rounds]. destruct (ignored x) as [y|] eqn:Ey; [|reflexivity].
      apply ignored_shorter, Shorter_length in Ey. apply IH; lia. }
  apply K; lia.
Qed.
Lemma skip_comment : forall w body k, Blanks w -> OneLine body -> (k = [] \/ exists r, k = 10%N :: r) ->
  skip (w ++ $"#" ++ body ++ k) = skip k.
Proof.
  intros w body k Hw Hb Hk. apply skip_step. unfold ignored.
  rewrite drop_blank_app; [|exact Hw|apply head_not_blank; unfold Blank; cbn; intuition discriminate].
  rewrite startswith_app. change (skipn 1 ($"#" ++ body ++ k)) with (body ++ k).
  rewrite (rest_of_line_app _ _ Hb Hk). reflexivity.
Qed.

(** Elements see only the text after the comments. *)
Lemma tok_skip : forall t s, tok t s = tok t (skip s).
Proof. intros t s; unfold tok; rewrite skip_idem; reflexivity. Qed.
Lemma literal_skip : forall bad s, literal C bad s = literal C bad (skip s).
Proof. intros bad s; unfold literal; rewrite skip_idem; reflexivity. Qed.
Lemma literal_rounds : forall bad n s, length s < n ->
  exists l r, many_rounds n never (literal C bad) s = POk l r.
Proof.
  intros bad; induction n as [|n IH]; intros s Hn; [lia|]. cbn [many_rounds never].
  pose proof (literal_lt C bad s) as L. unfold literal in *.
  destruct (literal_run C bad (skip s)) as [[|c a] r]; [eauto|]. cbn in L.
  apply Shorter_length in L. destruct (IH r ltac:(lia)) as (l & r' & E). unfold literal in E. rewrite E. eauto.
Qed.
Lemma literal_rounds_ok : forall bad n s, length s < n ->
  many_rounds n never (literal C bad) s <> PFuel.
Proof. intros bad n s H. destruct (literal_rounds bad n s H) as (l & r & ->). discriminate. Qed.
Lemma rounds_same : forall A stop (p : str -> pres A) n m s,
  many_rounds n stop p s <> PFuel -> many_rounds m stop p s <> PFuel ->
  many_rounds n stop p s = many_rounds m stop p s.
Proof.
  intros A stop p n m s Hn Hm. destruct (le_ge_dec n m) as [L|L].
  - apply upto_eq; [apply upto_rounds; [exact L|intros; apply upto_refl]|exact Hn].
  - symmetry. apply upto_eq; [apply upto_rounds; [exact L|intros; apply upto_refl]|exact Hm].
Qed.
(** Same values, and the same text left after comments. *)
Definition alike {A} (r r' : pres A) : Prop :=
  match r, r' with
  | POk a s, POk a' s' => a = a' /\ skip s = skip s'
  | _, _ => r = r'
  end.
Lemma rounds_alike : forall A (p : str -> pres A) n m s s',
  (forall x, p x = p (skip x)) -> skip s = skip s' ->
  many_rounds n never p s <> PFuel -> many_rounds m never p s' <> PFuel ->
  alike (many_rounds n never p s) (many_rounds m never p s').
Proof.
  intros A p n m s s' Hp Hs Hn Hm. destruct n as [|n]; [exfalso; apply Hn; reflexivity|].
  destruct m as [|m]; [exfalso; apply Hm; reflexivity|].
  assert (E0 : p s = p s') by (rewrite (Hp s), Hs, <- (Hp s'); reflexivity).
  cbn [many_rounds never] in *. rewrite E0 in *.
  destruct (p s') as [a r| |e|]; [|cbn; auto..].
  assert (E : many_rounds n never p r = many_rounds m never p r).
  { apply rounds_same; intros K; [apply Hn|apply Hm]; rewrite K; reflexivity. }
  rewrite E. destruct (many_rounds m never p r); cbn; auto.
Qed.
Lemma literal_sequence_skip : forall bad s, literal_sequence C bad s = literal_sequence C bad (skip s).
Proof.
  intros bad s. unfold literal_sequence, many1, many.
  pose proof (literal_rounds_ok bad (S (length s)) s ltac:(lia)) as H1.
  pose proof (literal_rounds_ok bad (S (length (skip s))) (skip s) ltac:(lia)) as H2.
  cbn [many_rounds never] in *. rewrite <- literal_skip in *.
  destruct (literal C bad s) as [a r| |e|]; [|reflexivity..].
  assert (E : many_rounds (length s) never (literal C bad) r = many_rounds (length (skip s)) never (literal C bad) r).
  { apply rounds_same; intros K; [apply H1|apply H2]; rewrite K; reflexivity. }
  rewrite E. reflexivity.
Qed.
Lemma chunk_skip : forall V T s, chunk alnum C V T s = chunk alnum C V T (skip s).
Proof.
  intros V T s.
  unfold chunk, alt, variable_assignment, variable_access, access, wrap_command, variants, wildcard.
  rewrite !(tok_skip _ s), (literal_sequence_skip _ s). reflexivity.
Qed.

Local Notation Before := (BeforeComment C).

Lemma Before_skip : forall a k, Before a -> ~ Blanks a -> skip (a ++ k) = a ++ k.
Proof.
  intros a k [[Hp _] Hs] Hb. apply skip_plain. intros (w & r & E & Hw & Hr).
  apply app_split in E. destruct E as [(l & E1 & E2)|(l & E1 & E2)].
  - destruct l as [|c l].
    + rewrite app_nil_r in E1. subst a. contradiction.
    + assert (Hc : c = 35%N \/ c = 47%N).
      { destruct Hr as [[q Hq]|[[q Hq]|(b & x & Hq)]]; rewrite Hq in E2; injection E2 as E2 _; auto. }
      destruct Hc as [->| ->].
      * rewrite Forall_forall in Hp. assert (Hin : In 35%N a) by (rewrite E1; apply in_or_app; right; left; reflexivity).
        apply Hp in Hin. apply (proj1 Hin). left; reflexivity.
      * apply (Hs w (47%N :: l) E1 Hw). exists l; reflexivity.
  - apply Hb. unfold Blanks in *. rewrite E1 in Hw. apply Forall_app in Hw. apply Hw.
Qed.

Section Same.
Variables V T : str -> pres command.
Hypothesis Hsharp : ~ In 35%N (wildcard_wrap C).

(** The literal [a] before a comment, then what follows the comment. *)
Lemma literal_before : forall a body k, Before a -> ~ Blanks a -> 
  literal C (top_bad C) (a ++ $"#" ++ body ++ k) = POk a ($"#" ++ body ++ k).
Proof.
  intros a body k Ha Hb. unfold literal. rewrite (Before_skip _ _ Ha Hb).
  destruct Ha as [[Hp Hw] _].
  assert (He : Ends ($"#" ++ body ++ k)).
  { right. exists 35%N, (body ++ k). split; [reflexivity|left; reflexivity]. }
  rewrite run_hit.
  - destruct a; [exfalso; apply Hb; constructor|reflexivity].
  - eapply Forall_impl; [|exact Hp]; cbn; tauto.
  - exact He.
  - apply no_wrap_end; auto. intros c r E. injection E as <- _. exact Hsharp.
Qed.
Lemma chunk_before : forall a s, Before a -> ~ Blanks a -> 
  StartsWith s $"#" ->
  chunk alnum C V T (a ++ s) = literal_sequence C (top_bad C) (a ++ s).
Proof.
  intros a s Ha Hb [q Hs]. pose proof (Before_skip a s Ha Hb) as Hk.
  destruct Ha as [[Hp Hw] _]. destruct a as [|c a]; [exfalso; apply Hb; constructor|].
  apply chunk_literal.
  - exact Hk.
  - inversion Hp; tauto.
  - intros [x E]. assert (L : length (c :: a) <= length (@nil N)); [|cbn in L; lia].
    apply (no_wrap_end (c :: a) s Hw) with (b := x); [| |exact E].
    + right. exists 35%N, q. split; [exact Hs|left; reflexivity].
    + intros d r E'. rewrite Hs in E'. injection E' as <- _. exact Hsharp.
Qed.

Lemma prompt_same : forall a body body' k, Before a -> OneLine body -> OneLine body' ->
  (k = [] \/ exists r, k = 10%N :: r) ->
  prompt alnum C V T (a ++ $"#" ++ body ++ k) <> PFuel ->
  prompt alnum C V T (a ++ $"#" ++ body' ++ k) <> PFuel ->
  alike (prompt alnum C V T (a ++ $"#" ++ body ++ k)) (prompt alnum C V T (a ++ $"#" ++ body' ++ k)).
Proof.
  intros a body body' k Ha Hb Hb' Hk. unfold prompt.
  destruct (forallb blank a) eqn:Ea.
  - apply Blanks_forallb in Ea. rewrite !skip_comment by assumption. intros N1 N2.
    destruct (many never (chunk alnum C V T) (skip k)); cbn; auto.
  - assert (Hnb : ~ Blanks a) by (rewrite Blanks_forallb; congruence). clear Ea.
    rewrite !(Before_skip _ _ Ha Hnb). intros N1 N2.
    set (s := a ++ $"#" ++ body ++ k) in *. set (s' := a ++ $"#" ++ body' ++ k) in *.
    assert (Ss : skip ($"#" ++ body ++ k) = skip ($"#" ++ body' ++ k)).
    { transitivity (skip k); [|symmetry]; apply (skip_comment []); auto; constructor. }
    assert (HL : exists c r r', literal_sequence C (top_bad C) s = POk c r /\
              literal_sequence C (top_bad C) s' = POk c r' /\ skip r = skip r').
    { unfold literal_sequence, many1, many.
      assert (L1 : length ($"#" ++ body ++ k) < length s)
        by (unfold s; destruct a; [exfalso; apply Hnb; constructor|rewrite !app_length; cbn; lia]).
      assert (L2 : length ($"#" ++ body' ++ k) < length s')
        by (unfold s'; destruct a; [exfalso; apply Hnb; constructor|rewrite !app_length; cbn; lia]).
      cbn [many_rounds never].
      assert (F1 : literal C (top_bad C) s = POk a ($"#" ++ body ++ k)) by (apply literal_before; assumption).
      assert (F2 : literal C (top_bad C) s' = POk a ($"#" ++ body' ++ k)) by (apply literal_before; assumption).
      rewrite F1, F2.
      destruct (literal_rounds (top_bad C) _ _ L1) as (l & r & Q1).
      destruct (literal_rounds (top_bad C) _ _ L2) as (l' & r' & Q2).
      pose proof (rounds_alike _ (literal C (top_bad C)) (length s) (length s') _ _ (literal_skip _) Ss) as K.
      rewrite Q1, Q2 in *. specialize (K ltac:(discriminate) ltac:(discriminate)). cbn in K.
      destruct K as [-> K]. eauto 8. }
    destruct HL as (c & r & r' & L1 & L2 & Hr).
    unfold many in *. cbn [many_rounds never] in *.
    assert (E1 : chunk alnum C V T s = literal_sequence C (top_bad C) s)
      by (apply chunk_before; auto; eexists; reflexivity).
    assert (E2 : chunk alnum C V T s' = literal_sequence C (top_bad C) s')
      by (apply chunk_before; auto; eexists; reflexivity).
    rewrite E1, L1, E2, L2 in *.
    pose proof (rounds_alike _ (chunk alnum C V T) (length s) (length s') r r' (chunk_skip V T) Hr) as K.
    specialize (K ltac:(intros K'; apply N1; rewrite K'; reflexivity)
                  ltac:(intros K'; apply N2; rewrite K'; reflexivity)).
    destruct (many_rounds (length s) never (chunk alnum C V T) r) as [l x| |e|],
      (many_rounds (length s') never (chunk alnum C V T) r') as [l' x'| |e'|];
      cbn in K |- *; try congruence.
    destruct K as [-> K]. auto.
Qed.

(** Everything that follows the comment is plain, or nothing follows. *)
Lemma prompt_before : forall a body k, Before a -> ~ Blanks a -> OneLine body ->
  (k = [] \/ exists r, k = 10%N :: r) -> Plain C k -> ~ BeginsComment k ->
  exists r, prompt alnum C V T (a ++ $"#" ++ body ++ k) =
    POk (Lit (match k with [] => a | _ => a ++ $" " ++ k end) None) r /\ skip r = [].
Proof.
  intros a body k Ha Hnb Hb Hk [Hp Hw] Hc. unfold prompt. rewrite (Before_skip _ _ Ha Hnb).
  assert (Sk : skip ($"#" ++ body ++ k) = k).
  { transitivity (skip k); [apply (skip_comment []); auto; constructor|apply skip_plain, Hc]. }
  assert (Hu : Unreserved k) by (eapply Forall_impl; [|exact Hp]; cbn; tauto).
  assert (Hrun : literal_run C (top_bad C) k = (k, [])).
  { pose proof (run_hit k [] Hu (or_introl eq_refl)) as H. rewrite app_nil_r in H. apply H.
    intros x y E. exfalso; apply Hw. exists x, y; exact E. }
  assert (F2 : literal C (top_bad C) ($"#" ++ body ++ k) = match k with [] => PFail | _ => POk k [] end).
  { unfold literal. rewrite Sk, Hrun. destruct k; reflexivity. }
  set (s := a ++ $"#" ++ body ++ k).
  assert (Ls : exists n, length s = S (S n)).
  { unfold s. destruct a; [exfalso; apply Hnb; constructor|]. cbn [length app].
    exists (length (a ++ body ++ k)). rewrite !app_length. cbn. lia. }
  destruct Ls as [n Ls].
  assert (HL : exists r, literal_sequence C (top_bad C) s =
      POk (Lit (match k with [] => a | _ => a ++ $" " ++ k end) None) r /\ skip r = []).
  { unfold literal_sequence, many1, many. cbn [many_rounds never].
    assert (F1 : literal C (top_bad C) s = POk a ($"#" ++ body ++ k)) by (apply literal_before; assumption).
    rewrite F1, Ls. cbn [many_rounds never]. rewrite F2.
    destruct k as [|x k]; [exists ($"#" ++ body ++ []); split; [reflexivity|exact Sk]|].
    exists []. split; reflexivity. }
  destruct HL as (r & L & Sr). exists r. split; [|exact Sr].
  unfold many. cbn [many_rounds never].
  assert (E1 : chunk alnum C V T s = literal_sequence C (top_bad C) s)
    by (apply chunk_before; auto; eexists; reflexivity).
  rewrite E1, L, Ls. cbn [many_rounds never]. rewrite chunk_skip, Sr, chunk_nil. reflexivity.
Qed.
End Same.

Lemma Before_notab : forall a, Before a -> ~ In 9%N a.
Proof. intros a [[Hp _] _] H. rewrite Forall_forall in Hp. apply Hp in H. tauto. Qed.

Section Result.
Hypothesis Hsharp : ~ In 35%N (wildcard_wrap C).
Hypothesis Hal : alnum 35%N = false.

Lemma isalnum_sharp : forall a s, isalnum alnum (a ++ $"#" ++ s) = false.
Proof.
  intros a s. unfold isalnum. destruct (a ++ $"#" ++ s) as [|c r] eqn:E; [reflexivity|].
  rewrite <- E, forallb_app. cbn. rewrite Hal. apply andb_false_r.
Qed.

Theorem comment_same : forall a body body' b, Before a -> OneLine body -> OneLine body' ->
  parse alnum C (a ++ $"#" ++ body ++ $"
" ++ b) = parse alnum C (a ++ $"#" ++ body' ++ $"
" ++ b).
Proof.
  intros a body body' b Ha Hb Hb'. unfold parse.
  set (s := a ++ $"#" ++ body ++ $"
" ++ b). set (s' := a ++ $"#" ++ body' ++ $"
" ++ b).
  set (n := depth s + depth s').
  rewrite (parse_raw_depth HM n s), (parse_raw_depth HM n s') by (unfold n; lia).
  pose proof (parse_depth_ok alnum C HM n s) as O1. pose proof (parse_depth_ok alnum C HM n s') as O2.
  unfold n in O1, O2. unfold depth at 1 in O1. unfold depth at 2 in O2.
  specialize (O1 ltac:(lia)). specialize (O2 ltac:(lia)). fold n in O1, O2.
  assert (Hn : exists m, n = S m) by (unfold n, depth; cbn; eauto). destruct Hn as [m Hn].
  rewrite Hn, !parse_depth_S in *. unfold parse_body in *.
  unfold s, s' in O1, O2. unfold s, s'. rewrite !isalnum_sharp in *.
  unfold grammar_body, expandtabs in *.
  destruct (expandtabs_from_app a 0 ($"#" ++ body ++ $"
" ++ b) (Before_notab a Ha)) as [col E1].
  destruct (expandtabs_from_app a 0 ($"#" ++ body' ++ $"
" ++ b) (Before_notab a Ha)) as [col' E2].
  rewrite E1 in *. rewrite E2 in *.
  assert (G : forall col x, OneLine x -> exists y, OneLine y /\
     expandtabs_from col ($"#" ++ x ++ $"
" ++ b) = $"#" ++ y ++ $"
" ++ expandtabs_from 0 b).
  { intros cl x Hx. destruct (expandtabs_line x (S cl) b Hx) as (y & Hy & E). exists y. split; [exact Hy|].
    change (expandtabs_from cl ($"#" ++ x ++ $"
" ++ b)) with (35%N :: expandtabs_from (S cl) (x ++ $"
" ++ b)). rewrite E. reflexivity. }
  destruct (G col body Hb) as (y & Hy & F1). destruct (G col' body' Hb') as (y' & Hy' & F2).
  rewrite F1 in *. rewrite F2 in *.
  pose proof (prompt_same (variant_prompt alnum C m) (parse_depth alnum C m) Hsharp a y y'
    ($"
" ++ expandtabs_from 0 b) Ha Hy Hy' (or_intror (ex_intro _ _ eq_refl))) as K.
  specialize (K ltac:(intros K'; rewrite K' in O1; exact O1) ltac:(intros K'; rewrite K' in O2; exact O2)).
  match type of K with alike ?p ?q => destruct p as [c r| |e|], q as [c' r'| |e'|] end; cbn in K;
    try congruence.
  destruct K as [-> ->]. reflexivity.
Qed.

Theorem comment_result : forall a body k, Before a -> ~ Blanks a -> OneLine body ->
  (k = [] \/ exists r, k = 10%N :: r) -> Plain C k -> ~ BeginsComment k ->
  parse alnum C (a ++ $"#" ++ body ++ k) =
    Ok (Lit (match k with [] => a | _ => a ++ $" " ++ k end) None).
Proof.
  intros a body k Ha Hnb Hb Hk Hp Hc. unfold parse. rewrite parse_raw_unfold. unfold parse_body.
  rewrite isalnum_sharp. unfold grammar_body, expandtabs.
  set (V := variant_prompt _ _ _). set (T := parse_depth _ _ _). clearbody V T.
  destruct (expandtabs_from_app a 0 ($"#" ++ body ++ k) (Before_notab a Ha)) as [col E1].
  rewrite E1.
  assert (F : exists y, OneLine y /\ expandtabs_from col ($"#" ++ body ++ k) = $"#" ++ y ++ k).
  { assert (Hkt : ~ In 9%N k).
    { intros H. destruct Hp as [Hp _]. rewrite Forall_forall in Hp. apply Hp in H. tauto. }
    destruct Hk as [->|[b ->]].
    - rewrite app_nil_r.
      assert (G : forall x cl, OneLine x -> OneLine (expandtabs_from cl x)).
      { induction x as [|c x IH]; intros cl Hx; cbn [expandtabs_from]; [exact Hx|].
        assert (Hx' : OneLine x) by (intros K; apply Hx; right; exact K).
        destruct (N.eqb c 9); intros K.
        - apply in_app_or in K. destruct K as [K|K]; [apply repeat_spec in K; discriminate|].
          revert K. apply IH, Hx'.
        - destruct K as [->|K]; [apply Hx; left; reflexivity|]. revert K. apply IH, Hx'. }
      exists (expandtabs_from (S col) body). split; [apply G, Hb|]. rewrite app_nil_r. reflexivity.
    - destruct (expandtabs_line body (S col) b Hb) as (y & Hy & E). exists y. split; [exact Hy|].
      change (expandtabs_from col ($"#" ++ body ++ 10%N :: b)) with
        (35%N :: expandtabs_from (S col) (body ++ $"
" ++ b)).
      rewrite E, expandtabs_from_id; [reflexivity|]. intros K; apply Hkt; right; exact K. }
  destruct F as (y & Hy & F). rewrite F.
  destruct (prompt_before V T Hsharp a y k Ha Hnb Hy Hk Hp Hc) as (r & Q & Sr).
  rewrite Q, Sr. reflexivity.
Qed.
End Result.
End Depth.

(** * Results *)
Theorem parse_results : forall alnum C t, Marks C ->
  (exists c, parse alnum C t = Ok c) \/ parse alnum C t = Err EParse \/
  parse alnum C t = Err EAttribute.
Proof.
  intros alnum C t HM. unfold parse.
  destruct (parse_outcome alnum C HM t) as [(c & ->)|[->| ->]]; cbn; eauto.
Qed.
Theorem parse_enough : forall alnum C t n, Marks C -> 2 + length (expandtabs t) <= n ->
  parse_depth alnum C n t = parse_raw alnum C t /\ parse_depth alnum C n t <> PFuel.
Proof.
  intros alnum C t n HM Hn. rewrite <- (parse_raw_depth alnum C HM n t Hn). split; [reflexivity|].
  destruct (parse_outcome alnum C HM t) as [(c & ->)|[->| ->]]; discriminate.
Qed.
Theorem comment_between : forall alnum C a body b,
  Marks C -> ~ In 35%N (wildcard_wrap C) -> alnum 35%N = false ->
  BeforeComment C a -> ~ Blanks a -> OneLine body ->
  Plain C (10%N :: b) -> ~ BeginsComment (10%N :: b) ->
  parse alnum C (a ++ $"#" ++ body ++ [10%N] ++ b) = Ok (Lit (a ++ $" " ++ [10%N] ++ b) None).
Proof.
  intros alnum C a body b HM Hw Ha Hb Hn Ho Hp Hc.
  apply (comment_result alnum C HM Hw Ha a body (10%N :: b)); eauto.
Qed.
Theorem comment_final : forall alnum C a body,
  Marks C -> ~ In 35%N (wildcard_wrap C) -> alnum 35%N = false ->
  BeforeComment C a -> ~ Blanks a -> OneLine body ->
  parse alnum C (a ++ $"#" ++ body) = Ok (Lit a None).
Proof.
  intros alnum C a body HM Hw Ha Hb Hn Ho.
  pose proof (comment_result alnum C HM Hw Ha a body []) as H. rewrite app_nil_r in H. apply H; auto.
  - split; [constructor|]. intros (x & y & E). symmetry in E. apply app_eq_nil in E. destruct E as [_ E].
    apply app_eq_nil in E. apply HM. apply E.
  - apply ignored_None. reflexivity.
Qed.
