(** What the parser returns is shaped. *)
From Coq Require Import String NArith ZArith QArith Qcanon Bool Arith List Sorted Lia.
From Verif.Model Require Import Str Command Rng Context Parser.
From Verif.Spec Require Import Text Names Lookup Lang Syntax Shape.
From Verif.Proofs Require Import StrFacts DictFacts ManagerFacts ParserFacts TokenFacts SyntaxFacts ReadFacts.
Import ListNotations.
Local Open Scope nat_scope.

(** [r] yields only values with [P], where [P] may speak of the rest. *)
Definition gives {A} (P : A -> str -> Prop) (r : pres A) : Prop :=
  match r with POk a s => P a s | _ => True end.

Lemma gives_bind : forall A B (P : B -> str -> Prop) (r : pres A) k,
  gives (fun a s => gives P (k a s)) r -> gives P (let! (a, s) := r in k a s).
Proof. intros A B P [a s| |e|] k H; cbn in *; auto. Qed.
Lemma gives_any : forall A (r : pres A), gives (fun _ _ => True) r.
Proof. intros A [a s| |e|]; cbn; auto. Qed.
Lemma gives_mono : forall A (P Q : A -> str -> Prop) r, gives P r -> (forall a s, P a s -> Q a s) -> gives Q r.
Proof. intros A P Q [a s| |e|] H K; cbn in *; auto. Qed.
Lemma gives_skip : forall A B (P : B -> str -> Prop) (r : pres A) k,
  (forall a s, gives P (k a s)) -> gives P (let! (a, s) := r in k a s).
Proof. intros A B P [a s| |e|] k H; cbn in *; auto. Qed.
Lemma gives_popt : forall A (P : A -> str -> Prop) (p : str -> pres A) s,
  gives P (p s) -> gives (fun o s => forall a, o = Some a -> P a s) (popt p s).
Proof.
  intros A P p s H. unfold popt. destruct (p s) as [a r| |e|]; cbn in *; auto.
  - intros b Hb. injection Hb as <-. exact H.
  - intros b Hb. discriminate Hb.
Qed.
Lemma gives_alt : forall A (P : A -> str -> Prop) (p q : str -> pres A) s,
  gives P (p s) -> (p s = PFail -> gives P (q s)) -> gives P (alt p q s).
Proof. intros A P p q s H K. unfold alt. destruct (p s) as [a r| |e|]; auto. Qed.
Lemma gives_rounds : forall A stop (P : A -> Prop) (p : str -> pres A),
  (forall s, gives (fun a _ => P a) (p s)) ->
  forall n s, gives (fun l _ => Forall P l) (many_rounds n stop p s).
Proof.
  intros A stop P p H. induction n as [|n IH]; intros s; cbn [many_rounds]; [exact I|].
  destruct (stop s); [constructor|]. specialize (H s). destruct (p s) as [a r| |e|]; cbn in *; auto.
  specialize (IH r). destruct (many_rounds n stop p r); cbn in *; auto.
Qed.
Lemma gives_many1 : forall A stop (P : A -> Prop) (p : str -> pres A) s,
  (forall s, gives (fun a _ => P a) (p s)) ->
  gives (fun l _ => Forall P l /\ l <> []) (many1 stop p s).
Proof.
  intros A stop P p s H. unfold many1. pose proof (gives_rounds A stop P p H (S (length s)) s) as K.
  unfold many. destruct (many_rounds (S (length s)) stop p s) as [[|a l] r| |e|]; cbn in *; auto.
  split; [exact K|discriminate].
Qed.

Lemma var_name_gives : forall s, gives (fun x _ => NameText x) (var_name s).
Proof.
  intros s. unfold var_name. destruct (skip s) as [|c r]; [exact I|].
  destruct (name_start c) eqn:Ec; [|exact I]. cbn [gives].
  assert (En : name_char c = true) by (unfold name_char; rewrite Ec; reflexivity).
  cbn [take_while]. rewrite En. exists c, (take_while name_char r). split; [reflexivity|].
  split; [apply name_start_spec, Ec|]. apply Forall_forall. intros d Hd. apply name_char_spec.
  pose proof (take_while_all name_char r) as Ha. rewrite forallb_forall in Ha. apply Ha, Hd.
Qed.
Lemma separator_gives : forall s, gives (fun w _ => w <> []) (separator s).
Proof.
  intros s. unfold separator. destruct (take_while separator_char (skip s)); cbn; [exact I|discriminate].
Qed.
Lemma bound_expr_gives : forall s, gives (fun b _ => snd b <> []) (bound_expr s).
Proof.
  intros s. unfold bound_expr. apply gives_skip; intros rng s1. apply gives_skip; intros _ s2.
  apply gives_bind. eapply gives_mono; [apply (gives_popt _ (fun w _ => w <> []))|].
  - apply gives_bind. eapply gives_mono; [apply separator_gives|]. intros w s3 Hw.
    apply gives_skip; intros _ s4. exact Hw.
  - intros [w|] s3 H; cbn; [apply H; reflexivity|discriminate].
Qed.

Section Shape.
Variable alnum : char -> bool.
Variable C : parser_config.


Lemma join_nonempty : forall l, l <> [] -> Forall (fun t : str => t <> []) l -> join $" " l <> [].
Proof.
  intros [|t l] H Hf; [congruence|]. inversion Hf; subst. destruct t as [|c t]; [congruence|].
  destruct l as [|u l]; cbn; discriminate.
Qed.
Lemma literal_nonempty : forall bad s, gives (fun t _ => t <> []) (literal C bad s).
Proof.
  intros bad s. unfold literal. destruct (literal_run C bad (skip s)) as [[|c t] r]; cbn; [exact I|discriminate].
Qed.
(** After a run of literals there is no further one. *)
Lemma rounds_end : forall A (p : str -> pres A) n s,
  gives (fun l r => p r = PFail /\ (l <> [] -> p s <> PFail)) (many_rounds n never p s).
Proof.
  intros A p. induction n as [|n IH]; intros s; cbn [many_rounds never]; [exact I|].
  destruct (p s) as [a r| |e|] eqn:E; cbn; auto.
  - specialize (IH r). destruct (many_rounds n never p r) as [l r'| |e|]; cbn in *; auto.
    split; [apply IH|]. discriminate.
Qed.
Lemma literal_sequence_gives : forall bad s,
  gives (fun c r => (exists t, t <> [] /\ c = Lit t None) /\ literal C bad r = PFail /\ literal C bad s <> PFail)
        (literal_sequence C bad s).
Proof.
  intros bad s. unfold literal_sequence, many1.
  pose proof (gives_rounds _ never (fun t : str => t <> []) (literal C bad) (literal_nonempty bad) (S (length s)) s) as H1.
  pose proof (rounds_end _ (literal C bad) (S (length s)) s) as H2.
  unfold many. destruct (many_rounds (S (length s)) never (literal C bad) s) as [[|t l] r| |e|]; cbn in *; auto.
  destruct H2 as [H2 H3]. split; [|split; [exact H2|apply H3; discriminate]].
  eexists. split; [|reflexivity]. apply (join_nonempty (t :: l)); [discriminate|exact H1].
Qed.

Lemma shaped_together : forall p cs, Forall (Piece p) cs -> (p <> Path -> Apart cs) -> Shaped p (sequence_or_single cs).
Proof.
  intros p [|a [|b cs]] H Ha; cbn.
  - apply Shaped_many; [discriminate|constructor|exact Ha].
  - apply Shaped_one. inversion H; assumption.
  - apply Shaped_many; [discriminate|exact H|exact Ha].
Qed.

Section Rec.
Variable V T : str -> pres command.
Hypothesis HV : forall s, gives (fun c _ => Shaped Inside c) (V s).
Hypothesis HT : forall s, gives (fun c _ => Shaped Top c) (T s).

Lemma variant_gives : forall s, gives (fun v _ => Shaped Inside (fst v)) (variant V s).
Proof.
  intros s. unfold variant. apply gives_skip; intros w s1. apply gives_bind.
  eapply gives_mono; [apply HV|]. intros c s2 Hc. exact Hc.
Qed.
Lemma variants_list_gives : forall s,
  gives (fun vs _ => vs <> [] /\ Forall (fun v => Shaped Inside (fst v)) vs) (variants_list V s).
Proof.
  intros s. unfold variants_list. apply gives_bind. eapply gives_mono; [apply variant_gives|].
  intros v s1 Hv. apply gives_bind. eapply gives_mono; [apply (gives_rounds _ never (fun v => Shaped Inside (fst v)))|].
  - intros s2. apply gives_skip; intros _ s3. apply variant_gives.
  - intros vs s2 Hvs. cbn. split; [discriminate|constructor; auto].
Qed.
Lemma variants_gives : forall p s, gives (fun c _ => Piece p c) (variants C V s).
Proof.
  intros p s. unfold variants. apply gives_skip; intros _ s1. apply gives_skip; intros m s2.
  apply gives_bind. eapply gives_mono; [apply gives_popt, bound_expr_gives|]. intros b s3 Hb.
  apply gives_bind. eapply gives_mono; [apply variants_list_gives|]. intros vs s4 [Hn Hvs].
  apply gives_skip; intros _ s5.
  destruct (bounds_of b (length vs)) as [[lo hi] sep] eqn:E. cbn [gives].
  assert (Hx : (0 <= lo)%Z /\ (0 <= hi)%Z /\ sep <> []).
  { unfold bounds_of in E. destruct b as [[[l h] w]|].
    - injection E as <- <- <-. specialize (Hb _ eq_refl). cbn in Hb.
      split; [destruct l; lia|]. split; [destruct h; lia|exact Hb].
    - injection E as <- <- <-. repeat split; [lia|lia|discriminate]. }
  destruct Hx as (Hl & Hh & Hs). unfold mk_variant, post_init_bounds.
  destruct (Z.leb_spec lo hi); apply Piece_variants; auto; lia.
Qed.
Lemma access_gives : forall s,
  gives (fun nd _ => NameText (fst nd) /\ forall c, snd nd = Some c -> Shaped Inside c) (access C V s).
Proof.
  intros s. unfold access. apply gives_skip; intros _ s1. apply gives_bind.
  eapply gives_mono; [apply var_name_gives|]. intros x s2 Hx.
  apply gives_bind. eapply gives_mono; [apply (gives_popt _ (fun c _ => Shaped Inside c))|].
  - apply gives_skip; intros _ s3. apply HV.
  - intros d s3 Hd. apply gives_skip; intros _ s4. cbn. auto.
Qed.
Lemma variable_access_gives : forall p s, p <> Path -> gives (fun c _ => Piece p c) (variable_access C V s).
Proof.
  intros p s Hp. unfold variable_access. apply gives_bind. eapply gives_mono; [apply access_gives|].
  intros [x d] s1 [Hx Hd]. cbn. apply Piece_access; auto.
Qed.
Lemma wildcard_variable_access_gives : forall s, gives (fun c _ => Piece Path c) (wildcard_variable_access C V s).
Proof.
  intros s. unfold wildcard_variable_access. apply gives_bind. eapply gives_mono; [apply access_gives|].
  intros [x d] s1 [Hx Hd]. destruct (match d with Some c => if truthy c then c else Lit x None | None => Lit x None end); cbn; auto.
  apply Piece_path_access, Hx.
Qed.
Lemma variable_assignment_gives : forall s, gives (fun c _ => Piece Top c) (variable_assignment C V s).
Proof.
  intros s. unfold variable_assignment. apply gives_skip; intros _ s1. apply gives_bind.
  eapply gives_mono; [apply var_name_gives|]. intros x s2 Hx.
  apply gives_skip; intros pr s3. apply gives_skip; intros _ s4. apply gives_skip; intros im s5.
  apply gives_bind. eapply gives_mono; [apply HV|]. intros c s6 Hc. apply gives_skip; intros _ s7.
  apply Piece_assign; auto.
Qed.
Lemma wrap_gives : forall p s, p <> Path -> gives (fun c _ => Piece p c) (wrap_command C V s).
Proof.
  intros p s Hp. unfold wrap_command. apply gives_skip; intros _ s1. apply gives_bind.
  eapply gives_mono; [apply HV|]. intros c s2 Hc. apply gives_skip; intros _ s3. apply gives_bind.
  eapply gives_mono; [apply HV|]. intros d s4 Hd. apply gives_skip; intros _ s5. apply Piece_wrap; auto.
Qed.
Lemma wildcard_chunk_gives : forall s, gives (fun c _ => Piece Path c) (wildcard_chunk C V s).
Proof.
  intros s. unfold wildcard_chunk. repeat (apply gives_alt; [|intros _]).
  - apply wildcard_variable_access_gives.
  - apply variants_gives.
  - eapply gives_mono; [apply literal_sequence_gives|]. intros c r ((t & Ht & ->) & _). apply Piece_text, Ht.
  - eapply gives_mono; [apply literal_sequence_gives|]. intros c r ((t & Ht & ->) & _). apply Piece_text, Ht.
Qed.
Lemma wildcard_prompt_gives : forall s,
  gives (fun c _ => Shaped Path c /\ Nonempty c /\ (IsLiteral c -> exists t, c = Lit t None /\ t <> [])) (wildcard_prompt C V s).
Proof.
  intros s. unfold wildcard_prompt. apply gives_bind.
  eapply gives_mono; [apply (gives_many1 _ _ (Piece Path)), wildcard_chunk_gives|].
  intros l r [Hf Hn]. cbn. split; [apply shaped_together; [exact Hf|congruence]|].
  destruct l as [|a [|b l]]; [congruence| |].
  - cbn. inversion Hf as [|? ? Ha _]; subst. split.
    + split; [intros ? ? ->; inversion Ha|intros ? ? ? ? ->; inversion Ha; congruence].
    + intros (t & m & ->). inversion Ha; subst. eauto.
  - cbn. split; [split; intros; discriminate|]. intros (t & m & K). discriminate K.
Qed.
Lemma spec_pairs_gives : forall pairs d, dict_sorted d -> Forall (fun kv => Shaped Top (snd kv)) d ->
  gives (fun d _ => dict_sorted d /\ Forall (fun kv => Shaped Top (snd kv)) d) (spec_pairs alnum T pairs d).
Proof.
  induction pairs as [|kv pairs IH]; intros d Hs Hf; cbn [spec_pairs]; [split; assumption|].
  destruct (partition_eq kv) as [k v]. apply gives_bind.
  assert (Hv : gives (fun c _ => Shaped Top c) (spec_value alnum T (strip v))).
  { unfold spec_value. destruct (isalnum alnum (strip v)) eqn:E; [|apply HT].
    cbn. apply Shaped_one, Piece_text. intros K. rewrite K in E. discriminate E. }
  eapply gives_mono; [exact Hv|]. intros c r Hc. apply IH; [apply dict_set_sorted, Hs|].
  clear - Hf Hc. induction Hf as [|[k' v'] d H Hf IH]; cbn.
  - constructor; [exact Hc|constructor].
  - destruct (str_eqb (strip k) k'); [constructor; auto|]. destruct (str_leb (strip k) k'); [constructor; [exact Hc|constructor; auto]|constructor; auto].
Qed.
Lemma wildcard_gives : forall p s, p <> Path -> gives (fun c _ => Piece p c) (wildcard alnum C V T s).
Proof.
  intros p s Hp. unfold wildcard. apply gives_skip; intros _ s1. apply gives_skip; intros m s2.
  apply gives_bind. eapply gives_mono; [apply wildcard_prompt_gives|]. intros path s3 (H1 & H2 & H3).
  apply gives_skip; intros spec s4. apply gives_skip; intros _ s5. apply gives_bind.
  assert (Hv : gives (fun d _ => dict_sorted d /\ Forall (fun kv => Shaped Top (snd kv)) d)
    match spec with Some t => spec_pairs alnum T (split_char 44 t) [] | None => POk [] [] end).
  { destruct spec; [apply spec_pairs_gives; constructor|split; constructor]. }
  eapply gives_mono; [exact Hv|]. intros vars s6 [Hs Hf]. cbn [gives]. apply Piece_wildcard; auto.
  - intros t Ht. destruct path; try discriminate Ht. injection Ht as <-.
    destruct (H3 (ex_intro _ _ (ex_intro _ _ eq_refl))) as (t & K & Hn). injection K as -> _. exact Hn.
  - intros c Hc. assert (~ IsLiteral path) by (intros (t & m' & ->); discriminate Hc).
    destruct path; try discriminate Hc; injection Hc as <-; auto.
  - clear - Hs. unfold dict_sorted in Hs. induction Hs as [|a l Hs IH Hf]; constructor; auto.
    rewrite Forall_forall in *. intros b Hb. destruct (Hf b Hb) as [H1 H2]. split; [|exact H2].
    apply str_leb_TextLe, H1.
Qed.

(** Chunks that are literals end where no literal begins, and only stand
    where one begins. *)
Definition Chunk (bad : char -> bool) (p : place) (s : str) (c : command) (r : str) : Prop :=
  Piece p c /\ (IsLiteral c -> literal C bad r = PFail /\ literal C bad s <> PFail).
Lemma piece_chunk : forall bad p s (r : pres command), gives (fun c _ => Piece p c) r ->
  gives (fun c _ => ~ IsLiteral c) r -> gives (Chunk bad p s) r.
Proof. intros bad p s [c r| |e|] H K; cbn in *; auto. split; [exact H|contradiction]. Qed.
Lemma nonliteral : forall s,
  gives (fun c _ => ~ IsLiteral c) (variable_assignment C V s) /\
  gives (fun c _ => ~ IsLiteral c) (variable_access C V s) /\
  gives (fun c _ => ~ IsLiteral c) (wrap_command C V s) /\
  gives (fun c _ => ~ IsLiteral c) (variants C V s) /\
  gives (fun c _ => ~ IsLiteral c) (wildcard alnum C V T s).
Proof.
  intros s. unfold variable_assignment, variable_access, wrap_command, variants, wildcard.
  repeat split; repeat (apply gives_skip; intros).
  all: try (intros (? & ? & K); discriminate K).
  - destruct a as [x d]. intros (? & ? & K); discriminate K.
  - destruct (bounds_of a1 (length a2)) as [[? ?] ?]. unfold mk_variant.
    destruct (post_init_bounds z z0). intros (? & ? & K); discriminate K.
Qed.
Lemma literal_chunk : forall bad p s, gives (Chunk bad p s) (literal_sequence C bad s).
Proof.
  intros bad p s. eapply gives_mono; [apply literal_sequence_gives|].
  intros c r ((t & Ht & ->) & H). split; [apply Piece_text, Ht|]. intros _. exact H.
Qed.
Lemma chunk_gives : forall s, gives (Chunk (top_bad C) Top s) (chunk alnum C V T s).
Proof.
  intros s. destruct (nonliteral s) as (N1 & N2 & N3 & N4 & N5).
  unfold chunk. repeat (apply gives_alt; [|intros _]); try apply literal_chunk; apply piece_chunk; auto.
  - apply variable_assignment_gives.
  - apply variable_access_gives; discriminate.
  - apply wrap_gives; discriminate.
  - apply variants_gives.
  - apply wildcard_gives; discriminate.
Qed.
Lemma variant_chunk_gives : forall s, gives (Chunk (variant_bad C) Inside s) (variant_chunk alnum C V T s).
Proof.
  intros s. destruct (nonliteral s) as (N1 & N2 & N3 & N4 & N5).
  unfold variant_chunk. repeat (apply gives_alt; [|intros _]); try apply literal_chunk; apply piece_chunk; auto.
  - apply variable_access_gives; discriminate.
  - apply wrap_gives; discriminate.
  - apply variants_gives.
  - apply wildcard_gives; discriminate.
Qed.
Lemma Apart_cons : forall a cs, (forall b cs', cs = b :: cs' -> ~ (IsLiteral a /\ IsLiteral b)) ->
  Apart cs -> Apart (a :: cs).
Proof.
  intros a cs H Ha pre x y post E. destruct pre as [|z pre]; cbn in E.
  - injection E as <- E. eapply H, E.
  - injection E as _ E. eapply Ha, E.
Qed.
Lemma chunks_give : forall bad p (f : str -> pres command), (forall s, gives (Chunk bad p s) (f s)) ->
  forall n s, gives (fun cs _ => Forall (Piece p) cs /\ Apart cs /\
    forall c cs', cs = c :: cs' -> IsLiteral c -> literal C bad s <> PFail) (many_rounds n never f s).
Proof.
  intros bad p f H. induction n as [|n IH]; intros s; cbn [many_rounds never]; [exact I|].
  specialize (H s). destruct (f s) as [c r| |e|]; cbn in *; auto.
  - specialize (IH r). destruct (many_rounds n never f r) as [cs r'| |e|]; cbn in *; auto.
    destruct H as [H1 H2], IH as (I1 & I2 & I3). split; [constructor; auto|]. split.
    + apply Apart_cons; [|exact I2]. intros b cs' E [L1 L2]. apply H2 in L1. apply (I3 _ _ E L2), L1.
    + intros c' cs' E L. injection E as <- _. apply H2, L.
  - repeat split; [constructor| |intros; discriminate]. intros pre a b post E. destruct pre; discriminate E.
Qed.
Lemma prompt_gives : forall s, gives (fun c _ => Shaped Top c) (prompt alnum C V T s).
Proof.
  intros s. unfold prompt. apply gives_bind. eapply gives_mono; [apply chunks_give, chunk_gives|].
  intros cs r (H1 & H2 & _). apply shaped_together; auto.
Qed.
Lemma variant_prompt_gives : forall s, gives (fun c _ => Shaped Inside c) (variant_prompt_body alnum C V T s).
Proof.
  intros s. unfold variant_prompt_body. apply gives_bind. eapply gives_mono; [apply chunks_give, variant_chunk_gives|].
  intros cs r (H1 & H2 & _). apply shaped_together; auto.
Qed.
Lemma grammar_gives : forall s, gives (fun c _ => Shaped Top c) (grammar_body alnum C V T s).
Proof.
  intros s. unfold grammar_body. apply gives_bind. eapply gives_mono; [apply prompt_gives|].
  intros c r H. destruct (drop_while blank (skip r)); [exact H|exact I].
Qed.
Lemma parse_body_gives : forall s, gives (fun c _ => Shaped Top c) (parse_body alnum C V T s).
Proof.
  intros s. unfold parse_body. destruct (isalnum alnum s) eqn:E; [|apply grammar_gives].
  cbn. apply Shaped_one, Piece_text. intros ->. discriminate E.
Qed.
End Rec.

Lemma parsers_give : forall n s,
  gives (fun c _ => Shaped Inside c) (fst (parsers alnum C n) s) /\
  gives (fun c _ => Shaped Top c) (snd (parsers alnum C n) s).
Proof.
  induction n as [|n IH]; intros s; cbn [parsers]; [split; exact I|].
  destruct (parsers alnum C n) as [V T]. cbn [fst snd] in *. split.
  - apply variant_prompt_gives; intros; apply IH.
  - apply parse_body_gives; intros; apply IH.
Qed.
Theorem parse_shaped : forall t c, parse alnum C t = Ok c -> Shaped Top c.
Proof.
  intros t c. unfold parse, parse_raw, parse_depth. pose proof (parsers_give (depth t) t) as [_ H].
  destruct (snd (parsers alnum C (depth t)) t) as [c' r| |e|]; cbn in *; try discriminate.
  intros K. injection K as <-. exact H.
Qed.
End Shape.
