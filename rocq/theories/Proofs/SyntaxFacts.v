(** Written templates are parsed back: [Elem], [Prompt] and the other
    relations of Spec/Syntax.v against the parser. *)
From Coq Require Import String NArith ZArith QArith Qcanon Bool Arith List Lia Permutation Sorted.
From Verif.Model Require Import Str Command Rng Context Parser.
From Verif.Spec Require Import Text Names Lookup Syntax.
From Verif.Proofs Require Import StrFacts DictFacts ManagerFacts FileFacts ParserFacts TokenFacts PlainFacts.
Import ListNotations.
Local Open Scope nat_scope.

Scheme Elem_mut := Minimality for Elem Sort Prop
  with Elems_mut := Minimality for Elems Sort Prop
  with Prompt_mut := Minimality for Prompt Sort Prop
  with Options_mut := Minimality for Options Sort Prop
  with Option_mut := Minimality for Option Sort Prop
  with Variables_mut := Minimality for Variables Sort Prop
  with Variable_mut := Minimality for Variable_ Sort Prop.
Combined Scheme Written_mut from Elem_mut, Elems_mut, Prompt_mut, Options_mut, Option_mut,
  Variables_mut, Variable_mut.

Section Written.
Variable ww : str.
Hypothesis Hww : WrapText ww.

Variable alnum : char -> bool.
Let C := standard ww.
Let V n := variant_prompt alnum C n.
Let T n := parse_depth alnum C n.

(** * Literals *)
Definition bad_at (p : place) : char -> bool :=
  match p with Top => top_bad C | Inside => variant_bad C | Path => wildcard_bad C end.
Lemma bad_spec : forall p c, bad_at p c = false <-> Ordinary p c.
Proof.
  assert (M : forall c l, mem c l = false <-> ~ In c l).
  { intros c l. destruct (mem c l) eqn:E.
    - apply mem_In in E. split; [discriminate|tauto].
    - split; [|reflexivity]. intros _ H. apply mem_In in H. congruence. }
  intros p c; destruct p; cbn [bad_at]; unfold variant_bad, wildcard_bad, top_bad;
    rewrite ?orb_false_iff, ?M; subst C; cbn; intuition congruence.
Qed.

Local Notation Break := (Syntax.Break ww).

Lemma literal_run_hit : forall p t k, Forall (Ordinary p) t -> NoWrapIn ww t k -> Break p k ->
  literal_run C (bad_at p) (t ++ k) = (t, k).
Proof.
  intros p t k Ht. induction Ht as [|c t Hc Ht IH]; intros Hn Hk; cbn [app].
  - destruct Hk as [->|[Hk|(c & r & -> & Hc)]].
    + reflexivity.
    + destruct k as [|c k]; [reflexivity|]. cbn [literal_run].
      apply startswith_spec in Hk. unfold C at 1. cbn [wildcard_wrap standard].
      rewrite Hk. reflexivity.
    + cbn [literal_run]. destruct (bad_at p c) eqn:E.
      * rewrite orb_true_r. reflexivity.
      * apply bad_spec in E. contradiction.
  - cbn [literal_run]. assert (E1 : startswith (c :: t ++ k) (wildcard_wrap C) = false).
    { apply startswith_false. intros [q E]. specialize (Hn [] q E). cbn in Hn. lia. }
    apply bad_spec in Hc. rewrite E1, Hc. cbn [orb].
    rewrite IH; [reflexivity| |exact Hk].
    intros a b E. specialize (Hn (c :: a) b). cbn in Hn. rewrite E in Hn. specialize (Hn eq_refl). lia.
Qed.

Lemma literal_miss : forall p k, Uncommented k -> Break p k -> literal C (bad_at p) k = PFail.
Proof.
  intros p k Hu Hk; unfold literal. rewrite (Unc_skip _ Hu).
  pose proof (literal_run_hit p [] k (Forall_nil _)) as H. cbn [app] in H. rewrite H; auto.
  intros a b _; cbn; lia.
Qed.
Lemma literal_sequence_miss : forall p k, Uncommented k -> Break p k ->
  literal_sequence C (bad_at p) k = PFail.
Proof.
  intros p k Hu Hk; unfold literal_sequence, many1, many; cbn [many_rounds never].
  rewrite (literal_miss p k Hu Hk). reflexivity.
Qed.
Lemma literal_sequence_hit : forall p t k, t <> [] -> Forall (Ordinary p) t -> NoWrapIn ww t k ->
  Break p k -> Uncommented (t ++ k) -> literal_sequence C (bad_at p) (t ++ k) = POk (Lit t None) k.
Proof.
  intros p t k Hne Ht Hn Hk Hu; unfold literal_sequence, many1, many; cbn [many_rounds never].
  assert (E : literal C (bad_at p) (t ++ k) = POk t k).
  { unfold literal. rewrite (Unc_skip _ Hu), (literal_run_hit p t k Ht Hn Hk).
    destruct t; [congruence|reflexivity]. }
  rewrite E. destruct t as [|c t]; [congruence|]. cbn [app length many_rounds never].
  rewrite (literal_miss p k (Unc_r _ _ Hu) Hk). reflexivity.
Qed.

(** * Alternatives *)
Lemma head_miss : forall c s x t, c <> x -> ~ StartsWith (c :: s) (x :: t).
Proof. intros c s x t H; apply not_starts, H. Qed.
Lemma ww_head : exists c r, ww = c :: r /\ ~ In c $"#{}$%|()~!@: " /\ ~ Blank c.
Proof.
  destruct Hww as [H1 H2]. destruct ww as [|c r]; [congruence|].
  exists c, r. inversion H2; subst. tauto.
Qed.
Lemma ww_no : forall s x t, In x $"#{}$%|()~!@: " -> ~ StartsWith (ww ++ s) (x :: t).
Proof.
  intros s x t Hx. destruct ww_head as (c & r & -> & Hc & _). cbn [app]. apply head_miss.
  intros ->; contradiction.
Qed.
(** What ends a sequence. *)
Definition InsideEnd (k : str) : Prop := exists r, k = $"|" ++ r \/ k = $"}" ++ r \/ k = $"$$" ++ r.
Definition StopText (p : place) (z k : str) : Prop :=
  match p with
  | Top => z = [] /\ k = []
  | Inside => z = [] /\ InsideEnd k
  | Path => ((exists w, Blanks w /\ z = w ++ $"(") \/ z = ww) /\ StartsWith k z
  end.
Lemma InsideEnd_Break : forall k, InsideEnd k -> Break Inside k.
Proof.
  intros k [r [->|[->| ->]]]; right; right; eexists; eexists; (split; [reflexivity|]); cbn; tauto.
Qed.
Lemma Break_app : forall q a b, Break q a -> a <> [] -> Break q (a ++ b).
Proof.
  intros q a b [->|[[r ->]|(c & r & -> & Hc)]] Hne; [congruence| |].
  - right; left. exists (r ++ b). rewrite <- app_assoc. reflexivity.
  - right; right. exists c, (r ++ b). split; [reflexivity|exact Hc].
Qed.
Lemma Break_stop : forall p t q r z k, ReadAs p t q -> Break q (r ++ z) -> StopText p z k ->
  Break q (r ++ k).
Proof.
  intros p t q r z k Hq Hb Hk. destruct p; cbn [StopText] in Hk.
  - destruct Hk as [-> ->]. exact Hb.
  - destruct Hk as [-> Hk]. rewrite app_nil_r in Hb. destruct r as [|c r].
    + destruct Hq as [->|(K & _)]; [|discriminate K]. apply InsideEnd_Break, Hk.
    + apply Break_app; [exact Hb|discriminate].
  - destruct Hk as [Hz [s ->]]. rewrite app_assoc. apply Break_app; [exact Hb|].
    intros E. apply app_eq_nil in E. destruct E as [_ ->].
    destruct Hz as [(w & _ & E)|E]; [destruct w; discriminate E|]. symmetry in E. revert E. apply Hww.
Qed.
Section Alternatives.
Variable n : nat.
Lemma assignment_miss : forall s, Uncommented s -> ~ StartsWith s $"${" ->
  variable_assignment C (V n) s = PFail.
Proof. intros s Hu Hs; unfold variable_assignment. unfold C at 1; cbn [variable_start standard]. rewrite (tok_miss _ _ Hu Hs). reflexivity. Qed.
Lemma access_miss0 : forall s, Uncommented s -> ~ StartsWith s $"${" -> access C (V n) s = PFail.
Proof. intros s Hu Hs; unfold access. unfold C at 1; cbn [variable_start standard]. rewrite (tok_miss _ _ Hu Hs). reflexivity. Qed.
Lemma access_miss : forall s, Uncommented s -> ~ StartsWith s $"${" -> variable_access C (V n) s = PFail.
Proof. intros s Hu Hs; unfold variable_access. rewrite access_miss0; auto. Qed.
Lemma path_access_miss : forall s, Uncommented s -> ~ StartsWith s $"${" ->
  wildcard_variable_access C (V n) s = PFail.
Proof. intros s Hu Hs; unfold wildcard_variable_access. rewrite access_miss0; auto. Qed.
Lemma wrap_miss : forall s, Uncommented s -> ~ StartsWith s $"%{" -> wrap_command C (V n) s = PFail.
Proof. intros s Hu Hs; unfold wrap_command. unfold C at 1; cbn [wrap_start standard]. rewrite (tok_miss _ _ Hu Hs). reflexivity. Qed.
Lemma variants_miss : forall s, Uncommented s -> ~ StartsWith s $"{" -> variants C (V n) s = PFail.
Proof. intros s Hu Hs; unfold variants. unfold C at 1; cbn [variant_start standard]. rewrite (tok_miss _ _ Hu Hs). reflexivity. Qed.
Lemma wildcard_miss : forall s, Uncommented s -> ~ StartsWith s ww -> wildcard alnum C (V n) (T n) s = PFail.
Proof. intros s Hu Hs; unfold wildcard. unfold C at 1; cbn [wildcard_wrap standard]. rewrite (tok_miss _ _ Hu Hs). reflexivity. Qed.

Definition chunk_at (p : place) : str -> pres command :=
  match p with
  | Top => chunk alnum C (V n) (T n)
  | Inside => variant_chunk alnum C (V n) (T n)
  | Path => wildcard_chunk C (V n)
  end.
Definition stop_at (p : place) : str -> bool :=
  match p with Path => at_paren | _ => never end.

Lemma via_variants : forall p s c k, Uncommented ($"{" ++ s) ->
  variants C (V n) ($"{" ++ s) = POk c k -> chunk_at p ($"{" ++ s) = POk c k.
Proof.
  intros p s c k Hu H. assert (H1 : ~ StartsWith ($"{" ++ s) $"${") by (apply head_miss; discriminate).
  assert (H2 : ~ StartsWith ($"{" ++ s) $"%{") by (apply head_miss; discriminate).
  destruct p; cbn [chunk_at]; unfold chunk, variant_chunk, wildcard_chunk, alt;
    rewrite ?assignment_miss, ?access_miss, ?path_access_miss, ?wrap_miss, H by assumption; reflexivity.
Qed.
Lemma via_access : forall p s c k, p <> Path -> Uncommented ($"${" ++ s) ->
  variable_assignment C (V n) ($"${" ++ s) = PFail ->
  variable_access C (V n) ($"${" ++ s) = POk c k -> chunk_at p ($"${" ++ s) = POk c k.
Proof.
  intros p s c k Hp Hu H1 H2. destruct p; [| |congruence]; cbn [chunk_at];
    unfold chunk, variant_chunk, alt; rewrite ?H1, H2; reflexivity.
Qed.
Lemma via_path_access : forall s c k,
  wildcard_variable_access C (V n) s = POk c k -> chunk_at Path s = POk c k.
Proof. intros s c k H; cbn [chunk_at]; unfold wildcard_chunk, alt. rewrite H. reflexivity. Qed.
Lemma via_assign : forall s c k,
  variable_assignment C (V n) s = POk c k -> chunk_at Top s = POk c k.
Proof. intros s c k H; cbn [chunk_at]; unfold chunk, alt. rewrite H. reflexivity. Qed.
Lemma via_wrap : forall p s c k, p <> Path -> Uncommented ($"%{" ++ s) ->
  wrap_command C (V n) ($"%{" ++ s) = POk c k -> chunk_at p ($"%{" ++ s) = POk c k.
Proof.
  intros p s c k Hp Hu H. assert (H1 : ~ StartsWith ($"%{" ++ s) $"${") by (apply head_miss; discriminate).
  destruct p; [| |congruence]; cbn [chunk_at]; unfold chunk, variant_chunk, alt;
    rewrite ?assignment_miss, ?access_miss, H by assumption; reflexivity.
Qed.

Lemma via_wildcard : forall p s c k, p <> Path -> Uncommented (ww ++ s) ->
  wildcard alnum C (V n) (T n) (ww ++ s) = POk c k -> chunk_at p (ww ++ s) = POk c k.
Proof.
  intros p s c k Hp Hu H.
  assert (H1 : ~ StartsWith (ww ++ s) $"${") by (apply ww_no; cbn; tauto).
  assert (H2 : ~ StartsWith (ww ++ s) $"%{") by (apply ww_no; cbn; tauto).
  assert (H3 : ~ StartsWith (ww ++ s) $"{") by (apply ww_no; cbn; tauto).
  destruct p; [| |congruence]; cbn [chunk_at]; unfold chunk, variant_chunk, alt;
    rewrite ?assignment_miss, ?access_miss, ?wrap_miss, ?variants_miss, H by assumption; reflexivity.
Qed.
Lemma Ordinary_head : forall p c s x t, Ordinary p c -> In x $"{$%" -> ~ StartsWith (c :: s) (x :: t).
Proof.
  intros p c s x t Hc Hx. apply head_miss. intros ->. destruct p; apply Hc; cbn in *; tauto.
Qed.
Lemma via_literal : forall p q t k, ReadAs p t q -> t <> [] -> Forall (Ordinary q) t ->
  NoWrapIn ww t k -> Break q k -> Uncommented (t ++ k) -> chunk_at p (t ++ k) = POk (Lit t None) k.
Proof.
  intros p q t k Hq Hne Ht Hn Hk Hu.
  pose proof (literal_sequence_hit q t k Hne Ht Hn Hk Hu) as HL.
  assert (Hw : ~ StartsWith (t ++ k) ww).
  { intros [x E]. specialize (Hn [] x E). destruct t; [congruence|cbn in Hn; lia]. }
  destruct t as [|c t]; [congruence|]. inversion Ht as [|? ? Hc Ht']; subst.
  cbn [app] in *.
  assert (H1 : ~ StartsWith (c :: t ++ k) $"${") by (eapply Ordinary_head; [exact Hc|cbn; tauto]).
  assert (H2 : ~ StartsWith (c :: t ++ k) $"%{") by (eapply Ordinary_head; [exact Hc|cbn; tauto]).
  assert (H3 : ~ StartsWith (c :: t ++ k) $"{") by (eapply Ordinary_head; [exact Hc|cbn; tauto]).
  destruct Hq as [->|(-> & -> & [x E])].
  - destruct p; cbn [chunk_at]; unfold chunk, variant_chunk, wildcard_chunk, alt;
      rewrite ?assignment_miss, ?access_miss, ?path_access_miss, ?wrap_miss, ?variants_miss,
        ?wildcard_miss by assumption; cbn [bad_at] in HL; rewrite HL; reflexivity.
  - cbn [chunk_at]. unfold wildcard_chunk, alt.
    rewrite path_access_miss, variants_miss by assumption.
    assert (HP : literal_sequence C (bad_at Path) (c :: t ++ k) = PFail).
    { apply literal_sequence_miss; [exact Hu|]. right; right. exists c, (t ++ k). split; [reflexivity|].
      injection E as -> _. cbn. tauto. }
    cbn [bad_at] in HL, HP. rewrite HP, HL. reflexivity.
Qed.

Lemma stop_many : forall p z k f, StopText p z k -> Uncommented k ->
  many_rounds (S f) (stop_at p) (chunk_at p) k = POk [] k.
Proof.
  intros p z k f Hk Hu. cbn [many_rounds].
  destruct (stop_at p k) eqn:Es; [reflexivity|].
  assert (E : chunk_at p k = PFail); [|rewrite E; reflexivity].
  pose proof (fun p => literal_sequence_miss p k Hu) as HL.
  destruct p; cbn [StopText chunk_at] in *.
  - destruct Hk as [_ ->]. unfold chunk, alt. specialize (HL Top). cbn [bad_at] in HL.
    assert (N : forall x y, ~ StartsWith [] (x :: y)) by (intros x y [q K]; discriminate).
    rewrite assignment_miss, access_miss, wrap_miss, variants_miss; auto; try apply N.
    rewrite wildcard_miss; [apply HL; left; reflexivity|exact Hu|].
    destruct ww_head as (c & r & -> & _). apply N.
  - destruct Hk as [_ Hk]. specialize (HL Inside (InsideEnd_Break k Hk)). cbn [bad_at] in HL.
    unfold variant_chunk, alt. rewrite access_miss, wrap_miss, variants_miss, wildcard_miss; auto.
    + intros [q K]. destruct Hk as [r Hk]. destruct ww_head as (c & w & Ew & Hc & _).
      rewrite Ew in K. destruct Hk as [->|[->| ->]]; injection K as K _; subst c; apply Hc; cbn; tauto.
    + destruct Hk as [r [->|[->| ->]]]; apply head_miss; discriminate.
    + destruct Hk as [r [->|[->| ->]]]; apply head_miss; discriminate.
    + destruct Hk as [r [->|[->| ->]]]; intros [q K]; discriminate.
  - destruct Hk as [[(w & Hw & ->)| ->] [r ->]].
    + exfalso. cbn [stop_at] in Es. unfold at_paren in Es. rewrite <- app_assoc in Es.
      rewrite drop_while_app_all in Es by apply Blanks_forallb, Hw. destruct r; discriminate Es.
    + unfold wildcard_chunk, alt.
      rewrite path_access_miss by (auto; apply ww_no; cbn; tauto).
      rewrite variants_miss by (auto; apply ww_no; cbn; tauto).
      assert (Hb : forall p, Break p (ww ++ r)) by (intros p; right; left; exists r; reflexivity).
      pose proof (HL Path (Hb Path)) as H1. pose proof (HL Inside (Hb Inside)) as H2.
      cbn [bad_at] in H1, H2. rewrite H1, H2. reflexivity.
Qed.
End Alternatives.

(** The beginning of an element. *)
Lemma paren_no : forall x s, ~ Blank x -> x <> 40%N -> at_paren (x :: s) = false.
Proof.
  intros x s Hx H40. unfold at_paren. cbn [drop_while]. destruct (blank x) eqn:E.
  - apply blank_spec in E. contradiction.
  - apply startswith_false, not_starts. exact H40.
Qed.
Lemma elem_paren : forall c t k, Elem ww Path c t -> at_paren (t ++ k) = false.
Proof.
  intros c t k H.
  assert (NB : forall x, In x $"{$%" -> ~ Blank x /\ x <> 40%N).
  { intros x Hx. unfold Blank. cbn in *. split; intuition congruence. }
  inversion H; subst; try (apply paren_no; apply NB; cbn; tauto); congruence.
Qed.
Lemma Break_nonblank : forall p k, Break p k -> ~ BlankStart k.
Proof.
  intros p k [->|[[r ->]|(c & r & -> & Hc)]] (x & s & E & Hx).
  - discriminate E.
  - destruct ww_head as (c & w & Ew & _ & Hb). rewrite Ew in E. injection E as -> _. contradiction.
  - injection E as -> _. apply Hc. unfold Blank in Hx. destruct p; cbn in *; intuition congruence.
Qed.
Lemma literal_paren : forall q t k, ReadAs Path t q -> t <> [] -> Forall (Ordinary q) t ->
  Break q k -> (Blanks t -> ~ StartsWith k $"(") -> at_paren (t ++ k) = false.
Proof.
  intros q t k Hq Hne Ht Hk Hb. unfold at_paren.
  destruct Hq as [->|(_ & -> & [x ->])].
  - clear Hne. induction t as [|y t IH].
    + cbn [app]. destruct k as [|c k]; [reflexivity|]. cbn [drop_while].
      destruct (blank c) eqn:E.
      * exfalso. apply (Break_nonblank Path _ Hk). exists c, k. split; [reflexivity|apply blank_spec, E].
      * apply startswith_false, Hb. constructor.
    + inversion Ht as [|? ? Hy Ht']; subst. cbn [app drop_while].
      destruct (blank y) eqn:E.
      * apply IH; [exact Ht'|]. intros Hb'. apply Hb. constructor; [apply blank_spec, E|exact Hb'].
      * apply startswith_false, not_starts. intros ->. apply Hy; cbn; tauto.
  - apply paren_no; [|discriminate]. unfold Blank. cbn. intuition discriminate.
Qed.
Lemma elem_nonempty : forall p c t, Elem ww p c t -> t <> [].
Proof.
  intros p c t H.
  assert (N : forall s, ww ++ s <> []).
  { intros s Es. apply app_eq_nil in Es. apply (proj1 Hww). apply Es. }
  destruct H; try discriminate; try assumption; apply N.
Qed.

(** Wraps do not reach beyond the end of a sequence. *)
Lemma wrap_cut : forall t r x v a b, ~ In x ww -> NoWrapIn ww t r ->
  t ++ r ++ x :: v = a ++ ww ++ b -> length t <= length a.
Proof.
  intros t r x v a b Hx Hn E. rewrite !app_assoc in E. apply app_split in E.
  destruct E as [(l & E1 & E2)|(l & E1 & E2)].
  - apply (Hn a l). rewrite app_assoc. exact E1.
  - destruct l as [|y l].
    + apply (Hn a []). rewrite app_nil_r in E1. rewrite app_nil_r. symmetry; exact E1.
    + assert (y = x) by (cbn in E2; congruence). subst y.
      apply app_split in E1. destruct E1 as [(l' & F1 & F2)|(l' & F1 & F2)].
      * rewrite F1, !app_length. lia.
      * exfalso; apply Hx. rewrite F2. apply in_or_app; right; left; reflexivity.
Qed.
Lemma ww_not : forall x, In x $"#{}$%|()~!@: " -> ~ In x ww.
Proof.
  intros x Hx Hin. destruct Hww as [_ Hf]. rewrite Forall_forall in Hf.
  apply Hf in Hin. tauto.
Qed.
Lemma NoWrapIn_stop : forall p z t r k, NoWrapIn ww t (r ++ z) -> StopText p z k ->
  NoWrapIn ww t (r ++ k).
Proof.
  intros p z t r k Hn Hk a b E. destruct p; cbn [StopText] in Hk.
  - destruct Hk as [-> ->]. apply (Hn a b E).
  - destruct Hk as [-> Hk]. rewrite app_nil_r in Hn. destruct Hk as [s [->|[->| ->]]]; (eapply wrap_cut; [|exact Hn|exact E]);
      apply ww_not; cbn; tauto.
  - destruct Hk as [[(w & _ & ->)| ->] [s ->]].
    + replace (t ++ r ++ (w ++ $"(") ++ s) with (t ++ (r ++ w) ++ 40%N :: s) in E by (rewrite <- !app_assoc; reflexivity).
      eapply wrap_cut; [|  |exact E]; [apply ww_not; cbn; tauto|].
      intros a' b' E'. apply (Hn a' (b' ++ $"(")). rewrite (app_assoc r), app_assoc, E', <- !app_assoc. reflexivity.
    + destruct (le_lt_dec (length t) (length a)) as [L|L]; [exact L|].
      replace (t ++ r ++ ww ++ s) with ((t ++ r ++ ww) ++ s) in E by (rewrite <- !app_assoc; reflexivity).
      rewrite (app_assoc a) in E. apply app_split in E. destruct E as [(l & E1 & E2)|(l & E1 & E2)].
      * apply (Hn a l). rewrite (app_assoc a). exact E1.
      * apply (f_equal (@length N)) in E1. rewrite !app_length in E1. lia.
Qed.

(** * Pieces of elements *)
Lemma NameText_start : forall x s, NameText x -> ~ BlankStart (x ++ s).
Proof.
  intros x s (c & r & -> & Hc & _). cbn [app]. apply head_not_blank. intros Hb.
  unfold NameStart, Letter in Hc. unfold Blank in Hb. cbn in Hb. intuition lia.
Qed.
Lemma BlankStart_app : forall t s, ~ BlankStart t -> ~ BlankStart s -> ~ BlankStart (t ++ s).
Proof.
  intros [|c t] s H1 H2; [exact H2|]. intros (x & r & E & Hx). injection E as <- _.
  apply H1. exists c, t; auto.
Qed.
Lemma cons_start : forall c s, In c $"}|$:?=!(" -> ~ BlankStart (c :: s).
Proof.
  intros c s Hc. apply head_not_blank. unfold Blank. cbn in *. intuition congruence.
Qed.
Lemma InsideEnd_start : forall k, InsideEnd k -> ~ BlankStart k.
Proof. intros k [r [->|[->| ->]]]; apply cons_start; cbn; tauto. Qed.

Lemma var_prefix : forall w1 x w2 c r, Blanks w1 -> NameText x -> Blanks w2 ->
  In c $"}:?=" -> Uncommented ($"${" ++ w1 ++ x ++ w2 ++ c :: r) ->
  tok (variable_start C) ($"${" ++ w1 ++ x ++ w2 ++ c :: r) = POk tt (w1 ++ x ++ w2 ++ c :: r) /\
  opt_ws (w1 ++ x ++ w2 ++ c :: r) = x ++ w2 ++ c :: r /\
  var_name (x ++ w2 ++ c :: r) = POk x (w2 ++ c :: r) /\
  opt_ws (w2 ++ c :: r) = c :: r.
Proof.
  intros w1 x w2 c r Hw1 Hx Hw2 Hc Hu.
  pose proof (Unc_r _ _ Hu) as Hu1. pose proof (Unc_r _ _ Hu1) as Hu2. pose proof (Unc_r _ _ Hu2) as Hu3.
  split; [apply tok_hit, Hu|]. split; [apply opt_ws_hit; auto; apply NameText_start, Hx|].
  split; [|apply opt_ws_hit; auto; apply cons_start; cbn in *; tauto].
  apply var_name_hit; auto. intros d s E Hd. unfold NameChar, NameStart, Letter in Hd.
  destruct w2 as [|y w2]; cbn in E; injection E as -> _.
  - cbn in Hc. intuition lia.
  - inversion Hw2 as [|? ? Hb _]; subst. unfold Blank in Hb. cbn in Hb. intuition lia.
Qed.

Section Pieces.
Variable n : nat.
Lemma access_plain : forall w1 x w2 k, Blanks w1 -> NameText x -> Blanks w2 ->
  Uncommented ($"${" ++ w1 ++ x ++ w2 ++ $"}" ++ k) ->
  access C (V n) ($"${" ++ w1 ++ x ++ w2 ++ $"}" ++ k) = POk (x, None) k.
Proof.
  intros w1 x w2 k Hw1 Hx Hw2 Hu.
  destruct (var_prefix w1 x w2 125%N k Hw1 Hx Hw2 ltac:(cbn; tauto) Hu) as (E1 & E2 & E3 & E4).
  change ($"}" ++ k) with (125%N :: k) in *. unfold access. rewrite E1, E2, E3, E4.
  assert (Hu4 : Uncommented (125%N :: k)) by (do 4 apply Unc_r in Hu; exact Hu).
  unfold popt. rewrite (tok_miss $":" _ Hu4) by (intros [q E]; discriminate E).
  rewrite (Unc_skip _ Hu4), (opt_ws_none _ Hu4) by (apply cons_start; cbn; tauto).
  change (125%N :: k) with (variable_end C ++ k) in *. rewrite (tok_hit _ _ Hu4). reflexivity.
Qed.
Lemma access_default : forall w1 x w2 w3 t c k, Blanks w1 -> NameText x -> Blanks w2 -> Blanks w3 ->
  ~ BlankStart t -> Uncommented ($"${" ++ w1 ++ x ++ w2 ++ $":" ++ w3 ++ t ++ $"}" ++ k) ->
  V n (t ++ $"}" ++ k) = POk c ($"}" ++ k) ->
  access C (V n) ($"${" ++ w1 ++ x ++ w2 ++ $":" ++ w3 ++ t ++ $"}" ++ k) = POk (x, Some c) k.
Proof.
  intros w1 x w2 w3 t c k Hw1 Hx Hw2 Hw3 Ht Hu HV.
  destruct (var_prefix w1 x w2 58%N (w3 ++ t ++ $"}" ++ k) Hw1 Hx Hw2 ltac:(cbn; tauto) Hu)
    as (E1 & E2 & E3 & E4).
  change ($":" ++ w3 ++ t ++ $"}" ++ k) with (58%N :: w3 ++ t ++ $"}" ++ k) in *.
  unfold access. rewrite E1, E2, E3, E4.
  assert (Hu4 : Uncommented ($":" ++ w3 ++ t ++ $"}" ++ k)) by (do 4 apply Unc_r in Hu; exact Hu).
  pose proof (Unc_r _ _ Hu4) as Hu5. pose proof (Unc_r _ _ (Unc_r _ _ Hu5)) as Hu6.
  unfold popt. change (58%N :: w3 ++ t ++ $"}" ++ k) with ($":" ++ w3 ++ t ++ $"}" ++ k).
  rewrite (tok_hit _ _ Hu4). rewrite (opt_ws_hit _ _ Hu5 Hw3), HV.
  - rewrite (opt_ws_none _ Hu6) by (apply cons_start; cbn; tauto).
    change ($"}" ++ k) with (variable_end C ++ k) in *. rewrite (tok_hit _ _ Hu6). reflexivity.
  - apply BlankStart_app; [exact Ht|apply cons_start; cbn; tauto].
Qed.

Lemma assignment_not : forall w1 x w2 c r, Blanks w1 -> NameText x -> Blanks w2 ->
  In c $"}:" -> Uncommented ($"${" ++ w1 ++ x ++ w2 ++ c :: r) ->
  variable_assignment C (V n) ($"${" ++ w1 ++ x ++ w2 ++ c :: r) = PFail.
Proof.
  intros w1 x w2 c r Hw1 Hx Hw2 Hc Hu.
  destruct (var_prefix w1 x w2 c r Hw1 Hx Hw2 ltac:(cbn in *; tauto) Hu) as (E1 & E2 & E3 & E4).
  unfold variable_assignment. rewrite E1, E2, E3, E4.
  assert (Hu4 : Uncommented (c :: r)) by (do 4 apply Unc_r in Hu; exact Hu).
  assert (N1 : c <> 63%N) by (cbn in Hc; intuition congruence).
  assert (N2 : c <> 61%N) by (cbn in Hc; intuition congruence).
  unfold popt. rewrite (tok_miss $"?" _ Hu4) by (apply not_starts, N1).
  rewrite (Unc_skip _ Hu4). rewrite (tok_miss $"=" _ Hu4) by (apply not_starts, N2). reflexivity.
Qed.

Lemma assignment_hit : forall w1 x w2 (preserve immediate : bool) w3 t c k,
  Blanks w1 -> NameText x -> Blanks w2 -> Blanks w3 -> ~ BlankStart t ->
  (immediate = false -> ~ StartsWith (w3 ++ t) $"!") ->
  Uncommented ($"${" ++ w1 ++ x ++ w2 ++ (if preserve then $"?" else []) ++ $"=" ++
       (if immediate then $"!" else []) ++ w3 ++ t ++ $"}" ++ k) ->
  V n (t ++ $"}" ++ k) = POk c ($"}" ++ k) ->
  variable_assignment C (V n) ($"${" ++ w1 ++ x ++ w2 ++ (if preserve then $"?" else []) ++ $"=" ++
       (if immediate then $"!" else []) ++ w3 ++ t ++ $"}" ++ k)
  = POk (Assign x c immediate (negb preserve)) k.
Proof.
  intros w1 x w2 preserve immediate w3 t c k Hw1 Hx Hw2 Hw3 Ht Hi Hu HV.
  set (tail := (if immediate then $"!" else []) ++ w3 ++ t ++ $"}" ++ k) in *.
  assert (Hh : exists d r, (if preserve then $"?" else []) ++ $"=" ++ tail = d :: r /\ In d $"?=").
  { destruct preserve; eexists; eexists; (split; [reflexivity|]); cbn; tauto. }
  destruct Hh as (d & r & Er & Hd). rewrite Er in Hu.
  destruct (var_prefix w1 x w2 d r Hw1 Hx Hw2 ltac:(cbn in *; tauto) Hu) as (E1 & E2 & E3 & E4).
  rewrite Er. unfold variable_assignment. rewrite E1, E2, E3, E4. rewrite <- Er in Hu |- *.
  do 4 apply Unc_r in Hu. pose proof (Unc_r _ _ Hu) as Hu1. pose proof (Unc_r _ _ Hu1) as Hu2.
  assert (Ep : popt (tok $"?") ((if preserve then $"?" else []) ++ $"=" ++ tail) =
          POk (if preserve then Some tt else None) ($"=" ++ tail)).
  { unfold popt. destruct preserve; [rewrite (tok_hit _ _ Hu); reflexivity|]. cbn [app].
    rewrite (tok_miss $"?" ($"=" ++ tail) Hu1) by (intros [q E]; discriminate E).
    rewrite (Unc_skip _ Hu1). reflexivity. }
  rewrite Ep, (tok_hit _ _ Hu1).
  pose proof (Unc_r _ _ Hu2) as Hu3. pose proof (Unc_r _ _ (Unc_r _ _ Hu3)) as Hu5.
  assert (Ei : popt (tok $"!") tail = POk (if immediate then Some tt else None) (w3 ++ t ++ $"}" ++ k)).
  { unfold popt, tail in *. destruct immediate; [rewrite (tok_hit _ _ Hu2); reflexivity|]. cbn [app].
    rewrite (tok_miss $"!" (w3 ++ t ++ $"}" ++ k) Hu3).
    - rewrite (Unc_skip _ Hu3). reflexivity.
    - intros [q E]. specialize (Hi eq_refl). rewrite app_assoc in E.
      destruct (w3 ++ t) as [|y l]; [discriminate E|]. injection E as -> _. apply Hi. exists l; reflexivity. }
  rewrite Ei, (opt_ws_hit _ _ Hu3 Hw3), HV.
  - rewrite (opt_ws_none _ Hu5) by (apply cons_start; cbn; tauto).
    change ($"}" ++ k) with (variable_end C ++ k) in *. rewrite (tok_hit _ _ Hu5).
    destruct preserve, immediate; reflexivity.
  - apply BlankStart_app; [exact Ht|apply cons_start; cbn; tauto].
Qed.

Lemma wrap_hit : forall w1 t1 c1 w2 t2 c2 k, Blanks w1 -> ~ BlankStart t1 -> Blanks w2 -> ~ BlankStart t2 ->
  Uncommented ($"%{" ++ w1 ++ t1 ++ $"$$" ++ w2 ++ t2 ++ $"}" ++ k) ->
  V n (t1 ++ $"$$" ++ w2 ++ t2 ++ $"}" ++ k) = POk c1 ($"$$" ++ w2 ++ t2 ++ $"}" ++ k) ->
  V n (t2 ++ $"}" ++ k) = POk c2 ($"}" ++ k) ->
  wrap_command C (V n) ($"%{" ++ w1 ++ t1 ++ $"$$" ++ w2 ++ t2 ++ $"}" ++ k) = POk (Wrap c1 c2 None) k.
Proof.
  intros w1 t1 c1 w2 t2 c2 k Hw1 Ht1 Hw2 Ht2 Hu HV1 HV2.
  unfold wrap_command. change (wrap_start C) with $"%{". rewrite (tok_hit _ _ Hu).
  pose proof (Unc_r _ _ Hu) as Hu1. pose proof (Unc_r _ _ (Unc_r _ _ Hu1)) as Hu2.
  pose proof (Unc_r _ _ Hu2) as Hu3. pose proof (Unc_r _ _ (Unc_r _ _ Hu3)) as Hu4.
  rewrite (opt_ws_hit _ _ Hu1 Hw1), HV1 by (apply BlankStart_app; [exact Ht1|apply cons_start; cbn; tauto]).
  rewrite (opt_ws_none _ Hu2) by (apply cons_start; cbn; tauto). rewrite (tok_hit _ _ Hu2).
  rewrite (opt_ws_hit _ _ Hu3 Hw2), HV2 by (apply BlankStart_app; [exact Ht2|apply cons_start; cbn; tauto]).
  change ($"}" ++ k) with (wrap_end C ++ k) in *. rewrite (tok_hit _ _ Hu4). reflexivity.
Qed.

(** Options. *)
Lemma Weight_start : forall wt q s, WeightText wt q -> ~ BlankStart (wt ++ s).
Proof.
  assert (D : forall ds n s, Numeral ds n -> ~ BlankStart (ds ++ s)).
  { intros ds m s H. apply numeral_head in H. destruct H as (d & r & -> & Hd).
    apply head_not_blank. apply is_digit_spec in Hd. unfold Blank. cbn. intuition lia. }
  intros wt q s [ds m Hn|sign neg ip fp m q0 Hs Hn Hq]; [eapply D; eassumption|].
  assert (Dot : forall r, ~ BlankStart (46%N :: r)).
  { intros r; apply head_not_blank; unfold Blank; cbn; intuition discriminate. }
  destruct Hs as [[-> _]|[[-> _]|[-> _]]].
  - cbn [app]. rewrite <- !app_assoc. destruct ip as [|d ip]; [apply Dot|].
    apply numeral_head in Hn. destruct Hn as (d' & r & E & Hd). cbn in E. injection E as <- _.
    apply head_not_blank. apply is_digit_spec in Hd. unfold Blank. cbn. intuition lia.
  - apply head_not_blank; unfold Blank; cbn; intuition discriminate.
  - apply head_not_blank; unfold Blank; cbn; intuition discriminate.
Qed.
Lemma option_weighted : forall w wt q t c k, Blanks w -> WeightText wt q -> InsideEnd k ->
  Uncommented (w ++ wt ++ $"::" ++ t ++ k) -> V n (t ++ k) = POk c k ->
  variant (V n) (w ++ wt ++ $"::" ++ t ++ k) = POk (c, q) k.
Proof.
  intros w wt q t c k Hw Hwt Hk Hu HV. unfold variant.
  pose proof (Unc_r _ _ Hu) as Hu1. do 3 apply Unc_r in Hu1.
  rewrite (opt_ws_hit _ _ Hu Hw) by (eapply Weight_start; eassumption).
  unfold popt. rewrite (weight_hit _ _ _ Hwt (Unc_r _ _ Hu)), HV.
  rewrite (opt_ws_none _ Hu1) by (apply InsideEnd_start, Hk). reflexivity.
Qed.
Lemma option_plain : forall w t c k, Blanks w -> ~ BlankStart t ->
  (forall wt q r, WeightText wt q -> t <> wt ++ $"::" ++ r) -> InsideEnd k ->
  Uncommented (w ++ t ++ k) -> V n (t ++ k) = POk c k ->
  variant (V n) (w ++ t ++ k) = POk (c, 1%Qc) k.
Proof.
  intros w t c k Hw Ht Hnw Hk Hu HV. unfold variant.
  pose proof (Unc_r _ _ Hu) as Hu1. pose proof (Unc_r _ _ Hu1) as Hu2.
  rewrite (opt_ws_hit _ _ Hu Hw) by (apply BlankStart_app; [exact Ht|apply InsideEnd_start, Hk]).
  unfold popt. rewrite (weight_miss t k Hu1 Hnw).
  - rewrite (Unc_skip _ Hu1), HV.
    rewrite (opt_ws_none _ Hu2) by (apply InsideEnd_start, Hk). reflexivity.
  - intros d r E. destruct Hk as [x [->|[->| ->]]]; injection E as <- _; cbn; tauto.
Qed.

(** Variants. *)
Definition bar (s : str) : pres (command * Qc) := let! (_, s) := tok $"|" s in variant (V n) s.
Definition OptionsHit (vs : list (command * Qc)) (o k : str) : Prop :=
  exists v vs' s1, vs = v :: vs' /\ variant (V n) (o ++ $"}" ++ k) = POk v s1 /\
    length s1 <= length (o ++ $"}" ++ k) /\
    forall f, length s1 < f -> many_rounds f never bar s1 = POk vs' ($"}" ++ k).
Lemma BoundsText_head : forall count o bt lo hi sep, BoundsText count o bt lo hi sep ->
  bt = [] \/ exists c r, bt = c :: r /\ ~ Blank c /\ ~ In c $"~!@".
Proof.
  intros count o bt lo hi sep H.
  assert (B : forall b l h s, BoundText count b l h -> exists c r, b ++ s = c :: r /\ ~ Blank c /\ ~ In c $"~!@").
  { assert (D : forall d, is_digit d = true -> ~ Blank d /\ ~ In d $"~!@").
    { intros d Hd. apply is_digit_spec in Hd. unfold Blank. cbn. split; intuition lia. }
    intros b l h s Hb. destruct Hb as [ds m Hn|ds m es m' Hn Hm|es m Hn|ds m Hn];
      try (destruct (numeral_head _ _ Hn) as (d & r & -> & Hd); eexists; eexists; (split; [reflexivity|]); apply D, Hd).
    eexists; eexists; (split; [reflexivity|]). unfold Blank; cbn. split; intuition discriminate. }
  destruct H; [left; reflexivity|right; eapply B; eassumption..].
Qed.
Lemma bounds_nonneg : forall count o bt lo hi sep, BoundsText count o bt lo hi sep -> (0 <= lo /\ 0 <= hi)%Z.
Proof.
  intros count o bt lo hi sep H.
  assert (B : forall b l h, BoundText count b l h -> (0 <= l /\ 0 <= h)%Z).
  { intros b l h Hb; destruct Hb; lia. }
  destruct H; [lia|eapply B; eassumption..].
Qed.
Lemma variants_hit : forall w mark m bt lo hi sep vs o k,
  Blanks w -> MarkText mark m -> BoundsText (length vs) o bt lo hi sep ->
  (m = None -> bt = [] -> ~ MarkStart o /\ ~ BlankStart o) ->
  Uncommented ($"{" ++ w ++ mark ++ bt ++ o ++ $"}" ++ k) -> OptionsHit vs o k ->
  variants C (V n) ($"{" ++ w ++ mark ++ bt ++ o ++ $"}" ++ k) =
    POk (Var vs (Z.min lo hi) (Z.max lo hi) sep m) k.
Proof.
  intros w mark m bt lo hi sep vs o k Hw Hm Hb Hns Hu (v & vs' & s1 & Evs & Hv & Hl & Hmany).
  unfold variants. change (variant_start C) with $"{". rewrite (tok_hit _ _ Hu).
  pose proof (Unc_r _ _ Hu) as Hu1. pose proof (Unc_r _ _ Hu1) as Hu2.
  pose proof (Unc_r _ _ Hu2) as Hu3. pose proof (Unc_r _ _ Hu3) as Huo.
  assert (Hrest : m = None -> ~ MarkStart (bt ++ o ++ $"}" ++ k) /\ ~ BlankStart (bt ++ o ++ $"}" ++ k)).
  { intros Em. destruct (BoundsText_head _ _ _ _ _ _ Hb) as [->|(c & r & -> & Hc1 & Hc2)].
    - destruct (Hns Em eq_refl) as [K1 K2]. cbn [app]. destruct o as [|y o]; cbn [app].
      + split; intros (x & r & E & Hx); injection E as <- _; unfold Blank in *; cbn in Hx; intuition discriminate.
      + split; intros (x & r & E & Hx); injection E as <- _; [apply K1|apply K2]; exists y, o; auto.
    - cbn [app]. split; intros (x & q & E & Hx); injection E as <- _; contradiction. }
  assert (Ews : opt_ws (w ++ mark ++ bt ++ o ++ $"}" ++ k) = mark ++ bt ++ o ++ $"}" ++ k).
  { apply opt_ws_hit; auto. destruct Hm; cbn [app];
      [apply Hrest; reflexivity|apply head_not_blank; unfold Blank; cbn; intuition discriminate..]. }
  rewrite Ews, (sampler_hit mark m _ Hm Hu2) by (intros E; apply Hrest, E).
  destruct (bounds_hit (length vs) o bt lo hi sep k Hb Hu3) as (b & s' & Eb & Es' & Ebo).
  rewrite Eb, Es'.
  assert (Evar : variant (V n) (opt_ws (o ++ $"}" ++ k)) = POk v s1).
  { unfold variant in *. rewrite (opt_ws_idem _ Huo). exact Hv. }
  unfold variants_list. rewrite Evar. unfold many. fold bar.
  rewrite (Hmany (S (length s1)) (le_n _)).
  assert (Hue : Uncommented ($"}" ++ k)) by (apply Unc_r in Huo; exact Huo).
  rewrite (opt_ws_none _ Hue) by (apply cons_start; cbn; tauto).
  change (variant_end C) with $"}". rewrite (tok_hit _ _ Hue).
  rewrite <- Evs, Ebo. unfold mk_variant, post_init_bounds.
  destruct (bounds_nonneg _ _ _ _ _ _ Hb) as [L1 L2].
  destruct (Z.leb_spec lo hi); do 2 f_equal; lia.
Qed.

(** Wildcards. *)
Lemma path_hit : forall c path, PathOf c path ->
  match c with Lit t _ => WStr t | _ => WCmd c end = path.
Proof.
  intros c path [t|c' Hc]; [reflexivity|]. destruct c'; try reflexivity.
  exfalso; apply Hc. do 2 eexists; reflexivity.
Qed.
Lemma together_hit : forall cs c, Together cs c -> sequence_or_single cs = c.
Proof.
  intros cs c [c'|cs' H]; [reflexivity|]. destruct cs' as [|x [|y cs']]; try reflexivity.
  exfalso; apply H; reflexivity.
Qed.
Lemma MarkStart_app : forall t s, t <> [] -> ~ MarkStart t -> ~ MarkStart (t ++ s).
Proof.
  intros [|c t] s Hne H; [congruence|]. intros (x & r & E & Hx). injection E as <- _.
  apply H. exists c, t; auto.
Qed.
Lemma wildcard_path : forall mark m cs c path t z k,
  MarkText mark m -> cs <> [] -> t <> [] -> Together cs c -> PathOf c path ->
  (m = None -> ~ MarkStart t) -> Uncommented (ww ++ mark ++ t ++ z ++ k) ->
  many_rounds (S (length (t ++ z ++ k))) at_paren (wildcard_chunk C (V n)) (t ++ z ++ k) = POk cs (z ++ k) ->
  wildcard alnum C (V n) (T n) (ww ++ mark ++ t ++ z ++ k) =
  (let! (spec, s) := popt variable_spec (z ++ k) in
   let! (_, s) := tok ww s in
   let! (vars, _s) :=
     match spec with
     | Some t => spec_pairs alnum (T n) (split_char 44 t) []
     | None => POk [] []
     end in
   POk (Wild path m vars) s).
Proof.
  intros mark m cs c path t z k Hm Hcs Ht Htog Hp Hns Hu Hmany.
  unfold wildcard. change (wildcard_wrap C) with ww. rewrite (tok_hit _ _ Hu).
  pose proof (Unc_r _ _ Hu) as Hu1. pose proof (Unc_r _ _ Hu1) as Hu2.
  rewrite (sampler_hit mark m _ Hm Hu1) by (intros E; apply MarkStart_app; auto).
  unfold wildcard_prompt, many1, many. rewrite (Unc_skip _ Hu2), Hmany.
  destruct cs as [|x cs]; [congruence|]. rewrite (together_hit _ _ Htog), (path_hit _ _ Hp). reflexivity.
Qed.
Lemma wildcard_plain : forall mark m cs c path t k,
  MarkText mark m -> cs <> [] -> t <> [] -> Together cs c -> PathOf c path ->
  (m = None -> ~ MarkStart t) -> Uncommented (ww ++ mark ++ t ++ ww ++ k) ->
  many_rounds (S (length (t ++ ww ++ k))) at_paren (wildcard_chunk C (V n)) (t ++ ww ++ k) = POk cs (ww ++ k) ->
  wildcard alnum C (V n) (T n) (ww ++ mark ++ t ++ ww ++ k) = POk (Wild path m []) k.
Proof.
  intros mark m cs c path t k Hm Hcs Ht Htog Hp Hns Hu Hmany.
  rewrite (wildcard_path mark m cs c path t ww k) by assumption.
  assert (Hu3 : Uncommented (ww ++ k)) by (do 3 apply Unc_r in Hu; exact Hu).
  unfold popt, variable_spec. rewrite (opt_ws_none _ Hu3).
  - rewrite (tok_miss $"(" _ Hu3) by (apply ww_no; cbn; tauto).
    rewrite (Unc_skip _ Hu3), (tok_hit _ _ Hu3). reflexivity.
  - destruct ww_head as (x & r & -> & _ & Hx). apply head_not_blank, Hx.
Qed.
Lemma wildcard_vars : forall mark m cs c path t w vt vars k,
  MarkText mark m -> cs <> [] -> t <> [] -> Blanks w -> Together cs c -> PathOf c path ->
  (m = None -> ~ MarkStart t) -> Uncommented (ww ++ mark ++ t ++ w ++ $"(" ++ vt ++ $")" ++ ww ++ k) ->
  many_rounds (S (length (t ++ w ++ $"(" ++ vt ++ $")" ++ ww ++ k))) at_paren (wildcard_chunk C (V n))
    (t ++ w ++ $"(" ++ vt ++ $")" ++ ww ++ k) = POk cs (w ++ $"(" ++ vt ++ $")" ++ ww ++ k) ->
  vt <> [] -> ~ In 41%N vt -> spec_pairs alnum (T n) (split_char 44 vt) [] = POk vars [] ->
  wildcard alnum C (V n) (T n) (ww ++ mark ++ t ++ w ++ $"(" ++ vt ++ $")" ++ ww ++ k) = POk (Wild path m vars) k.
Proof.
  intros mark m cs c path t w vt vars k Hm Hcs Ht Hw Htog Hp Hns Hu Hmany Hvt Hpar Hsp.
  rewrite (wildcard_path mark m cs c path t w ($"(" ++ vt ++ $")" ++ ww ++ k)) by assumption.
  assert (Hu3 : Uncommented (w ++ $"(" ++ vt ++ $")" ++ ww ++ k)) by (do 3 apply Unc_r in Hu; exact Hu).
  pose proof (Unc_r _ _ Hu3) as Hu3'. pose proof (Unc_r _ _ Hu3') as Hu4.
  pose proof (Unc_r _ _ Hu4) as Hu5. pose proof (Unc_r _ _ Hu5) as Hu6.
  assert (Ev : variable_spec (w ++ $"(" ++ vt ++ $")" ++ ww ++ k) = POk vt (ww ++ k)).
  { unfold variable_spec. rewrite (opt_ws_hit _ _ Hu3 Hw) by (apply cons_start; cbn; tauto).
    rewrite (tok_hit _ _ Hu3'), (Unc_skip _ Hu4).
    destruct (while_hit not_paren vt ($")" ++ ww ++ k)) as [E1 E2].
    - apply forallb_forall. intros x Hx. unfold not_paren. apply negb_true_iff, N.eqb_neq.
      intros ->; contradiction.
    - intros x r E. injection E as <- _. reflexivity.
    - rewrite E1, E2. destruct vt as [|x vt]; [congruence|]. rewrite (tok_hit _ _ Hu5). reflexivity. }
  unfold popt. rewrite Ev, (tok_hit _ _ Hu6), Hsp. reflexivity.
Qed.
End Pieces.

(** * Variables of wildcards *)
Lemma split_char_one : forall sep t cur, ~ In sep t -> split_char_aux sep cur t = [rev cur ++ t].
Proof.
  intros sep; induction t as [|c t IH]; intros cur H; cbn [split_char_aux]; [rewrite app_nil_r; reflexivity|].
  destruct (N.eqb_spec c sep) as [->|_]; [exfalso; apply H; left; reflexivity|].
  rewrite IH by (intros K; apply H; right; exact K). cbn [rev]. rewrite <- app_assoc. reflexivity.
Qed.
Lemma split_char_more : forall sep t r cur, ~ In sep t ->
  split_char_aux sep cur (t ++ sep :: r) = (rev cur ++ t) :: split_char_aux sep [] r.
Proof.
  intros sep; induction t as [|c t IH]; intros r cur H; cbn [app split_char_aux].
  - rewrite N.eqb_refl, app_nil_r. reflexivity.
  - destruct (N.eqb_spec c sep) as [->|_]; [exfalso; apply H; left; reflexivity|].
    rewrite IH by (intros K; apply H; right; exact K). cbn [rev]. rewrite <- app_assoc. reflexivity.
Qed.
Definition set_all (pairs : list (str * command)) (d : list (str * command)) :=
  fold_left (fun d p => dict_set (fst p) (snd p) d) pairs d.
Lemma In_map_key : forall (x : str) (c : command) l, In (x, c) l -> In x (map fst l).
Proof. intros x c l H. change x with (fst (x, c)). apply in_map, H. Qed.
Lemma dict_keys_nodup : forall (d : list (str * command)), dict_sorted d -> NoDup (map fst d).
Proof.
  intros d H. induction H as [|x l Hs IH Hf]; cbn [map]; constructor; [|exact IH].
  intros K. apply in_map_iff in K. destruct K as (y & E & Hy). rewrite Forall_forall in Hf.
  apply Hf in Hy. destruct Hy as [_ K]. congruence.
Qed.
Lemma set_all_sorted : forall pairs d, dict_sorted d -> dict_sorted (set_all pairs d).
Proof.
  induction pairs as [|[k v] pairs IH]; intros d Hd; cbn [set_all fold_left fst snd]; [exact Hd|].
  apply IH, dict_set_sorted, Hd.
Qed.
Lemma dict_set_In : forall (k : str) (v : command) d x c, dict_sorted d ->
  In (x, c) (dict_set k v d) <-> (x = k /\ c = v) \/ (x <> k /\ In (x, c) d).
Proof.
  intros k v d x c Hd. induction Hd as [|[k' v'] d Hd IH Hf]; cbn [dict_set].
  - cbn. split; [intros [E|[]]; injection E as <- <-; auto|intros [[-> ->]|[_ []]]; auto].
  - destruct (str_eqb_spec k k') as [<-|Hn].
    + assert (Hk : forall y, In (k, y) d -> False).
      { intros y Hy. rewrite Forall_forall in Hf. apply Hf in Hy. destruct Hy as [_ K]. apply K; reflexivity. }
      cbn. split.
      * intros [E|Hin]; [injection E as <- <-; auto|]. right. split; [|auto].
        intros ->. exact (Hk _ Hin).
      * intros [[-> ->]|(Hx & [E|Hin])]; [auto| |auto]. injection E as <- _. congruence.
    + destruct (str_leb k k') eqn:El.
      * cbn [In]. split.
        -- intros [E|[E|Hin]].
           ++ injection E as <- <-; auto.
           ++ injection E as <- <-. right; split; [congruence|auto].
           ++ right. split; [|auto]. intros ->. rewrite Forall_forall in Hf. apply Hf in Hin.
              destruct Hin as [L K]. cbn in L, K. apply K. apply str_leb_antisym; assumption.
        -- intros [[-> ->]|(Hx & H)]; auto.
      * cbn [In]. rewrite IH. split.
        -- intros [E|[H|[H1 H2]]]; [injection E as <- <-|auto|auto]. right; split; [congruence|auto].
        -- intros [H|(Hx & [H|H])]; auto.
Qed.
Lemma set_all_In : forall pairs d x c, dict_sorted d ->
  (In (x, c) (set_all pairs d) <->
   LastGiven pairs x c \/ (~ In x (map fst pairs) /\ In (x, c) d)).
Proof.
  induction pairs as [|[k v] pairs IH]; intros d x c Hd; cbn [set_all fold_left fst snd].
  - split; [intros H; right; split; [intros []|exact H]|].
    intros [(a & b & E & _)|[_ H]]; [destruct a; discriminate E|exact H].
  - fold (set_all pairs (dict_set k v d)). rewrite (IH (dict_set k v d) x c) by (apply dict_set_sorted, Hd).
    rewrite dict_set_In by exact Hd. cbn [map fst In]. split.
    + intros [(a & b & -> & Hb)|(Hni & [[-> ->]|(Hx & Hin)])].
      * left. exists ((k, v) :: a), b. auto.
      * left. exists [], pairs. auto.
      * right. split; [|exact Hin]. intros [E|K]; [congruence|contradiction].
    + intros [(a & b & E & Hb)|(Hni & Hin)].
      * destruct a as [|y a]; cbn in E; injection E as E1 E2.
        -- subst. right. split; [exact Hb|]. left; auto.
        -- subst. left. exists a, b. auto.
      * right. split; [intros K; apply Hni; auto|]. right. split; [intros ->; apply Hni; auto|exact Hin].
Qed.
Lemma sorted_same : forall (d e : list (str * command)), dict_sorted d -> dict_sorted e ->
  Permutation d e -> d = e.
Proof.
  induction d as [|x d IH]; intros e Hd He Hp.
  - apply Permutation_nil in Hp. congruence.
  - destruct e as [|y e]; [apply Permutation_sym, Permutation_nil in Hp; discriminate|].
    inversion Hd as [|? ? Hd1 Hd2]; subst. inversion He as [|? ? He1 He2]; subst.
    assert (x = y).
    { assert (Hx : In x (y :: e)) by (eapply Permutation_in; [exact Hp|left; reflexivity]).
      assert (Hy : In y (x :: d)) by (eapply Permutation_in; [apply Permutation_sym, Hp|left; reflexivity]).
      destruct Hx as [->|Hx]; [reflexivity|]. destruct Hy as [->|Hy]; [reflexivity|].
      rewrite Forall_forall in Hd2, He2. apply Hd2 in Hy. apply He2 in Hx.
      destruct (str_lt_trans _ _ _ Hx Hy) as [_ K]. congruence. }
    subst y. f_equal. apply IH; auto. eapply Permutation_cons_inv; exact Hp.
Qed.
Lemma NoDup_keys : forall (l : list (str * command)), NoDup (map fst l) -> NoDup l.
Proof. intros l H. eapply NoDup_map_inv; exact H. Qed.
Lemma same_variables : forall pairs vars, SameVariables pairs vars <-> set_all pairs [] = vars.
Proof.
  intros pairs vars.
  assert (Hs : dict_sorted (set_all pairs [])) by (apply set_all_sorted; constructor).
  assert (Hin : forall x c, In (x, c) (set_all pairs []) <-> LastGiven pairs x c).
  { intros x c. rewrite set_all_In by constructor. cbn. tauto. }
  split.
  - intros (Hn & Hso & Hv). apply sorted_same; [exact Hs| |].
    + clear - Hso Hn. induction Hso as [|x l Hs IH Hf]; [constructor|]. cbn in Hn.
      inversion Hn as [|? ? H1 H2]; subst. constructor; [apply IH, H2|].
      rewrite Forall_forall in *. intros y Hy. split; [apply str_leb_TextLe, Hf, Hy|].
      intros E. apply H1. rewrite E. apply in_map, Hy.
    + apply NoDup_Permutation; [apply NoDup_keys, dict_keys_nodup, Hs|apply NoDup_keys, Hn|].
      intros [x c]. rewrite Hin, Hv. reflexivity.
  - intros <-. split; [apply dict_keys_nodup, Hs|]. split; [|exact Hin].
    clear - Hs. induction Hs as [|x l Hs IH Hf]; constructor; [exact IH|].
    eapply Forall_impl; [|exact Hf]. intros y [L _]. apply str_leb_TextLe, L.
Qed.

(** * Written templates parse back *)
Hypothesis Hal : LettersAndDigits C alnum.
Lemma standard_marks : Marks C.
Proof. repeat split; try discriminate. apply Hww. Qed.

Definition PElem p c t := forall n k, length t <= n -> Uncommented (t ++ k) ->
  chunk_at n p (t ++ k) = POk c k.
Definition PElems p z cs t := forall n k f, length t <= n -> length t < f -> Uncommented (t ++ k) ->
  StopText p z k -> many_rounds f (stop_at p) (chunk_at n p) (t ++ k) = POk cs k.
Definition PPrompt p c t :=
  match p with
  | Inside => forall n k, length t < n -> Uncommented (t ++ k) -> InsideEnd k -> V n (t ++ k) = POk c k
  | Top => forall n, length t <= n -> Uncommented t -> grammar_body alnum C (V n) (T n) t = POk c []
  | Path => True
  end.
Definition POptions vs o := forall n k, length o < n -> Uncommented (o ++ $"}" ++ k) -> OptionsHit n vs o k.
Definition POption v t := forall n k, length t < n -> Uncommented (t ++ k) -> InsideEnd k ->
  variant (V n) (t ++ k) = POk v k.
Definition PVariables pairs vt := ~ In 41%N vt /\
  forall n d, length vt < n -> Uncommented vt ->
  spec_pairs alnum (T n) (split_char 44 vt) d = POk (set_all pairs d) [].
Definition PVariable x c t := ~ In 41%N t /\ ~ In 44%N t /\
  forall n l d, length t < n -> Uncommented t ->
  spec_pairs alnum (T n) (t :: l) d = spec_pairs alnum (T n) l (dict_set x c d).

Lemma end_brace : forall k, InsideEnd ($"}" ++ k).
Proof. intros k; exists k; auto. Qed.
Lemma end_bar : forall k, InsideEnd ($"|" ++ k).
Proof. intros k; exists k; auto. Qed.
Lemma end_dollars : forall k, InsideEnd ($"$$" ++ k).
Proof. intros k; exists k; auto. Qed.

Lemma NameText_no : forall x c, NameText x -> ~ NameChar c -> ~ In c x.
Proof.
  intros x c Hx Hc Hin. apply NameText_chars in Hx. rewrite forallb_forall in Hx.
  apply Hx, name_char_spec in Hin. contradiction.
Qed.
Lemma NameText_strip : forall x, NameText x -> strip x = x.
Proof.
  intros x Hx. apply NameText_chars in Hx. rewrite forallb_forall in Hx.
  assert (K : forall c, In c x -> ~ Space c).
  { intros c Hc Hs. apply Hx, name_char_spec in Hc. unfold NameChar, NameStart, Letter in Hc.
    unfold Space in Hs. cbn in Hs. repeat (destruct Hs as [<-|Hs]; [lia|]). exact Hs. }
  apply Trimmed_strip. exists [], []. rewrite app_nil_r. repeat split; auto.
  - intros c t' ->. apply K. left; reflexivity.
  - intros c t' ->. apply K. apply in_or_app; right; left; reflexivity.
Qed.

Lemma partition_hit : forall kt vt, ~ In 61%N kt -> partition_eq (kt ++ $"=" ++ vt) = (kt, vt).
Proof.
  intros kt vt H. unfold partition_eq.
  destruct (while_hit (fun c => negb (N.eqb c 61)) kt ($"=" ++ vt)) as [E1 E2].
  - apply forallb_forall. intros y Hy. apply negb_true_iff, N.eqb_neq. intros ->. contradiction.
  - intros y r E. injection E as <- _. reflexivity.
  - rewrite E1, E2. reflexivity.
Qed.
Lemma partition_none : forall kt, ~ In 61%N kt -> partition_eq kt = (kt, []).
Proof.
  intros kt H. unfold partition_eq.
  destruct (while_hit (fun c => negb (N.eqb c 61)) kt []) as [E1 E2].
  - apply forallb_forall. intros y Hy. apply negb_true_iff, N.eqb_neq. intros ->. contradiction.
  - discriminate.
  - rewrite app_nil_r in E1, E2. rewrite E1, E2. reflexivity.
Qed.
Lemma spec_value_hit : forall n t c, grammar_body alnum C (V n) (T n) t = POk c [] ->
  spec_value alnum (T (S n)) t = POk c [].
Proof.
  intros n t c IH. unfold spec_value, T. destruct (isalnum alnum t) eqn:Ea.
  - destruct (alnum_plain alnum C Hal t Ea) as (P1 & P2 & P3).
    rewrite (plain_grammar alnum C standard_marks _ _ t P1 P2 P3) in IH. exact IH.
  - rewrite parse_depth_S. unfold parse_body. rewrite Ea. exact IH.
Qed.
Lemma elems_nonempty : forall p z cs t, Elems ww p z cs t -> cs <> [] -> t <> [].
Proof.
  intros p z cs t H Hcs. destruct H; [congruence| |]; intros E; apply app_eq_nil in E; destruct E as [E _].
  - revert E. eapply elem_nonempty; eassumption.
  - contradiction.
Qed.

Lemma Written_parse :
  (forall p c t, Elem ww p c t -> PElem p c t) /\
  (forall p z cs t, Elems ww p z cs t -> PElems p z cs t) /\
  (forall p c t, Prompt ww p c t -> PPrompt p c t) /\
  (forall vs o, Options ww vs o -> POptions vs o) /\
  (forall v t, Option ww v t -> POption v t) /\
  (forall vs t, Variables ww vs t -> PVariables vs t) /\
  (forall x c t, Variable_ ww x c t -> PVariable x c t).
Proof.
  apply Written_mut.
  - (* variants *)
    intros p w mark m bt lo hi sep vs o Hw Hm Hb Ho IH Hns n k Hn Hu.
    rewrite <- !app_assoc in *. apply via_variants; [exact Hu|].
    apply variants_hit; auto. apply IH.
    + rewrite !app_length in Hn. cbn in Hn. lia.
    + do 4 apply Unc_r in Hu. exact Hu.
  - (* access *)
    intros p w1 x w2 Hp Hw1 Hx Hw2 n k Hn Hu. rewrite <- !app_assoc in *.
    apply via_access; auto.
    + apply assignment_not; auto. cbn; tauto.
    + unfold variable_access. rewrite access_plain by assumption. reflexivity.
  - (* access with default *)
    intros p w1 x w2 w3 c t Hp Hw1 Hx Hw2 Hw3 Ht IH Hbs n k Hn Hu. rewrite <- !app_assoc in *.
    apply via_access; auto.
    + apply assignment_not; auto. cbn; tauto.
    + unfold variable_access. rewrite access_default with (c := c); auto.
      apply IH; [rewrite !app_length in Hn; cbn in Hn; lia| |apply end_brace].
      do 6 apply Unc_r in Hu. exact Hu.
  - (* access in a path *)
    intros w1 x w2 Hw1 Hx Hw2 n k Hn Hu. rewrite <- !app_assoc in *.
    apply via_path_access. unfold wildcard_variable_access.
    rewrite access_plain by assumption. rewrite NameText_strip by exact Hx. reflexivity.
  - (* access with default in a path *)
    intros w1 x w2 w3 t d Hw1 Hx Hw2 Hw3 Ht IH Hbs Hd n k Hn Hu. rewrite <- !app_assoc in *.
    apply via_path_access. unfold wildcard_variable_access.
    rewrite access_default with (c := Lit t None); auto.
    + cbn [truthy]. rewrite (Trimmed_strip t d Hd). reflexivity.
    + apply IH; [rewrite !app_length in Hn; cbn in Hn; lia| |apply end_brace].
      do 6 apply Unc_r in Hu. exact Hu.
  - (* access with empty default in a path *)
    intros w1 x w2 w3 Hw1 Hx Hw2 Hw3 n k Hn Hu. rewrite <- !app_assoc in *.
    apply via_path_access. unfold wildcard_variable_access.
    change ($"${" ++ w1 ++ x ++ w2 ++ $":" ++ w3 ++ $"}" ++ k)
      with ($"${" ++ w1 ++ x ++ w2 ++ $":" ++ w3 ++ [] ++ $"}" ++ k).
    rewrite (access_default n w1 x w2 w3 [] (Seq [] [] None) k); auto.
    + cbn [truthy]. rewrite NameText_strip by exact Hx. reflexivity.
    + intros (y & r & E & _). discriminate E.
    + cbn [app]. destruct n as [|n]; [rewrite !app_length in Hn; cbn in Hn; lia|].
      unfold V. rewrite variant_prompt_S. unfold variant_prompt_body, many.
      do 6 apply Unc_r in Hu. rewrite (Unc_skip _ Hu).
      pose proof (stop_many n Inside [] ($"}" ++ k) (length ($"}" ++ k)) (conj eq_refl (end_brace k)) Hu) as E.
      cbn [stop_at chunk_at] in E. unfold V, T in E. rewrite E. reflexivity.
  - (* assignment *)
    intros w1 x w2 preserve immediate w3 c t Hw1 Hx Hw2 Hw3 Ht IH Hbs Hi n k Hn Hu.
    rewrite <- !app_assoc in *. apply via_assign. apply assignment_hit; auto.
    apply IH; [rewrite !app_length in Hn; cbn in Hn; lia| |apply end_brace].
    do 8 apply Unc_r in Hu. exact Hu.
  - (* wrap *)
    intros p w1 c1 t1 w2 c2 t2 Hp Hw1 H1 IH1 Hb1 Hw2 H2 IH2 Hb2 n k Hn Hu. rewrite <- !app_assoc in *.
    rewrite !app_length in Hn. cbn in Hn.
    apply via_wrap; auto. apply wrap_hit; auto.
    + apply IH1; [lia| |apply end_dollars]. do 2 apply Unc_r in Hu. exact Hu.
    + apply IH2; [lia| |apply end_brace]. do 5 apply Unc_r in Hu. exact Hu.
  - (* wildcard *)
    intros p mark m cs c path t Hp Hm Hcs Ht IH Htog Hpath Hns n k Hn Hu. rewrite <- !app_assoc in *.
    apply via_wildcard; auto. apply wildcard_plain with (cs := cs) (c := c); auto.
    + eapply elems_nonempty; eassumption.
    + apply IH; [rewrite !app_length in Hn; lia|rewrite app_length; lia| |].
      * do 2 apply Unc_r in Hu. exact Hu.
      * split; [right; reflexivity|exists k; reflexivity].
  - (* wildcard with variables *)
    intros p mark m cs c path t w pairs vars vt Hp Hm Hcs Hw Ht IH Htog Hpath Hns Hvt Hv (Hv2 & IHv) Hsv n k Hn Hu.
    rewrite <- !app_assoc in *. rewrite !app_length in Hn. cbn in Hn.
    apply via_wildcard; auto. apply wildcard_vars with (cs := cs) (c := c); auto.
    + eapply elems_nonempty; eassumption.
    + apply IH; [lia|rewrite app_length; lia| |].
      * do 2 apply Unc_r in Hu. exact Hu.
      * split; [left; exists w; auto|]. exists (vt ++ $")" ++ ww ++ k). rewrite <- !app_assoc. reflexivity.
    + apply same_variables in Hsv. rewrite IHv; [rewrite Hsv; reflexivity|lia|].
      do 5 apply Unc_r in Hu. apply Unc_l in Hu. exact Hu.
  - (* no elements *)
    intros p z n k f Hn Hf Hu Hk. cbn [app] in *. destruct f as [|f]; [lia|].
    apply stop_many with (z := z); assumption.
  - (* elements *)
    intros p z c t cs r He IHe Hes IHes n k f Hn Hf Hu Hk.
    rewrite <- app_assoc in *. rewrite app_length in Hn, Hf.
    destruct f as [|f]; [lia|]. cbn [many_rounds].
    assert (Hstop : stop_at p (t ++ r ++ k) = false).
    { destruct p; [reflexivity..|]. eapply elem_paren; eassumption. }
    rewrite Hstop. assert (Hne : t <> []) by (eapply elem_nonempty; eassumption).
    rewrite IHe by (auto; lia). rewrite IHes; [reflexivity|lia| |eapply Unc_r; exact Hu|exact Hk].
    destruct t; [congruence|]. cbn in Hf. lia.
  - (* a literal *)
    intros p q z t cs r Hq Hne Ho Hnw Hbr Hpar Hes IHes n k f Hn Hf Hu Hk.
    rewrite <- app_assoc in *. rewrite app_length in Hn, Hf.
    destruct f as [|f]; [lia|]. cbn [many_rounds].
    assert (Hbk : Break q (r ++ k)) by (eapply Break_stop; eassumption).
    assert (Hstop : stop_at p (t ++ r ++ k) = false).
    { destruct p; [reflexivity..|]. cbn [stop_at]. eapply literal_paren; try eassumption.
      intros Hb [x E]. apply (Hpar Hb). cbn [StopText] in Hk. destruct Hk as [Hz [s ->]].
      destruct r as [|y r].
      - destruct z as [|y z]; [|injection E as -> _; exists z; reflexivity].
        exfalso. destruct Hz as [(w & _ & Ez)|Ez]; [destruct w; discriminate Ez|].
        apply (proj1 Hww). congruence.
      - injection E as -> _. exists (r ++ z). reflexivity. }
    rewrite Hstop. rewrite (via_literal n p q t (r ++ k)); auto; [|eapply NoWrapIn_stop; eassumption].
    rewrite IHes; [reflexivity|lia| |eapply Unc_r; exact Hu|exact Hk].
    destruct t; [congruence|]. cbn in Hf. lia.
  - (* prompts *)
    intros p cs c t Hes IH Htog. destruct p; cbn [PPrompt].
    + intros n Hn Hu. unfold grammar_body, prompt, many.
      rewrite expandtabs_id by (apply Hu). rewrite (Unc_skip _ Hu).
      specialize (IH n [] (S (length t))). rewrite app_nil_r in IH.
      cbn [stop_at chunk_at] in IH. rewrite IH; auto; [|split; reflexivity].
      rewrite (together_hit _ _ Htog). reflexivity.
    + intros n k Hn Hu Hk. destruct n as [|n]; [lia|]. unfold V. rewrite variant_prompt_S.
      unfold variant_prompt_body, many. rewrite (Unc_skip _ Hu).
      specialize (IH n k (S (length (t ++ k)))). cbn [stop_at chunk_at] in IH.
      unfold V, T in IH. rewrite IH; auto; [|lia|rewrite app_length; lia|split; auto].
      rewrite (together_hit _ _ Htog). reflexivity.
    + exact I.
  - (* one option *)
    intros v t Hv IH n k Hn Hu. exists v, [], ($"}" ++ k).
    split; [reflexivity|]. split; [apply IH; auto; apply end_brace|].
    split; [rewrite (app_length t); lia|]. intros f Hf. destruct f as [|f]; [lia|].
    cbn [many_rounds never]. unfold bar.
    rewrite (tok_miss $"|" _ (Unc_r _ _ Hu)) by (intros [q E]; discriminate E). reflexivity.
  - (* more options *)
    intros v t vs r Hv IH Hvs IHs n k Hn Hu. rewrite <- !app_assoc in Hu.
    rewrite !app_length in Hn. cbn in Hn.
    destruct (IHs n k ltac:(lia)) as (v2 & vs2 & s2 & -> & Ev2 & Hl2 & Hm2).
    { do 2 apply Unc_r in Hu. exact Hu. }
    exists v, (v2 :: vs2), ($"|" ++ r ++ $"}" ++ k). split; [reflexivity|].
    rewrite <- !app_assoc. split; [apply IH; auto; [lia|apply end_bar]|].
    split; [rewrite (app_length t); lia|].
    intros f Hf. destruct f as [|f]; [lia|]. cbn [many_rounds never]. unfold bar at 1.
    rewrite (tok_hit _ _ (Unc_r _ _ Hu)), Ev2.
    rewrite Hm2; [reflexivity|]. change (length ($"|" ++ r ++ $"}" ++ k)) with (S (length (r ++ $"}" ++ k))) in Hf. lia.
  - (* weighted option *)
    intros w wt q c t Hw Hwt Ht IH n k Hn Hu Hk. rewrite <- !app_assoc in *. rewrite !app_length in Hn.
    apply option_weighted; auto. apply IH; [lia| |exact Hk]. do 3 apply Unc_r in Hu. exact Hu.
  - (* plain option *)
    intros w c t Hw Ht IH Hbs Hnw n k Hn Hu Hk. rewrite <- !app_assoc in *. rewrite !app_length in Hn.
    apply option_plain; auto. apply IH; [lia| |exact Hk]. apply Unc_r in Hu. exact Hu.
  - (* one variable *)
    intros x c t Hv (H2 & H3 & IH). split; [exact H2|].
    intros n d Hn Hu. unfold split_char. rewrite (split_char_one _ _ _ H3). cbn [rev app].
    rewrite IH by assumption. reflexivity.
  - (* more variables *)
    intros x c t vs r Hv (H2 & H3 & IH) Hvs (G2 & IHs). split.
    { rewrite !in_app_iff. cbn. intuition discriminate. }
    intros n d Hn Hu. rewrite !app_length in Hn. unfold split_char.
    change (t ++ $"," ++ r) with (t ++ 44%N :: r). rewrite (split_char_more _ _ _ _ H3). cbn [rev app].
    rewrite IH; [|lia|apply Unc_l in Hu; exact Hu]. fold (split_char 44 r).
    rewrite IHs; [reflexivity|lia|]. do 2 apply Unc_r in Hu. exact Hu.
  - (* variable with a value *)
    intros x c t kt vt Hk Hkx Hv Hvt Ht IH. rewrite Forall_forall in Hk, Hv.
    split. { rewrite !in_app_iff. intros [K|[K|K]].
      - apply Hk in K; cbn in K; tauto. - cbn in K; intuition discriminate. - apply Hv in K; cbn in K; tauto. }
    split. { rewrite !in_app_iff. intros [K|[K|K]].
      - apply Hk in K; cbn in K; tauto. - cbn in K; intuition discriminate. - apply Hv in K; cbn in K; tauto. }
    intros n l d Hn Hu. rewrite !app_length in Hn. cbn in Hn. cbn [spec_pairs].
    rewrite partition_hit by (intros K; apply Hk in K; cbn in K; tauto).
    rewrite (Trimmed_strip kt x Hkx), (Trimmed_strip vt t Hvt).
    destruct Hvt as (a & b & E & _). subst vt. rewrite !app_length in Hn.
    do 3 apply Unc_r in Hu. apply Unc_l in Hu.
    destruct n as [|n]; [lia|]. rewrite (spec_value_hit n t c); [reflexivity|].
    apply IH; [lia|exact Hu].
  - (* variable without value *)
    intros x kt Hk Hkx. rewrite Forall_forall in Hk.
    split. { intros K. apply Hk in K; cbn in K; tauto. }
    split. { intros K. apply Hk in K; cbn in K; tauto. }
    intros n l d Hn Hu. cbn [spec_pairs].
    rewrite partition_none by (intros K; apply Hk in K; cbn in K; tauto).
    rewrite (Trimmed_strip kt x Hkx). change (strip []) with (@nil N).
    assert (Es : spec_value alnum (T n) [] = POk (Seq [] [] None) []); [|rewrite Es; reflexivity].
    destruct n as [|n]; [lia|]. apply spec_value_hit. unfold grammar_body, prompt, many.
    change (skip (expandtabs [])) with (@nil N). cbn [length].
    pose proof (stop_many n Top [] [] 0 (conj eq_refl eq_refl) (Unc_nil)) as E.
    cbn [stop_at chunk_at] in E. rewrite E. reflexivity.
Qed.

Theorem written_parse : forall c t, Prompt ww Top c t -> Uncommented t ->
  parse alnum C t = Ok c /\ grammar alnum C t = Ok c.
Proof.
  intros c t Ht Hu. apply Written_parse in Ht. cbn [PPrompt] in Ht.
  unfold parse, grammar. rewrite parse_raw_unfold, grammar_raw_unfold.
  rewrite (expandtabs_id t) by apply Hu. unfold depth. rewrite (expandtabs_id t) by apply Hu.
  pose proof (Ht (S (length t)) ltac:(lia) Hu) as E1.
  pose proof (Ht (2 + length t) ltac:(lia) Hu) as E2. unfold V, T in E1, E2.
  unfold parse_body. rewrite E1, E2. split; [|reflexivity].
  destruct (isalnum alnum t) eqn:Ea; [|reflexivity].
  destruct (alnum_plain alnum C Hal t Ea) as (P1 & P2 & P3).
  rewrite (plain_grammar alnum C standard_marks _ _ t P1 P2 P3) in E1. injection E1 as <-. reflexivity.
Qed.
End Written.

Theorem written_unique : forall ww c c' t,
  WrapText ww -> Prompt ww Top c t -> Prompt ww Top c' t -> Uncommented t -> c = c'.
Proof.
  intros ww c c' t Hw H H' Hu.
  assert (HL : LettersAndDigits (standard ww) (fun _ => false)).
  { split; [discriminate|]. destruct Hw as [Hne _]. destruct ww as [|x r]; [congruence|].
    exists x. split; [left; reflexivity|reflexivity]. }
  destruct (written_parse ww Hw _ HL c t H Hu) as [E _].
  destruct (written_parse ww Hw _ HL c' t H' Hu) as [E' _]. congruence.
Qed.
