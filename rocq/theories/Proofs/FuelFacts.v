(** More fuel never changes an answer. *)
From Coq Require Import String NArith ZArith QArith Qcanon Bool Arith List Lia.
From Verif.Model Require Import Str Utils Command Rng Values Context Sampler.
From Verif.Proofs Require Import Soundness.
Import ListNotations.
Local Open Scope nat_scope.

Section Fuel.
Variable G : rng_impl.
Variable E : env.
Notation R := (rng_state G).

Definition le_o {A} (x y : ores G A) : Prop := x = OFuel \/ x = y.
Definition le_m (x y : mkres) : Prop := x = MFuel \/ x = y.

Lemma le_o_refl : forall A (x : ores G A), le_o x x.
Proof. now right. Qed.
Lemma le_o_fuel : forall A (x : ores G A), le_o OFuel x.
Proof. now left. Qed.

Lemma le_bind : forall A B (x y : ores G A) (f g : A -> R -> ores G B),
  le_o x y -> (forall a r, le_o (f a r) (g a r)) -> le_o (obind G x f) (obind G y g).
Proof. intros A B x y f g [->| ->] H; [now left|]. destruct y; cbn; auto using le_o_refl, le_o_fuel. Qed.

Lemma le_pep : forall A (x y : ores G A), le_o x y -> le_o (pep479 G x) (pep479 G y).
Proof. intros A x y [->| ->]; [now left|now right]. Qed.

Lemma le_lift_mk : forall x y r, le_m x y -> le_o (lift_mk G x r) (lift_mk G y r).
Proof. intros x y r [->| ->]; [now left|now right]. Qed.

Lemma le_mk : forall n m c cmd, n <= m -> le_m (mk n c cmd) (mk m c cmd).
Proof.
  induction n as [|n IH]; intros m c cmd H; [now left|].
  destruct m as [|m]; [lia|]. cbn [mk].
  destruct cmd; try now right.
  destruct (resolve_access _ _ _); [|now right].
  destruct (for_sampling_variable _ _); [|now right]. apply IH. lia.
Qed.

Lemma le_sample_prompts : forall n m c p limit, n <= m ->
  le_m (sample_prompts E n c p limit) (sample_prompts E m c p limit).
Proof.
  intros n m c p limit H. unfold sample_prompts.
  destruct (match p with WStr [] => true | WStr _ => false | WCmd cmd => negb (truthy cmd) end); [now right|].
  destruct (match p with WStr s => env_parse E s | WCmd cmd => Ok cmd end) as [cmd|]; [|now right].
  destruct (le_mk n m c cmd H) as [-> | ->]; [now left|now right].
Qed.

Section Open.
Variables nx nx' : gen -> R -> ores G (str * gen).
Hypothesis Hnx : forall g r, le_o (nx g r) (nx' g r).
Variables n m : nat.
Hypothesis Hnm : n <= m.

Lemma le_rotate_all : forall gens r, le_o (rotate_all G nx gens r) (rotate_all G nx' gens r).
Proof.
  induction gens as [|g gens IH]; intros r; cbn [rotate_all]; [apply le_o_refl|].
  apply le_bind; [apply Hnx|]. intros [t g'] r'. apply le_bind; [apply IH|].
  intros [ts gs] r''. apply le_o_refl.
Qed.

Lemma le_first_of : forall x y r, le_m x y -> le_o (first_of G nx n x r) (first_of G nx' m y r).
Proof.
  intros x y r H. unfold first_of. apply le_bind; [now apply le_lift_mk|]. intros g r'.
  apply le_bind; [apply Hnx|]. intros [t g'] r''. apply le_o_refl.
Qed.

Lemma le_mk_all : forall c cmds r, le_o (mk_all G n c cmds r) (mk_all G m c cmds r).
Proof.
  intros c cmds. induction cmds as [|cmd cmds IH]; intros r; cbn [mk_all]; [apply le_o_refl|].
  apply le_bind; [now apply le_lift_mk, le_mk|]. intros g r'. apply le_bind; [apply IH|].
  intros gs r''. apply le_o_refl.
Qed.

Lemma le_assignment : forall c x v i o r,
  le_o (process_variable_assignment G nx n c x v i o r)
       (process_variable_assignment G nx' m c x v i o r).
Proof.
  intros c x v i o r. unfold process_variable_assignment.
  destruct (if o then None else dict_get x (c_vars c)); [apply le_o_refl|].
  destruct i; [|apply le_o_refl].
  destruct v; try apply le_o_refl;
    (apply le_bind; [now apply le_first_of, le_mk|intros t r'; apply le_o_refl]).
Qed.

Lemma le_assignments_loop : forall c cmds nv r,
  le_o (assignments_loop G nx n c cmds nv r) (assignments_loop G nx' m c cmds nv r).
Proof.
  intros c cmds. induction cmds as [|cmd cmds IH]; intros nv r; cbn [assignments_loop]; [apply le_o_refl|].
  destruct cmd; try (apply le_bind; [apply IH|intros [rest vs] r'; apply le_o_refl]).
  apply le_bind; [apply le_assignment|]. intros v r'. apply IH.
Qed.

Lemma le_assignments : forall c cmds r,
  le_o (process_variable_assignments G nx n c cmds r) (process_variable_assignments G nx' m c cmds r).
Proof.
  intros c cmds r. apply le_bind; [apply le_assignments_loop|]. intros [rest vs] r'. apply le_o_refl.
Qed.

Lemma le_sample_path : forall c w r, le_o (sample_path G E nx n c w r) (sample_path G E nx' m c w r).
Proof. intros c w r. now apply le_first_of, le_sample_prompts. Qed.

Lemma le_wildcard_to_variant : forall c w lo hi r,
  le_o (wildcard_to_variant G E nx n c w lo hi r) (wildcard_to_variant G E nx' m c w lo hi r).
Proof.
  intros c w lo hi r. apply le_bind; [apply le_sample_path|]. intros path r'.
  cbn zeta. destruct (parse_all E (iterate_weighted (env_lookup E path))); apply le_o_refl.
Qed.

Lemma le_advance_all : forall gens r, le_o (advance_all G nx gens r) (advance_all G nx' gens r).
Proof.
  induction gens as [|g gens IH]; intros r; cbn [advance_all]; [apply le_o_refl|].
  apply le_bind; [apply Hnx|]. intros [t g'] r'. apply le_bind; [apply IH|].
  intros rest r''. apply le_o_refl.
Qed.

Lemma le_new_collection : forall c cmds r,
  le_o (new_collection G nx n c cmds r) (new_collection G nx' m c cmds r).
Proof.
  intros c cmds r. apply le_bind; [apply le_mk_all|]. intros gens r'.
  apply le_bind; [apply le_advance_all|]. intros gvs r''. apply le_o_refl.
Qed.

Lemma le_get_value : forall cmd coll r, le_o (get_value G nx cmd coll r) (get_value G nx' cmd coll r).
Proof.
  intros cmd coll. induction coll as [|[[cmd' g] v] coll IH]; intros r; cbn [get_value]; [apply le_o_refl|].
  destruct (cmd_eqb cmd' cmd).
  - destruct (Hnx g r) as [-> | ->]; [now left|now right].
  - apply le_bind; [apply IH|]. intros [v' coll'] r'. apply le_o_refl.
Qed.

Lemma le_sample_all : forall c vals r, le_o (sample_all G E n c vals r) (sample_all G E m c vals r).
Proof.
  intros c vals. induction vals as [|v vals IH]; intros r; cbn [sample_all]; [apply le_o_refl|].
  apply le_bind; [now apply le_lift_mk, le_sample_prompts|]. intros g r'.
  apply le_bind; [apply IH|]. intros gs r''. apply le_o_refl.
Qed.
End Open.

Theorem next_fuel : forall n m, n <= m ->
  (forall g r, le_o (next G E n g r) (next G E m g r)) /\
  (forall c coll cs r, le_o (next_cs G E n c coll cs r) (next_cs G E m c coll cs r)) /\
  (forall c st r, le_o (next_cp G E n c st r) (next_cp G E m c st r)) /\
  (forall c st r, le_o (next_yc G E n c st r) (next_yc G E m c st r)).
Proof.
  induction n as [|n IH]; intros m H; [repeat split; intros; now left|].
  destruct m as [|m]; [lia|].
  assert (Hnm : n <= m) by lia. destruct (IH m Hnm) as (Ig & Ics & Icp & Iyc).
  repeat split.
  - intros g r. destruct g; unfold_next G E; try apply le_o_refl.
    + apply le_pep, le_bind; [now apply le_assignments|]. intros [toks c'] r'.
      apply le_bind; [now apply le_mk_all|]. intros gens r''. apply Ig.
    + apply le_pep, le_bind; [now apply le_rotate_all|]. intros [ts gs] r'. apply le_o_refl.
    + destruct variants as [|[v q] [|vq vs]]; [apply le_o_refl| |apply Ig].
      destruct (single_wildcard _).
      * apply le_bind; [now apply le_pep, le_wildcard_to_variant|]. intros [vs [lo' hi']] r'. apply Ig.
      * apply le_bind; [now apply le_lift_mk, le_mk|]. intros g r'. apply Ig.
    + destruct (adjust_range _ _ _) as [lo' hi']. destruct (randint _ _ _ _) as [[k r']|]; [|apply le_o_refl].
      apply le_pep, le_bind; [apply le_o_refl|]. intros sel r''.
      apply le_bind; [now apply le_mk_all|]. intros [|g gens] r3; [apply le_o_refl|].
      apply le_bind; [now apply le_rotate_all|]. intros [ts gs] r4. apply le_o_refl.
    + apply le_bind; [now apply le_pep, le_sample_path|]. intros path r'.
      destruct (env_lookup E path); apply Ig.
    + destruct cur as [g|].
      * destruct (Ig g r) as [-> | ->]; [now left|]. destruct (next G E m g r) as [[t g'] r'|r'|e r'|]; auto using le_o_refl.
      * apply le_bind; [apply le_o_refl|]. intros [v wg'] r'.
        apply le_bind; [now apply le_lift_mk, le_sample_prompts|]. intros g r''. apply Ig.
    + apply le_bind; [now apply le_lift_mk, le_mk|]. intros gw r'.
      apply le_bind; [now apply le_lift_mk, le_mk|]. intros gi r''. apply Ig.
    + apply le_bind; [apply Ig|]. intros [tw gw'] r'.
      apply le_bind; [apply Ig|]. intros [ti gi'] r''. apply le_o_refl.
    + apply le_bind.
      * apply le_pep, le_bind; [now apply le_assignments|]. intros [toks c'] r'.
        apply le_bind; [now apply le_new_collection|]. intros coll r''. apply le_o_refl.
      * intros [coll [toks c']] r'. apply Ig.
    + apply le_bind; [apply Ics|]. intros [x coll'] r'. apply le_o_refl.
    + destruct variants as [|vq vs]; [apply le_o_refl|].
      destruct (single_wildcard _); [|apply Ig].
      apply le_bind; [now apply le_pep, le_wildcard_to_variant|]. intros [vs' [lo' hi']] r'. apply Ig.
    + destruct cur as [[b st]|].
      * destruct (Icp c st r) as [-> | ->]; [now left|].
        destruct (next_cp G E m c st r) as [[arr st'] r'|r'|e r'|]; auto using le_o_refl.
        destruct (_ && _); auto using le_o_refl.
      * destruct todo as [|[b combo] todo]; auto using le_o_refl.
    + apply le_bind; [now apply le_pep, le_sample_path|]. intros path r'.
      destruct (env_lookup E path); apply Ig.
    + destruct cur as [g|].
      * destruct (Ig g r) as [-> | ->]; [now left|]. destruct (next G E m g r) as [[t g'] r'|r'|e r'|]; auto using le_o_refl.
      * destruct vals as [|v vals]; [apply le_o_refl|].
        apply le_bind; [now apply le_lift_mk, le_sample_prompts|]. intros g r''. apply Ig.
    + apply le_bind; [now apply le_lift_mk, le_sample_prompts|]. intros g r''. apply Ig.
    + destruct cur as [[tw gi]|].
      * destruct (Ig gi r) as [-> | ->]; [now left|]. destruct (next G E m gi r) as [[t g'] r'|r'|e r'|]; auto using le_o_refl.
      * apply le_bind; [apply Ig|]. intros [tw gw'] r'.
        apply le_bind; [now apply le_lift_mk, le_sample_prompts|]. intros gi r''. apply Ig.
    + destruct variants as [|vq vs]; [apply le_o_refl|].
      destruct (single_wildcard _); [|apply Ig].
      apply le_bind; [now apply le_pep, le_wildcard_to_variant|]. intros [vs' [lo' hi']] r'. apply Ig.
    + destruct samplers as [|y ys]; [apply Ig|].
      apply le_bind; [apply le_pep, Iyc|]. intros [arr y'] r'. apply le_o_refl.
    + apply le_bind; [now apply le_pep, le_sample_path|]. intros path r'.
      destruct (env_lookup E path); [apply Ig|].
      apply le_bind; [now apply le_sample_all|]. intros gens r''. apply Ig.
    + destruct gens as [|g gs]; [apply le_o_refl|].
      apply le_bind; [apply le_pep, Ig|]. intros [t g'] r'. apply le_o_refl.
    + apply le_bind.
      * destruct w; [apply le_o_refl|]. now apply le_pep, le_sample_path.
      * intros name r'. apply Ig.
    + apply le_bind; [apply Ig|]. intros [t g'] r'. apply le_o_refl.
    + destruct n0; [apply le_o_refl|]. apply le_bind; [apply Ig|]. intros [t g'] r'. apply le_o_refl.
  - intros c coll cs r. destruct cs; unfold_next G E; try apply le_o_refl.
    + destruct cmds as [|cmd cmds]; [apply le_o_refl|].
      destruct (is_nonfinite _); [apply Ics|].
      apply le_bind; [now apply le_lift_mk, le_mk|]. intros g r'. apply Ics.
    + apply le_bind; [apply Ics|]. intros [[[arr cs']|] coll'] r'; [|apply le_o_refl].
      apply le_bind; [now apply le_get_value|]. intros [v coll''] r''. apply le_o_refl.
    + destruct (Ig g r) as [-> | ->]; [now left|].
      destruct (next G E m g r) as [[t g'] r'|r'|e r'|]; auto using le_o_refl.
    + apply le_bind; [apply Ics|]. intros [[[arr cs']|] coll'] r'; [apply le_o_refl|apply Ics].
  - intros c st r. destruct st; unfold_next G E; try apply le_o_refl.
    + destruct combo as [|cmd cmds]; [apply le_o_refl|].
      apply le_bind; [now apply le_lift_mk, le_mk|]. intros g r'. destruct (is_nonfinite _); apply Icp.
    + apply le_bind; [apply Icp|]. intros [arr rest'] r'.
      apply le_bind; [apply le_pep, Ig|]. intros [t g'] r''. apply le_o_refl.
    + apply le_bind; [apply Ig|]. intros [t g'] r'. apply Icp.
    + destruct (Icp c st r) as [-> | ->]; [now left|].
      destruct (next_cp G E m c st r) as [[arr st'] r'|r'|e r'|]; auto using le_o_refl.
  - intros c st r. destruct st; unfold_next G E; try apply le_o_refl.
    + destruct combo as [|cmd cmds]; [apply Iyc|].
      apply le_bind; [now apply le_lift_mk, le_mk|]. intros g r'. apply Iyc.
    + apply le_bind; [apply Iyc|]. intros [arr rest'] r'.
      destruct (Ig g r') as [-> | ->]; [now left|].
      destruct (next G E m g r') as [[t g'] r''|r''|e r''|]; auto using le_o_refl.
Qed.
End Fuel.
