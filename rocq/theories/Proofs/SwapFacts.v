(** Texts with other braces around variants are parsed like texts with the
    usual ones. *)
From Coq Require Import String NArith ZArith QArith Qcanon Bool Arith List Lia.
From Verif.Model Require Import Str Command Rng Context Parser.
From Verif.Spec Require Import Text Names Lookup Syntax Braces.
From Verif.Proofs Require Import StrFacts ParserFacts TokenFacts PlainFacts SyntaxFacts BraceFacts.
Import ListNotations.
Local Open Scope nat_scope.

Section Swap.
Variable alnum : char -> bool.
Variable a b : char.
Variable ww : str.
Hypothesis HF : FreshBraces alnum a b ww.
Let C' := braced a b ww.
Let C := standard ww.
Notation pi := (swap a b).
Notation mp := (map (swap a b)).

Definition clean (c : char) : Prop := ~ In c $"$%({".

(** * The exchange of characters *)
Lemma a_b : a <> b.
Proof. exact (proj1 HF). Qed.
Lemma a_facts : alnum a = false /\ ~ In a ww /\ ~ Blank a /\ ~ In a $"{}#$%|()~!@:/*.+-" /\ ~ (48 <= a <= 57)%N.
Proof. destruct (proj2 HF a) as (H1 & H2 & H3); [left; reflexivity|]. destruct H3 as (H3 & H4 & H5); [left; reflexivity|]. auto. Qed.
Lemma b_facts : alnum b = false /\ ~ In b ww /\ ~ Blank b /\ ~ In b $"{}#$%|()~!@:/*.+-" /\ ~ (48 <= b <= 57)%N.
Proof. destruct (proj2 HF b) as (H1 & H2 & H3); [right; left; reflexivity|]. destruct H3 as (H3 & H4 & H5); [right; left; reflexivity|]. auto. Qed.
Lemma open_facts : alnum 123%N = false /\ ~ In 123%N ww.
Proof. destruct (proj2 HF 123%N) as (H1 & H2 & _); [right; right; left; reflexivity|]. auto. Qed.
Lemma close_facts : alnum 125%N = false /\ ~ In 125%N ww.
Proof. destruct (proj2 HF 125%N) as (H1 & H2 & _); [right; right; right; left; reflexivity|]. auto. Qed.

Lemma neqs : a <> 123%N /\ a <> 125%N /\ b <> 123%N /\ b <> 125%N.
Proof.
  destruct a_facts as (_ & _ & _ & Ha & _), b_facts as (_ & _ & _ & Hb & _). cbn in Ha, Hb.
  repeat split; intros K; [apply Ha|apply Ha|apply Hb|apply Hb]; rewrite K; tauto.
Qed.
Lemma pi_cases : forall c,
  (c = a /\ pi c = 123%N) \/ (c = 123%N /\ pi c = a) \/ (c = b /\ pi c = 125%N) \/ (c = 125%N /\ pi c = b) \/
  (c <> a /\ c <> b /\ c <> 123%N /\ c <> 125%N /\ pi c = c).
Proof.
  intros c. pose proof a_b as Hab. destruct neqs as (N1 & N2 & N3 & N4). unfold swap.
  destruct (N.eqb_spec c a); [auto|]. destruct (N.eqb_spec c 123); [auto|].
  destruct (N.eqb_spec c b); [auto|]. destruct (N.eqb_spec c 125); [auto 6|]. auto 9.
Qed.
Lemma pi_invol : forall c, pi (pi c) = c.
Proof.
  intros c. pose proof a_b as Hab. destruct neqs as (N1 & N2 & N3 & N4).
  destruct (pi_cases c) as [[E ->]|[[E ->]|[[E ->]|[[E ->]|(E1 & E2 & E3 & E4 & E)]]]]; subst.
  - destruct (pi_cases 123%N) as [[K1 K2]|[[K1 K2]|[[K1 K2]|[[K1 K2]|(K1 & K2 & K3 & K4 & K5)]]]]; congruence.
  - destruct (pi_cases a) as [[K1 K2]|[[K1 K2]|[[K1 K2]|[[K1 K2]|(K1 & K2 & K3 & K4 & K5)]]]]; congruence.
  - destruct (pi_cases 125%N) as [[K1 K2]|[[K1 K2]|[[K1 K2]|[[K1 K2]|(K1 & K2 & K3 & K4 & K5)]]]]; congruence.
  - destruct (pi_cases b) as [[K1 K2]|[[K1 K2]|[[K1 K2]|[[K1 K2]|(K1 & K2 & K3 & K4 & K5)]]]]; congruence.
  - rewrite E. exact E.
Qed.
Lemma pi_inj : forall c d, pi c = pi d -> c = d.
Proof. intros c d H. rewrite <- (pi_invol c), <- (pi_invol d), H. reflexivity. Qed.
(** Characters without role as a brace stay. *)
Definition fixed (x : char) : Prop := x <> a /\ x <> b /\ x <> 123%N /\ x <> 125%N.
Lemma pi_fixed : forall x, fixed x -> pi x = x.
Proof.
  intros x (H1 & H2 & H3 & H4).
  destruct (pi_cases x) as [[E _]|[[E _]|[[E _]|[[E _]|(_ & _ & _ & _ & E)]]]]; congruence.
Qed.
Lemma pi_eqb : forall x c, fixed x -> N.eqb (pi c) x = N.eqb c x.
Proof.
  intros x c Hx. destruct (N.eqb_spec c x) as [->|Hn].
  - rewrite (pi_fixed x Hx). apply N.eqb_refl.
  - apply N.eqb_neq. intros E. apply Hn, pi_inj. rewrite E. symmetry. apply pi_fixed, Hx.
Qed.
Lemma fixed_in : forall x, In x $"#$%|()~!@:/*.+-" -> fixed x.
Proof.
  intros x Hx. destruct a_facts as (_ & _ & _ & Ha & _), b_facts as (_ & _ & _ & Hb & _).
  cbn in Hx, Ha, Hb. repeat split; intros ->; intuition discriminate.
Qed.
Lemma fixed_blank : forall x, Blank x -> fixed x.
Proof.
  intros x Hx. destruct a_facts as (_ & _ & Ha & _), b_facts as (_ & _ & Hb & _).
  repeat split; intros ->; try contradiction; unfold Blank in Hx; cbn in Hx; intuition discriminate.
Qed.
Lemma fixed_digit : forall x, (48 <= x <= 57)%N -> fixed x.
Proof.
  intros x Hx. destruct a_facts as (_ & _ & _ & _ & Ha), b_facts as (_ & _ & _ & _ & Hb).
  repeat split; intros ->; try contradiction; lia.
Qed.
Lemma fixed_ww : forall x, In x ww -> fixed x.
Proof.
  intros x Hx. destruct a_facts as (_ & Ha & _), b_facts as (_ & Hb & _), open_facts as [_ Hc], close_facts as [_ Hd].
  repeat split; intros ->; contradiction.
Qed.
Lemma pi_blank : forall c, blank (pi c) = blank c.
Proof. intros c. unfold blank. rewrite !pi_eqb; [reflexivity|apply fixed_blank; unfold Blank; cbn; tauto..]. Qed.
Lemma pi_digit : forall c, is_digit (pi c) = is_digit c.
Proof.
  intros c. destruct (is_digit c) eqn:E.
  - pose proof E as E'. apply is_digit_spec in E'. rewrite (pi_fixed c) by (apply fixed_digit, E'). exact E.
  - destruct (is_digit (pi c)) eqn:E2; [|reflexivity]. apply is_digit_spec in E2.
    pose proof (pi_fixed _ (fixed_digit _ E2)) as K. rewrite pi_invol in K. rewrite <- K in E2.
    apply is_digit_spec in E2. congruence.
Qed.
Lemma pi_alnum : forall c, alnum (pi c) = alnum c.
Proof.
  intros c. destruct a_facts as [Ha _], b_facts as [Hb _], open_facts as [Ho _], close_facts as [Hc _].
  destruct (pi_cases c) as [[E ->]|[[E ->]|[[E ->]|[[E ->]|(_ & _ & _ & _ & ->)]]]]; subst; congruence.
Qed.

(** * Texts *)
Lemma mp_drop : forall f, (forall c, f (pi c) = f c) -> forall s, drop_while f (mp s) = mp (drop_while f s).
Proof. intros f Hf; induction s as [|c s IH]; cbn; [reflexivity|]. rewrite Hf. destruct (f c); [exact IH|reflexivity]. Qed.
Lemma mp_take : forall f, (forall c, f (pi c) = f c) -> forall s, take_while f (mp s) = mp (take_while f s).
Proof. intros f Hf; induction s as [|c s IH]; cbn; [reflexivity|]. rewrite Hf. destruct (f c); [cbn; f_equal; exact IH|reflexivity]. Qed.
Lemma mp_start : forall t t',
  Forall2 (fun x y => x = pi y) t t' -> forall s, startswith (mp s) t = startswith s t'.
Proof.
  intros t t' H. induction H as [|x y t t' E H IH]; intros s; [rewrite !startswith_nil; reflexivity|].
  destruct s as [|c s]; [reflexivity|]. cbn [map startswith].
  subst x. rewrite IH. f_equal. destruct (N.eqb_spec y c) as [->|Hn].
  - apply N.eqb_refl.
  - apply N.eqb_neq. intros K. apply Hn. apply pi_inj, K.
Qed.
Lemma mp_start_fixed : forall t, Forall fixed t -> forall s, startswith (mp s) t = startswith s t.
Proof.
  intros t Ht s. apply mp_start.
  induction Ht as [|x t Hx Ht IH]; constructor; auto. symmetry. apply pi_fixed, Hx.
Qed.
Lemma mp_skipn : forall n s, skipn n (mp s) = mp (skipn n s).
Proof. induction n as [|n IH]; intros [|c s]; cbn; auto. Qed.
Lemma mp_after : forall s, after_close (mp s) = match after_close s with Some r => Some (mp r) | None => None end.
Proof.
  induction s as [|c s IH]; cbn [after_close map]; [reflexivity|].
  change (pi c :: mp s) with (mp (c :: s)). rewrite mp_start_fixed.
  - destruct (startswith (c :: s) $"*/"); [|exact IH]. rewrite mp_skipn. reflexivity.
  - repeat constructor; apply fixed_in; cbn; tauto.
Qed.
Lemma mp_ignored : forall s, ignored (mp s) = match ignored s with Some r => Some (mp r) | None => None end.
Proof.
  intros s. unfold ignored. rewrite (mp_drop blank pi_blank).
  assert (F : forall t, (forall x, In x t -> In x $"#$%|()~!@:/*.+-") -> Forall fixed t).
  { intros t Ht. apply Forall_forall. intros x Hx. apply fixed_in, Ht, Hx. }
  rewrite !mp_start_fixed by (apply F; cbn; intuition).
  assert (Hl : forall s, rest_of_line (mp s) = mp (rest_of_line s)).
  { intros u. unfold rest_of_line. apply mp_drop. intros c. rewrite pi_eqb; [reflexivity|].
    apply fixed_blank. unfold Blank; cbn; tauto. }
  destruct (startswith (drop_while blank s) $"#"); [rewrite mp_skipn, Hl; reflexivity|].
  destruct (startswith (drop_while blank s) $"//"); [rewrite mp_skipn, Hl; reflexivity|].
  destruct (startswith (drop_while blank s) $"/*"); [|reflexivity]. rewrite mp_skipn. apply mp_after.
Qed.
Lemma mp_skip : forall s, skip (mp s) = mp (skip s).
Proof.
  intros s. unfold skip. rewrite map_length. generalize (length s) as n. intros n. revert s.
  induction n as [|n IH]; intros s; cbn [skip_rounds]; [reflexivity|].
  rewrite mp_ignored. destruct (ignored s); [apply IH|reflexivity].
Qed.
Lemma mp_opt_ws : forall s, opt_ws (mp s) = mp (opt_ws s).
Proof. intros s. unfold opt_ws. rewrite mp_skip. apply mp_drop, pi_blank. Qed.
Lemma mp_expandtabs : forall s, expandtabs (mp s) = mp (expandtabs s).
Proof.
  intros s. unfold expandtabs. generalize 0 as col.
  assert (B : forall x, In x [9; 10; 13]%N -> forall c, N.eqb (pi c) x = N.eqb c x).
  { intros x Hx c. apply pi_eqb, fixed_blank. unfold Blank. cbn in *. tauto. }
  induction s as [|c s IH]; intros col; cbn [map expandtabs_from]; [reflexivity|].
  rewrite !B by (cbn; tauto). destruct (N.eqb c 9).
  - rewrite map_app, IH. f_equal.
    assert (E : forall k, repeat 32%N k = mp (repeat 32%N k)); [|apply E].
    induction k as [|k IHk]; cbn; [reflexivity|]. rewrite pi_fixed by (apply fixed_blank; unfold Blank; cbn; tauto).
    f_equal. exact IHk.
  - cbn. f_equal. apply IH.
Qed.

(** * Results *)
Definition Clean (s : str) : Prop := Forall clean s.
Definition rel {A} (f : A -> A) (x y : pres A) : Prop :=
  match x, y with
  | POk u r, POk v r' => v = f u /\ r' = mp r /\ Clean r
  | PFail, PFail => True
  | PRaise e, PRaise e' => e = e'
  | PFuel, PFuel => True
  | _, _ => False
  end.
Definition sims {A} (f : A -> A) (p q : str -> pres A) : Prop :=
  forall s, Clean s -> rel f (p s) (q (mp s)).
Lemma Clean_suffix : forall s r, Suffix r s -> Clean s -> Clean r.
Proof. intros s r [p ->] H. apply Forall_app in H. apply H. Qed.
Lemma Clean_skip : forall s, Clean s -> Clean (skip s).
Proof. intros s. apply Clean_suffix, skip_suffix. Qed.
Lemma Clean_ws : forall s, Clean s -> Clean (opt_ws s).
Proof. intros s. apply Clean_suffix, opt_ws_suffix. Qed.
Lemma rel_bind : forall A B (f : A -> A) (g : B -> B) (x y : pres A) (k k' : A -> str -> pres B),
  rel f x y -> (forall u r, Clean r -> rel g (k u r) (k' (f u) (mp r))) ->
  rel g (let! (u, r) := x in k u r) (let! (u, r) := y in k' u r).
Proof.
  intros A B f g [u r| |e|] [v r'| |e'|] k k' H K; cbn in *; try contradiction; auto.
  destruct H as (-> & -> & H). apply K, H.
Qed.
Lemma sims_alt : forall A (f : A -> A) p q p' q', sims f p p' -> sims f q q' -> sims f (alt p q) (alt p' q').
Proof.
  intros A f p q p' q' H1 H2 s Hs. unfold alt. specialize (H1 s Hs). specialize (H2 s Hs).
  destruct (p s), (p' (mp s)); cbn in *; try contradiction; auto.
Qed.
Lemma sims_popt : forall A (f : A -> A) p q, sims f p q -> sims (option_map f) (popt p) (popt q).
Proof.
  intros A f p q H s Hs. specialize (H s Hs). unfold popt.
  destruct (p s), (q (mp s)); cbn in *; try contradiction; auto.
  - destruct H as (-> & -> & H). auto.
  - rewrite mp_skip. split; [reflexivity|]. split; [reflexivity|]. apply Clean_skip, Hs.
Qed.
Lemma sims_rounds : forall A (f : A -> A) st st' p q,
  (forall s, Clean s -> st' (mp s) = st s) -> sims f p q ->
  forall n, sims (map f) (many_rounds n st p) (many_rounds n st' q).
Proof.
  intros A f st st' p q Hst H. induction n as [|n IH]; intros s Hs; cbn [many_rounds]; [exact I|].
  rewrite Hst by exact Hs. destruct (st s); [cbn; auto|].
  specialize (H s Hs). destruct (p s) as [u r| |e|], (q (mp s)) as [v r'| |e'|]; cbn in *; try contradiction; auto.
  destruct H as (-> & -> & H). specialize (IH r H).
  destruct (many_rounds n st p r), (many_rounds n st' q (mp r)); cbn in *; try contradiction; auto.
  destruct IH as (-> & -> & IH). auto.
Qed.
Lemma sims_many : forall A (f : A -> A) st st' p q,
  (forall s, Clean s -> st' (mp s) = st s) -> sims f p q -> sims (map f) (many st p) (many st' q).
Proof. intros A f st st' p q Hst H s Hs. unfold many. rewrite map_length. apply sims_rounds; assumption. Qed.
Lemma sims_many1 : forall A (f : A -> A) st st' p q,
  (forall s, Clean s -> st' (mp s) = st s) -> sims f p q -> sims (map f) (many1 st p) (many1 st' q).
Proof.
  intros A f st st' p q Hst H s Hs. pose proof (sims_many A f st st' p q Hst H s Hs) as K. unfold many1.
  destruct (many st p s) as [[|u l] r| |e|], (many st' q (mp s)) as [[|v l'] r'| |e'|]; cbn in *; try contradiction; auto.
  - destruct K as [K _]. discriminate K.
  - destruct K as [K _]. discriminate K.
Qed.
Lemma sims_never : forall s, Clean s -> never (mp s) = never s.
Proof. reflexivity. Qed.

(** * Tokens *)
Lemma sims_tok : forall t t', length t = length t' -> Forall2 (fun x y => x = pi y) t t' ->
  sims (fun u => u) (tok t') (tok t).
Proof.
  intros t t' Hl H s Hs. unfold tok. rewrite mp_skip, (mp_start t t' H).
  destruct (startswith (skip s) t'); [|exact I]. cbn. rewrite Hl, mp_skipn.
  split; [destruct tt; reflexivity|]. split; [reflexivity|]. eapply Clean_suffix; [|apply Clean_skip, Hs].
  exists (firstn (length t') (skip s)). symmetry. apply firstn_skipn.
Qed.
Lemma sims_fixed : forall t, Forall fixed t -> sims (fun u => u) (tok t) (tok t).
Proof.
  intros t Ht. apply sims_tok; [reflexivity|].
  induction Ht as [|x t Hx Ht IH]; constructor; auto. symmetry. apply pi_fixed, Hx.
Qed.
Lemma fixed_text : forall t, (forall x, In x t -> In x $"#$%|()~!@:/*.+-") -> Forall fixed t.
Proof. intros t Ht. apply Forall_forall. intros x Hx. apply fixed_in, Ht, Hx. Qed.
Lemma tok_unclean : forall x t s, In x $"$%({" -> Clean s -> tok (x :: t) s = PFail.
Proof.
  intros x t s Hx Hs. unfold tok. apply Clean_skip in Hs. destruct (skip s) as [|c r]; [reflexivity|].
  assert (E : startswith (c :: r) (x :: t) = false).
  { apply startswith_false, not_starts. intros ->. inversion Hs; subst. contradiction. }
  rewrite E. reflexivity.
Qed.
Lemma tok_unclean' : forall x t s, In x $"$%(" -> Clean s -> tok (x :: t) (mp s) = PFail.
Proof.
  intros x t s Hx Hs. unfold tok. rewrite mp_skip. apply Clean_skip in Hs.
  destruct (skip s) as [|c r]; [reflexivity|]. cbn [map].
  assert (E : startswith (pi c :: mp r) (x :: t) = false).
  { apply startswith_false, not_starts. intros E. inversion Hs as [|? ? Hc _]; subst. apply Hc.
    assert (K : pi (pi c) = c) by apply pi_invol.
    rewrite (pi_fixed (pi c)) in K by (apply fixed_in; cbn in *; tauto). rewrite <- K. cbn in *; tauto. }
  rewrite E. reflexivity.
Qed.
Lemma sims_sampler : sims (fun m => m) sampler sampler.
Proof.
  intros s Hs. unfold sampler.
  assert (F : forall x, In x $"~!@" -> rel (fun u => u) (tok [x] s) (tok [x] (mp s))).
  { intros x Hx. apply sims_fixed; [|exact Hs]. apply fixed_text. intros y [<-|[]]. cbn in *. tauto. }
  change $"~" with [126%N]; change $"!" with [33%N]; change $"@" with [64%N].
  pose proof (F 126%N ltac:(cbn; tauto)) as F1. pose proof (F 33%N ltac:(cbn; tauto)) as F2.
  pose proof (F 64%N ltac:(cbn; tauto)) as F3.
  destruct (tok [126%N] s), (tok [126%N] (mp s)); cbn in F1; try contradiction; [cbn; intuition|..];
    (destruct (tok [33%N] s), (tok [33%N] (mp s)); cbn in F2; try contradiction; [cbn; intuition|..];
     (destruct (tok [64%N] s), (tok [64%N] (mp s)); cbn in F3; try contradiction; cbn; intuition)).
Qed.
Lemma digits_fixed : forall s, mp (take_while is_digit s) = take_while is_digit s.
Proof.
  induction s as [|c s IH]; cbn; [reflexivity|]. destruct (is_digit c) eqn:E; [|reflexivity].
  cbn. rewrite IH, pi_fixed; [reflexivity|]. apply fixed_digit, is_digit_spec, E.
Qed.
Lemma Clean_drop : forall f s, Clean s -> Clean (drop_while f s).
Proof. intros f s. apply Clean_suffix, Suffix_drop_while. Qed.
Lemma sims_integer : sims (fun n => n) integer integer.
Proof.
  intros s Hs. unfold integer. rewrite mp_skip, (mp_take _ pi_digit), (mp_drop _ pi_digit), digits_fixed.
  destruct (take_while is_digit (skip s)); cbn; [exact I|].
  split; [reflexivity|]. split; [reflexivity|]. apply Clean_drop, Clean_skip, Hs.
Qed.
Lemma sims_real : sims (fun q => q) real real.
Proof.
  intros s Hs. unfold real. rewrite mp_skip. apply Clean_skip in Hs. set (u := skip s) in *. clearbody u. clear s.
  assert (K : forall (neg : bool) v, Clean v -> rel (fun q : Qc => q)
    (let ip := take_while is_digit v in
     match drop_while is_digit v with
     | c :: s' => let fp := take_while is_digit s' in
        if N.eqb c 46 && negb (match ip, fp with [], [] => true | _, _ => false end)
        then let q := decimal ip fp in POk (if neg then (- q)%Qc else q) (drop_while is_digit s')
        else PFail
     | [] => PFail end)
    (let ip := take_while is_digit (mp v) in
     match drop_while is_digit (mp v) with
     | c :: s' => let fp := take_while is_digit s' in
        if N.eqb c 46 && negb (match ip, fp with [], [] => true | _, _ => false end)
        then let q := decimal ip fp in POk (if neg then (- q)%Qc else q) (drop_while is_digit s')
        else PFail
     | [] => PFail end)).
  { intros neg v Hv. cbv zeta. rewrite (mp_take _ pi_digit), (mp_drop _ pi_digit), digits_fixed.
    apply (Clean_drop is_digit) in Hv. destruct (drop_while is_digit v) as [|c s']; [exact I|]. cbn [map].
    rewrite (mp_take _ pi_digit), (mp_drop _ pi_digit), digits_fixed.
    rewrite pi_eqb by (apply fixed_in; cbn; tauto).
    destruct (N.eqb c 46 && _); [|exact I]. cbn. split; [reflexivity|]. split; [reflexivity|].
    apply Clean_drop. inversion Hv; assumption. }
  destruct u as [|c u]; [exact I|]. cbn [map].
  rewrite !pi_eqb by (apply fixed_in; cbn; tauto).
  destruct (N.eqb c 43); [apply (K false), (Forall_inv_tail Hs)|].
  destruct (N.eqb c 45); [apply (K true), (Forall_inv_tail Hs)|]. apply (K false (c :: u)), Hs.
Qed.
Lemma sims_weight : sims (fun q => q) weight weight.
Proof.
  intros s Hs. unfold weight. eapply rel_bind with (f := fun q => q).
  - apply sims_alt; [exact sims_real| |exact Hs]. intros u Hu. eapply rel_bind; [apply sims_integer, Hu|].
    intros m r Hr. cbn. auto.
  - intros q r Hr. eapply rel_bind; [apply sims_fixed; [|exact Hr]|].
    + apply fixed_text. cbn; intuition.
    + intros x r' Hr'. cbn. auto.
Qed.
Definition soft {A} (r : pres A) : Prop := match r with POk _ _ | PFail => True | _ => False end.
Lemma soft_bind : forall A B (r : pres A) (k : A -> str -> pres B),
  soft r -> (forall u s, soft (k u s)) -> soft (let! (u, s) := r in k u s).
Proof. intros A B [u s| |e|] k H K; cbn in *; auto. Qed.
Lemma soft_alt : forall A (p q : str -> pres A) s, soft (p s) -> soft (q s) -> soft (alt p q s).
Proof. intros A p q s Hp Hq. unfold alt. destruct (p s); auto. Qed.
Lemma soft_tok : forall t s, soft (tok t s).
Proof. intros t s. destruct (tok_not_raise t s) as [->|[r ->]]; exact I. Qed.
Lemma soft_integer : forall s, soft (integer s).
Proof. intros s. unfold integer. destruct (take_while is_digit (skip s)); exact I. Qed.
Lemma soft_range : forall s, soft (bound_range s).
Proof.
  intros s. unfold bound_range, lower_upper, only_upper, only_lower, exact.
  repeat apply soft_alt; repeat first [exact I|apply soft_bind; [first [apply soft_integer|apply soft_tok]|intros ? ?]].
Qed.
Lemma bound_expr_none : forall s, (forall r, Suffix r s -> tok $"$$" r = PFail) -> bound_expr s = PFail.
Proof.
  intros s H. unfold bound_expr. pose proof (bound_range_le s) as Hb. pose proof (soft_range s) as Hr.
  destruct (bound_range s) as [rng r| |e|] eqn:E; cbn in Hr; try contradiction; [|reflexivity].
  cbn. rewrite H; [reflexivity|]. exact Hb.
Qed.
Lemma suffix_mp : forall s r, Suffix r (mp s) -> exists q, r = mp q /\ Suffix q s.
Proof.
  intros s r [p E]. apply map_eq_app in E. destruct E as (l1 & l2 & -> & _ & <-).
  exists l2. split; [reflexivity|]. exists l1. reflexivity.
Qed.
Lemma sims_bounds : forall s, Clean s -> bound_expr s = PFail /\ bound_expr (mp s) = PFail.
Proof.
  intros s Hs. split; apply bound_expr_none; intros r Hr.
  - apply tok_unclean; [cbn; tauto|]. eapply Clean_suffix; eassumption.
  - apply suffix_mp in Hr. destruct Hr as (q & -> & Hq). apply tok_unclean'; [cbn; tauto|]. eapply Clean_suffix; eassumption.
Qed.

(** * Literals *)
Definition same_bad (f g : char -> bool) : Prop := forall c, clean c -> g (pi c) = f c.
Lemma mem_spec : forall c s, mem c s = true <-> In c s.
Proof.
  intros c s. unfold mem. rewrite existsb_exists. split.
  - intros (x & Hx & E). apply N.eqb_eq in E. subst. exact Hx.
  - intros H. exists c. split; [exact H|apply N.eqb_refl].
Qed.
Lemma mem_same : forall l l', (forall c, clean c -> (In (pi c) l <-> In c l')) -> forall c, clean c -> mem (pi c) l = mem c l'.
Proof.
  intros l l' H c Hc. apply eq_true_iff_eq. rewrite !mem_spec. apply H, Hc.
Qed.
Lemma in_same : forall l c, Forall fixed l -> (In (pi c) l <-> In c l).
Proof.
  intros l c Hl. rewrite Forall_forall in Hl. split; intros H.
  - pose proof (pi_fixed _ (Hl _ H)) as K. rewrite pi_invol in K. rewrite K. exact H.
  - rewrite (pi_fixed _ (Hl _ H)). exact H.
Qed.
Lemma pi_open : forall c, pi c = 123%N <-> c = a.
Proof.
  intros c. split.
  - intros H. apply pi_inj. rewrite H. unfold swap. rewrite N.eqb_refl. reflexivity.
  - intros ->. unfold swap. rewrite N.eqb_refl. reflexivity.
Qed.
Lemma pi_close : forall c, pi c = 125%N <-> c = b.
Proof.
  assert (E : pi b = 125%N).
  { destruct neqs as (N1 & N2 & N3 & N4). pose proof a_b as Hab.
    destruct (pi_cases b) as [[K _]|[[K _]|[[_ K]|[[K _]|(_ & K & _)]]]]; congruence. }
  intros c. split.
  - intros H. apply pi_inj. congruence.
  - intros ->. exact E.
Qed.
Lemma in_top : forall x y, In x ($"#" ++ [y] ++ $"${" ++ $"%{") <-> In x $"#$%" \/ y = x \/ 123%N = x.
Proof. intros x y. cbn. tauto. Qed.
Lemma in_option : forall x y, In x ($"|$" ++ [y]) <-> In x $"|$" \/ y = x.
Proof. intros x y. cbn. tauto. Qed.
Lemma fixed_sub : forall t, forallb (fun x => mem x $"#$%|()~!@:/*.+-") t = true -> Forall fixed t.
Proof.
  intros t Ht. rewrite forallb_forall in Ht. apply fixed_text. intros x Hx. apply mem_spec, Ht, Hx.
Qed.
Lemma same_top : same_bad (top_bad C') (top_bad C).
Proof.
  unfold same_bad, top_bad. apply mem_same. intros c Hc. cbn [variant_start variable_start wrap_start C C' braced standard].
  change $"{" with [123%N]. rewrite !in_top, (in_same $"#$%" c) by (apply fixed_sub; reflexivity).
  pose proof (pi_open c) as Ko.
  assert (Hn : 123%N <> c) by (intros <-; apply Hc; cbn; tauto).
  split; intros [H|[H|H]]; auto; try contradiction; right; left; symmetry in H |- *; apply Ko; exact H.
Qed.
Lemma same_variant : same_bad (variant_bad C') (variant_bad C).
Proof.
  intros c Hc. unfold variant_bad. rewrite (same_top c Hc). f_equal. revert c Hc. apply mem_same.
  intros c Hc. cbn [variant_end C C' braced standard]. change $"}" with [125%N].
  rewrite !in_option, (in_same $"|$" c) by (apply fixed_sub; reflexivity).
  pose proof (pi_close c) as Ko.
  split; intros [H|H]; auto; right; symmetry in H |- *; apply Ko; exact H.
Qed.
Lemma same_wildcard : same_bad (wildcard_bad C') (wildcard_bad C).
Proof.
  intros c Hc. unfold wildcard_bad. rewrite (same_top c Hc). f_equal. revert c Hc. apply mem_same.
  intros c _. apply in_same, fixed_sub. reflexivity.
Qed.
Lemma ww_fixed : Forall fixed ww.
Proof. apply Forall_forall. exact fixed_ww. Qed.
Lemma run_same : forall f g, same_bad f g -> forall s, Clean s ->
  literal_run C g (mp s) = (mp (fst (literal_run C' f s)), mp (snd (literal_run C' f s))) /\
  Clean (snd (literal_run C' f s)).
Proof.
  intros f g Hf. induction s as [|c s IH]; intros Hs; [split; [reflexivity|exact Hs]|].
  cbn [literal_run map wildcard_wrap C C' braced standard].
  change (pi c :: mp s) with (mp (c :: s)). rewrite (mp_start_fixed ww ww_fixed).
  inversion Hs as [|? ? Hc Hr]; subst. rewrite (Hf c Hc).
  destruct (startswith (c :: s) ww || f c); [split; [reflexivity|exact Hs]|].
  destruct (IH Hr) as [E Hcl]. fold C C'. rewrite E.
  destruct (literal_run C' f s) as [u r]. cbn in *. split; [reflexivity|exact Hcl].
Qed.
Lemma sims_literal : forall f g, same_bad f g -> sims (map pi) (literal C' f) (literal C g).
Proof.
  intros f g Hf s Hs. unfold literal. rewrite mp_skip.
  destruct (run_same f g Hf (skip s) (Clean_skip s Hs)) as [E Hc]. rewrite E.
  destruct (literal_run C' f (skip s)) as [[|u l] r]; cbn in *; auto.
Qed.
Lemma mp_join : forall l, join $" " (map (map pi) l) = mp (join $" " l).
Proof.
  assert (E : pi 32%N = 32%N) by (apply pi_fixed, fixed_blank; unfold Blank; cbn; tauto).
  induction l as [|x [|y l] IH]; [reflexivity|reflexivity|].
  cbn [map join] in *. rewrite !map_app, IH. f_equal. cbn. rewrite E. reflexivity.
Qed.
Notation X := (exchange a b).
Lemma sims_sequence : forall f g, same_bad f g -> sims X (literal_sequence C' f) (literal_sequence C g).
Proof.
  intros f g Hf s Hs. unfold literal_sequence. eapply rel_bind.
  - apply sims_many1; [exact sims_never|apply sims_literal, Hf|exact Hs].
  - intros l r Hr. cbn. rewrite mp_join. auto.
Qed.
Lemma X_single : forall l, sequence_or_single (map X l) = X (sequence_or_single l).
Proof. intros [|c [|d l]]; reflexivity. Qed.

(** * The recursive parsers *)
Section Rec.
Variables V T V' T' : str -> pres command.
Hypothesis HV : sims X V' V.
Hypothesis HT : sims X T' T.

Notation XW := (fun v : command * Qc => (X (fst v), snd v)).
Lemma sims_variant : sims XW (variant V') (variant V).
Proof.
  intros s Hs. unfold variant. rewrite mp_opt_ws. apply Clean_ws in Hs.
  eapply rel_bind; [apply sims_popt; [exact sims_weight|exact Hs]|].
  intros w r Hr. eapply rel_bind; [apply HV, Hr|].
  intros c r' Hr'. rewrite mp_opt_ws. cbn. split; [destruct w; reflexivity|].
  split; [reflexivity|apply Clean_ws, Hr'].
Qed.
Lemma sims_options : sims (map XW) (variants_list V') (variants_list V).
Proof.
  intros s Hs. unfold variants_list. eapply rel_bind; [apply sims_variant, Hs|].
  intros v r Hr. eapply rel_bind.
  - apply sims_many; [exact sims_never| |exact Hr]. intros u Hu. eapply rel_bind.
    + apply sims_fixed; [|exact Hu]. apply fixed_sub; reflexivity.
    + intros x q Hq. apply sims_variant, Hq.
  - intros vs r' Hr'. cbn. auto.
Qed.
Lemma sims_variants : sims X (variants C' V') (variants C V).
Proof.
  intros s Hs. unfold variants. eapply rel_bind.
  - apply sims_tok; [reflexivity| |exact Hs]. cbn [variant_start C C' braced standard].
    constructor; [|constructor]. symmetry. apply pi_open. reflexivity.
  - intros u1 r1 H1. rewrite mp_opt_ws. apply Clean_ws in H1. eapply rel_bind; [apply sims_sampler, H1|].
    intros m r2 H2. destruct (sims_bounds r2 H2) as [B1 B2]. unfold popt at 1 2. rewrite B1, B2.
    cbv iota beta. rewrite mp_skip, mp_opt_ws. apply Clean_skip, Clean_ws in H2.
    eapply rel_bind; [apply sims_options, H2|].
    intros vs r3 H3. rewrite mp_opt_ws. apply Clean_ws in H3. eapply rel_bind.
    + apply sims_tok; [reflexivity| |exact H3]. cbn [variant_end C C' braced standard].
      constructor; [|constructor]. symmetry. apply pi_close. reflexivity.
    + intros u4 r4 H4. cbn [bounds_of rel]. unfold mk_variant.
      destruct (post_init_bounds 1 1) as [mn mx]. cbn. auto.
Qed.
Lemma no_access : forall s, Clean s -> access C' V' s = PFail /\ access C V (mp s) = PFail.
Proof.
  intros s Hs. unfold access. cbn [variable_start C C' braced standard].
  change $"${" with (36%N :: $"{"). rewrite tok_unclean, tok_unclean' by (cbn; auto). auto.
Qed.
Lemma sims_fail : forall A (f : A -> A) p q,
  (forall s, Clean s -> p s = PFail /\ q (mp s) = PFail) -> sims f p q.
Proof. intros A f p q H s Hs. destruct (H s Hs) as [-> ->]. exact I. Qed.
Lemma sims_access : sims X (variable_access C' V') (variable_access C V).
Proof. apply sims_fail. intros s Hs. unfold variable_access. destruct (no_access s Hs) as [-> ->]. auto. Qed.
Lemma sims_wild_access : sims X (wildcard_variable_access C' V') (wildcard_variable_access C V).
Proof. apply sims_fail. intros s Hs. unfold wildcard_variable_access. destruct (no_access s Hs) as [-> ->]. auto. Qed.
Lemma sims_assignment : sims X (variable_assignment C' V') (variable_assignment C V).
Proof.
  apply sims_fail. intros s Hs. unfold variable_assignment. cbn [variable_start C C' braced standard].
  change $"${" with (36%N :: $"{"). rewrite tok_unclean, tok_unclean' by (cbn; auto). auto.
Qed.
Lemma sims_wrap : sims X (wrap_command C' V') (wrap_command C V).
Proof.
  apply sims_fail. intros s Hs. unfold wrap_command. cbn [wrap_start C C' braced standard].
  change $"%{" with (37%N :: $"{"). rewrite tok_unclean, tok_unclean' by (cbn; auto). auto.
Qed.
Lemma sims_chunk_w : sims X (wildcard_chunk C' V') (wildcard_chunk C V).
Proof.
  apply sims_alt; [exact sims_wild_access|]. apply sims_alt; [exact sims_variants|].
  apply sims_alt; apply sims_sequence; [exact same_wildcard|exact same_variant].
Qed.
Lemma paren_same : forall s, Clean s -> at_paren (mp s) = at_paren s.
Proof.
  intros s Hs. unfold at_paren. rewrite (mp_drop _ pi_blank). apply mp_start_fixed, fixed_sub. reflexivity.
Qed.
Lemma sims_path : sims X (wildcard_prompt C' V') (wildcard_prompt C V).
Proof.
  intros s Hs. unfold wildcard_prompt. rewrite mp_skip. apply Clean_skip in Hs. eapply rel_bind.
  - apply sims_many1; [exact paren_same|exact sims_chunk_w|exact Hs].
  - intros l r Hr. cbn. rewrite X_single. auto.
Qed.
Lemma no_spec : forall s, Clean s -> variable_spec s = PFail /\ variable_spec (mp s) = PFail.
Proof.
  intros s Hs. unfold variable_spec. rewrite mp_opt_ws. apply Clean_ws in Hs.
  change $"(" with [40%N]. rewrite tok_unclean, tok_unclean' by (cbn; auto). auto.
Qed.
Lemma sims_wildcard : sims X (wildcard alnum C' V' T') (wildcard alnum C V T).
Proof.
  intros s Hs. unfold wildcard. cbn [wildcard_wrap C C' braced standard].
  eapply rel_bind; [apply sims_fixed; [exact ww_fixed|exact Hs]|]. fold C C'.
  intros u1 r1 H1. eapply rel_bind; [apply sims_sampler, H1|].
  intros m r2 H2. eapply rel_bind; [apply sims_path, H2|].
  intros p r3 H3. destruct (no_spec r3 H3) as [B1 B2]. unfold popt at 1 2. rewrite B1, B2.
  cbv iota beta. rewrite mp_skip. apply Clean_skip in H3.
  eapply rel_bind; [apply sims_fixed; [exact ww_fixed|exact H3]|].
  intros u4 r4 H4. cbn. split; [|auto]. destruct p as [| | |[] | | |]; reflexivity.
Qed.
Lemma sims_chunk : sims X (chunk alnum C' V' T') (chunk alnum C V T).
Proof.
  apply sims_alt; [exact sims_assignment|]. apply sims_alt; [exact sims_access|].
  apply sims_alt; [exact sims_wrap|]. apply sims_alt; [exact sims_variants|].
  apply sims_alt; [exact sims_wildcard|]. apply sims_sequence, same_top.
Qed.
Lemma sims_variant_chunk : sims X (variant_chunk alnum C' V' T') (variant_chunk alnum C V T).
Proof.
  apply sims_alt; [exact sims_access|].
  apply sims_alt; [exact sims_wrap|]. apply sims_alt; [exact sims_variants|].
  apply sims_alt; [exact sims_wildcard|]. apply sims_sequence, same_variant.
Qed.
Lemma sims_prompt : sims X (prompt alnum C' V' T') (prompt alnum C V T).
Proof.
  intros s Hs. unfold prompt. rewrite mp_skip. apply Clean_skip in Hs. eapply rel_bind.
  - apply sims_many; [exact sims_never|exact sims_chunk|exact Hs].
  - intros l r Hr. cbn. rewrite X_single. auto.
Qed.
Lemma sims_variant_prompt : sims X (variant_prompt_body alnum C' V' T') (variant_prompt_body alnum C V T).
Proof.
  intros s Hs. unfold variant_prompt_body. rewrite mp_skip. apply Clean_skip in Hs. eapply rel_bind.
  - apply sims_many; [exact sims_never|exact sims_variant_chunk|exact Hs].
  - intros l r Hr. cbn. rewrite X_single. auto.
Qed.
Lemma Clean_expandtabs : forall s, Clean s -> Clean (expandtabs s).
Proof.
  intros s. unfold expandtabs. generalize 0 as col.
  induction s as [|c s IH]; intros col Hs; cbn [expandtabs_from]; [exact Hs|].
  inversion Hs as [|? ? Hc Hr]; subst. destruct (N.eqb c 9).
  - apply Forall_app. split; [|apply IH, Hr]. apply Forall_forall. intros x Hx.
    apply repeat_spec in Hx. subst. unfold clean. cbn. intuition discriminate.
  - constructor; [exact Hc|apply IH, Hr].
Qed.
Lemma sims_grammar : sims X (grammar_body alnum C' V' T') (grammar_body alnum C V T).
Proof.
  intros s Hs. unfold grammar_body. rewrite mp_expandtabs. apply Clean_expandtabs in Hs.
  eapply rel_bind; [apply sims_prompt, Hs|]. intros c r Hr. rewrite mp_skip, (mp_drop _ pi_blank).
  destruct (drop_while blank (skip r)); cbn; [|exact I]. repeat split. constructor.
Qed.
Lemma isalnum_same : forall s, isalnum alnum (mp s) = isalnum alnum s.
Proof.
  assert (E : forall s, forallb alnum (mp s) = forallb alnum s).
  { induction s as [|c s IH]; cbn; [reflexivity|]. rewrite pi_alnum, IH. reflexivity. }
  intros [|c s]; [reflexivity|]. exact (E (c :: s)).
Qed.
Lemma sims_parse : sims X (parse_body alnum C' V' T') (parse_body alnum C V T).
Proof.
  intros s Hs. unfold parse_body. rewrite isalnum_same.
  destruct (isalnum alnum s); [|apply sims_grammar, Hs]. cbn. repeat split. constructor.
Qed.
End Rec.

Lemma sims_parsers : forall n,
  sims X (fst (parsers alnum C' n)) (fst (parsers alnum C n)) /\
  sims X (snd (parsers alnum C' n)) (snd (parsers alnum C n)).
Proof.
  induction n as [|n [IHV IHT]]; cbn [parsers].
  - split; intros s Hs; exact I.
  - destruct (parsers alnum C' n) as [V' T'], (parsers alnum C n) as [V T]. cbn in *. split.
    + apply sims_variant_prompt; assumption.
    + apply sims_parse; assumption.
Qed.

Theorem other_braces : forall t, NoDollars t ->
  parse alnum (standard ww) (map (swap a b) t) =
  match parse alnum (braced a b ww) t with
  | Ok c => Ok (exchange a b c)
  | Err e => Err e
  end.
Proof.
  intros t Ht. unfold parse, parse_raw, parse_depth, depth. rewrite mp_expandtabs, map_length.
  destruct (sims_parsers (2 + length (expandtabs t))) as [_ H]. specialize (H t Ht). fold C C'.
  destruct (snd (parsers alnum C' _) t), (snd (parsers alnum C _) (mp t)); cbn in *; try contradiction; auto.
  - destruct H as (-> & _). reflexivity.
  - subst. reflexivity.
Qed.
End Swap.
