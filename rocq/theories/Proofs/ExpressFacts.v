(** Every command of [Say] has a text. *)
From Coq Require Import String NArith ZArith QArith Qcanon Bool Arith List Sorted Lia.
From Verif.Model Require Import Str Command Parser.
From Verif.Spec Require Import Text Names Lookup Lang Syntax Shape Express.
From Verif.Proofs Require Import StrFacts CommandFacts TokenFacts SyntaxFacts.
Import ListNotations.
Local Open Scope nat_scope.

(** * Texts without comments, character by character *)
Fixpoint calm (t : text) : bool :=
  match t with
  | [] => true
  | c :: r => negb (c =? 35)%N && negb (c =? 9)%N &&
      (if (c =? 47)%N then match r with [] => true | d :: _ => negb (d =? 47)%N && negb (d =? 42)%N end
       else true) && calm r
  end.
Lemma Contains_cons : forall c t x, Contains (c :: t) x -> StartsWith (c :: t) x \/ Contains t x.
Proof.
  intros c t x (a & b & E). destruct a as [|d a]; cbn [List.app] in E.
  - left. exists b. exact E.
  - injection E as <- ->. right. exists a, b. reflexivity.
Qed.
Lemma calm_unc : forall t, calm t = true -> Uncommented t.
Proof.
  induction t as [|c t IH]; intros H; [apply Unc_nil|].
  cbn [calm] in H. rewrite !andb_true_iff, !negb_true_iff, !N.eqb_neq in H.
  destruct H as (((H1 & H2) & H3) & H4). destruct (IH H4) as (U1 & U2 & U3 & U4).
  repeat split.
  - intros [E|E]; [congruence|auto].
  - intros E. apply Contains_cons in E as [[r E]|E]; [|auto]. injection E as -> ->. cbn in H3. discriminate H3.
  - intros E. apply Contains_cons in E as [[r E]|E]; [|auto]. injection E as -> ->. cbn in H3. discriminate H3.
  - intros [E|E]; [congruence|auto].
Qed.
Lemma unc_calm : forall t, Uncommented t -> calm t = true.
Proof.
  induction t as [|c t IH]; intros H; [reflexivity|].
  assert (Ht : Uncommented t) by (change (c :: t) with ([c] ++ t) in H; apply Unc_r in H; exact H).
  destruct H as (U1 & U2 & U3 & U4). cbn [calm].
  rewrite !andb_true_iff, !negb_true_iff, !N.eqb_neq.
  repeat split; [intros ->; apply U1; left; reflexivity|intros ->; apply U4; left; reflexivity| |apply IH, Ht].
  destruct (N.eqb_spec c 47) as [->|]; [|reflexivity].
  destruct t as [|d t]; [reflexivity|]. rewrite andb_true_iff, !negb_true_iff, !N.eqb_neq. split.
  - intros ->. apply U2. exists [], t. reflexivity.
  - intros ->. apply U3. exists [], t. reflexivity.
Qed.
Definition Free (c : N) : Prop := c <> 35%N /\ c <> 9%N /\ c <> 47%N.
Lemma calm_cons : forall c t, Free c -> calm t = true -> calm (c :: t) = true.
Proof.
  intros c t (H1 & H2 & H3) H. cbn [calm].
  rewrite (proj2 (N.eqb_neq c 35) H1), (proj2 (N.eqb_neq c 9) H2), (proj2 (N.eqb_neq c 47) H3), H. reflexivity.
Qed.
Lemma calm_free : forall a t, Forall Free a -> calm t = true -> calm (a ++ t) = true.
Proof. induction 1; intros H1; [exact H1|]. cbn [List.app]. apply calm_cons; auto. Qed.
Definition Soft (b : text) : Prop := forall x r, b = x :: r -> x <> 47%N /\ x <> 42%N.
Lemma calm_app : forall a b, calm a = true -> calm b = true -> Soft b -> calm (a ++ b) = true.
Proof.
  induction a as [|c a IH]; intros b Ha Hb Hs; [exact Hb|].
  cbn [List.app calm] in *. rewrite !andb_true_iff in Ha. destruct Ha as (((H1 & H2) & H3) & H4).
  rewrite H1, H2, (IH b H4 Hb Hs). cbn. rewrite andb_true_r. destruct (c =? 47)%N; [|reflexivity].
  destruct a as [|d a]; [|exact H3]. cbn. destruct b as [|x b]; [reflexivity|].
  destruct (Hs x b eq_refl) as [A B]. rewrite (proj2 (N.eqb_neq _ _) A), (proj2 (N.eqb_neq _ _) B). reflexivity.
Qed.

(** The first dollar or brace is no pair of dollars. *)
Fixpoint fine (t : text) : bool :=
  match t with
  | [] => true
  | c :: r => if (c =? 36)%N then startswith r $"{" else if (c =? 123)%N || (c =? 125)%N then true else fine r
  end.
Lemma fine_app : forall a b, fine a = true -> fine b = true -> fine (a ++ b) = true.
Proof.
  induction a as [|c a IH]; intros b Ha Hb; [exact Hb|]. cbn [List.app fine] in *.
  destruct (c =? 36)%N.
  - destruct a as [|d a]; [discriminate Ha|]. rewrite startswith_spec in *. destruct Ha as [q E].
    exists (q ++ b). rewrite E, <- app_assoc. reflexivity.
  - destruct ((c =? 123)%N || (c =? 125)%N); [reflexivity|]. apply IH; auto.
Qed.
Lemma fine_free : forall a, Forall (fun c => c <> 36%N) a -> fine a = true.
Proof.
  induction 1 as [|c a H _ IH]; [reflexivity|]. cbn [fine]. rewrite (proj2 (N.eqb_neq _ _) H).
  destruct (_ || _); auto.
Qed.
Lemma fine_separator : forall o sep r, fine o = true -> SeparatorText sep -> o <> sep ++ $"$$" ++ r.
Proof.
  intros o sep r H [_ Hs] E. subst o. induction Hs as [|c sep [_ Hc] _ IH].
  - discriminate H.
  - cbn [List.app fine] in H.
    destruct (N.eqb_spec c 36) as [->|]; [apply Hc; left; reflexivity|].
    destruct (N.eqb_spec c 123) as [->|]; [apply Hc; right; left; reflexivity|].
    destruct (N.eqb_spec c 125) as [->|]; [apply Hc; right; right; left; reflexivity|].
    exact (IH H).
Qed.

Definition quiet (v : bool) (t : text) : Prop := v = true -> Forall (fun c => ~ In c $",)") t.
Lemma quiet_app : forall v a b, quiet v a -> quiet v b -> quiet v (a ++ b).
Proof. intros v a b Ha Hb Hv. apply Forall_app. split; auto. Qed.
Lemma quiet_free : forall v a, Forall (fun c => ~ In c $",)") a -> quiet v a.
Proof. intros v a H _. exact H. Qed.

Definition Good (v : bool) (t : text) : Prop := calm t = true /\ fine t = true /\ quiet v t.

(** Characters that are harmless everywhere. *)
Definition Mild (c : N) : Prop := Free c /\ c <> 36%N /\ ~ In c $",)".
Lemma Mild_Free : forall a, Forall Mild a -> Forall Free a.
Proof. intros a H. eapply Forall_impl; [|exact H]. intros c [E _]. exact E. Qed.
Lemma Mild_quiet : forall v a, Forall Mild a -> quiet v a.
Proof. intros v a H. apply quiet_free. eapply Forall_impl; [|exact H]. intros c (_ & _ & E). exact E. Qed.
Lemma Good_mild : forall v a t, Forall Mild a -> Good v t -> Good v (a ++ t).
Proof.
  intros v a t Ha (H1 & H2 & H3). repeat split.
  - apply calm_free; [apply Mild_Free, Ha|exact H1].
  - apply fine_app; [|exact H2]. apply fine_free. eapply Forall_impl; [|exact Ha]. intros c (_ & E & _). exact E.
  - apply quiet_app; [apply Mild_quiet, Ha|exact H3].
Qed.
Lemma Good_nil : forall v, Good v [].
Proof. intros v. repeat split. intros _. constructor. Qed.
Lemma Good_app : forall v a b, Good v a -> Good v b -> Soft b -> Good v (a ++ b).
Proof.
  intros v a b (A1 & A2 & A3) (B1 & B2 & B3) Hs. repeat split;
    [apply calm_app|apply fine_app|apply quiet_app]; auto.
Qed.
Lemma mild_check : forall a, forallb (fun c => negb (existsb (N.eqb c) $"#/$,)") && negb (c =? 9)%N) a = true -> Forall Mild a.
Proof.
  induction a as [|c a IH]; intros H; [constructor|]. cbn [forallb] in H.
  rewrite !andb_true_iff, !negb_true_iff in H. destruct H as ((H1 & H2) & H3).
  constructor; [|apply IH, H3]. cbn in H1.
  destruct (N.eqb_spec c 35), (N.eqb_spec c 47), (N.eqb_spec c 36), (N.eqb_spec c 44), (N.eqb_spec c 41); try discriminate H1.
  apply N.eqb_neq in H2. unfold Mild, Free. cbn. intuition congruence.
Qed.

(** * Numbers *)
Lemma Numeral_digits : forall ds n, Numeral ds n -> Forall (fun c => 48 <= c <= 57)%N ds.
Proof. induction 1; [|apply Forall_app; split; [assumption|]]; repeat constructor; lia. Qed.
Lemma digits_mild : forall ds, Forall (fun c => 48 <= c <= 57)%N ds -> Forall Mild ds.
Proof. intros ds H. eapply Forall_impl; [|exact H]. intros c Hc. unfold Mild, Free. cbn. repeat split; intuition lia. Qed.
Lemma Numeral_exists : forall k n, exists ds, Numeral ds n /\ k <= length ds.
Proof.
  intros k n. induction n as [n IH] using (well_founded_induction N.lt_wf_0).
  destruct (N.eq_dec n 0) as [->|Hn].
  - clear IH. induction k as [|k (ds & H & L)].
    + exists [48%N]. split; [exact (Numeral_one 0 eq_refl)|cbn; lia].
    + exists (ds ++ [(48 + 0)%N]). split; [exact (Numeral_more ds 0 0 H eq_refl)|rewrite app_length; cbn; lia].
  - assert (Hd : (n / 10 < n)%N) by (apply N.div_lt; lia).
    destruct (IH _ Hd) as (ds & H & L).
    exists (ds ++ [(48 + n mod 10)%N]). split.
    + rewrite (N.div_mod n 10) at 2 by discriminate. apply Numeral_more; [exact H|]. apply N.mod_lt. discriminate.
    + rewrite app_length. lia.
Qed.
Lemma Weight_exists : forall q, Decimal q -> exists wt, WeightText wt q /\ Forall Mild wt.
Proof.
  intros q (n & k & E). destruct (Numeral_exists k (Z.abs_N n)) as (ds & H & L).
  pose proof (Numeral_digits _ _ H) as Hd. rewrite <- (firstn_skipn (length ds - k) ds) in H, Hd.
  assert (Lf : length (skipn (length ds - k) ds) = k) by (rewrite skipn_length; lia).
  revert H Hd Lf. generalize (firstn (length ds - k) ds) (skipn (length ds - k) ds). intros ip fp H Hd Lf.
  apply Forall_app in Hd as [Hi Hf].
  destruct (Z_le_gt_dec 0 n) as [Hn|Hn].
  - exists ([] ++ ip ++ $"." ++ fp). split.
    + apply (Weight_real [] false ip fp (Z.abs_N n) q); auto. rewrite Lf, E. do 2 f_equal. lia.
    + cbn [List.app]. apply Forall_app. split; [apply digits_mild, Hi|]. constructor; [|apply digits_mild, Hf].
      unfold Mild, Free. cbn. repeat split; intuition discriminate.
  - exists ($"-" ++ ip ++ $"." ++ fp). split.
    + replace q with (if true then - - q else - q)%Qc by apply Qcopp_involutive.
      apply (Weight_real $"-" true ip fp (Z.abs_N n) (- q)%Qc); auto. rewrite Lf.
      replace (Z.of_N (Z.abs_N n)) with (- n)%Z by lia.
      transitivity (- (q * Q2Qc (inject_Z (10 ^ Z.of_nat k))))%Qc; [ring|]. rewrite E.
      apply Qc_is_canon. cbn [this Q2Qc Qcopp]. rewrite !Qred_correct. rewrite <- inject_Z_opp. reflexivity.
    + cbn [List.app]. constructor; [unfold Mild, Free; cbn; repeat split; intuition discriminate|].
      apply Forall_app. split; [apply digits_mild, Hi|]. constructor; [|apply digits_mild, Hf].
      unfold Mild, Free. cbn. repeat split; intuition discriminate.
Qed.
Lemma Name_mild : forall x, NameText x -> Forall Mild x /\ x <> [] /\ (forall b, In b x -> ~ Space b /\ ~ In b $"=,)").
Proof.
  assert (Hc : forall c, NameChar c -> Mild c /\ ~ Space c /\ ~ In c $"=,)").
  { intros c H. unfold NameChar, NameStart, Letter in H. unfold Mild, Free, Space. cbn. repeat split; intuition lia. }
  intros x (c & r & -> & H1 & H2).
  assert (Ha : Forall NameChar (c :: r)) by (constructor; [left; exact H1|exact H2]).
  split; [|split; [discriminate|]].
  - eapply Forall_impl; [|exact Ha]. intros d Hd. apply Hc, Hd.
  - intros b Hb. rewrite Forall_forall in Ha. apply Hc, Ha, Hb.
Qed.
Lemma Mark_exists : forall m, exists mark, MarkText mark m /\ Forall Mild mark.
Proof.
  intros [[| |]|].
  - exists $"~". split; [constructor|apply mild_check; reflexivity].
  - exists $"!". split; [constructor|apply mild_check; reflexivity].
  - exists $"@". split; [constructor|apply mild_check; reflexivity].
  - exists []. split; constructor.
Qed.

Lemma calm_app' : forall a b, calm a = true -> calm b = true ->
  (forall x r, a = r ++ [x] -> x <> 47%N) -> calm (a ++ b) = true.
Proof.
  induction a as [|c a IH]; intros b Ha Hb Hs; [exact Hb|].
  cbn [List.app calm] in *. rewrite !andb_true_iff in Ha. destruct Ha as (((H1 & H2) & H3) & H4).
  rewrite H1, H2, (IH b H4 Hb).
  - cbn. rewrite andb_true_r. destruct a as [|d a].
    + cbn. rewrite (proj2 (N.eqb_neq _ _) (Hs c [] eq_refl)). reflexivity.
    + exact H3.
  - intros x r E. apply (Hs x (c :: r)). rewrite E. reflexivity.
Qed.
Lemma snoc_cases : forall (a b : text) x r, a ++ b = r ++ [x] ->
  (b = [] /\ a = r ++ [x]) \/ exists r', b = r' ++ [x].
Proof.
  intros a b x r E. destruct b as [|y b'] using rev_ind.
  - left. rewrite app_nil_r in E. auto.
  - right. rewrite app_assoc in E. apply app_inj_tail in E as [_ ->]. exists b'. reflexivity.
Qed.

Section Express.
Variable ww : text.
Hypothesis Hw : CleanWrap ww.

Lemma ww_nonempty : ww <> [].
Proof. exact (proj1 (proj1 Hw)). Qed.
Lemma ww_chars : forall x, In x ww -> Mild x /\ ~ Space x /\ ~ Blank x /\ ~ In x $"#{}$%|()~!@: " /\ ~ In x $"/*,".
Proof.
  destruct Hw as ((_ & H1) & H2). rewrite Forall_forall in H1, H2. intros x Hx.
  destruct (H1 x Hx) as [A B], (H2 x Hx) as [C D]. repeat split; auto.
  - intros ->. apply A. left. reflexivity.
  - intros ->. apply B. right. left. reflexivity.
  - intros ->. apply D. left. reflexivity.
  - intros ->. apply A. do 3 right. left. reflexivity.
  - intros [<-|[<-|[]]]; [apply D; right; right; left; reflexivity|apply A; do 7 right; left; reflexivity].
Qed.
Lemma ww_mild : Forall Mild ww.
Proof. apply Forall_forall. intros x Hx. apply ww_chars, Hx. Qed.

Definition Begin (x : N) : Prop := In x $"{$%" \/ In x ww.
Definition Finish (x : N) : Prop := x = 125%N \/ In x ww.
Lemma Begin_facts : forall x, Begin x -> x <> 47%N /\ x <> 42%N /\ ~ Space x /\ ~ Blank x /\ ~ In x $"~!@".
Proof.
  intros x [H|H].
  - assert (Hx : x = 123%N \/ x = 36%N \/ x = 37%N) by (cbn in H; intuition congruence).
    repeat split; try (intuition congruence); unfold Space, Blank; cbn; intros E; intuition congruence.
  - destruct (ww_chars x H) as (A & B & C & D & E). repeat split; auto.
    + intros ->. apply E. left. reflexivity.
    + intros ->. apply E. right. left. reflexivity.
    + intros F. apply D. cbn in F |- *. intuition congruence.
Qed.
Lemma Finish_facts : forall x, Finish x -> x <> 47%N /\ ~ Space x.
Proof.
  intros x [->|H]; [split; [discriminate|unfold Space; cbn; intuition discriminate]|].
  destruct (ww_chars x H) as (A & B & C & D & E). split; auto. intros ->. apply E. left. reflexivity.
Qed.

(** The text begins like an element that is not a literal. *)
Definition Head (t : text) : Prop := exists x r, t = x :: r /\ (In x $"{$%" \/ StartsWith t ww).
Lemma Head_Begin : forall t x r, Head t -> t = x :: r -> Begin x.
Proof.
  intros t x r (y & s & -> & H) E. injection E as <- <-. destruct H as [H|[q H]]; [left; exact H|right].
  assert (Hn : forall w, w <> [] -> y :: s = w ++ q -> In y w).
  { intros [|z w] Hz Ez; [congruence|]. injection Ez as -> _. left. reflexivity. }
  exact (Hn ww ww_nonempty H).
Qed.
Lemma Head_app : forall t r, Head t -> Head (t ++ r).
Proof.
  intros t r (x & s & -> & H). exists x, (s ++ r). split; [reflexivity|].
  destruct H as [H|[q H]]; [left; exact H|right]. exists (q ++ r). rewrite H, <- app_assoc. reflexivity.
Qed.
Lemma Head_Soft : forall t, Head t -> Soft t.
Proof. intros t H x r E. destruct (Begin_facts x (Head_Begin t x r H E)) as (A & B & _). auto. Qed.

Definition ElemOk (v : bool) (p : place) (c : command) : Prop :=
  exists t, Elem ww p c t /\ Good v t /\ Head t /\ (forall x r, t = r ++ [x] -> Finish x).

Definition Follow (p : place) (z : text) (cs : list command) : Prop :=
  z = [] \/ z = ww \/
  (p = Path /\ StartsWith z $"(" /\ forall pre t m, cs = pre ++ [Lit t m] -> ~ Blanks t).

Definition After (p : place) (a : text) : Prop :=
  a = [] \/ StartsWith a ww \/ exists x r, a = x :: r /\ ~ Ordinary p x /\ ~ In x ww.
Lemma After_nowrap : forall p t a, NoWrapIn ww t ww -> After p a -> NoWrapIn ww t a.
Proof.
  intros p t after H HA a b E. destruct (le_lt_dec (length t) (length a)) as [L|L]; [exact L|exfalso].
  assert (HC : forall l, t = (a ++ ww) ++ l -> False).
  { intros l ->. assert (K : length ((a ++ ww) ++ l) <= length a); [|lia].
    apply (H a (l ++ ww)). rewrite <- !app_assoc. reflexivity. }
  destruct HA as [->|[[q ->]|(x & r & -> & _ & Hx)]].
  - rewrite app_nil_r in E. apply (HC b). rewrite <- app_assoc. exact E.
  - assert (K : length t <= length a); [|lia].
    rewrite !app_assoc in E. apply app_eq_app in E as (l & [[E _]|[E _]]).
    + apply (H a l). rewrite E, <- app_assoc. reflexivity.
    + assert (l = []) as ->.
      { apply (f_equal (@length N)) in E. rewrite !app_length in E. destruct l; [reflexivity|cbn in E; lia]. }
      rewrite app_nil_r in E. apply (H a []). rewrite app_nil_r. symmetry. exact E.
  - rewrite app_assoc in E. apply app_eq_app in E as (l & [[E _]|[E E']]); [exact (HC l E)|].
    destruct l as [|y l]; [apply (HC []); rewrite E, !app_nil_r; reflexivity|].
    injection E' as -> _. apply app_eq_app in E as (l' & [[E1 E2]|[E1 E2]]).
    + apply (f_equal (@length N)) in E1. rewrite app_length in E1. lia.
    + apply Hx. rewrite E2. apply in_or_app. right. left. reflexivity.
Qed.
Lemma After_break : forall p a, After p a -> Break ww p a.
Proof. intros p a [H|[H|(x & r & H & H1 & _)]]; [left|right; left|right; right; exists x, r]; auto. Qed.
Lemma Head_After : forall p t, Head t -> After p t.
Proof.
  intros p t (x & r & -> & [H|H]); [|right; left; exact H].
  right; right. exists x, r. split; [reflexivity|]. split.
  - intros HO. cbn in H. destruct p; cbn in HO; apply HO; intuition.
  - intros Hx. apply ww_chars in Hx as (_ & _ & _ & Hx & _). apply Hx. cbn in H |- *. intuition.
Qed.
Lemma paren_not_ww : ~ StartsWith ww $"(".
Proof.
  intros [q E]. assert (H : In 40%N ww) by (rewrite E; left; reflexivity).
  apply ww_chars in H as (_ & _ & _ & H & _). apply H. do 6 right. left. reflexivity.
Qed.
Lemma Head_not_paren : forall t, Head t -> ~ StartsWith t $"(".
Proof.
  intros t H [q E]. apply (Head_Begin t 40%N q H) in E. destruct E as [E|E].
  - cbn in E. intuition discriminate.
  - apply ww_chars in E as (_ & _ & _ & E & _). apply E. do 6 right. left. reflexivity.
Qed.
Lemma Legible_good : forall v p t, Legible ww v p t -> Good v t.
Proof.
  intros v p t (H1 & H2 & H3 & H4 & H5). repeat split; [apply unc_calm, H4| |exact H5].
  apply fine_free. eapply Forall_impl; [|exact H2]. intros c Hc ->. destruct p; apply Hc; cbn; auto.
Qed.

Definition Ready (v : bool) (p : place) (c : command) : Prop :=
  (exists t, c = Lit t None /\ Legible ww v p t) \/ (ElemOk v p c /\ ~ IsLiteral c).

Lemma Apart_tail : forall c cs, Apart (c :: cs) -> Apart cs.
Proof. intros c cs H pre a b post ->. apply (H (c :: pre) a b post). reflexivity. Qed.

Lemma elems_exist : forall v p cs, Forall (Ready v p) cs -> Apart cs ->
  exists t, (forall z, Follow p z cs -> Elems ww p z cs t) /\ Good v t /\ (cs <> [] -> t <> []) /\
    (cs = [] -> t = []) /\
    (forall c cs', cs = c :: cs' -> ~ IsLiteral c -> Head t) /\
    (forall x r, t = x :: r -> (exists c cs', cs = c :: cs' /\ Opening c x) \/ Begin x) /\
    (forall x r, t = r ++ [x] -> (exists c cs', cs = cs' ++ [c] /\ Closing c x) \/ Finish x).
Proof.
  intros v p cs H. induction H as [|c cs Hc Hcs IH]; intros HA.
  - exists []. split; [intros; constructor|]. split; [apply Good_nil|].
    repeat split; try congruence.
    intros x r E. destruct r; discriminate E.
  - destruct (IH (Apart_tail _ _ HA)) as (r & H1 & H2 & H3 & H4 & H5 & H6 & H7).
    assert (HF : forall z, Follow p z (c :: cs) -> Follow p z cs).
    { intros z [E|[E|(E1 & E2 & E3)]]; [left|right; left|right; right]; auto.
      repeat split; auto. intros pre t m ->. apply (E3 (c :: pre) t m). reflexivity. }
    assert (HL : forall x s, r = s ++ [x] -> (exists d cs', c :: cs = cs' ++ [d] /\ Closing d x) \/ Finish x).
    { intros x s E. destruct (H7 x s E) as [(d & cs' & -> & Hd)|Hd]; [left|right; exact Hd].
      exists d, (c :: cs'). split; [reflexivity|exact Hd]. }
    destruct Hc as [(t & -> & HT)|[(t & HE & HG & HH & HE') HN]].
    + assert (HR : cs = [] /\ r = [] \/ Head r).
      { destruct cs as [|d cs]; [left; auto|right]. apply (H5 d cs eq_refl).
        intros Hd. apply (HA [] (Lit t None) d cs eq_refl). split; [exists t, None; reflexivity|exact Hd]. }
      pose proof (Legible_good v p t HT) as HG. destruct HT as (T1 & T2 & T3 & T4).
      exists (t ++ r). repeat split.
      * intros z Hz.
        assert (HAz : After p (r ++ z) /\ (Blanks t -> ~ StartsWith (r ++ z) $"(")).
        { destruct HR as [[-> ->]|HR].
          - cbn [List.app]. destruct Hz as [->|[->|(-> & [q ->] & Hz)]].
            + split; [left; reflexivity|]. intros _ [q E]. discriminate E.
            + split; [right; left; exists []; symmetry; apply app_nil_r|]. intros _. apply paren_not_ww.
            + split; [|intros Hb; exfalso; exact (Hz [] t None eq_refl Hb)].
              right; right. exists 40%N, q. split; [reflexivity|]. split.
              * intros HO. apply HO. cbn. auto 10.
              * intros HI. apply ww_chars in HI as (_ & _ & _ & HI & _). apply HI. cbn. auto 10.
          - split; [apply Head_After, Head_app, HR|]. intros _. apply Head_not_paren, Head_app, HR. }
        destruct HAz as [Ha Hb]. apply (Elems_literal ww p p); auto.
        { left; reflexivity. }
        { apply (After_nowrap p); auto. }
        { apply After_break, Ha. }
      * apply (Good_app v t r); auto. destruct HR as [[_ ->]|HR]; [intros x q E; discriminate E|apply Head_Soft, HR].
      * apply (Good_app v t r); auto. destruct HR as [[_ ->]|HR]; [intros x q E; discriminate E|apply Head_Soft, HR].
      * apply quiet_app; [apply HG|apply H2].
      * intros _ E. apply app_eq_nil in E as [E _]. auto.
      * discriminate.
      * intros d cs' E Hd. injection E as <- _. exfalso. apply Hd. exists t, None. reflexivity.
      * intros x q E. left. exists (Lit t None), cs. split; [reflexivity|].
        destruct t as [|y t]; [congruence|]. injection E as <- _. constructor.
      * intros x q E. apply snoc_cases in E as [[-> ->]|[q' E]]; [|exact (HL x q' E)].
        destruct cs as [|d cs]; [|exfalso; apply H3; [discriminate|reflexivity]].
        left. exists (Lit (q ++ [x]) None), []. split; [reflexivity|constructor].
    + exists (t ++ r). repeat split.
      * intros z Hz. apply Elems_cons; [exact HE|]. apply H1, HF, Hz.
      * apply calm_app'; [apply HG|apply H2|]. intros x q E. apply Finish_facts, (HE' x q E).
      * apply fine_app; [apply HG|apply H2].
      * apply quiet_app; [apply HG|apply H2].
      * intros _ E. apply app_eq_nil in E as [-> _]. destruct HH as (x & q & E & _). discriminate E.
      * discriminate.
      * intros _ _ _ _. apply Head_app, HH.
      * intros x q E. right. apply (Head_Begin (t ++ r) x q); [apply Head_app, HH|exact E].
      * intros x q E. apply snoc_cases in E as [[-> ->]|[q' E]]; [|exact (HL x q' E)].
        right. apply (HE' x q eq_refl).
Qed.

Definition SayOk (v : bool) (p : place) (c : command) : Prop :=
  exists cs t, Together cs c /\ (Nonempty c -> cs <> []) /\
    (forall z, Follow p z cs -> Elems ww p z cs t) /\ Good v t /\
    (forall x r, t = x :: r -> Opening c x \/ Begin x) /\
    (forall x r, t = r ++ [x] -> Closing c x \/ Finish x) /\
    (forall pre u m, cs = pre ++ [Lit u m] -> LastText c u).

Lemma ready_one : forall v p c, Ready v p c -> SayOk v p c.
Proof.
  intros v p c H. destruct (elems_exist v p [c]) as (t & H1 & H2 & H3 & H4 & H5 & H6 & H7).
  - constructor; [exact H|constructor].
  - intros pre a b post E. exfalso. apply (f_equal (@length _)) in E. rewrite app_length in E. cbn in E. lia.
  - exists [c], t. split; [constructor|]. split; [discriminate|]. split; [exact H1|]. split; [exact H2|].
    split; [|split].
    + intros x r E. destruct (H6 x r E) as [(d & cs' & E' & Hd)|Hd]; [left|right; exact Hd].
      injection E' as -> _. exact Hd.
    + intros x r E. destruct (H7 x r E) as [(d & cs' & E' & Hd)|Hd]; [left|right; exact Hd].
      destruct cs' as [|e [|? ?]]; try discriminate E'. injection E' as ->. exact Hd.
    + intros pre u m E. destruct pre as [|e [|? ?]]; try discriminate E. injection E as ->. constructor.
Qed.
Lemma ready_many : forall v p cs, length cs <> 1 -> Forall (Ready v p) cs -> Apart cs -> SayOk v p (Seq cs [] None).
Proof.
  intros v p cs Hl H HA. destruct (elems_exist v p cs H HA) as (t & H1 & H2 & H3 & H4 & H5 & H6 & H7).
  exists cs, t. split; [constructor; exact Hl|]. split.
  { intros [HN _] ->. apply (HN [] None). reflexivity. }
  split; [exact H1|]. split; [exact H2|]. split; [|split].
  - intros x r E. destruct (H6 x r E) as [(d & cs' & -> & Hd)|Hd]; [left; constructor; exact Hd|right; exact Hd].
  - intros x r E. destruct (H7 x r E) as [(d & cs' & -> & Hd)|Hd]; [left; constructor; exact Hd|right; exact Hd].
  - intros pre u m ->. constructor.
Qed.
Lemma SayOk_prompt : forall v p c, SayOk v p c -> exists t, Prompt ww p c t /\ Good v t /\
    (forall x r, t = x :: r -> Opening c x \/ Begin x) /\ (forall x r, t = r ++ [x] -> Closing c x \/ Finish x).
Proof.
  intros v p c (cs & t & H1 & _ & H2 & H3 & H4 & H5 & _). exists t. split; [|auto].
  apply (Prompt_elems ww p cs); auto. apply H2. left. reflexivity.
Qed.

(** * Variants *)
Lemma options_exist : forall v vs, vs <> [] ->
  Forall (fun o => SayOk v Inside (fst o) /\ Decimal (snd o)) vs ->
  exists o, Options ww vs o /\ Good v o.
Proof.
  intros v vs Hn H.
  assert (H1 : Forall (fun o => exists t, Option ww o t /\ Good v t /\ exists x r, t = x :: r /\ Mild x /\ x <> 42%N) vs).
  { eapply Forall_impl; [|exact H]. intros [c q] [Hc Hq]. cbn [fst snd] in *.
    destruct (SayOk_prompt _ _ _ Hc) as (t & Ht & HG & _ & _). destruct (Weight_exists q Hq) as (wt & Hwt & Hm).
    exists ([] ++ wt ++ $"::" ++ t). split; [apply Option_weighted; auto; constructor|]. cbn [List.app]. split.
    - apply Good_mild; [exact Hm|]. apply (Good_mild v $"::"); [apply mild_check; reflexivity|exact HG].
    - destruct wt as [|x wt]; [exfalso|].
      + inversion Hwt as [ds n HN E|sign negative ip fp n q' Hs HN Hq' E].
        * subst. inversion HN as [|ds' ? ? ? ? E']. destruct ds'; discriminate E'.
        * destruct sign; [|discriminate]. destruct ip; discriminate.
      + exists x, (wt ++ $"::" ++ t). split; [reflexivity|]. inversion Hm as [|? ? Hx _]. split; [exact Hx|].
        intros ->. assert (Hin : In 42%N (42%N :: wt)) by (left; reflexivity). revert Hin.
        assert (HD : forall l n, Numeral l n -> In 42%N l -> False).
        { intros ds' n' HN Hi. apply Numeral_digits in HN. rewrite Forall_forall in HN. apply HN in Hi. lia. }
        inversion Hwt as [ds n HN E|sign negative ip fp n q' Hs HN Hq' E].
        * intros Hi. exact (HD _ _ HN Hi).
        * intros Hi. apply in_app_or in Hi as [Hi|Hi].
          { destruct Hs as [[-> _]|[[-> _]|[-> _]]]; cbn in Hi; intuition discriminate. }
          apply in_app_or in Hi as [Hi|Hi]; [apply (HD _ _ HN), in_or_app; auto|].
          destruct Hi as [Hi|Hi]; [discriminate Hi|]. apply (HD _ _ HN), in_or_app; auto. }
  clear H. assert (H2 : exists o, Options ww vs o /\ Good v o /\ Soft o); [|destruct H2 as (o & A & B & _); exists o; auto].
  induction H1 as [|o vs (t & H1 & H2 & x & r & E & Hm & Hx) Hvs IH]; [congruence|].
  assert (Hs : Soft t).
  { intros y s E'. rewrite E in E'. injection E' as <- _. split; [apply Hm|exact Hx]. }
  destruct vs as [|o' vs].
  - exists t. split; [constructor; exact H1|]. auto.
  - destruct IH as (r' & A & B & C); [discriminate|]. exists (t ++ $"|" ++ r'). split; [constructor; assumption|]. split.
    + apply Good_app; [exact H2| |].
      * apply (Good_mild v $"|"); [apply mild_check; reflexivity|exact B].
      * intros y s E'. injection E' as <- _. split; discriminate.
    + intros y s E'. rewrite E in E'. injection E' as <- _. split; [apply Hm|exact Hx].
Qed.

Lemma bound_exists : forall count lo hi, (0 <= lo <= hi)%Z -> exists b, BoundText count b lo hi /\ Forall Mild b.
Proof.
  intros count lo hi H. destruct (Numeral_exists 0 (Z.to_N lo)) as (ds & Hd & _).
  destruct (Numeral_exists 0 (Z.to_N hi)) as (es & He & _).
  exists (ds ++ $"-" ++ es). split.
  - rewrite <- (Z2N.id lo), <- (Z2N.id hi) by lia. constructor; assumption.
  - apply Forall_app. split; [exact (digits_mild _ (Numeral_digits _ _ Hd))|].
    constructor; [|exact (digits_mild _ (Numeral_digits _ _ He))].
    unfold Mild, Free. cbn. repeat split; intuition discriminate.
Qed.

Lemma last_brace : forall a x r, a ++ $"}" = r ++ [x] -> Finish x.
Proof. intros a x r E. apply app_inj_tail in E as [_ <-]. left. reflexivity. Qed.

Lemma variants_ok : forall v p vs lo hi sep m,
  vs <> [] -> (0 <= lo <= hi)%Z -> sep = $"," \/ (SeparatorText sep /\ Utterable v sep) ->
  Forall (fun o => SayOk v Inside (fst o) /\ Decimal (snd o)) vs ->
  ElemOk v p (Var vs lo hi sep m).
Proof.
  intros v p vs lo hi sep m Hn Hb Hs HV.
  destruct (options_exist v vs Hn HV) as (o & Ho & HG).
  destruct (Mark_exists m) as (mark & Hm & Hmm).
  destruct (bound_exists (length vs) lo hi Hb) as (b & Hbt & Hbm).
  assert (Hbs : exists bt, BoundsText (length vs) o bt lo hi sep /\ bt <> [] /\ calm bt = true /\ quiet v bt /\
            calm (bt ++ o ++ $"}") = true).
  { assert (Ho' : calm (o ++ $"}") = true).
    { apply calm_app; [apply HG|reflexivity|]. intros x r E. injection E as <- _. split; discriminate. }
    assert (Hdd : Forall Free $"$$") by (repeat constructor; discriminate).
    destruct Hs as [->|[Hs [Hu Hq]]].
    - exists (b ++ $"$$" ++ []). split; [|split; [|split; [|split]]].
      + apply Bounds_default; [exact Hbt|constructor|]. intros sep r HS. cbn [List.app]. apply fine_separator; [apply HG|exact HS].
      + intros E. apply app_eq_nil in E as [_ E]. discriminate E.
      + apply calm_free; [apply Mild_Free, Hbm|]. reflexivity.
      + apply quiet_app; [apply Mild_quiet, Hbm|]. apply quiet_free. repeat constructor; cbn; intuition discriminate.
      + rewrite app_nil_r, <- app_assoc. apply calm_free; [apply Mild_Free, Hbm|]. apply calm_free; [exact Hdd|exact Ho'].
    - exists (b ++ $"$$" ++ sep ++ $"$$" ++ []). split; [|split; [|split; [|split]]].
      + apply Bounds_separator; auto. constructor.
      + intros E. apply app_eq_nil in E as [_ E]. discriminate E.
      + apply calm_free; [apply Mild_Free, Hbm|]. apply calm_free; [exact Hdd|].
        apply calm_app; [apply unc_calm, Hu|reflexivity|]. intros x r E. injection E as <- _. split; discriminate.
      + apply quiet_app; [apply Mild_quiet, Hbm|]. apply quiet_app; [apply quiet_free; repeat constructor; cbn; intuition discriminate|].
        apply quiet_app; [exact Hq|]. apply quiet_free; repeat constructor; cbn; intuition discriminate.
      + rewrite app_nil_r, <- !app_assoc. apply calm_free; [apply Mild_Free, Hbm|]. apply calm_free; [exact Hdd|].
        apply calm_app; [apply unc_calm, Hu|apply calm_free; [exact Hdd|exact Ho']|].
        intros x r E. injection E as <- _. split; discriminate. }
  destruct Hbs as (bt & B1 & B2 & B3 & B4 & B5).
  exists ($"{" ++ [] ++ mark ++ bt ++ o ++ $"}"). split; [|split; [|split]].
  - replace (Var vs lo hi sep m) with (Var vs (Z.min lo hi) (Z.max lo hi) sep m) by (f_equal; lia).
    apply E_variants; auto; try solve [constructor]; intros; congruence.
  - cbn [List.app]. repeat split.
    + apply (calm_free $"{"); [repeat constructor; discriminate|]. apply calm_free; [apply Mild_Free, Hmm|exact B5].
    + apply (quiet_app v $"{"); [apply Mild_quiet, mild_check; reflexivity|].
      apply quiet_app; [apply Mild_quiet, Hmm|]. apply quiet_app; [exact B4|]. apply quiet_app; [apply HG|].
      apply Mild_quiet, mild_check; reflexivity.
  - exists 123%N, ([] ++ mark ++ bt ++ o ++ $"}"). split; [reflexivity|]. left. left. reflexivity.
  - intros x r E. rewrite !app_assoc in E. exact (last_brace _ _ _ E).
Qed.

(** * Variables and wraps *)
(** What stands in braces. *)
Lemma good_braces : forall v open t, calm open = true -> quiet v open -> fine open = true -> Good v t ->
  (forall x r, open = r ++ [x] -> x <> 47%N) -> Good v (open ++ t ++ $"}").
Proof.
  intros v open t H1 H2 H3 (T1 & T2 & T3) H4. repeat split.
  - apply calm_app'; auto. apply calm_app; [exact T1|reflexivity|]. intros x r E. injection E as <- _. split; discriminate.
  - apply fine_app; [exact H3|]. apply fine_app; [exact T2|reflexivity].
  - apply quiet_app; [exact H2|]. apply quiet_app; [exact T3|]. apply Mild_quiet, mild_check; reflexivity.
Qed.
Lemma open_access : forall v x rest, Forall Mild x -> Forall Mild rest ->
  let o := $"${" ++ x ++ rest in
  calm o = true /\ quiet v o /\ fine o = true /\ (forall y r, o = r ++ [y] -> y <> 47%N).
Proof.
  intros v x rest Hx Hr o. assert (Hf : Forall Free o).
  { unfold o. apply Forall_app. split; [repeat constructor; discriminate|]. apply Forall_app. split; apply Mild_Free; assumption. }
  split; [rewrite <- (app_nil_r o); apply calm_free; [exact Hf|reflexivity]|]. split.
  { apply quiet_app; [apply quiet_free; repeat constructor; cbn; intuition discriminate|]. apply quiet_app; apply Mild_quiet; assumption. }
  split; [unfold o; cbn [of_string List.app fine]; apply startswith_spec; eexists; reflexivity|]. intros y r E. rewrite E in Hf. apply Forall_app in Hf as [_ Hf]. inversion Hf as [|? ? (_ & _ & H) _]. exact H.
Qed.
Lemma nb_start : forall c t, (forall b, Opening c b -> ~ Blank b) ->
  (forall x r, t = x :: r -> Opening c x \/ Begin x) -> ~ BlankStart t.
Proof.
  intros c t H1 H2 (x & r & E & Hb). destruct (H2 x r E) as [Ho|Ho]; [exact (H1 x Ho Hb)|].
  apply Begin_facts in Ho. tauto.
Qed.

Lemma access_ok : forall v p x, p <> Path -> NameText x -> ElemOk v p (Access x None).
Proof.
  intros v p x Hp Hx. destruct (Name_mild x Hx) as (Hm & _ & _).
  destruct (open_access v x [] Hm (Forall_nil _)) as (A & B & C & D).
  exists ($"${" ++ [] ++ x ++ [] ++ $"}"). split; [apply E_access; auto; constructor|]. split; [|split].
  - cbn [List.app]. pose proof (good_braces v _ [] A B C (Good_nil v) D) as H. rewrite app_nil_r in H. cbn [List.app] in H. exact H.
  - exists 36%N, ($"{" ++ [] ++ x ++ [] ++ $"}"). split; [reflexivity|]. left. right. left. reflexivity.
  - intros y r E. rewrite !app_assoc in E. exact (last_brace _ _ _ E).
Qed.
Lemma access_default_ok : forall v p x c, p <> Path -> NameText x -> SayOk v Inside c ->
  (forall b, Opening c b -> ~ Blank b) -> ElemOk v p (Access x (Some c)).
Proof.
  intros v p x c Hp Hx Hc Hb. destruct (Name_mild x Hx) as (Hm & _ & _).
  destruct (SayOk_prompt _ _ _ Hc) as (t & Ht & HG & H1 & H2).
  destruct (open_access v x $":" Hm) as (A & B & C & D); [apply mild_check; reflexivity|].
  exists ($"${" ++ [] ++ x ++ [] ++ $":" ++ [] ++ t ++ $"}"). split; [|split; [|split]].
  - apply E_access_default; auto; try constructor. apply (nb_start c); assumption.
  - cbn [List.app]. pose proof (good_braces v _ t A B C HG D) as H. rewrite <- !app_assoc in H. cbn [List.app] in H. exact H.
  - exists 36%N, ($"{" ++ [] ++ x ++ [] ++ $":" ++ [] ++ t ++ $"}"). split; [reflexivity|]. left. right. left. reflexivity.
  - intros y r E. rewrite !app_assoc in E. exact (last_brace _ _ _ E).
Qed.
Lemma path_access_ok : forall v x t, NameText x -> Legible ww v Inside t ->
  (forall b, Opening (Lit t None) b \/ Closing (Lit t None) b -> ~ Space b) ->
  ElemOk v Path (Access x (Some (Lit t None))).
Proof.
  intros v x t Hx Ht Hb. destruct (Name_mild x Hx) as (Hm & _ & _).
  destruct (open_access v x $":" Hm) as (A & B & C & D); [apply mild_check; reflexivity|].
  pose proof (Legible_good _ _ _ Ht) as HG.
  assert (Hp : Prompt ww Inside (Lit t None) t).
  { apply (Prompt_elems ww Inside [Lit t None]); [|constructor]. rewrite <- (app_nil_r t) at 2.
    destruct Ht as (T1 & T2 & T3 & T4). apply (Elems_literal ww Inside Inside); auto.
    - left; reflexivity.
    - apply (After_nowrap Inside); auto. left. reflexivity.
    - left. reflexivity.
    - intros _ [q E]. discriminate E.
    - constructor. }
  exists ($"${" ++ [] ++ x ++ [] ++ $":" ++ [] ++ t ++ $"}"). split; [|split; [|split]].
  - apply E_path_access_default; auto; try constructor.
    + intros (y & r & -> & Hy). apply (Hb y); [left; constructor|]. unfold Blank in Hy. unfold Space. cbn in Hy |- *. intuition.
    + exists [], []. rewrite app_nil_r. repeat split; auto.
      * intros y r ->. apply Hb. left. constructor.
      * intros y r ->. apply Hb. right. constructor.
  - cbn [List.app]. pose proof (good_braces v _ t A B C HG D) as H. rewrite <- !app_assoc in H. cbn [List.app] in H. exact H.
  - exists 36%N, ($"{" ++ [] ++ x ++ [] ++ $":" ++ [] ++ t ++ $"}"). split; [reflexivity|]. left. right. left. reflexivity.
  - intros y r E. rewrite !app_assoc in E. exact (last_brace _ _ _ E).
Qed.
Lemma assign_ok : forall v x c (imm ovr : bool), NameText x -> SayOk v Inside c ->
  (forall b, Opening c b -> ~ Blank b /\ (imm = false -> b <> 33%N)) -> ElemOk v Top (Assign x c imm ovr).
Proof.
  intros v x c imm ovr Hx Hc Hb. destruct (Name_mild x Hx) as (Hm & _ & _).
  destruct (SayOk_prompt _ _ _ Hc) as (t & Ht & HG & H1 & H2).
  set (rest := (if negb ovr then $"?" else []) ++ $"=" ++ (if imm then $"!" else [])).
  destruct (open_access v x rest Hm) as (A & B & C & D); [destruct ovr, imm; apply mild_check; reflexivity|].
  exists ($"${" ++ [] ++ x ++ [] ++ (if negb ovr then $"?" else []) ++ $"=" ++ (if imm then $"!" else []) ++ [] ++ t ++ $"}").
  split; [|split; [|split]].
  - rewrite <- (negb_involutive ovr) at 1. apply E_assign; auto; try constructor.
    + apply (nb_start c); [|exact H1]. intros b Ho. apply Hb, Ho.
    + intros -> [q E]. cbn [List.app] in E. destruct (H1 33%N q E) as [Ho|Ho].
      * apply (Hb 33%N Ho); reflexivity.
      * apply Begin_facts in Ho as (_ & _ & _ & _ & Ho). apply Ho. right. left. reflexivity.
  - cbn [List.app]. pose proof (good_braces v _ t A B C HG D) as H. unfold rest in H. rewrite <- !app_assoc in H. cbn [List.app] in H. exact H.
  - eexists 36%N, _. split; [reflexivity|]. left. right. left. reflexivity.
  - intros y r E. rewrite !app_assoc in E. exact (last_brace _ _ _ E).
Qed.
Lemma wrap_ok : forall v p w i, p <> Path -> SayOk v Inside w -> SayOk v Inside i ->
  (forall b, Opening w b \/ Opening i b -> ~ Blank b) -> ElemOk v p (Wrap w i None).
Proof.
  intros v p w i Hp H1 H2 Hb.
  destruct (SayOk_prompt _ _ _ H1) as (t1 & T1 & G1 & A1 & _).
  destruct (SayOk_prompt _ _ _ H2) as (t2 & T2 & G2 & A2 & _).
  exists ($"%{" ++ [] ++ t1 ++ $"$$" ++ [] ++ t2 ++ $"}"). split; [|split; [|split]].
  - apply E_wrap; auto; try constructor; [apply (nb_start w)|apply (nb_start i)]; auto.
  - cbn [List.app]. repeat split.
    + apply (calm_free $"%{"); [repeat constructor; discriminate|]. apply calm_app; [apply G1| |].
      * apply (calm_free $"$$"); [repeat constructor; discriminate|]. apply calm_app; [apply G2|reflexivity|].
        intros x r E. injection E as <- _. split; discriminate.
      * intros x r E. injection E as <- _. split; discriminate.
    + apply (quiet_app v $"%{"); [apply Mild_quiet, mild_check; reflexivity|]. apply quiet_app; [apply G1|].
      apply (quiet_app v $"$$"); [apply quiet_free; repeat constructor; cbn; intuition discriminate|].
      apply quiet_app; [apply G2|]. apply Mild_quiet, mild_check; reflexivity.
  - eexists 37%N, _. split; [reflexivity|]. left. right. right. left. reflexivity.
  - intros y r E. rewrite !app_assoc in E. exact (last_brace _ _ _ E).
Qed.

(** * Wildcards *)
Lemma variables_exist : forall vars, vars <> [] ->
  Forall (fun kv => NameText (fst kv) /\ SayOk true Top (snd kv) /\
    forall b, Opening (snd kv) b \/ Closing (snd kv) b -> ~ Space b) vars ->
  exists vt, Variables ww vars vt /\ Good false vt /\ vt <> [] /\ Soft vt.
Proof.
  intros vars Hn H.
  assert (H1 : Forall (fun kv => exists t, Variable_ ww (fst kv) (snd kv) t /\ Good false t /\ t <> [] /\ Soft t) vars).
  { eapply Forall_impl; [|exact H]. intros [x c] (Hx & Hc & Hb). cbn [fst snd] in *.
    destruct (Name_mild x Hx) as (Hm & Hne & Hch). destruct (SayOk_prompt _ _ _ Hc) as (t & Ht & HG & A1 & A2).
    exists (x ++ $"=" ++ t). split; [|split; [|split]].
    - apply (Variable_value ww x c t); auto.
      + apply Forall_forall. intros b Hi. apply Hch, Hi.
      + exists [], []. rewrite app_nil_r. repeat split; auto.
        * intros b r ->. apply Hch. left. reflexivity.
        * intros b r ->. apply Hch, in_or_app. right. left. reflexivity.
      + apply HG. reflexivity.
      + exists [], []. rewrite app_nil_r. repeat split; auto.
        * intros b r E. destruct (A1 b r E) as [Ho|Ho]; [apply Hb; auto|]. apply Begin_facts in Ho. tauto.
        * intros b r E. destruct (A2 b r E) as [Ho|Ho]; [apply Hb; auto|]. apply Finish_facts in Ho. tauto.
    - apply Good_mild; [exact Hm|]. apply (Good_mild false $"="); [apply mild_check; reflexivity|].
      destruct HG as (G1 & G2 & _). repeat split; auto. intros E. discriminate E.
    - destruct x; [congruence|discriminate].
    - destruct x as [|y x]; [congruence|]. intros b r E. injection E as <- _. split.
      + inversion Hm as [|? ? Hy _]. apply Hy.
      + intros ->. destruct Hx as (z & s & E & Hz & _). injection E as <- _. unfold NameStart, Letter in Hz. lia. }
  clear H. induction H1 as [|[x c] vars (t & H1 & H2 & H3 & H4) Hvs IH]; [congruence|]. cbn [fst snd] in H1.
  destruct vars as [|kv vars].
  - exists t. split; [constructor; exact H1|]. auto.
  - destruct IH as (r & A & B & C & D); [discriminate|]. exists (t ++ $"," ++ r). split; [constructor; assumption|].
    split; [|split].
    + apply Good_app; [exact H2| |].
      * destruct B as (B1 & B2 & _). repeat split; [apply (calm_free $","); [repeat constructor; discriminate|exact B1]|exact B2|].
        intros E. discriminate E.
      * intros y s E. injection E as <- _. split; discriminate.
    + destruct t; [congruence|discriminate].
    + intros y s E. destruct t as [|z t]; [congruence|]. injection E as <- _. apply (H4 z t eq_refl).
Qed.
Lemma same_variables : forall vars : list (text * command),
  StronglySorted (fun a b => TextLe (fst a) (fst b) /\ fst a <> fst b) vars -> SameVariables vars vars.
Proof.
  intros vars H. assert (HN : NoDup (map fst vars)).
  { induction H as [|a l Hl IH Ha]; [constructor|]. cbn. constructor; [|exact IH].
    intros Hi. apply in_map_iff in Hi as (b & E & Hb). rewrite Forall_forall in Ha. destruct (Ha b Hb) as [_ K]. congruence. }
  split; [exact HN|]. split.
  - clear HN. induction H as [|a l Hl IH Ha]; constructor; [exact IH|]. eapply Forall_impl; [|exact Ha]. intros b [E _]. exact E.
  - intros x c. split.
    + intros Hi. apply in_split in Hi as (l1 & l2 & ->). exists l1, l2. split; [reflexivity|].
      rewrite map_app in HN. cbn in HN. apply NoDup_remove_2 in HN. intros E. apply HN, in_or_app. right. exact E.
    + intros (l1 & l2 & -> & _). apply in_or_app. right. left. reflexivity.
Qed.

Lemma wildcard_ok : forall v p c path m vars, p <> Path ->
  PathOf c path -> SayOk v Path c -> Nonempty c ->
  (m = None -> forall b, Opening c b -> ~ In b $"~!@") ->
  (vars <> [] -> v = false /\ forall t, LastText c t -> ~ Blanks t) ->
  StronglySorted (fun a b => TextLe (fst a) (fst b) /\ fst a <> fst b) vars ->
  Forall (fun kv => NameText (fst kv) /\ SayOk true Top (snd kv) /\
      forall b, Opening (snd kv) b \/ Closing (snd kv) b -> ~ Space b) vars ->
  ElemOk v p (Wild path m vars).
Proof.
  intros v p c path m vars Hp HP (cs & t & HT & HC & HE & HG & H1 & H2 & H3) HN Hm Hv Hs HV.
  destruct (Mark_exists m) as (mark & Hk & Hkm).
  assert (Hms : m = None -> ~ MarkStart t).
  { intros Em (x & r & E & Hx). destruct (H1 x r E) as [Ho|Ho]; [exact (Hm Em x Ho Hx)|].
    apply Begin_facts in Ho. tauto. }
  assert (Hwg : forall u, Good v (u ++ ww) -> Good v (ww ++ mark ++ u ++ ww)).
  { intros u Hu. apply Good_mild; [apply ww_mild|]. apply Good_mild; [exact Hkm|exact Hu]. }
  assert (Hww : Good v ww) by (rewrite <- (app_nil_r ww); apply Good_mild; [apply ww_mild|apply Good_nil]).
  assert (Hws : Soft ww).
  { intros x r E. assert (Hi : In x ww) by (rewrite E; left; reflexivity).
    assert (Hb : Begin x) by (right; exact Hi). apply Begin_facts in Hb. tauto. }
  assert (Hhead : forall u, Head (ww ++ u)).
  { intros u. pose proof ww_nonempty as Hne. 
    assert (Ht : forall a, a <> [] -> exists x r, a ++ u = x :: r) by (intros [|x r] Ha; [congruence|exists x, (r ++ u); reflexivity]).
    destruct (Ht ww Hne) as (x & r & E). exists x, r. split; [exact E|]. right. exists u. reflexivity. }
  assert (Hlast : forall u x r, u ++ ww = r ++ [x] -> Finish x).
  { intros u x r E. apply snoc_cases in E as [[E _]|[r' E]]; [exfalso; exact (ww_nonempty E)|].
    right. rewrite E. apply in_or_app. right. left. reflexivity. }
  destruct vars as [|kv vars].
  - exists (ww ++ mark ++ t ++ ww). split; [|split; [|split]].
    + apply (E_wildcard ww p mark m cs c); auto. apply HE. right. left. reflexivity.
    + apply Hwg. apply Good_app; auto.
    + apply Hhead.
    + intros x r E. rewrite !app_assoc in E. exact (Hlast _ x r E).
  - destruct Hv as [-> Hl]; [discriminate|].
    destruct (variables_exist (kv :: vars)) as (vt & V1 & V2 & V3 & V4); [discriminate|exact HV|].
    exists (ww ++ mark ++ t ++ [] ++ $"(" ++ vt ++ $")" ++ ww). split; [|split; [|split]].
    + apply (E_wildcard_variables ww p mark m cs c path t [] (kv :: vars) (kv :: vars)); auto.
      * constructor.
      * apply HE. right. right. split; [|split].
        -- reflexivity.
        -- exists []. reflexivity.
        -- intros pre u k E. apply Hl, (H3 pre u k E).
      * apply same_variables, Hs.
    + cbn [List.app]. pose proof (Hwg (t ++ $"(" ++ vt ++ $")")) as HX. rewrite <- !app_assoc in HX. apply HX.
      apply Good_app; [exact HG| |].
      * apply (Good_mild false $"("); [apply mild_check; reflexivity|]. apply Good_app; [exact V2| |].
        -- destruct Hww as (W1 & W2 & _). repeat split; [apply (calm_free $")"); [repeat constructor; discriminate|exact W1]|exact W2|].
           intros E. discriminate E.
        -- intros x r E. injection E as <- _. split; discriminate.
      * intros x r E. injection E as <- _. split; discriminate.
    + apply Hhead.
    + intros x r E. rewrite !app_assoc in E. exact (Hlast _ x r E).
Qed.

Lemma all_ok : forall c, (forall v p, Item ww v p c -> Ready v p c) /\ (forall v p, Say ww v p c -> SayOk v p c).
Proof.
  assert (Hone : forall c, (forall v p, Item ww v p c -> Ready v p c) ->
    (forall v p cs, c = Seq cs [] None -> length cs <> 1 -> Forall (Item ww v p) cs -> Apart cs -> SayOk v p c) ->
    (forall v p, Item ww v p c -> Ready v p c) /\ (forall v p, Say ww v p c -> SayOk v p c)).
  { intros c H1 H2. split; [exact H1|]. intros v p H. inversion H; subst.
    - apply ready_one, H1. assumption.
    - eapply H2; eauto. }
  assert (Hlit : forall v p s m, Item ww v p (Lit s m) -> Ready v p (Lit s m)).
  { intros v p s m H. inversion H; subst. left. exists s. auto. }
  assert (Hel : forall v p c, ElemOk v p c -> ~ IsLiteral c -> Ready v p c) by (intros; right; auto).
  induction c using command_ind'; (apply Hone; [|try discriminate]).
  - intros v p. apply Hlit.
  - intros v p Hi. inversion Hi.
  - intros v p cs E Hl Hi HA. injection E as -> -> ->. apply ready_many; auto.
    rewrite Forall_forall in *. intros c Hc. apply (H c Hc), Hi, Hc.
  - intros v p Hi. apply Hel; [|intros (? & ? & E); discriminate E]. inversion Hi; subst.
    apply variants_ok; auto. rewrite Forall_forall in *.
    match goal with HV : forall x, In x vs -> Say _ _ _ _ /\ _ |- _ =>
      intros o Ho; destruct (HV o Ho) as [A B]; split; [apply (H o Ho), A|exact B] end.
  - intros v p Hi. apply Hel; [|intros (? & ? & E); discriminate E]. inversion Hi; subst.
    apply (wildcard_ok v p c); auto.
    + match goal with HP : PathOf _ _ |- _ => inversion HP; subst end.
      * apply ready_one, Hlit. match goal with HS : Say _ _ _ _ |- _ => inversion HS; subst; assumption end.
      * apply (H c eq_refl). assumption.
    + rewrite Forall_forall in *. intros kv Hk.
      match goal with HV : forall x, In x vs -> NameText _ /\ _ |- _ => destruct (HV kv Hk) as (A & B & C) end.
      repeat split; auto. apply (H0 kv Hk), B.
  - intros v p Hi. apply Hel; [|intros (? & ? & E); discriminate E]. inversion Hi; subst.
    apply assign_ok; auto. apply IHc. assumption.
  - intros v p Hi. apply Hel; [|intros (? & ? & E); discriminate E]. inversion Hi; subst.
    + destruct d as [c|]; [|apply access_ok; auto].
      match goal with HD : forall c', Some c = Some c' -> _ |- _ => destruct (HD c eq_refl) as [A B] end.
      apply access_default_ok; auto. apply (H c eq_refl), A.
    + apply path_access_ok; auto.
  - intros v p Hi. apply Hel; [|intros (? & ? & E); discriminate E]. inversion Hi; subst.
    apply wrap_ok; auto; [apply IHc1|apply IHc2]; assumption.
Qed.

Theorem say_written : forall c, Say ww false Top c -> exists t, Prompt ww Top c t /\ Uncommented t.
Proof.
  intros c H. destruct (SayOk_prompt _ _ _ (proj2 (all_ok c) _ _ H)) as (t & Ht & (HG & _) & _).
  exists t. split; [exact Ht|]. apply calm_unc, HG.
Qed.
End Express.
