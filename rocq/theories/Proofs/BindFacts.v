(** Contexts that mean the same, and what assignments do to a context. *)
From Coq Require Import String NArith ZArith QArith Qcanon Bool Arith List Permutation Lia.
From Verif.Model Require Import Str Utils Command Rng Values Context Sampler.
From Verif.Spec Require Import Text Comb Items Lang Enum.
From Verif.Proofs Require Import StrFacts UtilsFacts CommandFacts CombFacts ValuesFacts DictFacts
  Soundness FuelFacts RunFacts EnumFacts.
Import ListNotations.
Local Open Scope nat_scope.

(** The same but for the way the variables are stored. *)
Definition Same (c d : ctx) : Prop :=
  c_method d = c_method c /\ c_ignws d = c_ignws c /\ c_unknown d = c_unknown c /\ c_busy d = c_busy c /\
  forall x, dict_get x (c_vars d) = dict_get x (c_vars c).

Lemma Same_refl : forall c, Same c c.
Proof. intros c. repeat split. Qed.

Lemma Same_method : forall m c d, Same c d -> Same (as_method m c) (with_method m d).
Proof. intros m c d (H1 & H2 & H3 & H4 & H5). repeat split; assumption. Qed.

Lemma Same_inside : forall x c d, Same c d -> Same (inside x c) (inside x d).
Proof. intros x c d (H1 & H2 & H3 & H4 & H5). repeat split; try assumption. cbn. now rewrite H4. Qed.

Lemma Same_Refers : forall c d x def v, Same c d -> Refers (scope_of c) x def v -> Refers (scope_of d) x def v.
Proof.
  intros c d x def v (_ & _ & H3 & _ & H5) H. destruct H as [v H1 H2|v H1 H2 H6|v u H1 H2 H6|u H1 H2 H6];
    cbn [scope_of sc_var sc_unknown] in *.
  - apply Refers_var; [cbn; now rewrite H5|assumption].
  - apply Refers_default; [cbn; now rewrite H5|assumption|assumption].
  - eapply Refers_unknown_var; [cbn; rewrite H5; eassumption|assumption|cbn; now rewrite H3].
  - apply Refers_unknown; [cbn; now rewrite H5|assumption|cbn; now rewrite H3].
Qed.

(** The last binding for a name. *)
Lemma last_unique : forall {A} (x : str) (pre pre' post post' : list (str * A)) v v',
  pre ++ (x, v) :: post = pre' ++ (x, v') :: post' -> ~ In x (map fst post) -> ~ In x (map fst post') -> v = v'.
Proof.
  intros A x pre pre' post post' v v' H Hp Hp'. revert pre' H. induction pre as [|b pre IH]; intros [|b' pre'] H; cbn in H.
  - congruence.
  - exfalso. injection H as _ H. apply Hp. rewrite H, map_app. apply in_or_app. right. now left.
  - exfalso. injection H as _ H. apply Hp'. rewrite <- H, map_app. apply in_or_app. right. now left.
  - injection H as _ H. now apply IH in H.
Qed.

Lemma Extends_Same : forall c d bs c' nv, Same c d -> Extends c bs c' ->
  (forall x, dict_get x (c_vars (with_variables nv d)) = dict_get x (dict_update (c_vars d) bs)) ->
  Same c' (with_variables nv d).
Proof.
  intros c d bs c' nv (H1 & H2 & H3 & H4 & H5) [[(E1 & E2 & E3) Hv] Hb] Hx.
  cbn [scope_of sc_method sc_squash sc_unknown sc_var] in *.
  assert (Hw : c_method (with_variables nv d) = c_method d /\ c_ignws (with_variables nv d) = c_ignws d /\
               c_unknown (with_variables nv d) = c_unknown d /\ c_busy (with_variables nv d) = c_busy d).
  { destruct nv; repeat split. }
  destruct Hw as (W1 & W2 & W3 & W4). unfold Same. rewrite W1, W2, W3, W4.
  repeat (split; [congruence|]). intros x. rewrite Hx.
  destruct (dict_get_update bs (c_vars d) x) as [(pre & v & post & -> & Hp & Hg)|[Hn Hg]].
  - destruct (Hv x) as [(pre' & v' & post' & Heq & Hp' & Hg')|[Hn _]].
    + rewrite Hg, Hg'. f_equal. eapply last_unique; eassumption.
    + exfalso. apply Hn. rewrite map_app. apply in_or_app. right. now left.
  - destruct (Hv x) as [(pre' & v' & post' & -> & Hp' & Hg')|[_ Hg']].
    + exfalso. apply Hn. rewrite map_app. apply in_or_app. right. now left.
    + rewrite Hg, Hg'. apply H5.
Qed.

Lemma with_variables_Same : forall c d vars c', Same c d -> Extends c vars c' -> Same c' (with_variables vars d).
Proof.
  intros c d vars c' Hs He. eapply Extends_Same; [exact Hs|exact He|]. intros x. now destruct vars.
Qed.

(** Every list of variables extends every context. *)
Lemma Extends_exists : forall c bs, exists c', Extends c bs c'.
Proof.
  intros c bs. exists (with_variables bs c). split; [apply with_variables_Extended|now destruct bs].
Qed.

Lemma Extends_nil : forall c, Extends c [] c.
Proof. intros c. split; [|reflexivity]. split; [repeat split|]. intros x. right. split; [intros []|reflexivity]. Qed.

(** No assignments. *)
Lemma Assigned_plain : forall sc tokens, Forall (fun tok => ~ is_assign tok) tokens -> Assigned sc tokens [] [].
Proof. intros sc tokens H. induction H; constructor; assumption. Qed.
Lemma Plain_plain : forall tokens, Forall (fun tok => ~ is_assign tok) tokens -> Plain tokens tokens.
Proof. intros tokens H. induction H; constructor; assumption. Qed.

Section Bind.
Variable G : rng_impl.
Variable E : env.
Notation next := (next G E).

(** The loop adds the bindings one after the other. *)
Lemma assigned_loop : forall c d tokens bs need toks, Same c d -> Assigned (scope_of c) tokens bs need ->
  Plain tokens toks -> Forall (fun vt => Firsts G E d (fst vt) (snd vt)) need ->
  exists n, forall nv m r, n <= m -> assignments_loop G (next m) m d tokens nv r
    = OVal (toks, fold_left (fun acc kv => dict_set (fst kv) (snd kv) acc) bs nv) r.
Proof.
  intros c d tokens bs need toks Hs H. revert toks. pose proof Hs as (_ & _ & _ & _ & Hv).
  assert (Hset : forall x v w imm ovr tokens toks bs n1,
    (forall nv m r, n1 <= m -> assignments_loop G (next m) m d tokens nv r
       = OVal (toks, fold_left (fun acc kv => dict_set (fst kv) (snd kv) acc) bs nv) r) ->
    (exists n2, forall m r, n2 <= m -> process_variable_assignment G (next m) m d x v imm ovr r = OVal w r) ->
    exists n, forall nv m r, n <= m -> assignments_loop G (next m) m d (Assign x v imm ovr :: tokens) nv r
    = OVal (toks, fold_left (fun acc kv => dict_set (fst kv) (snd kv) acc) ((x, w) :: bs) nv) r).
  { intros x v w imm ovr tokens0 toks bs0 n1 H1 (n2 & H2). exists (n1 + n2). intros nv m r Hm.
    cbn [assignments_loop]. rewrite H2 by lia. cbn [obind]. rewrite H1 by lia. reflexivity. }
  assert (Hnone : forall x ovr, (ovr = false -> dict_get x (c_vars c) = None) ->
            (if ovr then None else dict_get x (c_vars d)) = None).
  { intros x ovr Hx. destruct ovr; [reflexivity|]. rewrite Hv. now apply Hx. }
  induction H as [|tok tokens bs need Ha _ IH|x v imm v0 tokens bs need Hk _ IH|x v ovr tokens bs need Hk _ IH
                 |x s m ovr tokens bs need Hk _ IH|x v ovr t tokens bs need Hk Hl _ IH]; intros toks Hp Hf.
  - inversion Hp; subst. exists 0. reflexivity.
  - inversion Hp as [|? ? ? ? ? ? Hp'|? ? ps ? Hp']; subst; [exfalso; apply Ha; do 4 eexists; reflexivity|].
    destruct (IH _ Hp' Hf) as (n & Hn). exists n. intros nv m r Hm.
    destruct tok; try (cbn [assignments_loop]; rewrite Hn by lia; reflexivity).
    exfalso. apply Ha. do 4 eexists. reflexivity.
  - inversion Hp as [|? ? ? ? ? ? Hp'|? ? ? Hna]; subst; [|exfalso; apply Hna; do 4 eexists; reflexivity].
    destruct (IH _ Hp' Hf) as (n & Hn). eapply Hset; [exact Hn|]. exists 0. intros m r _.
    unfold process_variable_assignment. rewrite Hv. cbn [scope_of sc_var] in Hk. now rewrite Hk.
  - inversion Hp as [|? ? ? ? ? ? Hp'|? ? ? Hna]; subst; [|exfalso; apply Hna; do 4 eexists; reflexivity].
    destruct (IH _ Hp' Hf) as (n & Hn). eapply Hset; [exact Hn|]. exists 0. intros m r _.
    unfold process_variable_assignment. now rewrite (Hnone x ovr Hk).
  - inversion Hp as [|? ? ? ? ? ? Hp'|? ? ? Hna]; subst; [|exfalso; apply Hna; do 4 eexists; reflexivity].
    destruct (IH _ Hp' Hf) as (n & Hn). eapply Hset; [exact Hn|]. exists 0. intros m' r _.
    unfold process_variable_assignment. now rewrite (Hnone x ovr Hk).
  - inversion Hp as [|? ? ? ? ? ? Hp'|? ? ? Hna]; subst; [|exfalso; apply Hna; do 4 eexists; reflexivity].
    inversion Hf as [|? ? (n2 & Hx) Hf']; subst. cbn [fst snd] in Hx.
    destruct (IH _ Hp' Hf') as (n & Hn). eapply Hset; [exact Hn|]. exists n2. intros m r Hm.
    unfold process_variable_assignment. rewrite (Hnone x ovr Hk).
    destruct v; try (rewrite Hx by lia; reflexivity). exfalso. eapply Hl. reflexivity.
Qed.

Lemma assigned_run : forall c d tokens bs need toks c', Same c d -> Assigned (scope_of c) tokens bs need ->
  Plain tokens toks -> Extends c bs c' -> Forall (fun vt => Firsts G E d (fst vt) (snd vt)) need ->
  exists n d', Same c' d' /\ forall m r, n <= m ->
    process_variable_assignments G (next m) m d tokens r = OVal (toks, d') r.
Proof.
  intros c d tokens bs need toks c' Hs Ha Hp He Hf.
  destruct (assigned_loop _ _ _ _ _ _ Hs Ha Hp Hf) as (n & Hn).
  set (nv := fold_left (fun acc kv => dict_set (fst kv) (snd kv) acc) bs []) in *.
  exists n, (with_variables nv d). split.
  - eapply Extends_Same; [exact Hs|exact He|]. intros x.
    assert (Hsort : dict_sorted nv).
    { unfold nv. assert (Hg : forall (bs : list (str * command)) acc, dict_sorted acc ->
        dict_sorted (fold_left (fun acc kv => dict_set (fst kv) (snd kv) acc) bs acc)).
      { clear. induction bs as [|b bs IH]; intros acc H; cbn; [assumption|]. apply IH. now apply dict_set_sorted. }
      apply Hg. constructor. }
    assert (Hget : dict_get x (c_vars (with_variables nv d)) =
      match dict_get x nv with Some v => Some v | None => dict_get x (c_vars d) end).
    { destruct nv as [|kv nv']; [reflexivity|]. unfold with_variables. cbn [c_vars].
      apply dict_get_update_nodup. now apply dict_sorted_NoDup. }
    rewrite Hget. change nv with (dict_update (@nil (str * command)) bs).
    destruct (dict_get_update bs (@nil (str * command)) x) as [(pre & v & post & E1 & Hp1 & Hg1)|[Hn1 Hg1]];
    destruct (dict_get_update bs (c_vars d) x) as [(pre' & v' & post' & E2 & Hp2 & Hg2)|[Hn2 Hg2]].
    + rewrite Hg1, Hg2. f_equal. rewrite E1 in E2. eapply last_unique; eassumption.
    + exfalso. apply Hn2. rewrite E1, map_app. apply in_or_app. right. now left.
    + exfalso. apply Hn1. rewrite E2, map_app. apply in_or_app. right. now left.
    + rewrite Hg1, Hg2. reflexivity.
  - intros m r Hm. unfold process_variable_assignments. rewrite Hn by lia. reflexivity.
Qed.
End Bind.
