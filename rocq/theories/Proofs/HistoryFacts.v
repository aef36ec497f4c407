From Coq Require Import String NArith ZArith QArith Qcanon Bool Arith List Permutation Lia.
From Verif.Model Require Import Str Utils Rng Values Context Names Structured TextFile Tree.
From Verif.Spec Require Import Text Names Files Tree.
From Verif.Proofs Require Import StrFacts NamesFacts FileFacts TreeFacts BuildFacts.
Import ListNotations.
Local Open Scope nat_scope.

Definition text_step (f : text_file) (o : text_op) : text_file :=
  match o with
  | TGet => snd (tf_get_values f)
  | TRead => f
  | TWrite t => tf_write_text t f
  end.
Definition run_text_ops (ops : list text_op) (f : text_file) : text_file :=
  fold_left text_step ops f.

Definition FileOk (f : text_file) : Prop :=
  forall l, tf_cache f = Some l -> l = text_values (tf_content f).

Lemma text_step_ok : forall f o, FileOk f -> FileOk (text_step f o).
Proof.
  intros f [| |t] H; cbn.
  - unfold tf_get_values. destruct (tf_cache f) eqn:E; cbn; [exact H|]. intros l El. now injection El as <-.
  - exact H.
  - intros l El. discriminate.
Qed.

Lemma run_text_ok : forall ops f, FileOk f -> FileOk (run_text_ops ops f).
Proof. induction ops as [|o ops IH]; intros f H; [exact H|]. apply IH. now apply text_step_ok. Qed.

Lemma run_text_content : forall ops f, (forall t, ~ In (TWrite t) ops) ->
  tf_content (run_text_ops ops f) = tf_content f.
Proof.
  induction ops as [|o ops IH]; intros f H; [reflexivity|]. cbn.
  fold (run_text_ops ops (text_step f o)). rewrite IH; [|intros t Ht; apply (H t); now right].
  destruct o as [| |t]; cbn; auto.
  - unfold tf_get_values. now destruct (tf_cache f).
  - exfalso. apply (H t). now left.
Qed.

Lemma run_text_current : forall init ops content, Current init ops content ->
  tf_content (run_text_ops ops (tf_open init)) = content.
Proof.
  intros init ops content [[-> H]|(b & a & -> & H)].
  - now rewrite run_text_content.
  - unfold run_text_ops. rewrite fold_left_app. cbn. fold (run_text_ops b (tf_open init)).
    fold (run_text_ops a (tf_write_text content (run_text_ops b (tf_open init)))).
    now rewrite run_text_content.
Qed.

Lemma text_history : forall init ops content vs,
  Current init ops content ->
  (FileValues content vs <-> fst (tf_get_values (run_text_ops ops (tf_open init))) = vs).
Proof.
  intros init ops content vs H. apply run_text_current in H.
  assert (Hok : FileOk (run_text_ops ops (tf_open init))).
  { apply run_text_ok. intros l E. discriminate. }
  rewrite text_values_iff. unfold tf_get_values.
  destruct (tf_cache (run_text_ops ops (tf_open init))) as [l|] eqn:E; cbn.
  - rewrite (Hok l E), H. reflexivity.
  - now rewrite H.
Qed.

Lemma universal_idem : forall n s, length s <= n ->
  universal_newlines (universal_newlines s) = universal_newlines s.
Proof.
  induction n as [|n IH]; intros s Hl.
  - destruct s; [reflexivity|cbn in Hl; lia].
  - destruct s as [|c s]; [reflexivity|]. cbn in Hl. cbn [universal_newlines].
    destruct (N.eqb_spec c 13) as [->|Hc].
    + destruct s as [|d s]; [reflexivity|].
      cbn [length] in Hl. destruct (N.eqb d 10).
      * change (10%N :: universal_newlines (universal_newlines s) = 10%N :: universal_newlines s).
        f_equal. apply IH. lia.
      * change (10%N :: universal_newlines (universal_newlines (d :: s))
                = 10%N :: universal_newlines (d :: s)).
        f_equal. apply IH. cbn. lia.
    + cbn [universal_newlines]. apply N.eqb_neq in Hc. rewrite Hc. f_equal. apply IH. lia.
Qed.

Lemma read_text_history : forall init ops content vs,
  Current init ops content ->
  (FileValues content vs <-> FileValues (tf_read_text (run_text_ops ops (tf_open init))) vs).
Proof.
  intros init ops content vs H. apply run_text_current in H. unfold tf_read_text. rewrite H.
  rewrite !text_values_iff. unfold text_values, file_lines.
  now rewrite (universal_idem (length content) content (le_n _)).
Qed.

Lemma StringsOf_iff : forall l r, StringsOf l r <->
  flat_map (fun e => match e with JStr s => [s] | _ => [] end) l = r.
Proof.
  intros l r. split.
  - intros H. induction H as [|s l r H IH|v l r Hv H IH]; cbn; [reflexivity|now rewrite IH|].
    destruct v; try exact IH. now destruct (Hv s).
  - revert r. induction l as [|v l IH]; intros r H; cbn in H; [subst; constructor|].
    destruct v; cbn in H; try (apply StringsOf_skip; [discriminate|now apply IH]).
    subst r. constructor. now apply IH.
Qed.

Lemma list_file_spec : forall P stem l name items,
  In (name, items) (parse_data P stem (JList l)) <->
  name = stem /\ items <> [] /\
  exists strings, StringsOf l strings /\
    items = map (fun s => {| w_content := s; w_weight_opt := None |}) strings.
Proof.
  intros P stem l name items. unfold parse_data.
  set (r := flat_map _ l). assert (Hr : StringsOf l r) by now apply StringsOf_iff.
  split.
  - clearbody r. destruct r as [|s r]; [intros []|]. intros [H|[]]. injection H as <- <-.
    split; [reflexivity|]. split; [discriminate|]. exists (s :: r). auto.
  - intros (-> & Hne & strings & Hs & ->). apply StringsOf_iff in Hs. fold r in Hs. subst strings.
    clearbody r. destruct r as [|s r]; [now destruct Hne|]. now left.
Qed.

Lemma no_dot_suffix : forall x, ~ In 46%N x -> fst (split_suffix x) = x.
Proof.
  intros x H. unfold split_suffix. pose proof (rfind_dot_spec x) as Hs.
  destruct (rfind_dot x) as [[a b]|]; [|reflexivity].
  destruct Hs as (-> & e & -> & _). exfalso. apply H. apply in_or_app. right. now left.
Qed.

Lemma interleave_prefix : forall dir, dir <> [] ->
  interleave [slash] dir ++ [slash] = concat (map (fun x => x ++ [slash]) dir).
Proof.
  induction dir as [|x dir IH]; [congruence|]. intros _.
  destruct dir as [|y dir]; [cbn; rewrite ?app_nil_r; reflexivity|].
  specialize (IH ltac:(discriminate)).
  change (map (fun x => x ++ [slash]) (x :: y :: dir))
    with ((x ++ [slash]) :: map (fun x => x ++ [slash]) (y :: dir)).
  cbn [concat]. rewrite <- IH. unfold interleave. cbn [flat_map].
  rewrite <- !app_assoc. reflexivity.
Qed.

Lemma file_name_dir : forall dir, Forall (fun x => x <> []) dir ->
  (forall d x, dir = d ++ [x] -> ~ In 46%N x) ->
  match file_name_from_path dir with [] => [] | p => p ++ $"/" end =
  concat (map (fun x => x ++ [slash]) dir).
Proof.
  intros dir Hne H. destruct dir as [|x0 d0]; [reflexivity|].
  destruct (@exists_last _ (x0 :: d0) ltac:(discriminate)) as (d & x & E). rewrite E in *.
  rewrite file_name_snoc. specialize (H d x eq_refl).
  rewrite (no_dot_suffix x H).
  destruct (interleave [slash] (d ++ [x])) as [|c t] eqn:Ei.
  - exfalso. apply Forall_app in Hne as [Hd Hx]. inversion Hx as [|? ? Hx1 _]; subst.
    destruct d as [|y d]; unfold interleave in Ei; cbn [app] in Ei; apply app_eq_nil in Ei as [Ei _].
    + now apply Hx1.
    + inversion Hd as [|? ? Hy _]; subst. now apply Hy.
  - rewrite <- interleave_prefix by (now destruct d). now rewrite Ei.
Qed.

Lemma structured_registered : forall P root dir f stem content d name c,
  HasSuffix f stem $".json" \/ HasSuffix f stem $".yaml" ->
  (HasSuffix f stem $".json" -> py_json P content = Some (JDict d)) ->
  (HasSuffix f stem $".yaml" -> py_yaml P content = Some (JDict d)) ->
  Forall (fun x => x <> []) dir -> (forall d x, dir = d ++ [x] -> ~ In 46%N x) ->
  (In (name, c) (collections_from_path P root dir f content) <->
   exists n items, FileCollection P d n items /\ c = CList items /\
     name = concat (map (fun x => x ++ [slash]) dir) ++ n).
Proof.
  intros P root dir f stem content d name c Hf Hj Hy Hne Hd.
  assert (Hmain : In (name, c) (map (fun nc => ((match file_name_from_path dir with [] => [] | p => p ++ $"/" end) ++ fst nc, CList (snd nc)))
            (parse_data P (fst (split_suffix f)) (JDict d))) <->
   exists n items, FileCollection P d n items /\ c = CList items /\
     name = concat (map (fun x => x ++ [slash]) dir) ++ n).
  { rewrite (file_name_dir dir Hne Hd). rewrite in_map_iff. cbn [parse_data]. split.
    - intros ([n items] & E & Hin). injection E as <- <-. exists n, items.
      split; [now apply parse_dict_spec|]. auto.
    - intros (n & items & Hin & -> & ->). exists (n, items). split; [reflexivity|].
      now apply parse_dict_spec. }
  rewrite <- Hmain. unfold collections_from_path.
  destruct Hf as [Hf|Hf]; rewrite (split_suffix_has _ _ _ Hf); cbn [fst snd].
  - change (str_eqb $".json" $".txt") with false. change (str_eqb $".json" $".json") with true.
    cbn iota. rewrite (Hj Hf). now destruct (file_name_from_path dir).
  - change (str_eqb $".yaml" $".txt") with false. change (str_eqb $".yaml" $".json") with false.
    change (str_eqb $".yaml" $".yaml") with true.
    cbn iota. rewrite (Hy Hf). now destruct (file_name_from_path dir).
Qed.
