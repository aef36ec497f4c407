(** C78: the phrases that the attention generator may mark. *)
From Coq Require Import String NArith ZArith QArith Qcanon Bool Arith List Lia.
From Verif.Model Require Import Str Float Utils Rng Generators.
From Verif.Spec Require Import Text Files StreamRng Generators Regex CleanUp Phrases.
From Verif.Proofs Require Import StrFacts UtilsFacts FloatFacts RngFacts AttentionFacts PhraseFacts.
From Verif.Properties Require Import P_Generators.
Import ListNotations.
Local Open Scope nat_scope.

(** The built-in chunker gives the phrases of the prompt and nothing else. *)
Theorem C78_chunker_gives_the_phrases : forall digit s ks,
  cheap_chunker digit s = ks <-> Phrases digit s ks.
Proof. exact chunker_phrases. Qed.

(** Without phrases a prompt stays as it is; otherwise one of them is marked,
    wherever it occurs. *)
Theorem C78_prompts_without_phrases_stay : forall G digit show a b prompts r, Double a -> Double b ->
  exists results r', attention_generate G (cheap_chunker digit) show a b prompts r = Ret results r' /\
  Forall2 (fun p q =>
    (Phrases digit p [] /\ q = p) \/
    exists ks k w, Phrases digit p ks /\ In k ks /\
      Replaced k ($"(" ++ k ++ $":" ++ show w ++ $")") p q) prompts results.
Proof.
  intros G digit show a b prompts r Da Db.
  destruct (C46_existing_text_is_marked G (cheap_chunker digit) show) with (a := a) (b := b) (prompts := prompts) (r := r)
    as (lo & hi & results & r' & _ & _ & Hg & Hf); try assumption.
  { intros p k Hk. destruct (C46_chunks_occur digit p k Hk) as (H1 & H2 & _). now split. }
  exists results, r'. split; [assumption|]. clear Hg. induction Hf as [|p q ps qs Hpq Hf IH]; constructor; [|assumption].
  destruct Hpq as [[Hc ->]|(k & x & w & Hk & _ & _ & _ & _ & _ & _ & _ & Hr & _)].
  - left. split; [now apply chunker_phrases|reflexivity].
  - right. exists (cheap_chunker digit p), k, w. split; [now apply chunker_phrases|now split].
Qed.

(** Phrases are bounded by marks and whitespace, so none contains a mark or has
    whitespace at its ends. *)
Theorem C78_phrases_are_bare : forall digit s ks k, Phrases digit s ks -> In k ks ->
  k <> [] /\ Forall (fun c => ~ Mark c) k /\ Trimmed k k.
Proof. exact phrases_bare. Qed.

Example C78_example : Phrases ascii_digit $" a cat , , 12 ;-) a dog (_x_ 3)!? --" [$"a cat"; $"a dog"; $"_x_ 3"].
Proof. apply C78_chunker_gives_the_phrases. vm_compute. reflexivity. Qed.
Example C78_by_hand : Pieces $"a , b" [$"a"; $"b"].
Proof.
  apply (Pieces_cut $"a" $" " $"," $" " $"b" [$"b"]).
  - repeat constructor. intros H. cbn in H. repeat (destruct H as [H|H]; [discriminate|]). contradiction.
  - intros ([|x s] & c & H & Hc); [injection H as <-|destruct s; discriminate].
    cbn in Hc. repeat (destruct Hc as [Hc|Hc]; [discriminate|]). contradiction.
  - constructor; [now apply isspace_Space|constructor].
  - discriminate.
  - repeat constructor.
  - constructor; [now apply isspace_Space|constructor].
  - intros (c & s & H & Hc). injection H as <- <-.
    cbn in Hc. repeat (destruct Hc as [Hc|Hc]; [discriminate|]). contradiction.
  - discriminate.
  - constructor. repeat constructor. intros H. cbn in H. repeat (destruct H as [H|H]; [discriminate|]). contradiction.
Qed.
(** The phrase is marked wherever it occurs, inside other phrases too; a marked
    prompt has the weight as a phrase, or none if it is digits and a point. *)
Example C78_inside_other_phrases :
  attention_generate stream_rng (cheap_chunker ascii_digit) show0 (ieee_round (Q2Qc (9 # 10))) (ieee_round (Q2Qc (1 # 10)))
    [$"cat, cats"; $" 1.5, (2)"] [0; half53]%N = Ret [$"(cat:w), (cat:w)s"; $" 1.5, (2)"] [].
Proof. run_both. Qed.

Print Assumptions C78_chunker_gives_the_phrases.
Print Assumptions C78_prompts_without_phrases_stay.
Print Assumptions C78_phrases_are_bare.
