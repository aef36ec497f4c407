(** The phrases of a prompt.  No function of the model occurs here. *)
From Coq Require Import String NArith Bool List.
From Verif.Model Require Import Str.
From Verif.Spec Require Import Text Files.
Import ListNotations.
Local Open Scope nat_scope.

(** Marks between phrases, and ASCII punctuation; the double quote is 34. *)
Definition Mark (c : N) : Prop := In c $",;:.?!()".
Definition Punctuation (c : N) : Prop := In c (34%N :: $"!#$%&'()*+,-./:;<=>?@[\]^_`{|}~").

Definition BeginsWith (P : N -> Prop) (s : text) : Prop := exists c s', s = c :: s' /\ P c.
Definition EndsIn (P : N -> Prop) (s : text) : Prop := exists s' c, s = s' ++ [c] /\ P c.

(** A text cut at the marks in it.  With a series of marks goes all the
    whitespace around it. *)
Inductive Pieces : text -> list text -> Prop :=
| Pieces_last : forall s, Forall (fun c => ~ Mark c) s -> Pieces s [s]
| Pieces_cut : forall p w1 m w2 rest ps,
    Forall (fun c => ~ Mark c) p -> ~ EndsIn Space p ->
    Forall Space w1 -> m <> [] -> Forall Mark m -> Forall Space w2 ->
    ~ BeginsWith Space rest -> (w2 = [] -> ~ BeginsWith Mark rest) ->
    Pieces rest ps -> Pieces (p ++ w1 ++ m ++ w2 ++ rest) (p :: ps).

(** Pieces that are more than a number and more than punctuation. *)
Definition Worthy (digit : N -> bool) (p : text) : Prop :=
  ~ (p <> [] /\ Forall (fun c => digit c = true) p) /\ ~ Forall Punctuation p.

Inductive Selected {A} (P : A -> Prop) : list A -> list A -> Prop :=
| Selected_nil : Selected P [] []
| Selected_yes : forall x l l', P x -> Selected P l l' -> Selected P (x :: l) (x :: l')
| Selected_no : forall x l l', ~ P x -> Selected P l l' -> Selected P (x :: l) l'.

(** [ks] are the phrases of the prompt [s]. *)
Definition Phrases (digit : N -> bool) (s : text) (ks : list text) : Prop :=
  exists t ps, Trimmed s t /\ Pieces t ps /\ Selected (Worthy digit) ps ks.
