(** Patterns of the kind used for cleaning up texts, their matches, and
    replacing all matches.  Independent of Model/. *)
From Coq Require Import NArith Bool Arith List.
From Verif.Spec Require Import Text.
Import ListNotations.
Local Open Scope nat_scope.

(** One character; one or more; any number; an edge of a word; a look at the
    next character. *)
Inductive item :=
| One (P : N -> Prop) | Plus (P : N -> Prop) | Star (P : N -> Prop) | Edge | Ahead (P : N -> Prop).

Section Words.
Variable word : N -> Prop.

Definition EndsInWord (b : text) : Prop := exists c r, b = r ++ [c] /\ word c.
Definition BeginsWithWord (s : text) : Prop := exists c r, s = c :: r /\ word c.
(** Between [b] and [s] a word begins or ends. *)
Definition AtEdge (b s : text) : Prop :=
  (EndsInWord b /\ ~ BeginsWithWord s) \/ (~ EndsInWord b /\ BeginsWithWord s).

(** [Reads p b s x]: after [b], the text [s] begins with [x], which matches [p]. *)
Inductive Reads : list item -> text -> text -> text -> Prop :=
| Reads_nil : forall b s, Reads [] b s []
| Reads_one : forall (P : N -> Prop) p b c s x, P c -> Reads p (b ++ [c]) s x ->
    Reads (One P :: p) b (c :: s) (c :: x)
| Reads_plus : forall (P : N -> Prop) p b w s x, w <> [] -> Forall P w -> Reads p (b ++ w) s x ->
    Reads (Plus P :: p) b (w ++ s) (w ++ x)
| Reads_star : forall (P : N -> Prop) p b w s x, Forall P w -> Reads p (b ++ w) s x ->
    Reads (Star P :: p) b (w ++ s) (w ++ x)
| Reads_edge : forall p b s x, AtEdge b s -> Reads p b s x -> Reads (Edge :: p) b s x
| Reads_ahead : forall (P : N -> Prop) p b c s x, P c -> Reads p b (c :: s) x ->
    Reads (Ahead P :: p) b (c :: s) x.

(** The longest match after [b] at the beginning of [s]. *)
Definition Longest (p : list item) (b s x : text) : Prop :=
  x <> [] /\ Reads p b s x /\ forall y, Reads p b s y -> length y <= length x.

(** [Subst p new b s t]: [t] is [s], which stands after [b], with the matches
    of [p] replaced by [new], from left to right. *)
Inductive Subst (p : list item) (new : text) : text -> text -> text -> Prop :=
| Subst_end : forall b, Subst p new b [] []
| Subst_match : forall b x s t, Longest p b (x ++ s) x -> Subst p new (b ++ x) s t ->
    Subst p new b (x ++ s) (new ++ t)
| Subst_keep : forall b c s t, (forall x, ~ Reads p b (c :: s) x) -> Subst p new (b ++ [c]) s t ->
    Subst p new b (c :: s) (c :: t).

(** [FindAll p b s l]: the matches of [p] in [s], from left to right. *)
Inductive FindAll (p : list item) : text -> text -> list text -> Prop :=
| Find_end : forall b, FindAll p b [] []
| Find_match : forall b x s l, Longest p b (x ++ s) x -> FindAll p (b ++ x) s l ->
    FindAll p b (x ++ s) (x :: l)
| Find_skip : forall b c s l, (forall x, ~ Reads p b (c :: s) x) -> FindAll p (b ++ [c]) s l ->
    FindAll p b (c :: s) l.
End Words.
