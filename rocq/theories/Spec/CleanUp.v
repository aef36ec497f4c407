(** The clean-up of texts made by a language model: the patterns of
    generators/magicprompt.py:34-59. *)
From Coq Require Import String NArith Bool Arith List.
From Verif.Model Require Import Str.
From Verif.Spec Require Import Text Regex.
Import ListNotations.
Local Open Scope nat_scope.

Definition is (n : N) (c : N) : Prop := c = n.
Definition Punctuation (c : N) : Prop := In c $",;.".
Definition LetterOrOpen (c : N) : Prop :=
  (65 <= c <= 90)%N \/ (97 <= c <= 122)%N \/ c = 40%N.

Section CleanUp.
(** Letters, digits and the underscore. *)
Variable word : N -> Prop.
(** The weight for a number of bangs. *)
Variable bang_weight : nat -> text.

Definition open_pattern := [One (is 40); Plus Space].
Definition close_pattern := [Plus Space; One (is 41)].
Definition hyphen_pattern := [Edge; Plus Space; One (is 45); Plus Space; Edge].
Definition stop_pattern := [Star Space; Plus Punctuation; Star Space; Ahead LetterOrOpen].
Definition underscore_pattern := [Plus Space; Plus (is 95); Plus Space].
Definition empty_pattern := [Edge; One (is 44); Star Space; One (is 44); Star Space; Edge].
Definition bang_pattern := [Edge; Plus (fun c => word c \/ Space c \/ c = 45%N); Plus (is 33)].

(** The text itself. *)
Definition exactly (x : text) : list item := map (fun c => One (is c)) x.

(** Braces become parentheses. *)
Definition Parenthesised : text -> text -> Prop :=
  Forall2 (fun c d => (c = 123%N /\ d = 40%N) \/ (c = 125%N /\ d = 41%N) \/
                      (c <> 123%N /\ c <> 125%N /\ d = c)).

(** [d] is [s] from its first to its last word character. *)
Definition WordToWord (s d : text) : Prop :=
  exists a b, s = a ++ d ++ b /\ Forall (fun c => ~ word c) a /\ Forall (fun c => ~ word c) b /\
    (forall c r, d = c :: r -> word c) /\ (forall c r, d = r ++ [c] -> word c).

(** A phrase followed by bangs, and what is put in its place. *)
Definition Weighted (x new : text) : Prop :=
  exists phrase n, x = phrase ++ repeat 33%N n /\ ~ In 33%N phrase /\
    new = $"(" ++ phrase ++ $":" ++ bang_weight n ++ $")".

(** The phrases one after the other, each everywhere it occurs. *)
Inductive AllReplaced : list text -> text -> text -> Prop :=
| AllReplaced_none : forall s, AllReplaced [] s s
| AllReplaced_more : forall x new l s t u, Weighted x new -> Subst word (exactly x) new [] s t ->
    AllReplaced l t u -> AllReplaced (x :: l) s u.

Definition CleanedUp (s u : text) : Prop :=
  exists s1 s2 s3 s4 s5 s6 s7 s8 found,
    Parenthesised s s1 /\ WordToWord s1 s2 /\
    Subst word open_pattern $"(" [] s2 s3 /\
    Subst word close_pattern $")" [] s3 s4 /\
    Subst word hyphen_pattern $"-" [] s4 s5 /\
    Subst word stop_pattern $", " [] s5 s6 /\
    Subst word underscore_pattern $" " [] s6 s7 /\
    Subst word empty_pattern $", " [] s7 s8 /\
    FindAll word bang_pattern [] s8 found /\ AllReplaced found s8 u.

(** What word characters are not. *)
Definition PlainWords : Prop :=
  forall c, word c -> ~ Space c /\ ~ In c $",;.()-!".
End CleanUp.

(** Letters, digits and the underscore. *)
Definition WordChar (alnum : N -> bool) (c : N) : Prop := alnum c = true \/ c = 95%N.

(** Every parenthesis has its partner. *)
Inductive Balanced : text -> Prop :=
| Balanced_nil : Balanced []
| Balanced_char : forall c s, c <> 40%N -> c <> 41%N -> Balanced s -> Balanced (c :: s)
| Balanced_pair : forall s t, Balanced s -> Balanced t -> Balanced (40%N :: s ++ 41%N :: t).
