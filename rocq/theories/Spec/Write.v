(** Files being rewritten.  From Model/ only data types are used. *)
From Coq Require Import NArith Bool Arith List.
From Verif.Model Require Import Values Structured Tree.
From Verif.Spec Require Import Text Names Files Tree.
Import ListNotations.
Local Open Scope nat_scope.

(** [Rewritten t n path n']: [n'] is [n] with the content of the file at
    [path] replaced by [t]; every other file and directory is as before and in
    the same place. *)
Inductive Rewritten (t : text) : fsnode -> list text -> fsnode -> Prop :=
| Rewritten_here : forall c, Rewritten t (FFile c) [] (FFile t)
| Rewritten_down : forall es1 p n es2 path n',
    Rewritten t n path n' ->
    Rewritten t (FDir (es1 ++ (p, n) :: es2)) (p :: path) (FDir (es1 ++ (p, n') :: es2)).

(** No file is registered under two names. *)
Definition OneNamePerFile (t : list (text * coll)) : Prop :=
  forall n1 n2 path c1 c2, In (n1, CText path c1) t -> In (n2, CText path c2) t -> n1 = n2.
