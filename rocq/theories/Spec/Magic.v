(** What is asked of the generators that use a language model, told from the
    calls and their answers.  From Model/ only data types are used. *)
From Coq Require Import String NArith Bool List.
From Verif.Model Require Import Str Magic.
From Verif.Spec Require Import Text.
Import ListNotations.
Local Open Scope nat_scope.

Section Calls.
Context {device : Type}.
Notation call := (magic_call device).

(** The model asked for, and whether it can be loaded at that time. *)
Definition asked (x : call) : text :=
  match x with MakeMagic name _ _ _ => name | SetModel _ name _ => name end.
Definition loadable (x : call) : Prop :=
  match x with MakeMagic _ _ ok _ => ok = true | SetModel _ _ ok => ok = true end.

(** A call that gave generator [i] its model. *)
Definition Gave (i : nat) (e : call * magic_answer) : Prop :=
  snd e = MadeMagic i \/ exists name ok, e = (SetModel i name ok, ModelSet).

(** In the history [h] generator [i] got its model last in the call [e]; [a]
    are the calls before. *)
Definition GotLast (h : list (call * magic_answer)) (i : nat) a e : Prop :=
  exists b, h = a ++ e :: b /\ Gave i e /\ forall x, In x b -> ~ Gave i x.

(** [s] begins the last calls of [h], which ask for one and the same model. *)
Definition Streak (h : list (call * magic_answer)) a s : Prop :=
  exists b, h = a ++ s :: b /\ (forall x, In x b -> asked (fst x) = asked (fst s)) /\
    forall a' x, a = a' ++ [x] -> asked (fst x) <> asked (fst s).

(** The device of the generator that made the call [x], after [a]. *)
Definition FromDevice (a : list (call * magic_answer)) (x : call) (d : device) : Prop :=
  match x with
  | MakeMagic _ dev _ _ => d = dev
  | SetModel i _ _ => exists name ok args, In (MakeMagic name d ok args, MadeMagic i) a
  end.
End Calls.

(** The number of runs of equal texts in a list. *)
Inductive Runs : list text -> nat -> Prop :=
| Runs_none : Runs [] 0
| Runs_one : forall t, Runs [t] 1
| Runs_same : forall t l n, Runs (t :: l) n -> Runs (t :: t :: l) n
| Runs_new : forall t u l n, t <> u -> Runs (u :: l) n -> Runs (t :: u :: l) (S n).
