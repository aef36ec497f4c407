(** How simple options are written.  Nothing of Model/ is used but data types
    and the notation for string constants. *)
From Coq Require Import String NArith ZArith QArith Qcanon List.
From Verif.Model Require Import Str.
From Verif.Spec Require Import Text Names Syntax.
Import ListNotations.

(** A text that can stand for itself as an option. *)
Definition OptionText (ww t : text) : Prop :=
  t <> [] /\ Forall (Ordinary Inside) t /\ ~ Contains t ww.

(** How an option is written: alone, or after its weight. *)
Inductive Entry (ww : text) : text * Qc -> text -> Prop :=
| Entry_plain : forall t, OptionText ww t -> ~ BlankStart t ->
    (forall wt q r, WeightText wt q -> t <> wt ++ $"::" ++ r) -> Entry ww (t, 1%Qc) t
| Entry_weighted : forall t wt q, OptionText ww t -> WeightText wt q ->
    Entry ww (t, q) (wt ++ $"::" ++ t).
