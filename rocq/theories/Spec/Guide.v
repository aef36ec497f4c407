(** What the syntax guide (docs/SYNTAX.md) promises about choosing several
    options at once. *)
From Coq Require Import String NArith ZArith QArith Qcanon List Permutation.
From Verif.Model Require Import Str Command Context.
From Verif.Spec Require Import Text Comb Lang.
Import ListNotations.
Local Open Scope nat_scope.

(** Options that are plain texts. *)
Definition Texts (opts : list (command * Qc)) (texts : list text) : Prop :=
  Forall2 (fun o t => exists m, fst o = Lit t m) opts texts.

(** [t] shows some of the given texts: between [lo] and [hi] of them as far as
    there are so many, each entry at most once, in any order, with [sep]
    between them. *)
Definition Picked (texts : list text) (lo hi : Z) (sep t : text) : Prop :=
  exists shown others, Permutation texts (shown ++ others) /\
    (clamp (length texts) (Z.min lo hi) <= Z.of_nat (length shown)
       <= clamp (length texts) (Z.max lo hi))%Z /\
    Glued sep shown t.
