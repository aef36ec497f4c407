(** Names of wildcards that stand for one collection, and lists in order. *)
From Coq Require Import String NArith Bool Arith List Sorted.
From Verif.Model Require Import Str Values Structured Tree.
From Verif.Spec Require Import Text Names Files Tree Lookup Lang Syntax.
Import ListNotations.
Local Open Scope nat_scope.

(** A name that can be written between wildcard wraps and means itself: no
    template syntax, no glob characters, no way out of the directory; [squash]
    says whether whitespace is squashed. *)
Definition WildcardName (ww : text) (squash : bool) (name : text) : Prop :=
  name <> [] /\ Forall (Ordinary Path) name /\ ~ MarkStart name /\ ~ Blanks name /\
  NoWrapIn ww name ww /\ Uncommented (ww ++ name ++ ww) /\
  SafeName name /\ NoGlob name /\ Tidy squash name name.

(** [vals] are the texts of [l], each once, in order. *)
Definition InOrder (l vals : list text) : Prop :=
  StronglySorted TextLe vals /\ NoDup vals /\ forall v, In v vals <-> In v l.

Definition unweighted (t : text) : witem := {| w_content := t; w_weight_opt := None |}.

(** [name] is the name of the only text file below the folder [root] that has
    it, slashes at the ends apart, with the values [lines]; the folder has no
    structured files. *)
Definition TextFileNamed (fs : fsnode) (root : list text) (name : text) (lines : list text) : Prop :=
  exists es dir f stem content,
    DirAt fs root es /\ VisibleFile es dir f content /\ HasSuffix f stem $".txt" /\
    name = interleave [slash] (dir ++ [stem]) /\ FileValues content lines /\
    forall dir' f' content', VisibleFile es dir' f' content' ->
      (forall stem', HasSuffix f' stem' $".txt" -> SlashTrimmed (slash :: interleave [slash] (dir' ++ [stem'])) name ->
         dir' = dir /\ f' = f) /\
      (forall stem', ~ HasSuffix f' stem' $".json") /\ (forall stem', ~ HasSuffix f' stem' $".yaml").

(** Values without template syntax. *)
Definition PlainLines (ww : text) (lines : list text) : Prop :=
  lines <> [] /\ forall l, In l lines -> Syntax.Plain (standard ww) l /\ ~ BeginsComment l.
