(** What a wildcard lookup should answer.  From Model/ only data types are
    used (collections, file systems, items). *)
From Coq Require Import NArith Bool Arith List Permutation Sorted.
From Verif.Model Require Import Values Structured Tree.
From Verif.Spec Require Import Text Names Files Tree.
Import ListNotations.
Local Open Scope nat_scope.

(** The values of a collection, as the files are now. *)
Inductive CollHas (fs : fsnode) : coll -> list witem -> Prop :=
| CollHas_list : forall entries, CollHas fs (CList entries) entries
| CollHas_text : forall path cache content lines,
    FileAt fs path content -> FileValues content lines ->
    CollHas fs (CText path cache)
      (map (fun l => {| w_content := l; w_weight_opt := None |}) lines).

(** The values of the collections whose name matches, in the order of the
    tree. *)
Inductive Gathered (fs : fsnode) (pattern : text) : list (text * coll) -> list witem -> Prop :=
| Gathered_nil : Gathered fs pattern [] []
| Gathered_match : forall name c t vs l,
    Glob pattern name -> CollHas fs c vs -> Gathered fs pattern t l ->
    Gathered fs pattern ((name, c) :: t) (vs ++ l)
| Gathered_skip : forall name c t l,
    ~ Glob pattern name -> Gathered fs pattern t l -> Gathered fs pattern ((name, c) :: t) l.

(** [Cleaned ww w o]: the pattern a wildcard stands for; none if it has two
    dots in a row. *)
Definition Cleaned (ww w : text) (o : option text) : Prop :=
  exists m raw ps,
    (DropLeading ww w m) /\ (DropTrailing ww m raw) /\ Pieces PathSep raw ps /\
    ((Contains (interleave [slash] ps) [46; 46]%N /\ o = None) \/
     (~ Contains (interleave [slash] ps) [46; 46]%N /\ o = Some (interleave [slash] ps))).

Definition Matched (fs : fsnode) (ww : text) (t : list (text * coll)) (w : text)
    (l : list witem) : Prop :=
  (Cleaned ww w None /\ l = []) \/
  (exists pattern, Cleaned ww w (Some pattern) /\ Gathered fs pattern t l).

(** The values found for wildcard [w]: those of the matching collections; if
    there are none and [w] does not start with two stars, those matching
    [**/w]. *)
Definition Found (fs : fsnode) (ww : text) (t : list (text * coll)) (w : text)
    (l : list witem) : Prop :=
  (Matched fs ww t w l /\ (l <> [] \/ StartsWith w [42; 42]%N)) \/
  (Matched fs ww t w [] /\ ~ StartsWith w [42; 42]%N /\
   Matched fs ww t ([42; 42; 47]%N ++ w) l).

(** Order of texts: by code points, a prefix first. *)
Inductive TextLe : text -> text -> Prop :=
| TextLe_nil : forall b, TextLe [] b
| TextLe_lt : forall x y a b, (x < y)%N -> TextLe (x :: a) (y :: b)
| TextLe_eq : forall x a b, TextLe a b -> TextLe (x :: a) (x :: b).

Definition ItemLe (i j : witem) : Prop := TextLe (w_content i) (w_content j).

(** [out] is [l] sorted by text, items with equal texts in their old order. *)
Definition StablySorted (l out : list witem) : Prop :=
  Permutation l out /\ StronglySorted ItemLe out /\
  forall (same : witem -> bool) t,
    (forall i, same i = true <-> w_content i = t) -> filter same out = filter same l.

(** [out] is [l] without repetitions, in order of first occurrence. *)
Definition Deduplicated (l out : list witem) : Prop :=
  NoDup out /\ (forall i, In i out <-> In i l) /\
  forall a b i j p q, nth_error out a = Some i -> nth_error out b = Some j -> a < b ->
    FirstAt l i p -> FirstAt l j q -> p < q.

(** The values of the collections whose name satisfies [pred], in the order of
    the tree. *)
Inductive Selected (fs : fsnode) (pred : text -> Prop) : list (text * coll) -> list witem -> Prop :=
| Selected_nil : Selected fs pred [] []
| Selected_take : forall name c t vs l,
    pred name -> CollHas fs c vs -> Selected fs pred t l ->
    Selected fs pred ((name, c) :: t) (vs ++ l)
| Selected_skip : forall name c t l,
    ~ pred name -> Selected fs pred t l -> Selected fs pred ((name, c) :: t) l.

(** What the flags make of the values found.  [calm]: shuffling was never on. *)
Definition Answer (sort dedup : bool) (calm : Prop) (raw out : list witem) : Prop :=
  exists mid,
    (dedup = true -> Deduplicated raw mid) /\ (dedup = false -> mid = raw) /\
    Permutation mid out /\
    (calm -> sort = true -> StablySorted mid out) /\
    (calm -> sort = false -> out = mid).
