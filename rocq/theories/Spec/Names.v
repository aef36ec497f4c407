(** What wildcard names and glob patterns mean.  Nothing here uses the
    functions of Model/. *)
From Coq Require Import NArith Bool Arith List.
From Verif.Spec Require Import Text.
Import ListNotations.
Local Open Scope nat_scope.

Definition Contains (s sub : text) : Prop := exists a b, s = a ++ sub ++ b.

Definition slash : N := 47%N.
Definition backslash : N := 92%N.
Definition PathSep (c : N) : Prop := c = slash \/ c = backslash.

(** [ps] are the maximal pieces of [s] without separators (path components;
    empty ones do not count). *)
Inductive Pieces (Sep : N -> Prop) : text -> list text -> Prop :=
| Pieces_nil : forall s, Forall Sep s -> Pieces Sep s []
| Pieces_cons : forall pad w rest ps,
    Forall Sep pad -> w <> [] -> Forall (fun c => ~ Sep c) w ->
    (rest = [] \/ exists c rest', rest = c :: rest' /\ Sep c) ->
    Pieces Sep rest ps -> Pieces Sep (pad ++ w ++ rest) (w :: ps).

(** A name that cannot leave the root: components separated by single
    slashes, no backslash, no two dots in a row. *)
Definition SafeName (n : text) : Prop :=
  ~ In backslash n /\ ~ Contains n [46; 46]%N /\ ~ Contains n [slash; slash] /\
  (forall t, n <> slash :: t) /\ (forall t, n <> t ++ [slash]).

(** Glob patterns.  [*]: any text; [?]: any character; [[...]]: a set, [[!...]]
    its complement; a bracket that is not closed stands for itself. *)
Definition Bracket (p : text) (neg : bool) (body rest : text) : Prop :=
  exists c b, body = c :: b /\ ~ In 93%N b /\
    (neg = false -> c <> 33%N) /\
    p = (if neg then [33%N] else []) ++ body ++ [93%N] ++ rest.

(** A character of a bracket body: ranges and single characters from left to
    right. *)
Inductive InSet : text -> N -> Prop :=
| InSet_range : forall a b rest x, (a <= x)%N -> (x <= b)%N -> InSet (a :: 45%N :: b :: rest) x
| InSet_after_range : forall a b rest x, InSet rest x -> InSet (a :: 45%N :: b :: rest) x
| InSet_one : forall a rest,
    (forall b r, rest <> 45%N :: b :: r) -> InSet (a :: rest) a
| InSet_after : forall a rest x,
    (forall b r, rest <> 45%N :: b :: r) -> InSet rest x -> InSet (a :: rest) x.

Inductive Glob : text -> text -> Prop :=
| Glob_end : Glob [] []
| Glob_char : forall c p s,
    c <> 42%N -> c <> 63%N -> c <> 91%N -> Glob p s -> Glob (c :: p) (c :: s)
| Glob_star : forall p pre s, Glob p s -> Glob (42%N :: p) (pre ++ s)
| Glob_any : forall p c s, Glob p s -> Glob (63%N :: p) (c :: s)
| Glob_open : forall p s,
    (forall neg body rest, ~ Bracket p neg body rest) ->
    Glob p s -> Glob (91%N :: p) (91%N :: s)
| Glob_set : forall p neg body rest c s,
    Bracket p neg body rest ->
    (if neg then ~ InSet body c else InSet body c) ->
    Glob rest s -> Glob (91%N :: p) (c :: s).

Definition GlobChar (c : N) : Prop := c = 42%N \/ c = 63%N \/ c = 91%N.
Definition NoGlob (p : text) : Prop := Forall (fun c => ~ GlobChar c) p.
