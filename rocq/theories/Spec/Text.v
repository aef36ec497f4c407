(** Declarative specifications for text operations.  Nothing here uses the
    functions of Model/. *)
From Coq Require Import NArith Bool Arith List.
Import ListNotations.
Local Open Scope nat_scope.

Notation text := (list N).

(** [a0 sep a1 sep a2 ...] *)
Definition interleave (sep : text) (l : list text) : text :=
  match l with
  | [] => []
  | x :: l' => x ++ flat_map (fun y => sep ++ y) l'
  end.

Definition StartsWith (s p : text) : Prop := exists q, s = p ++ q.
Definition EndsWith (s p : text) : Prop := exists q, s = q ++ p.

(** [t] is [s] without one leading [sep], if there is one. *)
Definition DropLeading (sep s t : text) : Prop :=
  s = sep ++ t \/ (~ StartsWith s sep /\ t = s).
Definition DropTrailing (sep s t : text) : Prop :=
  s = t ++ sep \/ (~ EndsWith s sep /\ t = s).

(** Whitespace: the code points for which Python's [str.isspace] holds. *)
Definition Space (c : N) : Prop :=
  In c [9; 10; 11; 12; 13; 28; 29; 30; 31; 32; 133; 160; 5760;
        8192; 8193; 8194; 8195; 8196; 8197; 8198; 8199; 8200; 8201; 8202;
        8232; 8233; 8239; 8287; 12288]%N.

(** A word: non-empty, no whitespace. *)
Definition Word (w : text) : Prop := w <> [] /\ Forall (fun c => ~ Space c) w.

(** [Words s ws]: [ws] are the maximal whitespace-free pieces of [s]. *)
Inductive Words : text -> list text -> Prop :=
| Words_nil : forall s, Forall Space s -> Words s []
| Words_cons : forall pad w rest ws,
    Forall Space pad -> Word w ->
    (rest = [] \/ exists c rest', rest = c :: rest' /\ Space c) ->
    Words rest ws -> Words (pad ++ w ++ rest) (w :: ws).

(** Text without leading, trailing or repeated whitespace, blanks only. *)
Definition Squashed (t : text) : Prop :=
  exists ws, Forall Word ws /\ t = interleave [32%N] ws.

(** [x] occurs in [l] first at position [i]. *)
Definition FirstAt {A} (l : list A) (x : A) (i : nat) : Prop :=
  nth_error l i = Some x /\ forall j, j < i -> nth_error l j <> Some x.

(** Wrap markers: a run of ellipsis characters, or three or more dots. *)
Definition EllipsisChar (c : N) : Prop :=
  In c [6145; 8230; 8942; 8943; 8944; 8945; 65049]%N.
Definition Marker (m : text) : Prop :=
  (m <> [] /\ Forall EllipsisChar m) \/
  (3 <= length m /\ Forall (fun c => c = 46%N) m).

(** [wrapper] is cut into [before], a marker and [after] at the leftmost
    marker, taken as long as possible; without a marker everything is
    [before]. *)
Definition CutAtMarker (wrapper before after : text) : Prop :=
  ((forall a m b, wrapper = a ++ m ++ b -> ~ Marker m) /\ before = wrapper /\ after = [])
  \/
  (exists m, wrapper = before ++ m ++ after /\ Marker m /\
     (forall a m' b, wrapper = a ++ m' ++ b -> Marker m' -> length before <= length a) /\
     (forall c after', after = c :: after' -> ~ Marker (m ++ [c]))).
