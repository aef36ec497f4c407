(** The chances of prompts: what random sampling gives, and how often, when
    all random numbers are equally likely.

    [Outcomes fl cmd l]: the texts of [cmd] with their chances, for templates
    made of texts, sequences and choices of one option; a text may be listed
    more than once.  No sampler and no state of a random source occurs here:
    a sequence multiplies the chances of its parts, a choice multiplies the
    chance of the option. *)
From Coq Require Import NArith ZArith QArith Qcanon List.
From Verif.Model Require Import Command.
From Verif.Spec Require Import Text Comb Items Lang.
Import ListNotations.
Local Open Scope nat_scope.

(** [random()] is one of the 2^53 multiples of 2^-53 below 1. *)
Definition unit53 : N := 9007199254740992.

(** The numbers 0 .. 2^53, cut into one stretch per weight: a number of the
    i-th stretch is a point of the i-th weight when the weights are laid out
    one after the other. *)
Record Stretches (fl : Qc -> Qc) (ws : list Qc) (cuts : list N) : Prop := {
  st_length : length cuts = S (length ws);
  st_start : nth 0 cuts 0%N = 0%N;
  st_end : nth (length ws) cuts 0%N = unit53;
  st_ordered : forall k, k < length ws -> (nth k cuts 0 <= nth (S k) cuts 0)%N;
  st_points : forall i x, i < length ws -> (nth i cuts 0 <= x < nth (S i) cuts 0)%N ->
    let point := fl (Q2Qc (Z.of_N x # 9007199254740992) * float_sum fl ws)%Qc in
    (float_sum fl (firstn i ws) <= point)%Qc /\ (point < float_sum fl (firstn (S i) ws))%Qc
}.

(** The lengths of the stretches, as parts of the whole. *)
Fixpoint shares (cuts : list N) : list Qc :=
  match cuts with
  | a :: (b :: _) as rest => Q2Qc ((Z.of_N b - Z.of_N a) # 9007199254740992) :: shares rest
  | _ => []
  end.

Definition scaled {A} (q : Qc) (l : list (A * Qc)) : list (A * Qc) := map (fun o => (fst o, q * snd o)%Qc) l.
Definition both {A} (l : list (A * Qc)) (l' : list (list A * Qc)) : list (list A * Qc) :=
  flat_map (fun o => map (fun o' => (fst o :: fst o', snd o * snd o')%Qc) l') l.

(** Nothing but the random sampler. *)
Definition Unmarked (m : option method) : Prop := m = None \/ m = Some Random.

Section Outcomes.
Variable fl : Qc -> Qc.

Inductive Outcomes : command -> list (text * Qc) -> Prop :=
| Out_text : forall s m, Unmarked m -> Outcomes (Lit s m) [(s, 1%Qc)]
| Out_parts : forall ts sep m l l', Unmarked m -> OutcomesAll ts l ->
    Forall2 (fun o o' => Glued sep (fst o) (fst o') /\ snd o = snd o') l l' -> Outcomes (Seq ts sep m) l'
| Out_single : forall v q lo hi sep m l, Unmarked m -> Outcomes v l -> Outcomes (Var [(v, q)] lo hi sep m) l
| Out_choice : forall opts sep m cuts l, Unmarked m -> 2 <= length opts -> Forall (fun o => 0 <= snd o)%Qc opts ->
    Stretches fl (map snd opts) cuts -> OutcomesOf (map fst opts) (shares cuts) l ->
    Outcomes (Var opts 1 1 sep m) l

(** One after the other: every combination. *)
with OutcomesAll : list command -> list (list text * Qc) -> Prop :=
| OutA_nil : OutcomesAll [] [([], 1%Qc)]
| OutA_cons : forall c cs l l', Outcomes c l -> OutcomesAll cs l' -> OutcomesAll (c :: cs) (both l l')

(** One of several, with the given chances. *)
with OutcomesOf : list command -> list Qc -> list (text * Qc) -> Prop :=
| OutO_nil : OutcomesOf [] [] []
| OutO_cons : forall c cs q qs l l', Outcomes c l -> OutcomesOf cs qs l' ->
    OutcomesOf (c :: cs) (q :: qs) (scaled q l ++ l').
End Outcomes.

Scheme Outcomes_mind := Minimality for Outcomes Sort Prop
  with OutcomesAll_mind := Minimality for OutcomesAll Sort Prop
  with OutcomesOf_mind := Minimality for OutcomesOf Sort Prop.
Combined Scheme Outcomes_mutind from Outcomes_mind, OutcomesAll_mind, OutcomesOf_mind.

(** The templates this is about. *)
Section Simple.
Variable fl : Qc -> Qc.
Inductive Simple : command -> Prop :=
| Simple_text : forall s m, Unmarked m -> Simple (Lit s m)
| Simple_parts : forall ts sep m, Unmarked m -> SimpleAll ts -> Simple (Seq ts sep m)
| Simple_single : forall v q lo hi sep m, Unmarked m -> Simple v -> Simple (Var [(v, q)] lo hi sep m)
| Simple_choice : forall opts sep m, Unmarked m -> 2 <= length opts -> Forall (fun o => 0 <= snd o)%Qc opts ->
    (0 < float_sum fl (map snd opts))%Qc -> SimpleAll (map fst opts) -> Simple (Var opts 1 1 sep m)
with SimpleAll : list command -> Prop :=
| SimpleA_nil : SimpleAll []
| SimpleA_cons : forall c cs, Simple c -> SimpleAll cs -> SimpleAll (c :: cs).
End Simple.
Scheme Simple_mind := Minimality for Simple Sort Prop
  with SimpleAll_mind := Minimality for SimpleAll Sort Prop.
Combined Scheme Simple_mutind from Simple_mind, SimpleAll_mind.

(** The same outcomes, with the white space squashed or not. *)
Definition Tidied (squash : bool) (l l' : list (text * Qc)) : Prop :=
  Forall2 (fun o o' => Tidy squash (fst o) (fst o') /\ snd o = snd o') l l'.

Definition total (l : list Qc) : Qc := fold_right Qcplus 0%Qc l.

(** The chance of one result. *)
Definition chance {A} (dec : forall a b : A, {a = b} + {a <> b}) (a : A) (l : list (A * Qc)) : Qc :=
  total (map (fun o => if dec (fst o) a then snd o else 0%Qc) l).
Definition text_dec : forall a b : text, {a = b} + {a <> b} := list_eq_dec N.eq_dec.
Definition texts_dec : forall a b : list text, {a = b} + {a <> b} := list_eq_dec text_dec.

(** [k] prompts, none depending on another. *)
Fixpoint repeated {A} (k : nat) (l : list (A * Qc)) : list (list A * Qc) :=
  match k with
  | O => [([], 1%Qc)]
  | S k' => both l (repeated k' l)
  end.

(** The possible first [n] numbers of the random source. *)
Definition Numbers (n : nat) (s : list N) : Prop := length s = n /\ Forall (fun x => x < unit53)%N s.

(** How many [n] such numbers there are, and the size of a list. *)
Definition streams (n : nat) : Qc := Q2Qc (inject_Z (9007199254740992 ^ Z.of_nat n)).
Definition number {A} (l : list A) : Qc := Q2Qc (inject_Z (Z.of_nat (length l))).
