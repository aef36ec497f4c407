(** Commands and values made by callers, not by the parser:
    commands/literal_command.py:14-17, commands/sequence_command.py:29-46,
    commands/variant_command.py:56-76, wildcards/values.py:35-41,74-75,85-90,
    utils.py:58-62, wildcards/wildcard_manager.py:150-157. *)
From Coq Require Import String NArith ZArith QArith Qcanon Bool List.
From Verif.Model Require Import Str Command Rng Values Context Structured Tree Manager.
Import ListNotations.
Local Open Scope nat_scope.

(** literal_command.py:14-17 [__add__]. *)
Definition literal_add (a b : command) : res command :=
  match a, b with
  | Lit s _, Lit t _ => Ok (Lit (s ++ $" " ++ t) None)
  | _, _ => Err EType
  end.

(** sequence_command.py:29-46 [from_literals]; texts and commands may be mixed. *)
Definition sequence_from_literals (vs : list (str + command)) (sep : str) (m : option method) : command :=
  Seq (map (fun v => match v with inl s => Lit s m | inr c => c end) vs) sep m.

(** variant_command.py:56-76 [from_literals_and_weights]; [None] is the
    AssertionError of line 69. *)
Definition variant_from_literals (literals : list str) (ws : option (list Qc)) (lo hi : Z)
    (sep : str) (m : option method) : option command :=
  let vals := map (fun s => Lit s None) literals in
  let ws := match ws with Some ws => ws | None => repeat 1%Qc (length vals) end in
  if Nat.eqb (length vals) (length ws) then Some (mk_variant (combine vals ws) lo hi sep m) else None.

(** values.py:35-41 [__add__], for two collections. *)
Definition values_add (a b : list witem) : list witem := a ++ b.

(** utils.py:58-62 [cross], on values compared by [eqb]. *)
Definition cross {A} (eqb : A -> A -> bool) (l1 l2 : list A) : list (A * A) :=
  flat_map (fun e1 => map (fun e2 => (e1, e2)) (filter (fun e2 => negb (eqb e1 e2)) l2)) l1.
