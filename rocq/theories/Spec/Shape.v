(** What any parsed template looks like, comments and tabs or not.  From
    Model/ only data types are used. *)
From Coq Require Import String NArith ZArith QArith Qcanon Bool Arith List Sorted.
From Verif.Model Require Import Str Command.
From Verif.Spec Require Import Text Names Lookup Lang Syntax.
Import ListNotations.
Local Open Scope nat_scope.

(** No literal right after another: a literal is as long as it can be. *)
Definition Apart (cs : list command) : Prop :=
  forall pre a b post, cs = pre ++ a :: b :: post -> ~ (IsLiteral a /\ IsLiteral b).

(** [Shaped p c]: the command for a text at place [p]; [Piece p c]: one
    element of it. *)
Inductive Shaped : place -> command -> Prop :=
| Shaped_one : forall p c, Piece p c -> Shaped p c
| Shaped_many : forall p cs, length cs <> 1 -> Forall (Piece p) cs -> (p <> Path -> Apart cs) ->
    Shaped p (Seq cs [] None)
with Piece : place -> command -> Prop :=
| Piece_text : forall p t, t <> [] -> Piece p (Lit t None)
| Piece_variants : forall p vs lo hi sep m,
    vs <> [] -> (0 <= lo <= hi)%Z -> sep <> [] ->
    Forall (fun v => Shaped Inside (fst v)) vs -> Piece p (Var vs lo hi sep m)
| Piece_access : forall p x d, p <> Path -> NameText x ->
    (forall c, d = Some c -> Shaped Inside c) -> Piece p (Access x d)
(** In the path of a wildcard the default is always given, and a text. *)
| Piece_path_access : forall x t, NameText x -> Piece Path (Access x (Some (Lit t None)))
(** Assignments stand at top level only. *)
| Piece_assign : forall x c imm ovr, NameText x -> Shaped Inside c -> Piece Top (Assign x c imm ovr)
| Piece_wrap : forall p w i, p <> Path -> Shaped Inside w -> Shaped Inside i -> Piece p (Wrap w i None)
| Piece_wildcard : forall p path m vars, p <> Path ->
    (forall t, path = WStr t -> t <> []) ->
    (forall c, path = WCmd c -> Shaped Path c /\ ~ IsLiteral c /\ Nonempty c) ->
    StronglySorted (fun a b => TextLe (fst a) (fst b) /\ fst a <> fst b) vars ->
    Forall (fun kv => Shaped Top (snd kv)) vars -> Piece p (Wild path m vars).
