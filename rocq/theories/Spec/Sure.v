(** Templates that endless sampling can always serve: nothing in them can
    fail or run out of values, whatever the random generator does. *)
From Coq Require Import NArith ZArith QArith Qcanon Bool Arith List.
From Verif.Model Require Import Command Values Context Generators.
From Verif.Spec Require Import Text Comb Items Lang.
Import ListNotations.
Local Open Scope nat_scope.

Section Sure.
Variable E : env.

(** [Sure sc busy cmd]: [cmd] has a next value in every situation that can
    arise in scope [sc] while the variables [busy] are being evaluated.
    [SureBody] is the same with the mark of [cmd] taken into account. *)
Inductive Sure : scope -> list text -> command -> Prop :=
| Sure_enter : forall sc busy cmd, SureBody (enter sc cmd) busy cmd -> Sure sc busy cmd

with SureBody : scope -> list text -> command -> Prop :=
| Sure_lit : forall sc busy s m, sc_method sc <> Combinatorial -> SureBody sc busy (Lit s m)
(** Values assigned at once can be computed; every other part has values
    whatever these values are. *)
| Sure_seq : forall sc busy tokens sep m, sc_method sc <> Combinatorial ->
    (forall x v ovr, In (Assign x v true ovr) tokens ->
       (ovr = false -> sc_var sc x = None) -> Sure sc busy v) ->
    (forall sc' toks tok, SameBut sc sc' -> (forall x, Bound E sc tokens x (sc_var sc' x)) ->
       Plain tokens toks -> In tok toks -> Sure sc' busy tok) ->
    SureBody sc busy (Seq tokens sep m)
| Sure_random : forall sc busy opts lo hi sep m, sc_method sc = Random ->
    ~ lone_wildcard opts -> opts <> [] ->
    (length opts = 1 \/ ((0 <= Z.max lo hi)%Z /\ forall v q, In (v, q) opts -> (0 < q)%Qc)) ->
    (forall v q, In (v, q) opts -> Sure sc busy v) ->
    SureBody sc busy (Var opts lo hi sep m)
(** Equal options count once, so there may be too few of them. *)
| Sure_cyclical : forall sc busy opts lo hi sep m k sel, sc_method sc = Cyclical ->
    ~ lone_wildcard opts -> opts <> [] -> (0 <= Z.max lo hi)%Z ->
    (clamp (length opts) (Z.min lo hi) <= Z.of_nat k <= clamp (length opts) (Z.max lo hi))%Z ->
    Selection k (map fst opts) sel ->
    (forall v q, In (v, q) opts -> Sure sc busy v) ->
    SureBody sc busy (Var opts lo hi sep m)
| Sure_lone : forall sc busy w mw vars q lo hi sep m path_cmd (opts : text -> list (command * Qc)),
    sc_method sc <> Combinatorial ->
    Reads E w path_cmd -> Sure sc busy path_cmd ->
    (forall path, Path E sc w path -> OptionsOf E path (opts path)) ->
    (forall path n, Path E sc w path -> n = Z.of_nat (length (env_lookup E path)) ->
       SureBody sc busy (Var (opts path) (Z.max 0 (Z.min (Z.min lo hi) n)) (Z.min (Z.max lo hi) n) sep None)) ->
    SureBody sc busy (Var [(Wild w mw vars, q)] lo hi sep m)
(** A wildcard that is found has something to draw, and every value that can
    be drawn is such a template. *)
| Sure_wild : forall sc busy w m vars path_cmd (meaning : text -> command),
    sc_method sc <> Combinatorial ->
    Reads E w path_cmd -> Sure sc busy path_cmd ->
    (forall path, Path E sc w path -> env_lookup E path <> [] -> sc_method sc = Random ->
       forall v q, In (v, q) (pairs (env_lookup E path)) -> (0 <= q)%Qc) ->
    (forall path, Path E sc w path -> env_lookup E path <> [] ->
       exists v, Drawable (sc_method sc) (env_lookup E path) v) ->
    (forall path v, Path E sc w path -> Drawable (sc_method sc) (env_lookup E path) v ->
       Reads E (WStr v) (meaning v)) ->
    (forall path sc' v, Path E sc w path -> Extended sc vars sc' ->
       Drawable (sc_method sc) (env_lookup E path) v -> Sure sc' busy (meaning v)) ->
    (forall path sc' cmd, Path E sc w path -> Extended sc vars sc' -> env_lookup E path = [] ->
       w = WCmd cmd -> Sure sc' busy cmd) ->
    SureBody sc busy (Wild w m vars)
| Sure_access : forall sc busy x d v,
    Refers sc x d v -> ~ In x busy -> Sure sc (x :: busy) v -> SureBody sc busy (Access x d)
| Sure_wrap : forall sc busy wrapper inner m, sc_method sc = Random ->
    Sure sc busy wrapper -> Sure sc busy inner -> SureBody sc busy (Wrap wrapper inner m).

Scheme Sure_mind := Minimality for Sure Sort Prop
  with SureBody_mind := Minimality for SureBody Sort Prop.
Combined Scheme Sure_mutind from Sure_mind, SureBody_mind.
End Sure.

(** Seeds that a request for [num] prompts may be given. *)
Inductive Usable (num : nat) : seeds_arg -> Prop :=
| Usable_none : Usable num SNone
| Usable_int : forall z, Usable num (SInt z)
| Usable_empty : Usable num (SList [])
| Usable_one : forall z, Usable num (SList [z])
| Usable_each : forall l, length l = num -> Usable num (SList l).
