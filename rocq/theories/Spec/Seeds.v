(** Templates whose random generator keeps nothing from one prompt to the
    next. *)
From Coq Require Import NArith ZArith QArith Qcanon Bool Arith List.
From Verif.Model Require Import Str Utils Command Rng Values Context.
Import ListNotations.
Local Open Scope nat_scope.

Section Seeds.
Variable E : env.

(** The path of a wildcard is plain text, and what it stands for. *)
Definition PlainPath (w : wpath) (P : list witem -> Prop) : Prop :=
  exists s, w = WStr s /\
    forall cmd, env_parse E s = Ok cmd ->
      exists t m, cmd = Lit t m /\ P (env_lookup E t) /\ P (env_lookup E (squash_whitespace t)).

(** All entries have the same weight. *)
Definition SameWeights (items : list witem) : Prop :=
  forall a b, In a items -> In b items -> w_weight a = w_weight b.

(** Nothing is remembered between prompts: no cyclical parts, no immediate
    assignments, wildcards with plain paths and equal weights.  The options of
    a variant with several options may be anything, as they are started afresh
    for every prompt. *)
Inductive NoMemory : command -> Prop :=
| NM_lit : forall s m, NoMemory (Lit s m)
| NM_seq : forall ts sep m, m <> Some Cyclical -> Forall NoMemory ts ->
    NoMemory (Seq ts sep m)
| NM_var : forall vs lo hi sep m, m <> Some Cyclical -> length vs <> 1 ->
    NoMemory (Var vs lo hi sep m)
| NM_one : forall v q lo hi sep m, m <> Some Cyclical -> NoMemory v ->
    (forall w m' vars, v <> Wild w m' vars) ->
    NoMemory (Var [(v, q)] lo hi sep m)
| NM_lone : forall w m' vars q lo hi sep m, m <> Some Cyclical ->
    PlainPath w (fun items => length (iterate_weighted items) <> 1) ->
    NoMemory (Var [(Wild w m' vars, q)] lo hi sep m)
| NM_wild : forall w m vars, m <> Some Cyclical -> PlainPath w SameWeights ->
    NoMemory (Wild w m vars)
| NM_assign : forall x v o, NoMemory v -> NoMemory (Assign x v false o)
| NM_access : forall x d, (forall v, d = Some v -> NoMemory v) -> NoMemory (Access x d)
| NM_wrap : forall a b m, m <> Some Cyclical -> NoMemory a -> NoMemory b ->
    NoMemory (Wrap a b m).

Definition NoMemoryCtx (c : ctx) : Prop :=
  c_method c = Random /\ Forall (fun kv => NoMemory (snd kv)) (c_vars c) /\
  (forall v, c_unknown c = Some v -> NoMemory v).
End Seeds.
