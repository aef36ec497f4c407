(** Templates of which a combinatorial run lists every allowed prompt: no
    random or cyclical parts, no variables with values chosen once, wildcards
    with one name, and no two equal options where several are chosen. *)
From Coq Require Import NArith ZArith QArith Qcanon Bool Arith List.
From Verif.Model Require Import Command Values Context.
From Verif.Spec Require Import Text Comb Items Lang Select.
Import ListNotations.
Local Open Scope nat_scope.

Section Exhaust.
Variable E : env.

(** Names that are plain text. *)
Definition OneName (w : wpath) : Prop := forall cmd, Reads E w cmd -> exists s m, cmd = Lit s m.

(** At most one option is chosen, or all options differ. *)
Definition Separate (opts : list (command * Qc)) (lo hi : Z) : Prop :=
  (Z.max lo hi <= 1)%Z \/ NoDup (map fst opts).

Inductive Exhaustive : command -> Prop :=
| Ex_lit : forall s m, finite_mark (Lit s m) -> Exhaustive (Lit s m)
| Ex_seq : forall tokens sep m, finite_mark (Seq tokens sep m) -> Forall Exhaustive tokens ->
    Exhaustive (Seq tokens sep m)
| Ex_var : forall opts lo hi sep m, finite_mark (Var opts lo hi sep m) -> ~ lone_wildcard opts ->
    Forall (fun o => Exhaustive (fst o)) opts -> (0 <= Z.max lo hi)%Z -> Separate opts lo hi ->
    Exhaustive (Var opts lo hi sep m)
| Ex_lone : forall w mw vars q lo hi sep m, finite_mark (Var [(Wild w mw vars, q)] lo hi sep m) ->
    OneName w -> (forall path opts, OptionsOf E path opts -> ~ lone_wildcard opts /\ Separate opts lo hi) ->
    Exhaustive (Var [(Wild w mw vars, q)] lo hi sep m)
| Ex_wild : forall w m vars, finite_mark (Wild w m vars) -> OneName w ->
    Forall (fun kv => Exhaustive (snd kv)) vars -> Exhaustive (Wild w m vars)
| Ex_assign : forall x v ovr, Exhaustive v -> Exhaustive (Assign x v false ovr)
| Ex_assign_text : forall x s m ovr, finite_mark (Lit s m) -> Exhaustive (Assign x (Lit s m) true ovr)
| Ex_access : forall x d, (forall v, d = Some v -> Exhaustive v) -> Exhaustive (Access x d)
| Ex_wrap : forall w i m, finite_mark (Wrap w i m) -> Nonempty w -> Nonempty i ->
    Exhaustive w -> Exhaustive i -> Exhaustive (Wrap w i m).

(** Wildcard values are such templates too, and so is what variables mean. *)
Definition ExhaustiveValues : Prop :=
  forall path t q cmd, In (t, q) (pairs (env_lookup E path)) -> env_parse E t = Ok cmd -> Exhaustive cmd.
Definition ExhaustivePrompt (p : wpath) : Prop := forall cmd, Reads E p cmd -> Exhaustive cmd.
Definition ExhaustiveScope (sc : scope) : Prop :=
  sc_method sc = Combinatorial /\ (forall x v, sc_var sc x = Some v -> Exhaustive v) /\
  (forall v, sc_unknown sc = Some v -> Exhaustive v).
End Exhaust.
