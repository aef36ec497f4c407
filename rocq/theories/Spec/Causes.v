(** Which exceptions a template can cause while it is sampled: a reading of the
    template that allows an exception only where its cause stands.  From
    Model/ only data types and the lookup of wildcards are used. *)
From Coq Require Import NArith ZArith QArith Qcanon Bool Arith List.
From Verif.Model Require Import Command Rng Values Context.
From Verif.Spec Require Import Text Lang.
Import ListNotations.
Local Open Scope nat_scope.

(** The variables that a sequence assigns, and those that a wildcard is given. *)
Definition assigned (cs : list command) : list text :=
  flat_map (fun c => match c with Assign x _ _ _ => [x] | _ => [] end) cs.
Definition given (vars : list (text * command)) : list text := map fst vars.

Section Causes.
Variable E : env.
(** The exceptions that are allowed. *)
Variable raises : exn -> Prop.
(** Whether there is a value for unknown variables. *)
Variable fallback : Prop.
(** The variables are layered: a variable only uses variables of lower layers.
    [needs x] are the variables that have a value wherever [x] has one, and
    [modes x] the samplers that [x] is sampled by. *)
Variable layer : text -> nat.
Variable needs : text -> list text.
Variable modes : text -> method -> Prop.
(** [texts n K M t], [wilds n K M name]: template [t] and wildcard [name] may be
    used below layer [n] where the variables [K] have values, by the samplers [M]. *)
Variable texts : nat -> list text -> (method -> Prop) -> text -> Prop.
Variable wilds : nat -> list text -> (method -> Prop) -> text -> Prop.

(** Among the samplers [M] a part marked [m] is sampled by those of [M']. *)
Definition Turns (M : method -> Prop) (m : option method) (M' : method -> Prop) : Prop :=
  forall k, M k -> M' (resolve k m).
(** A variable with this value counts as defined, or may be undefined. *)
Definition Defined (v : command) : Prop := Nonempty v \/ fallback \/ raises EKey.

(** [Cautious n K M cmd]: [cmd], which only uses variables of layers below [n],
    causes no other exceptions where the variables [K] have values and the
    sampler is one of [M]. *)
Inductive Cautious : nat -> list text -> (method -> Prop) -> command -> Prop :=
| Cautious_text : forall n K M t m, Cautious n K M (Lit t m)
| Cautious_sequence : forall n K M M' cs sep m, Turns M m M' ->
    Forall (Part n K M' (assigned cs ++ K)) cs -> Cautious n K M (Seq cs sep m)
(** ValueError: no number of options to choose, or no weight. *)
| Cautious_variants : forall n K M M' os lo hi sep m, Turns M m M' ->
    Forall (fun o => Cautious n K M' (fst o)) os ->
    (M' Random -> raises EValue \/ (0 <= Z.max lo hi)%Z) ->
    (M' Random -> raises EValue \/ length os <= 1 \/ forall v q, In (v, q) os -> (0 < q)%Qc) ->
    (forall t mw vars q, os = [(Wild (WStr t) mw vars, q)] -> texts n K M' t) ->
    (forall c mw vars q, os = [(Wild (WCmd c) mw vars, q)] -> Cautious n K M' c) ->
    (forall w mw vars q sc name, os = [(Wild w mw vars, q)] -> Path E sc w name -> wilds n K M' name) ->
    Cautious n K M (Var os lo hi sep m)
| Cautious_wildcard : forall n K M M' w m vars, Turns M m M' ->
    (forall t, w = WStr t -> texts n K M' t) ->
    (forall c, w = WCmd c -> Cautious n K M' c) ->
    (forall x v, In (x, v) vars -> Cautious (layer x) (needs x) (modes x) v) ->
    (forall x v, In (x, v) vars -> Defined v /\ incl (needs x) (given vars ++ K)) ->
    (forall sc name, Path E sc w name -> wilds n (given vars ++ K) M' name) ->
    Cautious n K M (Wild w m vars)
(** NotImplementedError: an assignment that is not part of a sequence. *)
| Cautious_assign : forall n K M x v i o, raises ENotImplemented -> Cautious n K M (Assign x v i o)
(** KeyError: no value, no default and no value for unknown variables;
    RecursionError: a variable that is not of a lower layer. *)
| Cautious_access : forall n K (M : method -> Prop) x d,
    (In x K \/ d <> None \/ fallback \/ raises EKey) ->
    (layer x < n \/ raises ERecursion) -> (forall k, M k -> modes x k) ->
    (forall c, d = Some c -> Cautious (layer x) K M c) -> (forall c, d = Some c -> Defined c) ->
    Cautious n K M (Access x d)
(** NotImplementedError: a wrap sampled cyclically. *)
| Cautious_wrap : forall n K M M' w i m, Turns M m M' -> (M' Cyclical -> raises ENotImplemented) ->
    Cautious n K M' w -> Cautious n K M' i -> Cautious n K M (Wrap w i m)
(** A part of a sequence; [K] have values before it and [K'] inside it. *)
with Part : nat -> list text -> (method -> Prop) -> list text -> command -> Prop :=
| Part_lazy : forall n K M K' x v o, Cautious (layer x) (needs x) (modes x) v -> Defined v -> incl (needs x) K' ->
    Part n K M K' (Assign x v false o)
| Part_now : forall n K M K' x v o, Cautious n K M v -> incl (needs x) K' ->
    Part n K M K' (Assign x v true o)
| Part_other : forall n K M K' c, ~ is_assign c -> Cautious n K' M c -> Part n K M K' c.

(** A prompt to sample. *)
Definition Careful (n : nat) (K : list text) (M : method -> Prop) (p : wpath) : Prop :=
  match p with WStr t => texts n K M t | WCmd c => Cautious n K M c end.

(** The templates and wildcards that may be used.  A text that is no template
    causes the exception of the parser.  The values of wildcards are templates
    again, a single value that is a wildcard may be used in its place, and
    values chosen at random have weight. *)
Definition TextsCautious : Prop := forall n K M t, texts n K M t ->
  (forall c, env_parse E t = Ok c -> Cautious n K M c) /\
  (forall e, env_parse E t = Err e -> raises e).
Definition WildsCautious : Prop := forall n K M name, wilds n K M name ->
  (forall i, In i (env_lookup E name) -> texts n K M (w_content i)) /\
  (forall w m vars q sc name', OptionsOf E name [(Wild w m vars, q)] ->
     Careful n K M w /\ (Path E sc w name' -> wilds n K M name')) /\
  (M Random -> raises EValue \/
     ((forall t q, In (t, q) (pairs (env_lookup E name)) -> (0 <= q)%Qc) /\
      (env_lookup E name <> [] -> exists t q, In (t, q) (pairs (env_lookup E name)) /\ (0 < q)%Qc))).

(** The context: below layer [n] no variable is being evaluated, the variables
    [K] have values, the sampler is one of [M], and all values cause no other
    exceptions. *)
Definition Ready (n : nat) (K : list text) (M : method -> Prop) (c : ctx) : Prop :=
  M (c_method c) /\
  (raises ERecursion \/ forall x, In x (c_busy c) -> n <= layer x) /\
  (fallback -> c_unknown c <> None) /\
  (forall u n' K' M', c_unknown c = Some u -> Cautious n' K' M' u) /\
  (forall x, In x K -> sc_var (scope_of c) x <> None) /\
  (forall x v, sc_var (scope_of c) x = Some v -> Cautious (layer x) (needs x) (modes x) v /\ Defined v /\
     forall y, In y (needs x) -> sc_var (scope_of c) y <> None).
End Causes.
