(** How random sampling draws a prompt, number by number.

    [Rolls sc busy cmd r t r']: in scope [sc], starting from the state [r] of
    the random source, [cmd] is drawn as the text [t] and the source is left in
    state [r'].  [busy] are the variables being read.  The rules are those of
    Spec/Draws.v, with every choice decided by the numbers the source gives,
    in the order in which they are asked for.  No sampler occurs here; of the
    model only the data types are used, and the raw numbers of the source. *)
From Coq Require Import NArith ZArith QArith Qcanon Bool Arith List.
From Verif.Model Require Import Command Rng Values Context.
From Verif.Spec Require Import Text Comb Items Lang Draws.
Import ListNotations.
Local Open Scope nat_scope.

Section Rolls.
Variable G : rng_impl.
Variable E : env.
Notation R := (rng_state G).

(** A whole number between [lo] and [hi], from one raw number. *)
Definition Counted (lo hi : Z) (r : R) (k : Z) (r' : R) : Prop :=
  (lo <= hi)%Z /\ exists x, prim_below G (Z.to_N (hi - lo + 1)) r = (x, r') /\
    k = (lo + Z.of_N (N.modulo x (Z.to_N (hi - lo + 1))))%Z.

(** The number of the stretch that a uniform point falls into when stretches as
    long as the weights are laid out one after the other. *)
Definition Picked (ws : list Qc) (r : R) (i : nat) (r' : R) : Prop :=
  Forall (fun w => 0 <= w)%Qc ws /\ i < length ws /\
  exists x point, prim_random G r = (x, r') /\
    point = fl G (Q2Qc (Z.of_N (N.modulo x 9007199254740992) # 9007199254740992) * float_sum (fl G) ws)%Qc /\
    (float_sum (fl G) (firstn i ws) <= point)%Qc /\ (point < float_sum (fl G) (firstn (S i) ws))%Qc.

Inductive PickedMany (ws : list Qc) : nat -> R -> list nat -> R -> Prop :=
| PM_nil : forall r, PickedMany ws 0 r [] r
| PM_cons : forall k r i r1 is r2, Picked ws r i r1 -> PickedMany ws k r1 is r2 ->
    PickedMany ws (S k) r (i :: is) r2.

(** [l'] is [l] without the first [x]. *)
Definition Without {A} (x : A) (l l' : list A) : Prop :=
  exists pre post, l = pre ++ x :: post /\ ~ In x pre /\ l' = pre ++ post.

(** One option after the other, none twice.  An option is picked by the
    weights of those left.  Together with it goes a weight: the one written at
    the first place of an equal option, or rather the first equal to that. *)
Inductive Chosen : list command -> list Qc -> nat -> R -> list command -> R -> Prop :=
| Ch_nil : forall vs ws r, Chosen vs ws 0 r [] r
| Ch_cons : forall vs ws k r i r1 v j w vs' ws' sel r2,
    Picked ws r i r1 -> nth_error vs i = Some v ->
    FirstAt vs v j -> nth_error ws j = Some w ->
    Without v vs vs' -> Without w ws ws' -> Chosen vs' ws' k r1 sel r2 ->
    Chosen vs ws (S k) r (v :: sel) r2.

(** The next value of a wildcard: with equal weights one raw number decides;
    otherwise ten values are picked at a time and handed out in order. *)
Inductive Supplied (items : list witem) : list text -> R -> text -> list text -> R -> Prop :=
| Su_even : forall buffer r x r' v q, AllEqual (map snd (pairs items)) ->
    prim_below G (N.of_nat (length items)) r = (x, r') ->
    nth_error (pairs items) (N.to_nat (N.modulo x (N.of_nat (length items)))) = Some (v, q) ->
    Supplied items buffer r v buffer r'
| Su_stored : forall v buffer r, ~ AllEqual (map snd (pairs items)) ->
    Supplied items (v :: buffer) r v buffer r
| Su_refill : forall r is r' v buffer, ~ AllEqual (map snd (pairs items)) ->
    PickedMany (map snd (pairs items)) 10 r is r' ->
    Forall2 (fun i t => exists q, nth_error (pairs items) i = Some (t, q)) is (v :: buffer) ->
    Supplied items [] r v buffer r'.

(** Sampling [cmd] can be set up: every variable it stands for has a meaning. *)
Inductive Starts : scope -> list text -> command -> Prop :=
| St_plain : forall sc busy cmd, sc_method (enter sc cmd) = Random ->
    ~ is_assign cmd -> (forall x d, cmd <> Access x d) -> Starts sc busy cmd
| St_access : forall sc busy x d c, sc_method sc = Random ->
    Refers sc x d c -> ~ In x busy -> Starts sc (x :: busy) c -> Starts sc busy (Access x d).

Inductive Rolls : scope -> list text -> command -> R -> text -> R -> Prop :=
| Ro_enter : forall sc busy cmd r t r', sc_method (enter sc cmd) = Random ->
    RollsBody (enter sc cmd) busy cmd r t r' -> Rolls sc busy cmd r t r'

with RollsBody : scope -> list text -> command -> R -> text -> R -> Prop :=
| Ro_lit : forall sc busy s m r, RollsBody sc busy (Lit s m) r s r
(** First the immediate assignments, then the other parts from left to right. *)
| Ro_seq : forall sc busy tokens sep m r bs r1 sc' toks parts r2 t,
    RollsBinds sc busy tokens r bs r1 -> Extended sc bs sc' -> Plain tokens toks ->
    RollsAll sc' busy toks r1 parts r2 -> Glued sep parts t ->
    RollsBody sc busy (Seq tokens sep m) r t r2
(** First how many options, then which, then their texts. *)
| Ro_choice : forall sc busy opts lo hi sep m r k r1 sel r2 parts r3 t,
    2 <= length opts ->
    Counted (clamp (length opts) (Z.min lo hi)) (Z.min (Z.max lo hi) (Z.of_nat (length opts))) r k r1 ->
    Chosen (map fst opts) (map snd opts) (Z.to_nat k) r1 sel r2 ->
    RollsAll sc busy sel r2 parts r3 -> Glued sep parts t ->
    RollsBody sc busy (Var opts lo hi sep m) r t r3
(** A single option needs no choice, whatever the bounds. *)
| Ro_single : forall sc busy v q lo hi sep m r t r',
    ~ lone_wildcard [(v, q)] -> Rolls sc busy v r t r' ->
    RollsBody sc busy (Var [(v, q)] lo hi sep m) r t r'
| Ro_lone : forall sc busy w mw vars q lo hi sep m r path r1 opts t r2 n,
    RollsPath sc busy w r path r1 -> OptionsOf E path opts ->
    n = Z.of_nat (length (env_lookup E path)) ->
    RollsBody sc busy (Var opts (Z.max 0 (Z.min (Z.min lo hi) n)) (Z.min (Z.max lo hi) n) sep None) r1 t r2 ->
    RollsBody sc busy (Var [(Wild w mw vars, q)] lo hi sep m) r t r2
(** First the name, then a value, then the text of the value. *)
| Ro_wild : forall sc busy w m vars r path r1 sc' u r2,
    RollsPath sc busy w r path r1 -> env_lookup E path <> [] -> Extended sc vars sc' ->
    RollsValue sc' busy (env_lookup E path) [] r1 u r2 ->
    RollsBody sc busy (Wild w m vars) r u r2
| Ro_missing : forall sc busy name m vars r path r1 t,
    RollsPath sc busy (WStr name) r path r1 -> env_lookup E path = [] ->
    Wrapped (env_wrap E) name t -> RollsBody sc busy (Wild (WStr name) m vars) r t r1
(** The name of a missing wildcard is drawn once more for the answer. *)
| Ro_missing_command : forall sc busy cmd m vars r path r1 sc' name r2 t,
    RollsPath sc busy (WCmd cmd) r path r1 -> env_lookup E path = [] -> Extended sc vars sc' ->
    RollsPath sc' busy (WCmd cmd) r1 name r2 ->
    Wrapped (env_wrap E) name t -> RollsBody sc busy (Wild (WCmd cmd) m vars) r t r2
| Ro_access : forall sc busy x d c r t r',
    Refers sc x d c -> ~ In x busy -> Rolls sc (x :: busy) c r t r' ->
    RollsBody sc busy (Access x d) r t r'
| Ro_wrap : forall sc busy wrapper inner m r tw r1 ti r2 before after,
    Rolls sc busy wrapper r tw r1 -> Rolls sc busy inner r1 ti r2 -> CutAtMarker tw before after ->
    RollsBody sc busy (Wrap wrapper inner m) r (before ++ ti ++ after) r2

with RollsAll : scope -> list text -> list command -> R -> list text -> R -> Prop :=
| RoA_nil : forall sc busy r, RollsAll sc busy [] r [] r
| RoA_cons : forall sc busy c cs r t r1 ts r2, Rolls sc busy c r t r1 -> RollsAll sc busy cs r1 ts r2 ->
    RollsAll sc busy (c :: cs) r (t :: ts) r2

with RollsPath : scope -> list text -> wpath -> R -> text -> R -> Prop :=
| RoP : forall sc busy w c r t r' u, Reads E w c -> Rolls sc busy c r t r' -> Tidy (sc_squash sc) t u ->
    RollsPath sc busy w r u r'

(** The text for a wildcard with the given items and values in store: values
    without any text are passed over. *)
with RollsValue : scope -> list text -> list witem -> list text -> R -> text -> R -> Prop :=
| RoV_taken : forall sc busy items buffer r v buffer' r1 u r2,
    Supplied items buffer r v buffer' r1 -> RollsPath sc busy (WStr v) r1 u r2 ->
    RollsValue sc busy items buffer r u r2
| RoV_passed : forall sc busy items buffer r v buffer' r1 r2 u r3,
    Supplied items buffer r v buffer' r1 -> HaltsPath sc busy (WStr v) r1 r2 ->
    RollsValue sc busy items buffer' r2 u r3 ->
    RollsValue sc busy items buffer r u r3

(** The assignments of a sequence, in order, with the values they give. *)
with RollsBinds : scope -> list text -> list command -> R -> list (text * command) -> R -> Prop :=
| RoB_nil : forall sc busy r, RollsBinds sc busy [] r [] r
| RoB_plain : forall sc busy tok toks r bs r', ~ is_assign tok -> RollsBinds sc busy toks r bs r' ->
    RollsBinds sc busy (tok :: toks) r bs r'
| RoB_kept : forall sc busy x v imm v0 toks r bs r', sc_var sc x = Some v0 -> RollsBinds sc busy toks r bs r' ->
    RollsBinds sc busy (Assign x v imm false :: toks) r ((x, v0) :: bs) r'
| RoB_lazy : forall sc busy x v ovr toks r bs r', (ovr = false -> sc_var sc x = None) ->
    RollsBinds sc busy toks r bs r' -> RollsBinds sc busy (Assign x v false ovr :: toks) r ((x, v) :: bs) r'
| RoB_literal : forall sc busy x s m ovr toks r bs r', (ovr = false -> sc_var sc x = None) ->
    RollsBinds sc busy toks r bs r' ->
    RollsBinds sc busy (Assign x (Lit s m) true ovr :: toks) r ((x, Lit s m) :: bs) r'
| RoB_now : forall sc busy x v ovr t toks r r1 bs r', (ovr = false -> sc_var sc x = None) ->
    (forall s m, v <> Lit s m) -> Rolls sc busy v r t r1 ->
    RollsBinds sc busy toks r1 bs r' ->
    RollsBinds sc busy (Assign x v true ovr :: toks) r ((x, Lit t None) :: bs) r'

(** Sampling [cmd] ends at once, without any text. *)
with Halts : scope -> list text -> command -> R -> R -> Prop :=
| Ha_enter : forall sc busy cmd r r', sc_method (enter sc cmd) = Random ->
    HaltsBody (enter sc cmd) busy cmd r r' -> Halts sc busy cmd r r'

with HaltsBody : scope -> list text -> command -> R -> R -> Prop :=
| Ha_empty : forall sc busy lo hi sep m r, HaltsBody sc busy (Var [] lo hi sep m) r r
| Ha_single : forall sc busy v q lo hi sep m r r',
    ~ lone_wildcard [(v, q)] -> Halts sc busy v r r' -> HaltsBody sc busy (Var [(v, q)] lo hi sep m) r r'
| Ha_lone : forall sc busy w mw vars q lo hi sep m r path r1 opts r2 n,
    RollsPath sc busy w r path r1 -> OptionsOf E path opts ->
    n = Z.of_nat (length (env_lookup E path)) ->
    HaltsBody sc busy (Var opts (Z.max 0 (Z.min (Z.min lo hi) n)) (Z.min (Z.max lo hi) n) sep None) r1 r2 ->
    HaltsBody sc busy (Var [(Wild w mw vars, q)] lo hi sep m) r r2
| Ha_access : forall sc busy x d c r r', Refers sc x d c -> ~ In x busy ->
    Halts sc (x :: busy) c r r' -> HaltsBody sc busy (Access x d) r r'
| Ha_wrapper : forall sc busy wrapper inner m r r',
    Halts sc busy wrapper r r' -> Starts sc busy inner -> HaltsBody sc busy (Wrap wrapper inner m) r r'
| Ha_inner : forall sc busy wrapper inner m r tw r1 r2,
    Rolls sc busy wrapper r tw r1 -> Halts sc busy inner r1 r2 -> HaltsBody sc busy (Wrap wrapper inner m) r r2

with HaltsPath : scope -> list text -> wpath -> R -> R -> Prop :=
| HaP_blank : forall sc busy r, HaltsPath sc busy (WStr []) r r
| HaP_bare : forall sc busy c r, ~ Nonempty c -> HaltsPath sc busy (WCmd c) r r
| HaP_end : forall sc busy w c r r', Reads E w c -> Halts sc busy c r r' -> HaltsPath sc busy w r r'.

Scheme Rolls_mind := Minimality for Rolls Sort Prop
  with RollsBody_mind := Minimality for RollsBody Sort Prop
  with RollsAll_mind := Minimality for RollsAll Sort Prop
  with RollsPath_mind := Minimality for RollsPath Sort Prop
  with RollsValue_mind := Minimality for RollsValue Sort Prop
  with RollsBinds_mind := Minimality for RollsBinds Sort Prop
  with Halts_mind := Minimality for Halts Sort Prop
  with HaltsBody_mind := Minimality for HaltsBody Sort Prop
  with HaltsPath_mind := Minimality for HaltsPath Sort Prop.
Combined Scheme Rolls_mutind from Rolls_mind, RollsBody_mind, RollsAll_mind, RollsPath_mind, RollsValue_mind,
  RollsBinds_mind, Halts_mind, HaltsBody_mind, HaltsPath_mind.

(** A prompt drawn in a context, and several one after the other. *)
Definition Rolled (c : ctx) (p : wpath) (r : R) (u : text) (r' : R) : Prop :=
  RollsPath (scope_of c) (c_busy c) p r u r'.
Inductive RolledMany (c : ctx) (p : wpath) : R -> list text -> R -> Prop :=
| RM_nil : forall r, RolledMany c p r [] r
| RM_cons : forall r u r1 us r2, Rolled c p r u r1 -> RolledMany c p r1 us r2 ->
    RolledMany c p r (u :: us) r2.

(** Commands without cyclical parts and negative weights. *)
Inductive AllRandom : command -> Prop :=
| AR_lit : forall s m, m <> Some Cyclical -> AllRandom (Lit s m)
| AR_seq : forall ts sep m, m <> Some Cyclical -> Forall AllRandom ts -> AllRandom (Seq ts sep m)
| AR_var : forall opts lo hi sep m, m <> Some Cyclical ->
    Forall (fun o => AllRandom (fst o) /\ (0 <= snd o)%Qc) opts -> AllRandom (Var opts lo hi sep m)
| AR_wild : forall s m vars, m <> Some Cyclical -> (forall c, env_parse E s = Ok c -> AllRandom c) ->
    Forall (fun kv => AllRandom (snd kv)) vars -> AllRandom (Wild (WStr s) m vars)
| AR_wild_command : forall c m vars, m <> Some Cyclical -> AllRandom c ->
    Forall (fun kv => AllRandom (snd kv)) vars -> AllRandom (Wild (WCmd c) m vars)
| AR_assign : forall x v i o, AllRandom v -> AllRandom (Assign x v i o)
| AR_access : forall x d, (forall v, d = Some v -> AllRandom v) -> AllRandom (Access x d)
| AR_wrap : forall w i m, m <> Some Cyclical -> AllRandom w -> AllRandom i -> AllRandom (Wrap w i m).

Definition AllRandomPrompt (p : wpath) : Prop := forall c, Reads E p c -> AllRandom c.
Definition AllRandomScope (sc : scope) : Prop :=
  sc_method sc = Random /\ (forall x v, sc_var sc x = Some v -> AllRandom v) /\
  (forall v, sc_unknown sc = Some v -> AllRandom v).
Definition AllRandomValues : Prop := forall path t q, In (t, q) (pairs (env_lookup E path)) ->
  (0 <= q)%Qc /\ forall c, env_parse E t = Ok c -> AllRandom c.
End Rolls.
