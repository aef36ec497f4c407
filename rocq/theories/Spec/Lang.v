(** The language of a template: which texts a command may stand for in a
    scope, written as inference rules.  No sampler, generator or random
    generator occurs here.  Only the data types of the model (commands,
    wildcard items, the environment of parser and wildcard lookup) are used. *)
From Coq Require Import NArith ZArith QArith Qcanon Bool Arith List Permutation.
From Verif.Model Require Import Command Values Context.
From Verif.Spec Require Import Text Comb Items.
Import ListNotations.
Local Open Scope nat_scope.

(** How a scope samples, whether whitespace is squashed, what variables mean,
    and what undefined variables mean. *)
Record scope := {
  sc_method : method;
  sc_squash : bool;
  sc_var : text -> option command;
  sc_unknown : option command
}.

(** The scope that a sampling context describes. *)
Definition scope_of (c : ctx) : scope :=
  {| sc_method := c_method c; sc_squash := c_ignws c;
     sc_var := fun x => dict_get x (c_vars c); sc_unknown := c_unknown c |}.

(** The mark of a command decides, except that a combinatorial mark is ignored
    inside random and cyclical parts. *)
Definition resolve (outer : method) (mark : option method) : method :=
  match mark, outer with
  | None, _ => outer
  | Some Combinatorial, _ => outer
  | Some Random, _ => Random
  | Some Cyclical, _ => Cyclical
  end.

Definition mark_of (c : command) : option method :=
  match c with
  | Lit _ m | Seq _ _ m | Var _ _ _ _ m | Wild _ m _ | Wrap _ _ m => m
  | Assign _ _ _ _ | Access _ _ => None
  end.

Definition with_mark (c : command) (m : option method) : command :=
  match c with
  | Lit s _ => Lit s m
  | Seq ts sep _ => Seq ts sep m
  | Var vs lo hi sep _ => Var vs lo hi sep m
  | Wild w _ vars => Wild w m vars
  | Wrap w i _ => Wrap w i m
  | Assign _ _ _ _ | Access _ _ => c
  end.

Definition enter (sc : scope) (c : command) : scope :=
  {| sc_method := resolve (sc_method sc) (mark_of c); sc_squash := sc_squash sc;
     sc_var := sc_var sc; sc_unknown := sc_unknown sc |}.

(** Same scope but for the variables. *)
Definition SameBut (sc sc' : scope) : Prop :=
  sc_method sc' = sc_method sc /\ sc_squash sc' = sc_squash sc /\
  sc_unknown sc' = sc_unknown sc.

(** [sc'] is [sc] with the variables of a wildcard added. *)
Definition Extended (sc : scope) (vars : list (text * command)) (sc' : scope) : Prop :=
  SameBut sc sc' /\
  forall x, (exists pre v post, vars = pre ++ (x, v) :: post /\ ~ In x (map fst post) /\
                                sc_var sc' x = Some v)
         \/ (~ In x (map fst vars) /\ sc_var sc' x = sc_var sc x).

(** Joining: the separator between neighbours, one leading and one trailing
    separator dropped; one part is left alone. *)
Inductive Glued (sep : text) : list text -> text -> Prop :=
| Glued_one : forall t, Glued sep [t] t
| Glued_plain : forall ts, sep = [] -> Glued sep ts (concat ts)
| Glued_many : forall ts mid t, length ts <> 1 -> sep <> [] ->
    DropLeading sep (interleave sep ts) mid -> DropTrailing sep mid t ->
    Glued sep ts t.

(** Squashing on demand. *)
Definition Tidy (squash : bool) (t u : text) : Prop :=
  if squash then exists ws, Words t ws /\ u = interleave [32%N] ws else u = t.

(** A wildcard's written form: the wrap added where it is missing. *)
Definition Wrapped (ww name t : text) : Prop :=
  exists a, (StartsWith name ww /\ a = name \/ ~ StartsWith name ww /\ a = ww ++ name) /\
            (EndsWith a ww /\ t = a \/ ~ EndsWith a ww /\ t = a ++ ww).

Definition is_assign (c : command) : Prop :=
  exists n v i o, c = Assign n v i o.

(** [ps] are the members of [ts] that are not assignments. *)
Inductive Plain : list command -> list command -> Prop :=
| Plain_nil : Plain [] []
| Plain_drop : forall n v i o ts ps, Plain ts ps -> Plain (Assign n v i o :: ts) ps
| Plain_keep : forall c ts ps, ~ is_assign c -> Plain ts ps -> Plain (c :: ts) (c :: ps).

(** The last assignment to [x] among [ts]. *)
Definition LastAssign (x : text) (ts : list command) (v : command) (imm ovr : bool) : Prop :=
  exists pre post, ts = pre ++ Assign x v imm ovr :: post /\
    forall v' i' o', ~ In (Assign x v' i' o') post.

Definition NoAssign (x : text) (ts : list command) : Prop :=
  forall v i o, ~ In (Assign x v i o) ts.

(** A command that counts as a value ([bool(command)]). *)
Definition Nonempty (c : command) : Prop :=
  (forall s m, c <> Seq [] s m) /\ (forall lo hi s m, c <> Var [] lo hi s m).

(** What an access to [x] with default [d] refers to. *)
Inductive Refers (sc : scope) (x : text) (d : option command) : command -> Prop :=
| Refers_var : forall v, sc_var sc x = Some v -> Nonempty v -> Refers sc x d v
| Refers_default : forall v, sc_var sc x = None -> d = Some v -> Nonempty v -> Refers sc x d v
| Refers_unknown_var : forall v u, sc_var sc x = Some v -> ~ Nonempty v ->
    sc_unknown sc = Some u -> Refers sc x d u
| Refers_unknown : forall u, sc_var sc x = None ->
    (forall v, d = Some v -> ~ Nonempty v) -> sc_unknown sc = Some u -> Refers sc x d u.

Definition lone_wildcard (opts : list (command * Qc)) : Prop :=
  exists w m vs q, opts = [(Wild w m vs, q)].

Section Lang.
Variable E : env.

Definition pairs (items : list witem) : list (text * Qc) :=
  map (fun i => (w_content i,
                 match w_weight_opt i with Some w => w | None => 1%Qc end)) items.

(** Texts that may be drawn from a wildcard's items. *)
Definition Drawable (m : method) (items : list witem) (t : text) : Prop :=
  match m with
  | Random => exists q, In (t, q) (pairs items) /\
      ((exists t1 q1 t2 q2, In (t1, q1) (pairs items) /\ In (t2, q2) (pairs items) /\ q1 <> q2)
       -> (0 < q)%Qc)
  | _ => exists q, In (t, q) (pairs items) /\ (1 <= q)%Qc
  end.

(** The options a lone wildcard in a variant is replaced by. *)
Definition OptionsOf (path : text) (opts : list (command * Qc)) : Prop :=
  exists vals cmds, Listed (pairs (env_lookup E path)) vals /\
    Forall2 (fun v c => env_parse E v = Ok c) vals cmds /\
    opts = map (fun c => (c, 1%Qc)) cmds.

(** A command read off a prompt, which is a text or already a command. *)
Inductive Reads : wpath -> command -> Prop :=
| Reads_text : forall s c, s <> [] -> env_parse E s = Ok c -> Reads (WStr s) c
| Reads_command : forall c, Nonempty c -> Reads (WCmd c) c.

(** [Produces sc c t]: in scope [sc], [c] may stand for the text [t].
    [Body] is the same with the mark of [c] already taken into account. *)
Inductive Produces : scope -> command -> text -> Prop :=
| P_enter : forall sc c t, Body (enter sc c) c t -> Produces sc c t

with Body : scope -> command -> text -> Prop :=
| B_lit : forall sc s m, Body sc (Lit s m) s
| B_seq : forall sc tokens sep m sc' toks parts t,
    SameBut sc sc' -> (forall x, Bound sc tokens x (sc_var sc' x)) ->
    Plain tokens toks -> ProducesAll sc' toks parts ->
    (sc_method sc = Combinatorial -> t = interleave sep parts) ->
    (sc_method sc <> Combinatorial -> Glued sep parts t) ->
    Body sc (Seq tokens sep m) t
| B_choice : forall sc opts lo hi sep m sel rest parts t,
    ~ lone_wildcard opts -> opts <> [] ->
    (sc_method sc = Random -> length opts <> 1) ->
    Permutation (map fst opts) (sel ++ rest) ->
    (clamp (length opts) (Z.min lo hi) <= Z.of_nat (length sel)
       <= clamp (length opts) (Z.max lo hi))%Z ->
    (sc_method sc = Random ->
       forall v sel', sel = v :: sel' -> exists q, In (v, q) opts /\ (0 < q)%Qc) ->
    ProducesAll sc sel parts ->
    (sc_method sc = Combinatorial -> NoDup parts) ->
    Glued sep parts t ->
    Body sc (Var opts lo hi sep m) t
(** A cyclical selection is cut before an option that has no values. *)
| B_cut : forall sc opts lo hi sep m sel v sel' rest parts t,
    ~ lone_wildcard opts -> sc_method sc = Cyclical ->
    Permutation (map fst opts) ((sel ++ v :: sel') ++ rest) ->
    (clamp (length opts) (Z.min lo hi) <= Z.of_nat (length (sel ++ v :: sel'))
       <= clamp (length opts) (Z.max lo hi))%Z ->
    ProducesAll sc sel parts -> Void sc v -> Glued sep parts t ->
    Body sc (Var opts lo hi sep m) t
(** A single option is sampled as it is by the random sampler. *)
| B_single : forall sc v q lo hi sep m t,
    sc_method sc = Random -> ~ lone_wildcard [(v, q)] -> Produces sc v t ->
    Body sc (Var [(v, q)] lo hi sep m) t
(** A lone wildcard stands for the list of its values. *)
| B_lone : forall sc w mw vars q lo hi sep m path opts t n,
    Path sc w path -> OptionsOf path opts ->
    n = Z.of_nat (length (env_lookup E path)) ->
    Body sc (Var opts (Z.max 0 (Z.min (Z.min lo hi) n)) (Z.min (Z.max lo hi) n) sep None) t ->
    Body sc (Var [(Wild w mw vars, q)] lo hi sep m) t
| B_wild : forall sc w m vars path sc' v c t u,
    Path sc w path -> env_lookup E path <> [] -> Extended sc vars sc' ->
    Drawable (sc_method sc) (env_lookup E path) v ->
    Reads (WStr v) c -> Produces sc' c t -> Tidy (sc_squash sc) t u ->
    Body sc (Wild w m vars) u
| B_missing : forall sc w m vars path sc' name t,
    Path sc w path -> env_lookup E path = [] -> Extended sc vars sc' ->
    (forall s, w = WStr s -> name = s) -> (forall c, w = WCmd c -> Path sc' w name) ->
    Wrapped (env_wrap E) name t ->
    Body sc (Wild w m vars) t
| B_access : forall sc x d c t,
    Refers sc x d c -> Produces sc c t -> Body sc (Access x d) t
| B_wrap : forall sc wrapper inner m tw ti uw ui before after,
    sc_method sc <> Cyclical ->
    Produces sc wrapper tw -> Produces sc inner ti ->
    Tidy (sc_squash sc && method_eqb (sc_method sc) Combinatorial) tw uw ->
    Tidy (sc_squash sc && method_eqb (sc_method sc) Combinatorial) ti ui ->
    CutAtMarker uw before after ->
    Body sc (Wrap wrapper inner m) (before ++ ui ++ after)

with ProducesAll : scope -> list command -> list text -> Prop :=
| PA_nil : forall sc, ProducesAll sc [] []
| PA_cons : forall sc c cs t ts, Produces sc c t -> ProducesAll sc cs ts ->
    ProducesAll sc (c :: cs) (t :: ts)

(** The name a wildcard path stands for. *)
with Path : scope -> wpath -> text -> Prop :=
| Path_intro : forall sc w c t u,
    Reads w c -> Produces sc c t -> Tidy (sc_squash sc) t u -> Path sc w u

(** The meaning of variable [x] inside a sequence [tokens] placed in [sc]. *)
with Bound : scope -> list command -> text -> option command -> Prop :=
| Bound_outer : forall sc ts x, NoAssign x ts -> Bound sc ts x (sc_var sc x)
| Bound_kept : forall sc ts x v imm v0,
    LastAssign x ts v imm false -> sc_var sc x = Some v0 -> Bound sc ts x (Some v0)
| Bound_lazy : forall sc ts x v ovr,
    LastAssign x ts v false ovr -> (ovr = false -> sc_var sc x = None) ->
    Bound sc ts x (Some v)
| Bound_literal : forall sc ts x s m ovr,
    LastAssign x ts (Lit s m) true ovr -> (ovr = false -> sc_var sc x = None) ->
    Bound sc ts x (Some (Lit s m))
| Bound_immediate : forall sc ts x v ovr t,
    LastAssign x ts v true ovr -> (ovr = false -> sc_var sc x = None) ->
    (forall s m, v <> Lit s m) -> Produces sc v t ->
    Bound sc ts x (Some (Lit t None))

(** [c] may have no values at all in a random or cyclical scope. *)
with Void : scope -> command -> Prop :=
| V_enter : forall sc c, VoidBody (enter sc c) c -> Void sc c

with VoidBody : scope -> command -> Prop :=
| V_empty : forall sc lo hi sep m, VoidBody sc (Var [] lo hi sep m)
| V_single : forall sc v q lo hi sep m,
    sc_method sc = Random -> ~ lone_wildcard [(v, q)] -> Void sc v ->
    VoidBody sc (Var [(v, q)] lo hi sep m)
| V_lone : forall sc w mw vars q lo hi sep m path opts lo' hi',
    Path sc w path -> OptionsOf path opts -> VoidBody sc (Var opts lo' hi' sep None) ->
    VoidBody sc (Var [(Wild w mw vars, q)] lo hi sep m)
| V_wild : forall sc w m vars path,
    sc_method sc = Cyclical -> Path sc w path -> env_lookup E path <> [] ->
    Listed (pairs (env_lookup E path)) [] -> VoidBody sc (Wild w m vars)
| V_access : forall sc x d c, Refers sc x d c -> Void sc c -> VoidBody sc (Access x d)
| V_wrap_outer : forall sc wrapper inner m,
    sc_method sc = Random -> Void sc wrapper -> VoidBody sc (Wrap wrapper inner m)
| V_wrap_inner : forall sc wrapper inner m,
    sc_method sc = Random -> Void sc inner -> VoidBody sc (Wrap wrapper inner m).

(** Texts that sampling a prompt may give in a context. *)
Definition Allowed (c : ctx) (p : wpath) (u : text) : Prop :=
  exists cmd t, Reads p cmd /\ Produces (scope_of c) cmd t /\ Tidy (c_ignws c) t u.

(** A text of a sequence whose variables have the meaning of scope [sc'] and
    whose tokens apart from the assignments are [toks]. *)
Definition SeqText (sc' : scope) (toks : list command) (sep t : text) : Prop :=
  exists parts, ProducesAll sc' toks parts /\
    (sc_method sc' = Combinatorial -> t = interleave sep parts) /\
    (sc_method sc' <> Combinatorial -> Glued sep parts t).
End Lang.
