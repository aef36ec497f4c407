(** Templates that differ in nothing but the weights of their options.  From
    Model/ only data types and the lookup of variables and wildcards are used. *)
From Coq Require Import NArith ZArith QArith Qcanon Bool Arith List.
From Verif.Model Require Import Command Values Context.
From Verif.Spec Require Import Text Lang.
Import ListNotations.
Local Open Scope nat_scope.

(** The same items of the two lists are repeated. *)
Definition SameRepeats (cs cs' : list command) : Prop :=
  forall i j, nth_error cs i = nth_error cs j <-> nth_error cs' i = nth_error cs' j.

Section Weights.
Variable E : env.
(** The texts that may be read, the samplers that may be asked for, and which
    weights of one variant may take the place of which. *)
Variable texts : text -> Prop.
Variable methods : method -> Prop.
Variable instead : list Qc -> list Qc -> Prop.

Definition Mark (m : option method) : Prop := forall x, m = Some x -> methods x.

Inductive Reweighed : command -> command -> Prop :=
| Rw_text : forall t m, Mark m -> Reweighed (Lit t m) (Lit t m)
| Rw_sequence : forall cs cs' sep m, Mark m -> Forall2 Reweighed cs cs' -> SameRepeats cs cs' ->
    Reweighed (Seq cs sep m) (Seq cs' sep m)
| Rw_variants : forall os os' lo hi sep m, Mark m ->
    Forall2 (fun o o' => Reweighed (fst o) (fst o')) os os' ->
    SameRepeats (map fst os) (map fst os') -> instead (map snd os) (map snd os') ->
    Reweighed (Var os lo hi sep m) (Var os' lo hi sep m)
| Rw_wildcard : forall t m vars vars', Mark m -> texts t ->
    Forall2 (fun a b => fst a = fst b /\ Reweighed (snd a) (snd b)) vars vars' ->
    Reweighed (Wild (WStr t) m vars) (Wild (WStr t) m vars')
| Rw_wildcard_path : forall c c' m vars vars', Mark m -> Reweighed c c' ->
    Forall2 (fun a b => fst a = fst b /\ Reweighed (snd a) (snd b)) vars vars' ->
    Reweighed (Wild (WCmd c) m vars) (Wild (WCmd c') m vars')
| Rw_assign : forall x c c' i o, Reweighed c c' -> Reweighed (Assign x c i o) (Assign x c' i o)
| Rw_access : forall x, Reweighed (Access x None) (Access x None)
| Rw_default : forall x c c', Reweighed c c' -> Reweighed (Access x (Some c)) (Access x (Some c'))
| Rw_wrap : forall w w' i i' m, Mark m -> Reweighed w w' -> Reweighed i i' ->
    Reweighed (Wrap w i m) (Wrap w' i' m).

Definition ReweighedOption (c c' : option command) : Prop :=
  match c, c' with
  | Some v, Some v' => Reweighed v v'
  | None, None => True
  | _, _ => False
  end.

(** The same template, or templates that differ in weights. *)
Definition ReweighedPrompt (p p' : wpath) : Prop :=
  p = p' /\ (forall c, Reads E p c -> Reweighed c c) \/
  exists c c', Reads E p c /\ Reads E p' c' /\ Reweighed c c'.

Definition ReweighedContext (c c' : ctx) : Prop :=
  c_method c = c_method c' /\ methods (c_method c) /\ c_ignws c = c_ignws c' /\ c_busy c = c_busy c' /\
  ReweighedOption (c_unknown c) (c_unknown c') /\
  forall x, ReweighedOption (sc_var (scope_of c) x) (sc_var (scope_of c') x).

(** The texts that are read, among them all values of wildcards, ask for none
    but the given samplers and texts. *)
Definition Readable : Prop :=
  (forall t c, texts t -> env_parse E t = Ok c -> Reweighed c c) /\
  forall name i, In i (env_lookup E name) -> texts (w_content i).
End Weights.

(** Every weight in a command changed by [f]. *)
Fixpoint reweigh (f : Qc -> Qc) (c : command) : command :=
  match c with
  | Lit t m => Lit t m
  | Seq ts sep m => Seq (map (reweigh f) ts) sep m
  | Var vs lo hi sep m => Var (map (fun v => (reweigh f (fst v), f (snd v))) vs) lo hi sep m
  | Wild (WStr t) m vars => Wild (WStr t) m (map (fun kv => (fst kv, reweigh f (snd kv))) vars)
  | Wild (WCmd d) m vars =>
      Wild (WCmd (reweigh f d)) m (map (fun kv => (fst kv, reweigh f (snd kv))) vars)
  | Assign x v imm ovr => Assign x (reweigh f v) imm ovr
  | Access x d => Access x (match d with Some e => Some (reweigh f e) | None => None end)
  | Wrap w i m => Wrap (reweigh f w) (reweigh f i) m
  end.

(** The weights of a variant multiplied by one power of two. *)
Definition pow2 (e : Z) : Qc := Q2Qc (2 ^ e).
Definition Doubled (ws ws' : list Qc) : Prop := exists e : Z, ws' = map (Qcmult (pow2 e)) ws.
(** Any other weights. *)
Definition AnyWeights (ws ws' : list Qc) : Prop := True.

(** A command reads no other texts, and asks for no other samplers. *)
Inductive Asks (texts : text -> Prop) (methods : method -> Prop) : command -> Prop :=
| Asks_text : forall t m, Mark methods m -> Asks texts methods (Lit t m)
| Asks_sequence : forall cs sep m, Mark methods m -> Forall (Asks texts methods) cs ->
    Asks texts methods (Seq cs sep m)
| Asks_variants : forall os lo hi sep m, Mark methods m -> Forall (fun o => Asks texts methods (fst o)) os ->
    Asks texts methods (Var os lo hi sep m)
| Asks_wildcard : forall t m vars, Mark methods m -> texts t ->
    Forall (fun kv => Asks texts methods (snd kv)) vars -> Asks texts methods (Wild (WStr t) m vars)
| Asks_wildcard_path : forall c m vars, Mark methods m -> Asks texts methods c ->
    Forall (fun kv => Asks texts methods (snd kv)) vars -> Asks texts methods (Wild (WCmd c) m vars)
| Asks_assign : forall x c i o, Asks texts methods c -> Asks texts methods (Assign x c i o)
| Asks_access : forall x, Asks texts methods (Access x None)
| Asks_default : forall x c, Asks texts methods c -> Asks texts methods (Access x (Some c))
| Asks_wrap : forall w i m, Mark methods m -> Asks texts methods w -> Asks texts methods i ->
    Asks texts methods (Wrap w i m).

(** Everything, and everything but choosing at random. *)
Definition all_methods (m : method) : Prop := True.
Definition all_texts (t : text) : Prop := True.
Definition no_chance (m : method) : Prop := m <> Random.
