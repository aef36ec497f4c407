(** Templates whose k-th prompt is known: literals, cyclical variants and
    wildcards, and endless sequences of them, with variables. *)
From Coq Require Import NArith ZArith QArith Qcanon Bool Arith List.
From Verif.Model Require Import Command Values Context.
From Verif.Spec Require Import Text Comb Items Lang.
From Verif.Spec Require Export Select.
Import ListNotations.
Local Open Scope nat_scope.

Definition endless (m : method) : Prop := m = Random \/ m = Cyclical.

(** The values at time [k] of several streams. *)
Definition at_time (ss : list (nat -> text)) (k : nat) : list text := map (fun s => s k) ss.

Definition as_method (m : method) (c : ctx) : ctx :=
  {| c_method := m; c_ignws := c_ignws c; c_vars := c_vars c; c_unknown := c_unknown c; c_busy := c_busy c |}.

(** While the value of [x] is sampled. *)
Definition inside (x : text) (c : ctx) : ctx :=
  {| c_method := c_method c; c_ignws := c_ignws c; c_vars := c_vars c; c_unknown := c_unknown c;
     c_busy := x :: c_busy c |}.

Section Cycle.
Variable E : env.

(** [Cyc c cmd s]: in context [c] the [k]-th value of [cmd] is [s k]. *)
Inductive Cyc : ctx -> command -> (nat -> text) -> Prop :=
| Cy_lit : forall c t m s, endless (resolve (c_method c) m) -> (forall k, s k = t) -> Cyc c (Lit t m) s
(** Assignments first; the other parts of a sequence advance together. *)
| Cy_seq : forall c tokens sep m m' bs need c' toks ss s, m' = resolve (c_method c) m -> endless m' ->
    Assigned (scope_of (as_method m' c)) tokens bs need -> CycFirsts (as_method m' c) need ->
    Extends (as_method m' c) bs c' -> Plain tokens toks -> CycAll c' toks ss ->
    (forall k, Glued sep (at_time ss k) (s k)) -> Cyc c (Seq tokens sep m) s
(** A cyclical variant takes its selections in turn; a selection's parts
    advance when it is its turn. *)
| Cy_var : forall c opts lo hi sep m sels sss s, resolve (c_method c) m = Cyclical ->
    opts <> [] -> ~ lone_wildcard opts ->
    Selections (map fst opts) (sizes (length opts) lo hi) sels -> sels <> [] ->
    CycSels (as_method Cyclical c) sels sss ->
    (forall k, Glued sep (at_time (nth (k mod length sels) sss []) (k / length sels)) (s k)) ->
    Cyc c (Var opts lo hi sep m) s
(** A random variant with one option leaves nothing to chance. *)
| Cy_single : forall c v q lo hi sep m s, resolve (c_method c) m = Random ->
    ~ lone_wildcard [(v, q)] -> Cyc (as_method Random c) v s -> Cyc c (Var [(v, q)] lo hi sep m) s
| Cy_lone : forall c w path mw vars q lo hi sep m m' opts n s,
    m' = resolve (c_method c) m -> endless m' -> CycPath (as_method m' c) w path ->
    OptionsOf E path opts -> n = Z.of_nat (length (env_lookup E path)) ->
    Cyc c (Var opts (Z.max 0 (Z.min (Z.min lo hi) n)) (Z.min (Z.max lo hi) n) sep m) s ->
    Cyc c (Var [(Wild w mw vars, q)] lo hi sep m) s
(** A cyclical wildcard takes its values in turn. *)
| Cy_wild : forall c w path m vars c' vals ss s,
    resolve (c_method c) m = Cyclical -> CycPath (as_method Cyclical c) w path -> env_lookup E path <> [] ->
    Extends (as_method Cyclical c) vars c' ->
    Listed (pairs (env_lookup E path)) vals -> vals <> [] -> CycTexts c' vals ss ->
    (forall k, s k = nth (k mod length vals) ss (fun _ => []) (k / length vals)) ->
    Cyc c (Wild w m vars) s
(** A missing wildcard stands for its own name, whatever is sampled. *)
| Cy_missing : forall c w path m m' vars c' name t s,
    m' = resolve (c_method c) m -> endless m' -> CycPath (as_method m' c) w path ->
    env_lookup E path = [] -> Extends (as_method m' c) vars c' ->
    (forall n, w = WStr n -> name = n) -> (forall cmd, w = WCmd cmd -> CycPath c' w name) ->
    Wrapped (env_wrap E) name t -> (forall k, s k = t) ->
    Cyc c (Wild w m vars) s
| Cy_access : forall c x d v s,
    Refers (scope_of c) x d v -> ~ In x (c_busy c) -> Cyc (inside x c) v s -> Cyc c (Access x d) s
(** A random wrap goes through both parts at the same pace. *)
| Cy_wrap : forall c wrapper inner m sw si s, resolve (c_method c) m = Random ->
    Cyc (as_method Random c) wrapper sw -> Cyc (as_method Random c) inner si ->
    (forall k, exists before after, CutAtMarker (sw k) before after /\ s k = before ++ si k ++ after) ->
    Cyc c (Wrap wrapper inner m) s

with CycAll : ctx -> list command -> list (nat -> text) -> Prop :=
| CyA_nil : forall c, CycAll c [] []
| CyA_cons : forall c cmd cmds s ss, Cyc c cmd s -> CycAll c cmds ss -> CycAll c (cmd :: cmds) (s :: ss)

with CycSels : ctx -> list (list command) -> list (list (nat -> text)) -> Prop :=
| CyS_nil : forall c, CycSels c [] []
| CyS_cons : forall c sel sels ss sss, CycAll c sel ss -> CycSels c sels sss ->
    CycSels c (sel :: sels) (ss :: sss)

(** Wildcard values are read as templates. *)
with CycTexts : ctx -> list text -> list (nat -> text) -> Prop :=
| CyT_nil : forall c, CycTexts c [] []
| CyT_cons : forall c v cmd vs s u us, Reads E (WStr v) cmd -> Cyc c cmd s ->
    (forall k, Tidy (c_ignws c) (s k) (u k)) -> CycTexts c vs us -> CycTexts c (v :: vs) (u :: us)

(** First values. *)
with CycFirsts : ctx -> list (command * text) -> Prop :=
| CyF_nil : forall c, CycFirsts c []
| CyF_cons : forall c v s need, Cyc c v s -> CycFirsts c need -> CycFirsts c ((v, s 0) :: need)

(** The name a wildcard is looked up under. *)
with CycPath : ctx -> wpath -> text -> Prop :=
| CyP_reads : forall c w cmd s u, Reads E w cmd -> Cyc c cmd s -> Tidy (c_ignws c) (s 0) u -> CycPath c w u.

Scheme Cyc_mind := Minimality for Cyc Sort Prop
  with CycAll_mind := Minimality for CycAll Sort Prop
  with CycSels_mind := Minimality for CycSels Sort Prop
  with CycTexts_mind := Minimality for CycTexts Sort Prop
  with CycFirsts_mind := Minimality for CycFirsts Sort Prop
  with CycPath_mind := Minimality for CycPath Sort Prop.
Combined Scheme Cyc_mutind from Cyc_mind, CycAll_mind, CycSels_mind, CycTexts_mind, CycFirsts_mind, CycPath_mind.
End Cycle.
