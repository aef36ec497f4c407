(** What a combinatorial run lists, and in which order.  No generator or
    random generator occurs here. *)
From Coq Require Import NArith ZArith QArith Qcanon Bool Arith List.
From Verif.Model Require Import Command Values Context.
From Verif.Spec Require Import Text Comb Items Lang.
From Verif.Spec Require Export Select Cycle.
Import ListNotations.
Local Open Scope nat_scope.

(** Members with their numbers. *)
Definition numbered {A} (l : list A) : list (nat * A) := combine (seq 0 (length l)) l.

Section Enum.
Variable E : env.

(** [Enum c cmd ts]: in the combinatorial context [c], [cmd] stands for the
    list [ts]. *)
Inductive Enum : ctx -> command -> list text -> Prop :=
| En_lit : forall c s m, finite_mark (Lit s m) -> Enum c (Lit s m) [s]
(** Assignments first, then the product of the other parts; prompt number [j]
    shows the endless parts at time [j]. *)
| En_seq : forall c tokens sep m bs need c' toks stream ls,
    finite_mark (Seq tokens sep m) -> Assigned (scope_of c) tokens bs need -> EnumFirsts c need ->
    Extends c bs c' -> Plain tokens toks -> TimedParts c' stream toks toks ls ->
    Enum c (Seq tokens sep m)
      (map (fun ja => interleave sep (at_time (snd ja) (fst ja))) (numbered (product ls)))
| En_var : forall c opts lo hi sep m sels arrs kept outs ts,
    finite_mark (Var opts lo hi sep m) -> opts <> [] -> ~ lone_wildcard opts ->
    Selections (map fst opts) (sizes (length opts) lo hi) sels ->
    EnumSels c sels arrs ->
    Sift (@NoDup text) arrs kept -> FirstOnly [] kept outs -> Forall2 (Glued sep) outs ts ->
    Enum c (Var opts lo hi sep m) ts
| En_no_option : forall c lo hi sep m, finite_mark (Var [] lo hi sep m) ->
    Enum c (Var [] lo hi sep m) []
| En_lone : forall c w mw vars q lo hi sep m path opts n ts,
    finite_mark (Var [(Wild w mw vars, q)] lo hi sep m) ->
    EnumPath c w path -> OptionsOf E path opts ->
    n = Z.of_nat (length (env_lookup E path)) ->
    Enum c (Var opts (Z.max 0 (Z.min (Z.min lo hi) n)) (Z.min (Z.max lo hi) n) sep None) ts ->
    Enum c (Var [(Wild w mw vars, q)] lo hi sep m) ts
| En_wild : forall c w m vars path c' vals lists,
    finite_mark (Wild w m vars) -> EnumPath c w path -> env_lookup E path <> [] -> Extends c vars c' ->
    Listed (pairs (env_lookup E path)) vals -> EnumPrompts c' (map WStr vals) lists ->
    Enum c (Wild w m vars) (concat lists)
| En_access : forall c x d v ts,
    Refers (scope_of c) x d v -> ~ In x (c_busy c) -> Enum (inside x c) v ts -> Enum c (Access x d) ts
| En_wrap : forall c wrapper inner m ws is ts,
    finite_mark (Wrap wrapper inner m) ->
    EnumPrompt c (WCmd wrapper) ws -> EnumPrompt c (WCmd inner) is ->
    Forall2 (fun wi t => exists before after,
               CutAtMarker (fst wi) before after /\ t = before ++ snd wi ++ after)
            (list_prod ws is) ts ->
    Enum c (Wrap wrapper inner m) ts

(** [TimedParts c stream whole toks ls]: what each part of the sequence [whole]
    contributes, as functions of the number of the prompt.  A finite part
    lists its values; without a combinatorial mark of its own it must have one.
    All equal endless parts take values from one stream, in each prompt the
    rightmost part first. *)
with TimedParts : ctx -> (command -> nat -> text) -> list command -> list command ->
                  list (list (nat -> text)) -> Prop :=
| TP_nil : forall c stream whole, TimedParts c stream whole [] []
| TP_finite : forall c stream whole tok toks ts ls, Enum c tok ts -> (mark_of tok = None -> ts <> []) ->
    TimedParts c stream whole toks ls ->
    TimedParts c stream whole (tok :: toks) (map (fun t _ => t) ts :: ls)
| TP_endless : forall c (stream : command -> nat -> text) whole tok toks d i ls, ~ finite_mark tok ->
    Cyc E c tok (stream tok) -> Occ tok whole d -> Occ tok toks i ->
    TimedParts c stream whole toks ls ->
    TimedParts c stream whole (tok :: toks) ([fun j => stream tok (j * d + i)] :: ls)

(** The arrays of part texts for each selection, one after the other. *)
with EnumSels : ctx -> list (list command) -> list (list text) -> Prop :=
| EnS_nil : forall c, EnumSels c [] []
| EnS_cons : forall c sel sels ars arrs, EnumCombo c sel ars -> EnumSels c sels arrs ->
    EnumSels c (sel :: sels) (ars ++ arrs)

(** The arrays of one selection: the product of the finite parts.  An endless
    part advances with each array; it starts again for each value of a finite
    part to the left of it. *)
with EnumCombo : ctx -> list command -> list (list text) -> Prop :=
| EnC_nil : forall c, EnumCombo c [] [[]]
| EnC_finite : forall c v sel ts ars, Enum c v ts -> EnumCombo c sel ars ->
    EnumCombo c (v :: sel) (flat_map (fun t => map (cons t) ars) ts)
| EnC_endless : forall c v sel s ars, ~ finite_mark v -> Cyc E c v s -> EnumCombo c sel ars ->
    EnumCombo c (v :: sel) (map (fun ja => s (fst ja) :: snd ja) (numbered ars))

(** A prompt: a text to be read, or a command; empty prompts list nothing. *)
with EnumPrompt : ctx -> wpath -> list text -> Prop :=
| EnP_reads : forall c p cmd ts us, Reads E p cmd -> Enum c cmd ts ->
    Forall2 (Tidy (c_ignws c)) ts us -> EnumPrompt c p us
| EnP_empty : forall c, EnumPrompt c (WStr []) []
| EnP_falsy : forall c cmd, ~ Nonempty cmd -> EnumPrompt c (WCmd cmd) []

with EnumPrompts : ctx -> list wpath -> list (list text) -> Prop :=
| EnPs_nil : forall c, EnumPrompts c [] []
| EnPs_cons : forall c p ps l ls, EnumPrompt c p l -> EnumPrompts c ps ls ->
    EnumPrompts c (p :: ps) (l :: ls)

(** First values. *)
with EnumFirsts : ctx -> list (command * text) -> Prop :=
| EnF_nil : forall c, EnumFirsts c []
| EnF_finite : forall c v t ts need, Enum c v (t :: ts) -> EnumFirsts c need ->
    EnumFirsts c ((v, t) :: need)
| EnF_endless : forall c v s need, Cyc E c v s -> EnumFirsts c need -> EnumFirsts c ((v, s 0) :: need)

(** The name a wildcard is looked up under. *)
with EnumPath : ctx -> wpath -> text -> Prop :=
| EnPa_finite : forall c w path rest, EnumPrompt c w (path :: rest) -> EnumPath c w path
| EnPa_endless : forall c w path, CycPath E c w path -> EnumPath c w path.

Scheme Enum_mind := Minimality for Enum Sort Prop
  with TimedParts_mind := Minimality for TimedParts Sort Prop
  with EnumSels_mind := Minimality for EnumSels Sort Prop
  with EnumCombo_mind := Minimality for EnumCombo Sort Prop
  with EnumPrompt_mind := Minimality for EnumPrompt Sort Prop
  with EnumPrompts_mind := Minimality for EnumPrompts Sort Prop
  with EnumFirsts_mind := Minimality for EnumFirsts Sort Prop
  with EnumPath_mind := Minimality for EnumPath Sort Prop.
Combined Scheme Enum_mutind from Enum_mind, TimedParts_mind, EnumSels_mind, EnumCombo_mind,
  EnumPrompt_mind, EnumPrompts_mind, EnumFirsts_mind, EnumPath_mind.

Definition EnumAll (c : ctx) (cmds : list command) (ls : list (list text)) : Prop :=
  Forall2 (Enum c) cmds ls.
End Enum.

(** Templates made of literals, sequences and variants from which one option
    can be chosen. *)
Inductive Simple : command -> Prop :=
| Simple_lit : forall s m, finite_mark (Lit s m) -> Simple (Lit s m)
| Simple_seq : forall tokens sep m, finite_mark (Seq tokens sep m) -> Forall Simple tokens ->
    Simple (Seq tokens sep m)
| Simple_var : forall opts lo hi sep m, finite_mark (Var opts lo hi sep m) -> opts <> [] ->
    Forall (fun o => Simple (fst o)) opts -> (Z.min lo hi <= 1 <= Z.max lo hi)%Z ->
    Simple (Var opts lo hi sep m).

(** How often a part of a combinatorial sequence multiplies the output: a
    random or cyclical part once, another part by the length of its list. *)
Inductive PartSize (E : env) (c : ctx) : command -> nat -> Prop :=
| Part_endless : forall cmd, ~ finite_mark cmd -> PartSize E c cmd 1
| Part_finite : forall cmd ts, Enum E c cmd ts -> PartSize E c cmd (length ts).

(** * Templates without random or cyclical parts *)
Section Deterministic.
Variable E : env.
(** Texts of wildcard paths are templates too. *)
Inductive Deterministic : command -> Prop :=
| Det_lit : forall s m, finite_mark (Lit s m) -> Deterministic (Lit s m)
| Det_seq : forall tokens sep m, finite_mark (Seq tokens sep m) -> Forall Deterministic tokens ->
    Deterministic (Seq tokens sep m)
| Det_var : forall opts lo hi sep m, finite_mark (Var opts lo hi sep m) ->
    Forall (fun o => Deterministic (fst o)) opts -> Deterministic (Var opts lo hi sep m)
| Det_wild : forall w m vars, finite_mark (Wild w m vars) ->
    (forall cmd, w = WCmd cmd -> Deterministic cmd) ->
    (forall s cmd, w = WStr s -> env_parse E s = Ok cmd -> Deterministic cmd) ->
    Forall (fun kv => Deterministic (snd kv)) vars -> Deterministic (Wild w m vars)
| Det_assign : forall x v imm ovr, Deterministic v -> Deterministic (Assign x v imm ovr)
| Det_access : forall x d, (forall v, d = Some v -> Deterministic v) -> Deterministic (Access x d)
| Det_wrap : forall w i m, finite_mark (Wrap w i m) -> Deterministic w -> Deterministic i ->
    Deterministic (Wrap w i m).

(** Wildcard values are such templates as well. *)
Definition DetEnv : Prop :=
  forall path item cmd, In item (env_lookup E path) -> env_parse E (w_content item) = Ok cmd ->
    Deterministic cmd.

Definition DetCtx (c : ctx) : Prop :=
  c_method c = Combinatorial /\ Forall (fun kv => Deterministic (snd kv)) (c_vars c) /\
  (forall u, c_unknown c = Some u -> Deterministic u).
End Deterministic.
