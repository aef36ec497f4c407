(** Texts that random sampling can really draw: as Spec/Lang.v for the random
    method, with conditions that make every choice have a positive chance.
    No sampler or random generator occurs here. *)
From Coq Require Import NArith ZArith QArith Qcanon Bool Arith List Permutation.
From Verif.Model Require Import Command Values Context.
From Verif.Spec Require Import Text Comb Items Lang.
Import ListNotations.
Local Open Scope nat_scope.

(** Random numbers and weights have 53 binary digits, some of which can be lost
    in rounding.  What is counted on is the 47 leading ones. *)
Definition grain : Qc := Q2Qc (inject_Z 140737488355328).
Definition total (ws : list Qc) : Qc := fold_right Qcplus 0%Qc ws.

(** A share of the total that is not too small to be drawn. *)
Definition Wide (w : Qc) (ws : list Qc) : Prop := (0 < w)%Qc /\ (total ws <= w * grain)%Qc.

Definition AllEqual (ws : list Qc) : Prop := forall a b, In a ws -> In b ws -> a = b.

Section Draws.
Variable E : env.

Inductive Draws : scope -> list text -> command -> text -> Prop :=
| Dr_enter : forall sc busy cmd t, sc_method (enter sc cmd) = Random ->
    DrawsBody (enter sc cmd) busy cmd t -> Draws sc busy cmd t

with DrawsBody : scope -> list text -> command -> text -> Prop :=
| Dr_lit : forall sc busy s m, DrawsBody sc busy (Lit s m) s
| Dr_seq : forall sc busy tokens sep m bs sc' toks parts t,
    Binds sc busy tokens bs -> Extended sc bs sc' -> Plain tokens toks ->
    DrawsAll sc' busy toks parts -> Glued sep parts t ->
    DrawsBody sc busy (Seq tokens sep m) t
| Dr_choice : forall sc busy opts lo hi sep m sel rest parts t,
    2 <= length opts -> (0 <= Z.max lo hi)%Z ->
    Forall (fun o => Wide (snd o) (map snd opts)) opts ->
    Permutation (map fst opts) (sel ++ rest) ->
    (clamp (length opts) (Z.min lo hi) <= Z.of_nat (length sel)
       <= clamp (length opts) (Z.max lo hi))%Z ->
    DrawsAll sc busy sel parts -> Glued sep parts t ->
    DrawsBody sc busy (Var opts lo hi sep m) t
| Dr_single : forall sc busy v q lo hi sep m t,
    ~ lone_wildcard [(v, q)] -> Draws sc busy v t ->
    DrawsBody sc busy (Var [(v, q)] lo hi sep m) t
| Dr_lone : forall sc busy w mw vars q lo hi sep m path opts t n,
    DrawsPath sc busy w path -> OptionsOf E path opts ->
    n = Z.of_nat (length (env_lookup E path)) ->
    DrawsBody sc busy (Var opts (Z.max 0 (Z.min (Z.min lo hi) n)) (Z.min (Z.max lo hi) n) sep None) t ->
    DrawsBody sc busy (Var [(Wild w mw vars, q)] lo hi sep m) t
| Dr_wild : forall sc busy w m vars path sc' v q c t u,
    DrawsPath sc busy w path -> Extended sc vars sc' ->
    In (v, q) (pairs (env_lookup E path)) ->
    (AllEqual (map snd (pairs (env_lookup E path))) \/
     Forall (fun x => 0 <= x)%Qc (map snd (pairs (env_lookup E path))) /\
     Wide q (map snd (pairs (env_lookup E path)))) ->
    Reads E (WStr v) c -> Draws sc' busy c t -> Tidy (sc_squash sc) t u ->
    DrawsBody sc busy (Wild w m vars) u
| Dr_missing : forall sc busy name m vars path t,
    DrawsPath sc busy (WStr name) path -> env_lookup E path = [] ->
    Wrapped (env_wrap E) name t -> DrawsBody sc busy (Wild (WStr name) m vars) t
| Dr_missing_command : forall sc busy cmd m vars path sc' name t,
    DrawsPath sc busy (WCmd cmd) path -> env_lookup E path = [] -> Extended sc vars sc' ->
    DrawsPath sc' busy (WCmd cmd) name ->
    Wrapped (env_wrap E) name t -> DrawsBody sc busy (Wild (WCmd cmd) m vars) t
| Dr_access : forall sc busy x d c t,
    Refers sc x d c -> ~ In x busy -> Draws sc (x :: busy) c t -> DrawsBody sc busy (Access x d) t
| Dr_wrap : forall sc busy wrapper inner m tw ti before after,
    Draws sc busy wrapper tw -> Draws sc busy inner ti -> CutAtMarker tw before after ->
    DrawsBody sc busy (Wrap wrapper inner m) (before ++ ti ++ after)

with DrawsAll : scope -> list text -> list command -> list text -> Prop :=
| DrA_nil : forall sc busy, DrawsAll sc busy [] []
| DrA_cons : forall sc busy c cs t ts, Draws sc busy c t -> DrawsAll sc busy cs ts ->
    DrawsAll sc busy (c :: cs) (t :: ts)

with DrawsPath : scope -> list text -> wpath -> text -> Prop :=
| DrP : forall sc busy w c t u, Reads E w c -> Draws sc busy c t -> Tidy (sc_squash sc) t u ->
    DrawsPath sc busy w u

(** The assignments of a sequence, in order, with the values they give. *)
with Binds : scope -> list text -> list command -> list (text * command) -> Prop :=
| Bi_nil : forall sc busy, Binds sc busy [] []
| Bi_plain : forall sc busy tok toks bs, ~ is_assign tok -> Binds sc busy toks bs ->
    Binds sc busy (tok :: toks) bs
| Bi_kept : forall sc busy x v imm v0 toks bs, sc_var sc x = Some v0 -> Binds sc busy toks bs ->
    Binds sc busy (Assign x v imm false :: toks) ((x, v0) :: bs)
| Bi_lazy : forall sc busy x v ovr toks bs, (ovr = false -> sc_var sc x = None) ->
    Binds sc busy toks bs -> Binds sc busy (Assign x v false ovr :: toks) ((x, v) :: bs)
| Bi_literal : forall sc busy x s m ovr toks bs, (ovr = false -> sc_var sc x = None) ->
    Binds sc busy toks bs -> Binds sc busy (Assign x (Lit s m) true ovr :: toks) ((x, Lit s m) :: bs)
| Bi_now : forall sc busy x v ovr t toks bs, (ovr = false -> sc_var sc x = None) ->
    (forall s m, v <> Lit s m) -> Draws sc busy v t ->
    Binds sc busy toks bs -> Binds sc busy (Assign x v true ovr :: toks) ((x, Lit t None) :: bs).

Scheme Draws_mind := Minimality for Draws Sort Prop
  with DrawsBody_mind := Minimality for DrawsBody Sort Prop
  with DrawsAll_mind := Minimality for DrawsAll Sort Prop
  with DrawsPath_mind := Minimality for DrawsPath Sort Prop
  with Binds_mind := Minimality for Binds Sort Prop.
Combined Scheme Draws_mutind from Draws_mind, DrawsBody_mind, DrawsAll_mind, DrawsPath_mind, Binds_mind.

(** A prompt that random sampling can give first. *)
Definition Drawn (c : ctx) (p : wpath) (u : text) : Prop := DrawsPath (scope_of c) (c_busy c) p u.

(** Templates without variables in which every option has a fair chance. *)
Inductive Fair : command -> Prop :=
| Fair_lit : forall s m, m <> Some Cyclical -> Fair (Lit s m)
| Fair_seq : forall tokens sep m, m <> Some Cyclical -> Forall Fair tokens -> Fair (Seq tokens sep m)
| Fair_var : forall opts lo hi sep m, m <> Some Cyclical -> (0 <= Z.max lo hi)%Z ->
    Forall (fun o => Fair (fst o) /\ Wide (snd o) (map snd opts)) opts ->
    Fair (Var opts lo hi sep m)
| Fair_wild_name : forall s m vars, m <> Some Cyclical ->
    (forall c, env_parse E s = Ok c -> Fair c) -> Fair (Wild (WStr s) m vars)
| Fair_wild_command : forall c m vars, m <> Some Cyclical -> Fair c -> Fair (Wild (WCmd c) m vars)
| Fair_wrap : forall w i m, m <> Some Cyclical -> Fair w -> Fair i -> Fair (Wrap w i m).

(** Every wildcard has only values with a fair chance, and at most 2^47. *)
Definition FairValues : Prop := forall path,
  (AllEqual (map snd (pairs (env_lookup E path))) \/
   Forall (fun q => Wide q (map snd (pairs (env_lookup E path)))) (map snd (pairs (env_lookup E path)))) /\
  (forall v q c, In (v, q) (pairs (env_lookup E path)) -> env_parse E v = Ok c -> Fair c) /\
  (forall opts, OptionsOf E path opts -> (Z.of_nat (length opts) <= 140737488355328)%Z).
End Draws.
