(** The chances of prompts for every kind of template.

    [Odds M fl E sc busy cmd l]: the texts that [cmd] is drawn as in scope
    [sc], with their chances, when every raw random number is one of 0 .. M-1,
    all equally likely.  M is a multiple of 2^53 and of the sizes of everything
    that is drawn evenly, so that no draw is uneven for want of numbers.
    Spec/Chance.v is the case of texts, sequences and choices of one option;
    here there are also several options, wildcards, variables and wraps.

    A text may be listed more than once.  There are no chances for a wildcard
    with values that have no text, which are drawn again and again.  No sampler
    and no state of a random source occurs here. *)
From Coq Require Import NArith ZArith QArith Qcanon List.
From Verif.Model Require Import Command Values Context.
From Verif.Spec Require Import Text Comb Items Lang Draws Rolls Chance.
Import ListNotations.
Local Open Scope nat_scope.

(** One of [n]. *)
Definition one_in (n : nat) : Qc := (1 / Q2Qc (inject_Z (Z.of_nat n)))%Qc.

(** The same outcomes under other names. *)
Definition Renamed {A B} (S : A -> B -> Prop) (l : list (A * Qc)) (l' : list (B * Qc)) : Prop :=
  Forall2 (fun o o' => S (fst o) (fst o') /\ snd o = snd o') l l'.
Definition single {A} (l : list (A * Qc)) : list (list A * Qc) := map (fun o => ([fst o], snd o)) l.

(** What remains to be drawn once something else has been. *)
Inductive job : Type :=
| JAll : scope -> list text -> list command -> job
| JPath : scope -> list text -> wpath -> job
| JBody : scope -> list text -> command -> job
| JWild : scope -> list text -> wpath -> text -> job.

Section Odds.
Variable M : N.
Variable fl : Qc -> Qc.
Variable E : env.

(** * Choosing options *)
(** [Choosing vs ws k l]: [k] different options, in the order they are picked. *)
Inductive Choosing : list command -> list Qc -> nat -> list (list command * Qc) -> Prop :=
| Cho_none : forall vs ws, Choosing vs ws 0 [([], 1%Qc)]
| Cho_more : forall vs ws k cuts l, Forall (fun w => 0 <= w)%Qc ws -> Stretches fl ws cuts ->
    ChoosingEach vs ws k vs (shares cuts) l -> Choosing vs ws (S k) l
(** The first one picked is this or that. *)
with ChoosingEach : list command -> list Qc -> nat -> list command -> list Qc -> list (list command * Qc) -> Prop :=
| ChE_nil : forall vs ws k, ChoosingEach vs ws k [] [] []
| ChE_never : forall vs ws k v cs qs l, ChoosingEach vs ws k cs qs l -> ChoosingEach vs ws k (v :: cs) (0%Qc :: qs) l
| ChE_cons : forall vs ws k v cs q qs j w vs' ws' l l',
    FirstAt vs v j -> nth_error ws j = Some w -> Without v vs vs' -> Without w ws ws' -> Choosing vs' ws' k l ->
    ChoosingEach vs ws k cs qs l' ->
    ChoosingEach vs ws k (v :: cs) (q :: qs) (scaled q (map (fun o => (v :: fst o, snd o)) l) ++ l').

(** One of several counts, each with chance [q]. *)
Inductive ChoosingSome (vs : list command) (ws : list Qc) (q : Qc) : list nat -> list (list command * Qc) -> Prop :=
| ChS_nil : ChoosingSome vs ws q [] []
| ChS_cons : forall k ks l l', Choosing vs ws k l -> ChoosingSome vs ws q ks l' ->
    ChoosingSome vs ws q (k :: ks) (scaled q l ++ l').

(** * Drawing *)
Inductive Odds : scope -> list text -> command -> list (text * Qc) -> Prop :=
| Od_enter : forall sc busy cmd l, sc_method (enter sc cmd) = Random ->
    OddsBody (enter sc cmd) busy cmd l -> Odds sc busy cmd l

with OddsBody : scope -> list text -> command -> list (text * Qc) -> Prop :=
| Od_lit : forall sc busy s m, OddsBody sc busy (Lit s m) [(s, 1%Qc)]
| Od_seq : forall sc busy tokens sep m lb toks js lp l,
    OddsBinds sc busy tokens lb -> Plain tokens toks ->
    Renamed (fun bs j => exists sc', Extended sc bs sc' /\ j = JAll sc' busy toks) lb js ->
    OddsMix js lp -> Renamed (Glued sep) lp l -> OddsBody sc busy (Seq tokens sep m) l
| Od_choice : forall sc busy opts lo hi sep m lo' n lsel lp l,
    2 <= length opts -> lo' = clamp (length opts) (Z.min lo hi) ->
    (Z.of_nat n = Z.min (Z.max lo hi) (Z.of_nat (length opts)) - lo' + 1)%Z -> 1 <= n -> N.divide (N.of_nat n) M ->
    ChoosingSome (map fst opts) (map snd opts) (one_in n) (seq (Z.to_nat lo') n) lsel ->
    OddsMix (map (fun o => (JAll sc busy (fst o), snd o)) lsel) lp -> Renamed (Glued sep) lp l ->
    OddsBody sc busy (Var opts lo hi sep m) l
| Od_single : forall sc busy v q lo hi sep m l,
    ~ lone_wildcard [(v, q)] -> Odds sc busy v l -> OddsBody sc busy (Var [(v, q)] lo hi sep m) l
| Od_lone : forall sc busy w mw vars q lo hi sep m ln js lp l,
    OddsPath sc busy w ln ->
    Renamed (fun path j => exists opts n, OptionsOf E path opts /\ n = Z.of_nat (length (env_lookup E path)) /\
       j = JBody sc busy (Var opts (Z.max 0 (Z.min (Z.min lo hi) n)) (Z.min (Z.max lo hi) n) sep None)) ln js ->
    OddsMix js lp -> lp = single l -> OddsBody sc busy (Var [(Wild w mw vars, q)] lo hi sep m) l
| Od_wild : forall sc busy w m vars ln sc' lp l,
    OddsPath sc busy w ln -> Extended sc vars sc' ->
    OddsMix (map (fun o => (JWild sc' busy w (fst o), snd o)) ln) lp -> lp = single l ->
    OddsBody sc busy (Wild w m vars) l
| Od_access : forall sc busy x d c l,
    Refers sc x d c -> ~ In x busy -> Odds sc (x :: busy) c l -> OddsBody sc busy (Access x d) l
| Od_wrap : forall sc busy wrapper inner m lp l, OddsAll sc busy [wrapper; inner] lp ->
    Renamed (fun parts t => exists tw ti before after, parts = [tw; ti] /\ CutAtMarker tw before after /\
               t = before ++ ti ++ after) lp l ->
    OddsBody sc busy (Wrap wrapper inner m) l

(** One after the other: every combination. *)
with OddsAll : scope -> list text -> list command -> list (list text * Qc) -> Prop :=
| OdA_nil : forall sc busy, OddsAll sc busy [] [([], 1%Qc)]
| OdA_cons : forall sc busy c cs l l', Odds sc busy c l -> OddsAll sc busy cs l' ->
    OddsAll sc busy (c :: cs) (both l l')

with OddsPath : scope -> list text -> wpath -> list (text * Qc) -> Prop :=
| OdP : forall sc busy w c l l', Reads E w c -> Odds sc busy c l -> Renamed (Tidy (sc_squash sc)) l l' ->
    OddsPath sc busy w l'

(** The assignments of a sequence: only the immediate ones draw anything. *)
with OddsBinds : scope -> list text -> list command -> list (list (text * command) * Qc) -> Prop :=
| OdB_nil : forall sc busy, OddsBinds sc busy [] [([], 1%Qc)]
| OdB_plain : forall sc busy tok toks l, ~ is_assign tok -> OddsBinds sc busy toks l ->
    OddsBinds sc busy (tok :: toks) l
| OdB_kept : forall sc busy x v imm v0 toks l, sc_var sc x = Some v0 -> OddsBinds sc busy toks l ->
    OddsBinds sc busy (Assign x v imm false :: toks) (both [((x, v0), 1%Qc)] l)
| OdB_lazy : forall sc busy x v ovr toks l, (ovr = false -> sc_var sc x = None) -> OddsBinds sc busy toks l ->
    OddsBinds sc busy (Assign x v false ovr :: toks) (both [((x, v), 1%Qc)] l)
| OdB_literal : forall sc busy x s m ovr toks l, (ovr = false -> sc_var sc x = None) -> OddsBinds sc busy toks l ->
    OddsBinds sc busy (Assign x (Lit s m) true ovr :: toks) (both [((x, Lit s m), 1%Qc)] l)
| OdB_now : forall sc busy x v ovr toks l l', (ovr = false -> sc_var sc x = None) ->
    (forall s m, v <> Lit s m) -> Odds sc busy v l -> OddsBinds sc busy toks l' ->
    OddsBinds sc busy (Assign x v true ovr :: toks) (both (map (fun o => ((x, Lit (fst o) None), snd o)) l) l')

(** What remains, with its chances. *)
with OddsJob : job -> list (list text * Qc) -> Prop :=
| OdJ_all : forall sc busy cs l, OddsAll sc busy cs l -> OddsJob (JAll sc busy cs) l
| OdJ_path : forall sc busy w l, OddsPath sc busy w l -> OddsJob (JPath sc busy w) (single l)
| OdJ_body : forall sc busy cmd l, OddsBody sc busy cmd l -> OddsJob (JBody sc busy cmd) (single l)
(** A wildcard whose values all weigh the same: one of them evenly. *)
| OdJ_even : forall sc busy w path items l, items = env_lookup E path -> items <> [] ->
    AllEqual (map snd (pairs items)) -> N.divide (N.of_nat (length items)) M ->
    OddsMix (map (fun i => (JPath sc busy (WStr (w_content i)), one_in (length items))) items) l ->
    OddsJob (JWild sc busy w path) l
(** Otherwise by the weights. *)
| OdJ_weighted : forall sc busy w path items cuts l, items = env_lookup E path ->
    ~ AllEqual (map snd (pairs items)) -> Forall (fun w => 0 <= w)%Qc (map snd (pairs items)) ->
    Stretches fl (map snd (pairs items)) cuts ->
    OddsMix (combine (map (fun i => JPath sc busy (WStr (w_content i))) items) (shares cuts)) l ->
    OddsJob (JWild sc busy w path) l
| OdJ_missing : forall sc busy name path t, env_lookup E path = [] -> Wrapped (env_wrap E) name t ->
    OddsJob (JWild sc busy (WStr name) path) [([t], 1%Qc)]
| OdJ_missing_command : forall sc busy cmd path l l', env_lookup E path = [] ->
    OddsPath sc busy (WCmd cmd) l -> Renamed (Wrapped (env_wrap E)) l l' ->
    OddsJob (JWild sc busy (WCmd cmd) path) (single l')

(** One of several, with the given chances. *)
with OddsMix : list (job * Qc) -> list (list text * Qc) -> Prop :=
| OdM_nil : OddsMix [] []
| OdM_never : forall j js l, OddsMix js l -> OddsMix ((j, 0%Qc) :: js) l
| OdM_cons : forall j q js l l', OddsJob j l -> OddsMix js l' -> OddsMix ((j, q) :: js) (scaled q l ++ l').
End Odds.

Scheme Choosing_mind := Minimality for Choosing Sort Prop
  with ChoosingEach_mind := Minimality for ChoosingEach Sort Prop.
Combined Scheme Choosing_mutind from Choosing_mind, ChoosingEach_mind.

Scheme Odds_mind := Minimality for Odds Sort Prop
  with OddsBody_mind := Minimality for OddsBody Sort Prop
  with OddsAll_mind := Minimality for OddsAll Sort Prop
  with OddsPath_mind := Minimality for OddsPath Sort Prop
  with OddsBinds_mind := Minimality for OddsBinds Sort Prop
  with OddsJob_mind := Minimality for OddsJob Sort Prop
  with OddsMix_mind := Minimality for OddsMix Sort Prop.
Combined Scheme Odds_mutind from Odds_mind, OddsBody_mind, OddsAll_mind, OddsPath_mind, OddsBinds_mind,
  OddsJob_mind, OddsMix_mind.

(** The possible first [n] numbers, when there are [M] of them. *)
Definition NumbersBelow (M : N) (n : nat) (s : list N) : Prop := length s = n /\ Forall (fun x => x < M)%N s.
Definition sequences (M : N) (n : nat) : Qc := Q2Qc (inject_Z (Z.of_N M ^ Z.of_nat n)).
