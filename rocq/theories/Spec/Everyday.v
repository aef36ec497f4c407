(** Everyday templates: text, variants, wraps, wildcards whose values are such
    templates too, and variables that are assigned before use.  Nothing is
    said about bounds, separators or emptiness: the parser sees to those. *)
From Coq Require Import String NArith ZArith QArith Qcanon Bool Arith List.
From Verif.Model Require Import Str Command Values Context.
From Verif.Spec Require Import Text Comb Items Lang.
Import ListNotations.
Local Open Scope nat_scope.

Section Everyday.
Variable E : env.
Variable squash : bool.

(** A wildcard name that is plain text, and what is looked up for it. *)
Definition NamesPath (name path : text) : Prop :=
  name <> [] /\ exists s, env_parse E name = Ok (Lit s None) /\ Tidy squash s path.

(** The variables that can be relied on; [None]: variables may not be used. *)
Definition known := option (text -> Prop).
Definition no_names : known := Some (fun _ => False).
Definition adding (names : text -> Prop) (k : known) : known :=
  match k with
  | None => None
  | Some K => Some (fun x => K x \/ names x)
  end.

(** [Everyday k m cmd]: [cmd] sampled with method [m]. *)
Inductive Everyday : known -> method -> command -> Prop :=
| Ev_text : forall k m s mk, Everyday k m (Lit s mk)
(** Assigned values use no variables and may be sampled in either way. *)
| Ev_seq : forall k m tokens sep mk,
    (forall x v imm ovr, In (Assign x v imm ovr) tokens -> Nonempty v) ->
    (forall x v imm ovr m', In (Assign x v imm ovr) tokens -> m' <> Combinatorial -> Everyday None m' v) ->
    (forall tok, In tok tokens -> ~ is_assign tok ->
       Everyday (adding (fun x => exists v imm ovr, In (Assign x v imm ovr) tokens) k) (resolve m mk) tok) ->
    Everyday k m (Seq tokens sep mk)
| Ev_random : forall k m opts lo hi sep mk, resolve m mk = Random -> ~ lone_wildcard opts ->
    (forall v q, In (v, q) opts -> (0 < q)%Qc) ->
    (forall v q, In (v, q) opts -> Everyday k Random v) ->
    Everyday k m (Var opts lo hi sep mk)
(** No option of a cyclical variant is repeated. *)
| Ev_cyclical : forall k m opts lo hi sep mk, resolve m mk = Cyclical -> ~ lone_wildcard opts ->
    NoDup (map fst opts) ->
    (forall v q, In (v, q) opts -> Everyday k Cyclical v) ->
    Everyday k m (Var opts lo hi sep mk)
(** A wildcard as only option: it is found, and the variant of its values is
    such a template. *)
| Ev_lone : forall k m name path mw vars q lo hi sep mk opts n,
    NamesPath name path -> OptionsOf E path opts -> opts <> [] ->
    n = Z.of_nat (length (env_lookup E path)) ->
    Everyday k (resolve m mk)
      (Var opts (Z.max 0 (Z.min (Z.min lo hi) n)) (Z.min (Z.max lo hi) n) sep None) ->
    Everyday k m (Var [(Wild (WStr name) mw vars, q)] lo hi sep mk)
(** A wildcard: if it is found, something can be drawn, and all that can be
    drawn is such a template. *)
| Ev_wild : forall k m name path mk vars,
    NamesPath name path ->
    (forall x v, In (x, v) vars -> Nonempty v) ->
    (forall x v m', In (x, v) vars -> m' <> Combinatorial -> Everyday None m' v) ->
    (env_lookup E path <> [] -> resolve m mk = Random ->
       forall v q, In (v, q) (pairs (env_lookup E path)) -> (0 <= q)%Qc) ->
    (env_lookup E path <> [] -> exists v, Drawable (resolve m mk) (env_lookup E path) v) ->
    (forall v, Drawable (resolve m mk) (env_lookup E path) v ->
       v <> [] /\ exists cmd, env_parse E v = Ok cmd) ->
    (forall v cmd, Drawable (resolve m mk) (env_lookup E path) v -> env_parse E v = Ok cmd ->
       Everyday (adding (fun x => In x (map fst vars)) k) (resolve m mk) cmd) ->
    Everyday k m (Wild (WStr name) mk vars)
| Ev_access : forall (K : text -> Prop) m x d, K x -> Everyday (Some K) m (Access x d)
| Ev_default : forall K m x v, Nonempty v -> Everyday None m v -> Everyday (Some K) m (Access x (Some v))
| Ev_wrap : forall k m w i mk, resolve m mk = Random ->
    Everyday k Random w -> Everyday k Random i -> Everyday k m (Wrap w i mk).
End Everyday.
