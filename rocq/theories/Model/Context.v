(** src/dynamicprompts/sampling_context.py: the data and the parts that do not
    run generators. *)
From Coq Require Import String NArith ZArith QArith Qcanon Bool List.
From Verif.Model Require Import Str Command Rng Values.
Import ListNotations.
Local Open Scope nat_scope.

Inductive res (A : Type) := Ok (a : A) | Err (e : exn).
Arguments Ok {A}. Arguments Err {A}.

(** What samplers use from outside: the parser ([parse(prompt,
    parser_config=...)]), the wildcard manager ([get_values], [to_wildcard]). *)
Record env := {
  env_parse : str -> res command;
  env_lookup : str -> list witem;
  env_wrap : str
}.

(** wildcard_manager.py:91-100 [WildcardManager.to_wildcard]. *)
Definition to_wildcard (ww name : str) : str :=
  let name := if startswith name ww then name else ww ++ name in
  if endswith name ww then name else name ++ ww.

(** dict operations on variables: association list sorted by key. *)
Fixpoint dict_get {A} (k : str) (d : list (str * A)) : option A :=
  match d with
  | [] => None
  | (k', v) :: d' => if str_eqb k k' then Some v else dict_get k d'
  end.
Fixpoint dict_set {A} (k : str) (v : A) (d : list (str * A)) : list (str * A) :=
  match d with
  | [] => [(k, v)]
  | (k', v') :: d' =>
      if str_eqb k k' then (k, v) :: d'
      else if str_leb k k' then (k, v) :: (k', v') :: d'
      else (k', v') :: dict_set k v d'
  end.
(** [{**d, **new}]. *)
Definition dict_update {A} (d new : list (str * A)) : list (str * A) :=
  fold_left (fun acc kv => dict_set (fst kv) (snd kv) acc) new d.

(** sampling_context.py:34-51 [SamplingContext].  Not represented: the
    samplers dict (always the default one, sampling_context.py:22-31, looked up
    in sampling_context.py:56-58), the parser configuration and the
    wildcard manager (constant, see [env]) and [rand] (threaded as a state).
    A string [unknown_variable_value] is represented by the [LiteralCommand]
    it is turned into (base.py:99-100). *)
Record ctx := {
  c_method : method;
  c_ignws : bool;
  c_vars : list (str * command);
  c_unknown : option command;
  c_busy : list str
}.

(** sampling_context.py:53-54 [with_sampling_method]. *)
Definition with_method (m : method) (c : ctx) : ctx :=
  {| c_method := m; c_ignws := c_ignws c; c_vars := c_vars c;
     c_unknown := c_unknown c; c_busy := c_busy c |}.

(** sampling_context.py:60-83 [get_sampler_and_context]: the method of the
    chosen sampler, which is also the method of the new context. *)
Definition chosen_method (c : ctx) (cmd : command) : method :=
  let new := match sampling_method cmd with Some m => m | None => c_method c end in
  if method_eqb new (c_method c) then c_method c
  else if is_nonfinite (c_method c) && negb (is_nonfinite new) then c_method c
  else new.

(** sampling_context.py:85-88 [with_variables]. *)
Definition with_variables (vs : list (str * command)) (c : ctx) : ctx :=
  match vs with
  | [] => c
  | _ => {| c_method := c_method c; c_ignws := c_ignws c;
            c_vars := dict_update (c_vars c) vs;
            c_unknown := c_unknown c; c_busy := c_busy c |}
  end.

(** sampling_context.py:90-96 [for_sampling_variable]. *)
Definition for_sampling_variable (x : str) (c : ctx) : res ctx :=
  if str_mem x (c_busy c) then Err ERecursion
  else Ok {| c_method := c_method c; c_ignws := c_ignws c; c_vars := c_vars c;
             c_unknown := c_unknown c; c_busy := x :: c_busy c |}.

(** sampling_context.py:134-137 [get_effective_sampling_method]. *)
Definition effective_method (c : ctx) (cmd : command) : method :=
  match sampling_method cmd with Some m => m | None => c_method c end.

(** base.py:94-102, the command an access stands for ([None]: KeyError). *)
Definition resolve_access (c : ctx) (x : str) (default : option command)
    : option command :=
  let found := match dict_get x (c_vars c) with Some v => Some v | None => default end in
  match found with
  | Some v => if truthy v then Some v else c_unknown c
  | None => c_unknown c
  end.
