(** src/dynamicprompts/commands/*.py and src/dynamicprompts/enums.py. *)
From Coq Require Import String NArith ZArith QArith Qcanon Bool List.
From Verif.Model Require Import Str.
Import ListNotations.
Local Open Scope nat_scope.

(** enums.py:4-7 [SamplingMethod]. *)
Inductive method := Random | Combinatorial | Cyclical.

(** enums.py:9-10,13 [SamplingMethod.is_nonfinite]. *)
Definition is_nonfinite (m : method) : bool :=
  match m with Combinatorial => false | _ => true end.

Definition method_eqb (a b : method) : bool :=
  match a, b with
  | Random, Random | Combinatorial, Combinatorial | Cyclical, Cyclical => true
  | _, _ => false
  end.

(** The command classes, commands/*.py:
    - [Lit]: literal_command.py:9-17 [LiteralCommand(literal, sampling_method)]
    - [Seq]: sequence_command.py:9-13 [SequenceCommand(tokens, separator, sampling_method)]
    - [Var]: variant_command.py:14-26 [VariantCommand(variants, min_bound,
      max_bound, separator, sampling_method)]; an option is (value, weight)
    - [Wild]: wildcard_command.py:9-13 [WildcardCommand(wildcard,
      sampling_method, variables)]
    - [Assign]: variable_commands.py:8-14 [VariableAssignmentCommand(name,
      value, immediate, overwrite)]
    - [Access]: variable_commands.py:17-21 [VariableAccessCommand(name, default)]
    - [Wrap]: wrap_command.py:41-45 [WrapCommand(wrapper, inner, sampling_method)]

    The checks of sequence_command.py:24-27 and wildcard_command.py:15-19 are
    what the types say; sequence_command.py:18-22 and variant_command.py:37-41
    give the items of the lists.

    Simplifications: weights are exact rationals instead of floats; the
    [variables] dict of a wildcard is an association list kept sorted by key
    (insertion order of that dict is not observable). *)
Inductive command :=
| Lit (literal : str) (m : option method)
| Seq (tokens : list command) (separator : str) (m : option method)
| Var (variants : list (command * Qc)) (min_bound max_bound : Z) (separator : str)
      (m : option method)
| Wild (wildcard : wpath) (m : option method) (variables : list (str * command))
| Assign (name : str) (value : command) (immediate overwrite : bool)
| Access (name : str) (default : option command)
| Wrap (wrapper inner : command) (m : option method)
(** [WildcardCommand.wildcard : Command | str]. *)
with wpath :=
| WStr (s : str)
| WCmd (c : command).

(** [command.sampling_method]; [None] for the variable commands
    (variable_commands.py:14,21). *)
Definition sampling_method (c : command) : option method :=
  match c with
  | Lit _ m | Seq _ _ m | Var _ _ _ _ m | Wild _ m _ | Wrap _ _ m => m
  | Assign _ _ _ _ | Access _ _ => None
  end.

(** [bool(command)]: [SequenceCommand] and [VariantCommand] define [__len__]
    (sequence_command.py:15-16, variant_command.py:34-35), the others do not. *)
Definition truthy (c : command) : bool :=
  match c with
  | Seq [] _ _ => false
  | Var [] _ _ _ _ => false
  | _ => true
  end.

Definition option_eqb {A} (f : A -> A -> bool) (a b : option A) : bool :=
  match a, b with
  | None, None => true
  | Some x, Some y => f x y
  | _, _ => false
  end.

(** [==] on commands: dataclass equality, field by field. *)
Fixpoint cmd_eqb (a b : command) {struct a} : bool :=
  let fix list_eqb (xs ys : list command) : bool :=
    match xs, ys with
    | [], [] => true
    | x :: xs', y :: ys' => cmd_eqb x y && list_eqb xs' ys'
    | _, _ => false
    end in
  let fix opts_eqb (xs ys : list (command * Qc)) : bool :=
    match xs, ys with
    | [], [] => true
    | (x, w) :: xs', (y, v) :: ys' =>
        cmd_eqb x y && Qc_eq_bool w v && opts_eqb xs' ys'
    | _, _ => false
    end in
  let fix vars_eqb (xs ys : list (str * command)) : bool :=
    match xs, ys with
    | [], [] => true
    | (k, x) :: xs', (l, y) :: ys' => str_eqb k l && cmd_eqb x y && vars_eqb xs' ys'
    | _, _ => false
    end in
  match a, b with
  | Lit s m, Lit s' m' => str_eqb s s' && option_eqb method_eqb m m'
  | Seq ts sep m, Seq ts' sep' m' =>
      list_eqb ts ts' && str_eqb sep sep' && option_eqb method_eqb m m'
  | Var vs lo hi sep m, Var vs' lo' hi' sep' m' =>
      opts_eqb vs vs' && Z.eqb lo lo' && Z.eqb hi hi' && str_eqb sep sep'
      && option_eqb method_eqb m m'
  | Wild w m vs, Wild w' m' vs' =>
      match w, w' with
      | WStr s, WStr s' => str_eqb s s'
      | WCmd c, WCmd c' => cmd_eqb c c'
      | _, _ => false
      end && option_eqb method_eqb m m' && vars_eqb vs vs'
  | Assign n v i o, Assign n' v' i' o' =>
      str_eqb n n' && cmd_eqb v v' && Bool.eqb i i' && Bool.eqb o o'
  | Access n d, Access n' d' =>
      str_eqb n n' &&
      match d, d' with
      | None, None => true
      | Some x, Some y => cmd_eqb x y
      | _, _ => false
      end
  | Wrap w i m, Wrap w' i' m' =>
      cmd_eqb w w' && cmd_eqb i i' && option_eqb method_eqb m m'
  | _, _ => false
  end.

(** variant_command.py:28-32 [VariantCommand.__post_init__]: the bounds stored
    for constructor arguments [lo], [hi]. *)
Definition post_init_bounds (lo hi : Z) : Z * Z :=
  let '(mn, mx) := if Z.leb lo hi then (lo, hi) else (hi, lo) in
  (Z.max 0 mn, mx).

(** [VariantCommand(...)] with [__post_init__] applied. *)
Definition mk_variant (variants : list (command * Qc)) (lo hi : Z) (sep : str)
    (m : option method) : command :=
  let '(mn, mx) := post_init_bounds lo hi in Var variants mn mx sep m.

(** variant_command.py:43-49 [weights], [values]. *)
Definition weights (variants : list (command * Qc)) : list Qc := map snd variants.
Definition values (variants : list (command * Qc)) : list command := map fst variants.

(** variant_command.py:51-54 [adjust_range]: the new bounds
    ([dataclasses.replace] runs [__post_init__] again). *)
Definition adjust_range (n : nat) (lo hi : Z) : Z * Z :=
  post_init_bounds (Z.min lo (Z.of_nat n)) (Z.min hi (Z.of_nat n)).

(** variant_command.py:78-92 [get_value_combinations]; the Python generator is
    pure, so the list of what it yields represents it.  The argument [k] is a
    Python int; all callers pass elements of a range starting at 0 or above,
    and [k <= 0] behaves like 0. *)
Fixpoint get_value_combinations (k : nat) (vals : list command) : list (list command) :=
  match k with
  | O => [[]]
  | S k' =>
      flat_map
        (fun value =>
           let other_values := filter (fun v => negb (cmd_eqb v value)) vals in
           map (cons value) (get_value_combinations k' other_values))
        vals
  end.

(** [range(lo, hi + 1)]. *)
Definition zrange (lo hi : Z) : list Z :=
  map (fun i => (lo + Z.of_nat i)%Z) (seq 0 (Z.to_nat (hi + 1 - lo))).
