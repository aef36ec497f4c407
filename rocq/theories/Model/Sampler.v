(** The samplers: src/dynamicprompts/samplers/*.py together with the generator
    parts of sampling_context.py and utils.py.

    A suspended Python generator is a value of [gen]; [next] resumes it.
    Python generators hold their sub-generators exclusively, so [next] can
    return the updated generator instead of mutating it.  [fuel] bounds the
    depth of nested calls and the number of loop rounds; [OFuel] means it was
    not enough and is never turned into any other answer. *)
From Coq Require Import String NArith ZArith QArith Qcanon Bool List.
From Verif.Model Require Import Str Utils Command Rng Values Context.
Import ListNotations.
Local Open Scope nat_scope.

(** [str | Command], the argument of [sample_prompts]. *)
Notation prompt := wpath (only parsing).

Inductive gen :=
(** a generator that has returned or raised *)
| GDone
(** infinite [yield] of one text: base.py:81-87 [_get_literal],
    samplers/utils.py:61-62 *)
| GRepeat (t : str)
(** combinatorial.py:158-163 [_get_literal] *)
| GOnce (t : str)
(** base.py:70-79 [_get_sequence]: before the first [next] / in the loop *)
| GSeqStart (c : ctx) (tokens : list command) (sep : str)
| GSeqLoop (gens : list gen) (sep : str)
(** random.py:63-110 [_get_variant], with the calls it wraps, random.py:28-53
    [_get_variant_choices] and [_get_variant_num_choices]: before the first
    [next] / in the loop *)
| GRVarStart (c : ctx) (variants : list (command * Qc)) (lo hi : Z) (sep : str)
| GRVarLoop (c : ctx) (variants : list (command * Qc)) (lo hi : Z) (sep : str)
(** random.py:112-128 [_get_wildcard], with random.py:55-61
    [_get_wildcard_choice_generator]; in the loop: the value generator and
    the [sample_prompts(value, 1)] being delegated to *)
| GRWildStart (c : ctx) (w : wpath) (vars : list (str * command))
| GRWildLoop (c : ctx) (wg : wgen) (cur : option gen)
(** random.py:130-136 [_get_wrap] *)
| GRWrapStart (c : ctx) (wrapper inner : command)
| GRWrapLoop (gw gi : gen)
(** combinatorial.py:53-97 [_get_sequence]; in the loop: the
    [CommandCollection] and the suspended [get_sequence(augmented_tokens)] *)
| GCSeqStart (c : ctx) (tokens : list command) (sep : str)
| GCSeqLoop (c : ctx) (sep : str) (coll : list (command * gen * option str)) (cs : cseq)
(** combinatorial.py:99-138 [_get_variant]; in the loop: the (bound, combo)
    pairs still to come, the [_combo_to_prompt] in progress, [seen] *)
| GCVarStart (c : ctx) (variants : list (command * Qc)) (lo hi : Z) (sep : str)
| GCVarLoop (c : ctx) (sep : str) (todo : list (Z * list command))
            (cur : option (Z * cp)) (seen : list (list str))
(** combinatorial.py:140-156 [_get_wildcard]; in the loop: values still to
    come and the [sample_prompts(val)] being delegated to *)
| GCWildStart (c : ctx) (w : wpath) (vars : list (str * command))
| GCWildLoop (c : ctx) (vals : list str) (cur : option gen)
(** combinatorial.py:165-169 [_get_wrap]; in the loops: the wrapper results,
    and the current wrapper text with the inner results *)
| GCWrapStart (c : ctx) (wrapper inner : command)
| GCWrapLoop (c : ctx) (inner : command) (gw : gen) (cur : option (str * gen))
(** cycle.py:55-95 [_get_variant]; in the loop: the combination samplers in
    the order in which they will be asked *)
| GYVarStart (c : ctx) (variants : list (command * Qc)) (lo hi : Z) (sep : str)
| GYVarLoop (c : ctx) (sep : str) (samplers : list yc)
(** cycle.py:97-117 [_get_wildcard]; likewise *)
| GYWildStart (c : ctx) (w : wpath) (vars : list (str * command))
| GYWildLoop (gens : list gen)
(** samplers/utils.py:47-62 [get_wildcard_not_found_fallback], not started *)
| GFallback (c : ctx) (w : wpath)
(** sampling_context.py:128, the squashing generator expression *)
| GSquash (g : gen)
(** sampling_context.py:132 [islice(gen, n)] *)
| GSlice (n : nat) (g : gen)
(** combinatorial.py:78-94 [get_sequence]: not started / iterating over
    [get_sequence(rest)] / iterating over [gen] / the same inside the loop
    over [get_sequence(rest)] / returned *)
with cseq :=
| CSStart (cmds : list command)
| CSNon (cmd : command) (rest : cseq)
| CSFin (g : gen) (rest_cmds : list command)
| CSFin2 (g : gen) (rest_cmds : list command) (first_val : str) (rest : cseq)
| CSDone
(** combinatorial.py:29-49 [_combo_to_prompt], likewise *)
with cp :=
| CPStart (combo : list command)
| CPNon (g : gen) (rest : cp)
| CPFin (g : gen) (rest_cmds : list command)
| CPFin2 (g : gen) (rest_cmds : list command) (p : str) (rest : cp)
| CPDone
(** cycle.py:26-51 [_get_combination_samples] and [get_arrs] *)
with yc :=
| YCStart (combo : list command)
| YCEmpty
| YCLoop (g : gen) (rest : yc)
| YCDone.

Section Sampler.
Variable G : rng_impl.
Variable E : env.
Notation R := (rng_state G).

(** Outcome of running generator code: a value, [StopIteration], another
    exception, or not enough fuel. *)
Inductive ores (A : Type) :=
| OVal (a : A) (r : R)
| OStop (r : R)
| ORaise (e : exn) (r : R)
| OFuel.
Arguments OVal {A}. Arguments OStop {A}. Arguments ORaise {A}. Arguments OFuel {A}.

Definition obind {A B} (x : ores A) (f : A -> R -> ores B) : ores B :=
  match x with
  | OVal a r => f a r
  | OStop r => OStop r
  | ORaise e r => ORaise e r
  | OFuel => OFuel
  end.
Notation "'let*' ( a , r ) := x 'in' y" :=
  (obind x (fun a r => y)) (at level 200, a pattern, r pattern, y at level 200).

(** PEP 479: a [StopIteration] escaping a generator body is a [RuntimeError]. *)
Definition pep479 {A} (x : ores A) : ores A :=
  match x with OStop r => ORaise ERuntime r | _ => x end.

Definition lift_rres {A} (x : rres G A) : ores A :=
  match x with ROk a r => OVal a r | RErr e r => ORaise e r end.

(** Result of creating a generator. *)
Inductive mkres := MOk (g : gen) | MErr (e : exn) | MFuel.

Definition lift_mk (x : mkres) (r : R) : ores gen :=
  match x with MOk g => OVal g r | MErr e => ORaise e r | MFuel => OFuel end.

(** sampling_context.py:98-100 and base.py:26-49 [generator_from_command],
    including base.py:89-105 [_get_variable], which is not a generator function
    and runs at once.  The generator functions only suspend.  base.py:51-68,107-112
    are [_unsupported_command] and the methods that call it, of which only
    [_get_wrap] is ever reached, by the cyclical sampler; the others are
    overridden by every sampler. *)
Fixpoint mk (fuel : nat) (c : ctx) (cmd : command) : mkres :=
  match fuel with
  | O => MFuel
  | S fuel' =>
      let m := chosen_method c cmd in
      let c' := with_method m c in
      match cmd with
      | Lit s _ =>
          match m with Combinatorial => MOk (GOnce s) | _ => MOk (GRepeat s) end
      | Seq tokens sep _ =>
          match m with
          | Combinatorial => MOk (GCSeqStart c' tokens sep)
          | _ => MOk (GSeqStart c' tokens sep)
          end
      | Var variants lo hi sep _ =>
          match m with
          | Random => MOk (GRVarStart c' variants lo hi sep)
          | Combinatorial => MOk (GCVarStart c' variants lo hi sep)
          | Cyclical => MOk (GYVarStart c' variants lo hi sep)
          end
      | Wild w _ vars =>
          match m with
          | Random => MOk (GRWildStart c' w vars)
          | Combinatorial => MOk (GCWildStart c' w vars)
          | Cyclical => MOk (GYWildStart c' w vars)
          end
      | Assign _ _ _ _ => MErr ENotImplemented
      | Access x default =>
          match resolve_access c' x default with
          | None => MErr EKey
          | Some target =>
              match for_sampling_variable x c' with
              | Err e => MErr e
              | Ok c'' => mk fuel' c'' target
              end
          end
      | Wrap wrapper inner _ =>
          match m with
          | Random => MOk (GRWrapStart c' wrapper inner)
          | Combinatorial => MOk (GCWrapStart c' wrapper inner)
          | Cyclical => MErr ENotImplemented
          end
      end
  end.

(** sampling_context.py:102-132 [sample_prompts]. *)
Definition sample_prompts (fuel : nat) (c : ctx) (p : prompt) (limit : option nat)
    : mkres :=
  let falsy := match p with WStr [] => true | WStr _ => false | WCmd cmd => negb (truthy cmd) end in
  if falsy then MOk GDone
  else
    let cmd := match p with WStr s => env_parse E s | WCmd cmd => Ok cmd end in
    match cmd with
    | Err e => MErr e
    | Ok cmd =>
        match mk fuel c cmd with
        | MOk g =>
            let g := if c_ignws c then GSquash g else g in
            MOk (match limit with None => g | Some n => GSlice n g end)
        | x => x
        end
    end.

(** Everything below takes [nx], the resumption of sub-generators. *)
Section Open.
Variable nx : gen -> R -> ores (str * gen).

(** utils.py:40-41 [rotate_all], which utils.py:44-49 [rotate_and_join] joins
    (see [joined]); returns the results and the advanced
    generators. *)
Fixpoint rotate_all (gens : list gen) (r : R) : ores (list str * list gen) :=
  match gens with
  | [] => OVal ([], []) r
  | g :: gens' =>
      let* ((t, g'), r) := nx g r in
      let* ((ts, gs), r) := rotate_all gens' r in
      OVal (t :: ts, g' :: gs) r
  end.

(** [next(iter(x))]: the first value, the rest of the generator is dropped. *)
Definition first_of (fuel : nat) (x : mkres) (r : R) : ores str :=
  let* (g, r) := lift_mk x r in
  let* ((t, _), r) := nx g r in
  OVal t r.

(** [[context.generator_from_command(c) for c in tokens]]. *)
Fixpoint mk_all (fuel : nat) (c : ctx) (cmds : list command) (r : R) : ores (list gen) :=
  match cmds with
  | [] => OVal [] r
  | cmd :: cmds' =>
      let* (g, r) := lift_mk (mk fuel c cmd) r in
      let* (gs, r) := mk_all fuel c cmds' r in
      OVal (g :: gs) r
  end.

(** sampling_context.py:161-177 [process_variable_assignment]. *)
Definition process_variable_assignment (fuel : nat) (c : ctx) (name : str)
    (value : command) (immediate overwrite : bool) (r : R) : ores command :=
  match (if overwrite then None else dict_get name (c_vars c)) with
  | Some v => OVal v r
  | None =>
      if immediate then
        match value with
        | Lit _ _ => OVal value r
        | _ =>
            let* (t, r) := first_of fuel (mk fuel c value) r in
            OVal (Lit t None) r
        end
      else OVal value r
  end.

(** sampling_context.py:139-159 [process_variable_assignments]: the remaining
    commands and the new variables. *)
Fixpoint assignments_loop (fuel : nat) (c : ctx) (cmds : list command)
    (new_vars : list (str * command)) (r : R)
    : ores (list command * list (str * command)) :=
  match cmds with
  | [] => OVal ([], new_vars) r
  | Assign name value imm ovr :: cmds' =>
      let* (v, r) := process_variable_assignment fuel c name value imm ovr r in
      assignments_loop fuel c cmds' (dict_set name v new_vars) r
  | cmd :: cmds' =>
      let* ((rest, vs), r) := assignments_loop fuel c cmds' new_vars r in
      OVal (cmd :: rest, vs) r
  end.
Definition process_variable_assignments (fuel : nat) (c : ctx) (cmds : list command)
    (r : R) : ores (list command * ctx) :=
  let* ((rest, vs), r) := assignments_loop fuel c cmds [] r in
  OVal (rest, with_variables vs c) r.

(** [next(iter(context.sample_prompts(command.wildcard, 1))).text]. *)
Definition sample_path (fuel : nat) (c : ctx) (w : wpath) (r : R) : ores str :=
  first_of fuel (sample_prompts fuel c w (Some 1)) r.

(** [[parse(v) for v in vals]]. *)
Fixpoint parse_all (vals : list str) : res (list command) :=
  match vals with
  | [] => Ok []
  | v :: vals' =>
      match env_parse E v with
      | Err e => Err e
      | Ok cmd =>
          match parse_all vals' with Err e => Err e | Ok cmds => Ok (cmd :: cmds) end
      end
  end.

(** samplers/utils.py:19-44 [wildcard_to_variant]: options and bounds of the
    new variant ([VariantOption(parse(v))] has weight 1). *)
Definition wildcard_to_variant (fuel : nat) (c : ctx) (w : wpath) (lo hi : Z) (r : R)
    : ores (list (command * Qc) * (Z * Z)) :=
  let* (path, r) := sample_path fuel c w r in
  let vals := env_lookup E path in
  let n := Z.of_nat (length vals) in
  match parse_all (iterate_weighted vals) with
  | Err e => ORaise e r
  | Ok cmds =>
      OVal (map (fun cmd => (cmd, 1%Qc)) cmds,
            post_init_bounds (Z.min lo n) (Z.min hi n)) r
  end.

(** command_collection.py:16-19 [CommandCollection.__init__]: generators are
    created for all commands, then each is advanced once.  The properties of
    command_collection.py:39-45 read the two parts of it. *)
Fixpoint advance_all (gens : list gen) (r : R) : ores (list (gen * option str)) :=
  match gens with
  | [] => OVal [] r
  | g :: gens' =>
      let* ((t, g'), r) := nx g r in
      let* (rest, r) := advance_all gens' r in
      OVal ((g', Some t) :: rest) r
  end.
Definition new_collection (fuel : nat) (c : ctx) (cmds : list command) (r : R)
    : ores (list (command * gen * option str)) :=
  let* (gens, r) := mk_all fuel c cmds r in
  let* (gvs, r) := advance_all gens r in
  OVal (map (fun x => (fst x, fst (snd x), snd (snd x))) (combine cmds gvs)) r.

(** command_collection.py:21-37 [CommandCollection.get_value]. *)
Fixpoint get_value (cmd : command) (coll : list (command * gen * option str)) (r : R)
    : ores (option str * list (command * gen * option str)) :=
  match coll with
  | [] => ORaise EValue r
  | (cmd', g, v) :: coll' =>
      if cmd_eqb cmd' cmd then
        match nx g r with
        | OVal (t, g') r => OVal (v, (cmd', g', Some t) :: coll') r
        | OStop r => OVal (v, (cmd', GDone, None) :: coll') r
        | ORaise e r => ORaise e r
        | OFuel => OFuel
        end
      else
        let* ((v', coll''), r) := get_value cmd coll' r in
        OVal (v', (cmd', g, v) :: coll'') r
  end.

(** cycle.py:112-116: one [to_result_gen(sample_prompts(val))] per value. *)
Fixpoint sample_all (fuel : nat) (c : ctx) (vals : list str) (r : R) : ores (list gen) :=
  match vals with
  | [] => OVal [] r
  | v :: vals' =>
      let* (g, r) := lift_mk (sample_prompts fuel c (WStr v) None) r in
      let* (gs, r) := sample_all fuel c vals' r in
      OVal (g :: gs) r
  end.
End Open.

(** The (bound, combo) pairs of combinatorial.py:125-129 and cycle.py:80-84. *)
Definition bound_combos (variants : list (command * Qc)) (lo hi : Z)
    : list (Z * list command) :=
  let '(lo', hi') := adjust_range (length variants) lo hi in
  flat_map (fun b => map (pair b) (get_value_combinations (Z.to_nat b) (values variants)))
    (zrange lo' hi').

(** The test for a variant that consists of one wildcard, e.g.
    combinatorial.py:108-111. *)
Definition single_wildcard (variants : list (command * Qc)) : option wpath :=
  match variants with
  | [(Wild w _ _, _)] => Some w
  | _ => None
  end.

(** combinatorial.py:59-61 *)
Definition non_combo (tokens : list command) : list command :=
  filter (fun cmd => negb (option_eqb method_eqb (sampling_method cmd) (Some Combinatorial))) tokens.

(** combinatorial.py:66-76 *)
Definition augmented (tokens : list command) : list command :=
  Lit [] (Some Combinatorial) :: tokens ++ [Lit [] (Some Combinatorial)].

(** The key of a yielded array in [seen]: a tuple of results. *)
Fixpoint arr_eqb (a b : list str) : bool :=
  match a, b with
  | [], [] => true
  | x :: a', y :: b' => str_eqb x y && arr_eqb a' b'
  | _, _ => false
  end.

(** [next(g)].  Exceptions raised while a body runs end that generator; as
    nobody resumes it afterwards the model does not return it. *)
Fixpoint next (fuel : nat) (g : gen) (r : R) {struct fuel} : ores (str * gen) :=
  match fuel with
  | O => OFuel
  | S n =>
    match g with
    | GDone => OStop r
    | GRepeat t => OVal (t, GRepeat t) r
    | GOnce t => OVal (t, GDone) r

    (* base.py:75-79 *)
    | GSeqStart c tokens sep =>
        pep479 (
          let* ((tokens', c'), r) := process_variable_assignments (next n) n c tokens r in
          let* (gens, r) := mk_all n c' tokens' r in
          next n (GSeqLoop gens sep) r)
    | GSeqLoop gens sep =>
        pep479 (
          let* ((ts, gens'), r) := rotate_all (next n) gens r in
          OVal (joined ts sep, GSeqLoop gens' sep) r)

    (* random.py:68-85 *)
    | GRVarStart c variants lo hi sep =>
        match variants with
        | [] => OStop r
        | [(v, _)] =>
            match single_wildcard variants with
            | Some w =>
                let* ((variants', (lo', hi')), r) :=
                  pep479 (wildcard_to_variant (next n) n c w lo hi r) in
                next n (GRVarStart c variants' lo' hi' sep) r
            | None =>
                let* (g, r) := lift_mk (mk n c v) r in
                next n g r
            end
        | _ => next n (GRVarLoop c variants lo hi sep) r
        end
    (* random.py:86-110 *)
    | GRVarLoop c variants lo hi sep =>
        let '(lo', hi') := adjust_range (length variants) lo hi in
        match randint G lo' hi' r with
        | None => ORaise EValue r
        | Some (k, r) =>
            let num_choices := Z.min hi' k in
            pep479 (
              let* (selected, r) :=
                lift_rres (choose_without_replacement G cmd_eqb (values variants)
                             (weights variants) num_choices r) in
              let* (gens, r) := mk_all n c selected r in
              match gens with
              | [] => OVal ([], GRVarLoop c variants lo' hi' sep) r
              | _ =>
                  let* ((ts, _), r) := rotate_all (next n) gens r in
                  OVal (joined ts sep, GRVarLoop c variants lo' hi' sep) r
              end)
        end

    (* random.py:117-125 *)
    | GRWildStart c w vars =>
        let* (path, r) := pep479 (sample_path (next n) n c w r) in
        let c' := with_variables vars c in
        match env_lookup E path with
        | [] => next n (GFallback c' w) r
        | items => next n (GRWildLoop c' (start_wgen G items) None) r
        end
    (* random.py:126-128 *)
    | GRWildLoop c wg None =>
        let* ((v, wg'), r) := lift_rres (next_wgen G wg r) in
        let* (g, r) := lift_mk (sample_prompts n c (WStr v) (Some 1)) r in
        next n (GRWildLoop c wg' (Some g)) r
    | GRWildLoop c wg (Some g) =>
        match next n g r with
        | OVal (t, g') r => OVal (t, GRWildLoop c wg (Some g')) r
        | OStop r => next n (GRWildLoop c wg None) r
        | x => x
        end

    (* random.py:130-136; [zip] asks the wrapper first *)
    | GRWrapStart c wrapper inner =>
        let* (gw, r) := lift_mk (mk n c wrapper) r in
        let* (gi, r) := lift_mk (mk n c inner) r in
        next n (GRWrapLoop gw gi) r
    | GRWrapLoop gw gi =>
        let* ((tw, gw'), r) := next n gw r in
        let* ((ti, gi'), r) := next n gi r in
        OVal (as_wrapper tw ti, GRWrapLoop gw' gi') r

    (* combinatorial.py:58-76 *)
    | GCSeqStart c tokens sep =>
        let* ((coll, (tokens', c')), r) :=
          pep479 (
            let* ((tokens', c'), r) := process_variable_assignments (next n) n c tokens r in
            let* (coll, r) := new_collection (next n) n c' (non_combo tokens') r in
            OVal (coll, (tokens', c')) r) in
        next n (GCSeqLoop c' sep coll (CSStart (augmented tokens'))) r
    (* combinatorial.py:96-97 *)
    | GCSeqLoop c sep coll cs =>
        let* ((x, coll'), r) := next_cs n c coll cs r in
        match x with
        | Some (arr, cs') => OVal (joined arr sep, GCSeqLoop c sep coll' cs') r
        | None => OStop r
        end

    (* combinatorial.py:104-129 *)
    | GCVarStart c variants lo hi sep =>
        match variants with
        | [] => OStop r
        | _ =>
            match single_wildcard variants with
            | Some w =>
                let* ((variants', (lo', hi')), r) :=
                  pep479 (wildcard_to_variant (next n) n c w lo hi r) in
                next n (GCVarStart c variants' lo' hi' sep) r
            | None => next n (GCVarLoop c sep (bound_combos variants lo hi) None []) r
            end
        end
    (* combinatorial.py:125-138 *)
    | GCVarLoop c sep todo None seen =>
        match todo with
        | [] => OStop r
        | (b, combo) :: todo' => next n (GCVarLoop c sep todo' (Some (b, CPStart combo)) seen) r
        end
    | GCVarLoop c sep todo (Some (b, st)) seen =>
        match next_cp n c st r with
        | OVal (arr, st') r =>
            let d := dedupe arr in
            if Z.eqb (Z.of_nat (length d)) b && negb (existsb (arr_eqb d) seen)
            then OVal (joined d sep, GCVarLoop c sep todo (Some (b, st')) (d :: seen)) r
            else next n (GCVarLoop c sep todo (Some (b, st')) seen) r
        | OStop r => next n (GCVarLoop c sep todo None seen) r
        | ORaise e r => ORaise e r
        | OFuel => OFuel
        end

    (* combinatorial.py:146-152 *)
    | GCWildStart c w vars =>
        let* (path, r) := pep479 (sample_path (next n) n c w r) in
        let c' := with_variables vars c in
        match env_lookup E path with
        | [] => next n (GFallback c' w) r
        | items => next n (GCWildLoop c' (iterate_weighted items) None) r
        end
    (* combinatorial.py:154-156 *)
    | GCWildLoop c vals None =>
        match vals with
        | [] => OStop r
        | v :: vals' =>
            let* (g, r) := lift_mk (sample_prompts n c (WStr v) None) r in
            next n (GCWildLoop c vals' (Some g)) r
        end
    | GCWildLoop c vals (Some g) =>
        match next n g r with
        | OVal (t, g') r => OVal (t, GCWildLoop c vals (Some g')) r
        | OStop r => next n (GCWildLoop c vals None) r
        | x => x
        end

    (* combinatorial.py:165-169 *)
    | GCWrapStart c wrapper inner =>
        let* (gw, r) := lift_mk (sample_prompts n c (WCmd wrapper) None) r in
        next n (GCWrapLoop c inner gw None) r
    | GCWrapLoop c inner gw None =>
        let* ((tw, gw'), r) := next n gw r in
        let* (gi, r) := lift_mk (sample_prompts n c (WCmd inner) None) r in
        next n (GCWrapLoop c inner gw' (Some (tw, gi))) r
    | GCWrapLoop c inner gw (Some (tw, gi)) =>
        match next n gi r with
        | OVal (ti, gi') r =>
            OVal (as_wrapper tw ti, GCWrapLoop c inner gw (Some (tw, gi'))) r
        | OStop r => next n (GCWrapLoop c inner gw None) r
        | x => x
        end

    (* cycle.py:60-92 *)
    | GYVarStart c variants lo hi sep =>
        match variants with
        | [] => OStop r
        | _ =>
            match single_wildcard variants with
            | Some w =>
                let* ((variants', (lo', hi')), r) :=
                  pep479 (wildcard_to_variant (next n) n c w lo hi r) in
                next n (GYVarStart c variants' lo' hi' sep) r
            | None =>
                next n (GYVarLoop c sep
                          (map (fun bc => YCStart (snd bc)) (bound_combos variants lo hi))) r
            end
        end
    (* cycle.py:94-95 and utils.py:52-55: the next sampler in the cycle is
       asked; without samplers the [while True] loop spins forever *)
    | GYVarLoop c sep samplers =>
        match samplers with
        | [] => next n (GYVarLoop c sep []) r
        | y :: ys =>
            let* ((arr, y'), r) := pep479 (next_yc n c y r) in
            OVal (joined arr sep, GYVarLoop c sep (ys ++ [y'])) r
        end

    (* cycle.py:103-117 *)
    | GYWildStart c w vars =>
        let* (path, r) := pep479 (sample_path (next n) n c w r) in
        let c' := with_method Cyclical (with_variables vars c) in
        match env_lookup E path with
        | [] => next n (GFallback c' w) r
        | items =>
            let* (gens, r) := sample_all n c' (iterate_weighted items) r in
            next n (GYWildLoop gens) r
        end
    | GYWildLoop gens =>
        match gens with
        | [] => OStop r
        | g :: gs =>
            let* ((t, g'), r) := pep479 (next n g r) in
            OVal (t, GYWildLoop (gs ++ [g'])) r
        end

    (* samplers/utils.py:54-62 *)
    | GFallback c w =>
        let* (wildcard, r) :=
          match w with
          | WCmd _ => pep479 (sample_path (next n) n c w r)
          | WStr s => OVal s r
          end in
        next n (GRepeat (to_wildcard (env_wrap E) wildcard)) r

    | GSquash g =>
        let* ((t, g'), r) := next n g r in
        OVal (squash_whitespace t, GSquash g') r
    | GSlice k g =>
        match k with
        | O => OStop r
        | S k' =>
            let* ((t, g'), r) := next n g r in
            OVal (t, GSlice k' g') r
        end
    end
  end

(** [next(get_sequence(...))], combinatorial.py:78-94.  The collection is
    shared by all levels; [None] stands for the end of the iteration. *)
with next_cs (fuel : nat) (c : ctx) (coll : list (command * gen * option str))
    (cs : cseq) (r : R) {struct fuel}
    : ores (option (list str * cseq) * list (command * gen * option str)) :=
  match fuel with
  | O => OFuel
  | S n =>
    match cs with
    | CSDone => OVal (None, coll) r
    | CSStart [] => OVal (Some ([], CSDone), coll) r
    | CSStart (cmd :: rest) =>
        if is_nonfinite (effective_method c cmd)
        then next_cs n c coll (CSNon cmd (CSStart rest)) r
        else
          let* (g, r) := lift_mk (mk n c cmd) r in
          next_cs n c coll (CSFin g rest) r
    | CSNon cmd rest =>
        let* ((x, coll), r) := next_cs n c coll rest r in
        match x with
        | None => OVal (None, coll) r
        | Some (rest_vals, rest') =>
            let* ((v, coll), r) := get_value (next n) cmd coll r in
            match v with
            | Some t => OVal (Some (t :: rest_vals, CSNon cmd rest'), coll) r
            | None => OVal (Some (rest_vals, CSNon cmd rest'), coll) r
            end
        end
    | CSFin g rest_cmds =>
        match next n g r with
        | OVal (t, g') r => next_cs n c coll (CSFin2 g' rest_cmds t (CSStart rest_cmds)) r
        | OStop r => OVal (None, coll) r
        | ORaise e r => ORaise e r
        | OFuel => OFuel
        end
    | CSFin2 g rest_cmds t rest =>
        let* ((x, coll), r) := next_cs n c coll rest r in
        match x with
        | Some (rest_vals, rest') =>
            OVal (Some (t :: rest_vals, CSFin2 g rest_cmds t rest'), coll) r
        | None => next_cs n c coll (CSFin g rest_cmds) r
        end
    end
  end

(** [next(_combo_to_prompt(...))], combinatorial.py:29-49. *)
with next_cp (fuel : nat) (c : ctx) (st : cp) (r : R) {struct fuel}
    : ores (list str * cp) :=
  match fuel with
  | O => OFuel
  | S n =>
    match st with
    | CPDone => OStop r
    | CPStart [] => OVal ([], CPDone) r
    | CPStart (cmd :: rest) =>
        let* (g, r) := lift_mk (mk n c cmd) r in
        if is_nonfinite (effective_method c cmd)
        then next_cp n c (CPNon g (CPStart rest)) r
        else next_cp n c (CPFin g rest) r
    | CPNon g rest =>
        let* ((arr, rest'), r) := next_cp n c rest r in
        let* ((t, g'), r) := pep479 (next n g r) in
        OVal (t :: arr, CPNon g' rest') r
    | CPFin g rest_cmds =>
        let* ((t, g'), r) := next n g r in
        next_cp n c (CPFin2 g' rest_cmds t (CPStart rest_cmds)) r
    | CPFin2 g rest_cmds t rest =>
        match next_cp n c rest r with
        | OVal (arr, rest') r => OVal (t :: arr, CPFin2 g rest_cmds t rest') r
        | OStop r => next_cp n c (CPFin g rest_cmds) r
        | ORaise e r => ORaise e r
        | OFuel => OFuel
        end
    end
  end

(** [next(_get_combination_samples(...))], cycle.py:26-51. *)
with next_yc (fuel : nat) (c : ctx) (st : yc) (r : R) {struct fuel}
    : ores (list str * yc) :=
  match fuel with
  | O => OFuel
  | S n =>
    match st with
    | YCDone => OStop r
    | YCEmpty => OVal ([], YCEmpty) r
    | YCStart [] => next_yc n c YCEmpty r
    | YCStart (cmd :: rest) =>
        let* (g, r) := lift_mk (mk n c cmd) r in
        next_yc n c (YCLoop g (YCStart rest)) r
    | YCLoop g rest =>
        let* ((arr, rest'), r) := next_yc n c rest r in
        match next n g r with
        | OVal (t, g') r => OVal (t :: arr, YCLoop g' rest') r
        | OStop r => OVal ([], YCDone) r
        | ORaise e r => ORaise e r
        | OFuel => OFuel
        end
    end
  end.

(** [list(islice(gen, n))]: at most [n] results.  The list collected so far is
    returned with the reason for stopping. *)
Inductive run_end := EndLimit (g : gen) | EndStop | EndRaise (e : exn) | EndFuel.
Fixpoint collect (fuel n : nat) (g : gen) (r : R) : list str * run_end * option R :=
  match n with
  | O => ([], EndLimit g, Some r)
  | S n' =>
      match next fuel g r with
      | OVal (t, g') r' =>
          let '(ts, e, r'') := collect fuel n' g' r' in (t :: ts, e, r'')
      | OStop r' => ([], EndStop, Some r')
      | ORaise e r' => ([], EndRaise e, Some r')
      | OFuel => ([], EndFuel, None)
      end
  end.
End Sampler.
Arguments OVal {G A}. Arguments OStop {G A}. Arguments ORaise {G A}. Arguments OFuel {G A}.
