(** Generator objects and where they take random numbers from:
    generators/randomprompt.py, generators/combinatorial.py,
    generators/jinjagenerator.py:40-55; and the functions of
    jinja_extensions.py:40-70 that call generators. *)
From Coq Require Import String NArith ZArith QArith Qcanon Bool List.
From Verif.Model Require Import Str Command Rng Values Context Sampler Generators.
Import ListNotations.
Local Open Scope nat_scope.

(** constants.py:7 [MAX_IMAGES], the default of [max_prompts]
    (combinatorial.py:33).  Kept in binary: it is only used through [N.to_nat]. *)
Definition max_images : nat := N.to_nat 1000.

Section Session.
Variable G : rng_impl.
Variable E : env.
Notation R := (rng_state G).

(** [context.rand]: constants.py:8 [DEFAULT_RANDOM], or an instance of its own. *)
Inductive source := Shared | Own (i : nat).

Inductive generator :=
| RandomGen (c : ctx) (rand : source)
| CombinatorialGen (c : ctx).

(** The state of the process: [DEFAULT_RANDOM], the other [Random] instances
    and the generators, both in the order of their creation. *)
Record session := { s_shared : R; s_own : list R; s_gens : list generator }.

Fixpoint set_nth {A} (i : nat) (x : A) (l : list A) : list A :=
  match l, i with
  | [], _ => []
  | _ :: l', O => x :: l'
  | y :: l', S i' => y :: set_nth i' x l'
  end.

(** sampling_context.py:34-52: a context as the generators make it. *)
Definition new_context (m : method) (ignws : bool) : ctx :=
  {| c_method := m; c_ignws := ignws; c_vars := []; c_unknown := None; c_busy := [] |}.

(** randomprompt.py:16-22 [_get_random].  [os] is the state that [Random()]
    gets from the operating system. *)
Definition get_random (seed : option Z) (unlink : bool) (os : R) (s : session) : source * session :=
  if unlink then (Shared, s)
  else
    let state := match seed with Some z => prim_seed G z | None => os end in
    (Own (length (s_own s)),
     {| s_shared := s_shared s; s_own := s_own s ++ [state]; s_gens := s_gens s |}).

Definition add_generator (g : generator) (s : session) : session :=
  {| s_shared := s_shared s; s_own := s_own s; s_gens := s_gens s ++ [g] |}.

(** randomprompt.py:26-44 [RandomPromptGenerator.__init__]. *)
Definition new_random (seed : option Z) (unlink ignws : bool) (os : R) (s : session) : session :=
  let (rand, s) := get_random seed unlink os s in
  add_generator (RandomGen (new_context Random ignws) rand) s.

(** combinatorial.py:16-28 [CombinatorialPromptGenerator.__init__]: the
    context's default source (sampling_context.py:43). *)
Definition new_combinatorial (ignws : bool) (s : session) : session :=
  add_generator (CombinatorialGen (new_context Combinatorial ignws)) s.

(** jinjagenerator.py:42-55: the two generators of a [JinjaGenerator]. *)
Definition new_jinja (unlink ignws : bool) (os : R) (s : session) : session :=
  new_combinatorial ignws (new_random None unlink ignws os s).

(** A call of [generate]; [None] for an omitted number of prompts. *)
Record request := { q_template : str; q_number : option nat; q_seeds : seeds_arg }.

Inductive answer := Prompts (ts : list str) | Raised (e : exn).

(** randomprompt.py:46-76 and combinatorial.py:30-38 with their defaults;
    [None] means not enough fuel. *)
Definition generate (fuel : nat) (g : generator) (q : request) (r : R) : option (answer * R) :=
  let x :=
    match g with
    | RandomGen c _ =>
        random_generate G E fuel c (q_template q)
          (match q_number q with Some n => n | None => 1 end) (q_seeds q) r
    | CombinatorialGen c =>
        let n := match q_number q with Some n => n | None => max_images end in
        combinatorial_generate G E fuel (S n) c (q_template q) (Some n) r
    end in
  match x with
  | Ret ts r' => Some (Prompts ts, r')
  | Exn e r' => Some (Raised e, r')
  | NoFuel => None
  end.

Definition read_source (src : source) (s : session) : option R :=
  match src with Shared => Some (s_shared s) | Own i => nth_error (s_own s) i end.
Definition write_source (src : source) (r : R) (s : session) : session :=
  match src with
  | Shared => {| s_shared := r; s_own := s_own s; s_gens := s_gens s |}
  | Own i => {| s_shared := s_shared s; s_own := set_nth i r (s_own s); s_gens := s_gens s |}
  end.

Inductive call :=
| NewRandom (seed : option Z) (unlink ignws : bool) (os : R)
| NewCombinatorial (ignws : bool)
| NewJinja (unlink ignws : bool) (os : R)
| Ask (i : nat) (q : request).

(** One call; [None] when there is no such generator, or not enough fuel. *)
Definition perform (fuel : nat) (x : call) (s : session) : option (answer * session) :=
  match x with
  | NewRandom seed unlink ignws os => Some (Prompts [], new_random seed unlink ignws os s)
  | NewCombinatorial ignws => Some (Prompts [], new_combinatorial ignws s)
  | NewJinja unlink ignws os => Some (Prompts [], new_jinja unlink ignws os s)
  | Ask i q =>
      match nth_error (s_gens s) i with
      | None => None
      | Some g =>
          let src := match g with RandomGen _ rand => rand | CombinatorialGen _ => Shared end in
          match read_source src s with
          | None => None
          | Some r =>
              match generate fuel g q r with
              | None => None
              | Some (a, r') => Some (a, write_source src r' s)
              end
          end
      end
  end.
Fixpoint perform_all (fuel : nat) (calls : list call) (s : session)
    : option (list answer * session) :=
  match calls with
  | [] => Some ([], s)
  | x :: calls' =>
      match perform fuel x s with
      | None => None
      | Some (a, s') =>
          match perform_all fuel calls' s' with
          | None => None
          | Some (l, s'') => Some (a :: l, s'')
          end
      end
  end.

Definition start (r : R) : session := {| s_shared := r; s_own := []; s_gens := [] |}.

(** jinja_extensions.py:40-51 [wildcard]; [c] is the context of the
    combinatorial generator. *)
Definition jinja_wildcard (fuel : nat) (c : ctx) (name : str) (r : R) : out R (list str) :=
  combinatorial_generate G E fuel (S max_images) c (to_wildcard (env_wrap E) name) (Some max_images) r.

(** jinja_extensions.py:54-59 [random_sample]; [c] is the context of the random
    generator.  [next] on the iterator of an empty list raises [StopIteration]. *)
Definition jinja_random_sample (fuel : nat) (c : ctx) (prompt : str) (r : R) : out R str :=
  bind (random_generate G E fuel c prompt 1 SNone r) (fun ps r' =>
    match ps with p :: _ => Ret p r' | [] => Exn EStopIteration r' end).

(** jinja_extensions.py:62-66 [combinatorial_sample], in templates
    [all_combinations]. *)
Definition jinja_all_combinations (fuel : nat) (c : ctx) (prompt : str) (r : R) : out R (list str) :=
  combinatorial_generate G E fuel (S max_images) c prompt (Some max_images) r.
End Session.
Arguments NewRandom {G}. Arguments NewCombinatorial {G}. Arguments NewJinja {G}. Arguments Ask {G}.
