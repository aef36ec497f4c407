(** Python's [random.Random] as used by dynamicprompts, and
    utils.py [choose_without_replacement].

    [rng_impl] is an arbitrary pseudo random generator.  Its two primitives
    return arbitrary numbers; the model reduces them into the range that
    CPython guarantees, so a statement about every [rng_impl] is a statement
    about every behaviour of the random generator.  It also brings the rounding
    of float arithmetic, which is any correct one. *)
From Coq Require Import String NArith ZArith QArith Qcanon Bool List.
From Verif.Model Require Import Str Float.
Import ListNotations.
Local Open Scope nat_scope.

Record rng_impl := {
  rng_state : Type;
  (** raw material for [Random._randbelow(n)] *)
  prim_below : N -> rng_state -> N * rng_state;
  (** raw material for [Random.random()] *)
  prim_random : rng_state -> N * rng_state;
  (** [Random.seed(n)] *)
  prim_seed : Z -> rng_state;
  (** the float nearest to the exact result of an operation *)
  fl : Qc -> Qc;
  fl_ok : Rounding fl
}.

(** Exceptions that code of the model can raise.  [RuntimeError] is what
    Python turns a [StopIteration] escaping from a generator body into. *)
Inductive exn :=
| EKey | ERecursion | ERuntime | ENotImplemented | EValue | EIndex | EAttribute
| EParse | EType | EStopIteration | EOs | EGenerator.

Section Rng.
Variable G : rng_impl.

(** [Random._randbelow(n)] for [n > 0]: a number below [n]. *)
Definition randbelow (n : nat) (r : rng_state G) : nat * rng_state G :=
  let (x, r') := prim_below G (N.of_nat n) r in
  (N.to_nat (N.modulo x (N.of_nat n)), r').

(** [Random.random()]: k/2^53 with 0 <= k < 2^53. *)
Definition two53 : positive := 9007199254740992.
Definition random01 (r : rng_state G) : Qc * rng_state G :=
  let (x, r') := prim_random G r in
  (Q2Qc (Z.of_N (N.modulo x (Npos two53)) # two53), r').

(** [Random.randint(a, b)]; [None] is [ValueError] (empty range). *)
Definition randint (a b : Z) (r : rng_state G) : option (Z * rng_state G) :=
  if Z.leb a b then
    let (x, r') := randbelow (Z.to_nat (b - a + 1)) r in
    Some ((a + Z.of_nat x)%Z, r')
  else None.

(** [itertools.accumulate(weights)].  The weights of commands and wildcard
    items are exact here; Python reads them as the nearest floats. *)
Fixpoint accumulate_from (acc : Qc) (ws : list Qc) : list Qc :=
  match ws with
  | [] => []
  | w :: ws' =>
      let sum := fl G (acc + fl G w)%Qc in
      sum :: accumulate_from sum ws'
  end.
Definition accumulate (ws : list Qc) : list Qc :=
  match ws with
  | [] => []
  | w :: ws' => fl G w :: accumulate_from (fl G w) ws'
  end.

Definition Qc_leb (a b : Qc) : bool := Qle_bool a b.
Definition Qc_ltb (a b : Qc) : bool := negb (Qle_bool b a).

(** [bisect.bisect_right(a, x, lo, hi)]: the loop
    [while lo < hi: mid = (lo+hi)//2; if x < a[mid]: hi = mid else: lo = mid+1].
    [fuel] bounds the number of rounds; [hi - lo] rounds are always enough. *)
Fixpoint bisect_right (fuel : nat) (a : list Qc) (x : Qc) (lo hi : nat) : nat :=
  match fuel with
  | O => lo
  | S fuel' =>
      if Nat.ltb lo hi then
        let mid := Nat.div2 (lo + hi) in
        if Qc_ltb x (nth mid a 0%Qc)
        then bisect_right fuel' a x lo mid
        else bisect_right fuel' a x (S mid) hi
      else lo
  end.

(** One index drawn by [Random.choices(population, cum_weights=cum)],
    [n = len(population) = len(cum)]. *)
Definition draw_index (cum : list Qc) (r : rng_state G) : nat * rng_state G :=
  let total := last cum 0%Qc in
  let (u, r') := random01 r in
  let hi := pred (length cum) in
  (bisect_right hi cum (fl G (u * total)%Qc) 0 hi, r').

Inductive rres (A : Type) :=
| ROk (a : A) (r : rng_state G)
| RErr (e : exn) (r : rng_state G).
Arguments ROk {A}.
Arguments RErr {A}.

(** [Random.choices(population, cum_weights=cum, k=k)], as indices into the
    population.  CPython raises [IndexError] on an empty population and
    [ValueError] when the total weight is not positive. *)
Fixpoint draw_indices (cum : list Qc) (k : nat) (r : rng_state G)
    : list nat * rng_state G :=
  match k with
  | O => ([], r)
  | S k' =>
      let (i, r1) := draw_index cum r in
      let (is, r2) := draw_indices cum k' r1 in
      (i :: is, r2)
  end.
Definition choices (cum : list Qc) (k : nat) (r : rng_state G) : rres (list nat) :=
  match cum with
  | [] => RErr EIndex r
  | _ =>
      if Qc_leb (last cum 0%Qc) 0%Qc then RErr EValue r
      else let (is, r') := draw_indices cum k r in ROk is r'
  end.

(** [Random.choice(seq)], as an index. *)
Definition choice (n : nat) (r : rng_state G) : rres nat :=
  match n with
  | O => RErr EIndex r
  | _ => let (i, r') := randbelow n r in ROk i r'
  end.

Section Cwr.
Context {A : Type} (eqb : A -> A -> bool).

(** [l.index(x)]. *)
Fixpoint index_of {B} (f : B -> B -> bool) (x : B) (l : list B) : option nat :=
  match l with
  | [] => None
  | y :: l' => if f y x then Some 0 else option_map S (index_of f x l')
  end.

(** [l.remove(x)]: first element equal to [x] removed. *)
Fixpoint remove_first {B} (f : B -> B -> bool) (x : B) (l : list B) : list B :=
  match l with
  | [] => []
  | y :: l' => if f y x then l' else y :: remove_first f x l'
  end.

(** utils.py:97-98: [weights.remove(weights[values.index(chosen)])] and
    [values.remove(chosen)]. *)
Definition cwr_remaining (chosen : A) (vals : list A) (ws : list Qc) : list A * list Qc :=
  let j := match index_of eqb chosen vals with Some j => j | None => 0 end in
  (remove_first eqb chosen vals, remove_first Qc_eq_bool (nth j ws 0%Qc) ws).

(** utils.py:93-99, the drawing loop of [choose_without_replacement]. *)
Fixpoint cwr_loop (num_choices : nat) (vals : list A) (ws : list Qc)
    (r : rng_state G) : rres (list A) :=
  match num_choices with
  | O => ROk [] r
  | S k =>
      match choices (accumulate ws) 1 r with
      | RErr e r' => RErr e r'
      | ROk is r' =>
          match is with
          | [] => RErr EIndex r'
          | i :: _ =>
              match nth_error vals i with
              | None => RErr EIndex r'
              | Some chosen =>
                  let (vals', ws') := cwr_remaining chosen vals ws in
                  match cwr_loop k vals' ws' r' with
                  | ROk l r'' => ROk (chosen :: l) r''
                  | RErr e r'' => RErr e r''
                  end
              end
          end
      end
  end.

(** utils.py:65-99 [choose_without_replacement].  [num_choices] may be negative
    in principle ([range] of it is then empty). *)
Definition choose_without_replacement (vals : list A) (ws : list Qc) (num_choices : Z)
    (r : rng_state G) : rres (list A) :=
  if Z.ltb (Z.of_nat (length vals)) num_choices then RErr EValue r
  else
    let ws := match ws with [] => map (fun _ => 1%Qc) vals | _ => ws end in
    if negb (Nat.eqb (length vals) (length ws)) then RErr EValue r
    else
      match vals with
      | [] => ROk [] r
      | [v] => ROk [v] r
      | _ => cwr_loop (Z.to_nat num_choices) vals ws r
      end.
End Cwr.
End Rng.
Arguments ROk {G A}.
Arguments RErr {G A}.
