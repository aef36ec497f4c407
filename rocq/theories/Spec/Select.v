(** Small notions shared by the descriptions of combinatorial and cyclical
    runs: products, selections, marks, paths, assignments. *)
From Coq Require Import NArith ZArith QArith Qcanon Bool Arith List.
From Verif.Model Require Import Command Values Context.
From Verif.Spec Require Import Text Comb Items Lang.
Import ListNotations.
Local Open Scope nat_scope.

(** All ways to take one member from each list; the leftmost list varies
    slowest. *)
Fixpoint product {A} (ls : list (list A)) : list (list A) :=
  match ls with
  | [] => [[]]
  | l :: ls' => flat_map (fun x => map (cons x) (product ls')) l
  end.

(** [Sift P l out]: [out] are the members of [l] that satisfy [P], in order. *)
Inductive Sift {A} (P : A -> Prop) : list A -> list A -> Prop :=
| Sift_nil : Sift P [] []
| Sift_keep : forall x l out, P x -> Sift P l out -> Sift P (x :: l) (x :: out)
| Sift_drop : forall x l out, ~ P x -> Sift P l out -> Sift P (x :: l) out.

(** [FirstOnly seen l out]: [out] are the members of [l] without those in
    [seen] and without later repetitions, in order. *)
Inductive FirstOnly {A} : list A -> list A -> list A -> Prop :=
| First_nil : forall seen, FirstOnly seen [] []
| First_keep : forall seen x l out, ~ In x seen -> FirstOnly (x :: seen) l out ->
    FirstOnly seen (x :: l) (x :: out)
| First_drop : forall seen x l out, In x seen -> FirstOnly seen l out ->
    FirstOnly seen (x :: l) out.

(** The sizes [lo .. hi] of a multi-choice among [n] options, ascending. *)
Definition sizes (n : nat) (lo hi : Z) : list nat :=
  let l := Z.to_nat (clamp n (Z.min lo hi)) in
  let h := Z.min (Z.max lo hi) (Z.of_nat n) in
  seq l (Z.to_nat (h + 1) - l).

(** The ordered selections of the given sizes: tuples of options in product
    order, those with a repeated option left out. *)
Definition Selections (opts : list command) (ks : list nat) (sels : list (list command)) : Prop :=
  exists per_size,
    Forall2 (fun k ss => Sift (@NoDup command) (product (repeat opts k)) ss) ks per_size /\
    sels = concat per_size.

Definition finite_mark (c : command) : Prop :=
  mark_of c = None \/ mark_of c = Some Combinatorial.

(** [Occ x l n]: [x] is [n] times in [l]. *)
Inductive Occ {A} (x : A) : list A -> nat -> Prop :=
| Occ_nil : Occ x [] 0
| Occ_same : forall l n, Occ x l n -> Occ x (x :: l) (S n)
| Occ_other : forall y l n, y <> x -> Occ x l n -> Occ x (y :: l) n.

(** A wildcard whose name is plain text, and the name used for looking it up. *)
Definition PlainPath (E : env) (c : ctx) (w : wpath) (name path : text) : Prop :=
  exists s m, w = WStr name /\ name <> [] /\ env_parse E name = Ok (Lit s m) /\ Tidy (c_ignws c) s path.

(** * Assignments *)
(** [c'] is [c] with the given variables set; a later one counts. *)
Definition Extends (c : ctx) (bs : list (text * command)) (c' : ctx) : Prop :=
  Extended (scope_of c) bs (scope_of c') /\ c_busy c' = c_busy c.

(** [Assigned sc tokens bs need]: the assignments among [tokens] give the
    variables [bs], provided that each command of [need] first gives the text
    next to it.  All of them are evaluated in the scope [sc]. *)
Inductive Assigned (sc : scope) :
  list command -> list (text * command) -> list (command * text) -> Prop :=
| As_nil : Assigned sc [] [] []
| As_skip : forall tok toks bs need, ~ is_assign tok -> Assigned sc toks bs need ->
    Assigned sc (tok :: toks) bs need
| As_kept : forall x v imm v0 toks bs need, sc_var sc x = Some v0 -> Assigned sc toks bs need ->
    Assigned sc (Assign x v imm false :: toks) ((x, v0) :: bs) need
| As_lazy : forall x v ovr toks bs need, (ovr = false -> sc_var sc x = None) ->
    Assigned sc toks bs need -> Assigned sc (Assign x v false ovr :: toks) ((x, v) :: bs) need
| As_literal : forall x s m ovr toks bs need, (ovr = false -> sc_var sc x = None) ->
    Assigned sc toks bs need ->
    Assigned sc (Assign x (Lit s m) true ovr :: toks) ((x, Lit s m) :: bs) need
| As_immediate : forall x v ovr t toks bs need, (ovr = false -> sc_var sc x = None) ->
    (forall s m, v <> Lit s m) -> Assigned sc toks bs need ->
    Assigned sc (Assign x v true ovr :: toks) ((x, Lit t None) :: bs) ((v, t) :: need).
