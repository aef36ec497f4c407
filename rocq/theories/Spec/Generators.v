(** Specifications for the prompt generators. *)
From Coq Require Import NArith ZArith QArith Qcanon Bool Arith List.
From Verif.Model Require Import Rng Sampler Generators.
From Verif.Spec Require Import Text.
Import ListNotations.
Local Open Scope nat_scope.

Section Calls.
Context {S A : Type}.

(** [n] successful calls of [f] one after the other, starting in state [s]:
    what they returned, and the state afterwards. *)
Inductive Calls (f : S -> out S A) : nat -> S -> list A -> S -> Prop :=
| Calls_none : forall s, Calls f 0 s [] s
| Calls_more : forall n s a s1 outs s2,
    f s = Ret a s1 -> Calls f n s1 outs s2 -> Calls f (Datatypes.S n) s (a :: outs) s2.
End Calls.

(** The generator [g] resumed once per seed, right after seeding. *)
Inductive Reseeded (G : rng_impl) (E : Context.env) (fuel : nat)
  : gen -> list Z -> list text -> Prop :=
| Reseeded_none : forall g, Reseeded G E fuel g [] []
| Reseeded_more : forall g z zs t g' r ts,
    next G E fuel g (prim_seed G z) = OVal (t, g') r ->
    Reseeded G E fuel g' zs ts -> Reseeded G E fuel g (z :: zs) (t :: ts).

(** [sub] occurs in [s]. *)
Definition Occurs (sub s : text) : Prop := exists a b, s = a ++ sub ++ b.

(** [t] is [s] with the occurrences of [old] replaced by [new]: the text
    between them is kept and contains no further occurrence. *)
Definition Replaced (old new s t : text) : Prop :=
  exists pieces, pieces <> [] /\ s = interleave old pieces /\ t = interleave new pieces /\
    Forall (fun p => ~ Occurs old p) pieces.

(** [t] is made of the items at pairwise different positions [idx]. *)
Definition PickedAt {A} (items : list A) (idx : list nat) (t : list A) : Prop :=
  NoDup idx /\ Forall2 (fun i x => nth_error items i = Some x) idx t.

(** Lexicographic order of position lists of the same length. *)
Fixpoint LexBefore (a b : list nat) : Prop :=
  match a, b with
  | i :: a', j :: b' => i < j \/ (i = j /\ LexBefore a' b')
  | _, _ => False
  end.

(** Multiples of one hundredth. *)
Definition Hundredths (q : Qc) : Prop := exists z : Z, q = Q2Qc (z # 100).
