(** How many prompts a combinatorial run gives.  No generator occurs here. *)
From Coq Require Import NArith ZArith QArith Qcanon Bool Arith List.
From Verif.Model Require Import Command.
From Verif.Spec Require Import Text Comb.
Import ListNotations.
Local Open Scope nat_scope.

(** Each member with the others. *)
Fixpoint picks {A} (l : list A) : list (A * list A) :=
  match l with
  | [] => []
  | x :: r => (x, r) :: map (fun p => (fst p, x :: snd p)) (picks r)
  end.

Definition sum (ns : list nat) : nat := fold_right Nat.add 0 ns.
Definition prod (ns : list nat) : nat := fold_right Nat.mul 1 ns.

(** The number of ways to take [k] of several options one after the other, no
    option twice, and a text of each, if [ns] are the numbers of their texts. *)
Fixpoint ways (ns : list nat) (k : nat) : nat :=
  match k with
  | O => 1
  | S k' => sum (map (fun p => fst p * ways (snd p) k') (picks ns))
  end.

(** The sizes from [lo] to [hi], at most [n]: if [lo] is above [n], all [n]. *)
Definition between (n lo hi : nat) : list nat :=
  seq (Nat.min lo n) (S (Nat.min hi n) - Nat.min lo n).

(** Flat templates: texts, and variants whose options are different texts. *)
Inductive part :=
| Text_part (t : text)
| Choice_part (options : list (text * Qc)) (lo hi : nat) (sep : text).

Definition part_command (p : part) : command :=
  match p with
  | Text_part t => Lit t None
  | Choice_part os lo hi sep =>
      Var (map (fun o => (Lit (fst o) None, snd o)) os) (Z.of_nat lo) (Z.of_nat hi) sep None
  end.
Definition FlatPart (p : part) : Prop :=
  match p with
  | Text_part _ => True
  | Choice_part os lo hi _ => os <> [] /\ NoDup (map fst os) /\ lo <= hi
  end.

(** n!/(n-k)! for each size k, added up. *)
Definition part_count (p : part) : nat :=
  match p with
  | Text_part _ => 1
  | Choice_part os lo hi _ => sum (map (falling (length os)) (between (length os) lo hi))
  end.
