(** Whose random numbers a generator uses. *)
From Coq Require Import String NArith ZArith Bool List.
From Verif.Model Require Import Str Command Rng Values Context Sampler Generators Session.
From Verif.Spec Require Import Text.
Import ListNotations.
Local Open Scope nat_scope.

Section Session.
Variable G : rng_impl.
Variable E : env.
Notation R := (rng_state G).

(** A random generator with a source of its own that starts as [state], one
    without, a combinatorial generator; [squash]: whitespace is ignored. *)
Inductive kind :=
| Linked (state : R) (squash : bool)
| Unlinked (squash : bool)
| Listing (squash : bool).

Definition makes (x : call G) : list kind :=
  match x with
  | NewRandom _ true b _ => [Unlinked b]
  | NewRandom (Some z) false b _ => [Linked (prim_seed G z) b]
  | NewRandom None false b os => [Linked os b]
  | NewCombinatorial b => [Listing b]
  | NewJinja true b _ => [Unlinked b; Listing b]
  | NewJinja false b os => [Linked os b; Listing b]
  | Ask _ _ => []
  end.

Definition plain_context (m : method) (squash : bool) : ctx :=
  {| c_method := m; c_ignws := squash; c_vars := []; c_unknown := None; c_busy := [] |}.

Inductive Result {A} : out R A -> (A -> answer) -> answer -> R -> Prop :=
| Res_ret : forall x (f : A -> answer) r, Result (Ret x r) f (f x) r
| Res_exn : forall f e r, Result (Exn e r) f (Raised e) r.

(** What a generator answers when its source is in state [r]. *)
Inductive Replies (fuel : nat) : kind -> request -> R -> answer -> R -> Prop :=
| Re_linked : forall st b q n r a r', n = match q_number q with Some n => n | None => 1 end ->
    Result (random_generate G E fuel (plain_context Random b) (q_template q) n (q_seeds q) r) Prompts a r' ->
    Replies fuel (Linked st b) q r a r'
| Re_unlinked : forall b q n r a r', n = match q_number q with Some n => n | None => 1 end ->
    Result (random_generate G E fuel (plain_context Random b) (q_template q) n (q_seeds q) r) Prompts a r' ->
    Replies fuel (Unlinked b) q r a r'
| Re_listing : forall b q n r a r', n = match q_number q with Some n => n | None => N.to_nat 1000 end ->
    Result (combinatorial_generate G E fuel (S n) (plain_context Combinatorial b) (q_template q) (Some n) r) Prompts a r' ->
    Replies fuel (Listing b) q r a r'.

(** The generators [mine] answer one after the other from one source, whose
    state is [r] at first; [ks] are the generators made so far.  Nothing is
    said about the answers of the others. *)
Inductive Thread (fuel : nat) (mine : nat -> kind -> Prop) : list kind -> R -> list (call G) -> list answer -> Prop :=
| Th_nil : forall ks r, Thread fuel mine ks r [] []
| Th_make : forall ks r x calls a answers, (forall i q, x <> Ask i q) ->
    Thread fuel mine (ks ++ makes x) r calls answers -> Thread fuel mine ks r (x :: calls) (a :: answers)
| Th_other : forall ks r i q k calls a answers, nth_error ks i = Some k -> ~ mine i k ->
    Thread fuel mine ks r calls answers -> Thread fuel mine ks r (Ask i q :: calls) (a :: answers)
| Th_mine : forall ks r i q k a r' calls answers, nth_error ks i = Some k -> mine i k ->
    Replies fuel k q r a r' -> Thread fuel mine ks r' calls answers ->
    Thread fuel mine ks r (Ask i q :: calls) (a :: answers).

(** What generator [i] was asked, and what it answered. *)
Fixpoint dialogue (i : nat) (calls : list (call G)) (answers : list answer) : list (request * answer) :=
  match calls, answers with
  | Ask j q :: calls', a :: answers' =>
      if Nat.eqb i j then (q, a) :: dialogue i calls' answers' else dialogue i calls' answers'
  | _ :: calls', _ :: answers' => dialogue i calls' answers'
  | _, _ => []
  end.
End Session.
Arguments Linked {G}. Arguments Unlinked {G}. Arguments Listing {G}.
