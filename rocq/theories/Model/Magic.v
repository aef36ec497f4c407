(** generators/magicprompt.py:77-164: the text generation pipeline that the
    instances of [MagicPromptGenerator] share through class attributes; the
    import of magicprompt.py:65-74 [_import_transformers] is taken to succeed. *)
From Coq Require Import String NArith Bool List.
From Verif.Model Require Import Str Rng Command Context.
Import ListNotations.
Local Open Scope nat_scope.

Section Magic.
(** What can be given as [device]. *)
Variable device : Type.

(** A pipeline (96-102): its model and device.  [p_serial] tells apart
    pipelines made by different loads. *)
Record pipeline := { p_model : str; p_device : device; p_serial : nat }.

(** The class attributes [_model_name] and [generator] (78-81), and the number
    of loads begun so far.  [tokenizer] and [model] are left out: nothing reads
    them. *)
Record registry := { k_name : option str; k_pipeline : option pipeline; k_loads : nat }.

(** An instance: [_device] and [_generator]. *)
Record magic := { g_device : device; g_pipeline : option pipeline }.

(** 85-105 [_load_pipeline]; [loads] says whether transformers can load the
    model this time. *)
Definition load_pipeline (dev : device) (name : str) (loads : bool) (k : registry)
    : res pipeline * registry :=
  match k_pipeline k with
  | Some p => (Ok p, k)
  | None =>
      let k' := {| k_name := k_name k; k_pipeline := k_pipeline k; k_loads := S (k_loads k) |} in
      if loads then
        let p := {| p_model := name; p_device := dev; p_serial := k_loads k |} in
        (Ok p, {| k_name := Some name; k_pipeline := Some p; k_loads := k_loads k' |})
      else (Err EOs, k')
  end.

(** 157-164 [set_model]: the new value of [self._generator]. *)
Definition set_model (dev : device) (name : str) (loads : bool) (k : registry)
    : res (option pipeline) * registry :=
  if match k_name k with Some n => str_eqb name n | None => false end
  then (Ok (k_pipeline k), k)
  else
    match load_pipeline dev name loads
            {| k_name := Some name; k_pipeline := None; k_loads := k_loads k |} with
    | (Ok p, k') => (Ok (Some p), k')
    | (Err e, k') => (Err e, k')
    end.

(** The state of the process: the class and the instances. *)
Record magics := { g_class : registry; g_all : list magic }.
Definition no_magics : magics :=
  {| g_class := {| k_name := None; k_pipeline := None; k_loads := 0 |}; g_all := [] |}.

(** [MagicPromptGenerator(model_name=name, device=dev, ...)] with [arguments]
    telling whether the rest of [__init__] (134-150) accepts its arguments,
    and [self.set_model(name)]. *)
Inductive magic_call :=
| MakeMagic (name : str) (dev : device) (loads arguments : bool)
| SetModel (i : nat) (name : str) (loads : bool).

Inductive magic_answer := MadeMagic (i : nat) | ModelSet | MagicRaised (e : exn).

Fixpoint set_magic (i : nat) (g : magic) (l : list magic) : list magic :=
  match l, i with
  | [], _ => []
  | _ :: l', O => g :: l'
  | y :: l', S i' => y :: set_magic i' g l'
  end.

(** 107-150 [__init__] and 157-164; [None] when there is no instance [i].  An
    instance whose [__init__] raised is lost. *)
Definition magic_step (x : magic_call) (s : magics) : option (magic_answer * magics) :=
  match x with
  | MakeMagic name dev loads arguments =>
      match set_model dev name loads (g_class s) with
      | (Err e, k) => Some (MagicRaised e, {| g_class := k; g_all := g_all s |})
      | (Ok p, k) =>
          if arguments then
            Some (MadeMagic (length (g_all s)),
                  {| g_class := k; g_all := g_all s ++ [{| g_device := dev; g_pipeline := p |}] |})
          else Some (MagicRaised EValue, {| g_class := k; g_all := g_all s |})
      end
  | SetModel i name loads =>
      match nth_error (g_all s) i with
      | None => None
      | Some g =>
          match set_model (g_device g) name loads (g_class s) with
          | (Err e, k) => Some (MagicRaised e, {| g_class := k; g_all := g_all s |})
          | (Ok p, k) =>
              Some (ModelSet,
                    {| g_class := k;
                       g_all := set_magic i {| g_device := g_device g; g_pipeline := p |} (g_all s) |})
          end
      end
  end.

(** A run, with the answers. *)
Fixpoint magic_run (xs : list magic_call) (s : magics) : option (list magic_answer * magics) :=
  match xs with
  | [] => Some ([], s)
  | x :: xs' =>
      match magic_step x s with
      | None => None
      | Some (a, s) =>
          match magic_run xs' s with
          | None => None
          | Some (l, s) => Some (a :: l, s)
          end
      end
  end.

(** 152-155 [model_name]: the attribute is only ever set on the class.  [None]
    and the empty name: AssertionError. *)
Definition model_name (s : magics) (i : nat) : option str :=
  match k_name (g_class s) with Some (c :: n) => Some (c :: n) | _ => None end.

(** 215: the pipeline that [generate] calls; calling [None] is a TypeError. *)
Definition used_pipeline (s : magics) (i : nat) : res pipeline :=
  match nth_error (g_all s) i with
  | Some g => match g_pipeline g with Some p => Ok p | None => Err EType end
  | None => Err EIndex
  end.
End Magic.
Arguments MakeMagic {device}. Arguments SetModel {device}.
Arguments Build_pipeline {device}. Arguments p_model {device}. Arguments p_device {device}.
Arguments p_serial {device}. Arguments no_magics {device}. Arguments magic_run {device}.
Arguments used_pipeline {device}. Arguments model_name {device}. Arguments g_all {device}.
Arguments k_name {device}. Arguments k_pipeline {device}. Arguments k_loads {device}.
Arguments g_class {device}. Arguments g_pipeline {device}. Arguments g_device {device}.
Arguments magic_step {device}. Arguments set_model {device}.
