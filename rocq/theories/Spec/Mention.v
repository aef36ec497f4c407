(** What a template mentions.  From Model/ only data types and the lookup of
    variables and wildcards are used. *)
From Coq Require Import NArith ZArith QArith Qcanon Bool Arith List.
From Verif.Model Require Import Command Values Context.
From Verif.Spec Require Import Text Lang.
Import ListNotations.
Local Open Scope nat_scope.

Section Mention.
Variable E : env.
(** The variables, and the names of wildcards, that may be used. *)
Variables V W : text -> Prop.

(** [Within cmd]: [cmd] uses no other variables and wildcards, in its parts,
    default values, paths and the variables of wildcards.  What the values of
    its wildcards use is not asked here. *)
Inductive Within : command -> Prop :=
| Within_text : forall t m, Within (Lit t m)
| Within_sequence : forall cs sep m, Forall Within cs -> Within (Seq cs sep m)
| Within_variants : forall os lo hi sep m, Forall (fun o => Within (fst o)) os ->
    Within (Var os lo hi sep m)
| Within_wildcard : forall w m vars,
    (forall c, Reads E w c -> Within c) -> (forall sc name, Path E sc w name -> W name) ->
    Forall (fun kv => Within (snd kv)) vars -> Within (Wild w m vars)
| Within_assign : forall x c i o, V x -> Within c -> Within (Assign x c i o)
| Within_access : forall x d, V x -> (forall c, d = Some c -> Within c) -> Within (Access x d)
| Within_wrap : forall w i m, Within w -> Within i -> Within (Wrap w i m).

(** The values of the wildcards in [W], if they are templates, are within. *)
Definition ValuesWithin : Prop :=
  forall name i c, W name -> In i (env_lookup E name) -> env_parse E (w_content i) = Ok c -> Within c.

(** Contexts that differ in nothing but other variables: their values, and
    whether they are being evaluated. *)
Definition AlikeIn (c1 c2 : ctx) : Prop :=
  c_method c1 = c_method c2 /\ c_ignws c1 = c_ignws c2 /\
  c_unknown c1 = c_unknown c2 /\ (forall x, V x -> (In x (c_busy c1) <-> In x (c_busy c2))) /\
  (forall u, c_unknown c1 = Some u -> Within u) /\
  forall x, V x -> sc_var (scope_of c1) x = sc_var (scope_of c2) x /\
    forall v, sc_var (scope_of c1) x = Some v -> Within v.
End Mention.

(** Environments that differ in nothing but the values of other wildcards. *)
Definition AlikeOn (W : text -> Prop) (E1 E2 : env) : Prop :=
  env_wrap E1 = env_wrap E2 /\ (forall s, env_parse E1 s = env_parse E2 s) /\
  forall name, W name -> env_lookup E1 name = env_lookup E2 name.
