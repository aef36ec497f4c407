(** What the wildcard tree and its construction mean.  From Model/ only data
    types are used. *)
From Coq Require Import NArith Bool Arith List.
From Verif.Model Require Import Values Structured Tree.
From Verif.Spec Require Import Text Names.
Import ListNotations.
Local Open Scope nat_scope.

(** No empty path component: no slash at the ends, no two slashes in a row. *)
Definition NoEmptyComponent (n : text) : Prop :=
  ~ Contains n [slash; slash] /\ (forall t, n <> slash :: t) /\ (forall t, n <> t ++ [slash]).

(** [c] is what the last definition of [name] in [defs] says. *)
Definition LastDef {A} (defs : list (text * A)) (name : text) (c : A) : Prop :=
  exists d1 d2, defs = d1 ++ (name, c) :: d2 /\ ~ In name (map fst d2).

(** [r] is [s] without slashes at the ends. *)
Definition SlashTrimmed (s r : text) : Prop :=
  exists a b, s = a ++ r ++ b /\ Forall (eq slash) a /\ Forall (eq slash) b /\
    (forall t, r <> slash :: t) /\ (forall t, r <> t ++ [slash]).

(** Files of a file system. *)
Inductive FileAt : fsnode -> list text -> text -> Prop :=
| FileAt_here : forall c, FileAt (FFile c) [] c
| FileAt_down : forall es name n path c,
    In (name, n) es -> FileAt n path c -> FileAt (FDir es) (name :: path) c.

Inductive DirAt : fsnode -> list text -> list (text * fsnode) -> Prop :=
| DirAt_here : forall es, DirAt (FDir es) [] es
| DirAt_down : forall es name n path es',
    In (name, n) es -> DirAt n path es' -> DirAt (FDir es) (name :: path) es'.

(** Every directory has each name at most once. *)
Inductive UniqueNames : fsnode -> Prop :=
| UniqueNames_file : forall c, UniqueNames (FFile c)
| UniqueNames_dir : forall es, NoDup (map fst es) ->
    (forall name n, In (name, n) es -> UniqueNames n) -> UniqueNames (FDir es).

(** Directories that are not entered. *)
Definition Hidden (name : text) : Prop := exists t, name = 46%N :: t.

(** [name] is [stem] plus a file name extension (with its dot). *)
Definition HasSuffix (name stem suffix : text) : Prop :=
  name = stem ++ suffix /\ stem <> [] /\
  exists ext, suffix = 46%N :: ext /\ ext <> [] /\ ~ In 46%N ext.

(** All definitions made by a root map, in order: prefix, name, collection.
    [item_defs] says what one root item defines. *)
Definition Definitions (item_defs : root_item -> list (text * coll)) (roots : root_map)
    : list (text * text * coll) :=
  flat_map (fun root => flat_map (fun item =>
    map (fun nc => (fst root, fst nc, snd nc)) (item_defs item)) (snd root)) roots.

(** [c] is the last collection defined under a prefix and name that make
    [name]. *)
Definition LastNamed (defs : list (text * text * coll)) (name : text) (c : coll) : Prop :=
  exists d1 root n d2, defs = d1 ++ (root, n, c) :: d2 /\
    SlashTrimmed (root ++ [slash] ++ n) name /\
    forall root' n' c', In (root', n', c') d2 -> ~ SlashTrimmed (root' ++ [slash] ++ n') name.

(** A file below a directory that is not inside a hidden directory. *)
Definition VisibleFile (es : list (text * fsnode)) (dir : list text) (file content : text) : Prop :=
  FileAt (FDir es) (dir ++ [file]) content /\ Forall (fun d => ~ Hidden d) dir.
