(** src/dynamicprompts/wildcards/tree/{node,tree,build}.py. *)
From Coq Require Import String NArith ZArith QArith Qcanon Bool List.
From Verif.Model Require Import Str Utils Rng Values Context Names Structured TextFile.
Import ListNotations.

(** Python dictionaries with string keys, in insertion order. *)
Fixpoint od_get {A} (k : str) (d : list (str * A)) : option A :=
  match d with
  | [] => None
  | (k', v) :: d' => if str_eqb k k' then Some v else od_get k d'
  end.
(** [d[k] = v]: a present key keeps its place. *)
Fixpoint od_set {A} (k : str) (v : A) (d : list (str * A)) : list (str * A) :=
  match d with
  | [] => [(k, v)]
  | (k', v') :: d' => if str_eqb k k' then (k', v) :: d' else (k', v') :: od_set k v d'
  end.
(** [d.update(pairs)]. *)
Definition od_update {A} (d pairs : list (str * A)) : list (str * A) :=
  fold_left (fun acc kv => od_set (fst kv) (snd kv) acc) pairs d.

(** node.py:10-14 [WildcardTreeNode]. *)
Inductive node (A : Type) :=
| Node (path : str) (children : list (str * node A)) (collections : list (str * A)).
Arguments Node {A}.

(** node.py:23-27 [qualify_name]. *)
Definition qualify_name {A} (n : node A) (name : str) : str :=
  match n with Node path _ _ => combine_name_parts path name end.

(** node.py:16-21 [get_items]. *)
Definition get_items {A} (n : node A) : list (str * A) :=
  match n with
  | Node _ _ collections => map (fun nc => (qualify_name n (fst nc), snd nc)) collections
  end.

(** node.py:36-42 [walk_items]. *)
Fixpoint walk_items {A} (n : node A) : list (str * A) :=
  match n with
  | Node _ children _ =>
      get_items n ++
      (fix go (cs : list (str * node A)) : list (str * A) :=
         match cs with
         | [] => []
         | (_, child) :: cs' => walk_items child ++ go cs'
         end) children
  end.

(** node.py:44-50 [walk_full_names], with [get_full_names] (29-34). *)
Fixpoint walk_full_names {A} (n : node A) : list str :=
  match n with
  | Node _ children collections =>
      map (fun nc => qualify_name n (fst nc)) collections ++
      (fix go (cs : list (str * node A)) : list str :=
         match cs with
         | [] => []
         | (_, child) :: cs' => walk_full_names child ++ go cs'
         end) children
  end.

(** tree.py:31-37, the body of the loop of [from_map]: walk down from [n]
    along [parts], creating missing nodes, and store the collection.  [parts]
    is [path.split("/")], which is never empty. *)
Fixpoint tree_insert {A} (parts : list str) (c : A) (n : node A) : node A :=
  match n with
  | Node path children collections =>
      match parts with
      | [] => n
      | [last] => Node path children (od_set last c collections)
      | part :: parts' =>
          let child := match od_get part children with
                       | Some child => child
                       | None => Node (qualify_name n part) [] []
                       end in
          Node path (od_set part (tree_insert parts' c child) children) collections
      end
  end.

(** tree.py:24-38 [WildcardTree.from_map]: the root node (the [map] of the tree
    is a copy of the argument). *)
Definition from_map {A} (m : list (str * A)) : node A :=
  fold_left (fun root pc => tree_insert (split_char 47 (fst pc)) (snd pc) root)
            m (Node [] [] []).

(** tree.py:11-14 [WildcardTree]. *)
Record wtree (A : Type) := { t_root : node A; t_map : list (str * A) }.
Arguments t_root {A}. Arguments t_map {A}.
(** tree.py:20-22 [update_file_map]. *)
Definition update_file_map {A} (t : wtree A) : wtree A :=
  {| t_root := t_root t; t_map := od_update [] (walk_items (t_root t)) |}.
(** The constructor with tree.py:16-18 [__post_init__]. *)
Definition make_tree {A} (root : node A) (m : list (str * A)) : wtree A :=
  let t := {| t_root := root; t_map := m |} in
  match m with [] => update_file_map t | _ => t end.
(** tree.py:24-38 again, with the tree it returns. *)
Definition tree_of_map {A} (m : list (str * A)) : wtree A := make_tree (from_map m) m.
(** tree.py:40-41 [get_collection] ([None]: KeyError) and 48-49
    [get_collection_names]. *)
Definition get_collection {A} (t : wtree A) (path : str) : option A := od_get path (t_map t).
Definition get_collection_names {A} (t : wtree A) : list str := map fst (t_map t).

(** A file system: files with their (decoded) contents, and directories with
    their entries in the order the operating system lists them.  Symbolic
    links are not modelled. *)
Inductive fsnode :=
| FFile (content : str)
| FDir (entries : list (str * fsnode)).

Fixpoint fs_get (path : list str) (n : fsnode) : option fsnode :=
  match path with
  | [] => Some n
  | p :: path' =>
      match n with
      | FFile _ => None
      | FDir es => match od_get p es with Some c => fs_get path' c | None => None end
      end
  end.

(** Wildcard collections: list.py:10-25 [ListWildcardCollection], and
    [WildcardTextFile] with the path of its file and its cache. *)
Inductive coll :=
| CList (entries : list witem)
| CText (path : list str) (cache : option (list str)).

(** [PurePath.suffix] and the name without it, for the last component:
    text before the last dot and from it on, unless the dot is first or last. *)
Fixpoint rfind_dot (s : str) : option (str * str) :=
  match s with
  | [] => None
  | c :: s' =>
      match rfind_dot s' with
      | Some (a, b) => Some (c :: a, b)
      | None => if N.eqb c 46 then Some ([], s) else None
      end
  end.
Definition split_suffix (name : str) : str * str :=
  match rfind_dot name with
  | Some (c :: a, d :: e :: b) => (c :: a, d :: e :: b)
  | _ => (name, [])
  end.

(** [with_suffix("")] of a relative path. *)
Fixpoint drop_suffix (comps : list str) : list str :=
  match comps with
  | [] => []
  | [x] => [fst (split_suffix x)]
  | x :: comps' => x :: drop_suffix comps'
  end.

(** build.py:21-25 [_get_wildcard_file_name_from_path]; [rel] is the path
    relative to the root. *)
Definition file_name_from_path (rel : list str) : str :=
  match rel with
  | [] => []
  | _ => join $"/" (drop_suffix rel)
  end.

Section Build.
Variable P : pylib.

(** build.py:28-55 [_get_wildcard_collections_from_path]; the file is
    [dir ++ [filename]] below the root.  Read errors of structured files are
    caught there and give nothing. *)
Definition collections_from_path (root dir : list str) (filename content : str)
    : list (str * coll) :=
  let suffix := snd (split_suffix filename) in
  let structured (data : option jval) :=
    let prefix := file_name_from_path dir in
    let prefix := match prefix with [] => [] | _ => prefix ++ $"/" end in
    match data with
    | None => []
    | Some d =>
        map (fun nc => (prefix ++ fst nc, CList (snd nc)))
            (parse_data P (fst (split_suffix filename)) d)
    end in
  if str_eqb suffix $".txt" then
    [(file_name_from_path (dir ++ [filename]), CText (root ++ dir ++ [filename]) None)]
  else if str_eqb suffix $".json" then structured (py_json P content)
  else if str_eqb suffix $".yaml" then structured (py_yaml P content)
  else [].

(** build.py:66-67 [os.walk], without directories whose name starts with a
    dot: the files found, as directory below the root, name and content. *)
Fixpoint os_walk (dir : list str) (n : fsnode) : list (list str * str * str) :=
  match n with
  | FFile _ => []
  | FDir es =>
      flat_map (fun e => match snd e with
                         | FFile content => [(dir, fst e, content)]
                         | FDir _ => []
                         end) es ++
      (fix go (es : list (str * fsnode)) : list (list str * str * str) :=
         match es with
         | [] => []
         | (name, child) :: es' =>
             (if startswith name $"." then [] else os_walk (dir ++ [name]) child) ++ go es'
         end) es
  end.

(** build.py:58-75 [build_tree_from_path]: the map of the tree. *)
Definition build_map_from_path (root : list str) (n : fsnode) : list (str * coll) :=
  fold_left (fun acc f =>
               match f with
               | (dir, filename, content) =>
                   od_update acc (collections_from_path root dir filename content)
               end) (os_walk [] n) [].

(** Root items, types.py:11-13: the path of a directory, or a mapping from
    names to collections.  A list of strings is given by the items
    [_collectionify] (build.py:88-91) makes of it; mappings that contain
    [WildcardTextFile] objects are not modelled. *)
Inductive root_item :=
| RPath (path : list str)
| RMap (m : list (str * list witem)).
Definition root_map := list (str * list root_item).

(** build.py:94-100 [_mappingify_item]. *)
Definition mappingify (fs : fsnode) (item : root_item) : list (str * coll) :=
  match item with
  | RPath p =>
      match fs_get p fs with
      | Some (FDir es) => build_map_from_path p (FDir es)
      | _ => []
      end
  | RMap m => map (fun nc => (fst nc, CList (snd nc))) m
  end.

(** build.py:78-85 [build_tree_from_root_map]: the map of the tree. *)
Definition build_map (fs : fsnode) (roots : root_map) : list (str * coll) :=
  fold_left (fun acc ri =>
    fold_left (fun acc item =>
      fold_left (fun acc nc => od_set (combine_name_parts (fst ri) (fst nc)) (snd nc) acc)
        (mappingify fs item) acc)
      (snd ri) acc)
    roots [].
End Build.
