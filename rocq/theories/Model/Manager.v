(** src/dynamicprompts/wildcards/wildcard_manager.py: the state of a
    [WildcardManager] and its operations. *)
From Coq Require Import String NArith ZArith QArith Qcanon Bool Arith List.
From Verif.Model Require Import Str Utils Rng Values Context Names Structured TextFile Tree.
Import ListNotations.
Local Open Scope nat_scope.

(** [fs_write path text]: [Path.write_text]; [None]: OSError (no such
    directory, or the path is a directory). *)
Fixpoint fs_write (path : list str) (text : str) (n : fsnode) : option fsnode :=
  match path, n with
  | [], FFile _ => Some (FFile text)
  | [], FDir _ => None
  | _ :: _, FFile _ => None
  | p :: path', FDir es =>
      match od_get p es with
      | Some c =>
          match fs_write path' text c with
          | Some c' => Some (FDir (od_set p c' es))
          | None => None
          end
      | None =>
          match path' with
          | [] => Some (FDir (od_set p (FFile text) es))
          | _ => None
          end
      end
  end.

(** wildcard_manager.py:26-50: the mutable fields. [m_tree] is the map of the
    tree; the nodes are not used by the manager. *)
Record mstate := {
  m_tree : option (list (str * coll));
  m_cache : list (str * list witem);
  m_sort : bool;
  m_dedup : bool;
  m_shuffle : bool
}.

(** The manager as [__init__] leaves it. *)
Definition init_state : mstate :=
  {| m_tree := None; m_cache := []; m_sort := true; m_dedup := true; m_shuffle := false |}.

(** [__init__], 26-50: the root map. [None]: ValueError for two roots. *)
Definition init_roots (path : option (list str)) (rm : root_map) : option root_map :=
  match rm, path with
  | _ :: _, Some _ => None
  | _ :: _, None => Some rm
  | [], Some p => Some [([], [RPath p])]
  | [], None => Some []
  end.

(** wildcard_manager.py:26-50 [WildcardManager(path, root_map=...)]: the root
    map and the fields. *)
Definition new_manager (path : option (list str)) (rm : root_map) : res (root_map * mstate) :=
  match init_roots path rm with
  | None => Err EValue
  | Some roots => Ok (roots, init_state)
  end.

(** [dict.fromkeys(items)] as a list. *)
Fixpoint fromkeys_aux (seen items : list witem) : list witem :=
  match items with
  | [] => []
  | i :: rest =>
      if existsb (witem_eqb i) seen then fromkeys_aux seen rest
      else i :: fromkeys_aux (i :: seen) rest
  end.
Definition fromkeys (items : list witem) : list witem := fromkeys_aux [] items.

(** [sorted(items, key=str)]: a stable sort. *)
Fixpoint insert_sorted (i : witem) (l : list witem) : list witem :=
  match l with
  | [] => [i]
  | j :: l' => if str_leb (w_str i) (w_str j) then i :: l else j :: insert_sorted i l'
  end.
Fixpoint sort_items (l : list witem) : list witem :=
  match l with
  | [] => []
  | i :: l' => insert_sorted i (sort_items l')
  end.

Definition plain_item (s : str) : witem := {| w_content := s; w_weight_opt := None |}.

(** [collection.get_values()], collection/base.py:15-19: text_file.py:27-34 and
    list.py:24-25 (text_file.py:24-25 is only for printing); also the
    collection with its cache filled. *)
Definition coll_values (fs : fsnode) (c : coll) : res (list witem * coll) :=
  match c with
  | CList entries => Ok (entries, c)
  | CText path (Some cache) => Ok (map plain_item cache, c)
  | CText path None =>
      match fs_get path fs with
      | Some (FFile content) =>
          let lines := text_values content in
          Ok (map plain_item lines, CText path (Some lines))
      | _ => Err EOs
      end
  end.

(** tree.py:43-46 [match_collections] and the loop that extends [values]
    (wildcard_manager.py:178-179): the map with filled caches and the values. *)
Fixpoint gather (fs : fsnode) (pattern : str) (m : list (str * coll))
    : list (str * coll) * res (list witem) :=
  match m with
  | [] => ([], Ok [])
  | (name, c) :: m' =>
      if fnmatch name pattern then
        match coll_values fs c with
        | Err e => (m, Err e)
        | Ok (vs, c') =>
            let (m1, r) := gather fs pattern m' in
            ((name, c') :: m1, match r with Ok l => Ok (vs ++ l) | Err e => Err e end)
        end
      else let (m1, r) := gather fs pattern m' in ((name, c) :: m1, r)
  end.

Section Manager.
Variable P : pylib.
Variable G : rng_impl.
Variable ww : str.
Variable roots : root_map.

(** wildcard_manager.py:108-117 [tree]. *)
Definition get_tree (fs : fsnode) (st : mstate) : list (str * coll) :=
  match m_tree st with
  | Some t => t
  | None => build_map P fs roots
  end.

Definition set_tree (t : list (str * coll)) (st : mstate) : mstate :=
  {| m_tree := Some t; m_cache := m_cache st; m_sort := m_sort st;
     m_dedup := m_dedup st; m_shuffle := m_shuffle st |}.

(** wildcard_manager.py:126-135 [match_collections] and the values of what it
    returns.  An invalid wildcard leaves the tree unbuilt. *)
Definition matching_values (fs : fsnode) (wildcard : str) (st : mstate)
    : mstate * res (list witem) :=
  match clean_wildcard wildcard ww with
  | Err _ => (st, Ok [])
  | Ok pattern =>
      let (t, r) := gather fs pattern (get_tree fs st) in
      (set_tree t st, r)
  end.

(** wildcard_manager.py:119-124 [clear_cache]. *)
Definition clear_cache (st : mstate) : mstate :=
  {| m_tree := None; m_cache := []; m_sort := m_sort st;
     m_dedup := m_dedup st; m_shuffle := m_shuffle st |}.

(** wildcard_manager.py:204 *)
Definition cache_limit : nat := 100.

(** wildcard_manager.py:194-209: flags, and storing in the cache. *)
Definition finish_values (wildcard : str) (values : list witem) (st : mstate)
    : mstate * list witem :=
  let ws := if m_dedup st then fromkeys values else values in
  let ws := if m_sort st && negb (m_shuffle st) then sort_items ws else ws in
  let cache := if Nat.ltb cache_limit (length (m_cache st)) then [] else m_cache st in
  ({| m_tree := m_tree st; m_cache := od_set wildcard ws cache; m_sort := m_sort st;
      m_dedup := m_dedup st; m_shuffle := m_shuffle st |}, ws).

(** wildcard_manager.py:170-211 [_get_values]. *)
Definition get_values_cached (fs : fsnode) (wildcard : str) (st : mstate)
    : mstate * res (list witem) :=
  match od_get wildcard (m_cache st) with
  | Some vs => (st, Ok vs)
  | None =>
      let (st1, r1) := matching_values fs wildcard st in
      match r1 with
      | Err e => (st1, Err e)
      | Ok (v :: vs) => let (st', ws) := finish_values wildcard (v :: vs) st1 in (st', Ok ws)
      | Ok [] =>
          if startswith wildcard $"**" then
            let (st', ws) := finish_values wildcard [] st1 in (st', Ok ws)
          else
            let (st2, r2) := matching_values fs ($"**/" ++ wildcard) st1 in
            match r2 with
            | Err e => (st2, Err e)
            | Ok vs => let (st', ws) := finish_values wildcard vs st2 in (st', Ok ws)
            end
      end
  end.

(** [x[i], x[j] = x[j], x[i]] *)
Fixpoint set_nth {A} (i : nat) (x : A) (l : list A) : list A :=
  match l, i with
  | [], _ => []
  | _ :: l', O => x :: l'
  | y :: l', S i' => y :: set_nth i' x l'
  end.
Definition swap {A} (i j : nat) (l : list A) : list A :=
  match nth_error l i, nth_error l j with
  | Some a, Some b => set_nth j a (set_nth i b l)
  | _, _ => l
  end.

(** [random.shuffle]: [for i in reversed(range(1, len(x)))]; [i] is the number
    of rounds left. *)
Fixpoint shuffle_from {A} (i : nat) (l : list A) (r : rng_state G) : list A * rng_state G :=
  match i with
  | O => (l, r)
  | S i' =>
      let (j, r') := randbelow G (S i) r in
      shuffle_from i' (swap i j l) r'
  end.

(** values.py:77-83 [shuffled], with the module-level generator of [random]. *)
Definition shuffled {A} (l : list A) (r : rng_state G) : list A * rng_state G :=
  shuffle_from (length l - 1) l r.

(** wildcard_manager.py:159-168 [get_values]. *)
Definition get_values (fs : fsnode) (wildcard : str) (st : mstate) (r : rng_state G)
    : mstate * res (list witem) * rng_state G :=
  let (st', v) := get_values_cached fs wildcard st in
  match v with
  | Err e => (st', Err e, r)
  | Ok vs =>
      if m_shuffle st' then
        let (vs', r') := shuffled vs r in (st', Ok vs', r')
      else (st', Ok vs, r)
  end.

(** wildcard_manager.py:137-142 [get_file]: the name it is registered under,
    and the collection. *)
Definition get_file (fs : fsnode) (name : str) (st : mstate) : mstate * res (str * coll) :=
  match clean_wildcard name ww with
  | Err e => (st, Err e)
  | Ok n =>
      let t := get_tree fs st in
      (set_tree t st, match od_get n t with Some c => Ok (n, c) | None => Err EKey end)
  end.

(** wildcard_manager.py:144-148 [get_collection_names]. *)
Definition get_collection_names (fs : fsnode) (st : mstate) : mstate * list str :=
  let t := get_tree fs st in (set_tree t st, map fst t).

(** wildcard_manager.py:59-75, the setters (the getters of
    wildcard_manager.py:52-57,76-89 read the fields), and the plain attribute
    [shuffle_wildcards]. *)
Definition set_sort (b : bool) (st : mstate) : mstate :=
  clear_cache {| m_tree := m_tree st; m_cache := m_cache st; m_sort := b;
                 m_dedup := m_dedup st; m_shuffle := m_shuffle st |}.
Definition set_dedup (b : bool) (st : mstate) : mstate :=
  clear_cache {| m_tree := m_tree st; m_cache := m_cache st; m_sort := m_sort st;
                 m_dedup := b; m_shuffle := m_shuffle st |}.
Definition set_shuffle (b : bool) (st : mstate) : mstate :=
  {| m_tree := m_tree st; m_cache := m_cache st; m_sort := m_sort st;
     m_dedup := m_dedup st; m_shuffle := b |}.

(** [get_file(name).write_text(text)], text_file.py:42-47; list collections
    have no such method. *)
Definition write_file (fs : fsnode) (name text : str) (st : mstate)
    : mstate * fsnode * res unit :=
  let (st1, r) := get_file fs name st in
  match r with
  | Err e => (st1, fs, Err e)
  | Ok (_, CList _) => (st1, fs, Err EAttribute)
  | Ok (n, CText path _) =>
      match fs_write path text fs with
      | None => (st1, fs, Err EOs)
      | Some fs' =>
          (set_tree (od_set n (CText path None) (get_tree fs st1)) st1, fs', Ok tt)
      end
  end.

(** Operations of a client, and a change of the file system by somebody else. *)
Inductive mop :=
| OGet (wildcard : str)
| OFile (name : str)
| ONames
| OSort (b : bool)
| ODedup (b : bool)
| OShuffle (b : bool)
| OClear
| OWrite (name text : str)
| OExternal (fs : fsnode).

Record world := { w_fs : fsnode; w_man : mstate; w_rng : rng_state G }.

Definition step (o : mop) (w : world) : world :=
  match o with
  | OGet wc =>
      match get_values (w_fs w) wc (w_man w) (w_rng w) with
      | (st, _, r) => {| w_fs := w_fs w; w_man := st; w_rng := r |}
      end
  | OFile n => {| w_fs := w_fs w; w_man := fst (get_file (w_fs w) n (w_man w)); w_rng := w_rng w |}
  | ONames => {| w_fs := w_fs w; w_man := fst (get_collection_names (w_fs w) (w_man w));
                 w_rng := w_rng w |}
  | OSort b => {| w_fs := w_fs w; w_man := set_sort b (w_man w); w_rng := w_rng w |}
  | ODedup b => {| w_fs := w_fs w; w_man := set_dedup b (w_man w); w_rng := w_rng w |}
  | OShuffle b => {| w_fs := w_fs w; w_man := set_shuffle b (w_man w); w_rng := w_rng w |}
  | OClear => {| w_fs := w_fs w; w_man := clear_cache (w_man w); w_rng := w_rng w |}
  | OWrite n t =>
      match write_file (w_fs w) n t (w_man w) with
      | (st, fs, _) => {| w_fs := fs; w_man := st; w_rng := w_rng w |}
      end
  | OExternal fs => {| w_fs := fs; w_man := w_man w; w_rng := w_rng w |}
  end.

Definition run_ops (ops : list mop) (w : world) : world :=
  fold_left (fun w o => step o w) ops w.

(** The answer of [get_values] in a given world. *)
Definition lookup (wc : str) (w : world) : res (list witem) :=
  match get_values (w_fs w) wc (w_man w) (w_rng w) with (_, v, _) => v end.
End Manager.
