(** The project's own tests of wildcards and helpers, run on the model with the
    files of its tests.  These are tests, not proofs. *)
From Coq Require Import String NArith ZArith QArith Qcanon Bool List.
From Verif.Model Require Import Str Utils Command Rng Values Context Parser Names Structured TextFile Tree Manager Sampler.
From Verif.Tests Require Import T_Data.
Import ListNotations.
Local Open Scope nat_scope.

(** * tests/wildcard/test_wildcardmanager.py *)

(** tests/wildcard/test_wildcardmanager.py:22 *)
Example test_pathless_wm :
  new_manager None [] = Ok ([], init_state) /\
  snd (get_values_cached readers $"__" [] test_data $"test" init_state) = Ok [].
Proof. same. Qed.

(** tests/wildcard/test_wildcardmanager.py:29 *)
Example test_path :
  new_manager (Some [$"wildcards"]) [] = Ok (test_roots, init_state).
Proof. same. Qed.

(** tests/wildcard/test_wildcardmanager.py:33 *)
Example test_is_wildcard :
  map (fun ww => is_wildcard ww (ww ++ $"test" ++ ww)) wraps = thrice true /\
  map (fun ww => is_wildcard ww $"test") wraps = thrice false.
Proof. same. Qed.

(** tests/wildcard/test_wildcardmanager.py:39 *)
Example test_get_all_values :
  map (fun ww => strings_of ww $"color*") wraps = thrice [$"blue"; $"green"; $"red"; $"yellow"] /\
  map (fun ww => strings_of ww $"flavors/*") wraps = thrice [$"chocolate"; $"coffee"; $"dark chocolate"; $"grapefruit"; $"lemon"; $"strawberry"; $"vanilla"].
Proof. same. Qed.

(** tests/wildcard/test_wildcardmanager.py:66 *)
Example test_get_all_values_sorted_and_deduplicated :
  match snd (get_values_cached readers $"__" [([], [RMap [($"colors", map plain_item [$"red"; $"green"; $"red"; $"blue"; $"yellow"])]])] test_data $"colors*"
      (set_dedup true (set_sort true init_state))) with Ok l => map w_str l | Err _ => [] end =
    [$"blue"; $"green"; $"red"; $"yellow"] /\
  match snd (get_values_cached readers $"__" [([], [RMap [($"colors", map plain_item [$"red"; $"green"; $"red"; $"blue"; $"yellow"])]])] test_data $"colors*"
      (set_dedup true (set_sort false init_state))) with Ok l => map w_str l | Err _ => [] end =
    [$"red"; $"green"; $"blue"; $"yellow"] /\
  match snd (get_values_cached readers $"__" [([], [RMap [($"colors", map plain_item [$"red"; $"green"; $"red"; $"blue"; $"yellow"])]])] test_data $"colors*"
      (set_dedup false (set_sort true init_state))) with Ok l => map w_str l | Err _ => [] end =
    [$"blue"; $"green"; $"red"; $"red"; $"yellow"] /\
  match snd (get_values_cached readers $"__" [([], [RMap [($"colors", map plain_item [$"red"; $"green"; $"red"; $"blue"; $"yellow"])]])] test_data $"colors*"
      (set_dedup false (set_sort false init_state))) with Ok l => map w_str l | Err _ => [] end =
    [$"red"; $"green"; $"red"; $"blue"; $"yellow"].
Proof. same. Qed.

(** tests/wildcard/test_wildcardmanager.py:98 *)
Example test_pantry_expansion :
  map (fun ww => strings_of ww $"flavors/bitter") wraps = thrice [$"coffee"; $"dark chocolate"] /\
  map (fun ww => strings_of ww $"clothing") wraps = thrice [$"Pants"; $"Shoes"; $"T-shirt"] /\
  map (fun ww => strings_of ww $"artists/finnish") wraps = thrice [$"Akseli Gallen-Kallela"; ($"Eero J" ++ [228%N] ++ $"rnefelt"); $"Helene Schjerfbeck"].
Proof. same. Qed.

(** tests/wildcard/test_wildcardmanager.py:118 *)
Example test_get_all_values_with_missing_wildcard :
  map (fun ww => strings_of ww $"__invalid_wildcard__") wraps = thrice [].
Proof. same. Qed.

Definition same_set (a b : list str) : bool :=
  forallb (fun x => existsb (str_eqb x) b) a && forallb (fun x => existsb (str_eqb x) a) b.
Definition child {A} (name : str) (n : node A) : node A :=
  match n with Node _ cs _ => match od_get name cs with Some c => c | None => n end end.
Definition collections {A} (n : node A) : list (str * A) := match n with Node _ _ c => c end.

(** tests/wildcard/test_wildcardmanager.py:122 *)
Example test_hierarchy :
  same_set (map fst (walk_items (from_map (build_map readers test_data test_roots))))
    [$"dupes"; $"animal"; $"animals/all-references"; $"animals/mammals/canine"; $"animals/mammals/feline"; $"animals/mystical"; $"animals/reptiles/lizards"; $"animals/reptiles/snakes"; $"artists/dutch"; $"artists/finnish"; $"artists/moonbase"; $"cars/ford/colors"; $"cars/ford/name"; $"cars/ford/types"; $"cars/john_deere/colors"; $"cars/john_deere/name"; $"cars/john_deere/types"; $"cars/porsche/colors"; $"cars/porsche/name"; $"cars/porsche/types"; $"clothing"; $"colors-cold"; $"colors-warm"; $"drink/beverage"; $"drink/container/cold"; $"drink/container/hot"; $"drink/summer/beverage"; $"drink/summer/north"; $"drink/summer/south"; $"drink/winter/beverage"; $"drink/winter/north"; $"drink/winter/south"; $"drink/temp/cold"; $"drink/temp/hot"; $"flavors/bitter"; $"flavors/sour"; $"flavors/sweet"; $"publicprompts/plush-toy"; $"referencing-colors"; $"shapes"; $"variant"; $"weighted-animals/heavy"; $"weighted-animals/light"; $"wrappers"] = true /\
  same_set (map fst (collections (from_map (build_map readers test_data test_roots)))) [$"animal"; $"clothing"; $"colors-cold"; $"colors-warm"; $"dupes"; $"referencing-colors"; $"shapes"; $"variant"; $"wrappers"] = true /\
  same_set (map fst (collections (child $"animals" (from_map (build_map readers test_data test_roots))))) [$"all-references"; $"mystical"] = true /\
  same_set (map fst (collections (child $"mammals" (child $"animals" (from_map (build_map readers test_data test_roots)))))) [$"canine"; $"feline"] = true /\
  same_set (map fst (collections (child $"reptiles" (child $"animals" (from_map (build_map readers test_data test_roots)))))) [$"lizards"; $"snakes"] = true /\
  same_set (map fst (collections (child $"flavors" (from_map (build_map readers test_data test_roots))))) [$"sour"; $"sweet"; $"bitter"] = true /\
  same_set (map fst (collections (child $"artists" (from_map (build_map readers test_data test_roots))))) [$"dutch"; $"finnish"; $"moonbase"] = true /\
  same_set (walk_full_names (child $"animals" (from_map (build_map readers test_data test_roots)))) [$"animals/all-references"; $"animals/mammals/canine"; $"animals/mammals/feline"; $"animals/mystical"; $"animals/reptiles/lizards"; $"animals/reptiles/snakes"] = true.
Proof. same. Qed.

(** tests/wildcard/test_wildcardmanager.py:213 *)
Example test_backslash_norm :
  map (fun ww => strings_of ww $"flavors\*") wraps = thrice [$"chocolate"; $"coffee"; $"dark chocolate"; $"grapefruit"; $"lemon"; $"strawberry"; $"vanilla"].
Proof. same. Qed.

(** tests/wildcard/test_wildcardmanager.py:225 *)
Example test_directory_traversal :
  map (fun ww => strings_of ww $"../cant_touch_this") wraps = thrice [] /\
  map (fun ww => strings_of ww $"..\cant_touch_this") wraps = thrice [].
Proof. same. Qed.

(** tests/wildcard/test_wildcardmanager.py:231 *)
Example test_clean_wildcard_invalid :
  map (fun ww => clean_wildcard $"foo/../bar" ww) wraps = thrice (Err EValue).
Proof. same. Qed.

(** tests/wildcard/test_wildcardmanager.py:245 *)
Example test_clean_wildcard :
  map (fun ww => clean_wildcard $"foo" ww) wraps = thrice (Ok $"foo") /\
  map (fun ww => clean_wildcard (ww ++ $"foo" ++ ww) ww) wraps = thrice (Ok $"foo") /\
  map (fun ww => clean_wildcard $"foo/bar" ww) wraps = thrice (Ok $"foo/bar") /\
  map (fun ww => clean_wildcard (ww ++ $"foo/bar" ++ ww) ww) wraps = thrice (Ok $"foo/bar") /\
  map (fun ww => clean_wildcard $"foo\\\\\\\bar//" ww) wraps = thrice (Ok $"foo/bar") /\
  map (fun ww => clean_wildcard (ww ++ $"foo\\\\\\\bar//" ++ ww) ww) wraps = thrice (Ok $"foo/bar").
Proof. same. Qed.

(** tests/wildcard/test_wildcardmanager.py:251 *)
Example test_to_wildcard :
  map (fun ww => to_wildcard ww $"foo") wraps = map (fun ww => ww ++ $"foo" ++ ww) wraps /\
  map (fun ww => to_wildcard ww (ww ++ $"foo" ++ ww)) wraps = map (fun ww => ww ++ $"foo" ++ ww) wraps.
Proof. same. Qed.

(** tests/wildcard/test_wildcardmanager.py:321 *)
Example test_read_write_is_idempotent :
  match fs_get [$"wildcards"; $"colors-cold.txt"] test_data with
  | Some (FFile text) =>
      let f := tf_open text in
      let (vs, f1) := tf_get_values f in
      vs = [$"blue"; $"green"] /\ fst (tf_get_values f1) = vs /\
      fst (tf_get_values (tf_write_text (tf_read_text f1) f1)) = vs
  | _ => False
  end.
Proof. same. Qed.

Definition three_roots : root_map :=
  [($"elaimet", [RPath [$"wildcards"; $"animals"]; RMap [($"jannat", [plain_item $"okapi"])]]);
   ($"metasyntactic", [RMap [($"foo", map plain_item [$"bar"; $"baz"]); ($"fnord", map plain_item [$"spam"; $"eggs"])]]);
   ([], [RMap [($"finnish-words", map plain_item [$"kolmivaihevaihtovirtakilowattituntimittari"; ($"t" ++ [246%N] ++ $"rkylempij" ++ [228%N] ++ $"vongahdus")]); ($"elaimet/sopot", [plain_item $"pingviini"])]])].

(** tests/wildcard/test_wildcardmanager.py:331 *)
Example test_wcm_roots :
  same_set (snd (get_collection_names readers three_roots test_data init_state))
    [$"finnish-words"; $"elaimet/jannat"; $"elaimet/all-references"; $"elaimet/mammals/canine"; $"elaimet/mammals/feline"; $"elaimet/mystical"; $"elaimet/reptiles/lizards"; $"elaimet/reptiles/snakes"; $"elaimet/sopot"; $"metasyntactic/fnord"; $"metasyntactic/foo"] = true /\
  same_set (filter (fun s => negb (startswith s $"_")) (match snd (get_values_cached readers $"__" three_roots test_data $"elaimet/*" init_state) with Ok l => map w_str l | Err _ => [] end))
    [$"cat"; $"cobra"; $"dog"; $"gecko"; $"iguana"; $"okapi"; $"pingviini"; $"python"; $"tiger"; $"unicorn"; $"wolf"] = true /\
  same_set (match snd (get_values_cached readers $"__" three_roots test_data $"metasy*" init_state) with Ok l => map w_str l | Err _ => [] end) [$"eggs"; $"spam"; $"baz"; $"bar"] = true.
Proof. same. Qed.

(** tests/wildcard/test_wildcardmanager.py:395 *)
Example test_weight_parsing :
  map (fun ww => match values_of ww $"weighted-animals/*" with
    Ok l => map w_weight (filter (fun i => str_eqb (w_str i) $"cat") l) | Err _ => [] end) wraps = thrice [Q2Qc (3)] /\
  map (fun ww => match values_of ww $"weighted-animals/*" with
    Ok l => map w_weight (filter (fun i => str_eqb (w_str i) $"elephant") l) | Err _ => [] end) wraps = thrice [Q2Qc (50)] /\
  map (fun ww => match values_of ww $"weighted-animals/*" with
    Ok l => map w_weight (filter (fun i => str_eqb (w_str i) $"rhino") l) | Err _ => [] end) wraps = thrice [Q2Qc (41 # 2)].
Proof. same. Qed.

(** tests/wildcard/test_wildcardmanager.py:407 *)
Example test_single_string_in_structured_parsed_as_list :
  map (fun ww => strings_of ww $"artists/moonbase") wraps = thrice [$"john madden"].
Proof. same. Qed.

(** * tests/wildcard/collection/test_text_file.py *)

(** tests/wildcard/collection/test_text_file.py:14 *)
Example test_get_values :
  match fs_get [$"wildcards"; $"dupes.txt"] test_data with Some (FFile text) => fst (tf_get_values (tf_open text)) | _ => [] end =
    [$"red"; $"blue"; $"blue"; $"green"; $"red"].
Proof. same. Qed.

(** * tests/wildcard/test_tree.py *)

(** tests/wildcard/test_tree.py:5 *)
Example test_synthetic_tree :
  same_set (map fst (walk_items (Node [] [($"jane", Node $"jane" [] [($"doe", 3)])] [($"mike", 1); ($"joe", 2)])))
    [$"mike"; $"joe"; $"jane/doe"] = true.
Proof. same. Qed.

(** * tests/wildcard/test_utils.py *)

(** tests/wildcard/test_utils.py:4 *)
Example test_structured_parsing_emits_no_warnings :
  parse_list readers (map JStr [$"a"; $"b"; $"c"]) = Ok (map plain_item [$"a"; $"b"; $"c"]).
Proof. same. Qed.

(** * tests/test_utils.py *)

(** tests/test_utils.py:4 *)
Example test_dedupe :
  dedupe [$"a"; $"b"; $"a"; $"c"; $"b"; $"d"] = [$"a"; $"b"; $"c"; $"d"].
Proof. same. Qed.

(** tests/test_utils.py:9 *)
Example test_remove_prefix :
  removeprefix $"foobar" $"foo" = $"bar" /\
  removeprefix $"foobar" $"bar" = $"foobar".
Proof. same. Qed.

(** tests/test_utils.py:14 *)
Example test_remove_suffix :
  removesuffix $"foobar" $"bar" = $"foo" /\
  removesuffix $"foobar" $"foo" = $"foobar".
Proof. same. Qed.
