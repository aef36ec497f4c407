(** The files the project's own tests read, tests/test_data, and the contexts
    they sample in, tests/conftest.py.  Used by the other files of this directory. *)
From Coq Require Import String NArith ZArith QArith Qcanon Bool List.
From Verif.Model Require Import Str Utils Command Rng Values Context Parser Names Structured Tree Manager Sampler.
From Verif.Spec Require Import StreamRng.
Import ListNotations.
Local Open Scope nat_scope.

(** Both sides compute to the same thing, up to the proofs kept in weights. *)
Ltac same := repeat split; vm_compute; try reflexivity;
  repeat (reflexivity || (apply Qc_is_canon; vm_compute; reflexivity) || f_equal).

(** Letters and digits that occur in the tests. *)
Definition letters (c : N) : bool :=
  (N.leb 48 c && N.leb c 57) || (N.leb 65 c && N.leb c 90) || (N.leb 97 c && N.leb c 122) ||
  N.eqb c 228 || N.eqb c 333.

(** The wildcards directory.  Structured files are represented by their names,
    which [readers] turns into the data written in them. *)
Definition test_data : fsnode := FDir [($"cant_touch_this.txt", FFile $"oh no"); ($"wildcards", FDir [
    ($"animal.txt", FFile ($"__animals/${genus:*}/*__" ++ [10%N]));
    ($"animals", FDir [
    ($"all-references.txt", FFile ($"# These refer to files within this directory." ++ [10%N] ++ [10%N] ++ $"__mammals/canine__" ++ [10%N] ++ $"__mammals/feline__" ++ [10%N] ++ $"__mystical__" ++ [10%N]));
    ($"mammals", FDir [
    ($"canine.txt", FFile ($"dog" ++ [10%N] ++ $"wolf" ++ [10%N]));
    ($"feline.txt", FFile ($"cat" ++ [10%N] ++ $"tiger" ++ [10%N]))]);
    ($"mystical.txt", FFile ($"unicorn" ++ [10%N]));
    ($"reptiles", FDir [
    ($"lizards.yaml", FFile $"lizards.yaml");
    ($"snakes.txt", FFile ($"python" ++ [10%N] ++ $"cobra" ++ [10%N]))])]);
    ($"cars.yaml", FFile $"cars.yaml");
    ($"colors-cold.txt", FFile ($"# comment" ++ [10%N] ++ $"blue" ++ [10%N] ++ $"green" ++ [10%N]));
    ($"colors-warm.txt", FFile ($"# comment" ++ [10%N] ++ $"red" ++ [10%N] ++ $"yellow" ++ [10%N]));
    ($"drink.yaml", FFile $"drink.yaml");
    ($"dupes.txt", FFile ($"red" ++ [10%N] ++ $"blue" ++ [10%N] ++ $"blue" ++ [10%N] ++ $"green" ++ [10%N] ++ $"red" ++ [10%N]));
    ($"flavors", FDir [
    ($"pantry.json", FFile $"pantry.json");
    ($"sour.txt", FFile ($"grapefruit" ++ [10%N] ++ $"lemon" ++ [10%N]));
    ($"sweet.txt", FFile ($"# comment" ++ [10%N] ++ $"vanilla" ++ [10%N] ++ $"chocolate" ++ [10%N] ++ $"strawberry" ++ [10%N]))]);
    ($"invalid.yaml", FFile $"invalid.yaml");
    ($"pantry.yaml", FFile $"pantry.yaml");
    ($"publicprompts", FDir [
    ($"plush-toy.yaml", FFile $"plush-toy.yaml")]);
    ($"referencing-colors.txt", FFile ($"__colors-warm__" ++ [10%N] ++ $"__colors-cold__" ++ [10%N]));
    ($"shapes.yaml", FFile $"shapes.yaml");
    ($"variant.txt", FFile ($"{red|green}" ++ [10%N]));
    ($"weighted.yaml", FFile $"weighted.yaml");
    ($"wrappers.txt", FFile ($"Art Deco, ..., sleek, geometric forms, art deco style" ++ [10%N] ++ $"Pop Art, ....., vivid colors, flat color, 2D, strong lines, Pop Art" ++ [10%N]))])].

Definition structured_data (name : str) : option jval :=
  if str_eqb name $"cars.yaml" then Some (JDict [(Some $"cars", (JDict [(Some $"ford", (JDict [(Some $"name", (JList [(JStr $"Ford")])); (Some $"types", (JList [(JStr $"muscle car"); (JStr $"compact car"); (JStr $"roadster")])); (Some $"colors", (JList [(JStr $"white"); (JStr $"black"); (JStr $"brown"); (JStr $"red")]))])); (Some $"porsche", (JDict [(Some $"name", (JList [(JStr $"Porsche")])); (Some $"types", (JList [(JStr $"sports car")])); (Some $"colors", (JList [(JStr $"red"); (JStr $"black")]))])); (Some $"john_deere", (JDict [(Some $"name", (JList [(JStr $"John Deere")])); (Some $"types", (JList [(JStr $"tractor")])); (Some $"colors", (JList [(JStr $"green"); (JStr $"yellow")]))]))]))]) else
  if str_eqb name $"pantry.json" then Some (JDict [(Some $"bitter", (JList [(JStr $"coffee"); (JStr $"dark chocolate")]))]) else
  if str_eqb name $"invalid.yaml" then Some (JStr $"hello") else
  if str_eqb name $"plush-toy.yaml" then Some (JList [(JStr $"Cute kawaii Squishy ${animal} plush toy, realistic texture, visible stitch line, soft smooth lighting, vibrant studio lighting, modular constructivism, physically based rendering, square image")]) else
  if str_eqb name $"pantry.yaml" then Some (JDict [(Some $"clothing", (JList [(JStr $"T-shirt"); (JStr $"Pants"); (JStr $"Shoes")])); (Some $"artists", (JDict [(Some $"finnish", (JList [(JStr $"Akseli Gallen-Kallela"); (JStr ($"Eero J" ++ [228%N] ++ $"rnefelt")); (JStr $"Helene Schjerfbeck")])); (Some $"dutch", (JList [(JStr $"Piet Mondrian"); (JStr $"Rembrandt van Rijn"); (JStr $"Vincent van Gogh")])); (Some $"moonbase", (JStr $"john madden")); (None, (JNum (Q2Qc 5678))); (Some $"flurp", (JNum (Q2Qc 12345))); (Some $"flem", (JStr []))]))]) else
  if str_eqb name $"shapes.yaml" then Some (JList [(JStr $"circle"); (JStr $"square"); (JStr $"triangle")]) else
  if str_eqb name $"drink.yaml" then Some (JDict [(Some $"drink", (JDict [(Some $"beverage", (JList [(JStr $"${season?=!{winter|summer}} ${temp?=!{hot|cold}} ${location?=!{north|south}} a __drink/container/${temp}__ of __drink/temp/${temp}__ __drink/${season}/${location}__")])); (Some $"winter", (JDict [(Some $"beverage", (JList [(JStr $"${temp=hot} ${season=winter} ${location?=north} __drink/beverage__")])); (Some $"north", (JList [(JStr $"tea")])); (Some $"south", (JList [(JStr $"coffee")]))])); (Some $"summer", (JDict [(Some $"beverage", (JList [(JStr $"${temp=cold} ${season=summer} ${location?=south} __drink/beverage__")])); (Some $"north", (JList [(JStr $"tea"); (JStr $"pop")])); (Some $"south", (JList [(JStr $"sweet tea"); (JStr $"soda")]))])); (Some $"container", (JDict [(Some $"hot", (JList [(JStr $"mug")])); (Some $"cold", (JList [(JStr $"glass")]))])); (Some $"temp", (JDict [(Some $"hot", (JList [(JStr $"hot")])); (Some $"cold", (JList [(JStr $"iced")]))]))]))]) else
  if str_eqb name $"weighted.yaml" then Some (JDict [(Some $"weighted-animals", (JDict [(Some $"heavy", (JList [(JStr $"50::elephant"); (JStr $"20.5::rhino"); (JStr $"10::hippo"); (JStr $"5::giraffe")])); (Some $"light", (JList [(JDict [(Some $"weight", (JNum (Q2Qc 1))); (Some $"text", (JStr $"mouse"))]); (JDict [(Some $"weight", (JNum (Q2Qc 2))); (Some $"text", (JStr $"rabbit"))]); (JDict [(Some $"weight", (JNum (Q2Qc 3))); (Some $"content", (JStr $"cat"))])]))]))]) else
  if str_eqb name $"lizards.yaml" then Some (JList [(JStr $"iguana"); (JStr $"gecko")]) else
  None.

Definition readers : pylib := {|
  py_isdigit := fun c => N.leb 48 c && N.leb c 57;
  py_float := fun s => match real s with
                       | POk q [] => Some q
                       | _ => match integer s with
                              | POk n [] => Some (Q2Qc (inject_Z (Z.of_N n)))
                              | _ => None
                              end
                       end;
  py_str := fun _ => [];
  py_json := structured_data;
  py_yaml := structured_data |}.

(** A manager for the directory, and its answers. *)
Definition test_roots : root_map := [([], [RPath [$"wildcards"]])].
Definition values_of (ww wc : str) : res (list witem) :=
  snd (get_values_cached readers ww test_roots test_data wc init_state).
Definition strings_of (ww wc : str) : list str :=
  match values_of ww wc with Ok l => map w_str l | Err _ => [$"(raised)"] end.

(** tests/conftest.py:13-15: three ways of writing wildcards. *)
Definition wraps : list str := [$"__"; $"++"; $"::"].
(** tests/conftest.py:18-43: contexts. *)
Definition files (ww : str) : env :=
  {| env_parse := parse letters default_parser_config;
     env_lookup := fun wc => match values_of ww wc with Ok l => l | Err _ => [] end;
     env_wrap := ww |}.
Definition context (m : method) : ctx :=
  {| c_method := m; c_ignws := false; c_vars := []; c_unknown := None; c_busy := [] |}.

(** The first [n] prompts with given raw random draws. *)
Definition outcome (x : list str * run_end * option (list N)) : list str * option exn :=
  match x with
  | (ts, EndRaise e, _) => (ts, Some e)
  | (ts, EndFuel, _) => (ts, Some EIndex)
  | (ts, _, _) => (ts, None)
  end.
Definition prompts_in (E : env) (c : ctx) (p : prompt) (n : nat) (r : list N) : list str * option exn :=
  match sample_prompts E 100 c p None with
  | MOk g => outcome (collect stream_rng E 100 n g r)
  | MErr e => ([], Some e)
  | MFuel => ([], Some EIndex)
  end.
Definition sampled (m : method) (t : str) (n : nat) (r : list N) : list (list str * option exn) :=
  map (fun ww => prompts_in (files ww) (context m) (WStr t) n r) wraps.
Definition taken (m : method) (cmd : command) (n : nat) (r : list N) : list (list str * option exn) :=
  map (fun ww => prompts_in (files ww) (context m) (WCmd cmd) n r) wraps.
Definition thrice {A} (x : A) : list A := [x; x; x].

(** Raw material for drawing option [i] of [n] equally likely ones; choosing
    one option from a variant takes a draw for how many and one for which. *)
Definition pick (i n : N) : N := N.div ((2 * i + 1) * 4503599627370496) n.
