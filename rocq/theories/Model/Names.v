(** Wildcard names: src/dynamicprompts/wildcards/utils.py and the standard
    library's [fnmatch] as used by wildcards/tree/tree.py. *)
From Coq Require Import String NArith Bool List.
From Verif.Model Require Import Str Utils Rng Context.
Import ListNotations.

(** The class [[\\/]] of utils.py:20. *)
Definition is_separator (c : char) : bool := N.eqb c 47 || N.eqb c 92.
Definition is_slash (c : char) : bool := N.eqb c 47.

(** utils.py:20 [re.sub(r"[\\/]+", "/", s)]; [prev] tells that the character
    before [s] already belongs to a replaced run. *)
Fixpoint collapse_separators (prev : bool) (s : str) : str :=
  match s with
  | [] => []
  | c :: s' =>
      if is_separator c
      then if prev then collapse_separators true s' else 47%N :: collapse_separators true s'
      else c :: collapse_separators false s'
  end.

(** utils.py:8-30 [clean_wildcard]. *)
Definition clean_wildcard (wildcard wrap : str) : res str :=
  let w := removeprefix wildcard wrap in
  let w := removesuffix w wrap in
  let w := collapse_separators false w in
  let w := strip_by is_slash w in
  if contains w $".." then Err EValue
  else if contains w [92%N] then Err EValue
  else Ok w.

(** utils.py:33-37 [combine_name_parts] (always called with two parts). *)
Definition combine_name_parts (a b : str) : str :=
  strip_by is_slash (join $"/" [a; b]).

(** wildcard_manager.py:102-106 [is_wildcard]. *)
Definition is_wildcard (ww text : str) : bool := startswith text ww && endswith text ww.

(** [fnmatch.fnmatch(name, pattern)] on POSIX, where [os.path.normcase]
    changes nothing.  A pattern is cut into tokens ([fnmatch.translate]). *)
Inductive gtoken :=
| TChar (c : char)
| TAny
| TStar
| TSet (negated : bool) (body : str).

(** Body of a bracket expression, up to the closing bracket that is not the
    first character, and the rest. *)
Fixpoint until_close (s : str) : option (str * str) :=
  match s with
  | [] => None
  | c :: s' =>
      if N.eqb c 93 then Some ([], s')
      else match until_close s' with
           | Some (b, r) => Some (c :: b, r)
           | None => None
           end
  end.
Definition bracket (s : str) : option (bool * str * str) :=
  let (neg, s1) := match s with
                   | c :: s' => if N.eqb c 33 then (true, s') else (false, s)
                   | [] => (false, s)
                   end in
  match s1 with
  | [] => None
  | c :: s2 =>
      match until_close s2 with
      | Some (b, r) => Some (neg, c :: b, r)
      | None => None
      end
  end.

(** Membership in the body of a bracket expression: ranges [a-z] and single
    characters, read from left to right.  The rest of CPython's treatment
    (escapes for the regular expression engine) does not change the meaning,
    except that dropping an empty range such as [b-a] in front of an
    exclamation mark makes CPython read a negation; this is not modelled. *)
Fixpoint in_set (body : str) (x : char) : bool :=
  match body with
  | [] => false
  | a :: rest =>
      match rest with
      | d :: b :: rest' =>
          if N.eqb d 45 then (N.leb a x && N.leb x b) || in_set rest' x
          else N.eqb a x || in_set rest x
      | _ => N.eqb a x || in_set rest x
      end
  end.

(** [fnmatch.translate]; [n] bounds the number of tokens (the length of the
    pattern is enough). *)
Fixpoint tokens (n : nat) (pat : str) : list gtoken :=
  match n, pat with
  | _, [] => []
  | O, _ => []
  | S n', c :: p =>
      if N.eqb c 42 then TStar :: tokens n' p
      else if N.eqb c 63 then TAny :: tokens n' p
      else if N.eqb c 91 then
        match bracket p with
        | Some (neg, body, rest) => TSet neg body :: tokens n' rest
        | None => TChar c :: tokens n' p
        end
      else TChar c :: tokens n' p
  end.

Fixpoint match_tokens (ts : list gtoken) (s : str) : bool :=
  match ts with
  | [] => match s with [] => true | _ => false end
  | TChar c :: ts' =>
      match s with x :: s' => N.eqb c x && match_tokens ts' s' | [] => false end
  | TAny :: ts' =>
      match s with _ :: s' => match_tokens ts' s' | [] => false end
  | TSet neg body :: ts' =>
      match s with
      | x :: s' => xorb neg (in_set body x) && match_tokens ts' s'
      | [] => false
      end
  | TStar :: ts' =>
      (fix star (s : str) : bool :=
         match_tokens ts' s || match s with [] => false | _ :: s' => star s' end) s
  end.

Definition fnmatch (name pattern : str) : bool :=
  match_tokens (tokens (length pattern) pattern) name.
