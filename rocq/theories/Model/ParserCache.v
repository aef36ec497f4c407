(** parser/parse.py:526-566: parsers are made once for each configuration. *)
From Coq Require Import String NArith ZArith QArith Qcanon Bool List.
From Verif.Model Require Import Str Command Rng Context Parser.
Import ListNotations.
Local Open Scope nat_scope.

Section Cache.
Variable alnum : char -> bool.

(** config.py:6-14 [==] of the frozen dataclass, field by field; equal
    configurations have equal hashes. *)
Definition config_eqb (a b : parser_config) : bool :=
  str_eqb (variant_start a) (variant_start b) && str_eqb (variant_end a) (variant_end b) &&
  str_eqb (wildcard_wrap a) (wildcard_wrap b) && str_eqb (variable_start a) (variable_start b) &&
  str_eqb (variable_end a) (variable_end b) && str_eqb (wrap_start a) (wrap_start b) &&
  str_eqb (wrap_end a) (wrap_end b).

(** A parser made by [create_parser] is known by what it does with a text. *)
Definition made_parser := str -> res command.

(** parse.py:436-523 [create_parser] and [parse_string(..., parse_all=True)];
    the recursion depth is the one of [parse]. *)
Definition create_parser (C : parser_config) : made_parser :=
  fun s =>
    let (V, T) := parsers alnum C (pred (depth s)) in result (grammar_body alnum C V T s).

(** parse.py:529 [_parser_cache]. *)
Definition parser_cache := list (parser_config * made_parser).

Fixpoint cache_find (C : parser_config) (cache : parser_cache) : option made_parser :=
  match cache with
  | [] => None
  | (C', p) :: cache' => if config_eqb C C' then Some p else cache_find C cache'
  end.

(** parse.py:532-542 [get_cached_parser]. *)
Definition get_cached_parser (C : parser_config) (cache : parser_cache)
    : made_parser * parser_cache :=
  match cache_find C cache with
  | Some p => (p, cache)
  | None => let p := create_parser C in (p, cache ++ [(C, p)])
  end.

(** parse.py:545-566 [parse].  The lookups of the nested calls of [parse]
    (parse.py:340) are left out: they are for the same configuration, whose
    parser is in the cache already. *)
Definition parse_with_cache (C : parser_config) (s : str) (cache : parser_cache)
    : res command * parser_cache :=
  if isalnum alnum s then (Ok (Lit s None), cache)
  else let (p, cache) := get_cached_parser C cache in (p s, cache).

(** What happens to the cache: a text is parsed, or a configuration that is no
    longer referenced loses its parser (the dictionary is weak-keyed). *)
Inductive cache_event :=
| Parsing (C : parser_config) (s : str)
| Collected (C : parser_config).
Definition cache_step (e : cache_event) (cache : parser_cache) : parser_cache :=
  match e with
  | Parsing C s => snd (parse_with_cache C s cache)
  | Collected C => filter (fun e => negb (config_eqb C (fst e))) cache
  end.
Definition cache_run (es : list cache_event) : parser_cache :=
  fold_left (fun cache e => cache_step e cache) es [].
End Cache.
