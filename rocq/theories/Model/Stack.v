(** Samplers with a wildcard manager over files: sampling_context.py:34-51
    ([SamplingContext.wildcard_manager], [parser_config]), as the samplers use
    them (samplers/utils.py:19-62; samplers/random.py:112-128;
    samplers/cycle.py:97-127; samplers/combinatorial.py:140-156). *)
From Coq Require Import List.
From Verif.Model Require Import Str Command Rng Values Context Structured Tree Manager Parser.
Import ListNotations.

(** A manager just made (wildcard_manager.py:25-50 [WildcardManager.__init__]),
    with shuffling off, asked once for every name.  That later answers are the
    same is proved (C61).  An exception counts as no values; by C30 there is
    none. *)
Definition stack (P : pylib) (G : rng_impl) (alnum : char -> bool) (C : parser_config) (ww : str)
    (roots : root_map) (fs : fsnode) (sort dedup : bool) (r : rng_state G) : env := {|
  env_parse := parse alnum C;
  env_lookup := fun wc =>
    match lookup P G ww roots wc
      {| w_fs := fs;
         w_man := {| m_tree := None; m_cache := []; m_sort := sort; m_dedup := dedup; m_shuffle := false |};
         w_rng := r |} with
    | Ok l => l
    | Err _ => []
    end;
  env_wrap := ww |}.
