(** src/dynamicprompts/parser/parse.py and parser/config.py: from template
    text to commands.

    The Python code builds a pyparsing grammar.  pyparsing is not part of the
    project; what it does with this grammar is modelled from its published
    sources (3.1, any ~=3.0 version behaves alike here):
    - an element looks only at the text from its location on, so a parser is
      a function of the remaining text;
    - [ParseException] makes an alternative fail ([PFail]); any other
      exception of a parse action leaves [parse_string] at once ([PRaise]);
    - after [leave_whitespace] no element skips whitespace; each element skips
      comments (the [ignore] expressions, parse.py:505-507) before it matches;
    - [parse_string] first expands tabs.

    Simplifications: weights are exact rationals and their digits are ASCII
    (the regular expression [\d] accepts other decimal digits too); Python's
    recursion limit and its limit on the number of digits of an integer are
    not modelled; [str.isalnum] of a character is the parameter [alnum].

    Fuel: [PFuel] is the result when the recursion depth runs out; it is
    never produced for the depth used by [parse] (Proofs/ParserFacts.v). *)
From Coq Require Import String NArith ZArith QArith Qcanon Bool Arith List.
From Verif.Model Require Import Str Command Rng Context.
Import ListNotations.
Local Open Scope nat_scope.

(** parser/config.py:6-14 [ParserConfig]. *)
Record parser_config := {
  variant_start : str;
  variant_end : str;
  wildcard_wrap : str;
  variable_start : str;
  variable_end : str;
  wrap_start : str;
  wrap_end : str
}.

(** parser/config.py:17 [default_parser_config]. *)
Definition default_parser_config : parser_config := {|
  variant_start := $"{";
  variant_end := $"}";
  wildcard_wrap := $"__";
  variable_start := $"${";
  variable_end := $"}";
  wrap_start := $"%{";
  wrap_end := $"}"
|}.

(** Result of a pyparsing element: value and remaining text. *)
Inductive pres (A : Type) :=
| POk (a : A) (rest : str)
| PFail
| PRaise (e : exn)
| PFuel.
Arguments POk {A}. Arguments PFail {A}. Arguments PRaise {A}. Arguments PFuel {A}.

Notation "'let!' ( x , s ) := r 'in' b" :=
  (match r with
   | POk x s => b
   | PFail => PFail
   | PRaise e => PRaise e
   | PFuel => PFuel
   end)
  (at level 200, x pattern, s name, r at level 100, b at level 200).

(** pyparsing's default whitespace characters. *)
Definition blank (c : char) : bool :=
  N.eqb c 32 || N.eqb c 9 || N.eqb c 10 || N.eqb c 13.

(** [str.expandtabs(8)], [col] the current column. *)
Fixpoint expandtabs_from (col : nat) (s : str) : str :=
  match s with
  | [] => []
  | c :: s' =>
      if N.eqb c 9 then
        let k := 8 - Nat.modulo col 8 in
        repeat 32%N k ++ expandtabs_from (col + k) s'
      else
        c :: expandtabs_from (if N.eqb c 10 || N.eqb c 13 then 0 else S col) s'
  end.
Definition expandtabs (s : str) : str := expandtabs_from 0 s.

(** [pp.restOfLine]: everything before the next newline. *)
Definition rest_of_line (s : str) : str := drop_while (fun c => negb (N.eqb c 10)) s.

(** The end of a [/* ... */] comment: the text after the first [*/]. *)
Fixpoint after_close (s : str) : option str :=
  match s with
  | [] => None
  | c :: s' => if startswith s $"*/" then Some (skipn 1 s') else after_close s'
  end.

(** parse.py:505-507: one ignored expression, with whitespace before it. *)
Definition ignored (s : str) : option str :=
  let s := drop_while blank s in
  if startswith s $"#" then Some (rest_of_line (skipn 1 s))
  else if startswith s $"//" then Some (rest_of_line (skipn 2 s))
  else if startswith s $"/*" then after_close (skipn 2 s)
  else None.

(** [ParserElement._skipIgnorables]: as many ignored expressions as there
    are.  Each is at least one character long, so [length s] rounds do. *)
Fixpoint skip_rounds (n : nat) (s : str) : str :=
  match n with
  | O => s
  | S n' => match ignored s with Some s' => skip_rounds n' s' | None => s end
  end.
Definition skip (s : str) : str := skip_rounds (length s) s.

(** [pp.Literal(t)], [pp.Suppress(t)], [pp.Char]. *)
Definition tok (t : str) (s : str) : pres unit :=
  let s := skip s in
  if startswith s t then POk tt (skipn (length t) s) else PFail.

(** parse.py:69 [OPT_WS]. *)
Definition opt_ws (s : str) : str := drop_while blank (skip s).

(** [pp.Opt(p)]. *)
Definition popt {A} (p : str -> pres A) (s : str) : pres (option A) :=
  match p s with
  | POk a r => POk (Some a) r
  | PFail => POk None (skip s)
  | PRaise e => PRaise e
  | PFuel => PFuel
  end.

(** [pp.ZeroOrMore(p, stop_on)]: [p] until it fails or [stop] holds.  Every
    [p] used consumes something, so [S (length s)] rounds do. *)
Fixpoint many_rounds {A} (n : nat) (stop : str -> bool) (p : str -> pres A) (s : str)
  : pres (list A) :=
  match n with
  | O => PFuel
  | S n' =>
      if stop s then POk [] s else
      match p s with
      | POk a s' =>
          let! (l, s'') := many_rounds n' stop p s' in POk (a :: l) s''
      | PFail => POk [] s
      | PRaise e => PRaise e
      | PFuel => PFuel
      end
  end.
Definition many {A} (stop : str -> bool) (p : str -> pres A) (s : str) : pres (list A) :=
  many_rounds (S (length s)) stop p s.
Definition never (s : str) : bool := false.

(** [pp.OneOrMore(p, stop_on)]. *)
Definition many1 {A} (stop : str -> bool) (p : str -> pres A) (s : str) : pres (list A) :=
  match many stop p s with
  | POk [] _ => PFail
  | r => r
  end.

(** [a | b] in pyparsing ([MatchFirst]). *)
Definition alt {A} (p q : str -> pres A) (s : str) : pres A :=
  match p s with PFail => q s | r => r end.

(** [pp.nums], [pp.alphas]. *)
Definition is_digit (c : char) : bool := N.leb 48 c && N.leb c 57.
Definition is_alpha (c : char) : bool :=
  (N.leb 65 c && N.leb c 90) || (N.leb 97 c && N.leb c 122).

(** parse.py:62-65,73-77 [pp.Opt(sampler_symbol)] and the method it stands for,
    parse.py:315-323 [_parse_sampling_method]; its error cannot happen, since
    only the symbols of the table are read. *)
Definition sampler (s : str) : pres (option method) :=
  match tok $"~" s with
  | POk _ r => POk (Some Random) r
  | _ =>
  match tok $"!" s with
  | POk _ r => POk (Some Combinatorial) r
  | _ =>
  match tok $"@" s with
  | POk _ r => POk (Some Cyclical) r
  | _ => POk None s
  end end end.

(** parse.py:71 [var_name]. *)
Definition name_start (c : char) : bool := is_alpha c || N.eqb c 95 || N.eqb c 45.
Definition name_char (c : char) : bool := name_start c || is_digit c.
Definition var_name (s : str) : pres str :=
  let s := skip s in
  match s with
  | c :: _ =>
      if name_start c then POk (take_while name_char s) (drop_while name_char s) else PFail
  | [] => PFail
  end.

(** [int(digits)]. *)
Definition number (ds : str) : N :=
  fold_left (fun acc c => (10 * acc + (c - 48))%N) ds 0%N.

(** [pp.common.integer]. *)
Definition integer (s : str) : pres N :=
  let s := skip s in
  match take_while is_digit s with
  | [] => PFail
  | ds => POk (number ds) (drop_while is_digit s)
  end.

(** parse.py:93-100 [bound_range]: lower and upper bound where given. *)
Definition lower_upper (s : str) : pres (option N * option N) :=
  let! (lo, s) := integer s in
  let! (_, s) := tok $"-" s in
  let! (hi, s) := integer s in
  POk (Some lo, Some hi) s.
Definition only_upper (s : str) : pres (option N * option N) :=
  let! (_, s) := tok $"-" s in
  let! (hi, s) := integer s in
  POk (None, Some hi) s.
Definition only_lower (s : str) : pres (option N * option N) :=
  let! (lo, s) := integer s in
  let! (_, s) := tok $"-" s in
  POk (Some lo, None) s.
Definition exact (s : str) : pres (option N * option N) :=
  let! (n, s) := integer s in
  POk (Some n, Some n) s.
Definition bound_range : str -> pres (option N * option N) :=
  alt lower_upper (alt only_upper (alt only_lower exact)).

(** parse.py:88-90 [separator]: printable ASCII and blanks except [${}]. *)
Definition separator_char (c : char) : bool :=
  N.leb 32 c && N.leb c 126 && negb (N.eqb c 36 || N.eqb c 123 || N.eqb c 125).
Definition separator (s : str) : pres str :=
  let s := skip s in
  match take_while separator_char s with
  | [] => PFail
  | w => POk w (drop_while separator_char s)
  end.

(** parse.py:101-105 [bound_expr]. *)
Definition bound_expr (s : str) : pres ((option N * option N) * str) :=
  let! (rng, s) := bound_range s in
  let! (_, s) := tok $"$$" s in
  let! (sep, s) := popt (fun s =>
      let! (w, s) := separator s in
      let! (_, s) := tok $"$$" s in
      POk w s) s in
  POk (rng, match sep with Some w => w | None => $"," end) s.

(** The value of [int.frac] as written in decimal. *)
Definition decimal (ip fp : str) : Qc :=
  Q2Qc (inject_Z (Z.of_N (number (ip ++ fp))) / inject_Z (10 ^ Z.of_nat (length fp)))%Q.

(** [pp.common.real]: [[+-]?(\d+\.\d*|\.\d+)]. *)
Definition real (s : str) : pres Qc :=
  let s := skip s in
  let '(neg, s) :=
    match s with
    | c :: s' => if N.eqb c 43 then (false, s') else if N.eqb c 45 then (true, s') else (false, s)
    | [] => (false, s)
    end in
  let ip := take_while is_digit s in
  match drop_while is_digit s with
  | c :: s' =>
      let fp := take_while is_digit s' in
      if N.eqb c 46 && negb (match ip, fp with [], [] => true | _, _ => false end) then
        let q := decimal ip fp in
        POk (if neg then (- q)%Qc else q) (drop_while is_digit s')
      else PFail
  | [] => PFail
  end.

(** parse.py:185-189 [weight]. *)
Definition weight (s : str) : pres Qc :=
  let! (w, s) := alt real (fun s =>
      let! (n, s) := integer s in POk (Q2Qc (inject_Z (Z.of_N n))) s) s in
  let! (_, s) := tok $"::" s in
  POk w s.

Section Grammar.
Variable alnum : char -> bool.
Variable C : parser_config.

(** [s.isalnum()]. *)
Definition isalnum (s : str) : bool :=
  match s with [] => false | _ => forallb alnum s end.

(** parse.py:145-182 [_configure_literal_sequence]: the characters excluded
    from literals. *)
Definition mem (c : char) (s : str) : bool := existsb (N.eqb c) s.
Definition top_bad (c : char) : bool :=
  mem c ($"#" ++ variant_start C ++ variable_start C ++ wrap_start C).
Definition variant_bad (c : char) : bool :=
  top_bad c || mem c ($"|$" ++ variant_end C).
Definition wildcard_bad (c : char) : bool :=
  top_bad c || mem c $")(".

(** parse.py:175-179 [literal]: [((?!wrap)[^bad])+]. *)
Fixpoint literal_run (bad : char -> bool) (s : str) : str * str :=
  match s with
  | [] => ([], [])
  | c :: s' =>
      if startswith s (wildcard_wrap C) || bad c then ([], s)
      else let (a, r) := literal_run bad s' in (c :: a, r)
  end.
Definition literal (bad : char -> bool) (s : str) : pres str :=
  match literal_run bad (skip s) with
  | ([], _) => PFail
  | (a, r) => POk a r
  end.

(** parse.py:180,274-276 [literal_sequence] with [_parse_literal_command]. *)
Definition literal_sequence (bad : char -> bool) (s : str) : pres command :=
  let! (l, s) := many1 never (literal bad) s in
  POk (Lit (join $" " l) None) s.

(** parse.py:279-284 [_parse_sequence_or_single_command]. *)
Definition sequence_or_single (children : list command) : command :=
  match children with
  | [c] => c
  | _ => Seq children [] None
  end.

(** parse.py:373-393 [_parse_bound_expr]. *)
Definition bounds_of (b : option ((option N * option N) * str)) (options : nat)
  : Z * Z * str :=
  match b with
  | None => (1%Z, 1%Z, $",")
  | Some ((lo, hi), sep) =>
      (match lo with Some n => Z.of_N n | None => 1%Z end,
       match hi with Some n => Z.of_N n | None => Z.of_nat options end,
       sep)
  end.

(** The recursive uses: [V] is [variant_prompt], [T] is [parse] on the
    values of wildcard variables. *)
Section Rec.
Variable V : str -> pres command.
Variable T : str -> pres command.

(** parse.py:202-204 [variant]. *)
Definition variant (s : str) : pres (command * Qc) :=
  let s := opt_ws s in
  let! (w, s) := popt weight s in
  let! (c, s) := V s in
  let s := opt_ws s in
  POk (c, match w with Some q => q | None => 1%Qc end) s.

(** parse.py:205 [variants_list]. *)
Definition variants_list (s : str) : pres (list (command * Qc)) :=
  let! (v, s) := variant s in
  let! (vs, s) := many never (fun s =>
      let! (_, s) := tok $"|" s in variant s) s in
  POk (v :: vs) s.

(** parse.py:207-218 [variants] with parse.py:287-312 [_parse_variant_command]. *)
Definition variants (s : str) : pres command :=
  let! (_, s) := tok (variant_start C) s in
  let s := opt_ws s in
  let! (m, s) := sampler s in
  let! (b, s) := popt bound_expr s in
  let s := opt_ws s in
  let! (vs, s) := variants_list s in
  let s := opt_ws s in
  let! (_, s) := tok (variant_end C) s in
  let '(lo, hi, sep) := bounds_of b (length vs) in
  POk (mk_variant vs lo hi sep m) s.

(** parse.py:221-234 [_configure_variable_access]: name and default. *)
Definition access (s : str) : pres (str * option command) :=
  let! (_, s) := tok (variable_start C) s in
  let s := opt_ws s in
  let! (name, s) := var_name s in
  let s := opt_ws s in
  let! (d, s) := popt (fun s =>
      let! (_, s) := tok $":" s in
      let s := opt_ws s in
      V s) s in
  let s := opt_ws s in
  let! (_, s) := tok (variable_end C) s in
  POk (name, d) s.

(** parse.py:396-400 [_parse_variable_access_command]. *)
Definition variable_access (s : str) : pres command :=
  let! ((name, d), s) := access s in POk (Access name d) s.

(** parse.py:403-412 [_parse_wildcard_variable_access_command];
    [default.literal] is an AttributeError for other commands. *)
Definition wildcard_variable_access (s : str) : pres command :=
  let! ((name, d), s) := access s in
  let default :=
    match d with
    | Some c => if truthy c then c else Lit name None
    | None => Lit name None
    end in
  match default with
  | Lit t _ => POk (Access name (Some (Lit (strip t) None))) s
  | _ => PRaise EAttribute
  end.

(** parse.py:237-254 [_configure_variable_assignment] with parse.py:415-424
    [_parse_variable_assignment_command]. *)
Definition variable_assignment (s : str) : pres command :=
  let! (_, s) := tok (variable_start C) s in
  let s := opt_ws s in
  let! (name, s) := var_name s in
  let s := opt_ws s in
  let! (preserve, s) := popt (tok $"?") s in
  let! (_, s) := tok $"=" s in
  let! (immediate, s) := popt (tok $"!") s in
  let s := opt_ws s in
  let! (value, s) := V s in
  let s := opt_ws s in
  let! (_, s) := tok (variable_end C) s in
  POk (Assign name value
         (match immediate with Some _ => true | None => false end)
         (match preserve with Some _ => false | None => true end)) s.

(** parse.py:257-271 [_configure_wrap_command] with parse.py:427-434
    [_parse_wrap_command]. *)
Definition wrap_command (s : str) : pres command :=
  let! (_, s) := tok (wrap_start C) s in
  let s := opt_ws s in
  let! (wrapper, s) := V s in
  let s := opt_ws s in
  let! (_, s) := tok $"$$" s in
  let s := opt_ws s in
  let! (inner, s) := V s in
  let! (_, s) := tok (wrap_end C) s in
  POk (Wrap wrapper inner None) s.

(** parse.py:493-498 [wildcard_chunk]. *)
Definition wildcard_chunk : str -> pres command :=
  alt wildcard_variable_access
  (alt variants
  (alt (literal_sequence wildcard_bad)
       (literal_sequence variant_bad))).

(** parse.py:502,522 [wildcard_prompt]; the [stop_on] test skips whitespace
    but no comments. *)
Definition at_paren (s : str) : bool := startswith (drop_while blank s) $"(".
Definition wildcard_prompt (s : str) : pres command :=
  let! (l, s) := many1 at_paren wildcard_chunk (skip s) in
  POk (sequence_or_single l) s.

(** parse.py:115-120 [wildcard_variable_spec]. *)
Definition not_paren (c : char) : bool := negb (N.eqb c 41).
Definition variable_spec (s : str) : pres str :=
  let s := opt_ws s in
  let! (_, s) := tok $"(" s in
  let s := skip s in
  match take_while not_paren s with
  | [] => PFail
  | spec =>
      let! (_, s) := tok $")" (drop_while not_paren s) in
      POk spec s
  end.

(** [pair.partition("=")], without the middle part. *)
Definition partition_eq (s : str) : str * str :=
  (take_while (fun c => negb (N.eqb c 61)) s,
   skipn 1 (drop_while (fun c => negb (N.eqb c 61)) s)).

(** parse.py:326-341 [_parse_variable_spec], consumed by [dict(...)]
    (parse.py:357-359).  A ParseException of the inner [parse] makes the
    wildcard alternative fail like any other parse failure. *)
Definition spec_value (value : str) : pres command :=
  if isalnum value then POk (Lit value None) [] else T value.
Fixpoint spec_pairs (pairs : list str) (d : list (str * command))
  : pres (list (str * command)) :=
  match pairs with
  | [] => POk d []
  | kv :: pairs' =>
      let (key, value) := partition_eq kv in
      let! (c, _s) := spec_value (strip value) in
      spec_pairs pairs' (dict_set (strip key) c d)
  end.

(** parse.py:110-131 [_configure_wildcard] (parse.py:134-142
    [_configure_wildcard_path] is not used by it) with parse.py:344-370
    [_parse_wildcard_command]. *)
Definition wildcard (s : str) : pres command :=
  let! (_, s) := tok (wildcard_wrap C) s in
  let! (m, s) := sampler s in
  let! (path, s) := wildcard_prompt s in
  let! (spec, s) := popt variable_spec s in
  let! (_, s) := tok (wildcard_wrap C) s in
  let! (vars, _s) :=
    match spec with
    | Some t => spec_pairs (split_char 44 t) []
    | None => POk [] []
    end in
  POk (Wild (match path with Lit t _ => WStr t | _ => WCmd path end) m vars) s.

(** parse.py:482-489 [chunk]. *)
Definition chunk : str -> pres command :=
  alt variable_assignment
  (alt variable_access
  (alt wrap_command
  (alt variants
  (alt wildcard
       (literal_sequence top_bad))))).

(** parse.py:490-492 [variant_chunk]. *)
Definition variant_chunk : str -> pres command :=
  alt variable_access
  (alt wrap_command
  (alt variants
  (alt wildcard
       (literal_sequence variant_bad)))).

(** parse.py:500,519 [prompt]. *)
Definition prompt (s : str) : pres command :=
  let! (l, s) := many never chunk (skip s) in
  POk (sequence_or_single l) s.

(** parse.py:501,520 [variant_prompt]. *)
Definition variant_prompt_body (s : str) : pres command :=
  let! (l, s) := many never variant_chunk (skip s) in
  POk (sequence_or_single l) s.

(** [parse_string(text, parse_all=True)]: the whole text must be used, up to
    comments and then whitespace. *)
Definition grammar_body (s : str) : pres command :=
  let! (c, s) := prompt (expandtabs s) in
  match drop_while blank (skip s) with
  | [] => POk c []
  | _ => PFail
  end.

(** parse.py:545-566 [parse]. *)
Definition parse_body (s : str) : pres command :=
  if isalnum s then POk (Lit s None) [] else grammar_body s.
End Rec.

(** The two recursive parsers, to recursion depth [n]. *)
Fixpoint parsers (n : nat) : (str -> pres command) * (str -> pres command) :=
  match n with
  | O => (fun _ => PFuel, fun _ => PFuel)
  | S n' =>
      let (V, T) := parsers n' in
      (variant_prompt_body V T, parse_body V T)
  end.
Definition variant_prompt (n : nat) : str -> pres command := fst (parsers n).
Definition parse_depth (n : nat) : str -> pres command := snd (parsers n).

(** The depth that is always enough. *)
Definition depth (s : str) : nat := 2 + length (expandtabs s).

(** parse.py:545-566 [parse]; [grammar] is the same without the shortcut
    of parse.py:554-555 for the outermost text. *)
Definition parse_raw (s : str) : pres command := parse_depth (depth s) s.
Definition grammar_raw (s : str) : pres command :=
  let (V, T) := parsers (depth s) in grammar_body V T s.
Definition result (r : pres command) : res command :=
  match r with
  | POk c _ => Ok c
  | PFail => Err EParse
  | PRaise e => Err e
  | PFuel => Err ERecursion
  end.
Definition parse (s : str) : res command := result (parse_raw s).
Definition grammar (s : str) : res command := result (grammar_raw s).
End Grammar.
