(** src/dynamicprompts/generators/*.py and the list functions of
    src/dynamicprompts/jinja_extensions.py.

    Code outside the project (the language model, jinja's rendering, spaCy, the
    search service) is an arbitrary function of an arbitrary state. *)
From Coq Require Import String NArith ZArith QArith Qcanon Qround Bool List.
From Verif.Model Require Import Str Utils Command Rng Values Context Sampler.
Import ListNotations.
Local Open Scope nat_scope.

(** Outcome of a method call on an object with state [S]: returned value,
    exception, or (for calls that run samplers) not enough fuel. *)
Inductive out (S A : Type) :=
| Ret (a : A) (s : S)
| Exn (e : exn) (s : S)
| NoFuel.
Arguments Ret {S A}. Arguments Exn {S A}. Arguments NoFuel {S A}.

Definition bind {S A B} (x : out S A) (f : A -> S -> out S B) : out S B :=
  match x with
  | Ret a s => f a s
  | Exn e s => Exn e s
  | NoFuel => NoFuel
  end.

(** dummygenerator.py:7-13 [DummyGenerator.generate]. *)
Definition dummy_generate (template : str) (num_images : nat) : list str :=
  repeat template num_images.

Section Sampled.
Variable G : rng_impl.
Variable E : env.
Notation R := (rng_state G).

(** [[str(p) for p in gen]]: everything the generator yields.  [steps] bounds
    the number of results looked at. *)
Fixpoint drain (fuel steps : nat) (g : gen) (r : R) : out R (list str) :=
  match steps with
  | O => NoFuel
  | S steps' =>
      match next G E fuel g r with
      | OVal (t, g') r' =>
          bind (drain fuel steps' g' r') (fun ts r'' => Ret (t :: ts) r'')
      | OStop r' => Ret [] r'
      | ORaise e r' => Exn e r'
      | OFuel => NoFuel
      end
  end.

Definition drain_mk (fuel steps : nat) (x : mkres) (r : R) : out R (list str) :=
  match x with
  | MOk g => drain fuel steps g r
  | MErr e => Exn e r
  | MFuel => NoFuel
  end.

(** combinatorial.py:30-38 [CombinatorialPromptGenerator.generate]; the
    template [None] is the empty text. *)
Definition combinatorial_generate (fuel steps : nat) (c : ctx) (template : str)
    (max_prompts : option nat) (r : R) : out R (list str) :=
  drain_mk fuel steps (sample_prompts E fuel c (WStr template) max_prompts) r.

(** The argument [seeds] of randomprompt.py:46-53. *)
Inductive seeds_arg := SNone | SInt (z : Z) | SList (l : list Z).

(** randomprompt.py:57-65: [None] when [seeds] is falsy; otherwise the list of
    seeds after broadcasting, or [ValueError]. *)
Definition effective_seeds (seeds : seeds_arg) (num_images : nat) : option (res (list Z)) :=
  let broadcast l :=
    let l' := match l with [z] => repeat z num_images | _ => l end in
    if Nat.eqb (length l') num_images then Ok l' else Err EValue in
  match seeds with
  | SNone => None
  | SInt z => if Z.eqb z 0 then None else Some (broadcast [z])
  | SList [] => None
  | SList l => Some (broadcast l)
  end.

(** randomprompt.py:69-71: reseed, take one prompt.  [next] on the exhausted
    generator raises [StopIteration] out of the method. *)
Fixpoint seeded_loop (fuel : nat) (seeds : list Z) (g : gen) (r : R) : out R (list str) :=
  match seeds with
  | [] => Ret [] r
  | z :: seeds' =>
      match next G E fuel g (prim_seed G z) with
      | OVal (t, g') r' =>
          bind (seeded_loop fuel seeds' g' r') (fun ts r'' => Ret (t :: ts) r'')
      | OStop r' => Exn EStopIteration r'
      | ORaise e r' => Exn e r'
      | OFuel => NoFuel
      end
  end.

(** randomprompt.py:46-76 [RandomPromptGenerator.generate].  [islice] stops
    after [num_images] results, so [S num_images] steps are enough. *)
Definition random_generate (fuel : nat) (c : ctx) (template : str) (num_images : nat)
    (seeds : seeds_arg) (r : R) : out R (list str) :=
  match effective_seeds seeds num_images with
  | Some (Err e) => Exn e r
  | Some (Ok l) =>
      match sample_prompts E fuel c (WStr template) (Some num_images) with
      | MOk g => seeded_loop fuel l g r
      | MErr e => Exn e r
      | MFuel => NoFuel
      end
  | None =>
      drain_mk fuel (S num_images)
        (sample_prompts E fuel c (WStr template) (Some num_images)) r
  end.
End Sampled.

Section Objects.
Context {S : Type}.

(** batched_combinatorial.py:12-26 [BatchedCombinatorialPromptGenerator], made
    with the number of batches, and its [generate] over the call [inner] of the wrapped generator. *)
Fixpoint batched_generate (inner : S -> out S (list str)) (batches : nat) (s : S)
    : out S (list str) :=
  match batches with
  | O => Ret [] s
  | Datatypes.S b =>
      bind (inner s) (fun images s1 =>
      bind (batched_generate inner b s1) (fun more s2 =>
      Ret (images ++ more) s2))
  end.

(** jinjagenerator.py:93 and jinja_extensions.py:91-95: [num_prompts]
    renderings; each returns its text and the blocks it appended to
    [prompt_blocks]. *)
Fixpoint render_all (render : S -> out S (str * list str)) (n : nat) (s : S)
    : out S (list str * list str) :=
  match n with
  | O => Ret ([], []) s
  | Datatypes.S n' =>
      bind (render s) (fun tb s1 =>
      bind (render_all render n' s1) (fun rest s2 =>
      Ret (fst tb :: fst rest, snd tb ++ snd rest) s2))
  end.

(** jinjagenerator.py:90-103 [JinjaGenerator.generate]; [build] is
    jinjagenerator.py:61-88 [_build_jinja_template] with jinja_extensions.py:72-89,
    which only call jinja, [None] being the [TemplateSyntaxError] turned
    into [GeneratorException] (jinjagenerator.py:83-87). *)
Definition jinja_generate (build : option (S -> out S (str * list str)))
    (limit_prompts ignore_whitespace : bool) (num_prompts : nat) (s : S)
    : out S (list str) :=
  match build with
  | None => Exn EGenerator s
  | Some render =>
      bind (render_all render num_prompts s) (fun tb s =>
        let prompts := match snd tb with [] => fst tb | blocks => blocks end in
        let prompts := if limit_prompts then firstn num_prompts prompts else prompts in
        let prompts := if ignore_whitespace then map squash_whitespace prompts else prompts in
        Ret prompts s)
  end.
End Objects.

(** [itertools.permutations(items, r)]: tuples of items at [r] different
    positions, in lexicographic order of the positions. *)
Fixpoint picks {A} (before after : list A) : list (A * list A) :=
  match after with
  | [] => []
  | x :: after' => (x, rev before ++ after') :: picks (x :: before) after'
  end.
Fixpoint permutations_of {A} (r : nat) (items : list A) : list (list A) :=
  match r with
  | O => [[]]
  | Datatypes.S r' =>
      flat_map (fun p => map (cons (fst p)) (permutations_of r' (snd p))) (picks [] items)
  end.

(** jinja_extensions.py:25-37 [permutation], available in templates as
    [permutations].  A negative size makes itertools raise [ValueError]. *)
Definition permutation {A} (items : list A) (low : Z) (high : option Z)
    : res (list (list A)) :=
  let high := match high with Some h => h | None => low end in
  let sizes := zrange low high in
  if existsb (fun i => Z.ltb i 0) sizes then Err EValue
  else Ok (flat_map (fun i => permutations_of (Z.to_nat i) items) sizes).

(** jinja_extensions.py:16-22 [choice] and [weighted_choice]; [zip] of
    no items cannot be unpacked ([ValueError]). *)
Section Draws.
Variable G : rng_impl.
Context {A : Type}.
Definition jinja_choice (items : list A) (r : rng_state G) : rres G A :=
  match choice G (length items) r with
  | RErr e r' => RErr e r'
  | ROk i r' =>
      match nth_error items i with Some x => ROk x r' | None => RErr EIndex r' end
  end.
Definition jinja_weighted_choice (items : list (A * Qc)) (r : rng_state G) : rres G A :=
  match items with
  | [] => RErr EValue r
  | _ =>
      match choices G (accumulate G (map snd items)) 1 r with
      | RErr e r' => RErr e r'
      | ROk [] r' => RErr EIndex r'
      | ROk (i :: _) r' =>
          match nth_error items i with Some x => ROk (fst x) r' | None => RErr EIndex r' end
      end
  end.
End Draws.

(** [s.replace(old, new)]: occurrences from left to right, not overlapping;
    an empty [old] occurs before every character and at the end.  [skip]
    counts the characters of the current occurrence still to be dropped. *)
Fixpoint replace_aux (old new : str) (skip : nat) (s : str) : str :=
  match s with
  | [] => []
  | c :: s' =>
      match skip with
      | Datatypes.S k => replace_aux old new k s'
      | O =>
          if startswith s old then new ++ replace_aux old new (pred (length old)) s'
          else c :: replace_aux old new 0 s'
      end
  end.
Definition replace (s old new : str) : str :=
  match old with
  | [] => flat_map (fun c => new ++ [c]) s ++ new
  | _ => replace_aux old new 0 s
  end.

(** [re.sub(pattern, ...)] for a pattern that never matches the empty text.
    [m prev s] tries to match at the start of [s], [prev] telling whether the
    character before is a word character; the answer is the replacement and
    the number of characters consumed beyond the first one. *)
Fixpoint resub_aux (word : char -> bool) (m : bool -> str -> option (str * nat))
    (prev : bool) (skip : nat) (s : str) : str :=
  match s with
  | [] => []
  | c :: s' =>
      match skip with
      | Datatypes.S k => resub_aux word m (word c) k s'
      | O =>
          match m prev s with
          | Some (rep, k) => rep ++ resub_aux word m (word c) k s'
          | None => c :: resub_aux word m (word c) 0 s'
          end
      end
  end.

Section Cleanup.
(** Unicode's [str.isalnum] of one character; [\w] is that or an underscore. *)
Variable alnum : char -> bool.
Definition is_word (c : char) : bool := alnum c || N.eqb c 95.
Definition resub (m : bool -> str -> option (str * nat)) (s : str) : str :=
  resub_aux is_word m false 0 s.

Definition head_is (f : char -> bool) (s : str) : bool :=
  match s with c :: _ => f c | [] => false end.
Definition run (f : char -> bool) (s : str) : nat := length (take_while f s).
Definition ch (n : N) (c : char) : bool := N.eqb c n.

(** magicprompt.py:35 *)
Definition brace_to_paren (c : char) : char :=
  if N.eqb c 123 then 40%N else if N.eqb c 125 then 41%N else c.
(** magicprompt.py:38 [^\W+|\W+$]: non-word characters at both ends. *)
Definition trim_nonword (s : str) : str := strip_by (fun c => negb (is_word c)) s.
(** magicprompt.py:41 [\(\s+]. *)
Definition m_open (_ : bool) (s : str) : option (str * nat) :=
  if head_is (ch 40) s && head_is isspace (tl s)
  then Some ($"(", run isspace (tl s)) else None.
(** magicprompt.py:42 [\s+\)]. *)
Definition m_close (_ : bool) (s : str) : option (str * nat) :=
  if head_is isspace s && head_is (ch 41) (drop_while isspace s)
  then Some ($")", run isspace s) else None.
(** magicprompt.py:45 [\b\s+\-\s+\b]. *)
Definition m_hyphen (prev : bool) (s : str) : option (str * nat) :=
  let s1 := drop_while isspace s in
  let s2 := drop_while isspace (tl s1) in
  if prev && head_is isspace s && head_is (ch 45) s1 && head_is isspace (tl s1)
     && head_is is_word s2
  then Some ($"-", run isspace s + run isspace (tl s1)) else None.
(** magicprompt.py:47 [\s*[,;\.]+\s*(?=[a-zA-Z(])]. *)
Definition is_stop (c : char) : bool := ch 44 c || ch 59 c || ch 46 c.
Definition is_ascii_letter (c : char) : bool :=
  (N.leb 65 c && N.leb c 90) || (N.leb 97 c && N.leb c 122).
Definition m_stop (_ : bool) (s : str) : option (str * nat) :=
  let s1 := drop_while isspace s in
  let s2 := drop_while is_stop s1 in
  let s3 := drop_while isspace s2 in
  if head_is is_stop s1 && head_is (fun c => is_ascii_letter c || ch 40 c) s3
  then Some ($", ", pred (run isspace s + run is_stop s1 + run isspace s2)) else None.
(** magicprompt.py:49 [\s+_+\s+]. *)
Definition m_under (_ : bool) (s : str) : option (str * nat) :=
  let s1 := drop_while isspace s in
  let s2 := drop_while (ch 95) s1 in
  if head_is isspace s && head_is (ch 95) s1 && head_is isspace s2
  then Some ($" ", pred (run isspace s + run (ch 95) s1 + run isspace s2)) else None.
(** magicprompt.py:51 [\b,\s*,\s*\b]. *)
Definition m_empty (prev : bool) (s : str) : option (str * nat) :=
  let s1 := drop_while isspace (tl s) in
  let s2 := drop_while isspace (tl s1) in
  if prev && head_is (ch 44) s && head_is (ch 44) s1 && head_is is_word s2
  then Some ($", ", run isspace (tl s) + 1 + run isspace (tl s1)) else None.

(** magicprompt.py:54 [re.findall(r"\b([\w\s\-]+)(\!+)", ...)]: phrases and
    numbers of bangs. *)
Definition phrase_char (c : char) : bool := is_word c || isspace c || ch 45 c.
Fixpoint find_bangs (prev : bool) (skip : nat) (s : str) : list (str * nat) :=
  match s with
  | [] => []
  | c :: s' =>
      match skip with
      | Datatypes.S k => find_bangs (is_word c) k s'
      | O =>
          let s1 := drop_while phrase_char s in
          if xorb prev (is_word c) && head_is phrase_char s && head_is (ch 33) s1
          then (take_while phrase_char s, run (ch 33) s1)
               :: find_bangs (is_word c) (pred (run phrase_char s + run (ch 33) s1)) s'
          else find_bangs (is_word c) 0 s'
      end
  end.

(** [str(round(pow(1.1, n), 2))]. *)
Variable bang_weight : nat -> str.
(** magicprompt.py:54-59. *)
Definition bangs_to_weights (s : str) : str :=
  fold_left
    (fun p m => replace p (fst m ++ repeat 33%N (snd m))
                  ($"(" ++ fst m ++ $":" ++ bang_weight (snd m) ++ $")"))
    (find_bangs false 0 s) s.

(** magicprompt.py:34-59: the fixes applied to the model's text. *)
Definition tidy (s : str) : str :=
  let s := strip (map brace_to_paren s) in
  let s := trim_nonword s in
  let s := resub m_close (resub m_open s) in
  let s := resub m_hyphen s in
  let s := resub m_stop s in
  let s := resub m_under s in
  let s := resub m_empty s in
  bangs_to_weights s.

(** magicprompt.py:24-65 [clean_up_magic_prompt]. *)
Definition clean_up_magic_prompt (orig prompt : str) : str :=
  if startswith prompt orig
  then orig ++ $" " ++ tidy (skipn (length orig) prompt)
  else tidy prompt.

Section Magic.
(** [self._generator(prompts, ...)], the language model: one text per prompt
    is expected, but nothing is assumed. *)
Context {S : Type}.
Variable model : list str -> S -> list str * S.
(** [self._blocklist_regex.search(prompt)]. *)
Variable blocked : str -> bool.

(** magicprompt.py:209-229 [_generate_magic_prompts]. *)
Definition generate_magic_prompts (origs : list str) (s : S) : list str * S :=
  let (texts, s) := model origs s in
  (map (fun op => clean_up_magic_prompt (fst op) (snd op)) (combine origs texts), s).

(** [magic_prompts[i] = prompt]. *)
Fixpoint set_nth {A} (i : nat) (x : A) (l : list A) : list A :=
  match i, l with
  | _, [] => []
  | O, _ :: l' => x :: l'
  | Datatypes.S i', y :: l' => y :: set_nth i' x l'
  end.

(** magicprompt.py:187-191: the indexes of the blocked prompts. *)
Fixpoint blocked_from (i : nat) (prompts : list str) : list nat :=
  match prompts with
  | [] => []
  | p :: ps => if blocked p then i :: blocked_from (Datatypes.S i) ps
               else blocked_from (Datatypes.S i) ps
  end.

(** magicprompt.py:186-201: the loop; [None] is the [IndexError] of
    [original_prompts[index]].  Also returned: the number of attempts that
    called the model. *)
Fixpoint lookup_all (origs : list str) (idx : list nat) : option (list str) :=
  match idx with
  | [] => Some []
  | i :: idx' =>
      match nth_error origs i, lookup_all origs idx' with
      | Some o, Some os => Some (o :: os)
      | _, _ => None
      end
  end.
Fixpoint regenerate_loop (attempts : nat) (origs magic : list str) (s : S)
    : option (list str * nat * S) :=
  match attempts with
  | O => Some (magic, 0, s)
  | Datatypes.S a =>
      match blocked_from 0 magic with
      | [] => Some (magic, 0, s)
      | idx =>
          match lookup_all origs idx with
          | None => None
          | Some todo =>
              let (new, s) := generate_magic_prompts todo s in
              let magic' :=
                fold_left (fun acc ip => set_nth (fst ip) (snd ip) acc)
                  (combine idx new) magic in
              match regenerate_loop a origs magic' s with
              | Some (final, used, s) => Some (final, Datatypes.S used, s)
              | None => None
              end
          end
      end
  end.

(** magicprompt.py:166-207 [generate] and [_regenerate_blocked_prompts];
    [has_blocklist] tells whether a blocklist is configured. *)
Definition magic_generate (has_blocklist : bool) (max_attempts : nat)
    (prompts : list str) (s : S) : option (list str * nat * S) :=
  let (magic, s) := generate_magic_prompts prompts s in
  if has_blocklist then regenerate_loop max_attempts prompts magic s
  else Some (magic, 0, s).
End Magic.
End Cleanup.

Section Attention.
Variable G : rng_impl.
(** [find_noun_chunks], attentiongenerator.py:62-68 (cached, pure), with the
    chunker found by attentiongenerator.py:36-61. *)
Variable chunks : str -> list str.
(** [str(attention)]: how Python prints the number. *)
Variable show : Qc -> str.

(** [sorted((a, b))], attentiongenerator.py:81-83. *)
Definition ordered (a b : Qc) : Qc * Qc := if Qc_ltb b a then (b, a) else (a, b).

(** [Random.uniform(a, b)] = a + (b - a) * random(); every operation rounds. *)
Definition uniform (a b : Qc) (r : rng_state G) : Qc * rng_state G :=
  let (u, r') := random01 G r in (fl G (a + fl G (u * fl G (b - a)))%Qc, r').

(** [round(x, 2)]: nearest multiple of 1/100, ties to the even one. *)
Definition round2 (x : Qc) : Qc :=
  let y := (this x * (100 # 1))%Q in
  let f := Qfloor y in
  let d := (y - inject_Z f)%Q in
  let z := match Qcompare d (1 # 2) with
           | Lt => f
           | Gt => (f + 1)%Z
           | Eq => if Z.even f then f else (f + 1)%Z
           end in
  Q2Qc (z # 100).

(** attentiongenerator.py:88-97 [_add_emphasis] with ordered bounds. *)
Definition add_emphasis (lo hi : Qc) (prompt : str) (r : rng_state G)
    : out (rng_state G) str :=
  match chunks prompt with
  | [] => Ret prompt r
  | keywords =>
      match choice G (length keywords) r with
      | RErr e r => Exn e r
      | ROk i r =>
          let keyword := nth i keywords [] in
          let (x, r) := uniform lo hi r in
          Ret (replace prompt keyword
                 ($"(" ++ keyword ++ $":" ++ show (round2 x) ++ $")")) r
      end
  end.

(** attentiongenerator.py:77-86,99-103 [AttentionGenerator.generate] applied to
    the prompts of the wrapped generator. *)
Fixpoint emphasise_all (lo hi : Qc) (prompts : list str) (r : rng_state G)
    : out (rng_state G) (list str) :=
  match prompts with
  | [] => Ret [] r
  | p :: ps =>
      bind (add_emphasis lo hi p r) (fun q r =>
      bind (emphasise_all lo hi ps r) (fun qs r => Ret (q :: qs) r))
  end.
Definition attention_generate (min_attention max_attention : Qc) (prompts : list str)
    (r : rng_state G) : out (rng_state G) (list str) :=
  let (lo, hi) := ordered min_attention max_attention in
  emphasise_all lo hi prompts r.
End Attention.

Section Chunker.
(** [str.isdigit] of one character. *)
Variable digit : char -> bool.

(** [c in string.punctuation]. *)
Definition is_punctuation (c : char) : bool :=
  (N.leb 33 c && N.leb c 47) || (N.leb 58 c && N.leb c 64)
  || (N.leb 91 c && N.leb c 96) || (N.leb 123 c && N.leb c 126).

(** attentiongenerator.py:17-22 [is_valid_chunk]. *)
Definition is_valid_chunk (chunk : str) : bool :=
  let isdigit := match chunk with [] => false | _ => forallb digit chunk end in
  negb isdigit && negb (forallb is_punctuation chunk).

Definition split_punct (c : char) : bool := existsb (N.eqb c) $",;:.?!()".

(** [re.split(r"\s*[,;:.?!()]+\s*", s)]; [cur] is the current piece reversed,
    [skip] counts characters of the separator still to be dropped. *)
Fixpoint resplit (cur : str) (skip : nat) (s : str) : list str :=
  match s with
  | [] => [rev cur]
  | c :: s' =>
      match skip with
      | Datatypes.S k => resplit cur k s'
      | O =>
          let s1 := drop_while isspace s in
          let s2 := drop_while split_punct s1 in
          if head_is split_punct s1
          then rev cur :: resplit [] (pred (run isspace s + run split_punct s1 + run isspace s2)) s'
          else resplit (c :: cur) 0 s'
      end
  end.

(** attentiongenerator.py:25-33 [cheap_chunker]. *)
Definition cheap_chunker (prompt : str) : list str :=
  filter is_valid_chunk (resplit [] 0 (strip prompt)).
End Chunker.

Section Lucky.
(** feelinglucky.py:34-54 [FeelingLuckyGenerator] and its [generate]: [queries] is
    the wrapped generator's answer, [search] is [query_lexica]
    (feelinglucky.py:15-28, an HTTP request) followed by reading
    the prompts ([None]: anything that goes wrong there). *)
Variable G : rng_impl.
Variable search : str -> option (list str).
Variable show_int : Z -> str.
Definition lucky_generate (queries : list str) (num_prompts : nat) (r : rng_state G)
    : out (rng_state G) (list str) :=
  match queries with
  | [] => Exn EIndex r
  | q :: _ =>
      let '(query, r) :=
        match strip q with
        | [] => match randint G 0 10000000 r with
                | Some (z, r) => (show_int z, r)
                | None => (q, r)  (* not reached: the range is not empty *)
                end
        | _ => (q, r)
        end in
      match search query with
      | None => Exn EGenerator r
      | Some prompts =>
          (* [random.choices] without weights: [population[floor(random() * n)]],
             where [n] is the length as a float *)
          (fix draw (k : nat) (r : rng_state G) : out (rng_state G) (list str) :=
             match k with
             | O => Ret [] r
             | Datatypes.S k' =>
                 let (u, r1) := random01 G r in
                 let n := fl G (Q2Qc (inject_Z (Z.of_nat (length prompts)))) in
                 let i := Z.to_nat (Qfloor (this (fl G (u * n)%Qc))) in
                 match nth_error prompts i with
                 | None => Exn EGenerator r1
                 | Some p => bind (draw k' r1) (fun ts r2 => Ret (p :: ts) r2)
                 end
             end) num_prompts r
      end
  end.
End Lucky.
