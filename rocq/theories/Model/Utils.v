(** src/dynamicprompts/utils.py and src/dynamicprompts/sampling_result.py,
    the parts that do not involve generators or random numbers.  A
    [SamplingResult] is its text: sampling_result.py:17-18 [__str__] gives it,
    sampling_result.py:26-32 [whitespace_squashed] and [text_replaced] apply a function to it, and types.py:15-30 [to_result_gen] and
    [to_string_gen] convert between the two. *)
From Coq Require Import String NArith Bool List.
From Verif.Model Require Import Str.
Import ListNotations.

(** utils.py:13-14 [removeprefix]. *)
Definition removeprefix (s prefix : str) : str :=
  match prefix with
  | [] => s
  | _ => if startswith s prefix then skipn (length prefix) s else s
  end.

(** utils.py:17-18 [removesuffix]; [s[:-len(suffix)]]. *)
Definition removesuffix (s suffix : str) : str :=
  match suffix with
  | [] => s
  | _ => if endswith s suffix then firstn (length s - length suffix) s else s
  end.

(** utils.py:21-22 [squash_whitespace]. *)
Definition squash_whitespace (s : str) : str := join $" " (split_ws s).

(** utils.py:25-26 [is_empty_line] ([None] case left out: no caller passes it). *)
Definition is_empty_line (line : str) : bool :=
  str_eqb (strip line) [] || startswith (strip line) $"#".

(** utils.py:29-37 [dedupe]; the key of a [SamplingResult] is its text
    (sampling_result.py:20-24), so one function on texts is enough.  [seen]
    is the set [seen_keys]. *)
Fixpoint dedupe_aux (seen : list str) (arr : list str) : list str :=
  match arr with
  | [] => []
  | item :: rest =>
      if str_mem item seen then dedupe_aux seen rest
      else item :: dedupe_aux (item :: seen) rest
  end.
Definition dedupe (arr : list str) : list str := dedupe_aux [] arr.

(** sampling_result.py:48-72 [SamplingResult.joined] on texts. *)
Definition joined (results : list str) (separator : str) : str :=
  match results with
  | [r] => r
  | _ =>
      let j := join separator results in
      match separator with
      | [] => j
      | _ => removesuffix (removeprefix j separator) separator
      end
  end.

(** commands/wrap_command.py:12-20 [WRAP_MARKER_CHARACTERS]. *)
Definition wrap_marker_char (c : char) : bool :=
  existsb (N.eqb c) [6145; 8230; 8942; 8943; 8944; 8945; 65049]%N.

Definition is_dot (c : char) : bool := N.eqb c 46.

(** commands/wrap_command.py:22-26 [WRAP_MARKER_RE] matched at the start of
    [s]: the text after the match, if it matches. *)
Definition match_wrap_marker (s : str) : option str :=
  match take_while wrap_marker_char s with
  | _ :: _ => Some (drop_while wrap_marker_char s)
  | [] =>
      if Nat.leb 3 (length (take_while is_dot s))
      then Some (drop_while is_dot s)
      else None
  end.

(** commands/wrap_command.py:29-38 [split_wrapper_string]; [re.search] tries
    the positions from left to right. *)
Fixpoint search_wrap_marker (s : str) : option (str * str) :=
  match match_wrap_marker s with
  | Some rest => Some ([], rest)
  | None =>
      match s with
      | [] => None
      | c :: s' =>
          match search_wrap_marker s' with
          | Some (p, q) => Some (c :: p, q)
          | None => None
          end
      end
  end.
Definition split_wrapper_string (s : str) : str * str :=
  match search_wrap_marker s with
  | None => (s, [])
  | Some pq => pq
  end.

(** sampling_result.py:34-46 [SamplingResult.as_wrapper]. *)
Definition as_wrapper (wrapper inner : str) : str :=
  let (prefix, suffix) := split_wrapper_string wrapper in
  joined [prefix; inner; suffix] [].
