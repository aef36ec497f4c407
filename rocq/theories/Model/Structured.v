(** src/dynamicprompts/wildcards/collection/structured.py and list.py. *)
From Coq Require Import String NArith ZArith QArith Qcanon Bool List.
From Verif.Model Require Import Str Utils Rng Values Context.
Import ListNotations.

(** What [json.loads] and [yaml.safe_load] return.  Dictionary keys are
    strings or something else (YAML); [JOther]: any other truthy value, such
    as a date. *)
Inductive jval :=
| JNull
| JBool (b : bool)
| JNum (q : Qc)
| JStr (s : str)
| JList (l : list jval)
| JDict (d : list (option str * jval))
| JOther (n : N).

(** Behaviour of Python's standard library that is left open: [isdigit] of a
    character, [float] of a string ([None]: ValueError; results are taken to
    be rationals, no nan or infinities), [str] of a value, and the JSON and YAML
    readers ([None]: they raise). *)
Record pylib := {
  py_isdigit : char -> bool;
  py_float : str -> option Qc;
  py_str : jval -> str;
  py_json : str -> option jval;
  py_yaml : str -> option jval
}.

(** [bool(value)]. *)
Definition jtruthy (v : jval) : bool :=
  match v with
  | JNull => false
  | JBool b => b
  | JNum q => negb (Qc_eq_bool q 0)
  | JStr [] | JList [] | JDict [] => false
  | JStr (_ :: _) | JList (_ :: _) | JDict (_ :: _) | JOther _ => true
  end.

(** [d.get(key)] for a string key; a dictionary has a key only once. *)
Fixpoint jget (key : str) (d : list (option str * jval)) : option jval :=
  match d with
  | [] => None
  | (Some k, v) :: d' => if str_eqb k key then Some v else jget key d'
  | (None, _) :: d' => jget key d'
  end.

Section Parse.
Variable P : pylib.

(** [float(v)]: TypeError for anything but numbers and strings. *)
Definition jfloat (v : jval) : res Qc :=
  match v with
  | JNum q => Ok q
  | JBool true => Ok 1%Qc
  | JBool false => Ok 0%Qc
  | JStr s => match py_float P s with Some q => Ok q | None => Err EValue end
  | _ => Err EType
  end.

(** [s.rpartition("::")] when it contains "::" : text before and after the
    last occurrence. *)
Fixpoint rpartition_colons (s : str) : option (str * str) :=
  match s with
  | [] => None
  | c :: s' =>
      match rpartition_colons s' with
      | Some (a, b) => Some (c :: a, b)
      | None => if startswith s $"::" then Some ([], skipn 2 s) else None
      end
  end.

(** structured.py:24-36: a string entry. *)
Definition parse_string_item (s : str) : witem :=
  let plain := {| w_content := s; w_weight_opt := None |} in
  match s with
  | [] => plain
  | c :: _ =>
      if py_isdigit P c then
        match rpartition_colons s with
        | Some (weight_text, content) =>
            match py_float P weight_text with
            | Some q => {| w_content := content; w_weight_opt := Some q |}
            | None => plain
            end
        | None => plain
        end
      else plain
  end.

(** The text of an entry's content: [content] itself for a string.  Another
    truthy value is yielded as it is and converted by [str] later. *)
Definition content_text (v : jval) : str :=
  match v with JStr s => s | _ => py_str P v end.

Definition default_jval (o : option jval) (d : jval) : jval :=
  match o with Some v => v | None => d end.

(** structured.py:21-48, one iteration of the loop: [None] when nothing is
    yielded. *)
Definition parse_list_item (item : jval) : res (option witem) :=
  if negb (jtruthy item) then Ok None
  else
    match item with
    | JStr s => Ok (Some (parse_string_item s))
    | JDict d =>
        match jfloat (default_jval (jget $"weight" d) (JNum 1)) with
        | Err e => Err e
        | Ok weight =>
            let text := default_jval (jget $"text" d) JNull in
            let content :=
              if jtruthy text then text
              else let c := default_jval (jget $"content" d) JNull in
                   if jtruthy c then c else JStr [] in
            if jtruthy content then
              if Qc_eq_bool weight 1
              then Ok (Some {| w_content := content_text content; w_weight_opt := None |})
              else Ok (Some {| w_content := content_text content;
                               w_weight_opt := Some weight |})
            else Ok None
        end
    | _ => Ok None
    end.

(** structured.py:17-48 [_parse_structured_file_list], run to its end. *)
Fixpoint parse_list (value : list jval) : res (list witem) :=
  match value with
  | [] => Ok []
  | item :: rest =>
      match parse_list_item item with
      | Err e => Err e
      | Ok o =>
          match parse_list rest with
          | Err e => Err e
          | Ok l => Ok (match o with Some i => i :: l | None => l end)
          end
      end
  end.

(** structured.py:51-95 [_parse_structured_file_dict]: the body of the loop,
    for one key and value, with the recursive call passed in. *)
Fixpoint parse_value (prefix_and_name : list str) (value : jval)
    : list (str * list witem) :=
  let emit l :=
    match parse_list l with
    | Ok entries => [(join $"/" prefix_and_name, entries)]
    | Err _ => []
    end in
  if negb (jtruthy value) then []
  else
    match value with
    | JStr s => emit [value]
    | JList l => emit l
    | JDict d =>
        (fix go (d : list (option str * jval)) : list (str * list witem) :=
           match d with
           | [] => []
           | (Some name, v) :: d' => parse_value (prefix_and_name ++ [name]) v ++ go d'
           | (None, _) :: d' => go d'
           end) d
    | _ => []
    end.

Definition parse_dict (prefix : list str) (d : list (option str * jval))
    : list (str * list witem) :=
  flat_map (fun kv => match kv with
                      | (Some name, v) => parse_value (prefix ++ [name]) v
                      | (None, _) => []
                      end) d.

(** structured.py:98-129 [parse_structured_file] on the data read from the
    file; [stem] is [file_path.with_suffix("").name]. *)
Definition parse_data (stem : str) (data : jval) : list (str * list witem) :=
  match data with
  | JDict d => parse_dict [] d
  | JList l =>
      match flat_map (fun e => match e with JStr s => [s] | _ => [] end) l with
      | [] => []
      | valid => [(stem, map (fun s => {| w_content := s; w_weight_opt := None |}) valid)]
      end
  | _ => []
  end.
End Parse.
