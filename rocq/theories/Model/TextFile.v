(** src/dynamicprompts/wildcards/collection/text_file.py.  File contents are
    decoded text: bytes, encodings and decoding errors ([errors="ignore"]) are
    not modelled. *)
From Coq Require Import String NArith Bool List.
From Verif.Model Require Import Str Utils.
Import ListNotations.

(** Universal newlines of text mode: "\r\n" and "\r" are read as "\n". *)
Fixpoint universal_newlines (s : str) : str :=
  match s with
  | [] => []
  | c :: s' =>
      if N.eqb c 13 then
        10%N :: match s' with
                | d :: s'' => if N.eqb d 10 then universal_newlines s'' else universal_newlines s'
                | [] => []
                end
      else c :: universal_newlines s'
  end.

(** Iterating over a text file: lines with their final "\n". *)
Fixpoint file_lines_aux (cur : str) (s : str) : list str :=
  match s with
  | [] => match cur with [] => [] | _ => [rev cur] end
  | c :: s' =>
      if N.eqb c 10 then rev (c :: cur) :: file_lines_aux [] s'
      else file_lines_aux (c :: cur) s'
  end.
Definition file_lines (content : str) : list str :=
  file_lines_aux [] (universal_newlines content).

(** text_file.py:32, the list comprehension. *)
Definition text_values (content : str) : list str :=
  flat_map (fun line => if is_empty_line line then [] else [strip line])
           (file_lines content).

(** A [WildcardTextFile] together with the file it stands for; the file always
    exists (see Model/Manager.v for the general case). *)
Record text_file := { tf_content : str; tf_cache : option (list str) }.

(** text_file.py:15-22 [__init__]. *)
Definition tf_open (content : str) : text_file :=
  {| tf_content := content; tf_cache := None |}.

(** text_file.py:27-34 [get_values]. *)
Definition tf_get_values (f : text_file) : list str * text_file :=
  match tf_cache f with
  | Some c => (c, f)
  | None =>
      let lines := text_values (tf_content f) in
      (lines, {| tf_content := tf_content f; tf_cache := Some lines |})
  end.

(** text_file.py:36-40 [read_text]. *)
Definition tf_read_text (f : text_file) : str := universal_newlines (tf_content f).

(** text_file.py:42-47 [write_text]. *)
Definition tf_write_text (contents : str) (f : text_file) : text_file :=
  {| tf_content := contents; tf_cache := None |}.
