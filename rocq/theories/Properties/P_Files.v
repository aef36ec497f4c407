(** C37, C38: wildcard files. *)
From Coq Require Import String NArith ZArith QArith Qcanon Bool Arith List Permutation Lia.
From Verif.Model Require Import Str Utils Rng Values Context Names Structured TextFile Tree.
From Verif.Spec Require Import Text Names Files Tree.
From Verif.Proofs Require Import StrFacts NamesFacts FileFacts TreeFacts BuildFacts HistoryFacts.
Import ListNotations.
Local Open Scope nat_scope.

Theorem C37_values_of_text : forall content vs, FileValues content vs <-> text_values content = vs.
Proof. exact text_values_iff. Qed.

(** Reads and writes through one object. *)
Theorem C37_reads_see_the_last_write : forall init ops content vs,
  Current init ops content ->
  (FileValues content vs <-> fst (tf_get_values (run_text_ops ops (tf_open init))) = vs).
Proof. exact text_history. Qed.

(** [read_text] gives the text with its line breaks made uniform: the values
    are the same. *)
Theorem C37_read_text : forall init ops content vs,
  Current init ops content ->
  (FileValues content vs <-> FileValues (tf_read_text (run_text_ops ops (tf_open init))) vs).
Proof. exact read_text_history. Qed.

Example C37_example :
  text_values ($"red" ++ [13; 10]%N ++ $"# no" ++ [10]%N ++ $"  dark blue " ++ [10; 10]%N ++ $"x # y")
  = [$"red"; $"dark blue"; $"x # y"].
Proof. vm_compute. reflexivity. Qed.
Example C37_example_history :
  Current $"a" [TGet; TWrite $"b"; TGet; TRead; TGet] $"b" /\
  fst (tf_get_values (run_text_ops [TGet; TWrite $"b"; TGet; TRead; TGet] (tf_open $"a"))) = [$"b"].
Proof.
  split; [|vm_compute; reflexivity].
  right. exists [TGet], [TGet; TRead; TGet]. split; [reflexivity|].
  intros t [H|[H|[H|[]]]]; discriminate.
Qed.

(** Structured files. *)
Theorem C38_collections : forall P d name items,
  In (name, items) (parse_dict P [] d) <-> FileCollection P d name items.
Proof. exact parse_dict_spec. Qed.

Theorem C38_entries : forall P l items, parse_list P l = Ok items <-> EntriesOf P l items.
Proof. exact parse_list_spec. Qed.

(** A part of the file contributes the same whatever stands around it. *)
Theorem C38_parts_are_independent : forall P stem d1 kv d2,
  parse_data P stem (JDict (d1 ++ kv :: d2))
  = parse_data P stem (JDict d1) ++ parse_data P stem (JDict [kv]) ++ parse_data P stem (JDict d2).
Proof.
  intros P stem d1 kv d2. unfold parse_data, parse_dict. rewrite flat_map_app. cbn.
  now rewrite app_nil_r.
Qed.

(** A file that is one list: its strings, under the name of the file. *)
Theorem C38_list_file : forall P stem l name items,
  In (name, items) (parse_data P stem (JList l)) <->
  name = stem /\ items <> [] /\
  exists strings, StringsOf l strings /\
    items = map (fun s => {| w_content := s; w_weight_opt := None |}) strings.
Proof. exact list_file_spec. Qed.

(** Where the collections of a file are registered: below its directory. *)
Theorem C38_registered : forall P root dir f stem content d name c,
  HasSuffix f stem $".json" \/ HasSuffix f stem $".yaml" ->
  (HasSuffix f stem $".json" -> py_json P content = Some (JDict d)) ->
  (HasSuffix f stem $".yaml" -> py_yaml P content = Some (JDict d)) ->
  Forall (fun x => x <> []) dir -> (forall d x, dir = d ++ [x] -> ~ In 46%N x) ->
  (In (name, c) (collections_from_path P root dir f content) <->
   exists n items, FileCollection P d n items /\ c = CList items /\
     name = concat (map (fun x => x ++ [slash]) dir) ++ n).
Proof. exact structured_registered. Qed.

Definition lib0 : pylib := {|
  py_isdigit := fun c => N.leb 48 c && N.leb c 57;
  py_float := fun s => if str_eqb s $"2" then Some (Q2Qc (2 # 1)) else if str_eqb s $"0.5" then Some (Q2Qc (1 # 2)) else None;
  py_str := fun _ => $"?";
  py_json := fun s => if str_eqb s $"J"
                      then Some (JDict [(Some $"warm", JList [JStr $"red"])]) else None;
  py_yaml := fun _ => None |}.

Example C38_example :
  parse_data lib0 $"f" (JDict
    [(Some $"colours", JDict [(Some $"warm", JList [JStr $"2::red"; JNull; JStr $"x::y";
        JDict [(Some $"weight", JNum (Q2Qc (1 # 2))); (Some $"text", JStr $"pink")]]);
      (None, JList [JStr $"lost"])]);
     (Some $"one", JStr $"single"); (Some $"empty", JList [])])
  = [($"colours/warm", [ {| w_content := $"red"; w_weight_opt := Some (Q2Qc (2 # 1)) |};
                         {| w_content := $"x::y"; w_weight_opt := None |};
                         {| w_content := $"pink"; w_weight_opt := Some (Q2Qc (1 # 2)) |} ]);
     ($"one", [ {| w_content := $"single"; w_weight_opt := None |} ])].
Proof. vm_compute. reflexivity. Qed.
Example C38_example_registered :
  HasSuffix $"c.json" $"c" $".json" /\
  collections_from_path lib0 [$"root"] [$"a"; $"b"] $"c.json" $"J"
  = [($"a/b/warm", CList [ {| w_content := $"red"; w_weight_opt := None |} ])].
Proof.
  split; [|vm_compute; reflexivity]. split; [reflexivity|]. split; [discriminate|].
  exists $"json". split; [reflexivity|]. split; [discriminate|].
  intros H. cbn in H. repeat (destruct H as [H|H]; [discriminate|]). exact H.
Qed.
(** A directory with a dot in its name loses its suffix for structured files,
    but not for text files. *)
Theorem C38_dotted_directory_refuted : exists P root dir f content name c,
  In (name, c) (collections_from_path P root dir f content) /\
  ~ StartsWith name (concat (map (fun x => x ++ [slash]) dir)).
Proof.
  exists lib0, [$"root"], [$"v1.0"], $"c.json", $"J", $"v1/warm",
    (CList [ {| w_content := $"red"; w_weight_opt := None |} ]).
  split; [vm_compute; now left|]. intros H. apply startswith_spec in H. vm_compute in H. discriminate.
Qed.

Print Assumptions C37_values_of_text.
Print Assumptions C37_reads_see_the_last_write.
Print Assumptions C37_read_text.
Print Assumptions C38_collections.
Print Assumptions C38_entries.
Print Assumptions C38_parts_are_independent.
Print Assumptions C38_list_file.
Print Assumptions C38_registered.
Print Assumptions C38_dotted_directory_refuted.
