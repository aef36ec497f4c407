(** What wildcard files contain.  From Model/ only data types are used (the
    JSON-like values, the items, the open library functions). *)
From Coq Require Import NArith ZArith QArith Qcanon Bool Arith List.
From Verif.Model Require Import Values Structured.
From Verif.Spec Require Import Text Names.
Import ListNotations.
Local Open Scope nat_scope.

(** Line breaks: "\n", "\r\n", or "\r" not followed by "\n". *)
Definition NewlineChar (c : N) : Prop := c = 10%N \/ c = 13%N.
Definition LineBreak (nl rest : text) : Prop :=
  nl = [10%N] \/ nl = [13; 10]%N \/ (nl = [13%N] /\ forall r, rest <> 10%N :: r).

(** [Lines content ls]: the lines without their breaks; text after the last
    break counts as a line unless it is empty. *)
Inductive Lines : text -> list text -> Prop :=
| Lines_none : Lines [] []
| Lines_last : forall l, l <> [] -> Forall (fun c => ~ NewlineChar c) l -> Lines l [l]
| Lines_more : forall l nl rest ls,
    Forall (fun c => ~ NewlineChar c) l -> LineBreak nl rest ->
    Lines rest ls -> Lines (l ++ nl ++ rest) (l :: ls).

(** [t] is [s] without whitespace at its ends. *)
Definition Trimmed (s t : text) : Prop :=
  exists a b, s = a ++ t ++ b /\ Forall Space a /\ Forall Space b /\
    (forall c t', t = c :: t' -> ~ Space c) /\ (forall c t', t = t' ++ [c] -> ~ Space c).

Definition Ignored (t : text) : Prop := t = [] \/ exists t', t = 35%N :: t'.

(** Lines to values: trimmed, without empty lines and comments, in order. *)
Inductive Kept : list text -> list text -> Prop :=
| Kept_nil : Kept [] []
| Kept_skip : forall l t ls vs, Trimmed l t -> Ignored t -> Kept ls vs -> Kept (l :: ls) vs
| Kept_keep : forall l t ls vs, Trimmed l t -> ~ Ignored t -> Kept ls vs -> Kept (l :: ls) (t :: vs).

Definition FileValues (content : text) (vs : list text) : Prop :=
  exists ls, Lines content ls /\ Kept ls vs.

(** Structured files. *)
Definition Falsy (v : jval) : Prop :=
  v = JNull \/ v = JBool false \/ v = JNum 0 \/ v = JStr [] \/ v = JList [] \/ v = JDict [].

(** [v] is stored in the dictionary under the path of keys. *)
Inductive Leads : list (option text * jval) -> list text -> jval -> Prop :=
| Leads_here : forall d k v, In (Some k, v) d -> Leads d [k] v
| Leads_down : forall d k d' path v,
    In (Some k, JDict d') d -> Leads d' path v -> Leads d (k :: path) v.

(** A collection: a list, or one string. *)
Definition Leaf (v : jval) (l : list jval) : Prop :=
  (v = JList l /\ l <> []) \/ (exists s, v = JStr s /\ s <> [] /\ l = [v]).

Section Entries.
Variable P : pylib.

(** [s] is "weight::content", cut at the last "::". *)
Definition WeightedText (s : text) (q : Qc) (content : text) : Prop :=
  exists c r wt, s = c :: r /\ py_isdigit P c = true /\
    s = wt ++ [58; 58]%N ++ content /\ ~ Contains (58%N :: content) [58; 58]%N /\
    py_float P wt = Some q.

(** The first value of a key; none counts as [null]. *)
Inductive KeyVal (key : text) : list (option text * jval) -> jval -> Prop :=
| KeyVal_none : forall d, (forall v, ~ In (Some key, v) d) -> KeyVal key d JNull
| KeyVal_some : forall d1 v d2,
    (forall v', ~ In (Some key, v') d1) -> KeyVal key (d1 ++ (Some key, v) :: d2) v.

Definition k_weight : text := [119; 101; 105; 103; 104; 116]%N.
Definition k_text : text := [116; 101; 120; 116]%N.
Definition k_content : text := [99; 111; 110; 116; 101; 110; 116]%N.

(** The number a weight stands for. *)
Inductive WeightIs : list (option text * jval) -> Qc -> Prop :=
| WeightIs_absent : forall d, (forall v, ~ In (Some k_weight, v) d) -> WeightIs d 1%Qc
| WeightIs_num : forall d1 d2 q, (forall v', ~ In (Some k_weight, v') d1) ->
    WeightIs (d1 ++ (Some k_weight, JNum q) :: d2) q
| WeightIs_bool : forall d1 d2 b, (forall v', ~ In (Some k_weight, v') d1) ->
    WeightIs (d1 ++ (Some k_weight, JBool b) :: d2) (if b then 1 else 0)%Qc
| WeightIs_text : forall d1 d2 s q, (forall v', ~ In (Some k_weight, v') d1) ->
    py_float P s = Some q -> WeightIs (d1 ++ (Some k_weight, JStr s) :: d2) q.

(** The content of a dictionary entry: "text" unless empty, else "content". *)
Definition ContentIs (d : list (option text * jval)) (v : jval) : Prop :=
  (KeyVal k_text d v /\ ~ Falsy v) \/
  (exists t, KeyVal k_text d t /\ Falsy t /\ KeyVal k_content d v).

Definition TextOf (v : jval) (t : text) : Prop :=
  v = JStr t \/ ((forall s, v <> JStr s) /\ t = py_str P v).

(** What one list entry contributes. *)
Inductive EntryOf : jval -> option witem -> Prop :=
| EntryOf_falsy : forall v, Falsy v -> EntryOf v None
| EntryOf_weighted : forall s q content, WeightedText s q content ->
    EntryOf (JStr s) (Some {| w_content := content; w_weight_opt := Some q |})
| EntryOf_text : forall s, s <> [] -> (forall q content, ~ WeightedText s q content) ->
    EntryOf (JStr s) (Some {| w_content := s; w_weight_opt := None |})
| EntryOf_dict_one : forall d v t, WeightIs d 1%Qc -> ContentIs d v -> ~ Falsy v -> TextOf v t ->
    EntryOf (JDict d) (Some {| w_content := t; w_weight_opt := None |})
| EntryOf_dict : forall d q v t, WeightIs d q -> q <> 1%Qc -> ContentIs d v -> ~ Falsy v ->
    TextOf v t -> EntryOf (JDict d) (Some {| w_content := t; w_weight_opt := Some q |})
| EntryOf_dict_empty : forall d q v, d <> [] -> WeightIs d q -> ContentIs d v -> Falsy v ->
    EntryOf (JDict d) None
| EntryOf_other : forall v, ~ Falsy v -> (forall s, v <> JStr s) -> (forall d, v <> JDict d) ->
    EntryOf v None.

(** All entries of a list, in order. *)
Inductive EntriesOf : list jval -> list witem -> Prop :=
| EntriesOf_nil : EntriesOf [] []
| EntriesOf_skip : forall v l is, EntryOf v None -> EntriesOf l is -> EntriesOf (v :: l) is
| EntriesOf_item : forall v l i is,
    EntryOf v (Some i) -> EntriesOf l is -> EntriesOf (v :: l) (i :: is).

(** The collections of a structured file whose top level is a dictionary. *)
Definition FileCollection (d : list (option text * jval)) (name : text) (items : list witem) : Prop :=
  exists path v l, Leads d path v /\ Leaf v l /\ EntriesOf l items /\
    name = interleave [slash] path.
End Entries.

(** The strings of a list, in order. *)
Inductive StringsOf : list jval -> list text -> Prop :=
| StringsOf_nil : StringsOf [] []
| StringsOf_str : forall s l r, StringsOf l r -> StringsOf (JStr s :: l) (s :: r)
| StringsOf_skip : forall v l r, (forall s, v <> JStr s) -> StringsOf l r -> StringsOf (v :: l) r.

(** Operations on a text file object, and the text the file has after them:
    the last one written, or the one it had at first. *)
Inductive text_op := TGet | TRead | TWrite (contents : text).
Definition Current (init : text) (ops : list text_op) (content : text) : Prop :=
  (content = init /\ forall t, ~ In (TWrite t) ops) \/
  (exists before after, ops = before ++ TWrite content :: after /\ forall t, ~ In (TWrite t) after).
