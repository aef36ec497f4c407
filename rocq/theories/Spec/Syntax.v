(** The template syntax as documented (docs/SYNTAX.md): which texts write
    which commands.  From Model/ only data types and the notation for string
    constants are used. *)
From Coq Require Import String NArith ZArith QArith Qcanon Bool Arith List Permutation Sorted.
From Verif.Model Require Import Str Command Parser.
From Verif.Spec Require Import Text Names Lookup.
Import ListNotations.
Local Open Scope nat_scope.

(** * Plain text and comments *)
Definition Blank (c : N) : Prop := In c [32; 9; 10; 13]%N.
Definition Blanks (w : text) : Prop := Forall Blank w.
Definition BlankStart (t : text) : Prop := exists c r, t = c :: r /\ Blank c.

(** A comment, possibly after whitespace, begins the text. *)
Definition BeginsComment (t : text) : Prop :=
  exists w r, t = w ++ r /\ Blanks w /\
    (StartsWith r $"#" \/ StartsWith r $"//" \/
     exists body after, r = $"/*" ++ body ++ $"*/" ++ after).

(** Characters that begin some template syntax. *)
Definition Reserved (C : parser_config) (c : N) : Prop :=
  c = 35%N \/ In c (variant_start C) \/ In c (variable_start C) \/ In c (wrap_start C).

Definition Plain (C : parser_config) (t : text) : Prop :=
  Forall (fun c => ~ Reserved C c /\ c <> 9%N) t /\ ~ Contains t (wildcard_wrap C).

(** Every opening mark is a non-empty text. *)
Definition Marks (C : parser_config) : Prop :=
  variant_start C <> [] /\ variable_start C <> [] /\ wrap_start C <> [] /\
  wildcard_wrap C <> [].

(** Which characters count as letters or digits: none of the reserved ones,
    no tab, no slash, and not all of the wildcard wrap. *)
Definition LettersAndDigits (C : parser_config) (alnum : N -> bool) : Prop :=
  (forall c, alnum c = true -> ~ Reserved C c /\ c <> 9%N /\ c <> 47%N /\ ~ Blank c) /\
  exists c, In c (wildcard_wrap C) /\ alnum c = false.

(** Text that may stand before a comment: plain, and not a comment itself. *)
Definition BeforeComment (C : parser_config) (t : text) : Prop :=
  Plain C t /\ forall w r, t = w ++ r -> Blanks w -> ~ StartsWith r $"/".

(** A line comment's body: no newline. *)
Definition OneLine (t : text) : Prop := ~ In 10%N t.

(** * Numbers *)
Inductive Numeral : text -> N -> Prop :=
| Numeral_one : forall d, (d < 10)%N -> Numeral [(48 + d)%N] d
| Numeral_more : forall ds n d, Numeral ds n -> (d < 10)%N ->
    Numeral (ds ++ [(48 + d)%N]) (10 * n + d)%N.

(** A weight: digits, or a signed decimal fraction with digits before or
    after the point. *)
Inductive WeightText : text -> Qc -> Prop :=
| Weight_int : forall ds n, Numeral ds n -> WeightText ds (Q2Qc (inject_Z (Z.of_N n)))
| Weight_real : forall sign (negative : bool) ip fp n q,
    (sign = [] /\ negative = false) \/ (sign = $"+" /\ negative = false) \/
    (sign = $"-" /\ negative = true) ->
    Numeral (ip ++ fp) n ->
    (q * Q2Qc (inject_Z (10 ^ Z.of_nat (length fp))) = Q2Qc (inject_Z (Z.of_N n)))%Qc ->
    WeightText (sign ++ ip ++ $"." ++ fp) (if negative then - q else q)%Qc.

(** The number of options to pick, for [count] options: lower and upper. *)
Inductive BoundText (count : nat) : text -> Z -> Z -> Prop :=
| Bound_exact : forall ds n, Numeral ds n -> BoundText count ds (Z.of_N n) (Z.of_N n)
| Bound_both : forall ds n es m, Numeral ds n -> Numeral es m ->
    BoundText count (ds ++ $"-" ++ es) (Z.of_N n) (Z.of_N m)
| Bound_upper : forall es m, Numeral es m -> BoundText count ($"-" ++ es) 1 (Z.of_N m)
| Bound_lower : forall ds n, Numeral ds n ->
    BoundText count (ds ++ $"-") (Z.of_N n) (Z.of_nat count).

(** Separators: printable ASCII except dollars and braces. *)
Definition SeparatorText (t : text) : Prop :=
  t <> [] /\ Forall (fun c => (32 <= c <= 126)%N /\ ~ In c $"${}") t.

(** The part between the opening brace and the options [o]: bounds and
    separator.  What can be read as bounds, or as a separator, is. *)
Inductive BoundsText (count : nat) (o : text) : text -> Z -> Z -> text -> Prop :=
| Bounds_none :
    (forall b lo hi r, BoundText count b lo hi -> o <> b ++ $"$$" ++ r) ->
    BoundsText count o [] 1 1 $","
| Bounds_default : forall b lo hi w, BoundText count b lo hi -> Blanks w ->
    (forall sep r, SeparatorText sep -> w ++ o <> sep ++ $"$$" ++ r) ->
    BoundsText count o (b ++ $"$$" ++ w) lo hi $","
| Bounds_separator : forall b lo hi sep w, BoundText count b lo hi -> SeparatorText sep ->
    Blanks w -> BoundsText count o (b ++ $"$$" ++ sep ++ $"$$" ++ w) lo hi sep.

(** Sampling marks. *)
Inductive MarkText : text -> option method -> Prop :=
| Mark_none : MarkText [] None
| Mark_random : MarkText $"~" (Some Random)
| Mark_combinatorial : MarkText $"!" (Some Combinatorial)
| Mark_cyclical : MarkText $"@" (Some Cyclical).
Definition MarkStart (t : text) : Prop := exists c r, t = c :: r /\ In c $"~!@".

(** Variable names. *)
Definition Letter (c : N) : Prop := (65 <= c <= 90)%N \/ (97 <= c <= 122)%N.
Definition NameStart (c : N) : Prop := Letter c \/ c = 95%N \/ c = 45%N.
Definition NameChar (c : N) : Prop := NameStart c \/ (48 <= c <= 57)%N.
Definition NameText (t : text) : Prop :=
  exists c r, t = c :: r /\ NameStart c /\ Forall NameChar r.

(** * Commands *)
Definition standard (ww : text) : parser_config := {|
  variant_start := $"{"; variant_end := $"}"; wildcard_wrap := ww;
  variable_start := $"${"; variable_end := $"}"; wrap_start := $"%{"; wrap_end := $"}" |}.

(** Wildcard wraps that do not collide with the rest of the syntax. *)
Definition WrapText (ww : text) : Prop :=
  ww <> [] /\ Forall (fun c => ~ In c $"#{}$%|()~!@: " /\ ~ Blank c) ww.

(** Where an element stands: at top level, inside braces, in the path of a
    wildcard. *)
Inductive place := Top | Inside | Path.
Definition Ordinary (p : place) (c : N) : Prop :=
  match p with
  | Top => ~ In c $"#{$%"
  | Inside => ~ In c $"#{$%|}"
  | Path => ~ In c $"#{$%()"
  end.

(** No wildcard wrap begins inside [t] when [after] follows it. *)
Definition NoWrapIn (ww t after : text) : Prop :=
  forall a b, t ++ after = a ++ ww ++ b -> length t <= length a.

(** What follows cannot continue a literal of ordinary characters. *)
Definition Break (ww : text) (p : place) (after : text) : Prop :=
  after = [] \/ StartsWith after ww \/ exists c r, after = c :: r /\ ~ Ordinary p c.

(** A literal in the path of a wildcard that begins with a closing
    parenthesis is read as inside braces. *)
Definition ReadAs (p : place) (t : text) (q : place) : Prop :=
  q = p \/ (p = Path /\ q = Inside /\ StartsWith t $")").

Definition IsLiteral (c : command) : Prop := exists t m, c = Lit t m.

(** A list of elements as one command. *)
Inductive Together : list command -> command -> Prop :=
| Together_one : forall c, Together [c] c
| Together_many : forall cs, length cs <> 1 -> Together cs (Seq cs [] None).

(** [d] is [t] without whitespace at its ends. *)
Definition Stripped (t d : text) : Prop :=
  exists a b, t = a ++ d ++ b /\ Forall Space a /\ Forall Space b /\
    (forall c r, d = c :: r -> ~ Space c) /\ (forall c r, d = r ++ [c] -> ~ Space c).

(** The wildcard for a path: a name, or a command computing it. *)
Inductive PathOf : command -> wpath -> Prop :=
| PathOf_name : forall t, PathOf (Lit t None) (WStr t)
| PathOf_command : forall c, ~ IsLiteral c -> PathOf c (WCmd c).

(** The variables of a wildcard: a dictionary, listed in the order of keys;
    the last value given for a key counts. *)
Definition LastGiven (pairs : list (text * command)) (x : text) (c : command) : Prop :=
  exists a b, pairs = a ++ (x, c) :: b /\ ~ In x (map fst b).
Definition SameVariables (pairs vars : list (text * command)) : Prop :=
  NoDup (map fst vars) /\ StronglySorted (fun a b => TextLe (fst a) (fst b)) vars /\
  forall x c, In (x, c) vars <-> LastGiven pairs x c.

Section Written.
Variable ww : text.

(** [Elem p c t]: the text [t] is a way to write the single element [c],
    not a literal. *)
Inductive Elem : place -> command -> text -> Prop :=
| E_variants : forall p w mark m bt lo hi sep vs o,
    Blanks w -> MarkText mark m -> BoundsText (length vs) o bt lo hi sep -> Options vs o ->
    (m = None -> bt = [] -> ~ MarkStart o /\ ~ BlankStart o) ->
    Elem p (Var vs (Z.min lo hi) (Z.max lo hi) sep m) ($"{" ++ w ++ mark ++ bt ++ o ++ $"}")
| E_access : forall p w1 x w2,
    p <> Path -> Blanks w1 -> NameText x -> Blanks w2 ->
    Elem p (Access x None) ($"${" ++ w1 ++ x ++ w2 ++ $"}")
| E_access_default : forall p w1 x w2 w3 c t,
    p <> Path -> Blanks w1 -> NameText x -> Blanks w2 -> Blanks w3 ->
    Prompt Inside c t -> ~ BlankStart t ->
    Elem p (Access x (Some c)) ($"${" ++ w1 ++ x ++ w2 ++ $":" ++ w3 ++ t ++ $"}")
| E_path_access : forall w1 x w2,
    Blanks w1 -> NameText x -> Blanks w2 ->
    Elem Path (Access x (Some (Lit x None))) ($"${" ++ w1 ++ x ++ w2 ++ $"}")
| E_path_access_default : forall w1 x w2 w3 t d,
    Blanks w1 -> NameText x -> Blanks w2 -> Blanks w3 ->
    Prompt Inside (Lit t None) t -> ~ BlankStart t -> Stripped t d ->
    Elem Path (Access x (Some (Lit d None))) ($"${" ++ w1 ++ x ++ w2 ++ $":" ++ w3 ++ t ++ $"}")
| E_path_access_empty : forall w1 x w2 w3,
    Blanks w1 -> NameText x -> Blanks w2 -> Blanks w3 ->
    Elem Path (Access x (Some (Lit x None))) ($"${" ++ w1 ++ x ++ w2 ++ $":" ++ w3 ++ $"}")
| E_assign : forall w1 x w2 (preserve immediate : bool) w3 c t,
    Blanks w1 -> NameText x -> Blanks w2 -> Blanks w3 ->
    Prompt Inside c t -> ~ BlankStart t ->
    (immediate = false -> ~ StartsWith (w3 ++ t) $"!") ->
    Elem Top (Assign x c immediate (negb preserve))
      ($"${" ++ w1 ++ x ++ w2 ++ (if preserve then $"?" else []) ++ $"=" ++
       (if immediate then $"!" else []) ++ w3 ++ t ++ $"}")
| E_wrap : forall p w1 c1 t1 w2 c2 t2,
    p <> Path -> Blanks w1 -> Prompt Inside c1 t1 -> ~ BlankStart t1 ->
    Blanks w2 -> Prompt Inside c2 t2 -> ~ BlankStart t2 ->
    Elem p (Wrap c1 c2 None) ($"%{" ++ w1 ++ t1 ++ $"$$" ++ w2 ++ t2 ++ $"}")
| E_wildcard : forall p mark m cs c path t,
    p <> Path -> MarkText mark m -> cs <> [] -> Elems Path ww cs t ->
    Together cs c -> PathOf c path -> (m = None -> ~ MarkStart t) ->
    Elem p (Wild path m []) (ww ++ mark ++ t ++ ww)
| E_wildcard_variables : forall p mark m cs c path t w pairs vars vt,
    p <> Path -> MarkText mark m -> cs <> [] -> Blanks w -> Elems Path (w ++ $"(") cs t ->
    Together cs c -> PathOf c path -> (m = None -> ~ MarkStart t) ->
    vt <> [] -> Variables pairs vt -> SameVariables pairs vars ->
    Elem p (Wild path m vars) (ww ++ mark ++ t ++ w ++ $"(" ++ vt ++ $")" ++ ww)
(** [Elems p z cs t]: [t] writes the elements [cs] one after the other, when
    followed by [z].  A literal is as long as it can be, and whitespace before
    an opening parenthesis is not part of the path of a wildcard. *)
with Elems : place -> text -> list command -> text -> Prop :=
| Elems_nil : forall p z, Elems p z [] []
| Elems_cons : forall p z c t cs r,
    Elem p c t -> Elems p z cs r -> Elems p z (c :: cs) (t ++ r)
| Elems_literal : forall p q z t cs r,
    ReadAs p t q -> t <> [] -> Forall (Ordinary q) t ->
    NoWrapIn ww t (r ++ z) -> Break ww q (r ++ z) ->
    (Blanks t -> ~ StartsWith (r ++ z) $"(") ->
    Elems p z cs r -> Elems p z (Lit t None :: cs) (t ++ r)
(** [Prompt p c t]: [t] writes the command [c], up to what may follow. *)
with Prompt : place -> command -> text -> Prop :=
| Prompt_elems : forall p cs c t, Elems p [] cs t -> Together cs c -> Prompt p c t
(** Options of a variant, separated by bars; each with or without weight. *)
with Options : list (command * Qc) -> text -> Prop :=
| Options_one : forall v t, Option v t -> Options [v] t
| Options_more : forall v t vs r, Option v t -> Options vs r -> Options (v :: vs) (t ++ $"|" ++ r)
with Option : command * Qc -> text -> Prop :=
| Option_weighted : forall w wt q c t,
    Blanks w -> WeightText wt q -> Prompt Inside c t -> Option (c, q) (w ++ wt ++ $"::" ++ t)
| Option_plain : forall w c t,
    Blanks w -> Prompt Inside c t -> ~ BlankStart t ->
    (forall wt q r, WeightText wt q -> t <> wt ++ $"::" ++ r) ->
    Option (c, 1%Qc) (w ++ t)
(** Variables of a wildcard: [name=value], or [name] for an empty value,
    separated by commas. *)
with Variables : list (text * command) -> text -> Prop :=
| Variables_one : forall x c t, Variable_ x c t -> Variables [(x, c)] t
| Variables_more : forall x c t vs r, Variable_ x c t -> Variables vs r ->
    Variables ((x, c) :: vs) (t ++ $"," ++ r)
with Variable_ : text -> command -> text -> Prop :=
| Variable_value : forall x c t kt vt,
    Forall (fun d => ~ In d $"=,)") kt -> Stripped kt x ->
    Forall (fun d => ~ In d $",)") vt -> Stripped vt t -> Prompt Top c t ->
    Variable_ x c (kt ++ $"=" ++ vt)
| Variable_alone : forall x kt,
    Forall (fun d => ~ In d $"=,)") kt -> Stripped kt x ->
    Variable_ x (Seq [] [] None) kt.
End Written.

(** No comment anywhere, no tab. *)
Definition Uncommented (t : text) : Prop :=
  ~ In 35%N t /\ ~ Contains t $"//" /\ ~ Contains t $"/*" /\ ~ In 9%N t.
