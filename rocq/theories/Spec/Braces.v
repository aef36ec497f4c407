(** Marks other than the usual ones: which closing marks the parser can
    never find, and the parts of a command.  From Model/ only data types and
    the notation for string constants are used. *)
From Coq Require Import String NArith ZArith QArith Qcanon Bool Arith List.
From Verif.Model Require Import Str Command Parser.
From Verif.Spec Require Import Text Names Lookup Syntax.
Import ListNotations.
Local Open Scope nat_scope.

(** Characters at which the text of an option ends. *)
Definition EndsOption (C : parser_config) (c : N) : Prop :=
  In c $"#|$" \/ In c (variant_start C) \/ In c (variant_end C) \/
  In c (variable_start C) \/ In c (wrap_start C).

(** A closing mark that is read as text inside options: neither its first
    character nor whitespace ends the text of an option or begins the
    wildcard wrap. *)
Definition Unseen (C : parser_config) (mark : text) : Prop :=
  exists c r, mark = c :: r /\
    forall d, d = c \/ Blank d ->
      ~ EndsOption C d /\ exists w q, wildcard_wrap C = w :: q /\ w <> d.

(** [Part d c]: [d] occurs in [c], as a whole or anywhere inside. *)
Inductive Part (d : command) : command -> Prop :=
| Part_self : Part d d
| Part_seq : forall ts sep m c, In c ts -> Part d c -> Part d (Seq ts sep m)
| Part_option : forall vs lo hi sep m v, In v vs -> Part d (fst v) -> Part d (Var vs lo hi sep m)
| Part_path : forall c m vars, Part d c -> Part d (Wild (WCmd c) m vars)
| Part_variable : forall p m vars kv, In kv vars -> Part d (snd kv) -> Part d (Wild p m vars)
| Part_value : forall x v imm ovr, Part d v -> Part d (Assign x v imm ovr)
| Part_default : forall x v, Part d v -> Part d (Access x (Some v))
| Part_wrapper : forall w i m, Part d w -> Part d (Wrap w i m)
| Part_inner : forall w i m, Part d i -> Part d (Wrap w i m).

(** * Other braces for variants *)
(** The usual marks, with [a] and [b] around variants. *)
Definition braced (a b : N) (ww : text) : parser_config := {|
  variant_start := [a]; variant_end := [b]; wildcard_wrap := ww;
  variable_start := $"${"; variable_end := $"}"; wrap_start := $"%{"; wrap_end := $"}" |}.

(** Braces that have no other meaning in templates. *)
Definition FreshBraces (alnum : N -> bool) (a b : N) (ww : text) : Prop :=
  a <> b /\
  forall c, In c (a :: b :: $"{}") ->
    alnum c = false /\ ~ In c ww /\
    (In c [a; b] -> ~ Blank c /\ ~ In c $"{}#$%|()~!@:/*.+-" /\ ~ (48 <= c <= 57)%N).

(** The other braces for the usual ones, and the other way round. *)
Definition swap (a b c : N) : N :=
  if N.eqb c a then 123%N else if N.eqb c 123 then a
  else if N.eqb c b then 125%N else if N.eqb c 125 then b else c.

(** The same exchange in the texts of a command. *)
Fixpoint exchange (a b : N) (c : command) : command :=
  match c with
  | Lit t m => Lit (map (swap a b) t) m
  | Seq ts sep m => Seq (map (exchange a b) ts) sep m
  | Var vs lo hi sep m => Var (map (fun v => (exchange a b (fst v), snd v)) vs) lo hi sep m
  | Wild (WStr t) m vars =>
      Wild (WStr (map (swap a b) t)) m (map (fun kv => (fst kv, exchange a b (snd kv))) vars)
  | Wild (WCmd d) m vars =>
      Wild (WCmd (exchange a b d)) m (map (fun kv => (fst kv, exchange a b (snd kv))) vars)
  | Assign x v imm ovr => Assign x (exchange a b v) imm ovr
  | Access x d => Access x (match d with Some e => Some (exchange a b e) | None => None end)
  | Wrap w i m => Wrap (exchange a b w) (exchange a b i) m
  end.

(** Texts with variants and wildcards only: no bounds, no variables, no wraps. *)
Definition NoDollars (t : text) : Prop := Forall (fun c => ~ In c $"$%({") t.
