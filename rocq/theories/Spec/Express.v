(** Which commands can be written down as a template.  From Model/ only data
    types and the notation for string constants are used. *)
From Coq Require Import String NArith ZArith QArith Qcanon Bool Arith List Sorted.
From Verif.Model Require Import Str Command.
From Verif.Spec Require Import Text Names Lookup Lang Syntax Shape.
Import ListNotations.
Local Open Scope nat_scope.

(** A wildcard wrap that is not mistaken for anything else. *)
Definition CleanWrap (ww : text) : Prop :=
  WrapText ww /\ Forall (fun c => ~ Space c /\ ~ In c $"/*,") ww.

(** Finitely many decimal places. *)
Definition Decimal (q : Qc) : Prop :=
  exists (n : Z) (k : nat),
    (q * Q2Qc (inject_Z (10 ^ Z.of_nat k)) = Q2Qc (inject_Z n))%Qc.

(** The character that the text for a command begins, or ends, with, if that
    is a literal one. *)
Inductive Opening : command -> N -> Prop :=
| Opening_text : forall x t m, Opening (Lit (x :: t) m) x
| Opening_many : forall c cs sep m x, Opening c x -> Opening (Seq (c :: cs) sep m) x.
Inductive Closing : command -> N -> Prop :=
| Closing_text : forall x t m, Closing (Lit (t ++ [x]) m) x
| Closing_many : forall c cs sep m x, Closing c x -> Closing (Seq (cs ++ [c]) sep m) x.

(** The literal that ends the path of a wildcard. *)
Inductive LastText : command -> text -> Prop :=
| LastText_one : forall t m, LastText (Lit t m) t
| LastText_many : forall cs t m sep m', LastText (Seq (cs ++ [Lit t m]) sep m') t.

Section Express.
Variable ww : text.

(** Text inside the parentheses of a wildcard, [v], can have no comma and no
    closing parenthesis. *)
Definition Utterable (v : bool) (t : text) : Prop :=
  Uncommented t /\ (v = true -> Forall (fun c => ~ In c $",)") t).

(** Text that can stand as a literal at place [p]. *)
Definition Legible (v : bool) (p : place) (t : text) : Prop :=
  t <> [] /\ Forall (Ordinary p) t /\ NoWrapIn ww t ww /\ Utterable v t.

(** [Say v p c]: [c] can be written at place [p]; [Item v p c]: as a single
    element. *)
Inductive Say : bool -> place -> command -> Prop :=
| Say_one : forall v p c, Item v p c -> Say v p c
| Say_many : forall v p cs, length cs <> 1 -> Forall (Item v p) cs -> Apart cs ->
    Say v p (Seq cs [] None)
with Item : bool -> place -> command -> Prop :=
| Item_text : forall v p t, Legible v p t -> Item v p (Lit t None)
| Item_variants : forall v p vs lo hi sep m,
    vs <> [] -> (0 <= lo <= hi)%Z ->
    sep = $"," \/ (SeparatorText sep /\ Utterable v sep) ->
    Forall (fun o => Say v Inside (fst o) /\ Decimal (snd o)) vs ->
    Item v p (Var vs lo hi sep m)
| Item_access : forall v p x d, p <> Path -> NameText x ->
    (forall c, d = Some c -> Say v Inside c /\ forall b, Opening c b -> ~ Blank b) ->
    Item v p (Access x d)
| Item_path_access : forall v x t, NameText x -> Legible v Inside t ->
    (forall b, Opening (Lit t None) b \/ Closing (Lit t None) b -> ~ Space b) ->
    Item v Path (Access x (Some (Lit t None)))
| Item_assign : forall v x c (immediate overwrite : bool), NameText x -> Say v Inside c ->
    (forall b, Opening c b -> ~ Blank b /\ (immediate = false -> b <> 33%N)) ->
    Item v Top (Assign x c immediate overwrite)
| Item_wrap : forall v p w i, p <> Path -> Say v Inside w -> Say v Inside i ->
    (forall b, Opening w b \/ Opening i b -> ~ Blank b) -> Item v p (Wrap w i None)
| Item_wildcard : forall v p c path m vars, p <> Path ->
    PathOf c path -> Say v Path c -> Nonempty c ->
    (m = None -> forall b, Opening c b -> ~ In b $"~!@") ->
    (vars <> [] -> v = false /\ forall t, LastText c t -> ~ Blanks t) ->
    StronglySorted (fun a b => TextLe (fst a) (fst b) /\ fst a <> fst b) vars ->
    Forall (fun kv => NameText (fst kv) /\ Say true Top (snd kv) /\
      forall b, Opening (snd kv) b \/ Closing (snd kv) b -> ~ Space b) vars ->
    Item v p (Wild path m vars).
End Express.
