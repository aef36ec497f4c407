(** src/dynamicprompts/wildcards/values.py and wildcards/item.py. *)
From Coq Require Import String NArith ZArith QArith Qcanon Qround Bool List.
From Verif.Model Require Import Str Rng.
Import ListNotations.
Local Open Scope nat_scope.

(** [str | WildcardItem]: a plain string ([None]) or item.py:4-11
    [WildcardItem(content, weight)] ([Some weight]).  The two are never equal
    in Python, even for equal texts. *)
Record witem := { w_content : str; w_weight_opt : option Qc }.

(** A [WildcardValues] is the list of its items: values.py:23-33 [__iter__],
    [__getitem__], [__len__] and [__bool__] are those of the list. *)

(** [getattr(item, "weight", 1)]. *)
Definition w_weight (i : witem) : Qc :=
  match w_weight_opt i with Some w => w | None => 1%Qc end.

(** [str(item)]. *)
Definition w_str (i : witem) : str := w_content i.

(** [==] of items, the key equality of [dict.fromkeys]. *)
Definition witem_eqb (a b : witem) : bool :=
  str_eqb (w_content a) (w_content b) &&
  match w_weight_opt a, w_weight_opt b with
  | None, None => true
  | Some x, Some y => Qc_eq_bool x y
  | _, _ => false
  end.

(** values.py:43-57 [has_varied_weights]; [seen] is [weights_seen]. *)
Fixpoint varied_aux (seen : list Qc) (items : list witem) : bool :=
  match items with
  | [] => false
  | i :: rest =>
      let seen' := if existsb (Qc_eq_bool (w_weight i)) seen then seen
                   else w_weight i :: seen in
      if Nat.ltb 1 (length seen') then true else varied_aux seen' rest
  end.
Definition has_varied_weights (items : list witem) : bool := varied_aux [] items.

(** values.py:59-64 [string_values]. *)
Definition string_values (items : list witem) : list str := map w_str items.

(** [range(int(w))]: how often the body runs.  [int] truncates towards zero;
    a negative count is an empty range, so floor gives the same. *)
Definition int_count (w : Qc) : nat := Z.to_nat (Qfloor w).

(** values.py:92-103 [iterate_string_values_weighted]; pure generator, given
    by the list of what it yields. *)
Definition iterate_weighted (items : list witem) : list str :=
  flat_map (fun i => repeat (w_str i) (int_count (w_weight i))) items.

(** values.py:105-124 [get_weighted_random_generator], suspended.
    [WChoice]: the branch without varied weights; [WBatch]: the other branch,
    with what is left of the ten values drawn last. *)
Inductive wgen :=
| WChoice (vals : list str)
| WBatch (vals : list str) (cum : list Qc) (buffer : list str).

(** values.py:123 [k=10]. *)
Definition batch_size : nat := 10.

Section W.
Variable G : rng_impl.

(** values.py:66-72 [cum_weight_values]. *)
Definition cum_weight_values (items : list witem) : list Qc :=
  accumulate G (map w_weight items).

Definition start_wgen (items : list witem) : wgen :=
  if has_varied_weights items
  then WBatch (string_values items) (cum_weight_values items) []
  else WChoice (string_values items).

(** [next] of that generator; it never stops. *)
Definition next_wgen (g : wgen) (r : rng_state G) : rres G (str * wgen) :=
  match g with
  | WChoice vals =>
      match choice G (length vals) r with
      | RErr e r' => RErr e r'
      | ROk i r' => ROk (nth i vals [], WChoice vals) r'
      end
  | WBatch vals cum (v :: buffer) => ROk (v, WBatch vals cum buffer) r
  | WBatch vals cum [] =>
      match choices G cum batch_size r with
      | RErr e r' => RErr e r'
      | ROk is r' =>
          match map (fun i => nth i vals []) is with
          | [] => RErr EIndex r'  (* not reached: ten values are drawn *)
          | v :: buffer => ROk (v, WBatch vals cum buffer) r'
          end
      end
  end.
End W.
