(** C80: other braces around variants. *)
From Coq Require Import String NArith ZArith QArith Qcanon Bool Arith List Lia.
From Verif.Model Require Import Str Command Rng Context Parser.
From Verif.Spec Require Import Text Names Lookup Syntax Braces.
From Verif.Proofs Require Import BraceFacts SwapFacts.
Import ListNotations.
Local Open Scope nat_scope.

(** Texts with variants and wildcards mean the same with fresh braces as with
    the usual ones, also when they are refused. *)
Theorem C80_other_braces_mean_the_same : forall alnum a b ww,
  FreshBraces alnum a b ww -> forall t, NoDollars t ->
  parse alnum (standard ww) (map (swap a b) t) =
  match parse alnum (braced a b ww) t with
  | Ok c => Ok (exchange a b c)
  | Err e => Err e
  end.
Proof. exact other_braces. Qed.

(** Where option texts run over the closing mark of variables, no value can be
    assigned, and only the wildcard form can have a default: its own name. *)
Theorem C80_no_values_with_other_braces : forall alnum C t c d,
  Unseen C (variable_end C) -> parse alnum C t = Ok c -> Part d c ->
  (forall x v imm ovr, d <> Assign x v imm ovr) /\
  (forall x e, d = Access x (Some e) -> e = Lit x None).
Proof. exact no_values. Qed.

(** Likewise for wraps. *)
Theorem C80_no_wraps_with_other_braces : forall alnum C t c w i m,
  Unseen C (wrap_end C) -> parse alnum C t = Ok c -> ~ Part (Wrap w i m) c.
Proof. exact no_wraps. Qed.

(** * Cases *)
Definition ascii_alnum (c : N) : bool :=
  (N.leb 48 c && N.leb c 57) || (N.leb 65 c && N.leb c 90) || (N.leb 97 c && N.leb c 122).
Definition angled : parser_config := braced 60 62 $"__".
Definition usual : parser_config := standard $"__".

Example C80_angles_are_fresh : FreshBraces ascii_alnum 60 62 $"__".
Proof.
  split; [discriminate|]. intros c Hc. cbn in Hc.
  destruct Hc as [<-|[<-|[<-|[<-|[]]]]]; (split; [reflexivity|split; [cbn; intuition discriminate|]]);
    intros K; (split; [unfold Blank; cbn; intuition discriminate|split; [|lia]]); cbn in *; intuition discriminate.
Qed.
Example C80_angles_unseen : Unseen angled (variable_end angled) /\ Unseen angled (wrap_end angled).
Proof.
  split; (eexists _, _; split; [reflexivity|]);
    intros d Hd; (split; [|eexists _, _; split; [reflexivity|]]);
    unfold EndsOption, Blank in *; cbn in *; intuition (try discriminate; subst; try discriminate).
Qed.

Example C80_nested_choices_with_angles :
  parse ascii_alnum angled $"a <2::red|<~dark|pale> __col__> } cat" =
  Ok (Seq [Lit $"a " None;
           Var [(Lit $"red" None, Q2Qc 2);
                (Seq [Var [(Lit $"dark" None, 1%Qc); (Lit $"pale" None, 1%Qc)] 1 1 $"," (Some Random);
                      Lit $" " None; Wild (WStr $"col") None []] [] None, 1%Qc)] 1 1 $"," None;
           Lit $" } cat" None] [] None).
Proof. vm_compute. reflexivity. Qed.
Example C80_same_with_usual_braces :
  parse ascii_alnum usual (map (swap 60 62) $"a <2::red|<~dark|pale> __col__> } cat") =
  Ok (Seq [Lit $"a " None;
           Var [(Lit $"red" None, Q2Qc 2);
                (Seq [Var [(Lit $"dark" None, 1%Qc); (Lit $"pale" None, 1%Qc)] 1 1 $"," (Some Random);
                      Lit $" " None; Wild (WStr $"col") None []] [] None, 1%Qc)] 1 1 $"," None;
           Lit $" > cat" None] [] None).
Proof. vm_compute. reflexivity. Qed.
Example C80_open_angle_is_refused :
  parse ascii_alnum angled $"a <red" = Err EParse /\ parse ascii_alnum usual $"a {red" = Err EParse.
Proof. vm_compute. auto. Qed.

(** With angles a variable can be read but not set, nor have a default. *)
Example C80_reading_works : parse ascii_alnum angled $"${x} <a|b>" =
  Ok (Seq [Access $"x" None; Lit $" " None; Var [(Lit $"a" None, 1%Qc); (Lit $"b" None, 1%Qc)] 1 1 $"," None] [] None).
Proof. vm_compute. reflexivity. Qed.
Example C80_setting_fails :
  parse ascii_alnum angled $"${x=red}" = Err EParse /\
  parse ascii_alnum angled $"${x:red}" = Err EParse /\
  parse ascii_alnum angled $"%{a $$ b}" = Err EParse /\
  parse ascii_alnum usual $"${x=red}" = Ok (Assign $"x" (Lit $"red" None) false true).
Proof. vm_compute. auto. Qed.

(** "Bounded choices too mean the same with other braces" is false: the
    separator runs over the closing mark, and two choices become one. *)
Theorem C80_bounded_choices_mean_the_same_refuted : exists t n m,
  FreshBraces ascii_alnum 60 62 $"__" /\
  parse ascii_alnum usual (map (swap 60 62) t) = Ok n /\
  parse ascii_alnum angled t = Ok m /\
  n <> exchange 60 62 m.
Proof.
  exists $"<2$$a|b> and <3$$c|d>". eexists _, _. split; [exact C80_angles_are_fresh|].
  split; [vm_compute; reflexivity|]. split; [vm_compute; reflexivity|]. vm_compute. discriminate.
Qed.
Example C80_two_choices_become_one :
  parse ascii_alnum angled $"<2$$a|b> and <3$$c|d>" =
  Ok (Var [(Lit $"c" None, 1%Qc); (Lit $"d" None, 1%Qc)] 2 2 $"a|b> and <3" None).
Proof. vm_compute. reflexivity. Qed.

Print Assumptions C80_other_braces_mean_the_same.
Print Assumptions C80_no_values_with_other_braces.
Print Assumptions C80_no_wraps_with_other_braces.
Print Assumptions C80_bounded_choices_mean_the_same_refuted.
