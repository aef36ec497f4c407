(** C12 (sampling), C14, C18, C19, C21, C23-C26: what samplers may yield. *)
From Coq Require Import String NArith ZArith QArith Qcanon Bool Arith List Permutation Lia.
From Verif.Model Require Import Str Utils Command Rng Values Context Sampler.
From Verif.Spec Require Import Text Comb Items StreamRng Lang.
From Verif.Proofs Require Import StrFacts UtilsFacts CommandFacts DictFacts Soundness FuelFacts RunFacts SeqFacts.
Import ListNotations.
Local Open Scope nat_scope.

(** * Examples use this environment: every text is a literal, one wildcard. *)
Definition lit (s : string) : command := Lit (of_string s) None.
Definition opts (l : list string) : list (command * Qc) := map (fun s => (lit s, 1%Qc)) l.
Definition env0 : env := {|
  env_parse := fun s => Ok (Lit s None);
  env_lookup := fun s => if str_eqb s $"animal"
                         then [{| w_content := $"cat"; w_weight_opt := None |};
                               {| w_content := $"dog"; w_weight_opt := Some 1%Qc |}] else [];
  env_wrap := $"__"
|}.
Definition ctx0 (m : method) : ctx :=
  {| c_method := m; c_ignws := false; c_vars := []; c_unknown := None; c_busy := [] |}.
Definition run_limit (c : ctx) (cmd : command) (limit : option nat) (n : nat) (r : list N)
  : list str * option exn :=
  match sample_prompts env0 50 c (WCmd cmd) limit with
  | MOk g => match collect stream_rng env0 50 n g r with
             | (ts, EndRaise e, _) => (ts, Some e)
             | (ts, EndFuel, _) => (ts, Some EIndex)
             | (ts, _, _) => (ts, None)
             end
  | MErr e => ([], Some e)
  | MFuel => ([], Some EIndex)
  end.
Definition run (m : method) (cmd : command) (n : nat) (r : list N) : list str * option exn :=
  run_limit (ctx0 m) cmd None n r.

(** * C14 *)
Theorem C14_every_prompt_is_allowed : forall G E f c p limit g f' n r ts e r',
  sample_prompts E f c p limit = MOk g ->
  collect G E f' n g r = (ts, e, r') -> Forall (Allowed E c p) ts.
Proof.
  intros G E f c p limit g f' n r ts e r' H Hc.
  destruct (inv_sample_prompts G E _ _ _ _ _ H) as (nf & V & Hi).
  exact (proj1 (collect_inv G E _ _ _ _ _ _ _ _ _ _ Hi Hc)).
Qed.

(** A run with three samplers, bounds, a wildcard and a variable. *)
Definition mixed : command :=
  Seq [Assign $"x" (Wild (WStr $"animal") None []) true true;
       Var (opts ["a"; "b"; "c"]%string) 1 2 $"+" (Some Random);
       Var (opts ["p"; "q"]%string) 1 1 $"," None;
       Var (opts ["u"; "v"]%string) 1 1 $"," (Some Cyclical);
       Access $"x" None] $" " None.
Example C14_example :
  run Combinatorial mixed 9 [1; 1; 0; 0; half53; 0; top53]%N
  = ([$"a+b p u cat"; $"b q v cat"], None).
Proof. vm_compute. reflexivity. Qed.

(** * C12, sampling with whitespace squashed *)
Theorem C12_sampled_prompts_are_squashed : forall G E f c p limit g f' n r ts e r',
  c_ignws c = true -> sample_prompts E f c p limit = MOk g ->
  collect G E f' n g r = (ts, e, r') -> Forall Squashed ts.
Proof.
  intros G E f c p limit g f' n r ts e r' Hw H Hc.
  eapply Forall_impl; [|eapply C14_every_prompt_is_allowed; eassumption].
  intros u (cmd & t & _ & _ & Ht). rewrite Hw in Ht. destruct Ht as (ws & Hws & ->).
  exists ws. split; [now apply (Words_words t)|reflexivity].
Qed.

Example C12_sampling_example :
  run_limit {| c_method := Combinatorial; c_ignws := true; c_vars := []; c_unknown := None; c_busy := [] |}
    (Seq [lit "a  b "; lit " c"] $" " None) None 3 [] = ([$"a b c"], None).
Proof. vm_compute. reflexivity. Qed.

(** * C18 *)
Theorem C18_limit_only_truncates : forall G E f c p k g,
  sample_prompts E f c p (Some k) = MOk g ->
  exists g0, sample_prompts E f c p None = MOk g0 /\
    forall f' n r ts e r', collect G E f' (Nat.min n k) g0 r = (ts, e, r') -> e <> EndFuel ->
      exists e', collect G E (S f') n g r = (ts, e', r').
Proof. exact sample_limit. Qed.

Theorem C18_at_most_the_requested_number : forall G E f n g r ts e r',
  collect G E f n g r = (ts, e, r') -> length ts <= n.
Proof. intros G E f n g r ts e r' H. exact (proj1 (collect_length G E _ _ _ _ _ _ _ H)). Qed.

Theorem C18_smaller_request_is_a_prefix : forall G E f n m g r ts e r' us e' r'', n <= m ->
  collect G E f n g r = (ts, e, r') -> collect G E f m g r = (us, e', r'') ->
  exists vs, us = ts ++ vs.
Proof. exact collect_prefix. Qed.

(** More fuel does not change a run that did not run out of it. *)
Theorem C18_fuel_is_immaterial : forall G E n m k g r ts e r', n <= m ->
  collect G E n k g r = (ts, e, r') -> e <> EndFuel -> collect G E m k g r = (ts, e, r').
Proof. exact collect_more. Qed.

Example C18_example :
  let v := Var (opts ["a"; "b"]%string) 1 1 $"," None in
  run_limit (ctx0 Random) v (Some 2) 5 [0; 0; 0; top53]%N = ([$"a"; $"b"], None) /\
  run_limit (ctx0 Random) v None 5 [0; 0; 0; top53]%N = ([$"a"; $"b"; $"a"; $"a"; $"a"], None).
Proof. split; vm_compute; reflexivity. Qed.

(** * C19 *)
Theorem C19_endless_samplers_do_not_stop : forall G E f c p g f' n r ts r',
  is_nonfinite (c_method c) = true -> sample_prompts E f c p None = MOk g ->
  collect G E f' n g r = (ts, EndStop, r') -> ts = [].
Proof.
  intros G E f c p g f' n r ts r' Hm H Hc.
  destruct (inv_sample_prompts_nf G E _ _ _ _ H Hm) as (V & Hi).
  exact (proj1 (proj2 (collect_inv G E _ _ _ _ _ _ _ _ _ _ Hi Hc)) eq_refl eq_refl).
Qed.

(** Stopping at once does occur: a random variant without options. *)
Example C19_example :
  run Random (Var (opts ["a"; "b"]%string) 1 1 $"," None) 4 [0; 0; 0; top53]%N
  = ([$"a"; $"b"; $"a"; $"a"], None) /\
  run Random (Wrap (lit "x") (Var [] 1 1 $"," None) None) 4 [] = ([], None).
Proof. split; vm_compute; reflexivity. Qed.

(** * C21 *)
Theorem C21_method_resolution : forall n c cmd,
  mk n c cmd = mk n (with_method (resolve (c_method c) (mark_of cmd)) c) (with_mark cmd None).
Proof. exact mk_resolved. Qed.

Theorem C21_finite_mark_ignored_in_endless_context : forall n c cmd,
  c_method c <> Combinatorial -> mark_of cmd = Some Combinatorial ->
  mk n c cmd = mk n c (with_mark cmd None).
Proof.
  intros n c cmd Hm Hk. rewrite mk_resolved, Hk. cbn [resolve]. now rewrite with_method_same.
Qed.

Theorem C21_own_mark_decides : forall n c cmd m,
  m <> Combinatorial -> mark_of cmd = Some m ->
  mk n c cmd = mk n (with_method m c) (with_mark cmd None).
Proof. intros n c cmd m Hm Hk. rewrite mk_resolved, Hk. now destruct m. Qed.

Theorem C21_nothing_finite_inside_endless : forall c cmd,
  c_method c <> Combinatorial -> resolve (c_method c) (mark_of cmd) <> Combinatorial.
Proof. intros c cmd H. destruct (mark_of cmd) as [[]|], (c_method c); cbn; congruence. Qed.

Example C21_example :
  let v m := Var (opts ["a"; "b"]%string) 1 1 $"," m in
  run Cyclical (v (Some Combinatorial)) 5 [] = ([$"a"; $"b"; $"a"; $"b"; $"a"], None) /\
  run Combinatorial (v (Some Cyclical)) 5 [] = ([$"a"; $"b"; $"a"; $"b"; $"a"], None) /\
  run Combinatorial (v None) 5 [] = ([$"a"; $"b"], None).
Proof. repeat split; vm_compute; reflexivity. Qed.

(** * C23 *)
Theorem C23_immediate_variable_has_one_value : forall G E f n k c tokens sep m g r ts e r' x v ovr,
  mk n c (Seq tokens sep m) = MOk g -> collect G E f k g r = (ts, e, r') -> ts <> [] ->
  LastAssign x tokens v true ovr -> (ovr = false -> sc_var (scope_of c) x = None) ->
  exists t0 sc' toks,
    Produces E (enter (scope_of c) (Seq tokens sep m)) v t0 /\
    (exists mk0, sc_var sc' x = Some (Lit t0 mk0)) /\ Plain tokens toks /\
    Forall (SeqText E sc' toks sep) ts /\
    Forall (fun t => exists parts, ProducesAll E sc' toks parts /\
      (sc_method sc' = Combinatorial -> t = interleave sep parts) /\
      (sc_method sc' <> Combinatorial -> Glued sep parts t) /\
      forall i d, nth_error toks i = Some (Access x d) -> nth_error parts i = Some t0) ts.
Proof.
  intros G E f n k c tokens sep m g r ts e r' x v ovr Hm Hc Hne HL Ho.
  destruct (seq_generation G E _ _ _ _ _ _ _ _ _ _ _ _ Hm Hc Hne) as (sc' & toks & Hsb & Hb & Hp & Hf).
  destruct (Bound_immediate_inv E (enter (scope_of c) (Seq tokens sep m)) _ _ _ _ _ HL Ho (Hb x)) as (t & [[Ht Hpr]|(s & mm & -> & Ht)]).
  - exists t, sc', toks. split; [assumption|]. split; [eauto|]. split; [assumption|]. split; [assumption|].
    eapply Forall_impl; [|exact Hf]. intros u (parts & Ha & H1 & H2). exists parts.
    repeat (split; [assumption|]). intros i d Hi.
    destruct (ProducesAll_nth E _ _ _ _ _ Ha Hi) as (t' & Ht' & Hpr').
    now rewrite (access_literal E _ _ _ _ _ _ Ht Hpr') in Ht'.
  - exists s, sc', toks. split; [constructor; constructor|]. split; [eauto|]. split; [assumption|].
    split; [assumption|].
    eapply Forall_impl; [|exact Hf]. intros u (parts & Ha & H1 & H2). exists parts.
    repeat (split; [assumption|]). intros i d Hi.
    destruct (ProducesAll_nth E _ _ _ _ _ Ha Hi) as (t' & Ht' & Hpr').
    now rewrite (access_literal E _ _ _ _ _ _ Ht Hpr') in Ht'.
Qed.

Example C23_example :
  let v := Var (opts ["a"; "b"]%string) 1 1 $"," None in
  let seq imm := Seq [Access $"x" None; Assign $"x" v imm true; Access $"x" None] $"-" None in
  LastAssign $"x" [Access $"x" None; Assign $"x" v true true; Access $"x" None] v true true /\
  run Random (seq true) 2 [0; top53; 0; 0; 0; top53]%N = ([$"b-b"; $"b-b"], None) /\
  run Random (seq false) 2 [0; top53; 0; 0; 0; 0; 0; top53]%N = ([$"b-a"; $"a-b"], None).
Proof.
  cbv zeta. split; [|split; vm_compute; reflexivity].
  exists [Access $"x" None], [Access $"x" None]. split; [reflexivity|].
  intros v' i o [H|[]]. discriminate.
Qed.

(** * C24 *)
Theorem C24_assignments_govern_the_whole_sequence : forall G E f n k c tokens sep m g r ts e r',
  mk n c (Seq tokens sep m) = MOk g -> collect G E f k g r = (ts, e, r') -> ts <> [] ->
  exists sc' toks,
    SameBut (enter (scope_of c) (Seq tokens sep m)) sc' /\
    (forall y, Bound E (enter (scope_of c) (Seq tokens sep m)) tokens y (sc_var sc' y)) /\
    Plain tokens toks /\ Forall (SeqText E sc' toks sep) ts.
Proof. exact seq_generation. Qed.

(** The rules of [Bound] read as statements. *)
Theorem C24_unassigned_names_keep_their_meaning : forall E sc ts x o,
  NoAssign x ts -> Bound E sc ts x o -> o = sc_var sc x.
Proof.
  intros E sc ts x o Hn H.
  destruct H as [sc ts x _|sc ts x v i v0 HL _|sc ts x v o HL _|sc ts x s m o HL _|sc ts x v o t HL _ _ _];
    [reflexivity|..]; exfalso; eapply LastAssign_NoAssign; eassumption.
Qed.

Theorem C24_preserving_assignment_keeps_defined_names : forall E sc ts x v imm v0 o,
  LastAssign x ts v imm false -> sc_var sc x = Some v0 -> Bound E sc ts x o -> o = Some v0.
Proof.
  intros E sc ts x v imm v0 o HL Hv H.
  destruct H as [sc ts x Hn|sc ts x v1 i v1' H1 H2|sc ts x v1 o1 H1 H2|sc ts x s m o1 H1 H2|sc ts x v1 o1 t H1 H2 _ _].
  - exfalso. eapply LastAssign_NoAssign; eassumption.
  - congruence.
  - destruct (LastAssign_unique _ _ _ _ _ _ _ _ HL H1) as (_ & _ & <-). rewrite H2 in Hv; [discriminate|reflexivity].
  - destruct (LastAssign_unique _ _ _ _ _ _ _ _ HL H1) as (_ & _ & <-). rewrite H2 in Hv; [discriminate|reflexivity].
  - destruct (LastAssign_unique _ _ _ _ _ _ _ _ HL H1) as (_ & _ & <-). rewrite H2 in Hv; [discriminate|reflexivity].
Qed.

Theorem C24_last_lazy_assignment_wins : forall E sc ts x v ovr o,
  LastAssign x ts v false ovr -> (ovr = false -> sc_var sc x = None) -> Bound E sc ts x o ->
  o = Some v.
Proof.
  intros E sc ts x v ovr o HL Hv H.
  destruct H as [sc ts x Hn|sc ts x v1 i v1' H1 H2|sc ts x v1 o1 H1 H2|sc ts x s m o1 H1 H2|sc ts x v1 o1 t H1 H2 _ _].
  - exfalso. eapply LastAssign_NoAssign; eassumption.
  - destruct (LastAssign_unique _ _ _ _ _ _ _ _ HL H1) as (_ & _ & ->). rewrite Hv in H2; [discriminate|reflexivity].
  - destruct (LastAssign_unique _ _ _ _ _ _ _ _ HL H1) as (-> & _ & _). reflexivity.
  - destruct (LastAssign_unique _ _ _ _ _ _ _ _ HL H1) as (_ & ? & _). discriminate.
  - destruct (LastAssign_unique _ _ _ _ _ _ _ _ HL H1) as (_ & ? & _). discriminate.
Qed.

Example C24_example :
  let set x v i o := Assign (of_string x) (lit v) i o in
  let get x := Access (of_string x) (Some (lit "none")) in
  run Random (Seq [get "x"; set "x" "1" false true; set "x" "2" true true;
                   set "x" "3" false false; get "y";
                   Seq [set "y" "5" true true; get "y"] $"" None; get "y"]%string $" " None) 1 []
  = ([$"3 none 5 none"], None).
Proof. vm_compute. reflexivity. Qed.

(** * C25 *)
Theorem C25_undefined_variable_is_a_key_error : forall n c x d,
  (forall v, ~ Refers (scope_of c) x d v) -> mk (S n) c (Access x d) = MErr EKey.
Proof.
  intros n c x d H. destruct (Refers_dec c x d) as [[v Hv]|[Hr _]]; [exfalso; eapply H; eassumption|].
  cbn [mk]. unfold chosen_method. cbn [sampling_method].
  destruct (method_eqb (c_method c) (c_method c)) eqn:He; [|destruct (c_method c); discriminate].
  now rewrite with_method_same, Hr.
Qed.

Theorem C25_no_value_no_default_no_fallback : forall sc x,
  sc_var sc x = None -> sc_unknown sc = None -> forall v, ~ Refers sc x None v.
Proof. intros sc x Hx Hu v H. destruct H; congruence. Qed.

Theorem C25_defined_variable_is_sampled : forall n c x d v,
  Refers (scope_of c) x d v -> ~ In x (c_busy c) ->
  mk (S n) c (Access x d)
  = mk n {| c_method := c_method c; c_ignws := c_ignws c; c_vars := c_vars c;
            c_unknown := c_unknown c; c_busy := x :: c_busy c |} v.
Proof.
  intros n c x d v H Hb. apply Refers_resolve in H. cbn [mk]. unfold chosen_method. cbn [sampling_method].
  destruct (method_eqb (c_method c) (c_method c)) eqn:He; [|destruct (c_method c); discriminate].
  rewrite with_method_same, H. unfold for_sampling_variable.
  destruct (str_mem x (c_busy c)) eqn:Hm; [apply str_mem_In in Hm; contradiction|reflexivity].
Qed.

(** A defined variable with an empty value is a KeyError. *)
Theorem C25_empty_value_counts_as_undefined_refuted : exists c x v,
  sc_var (scope_of c) x = Some v /\ forall n, mk (S n) c (Access x None) = MErr EKey.
Proof.
  exists {| c_method := Random; c_ignws := false; c_vars := [($"x", Seq [] [] None)];
            c_unknown := None; c_busy := [] |}, $"x", (Seq [] [] None).
  split; reflexivity.
Qed.

Example C25_example :
  run Random (Access $"x" None) 1 [] = ([], Some EKey) /\
  run Random (Access $"x" (Some (lit "d"))) 1 [] = ([$"d"], None).
Proof. split; vm_compute; reflexivity. Qed.

(** * C26 *)
Theorem C26_resolving_terminates : forall c cmd, exists n0, forall n, n0 <= n -> mk n c cmd <> MFuel.
Proof. exact mk_terminates. Qed.

Theorem C26_recursive_reference_raises : forall n c x d v,
  In x (c_busy c) -> Refers (scope_of c) x d v -> mk (S n) c (Access x d) = MErr ERecursion.
Proof.
  intros n c x d v Hb H. apply Refers_resolve in H. cbn [mk]. unfold chosen_method. cbn [sampling_method].
  destruct (method_eqb (c_method c) (c_method c)) eqn:He; [|destruct (c_method c); discriminate].
  rewrite with_method_same, H. unfold for_sampling_variable.
  apply str_mem_In in Hb. now rewrite Hb.
Qed.

(** Mutual recursion through sequences. *)
Example C26_example :
  run Random (Seq [Assign $"a" (Seq [lit "1"; Access $"b" None] $"" None) false true;
                   Assign $"b" (Seq [lit "2"; Access $"a" None] $"" None) false true;
                   Access $"a" None] $"" None) 1 [] = ([], Some ERecursion).
Proof. vm_compute. reflexivity. Qed.

Print Assumptions C14_every_prompt_is_allowed.
Print Assumptions C12_sampled_prompts_are_squashed.
Print Assumptions C18_limit_only_truncates.
Print Assumptions C18_at_most_the_requested_number.
Print Assumptions C18_smaller_request_is_a_prefix.
Print Assumptions C18_fuel_is_immaterial.
Print Assumptions C19_endless_samplers_do_not_stop.
Print Assumptions C21_method_resolution.
Print Assumptions C21_finite_mark_ignored_in_endless_context.
Print Assumptions C21_own_mark_decides.
Print Assumptions C21_nothing_finite_inside_endless.
Print Assumptions C23_immediate_variable_has_one_value.
Print Assumptions C24_assignments_govern_the_whole_sequence.
Print Assumptions C24_unassigned_names_keep_their_meaning.
Print Assumptions C24_preserving_assignment_keeps_defined_names.
Print Assumptions C24_last_lazy_assignment_wins.
Print Assumptions C25_undefined_variable_is_a_key_error.
Print Assumptions C25_no_value_no_default_no_fallback.
Print Assumptions C25_defined_variable_is_sampled.
Print Assumptions C25_empty_value_counts_as_undefined_refuted.
Print Assumptions C26_resolving_terminates.
Print Assumptions C26_recursive_reference_raises.
