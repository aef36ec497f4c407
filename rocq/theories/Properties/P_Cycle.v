(** C20: cyclical sampling. *)
From Coq Require Import String NArith ZArith QArith Qcanon Bool Arith List Permutation Lia.
From Verif.Model Require Import Str Utils Command Rng Values Context Sampler.
From Verif.Spec Require Import Text Comb Items StreamRng Lang Enum Cycle.
From Verif.Proofs Require Import StrFacts UtilsFacts CommandFacts DictFacts Soundness FuelFacts RunFacts
  EnumFacts BindFacts CycleFacts.
From Verif.Properties Require Import P_Sampler.
Import ListNotations.
Local Open Scope nat_scope.

(** The [k]-th prompt is the one specified, for every number of requests and
    whatever the random generator, which is not used. *)
Theorem C20_kth_prompt : forall G E c cmd s u,
  Nonempty cmd -> Cyc E c cmd s -> (forall k, Tidy (c_ignws c) (s k) (u k)) ->
  exists f, forall m, f <= m -> exists g, sample_prompts E m c (WCmd cmd) None = MOk g /\
    forall n r, exists g', collect G E m n g r = (map u (seq 0 n), EndLimit g', Some r).
Proof. exact cyc_run. Qed.

Definition literals (ts : list (text * Qc)) : list (command * Qc) :=
  map (fun t => (Lit (fst t) None, snd t)) ts.
Definition turn (ts : list (text * Qc)) (k : nat) : text := nth (k mod length ts) (map fst ts) [].

(** A cyclical single choice among n literals: option k mod n. *)
Theorem C20_single_choice : forall E c ts sep m,
  resolve (c_method c) m = Cyclical -> ts <> [] ->
  Cyc E c (Var (literals ts) 1 1 sep m) (turn ts).
Proof.
  intros E c ts sep m Hm Hne.
  assert (Hlen : length (literals ts) = length ts) by (unfold literals; apply map_length).
  eapply Cy_var with (sels := map (fun t => [Lit (fst t) None]) ts)
                     (sss := map (fun t => [fun _ => fst t]) ts); auto.
  - destruct ts; [congruence|discriminate].
  - intros (w & mw & vs & q & H). destruct ts; [congruence|discriminate].
  - exists [map (fun t => [Lit (fst t) None]) ts]. split; [|cbn; now rewrite app_nil_r].
    assert (Hs : sizes (length (literals ts)) 1 1 = [1]).
    { rewrite Hlen. unfold sizes, clamp. destruct ts as [|t ts]; [congruence|]. clear.
      replace (Z.to_nat (Z.min (Z.max 0 (Z.min 1 1)) (Z.of_nat (length (t :: ts))))) with 1 by (cbn [length]; lia).
      replace (Z.to_nat (Z.min (Z.max 1 1) (Z.of_nat (length (t :: ts))) + 1)) with 2 by (cbn [length]; lia).
      reflexivity. }
    rewrite Hs. constructor; [|constructor]. unfold literals. rewrite map_map. cbn [fst repeat product].
    clear. induction ts as [|t ts IH]; cbn; [constructor|]. apply Sift_keep; [|exact IH].
    repeat constructor. intros [].
  - destruct ts; [congruence|discriminate].
  - clear. induction ts as [|t ts IH]; cbn; constructor; auto. constructor; [|constructor].
    constructor; [now right|reflexivity].
  - intros k. rewrite map_length. unfold turn.
    assert (Hi : k mod length ts < length ts) by (apply Nat.mod_upper_bound; destruct ts; [congruence|discriminate]).
    revert Hi. generalize (k mod length ts) as i, (k / length ts) as j. clear. intros i j Hi.
    rewrite (nth_indep _ [] [fun _ => fst (@nil N, 1%Qc)]) by now rewrite map_length.
    rewrite (map_nth (fun t => [fun _ : nat => fst t])).
    change (@nil N) with (fst (@nil N, 1%Qc)) at 2. rewrite map_nth. cbn. constructor.
Qed.

(** Several of them in one endless template advance together. *)
Theorem C20_variants_stay_in_step : forall E c tss seps sep s,
  c_method c <> Combinatorial -> Forall (fun ts => ts <> []) tss -> length seps = length tss ->
  (forall k, Glued sep (map (fun ts => turn ts k) tss) (s k)) ->
  Cyc E c (Seq (map (fun x => Var (literals (fst x)) 1 1 (snd x) (Some Cyclical)) (combine tss seps)) sep None) s.
Proof.
  intros E c tss seps sep s Hm Hne Hlen Hs. 
  assert (Hp : Forall (fun tok => ~ is_assign tok)
                 (map (fun x => Var (literals (fst x)) 1 1 (snd x) (Some Cyclical)) (combine tss seps))).
  { apply Forall_forall. intros tok Hin. apply in_map_iff in Hin. destruct Hin as (x & <- & _).
    intros (n & v & i & o & H). discriminate. }
  eapply Cy_seq with (ss := map turn tss); [reflexivity| |now apply Assigned_plain|constructor|apply Extends_nil|now apply Plain_plain| |].
  - cbn. destruct (c_method c); [now left|congruence|now right].
  - clear Hs Hp. revert seps Hlen. induction Hne as [|ts tss Hts _ IH]; intros [|sp seps] Hl; try discriminate; cbn; [constructor|].
    constructor; [|apply IH; now injection Hl].
    now apply C20_single_choice.
  - intros k. unfold at_time. rewrite map_map. apply Hs.
Qed.

Example C20_example :
  run Cyclical (Seq [Var (opts ["a"; "b"]%string) 1 1 $"," None; Var (opts ["x"; "y"; "z"]%string) 1 1 $"," None]
                    [] None) 7 []
  = ([$"ax"; $"by"; $"az"; $"bx"; $"ay"; $"bz"; $"ax"], None) /\
  run Random (Seq [Var (opts ["a"; "b"]%string) 1 1 $"," (Some Cyclical);
                   Var (opts ["x"; "y"; "z"]%string) 1 1 $"," (Some Cyclical)] [] None) 4 []
  = ([$"ax"; $"by"; $"az"; $"bx"], None) /\
  turn [($"a", 1%Qc); ($"b", 0%Qc); ($"c", 1%Qc)] 4 = $"b".
Proof. repeat split; vm_compute; reflexivity. Qed.

(** A nested cyclical option advances only when it is its turn; multi-choices
    take their selections in turn; wildcards their values. *)
Example C20_nested_example :
  run Cyclical (Var [(Var (opts ["1"; "2"]%string) 1 1 $"," None, 1%Qc); (lit "x", 1%Qc)] 1 1 $"," None) 6 []
  = ([$"1"; $"x"; $"2"; $"x"; $"1"; $"x"], None) /\
  run Cyclical (Var (opts ["a"; "b"]%string) 1 2 $"+" None) 5 [] = ([$"a"; $"b"; $"a+b"; $"b+a"; $"a"], None) /\
  run Cyclical (Wild (WStr $"animal") None []) 3 [] = ([$"cat"; $"dog"; $"cat"], None).
Proof. repeat split; vm_compute; reflexivity. Qed.

(** Variables, a missing wildcard and a random choice with one option:
    "${x={@a|b}}$x{~$x}__nope__" in a random template. *)
Definition ab : command := Var (literals [($"a", 1%Qc); ($"b", 1%Qc)]) 1 1 $"," (Some Cyclical).
Definition bound : command :=
  Seq [Assign $"x" ab false true; Access $"x" None; Var [(Access $"x" None, 1%Qc)] 1 1 $"," (Some Random);
       Wild (WStr $"nope") None []] [] None.
Definition bound_at (k : nat) : text := turn [($"a", 1%Qc); ($"b", 1%Qc)] k ++ turn [($"a", 1%Qc); ($"b", 1%Qc)] k ++ $"__nope__".
Example C20_variables_example :
  run Random bound 3 [] = ([$"aa__nope__"; $"bb__nope__"; $"aa__nope__"], None) /\
  Cyc env0 (ctx0 Random) bound bound_at.
Proof.
  split; [vm_compute; reflexivity|].
  pose (bs := [($"x", ab)]). pose (c' := with_variables bs (ctx0 Random)).
  assert (Hx : forall b, Refers (scope_of (as_method b c')) $"x" None ab).
  { intros b. apply Refers_var; [reflexivity|]. split; discriminate. }
  assert (Hab : forall c, Cyc env0 c ab (turn [($"a", 1%Qc); ($"b", 1%Qc)])).
  { intros c. apply C20_single_choice; [reflexivity|discriminate]. }
  apply Cy_seq with (m' := Random) (bs := bs) (need := []) (c' := c')
    (toks := [Access $"x" None; Var [(Access $"x" None, 1%Qc)] 1 1 $"," (Some Random); Wild (WStr $"nope") None []])
    (ss := [turn [($"a", 1%Qc); ($"b", 1%Qc)]; turn [($"a", 1%Qc); ($"b", 1%Qc)]; fun _ => $"__nope__"]).
  - reflexivity.
  - now left.
  - apply As_lazy; [discriminate|]. apply Assigned_plain. repeat constructor; intros (n & v & i & o & [=]).
  - constructor.
  - split; [apply with_variables_Extended|reflexivity].
  - apply Plain_drop. apply Plain_plain. repeat constructor; intros (n & v & i & o & [=]).
  - constructor; [|constructor; [|constructor; [|constructor]]].
    + apply Cy_access with (v := ab); [apply (Hx Random)|intros []|apply Hab].
    + apply Cy_single; [reflexivity|intros (w & mw & vs & q & [=])|].
      apply Cy_access with (v := ab); [apply (Hx Random)|intros []|apply Hab].
    + apply Cy_missing with (path := $"nope") (m' := Random) (c' := as_method Random c') (name := $"nope") (t := $"__nope__").
      * reflexivity.
      * now left.
      * apply CyP_reads with (cmd := Lit $"nope" None) (s := fun _ => $"nope");
          [constructor; [discriminate|reflexivity]|constructor; [now left|reflexivity]|reflexivity].
      * reflexivity.
      * apply Extends_nil.
      * intros n [= <-]. reflexivity.
      * discriminate.
      * exists $"__nope". split; right; (split; [|reflexivity]).
        -- intros (rest & [=]).
        -- intros (before & H). apply (f_equal (@rev N)) in H. rewrite rev_app_distr in H. discriminate H.
      * reflexivity.
  - intros k. exact (Glued_plain [] (at_time [turn [($"a", 1%Qc); ($"b", 1%Qc)]; turn [($"a", 1%Qc); ($"b", 1%Qc)]; fun _ => $"__nope__"] k) eq_refl).
Qed.

(** A cyclical variant without a selection never yields and never stops. *)
Theorem C20_no_selection_never_answers : forall G E c sep f r,
  next G E f (GYVarLoop c sep []) r = OFuel.
Proof. intros G E c sep f. induction f as [|f IH]; intros r; [reflexivity|]. apply IH. Qed.
Theorem C20_equal_options_have_no_pair : forall G E c sep x q q' f r,
  next G E f (GYVarStart c [(x, q); (x, q')] 2 2 sep) r = OFuel.
Proof.
  intros G E c sep x q q' [|f] r; [reflexivity|]. unfold_next G E. cbn [single_wildcard].
  assert (Hx : bound_combos [(x, q); (x, q')] 2 2 = []).
  { unfold bound_combos.
    cbn [length]. change (adjust_range 2 2 2) with (2, 2)%Z. cbv beta iota. change (zrange 2 2) with [2%Z]. cbn [flat_map]. change (Z.to_nat 2) with 2. cbn -[cmd_eqb]. rewrite !cmd_eqb_refl. reflexivity. }
  rewrite Hx. destruct x; apply C20_no_selection_never_answers.
Qed.

(** Within a combinatorial sequence equal cyclical parts share one cycle. *)
Example C20_equal_parts_in_combinatorial_example :
  let v := Var (opts ["a"; "b"]%string) 1 1 $"," (Some Cyclical) in
  run Combinatorial (Seq [Var (opts ["1"; "2"]%string) 1 1 $"," None; v; v] [] None) 9 []
  = ([$"1ba"; $"2ba"], None).
Proof. vm_compute. reflexivity. Qed.

Print Assumptions C20_kth_prompt.
Print Assumptions C20_single_choice.
Print Assumptions C20_variants_stay_in_step.
Print Assumptions C20_no_selection_never_answers.
Print Assumptions C20_equal_options_have_no_pair.
