(** C93: the exceptions of sampling and their causes. *)
From Coq Require Import String NArith ZArith QArith Qcanon Bool Arith List Lia.
From Verif.Model Require Import Str Utils Command Rng Values Context Sampler Parser Generators.
From Verif.Spec Require Import Text Comb Items StreamRng Lang Names Syntax Causes.
From Verif.Proofs Require Import StrFacts ValuesFacts Soundness FairFacts CausesRun.
From Verif.Properties Require Import P_Parser P_EndToEnd.
Import ListNotations.
Local Open Scope nat_scope.

(** * C93 *)
(** Whatever exceptions are allowed: if the template, the values it can reach
    and the context have the cause of no other exception, no other exception
    is raised, when the prompts are asked for and later.  RuntimeError, for a
    part that has nothing to give, is left out. *)
Theorem C93_every_exception_has_its_cause :
  forall G E raises fallback layer needs modes texts wilds n K M c p limit f,
  TextsCautious E raises fallback layer needs modes texts wilds ->
  WildsCautious E raises fallback layer needs modes texts wilds ->
  Ready E raises fallback layer needs modes texts wilds n K M c ->
  Careful E raises fallback layer needs modes texts wilds n K M p ->
  match sample_prompts E f c p limit with
  | MErr e => raises e
  | MOk g => forall f' k r e, snd (fst (collect G E f' k g r)) = EndRaise e -> raises e \/ e = ERuntime
  | MFuel => True
  end.
Proof. intros. eapply run_causes; eassumption. Qed.
(** The same for the generators. *)
Theorem C93_combinatorial_generator :
  forall G E raises fallback layer needs modes texts wilds n K M c template max f steps r e r',
  TextsCautious E raises fallback layer needs modes texts wilds ->
  WildsCautious E raises fallback layer needs modes texts wilds ->
  Ready E raises fallback layer needs modes texts wilds n K M c -> texts n K M template ->
  combinatorial_generate G E f steps c template max r = Exn e r' -> raises e \/ e = ERuntime.
Proof. intros. eapply combinatorial_causes; eassumption. Qed.
Theorem C93_random_generator :
  forall G E raises fallback layer needs modes texts wilds n K M c template num seeds f r e r',
  TextsCautious E raises fallback layer needs modes texts wilds ->
  WildsCautious E raises fallback layer needs modes texts wilds ->
  Ready E raises fallback layer needs modes texts wilds n K M c -> texts n K M template ->
  random_generate G E f c template num seeds r = Exn e r' ->
  raises e \/ e = ERuntime \/ (e = EStopIteration /\ seeds <> SNone) \/
  (e = EValue /\ exists l, seeds = SList l /\ length l <> num).
Proof. intros. eapply random_causes; eassumption. Qed.

(** Without any condition: there are no other kinds of exceptions. *)
Theorem C93_kinds_of_exceptions : forall G E c p limit f,
  let sampling e := e = EKey \/ e = ERecursion \/ e = ENotImplemented \/ e = EValue \/ exists t, env_parse E t = Err e in
  match sample_prompts E f c p limit with
  | MErr e => sampling e
  | MOk g => forall f' k r e, snd (fst (collect G E f' k g r)) = EndRaise e -> sampling e \/ e = ERuntime
  | MFuel => True
  end.
Proof. exact kinds_of_exceptions. Qed.
(** With a value for unknown variables there is no KeyError. *)
Theorem C93_no_key_error : forall G E c p limit f, c_unknown c <> None -> (forall t, env_parse E t <> Err EKey) ->
  match sample_prompts E f c p limit with
  | MErr e => e <> EKey
  | MOk g => forall f' k r e, snd (fst (collect G E f' k g r)) = EndRaise e -> e <> EKey
  | MFuel => True
  end.
Proof. exact known_unknown. Qed.

(** Each of them occurs.  The first prompts of a run and the exception that
    ends it: *)
Definition ending (c : ctx) (p : wpath) (n : nat) : option (list text * exn) :=
  match sample_prompts zoo 60 c p None with
  | MOk g => match collect stream_rng zoo 60 n g [] with (ts, EndRaise e, _) => Some (ts, e) | _ => None end
  | MErr e => Some ([], e)
  | MFuel => None
  end.
Example C93_example_key : ending (fresh Combinatorial true) (WStr $"{a|${x}}") 2 = Some ([$"a"], EKey).
Proof. vm_compute. reflexivity. Qed.
Example C93_example_recursion : ending (fresh Random true) (WStr $"${x=${y}}${y=${x}}${x}") 1 = Some ([], ERecursion).
Proof. vm_compute. reflexivity. Qed.
(** A template that is an assignment and nothing else, and a wrap sampled cyclically. *)
Example C93_example_assignment : ending (fresh Random true) (WStr $"${x=1}") 1 = Some ([], ENotImplemented).
Proof. vm_compute. reflexivity. Qed.
Example C93_example_wrap : ending (fresh Cyclical true) (WStr $"a %{[...]$$b}") 1 = Some ([], ENotImplemented).
Proof. vm_compute. reflexivity. Qed.
Example C93_example_value : ending (fresh Random true) (WStr $"{0::a|0::b}") 1 = Some ([], EValue).
Proof. vm_compute. reflexivity. Qed.
Example C93_example_parser : ending (fresh Random true) (WStr $"a {b") 1 = Some ([], EParse).
Proof. vm_compute. reflexivity. Qed.
Example C93_example_runtime :
  ending (fresh Random true) (WCmd (Seq [plainly "a"; Var [] 1 1 $"," None] [] None)) 1 = Some ([], ERuntime).
Proof. vm_compute. reflexivity. Qed.

(** A template with variables, wildcards, a wrap and a part that is sampled
    cyclically that causes none of these exceptions, sampled at random or
    combinatorially. *)
Definition calm_text : text :=
  $"a ${x=!__animal__}${y=${x} and ${z:__none__}}{red|2::blue} ${y}, %{[...]$${u|v}} {@p|q} {2$$ and $$__animal__}".
Definition calm_cmd : command :=
  Seq [plainly "a ";
       Assign $"x" (Wild (WStr $"animal") None []) true true;
       Assign $"y" (Seq [Access $"x" None; plainly " and "; Access $"z" (Some (Wild (WStr $"none") None []))] [] None) false true;
       Var [(plainly "red", 1%Qc); (plainly "blue", Q2Qc 2)] 1 1 $"," None;
       plainly " "; Access $"y" None; plainly ", ";
       Wrap (plainly "[...]") (Var [(plainly "u", 1%Qc); (plainly "v", 1%Qc)] 1 1 $"," None) None;
       plainly " ";
       Var [(plainly "p", 1%Qc); (plainly "q", 1%Qc)] 1 1 $"," (Some Cyclical);
       plainly " ";
       Var [(Wild (WStr $"animal") None [], 1%Qc)] 2 2 $" and " None] [] None.
Example C93_example_parsed : parse ascii_alnum default_parser_config calm_text = Ok calm_cmd.
Proof. vm_compute. reflexivity. Qed.
Definition none_of (e : exn) : Prop := False.
Definition not_cyclical (m : method) : Prop := m <> Cyclical.
Definition any_sampler (m : method) : Prop := True.
Definition layer2 (x : text) : nat := if str_eqb x $"y" then 1 else 0.
Definition needs2 (x : text) : list text := if str_eqb x $"y" then [$"x"] else [].
Definition modes2 (x : text) : method -> Prop := any_sampler.
Definition known_texts (_ : nat) (_ : list text) (_ : method -> Prop) (t : text) : Prop :=
  In t [$"animal"; $"none"; $"cat"; $"{big|small} dog"].
Definition all_wilds (_ : nat) (_ : list text) (_ : method -> Prop) (_ : text) : Prop := True.
Notation Calm := (Cautious zoo none_of False layer2 needs2 modes2 known_texts all_wilds).
Lemma turns_any : forall M m, Turns M m any_sampler.
Proof. intros M m k _. exact I. Qed.
Lemma turns_same : forall M, Turns M None M.
Proof. intros M k Hk. exact Hk. Qed.
Lemma calm_lit : forall n K M s, Calm n K M (plainly s).
Proof. intros. apply Cautious_text. Qed.
Lemma calm_two : forall n K M a b p q m, (0 < p)%Qc -> (0 < q)%Qc ->
  Calm n K M (Var [(plainly a, p); (plainly b, q)] 1 1 $"," m).
Proof.
  intros n K M a b p q m Hp Hq. apply Cautious_variants with any_sampler.
  - apply turns_any.
  - repeat (constructor; [apply calm_lit|]). constructor.
  - intros _. right. lia.
  - intros _. right. right. intros v w [[= <- <-]|[[= <- <-]|[]]]; assumption.
  - intros t mw vars w Ht. discriminate Ht.
  - intros c mw vars w Hc. discriminate Hc.
  - intros; exact I.
Qed.
Lemma calm_wild : forall n K M t, known_texts n K M t -> Calm n K M (Wild (WStr t) None []).
Proof.
  intros n K M t Ht. apply Cautious_wildcard with M.
  - apply turns_same.
  - intros t' [= <-]. exact Ht.
  - intros c Hc. discriminate Hc.
  - intros x v [].
  - intros x v [].
  - intros; exact I.
Qed.
Lemma calm_other : forall n K M K' c, ~ is_assign c -> Calm n K' M c ->
  Part zoo none_of False layer2 needs2 modes2 known_texts all_wilds n K M K' c.
Proof. intros. now apply Part_other. Qed.
Ltac not_assign := intros (? & ? & ? & ? & Hx); discriminate Hx.
Example C93_example_calm : Calm 2 [] not_cyclical calm_cmd.
Proof.
  apply Cautious_sequence with not_cyclical; [apply turns_same|]. cbn [assigned flat_map app].
  constructor; [apply calm_other; [not_assign|apply calm_lit]|].
  constructor.
  { apply Part_now; [apply calm_wild; now left|]. intros y []. }
  constructor.
  { apply Part_lazy; [|left; split; intros; discriminate|intros y [<-|[]]; now left].
    apply Cautious_sequence with any_sampler; [apply turns_any|].
    constructor; [apply calm_other; [not_assign|]|].
    { apply Cautious_access; [left; now left|left; vm_compute; lia|intros; exact I|intros c Hc; discriminate Hc|intros c Hc; discriminate Hc]. }
    constructor; [apply calm_other; [not_assign|apply calm_lit]|].
    constructor; [apply calm_other; [not_assign|]|constructor].
    apply Cautious_access; [right; left; discriminate|left; vm_compute; lia|intros; exact I| |].
    - intros c [= <-]. apply calm_wild. right. now left.
    - intros c [= <-]. left. split; intros; discriminate. }
  constructor; [apply calm_other; [not_assign|apply calm_two; reflexivity]|].
  constructor; [apply calm_other; [not_assign|apply calm_lit]|].
  constructor; [apply calm_other; [not_assign|]|].
  { apply Cautious_access; [left; right; now left|left; vm_compute; lia|intros; exact I|intros c Hc; discriminate Hc|intros c Hc; discriminate Hc]. }
  constructor; [apply calm_other; [not_assign|apply calm_lit]|].
  constructor; [apply calm_other; [not_assign|]|].
  { apply Cautious_wrap with not_cyclical; [apply turns_same|intros H; now apply H|apply calm_lit|apply calm_two; reflexivity]. }
  constructor; [apply calm_other; [not_assign|apply calm_lit]|].
  constructor; [apply calm_other; [not_assign|apply calm_two; reflexivity]|].
  constructor; [apply calm_other; [not_assign|apply calm_lit]|].
  constructor; [apply calm_other; [not_assign|]|constructor].
  apply Cautious_variants with not_cyclical; [apply turns_same| |intros _; right; lia|intros _; right; left; cbn; lia| |intros; discriminate|intros; exact I].
  - constructor; [apply calm_wild; now left|constructor].
  - intros t mw vars q [= <- _ _ _]. now left.
Qed.
Example C93_example_texts : TextsCautious zoo none_of False layer2 needs2 modes2 known_texts all_wilds.
Proof.
  intros n K M t Ht. destruct Ht as [<-|[<-|[<-|[<-|[]]]]].
  - split; [intros c Hc|intros e He; vm_compute in He; discriminate He].
    replace c with (plainly "animal") by (vm_compute in Hc; injection Hc as <-; reflexivity). apply calm_lit.
  - split; [intros c Hc|intros e He; vm_compute in He; discriminate He].
    replace c with (plainly "none") by (vm_compute in Hc; injection Hc as <-; reflexivity). apply calm_lit.
  - split; [intros c Hc|intros e He; vm_compute in He; discriminate He].
    replace c with (plainly "cat") by (vm_compute in Hc; injection Hc as <-; reflexivity). apply calm_lit.
  - rewrite dog_parsed. split; [intros c [= <-]|intros e He; discriminate He].
    apply Cautious_sequence with any_sampler; [apply turns_any|].
    constructor; [apply calm_other; [not_assign|apply calm_two; reflexivity]|].
    constructor; [apply calm_other; [not_assign|apply calm_lit]|constructor].
Qed.
Example C93_example_wilds : WildsCautious zoo none_of False layer2 needs2 modes2 known_texts all_wilds.
Proof.
  intros n K M name _. split; [|split].
  - intros i Hi. cbn [zoo env_lookup] in Hi. destruct (str_eqb name $"animal"); [|destruct Hi].
    destruct Hi as [<-|[<-|[]]]; cbn; auto.
  - intros w m vars q sc name' (ts & cs & Hts & Hcs & Hos). exfalso.
    destruct cs as [|c [|c2 cs]]; cbn in Hos; try discriminate Hos. injection Hos as <- _.
    inversion Hcs as [|t c2 ts' cs' Hp Hr]; subst. inversion Hr; subst. clear Hr Hcs.
    destruct (Listed_In _ _ Hts t (or_introl eq_refl)) as [p Hin]. cbn [zoo env_lookup] in Hin.
    destruct (str_eqb name $"animal"); [|destruct Hin].
    destruct Hin as [[= <- _]|[[= <- _]|[]]]; [vm_compute in Hp; discriminate Hp|].
    pose proof (eq_trans (eq_sym Hp) dog_parsed) as Hd. discriminate Hd.
  - intros _. right. cbn [zoo env_lookup]. destruct (str_eqb name $"animal"); (split; [intros t q Hq|intros Hne]).
    + destruct Hq as [[= <- <-]|[[= <- <-]|[]]]; discriminate.
    + exists $"cat", 1%Qc. split; [now left|reflexivity].
    + destruct Hq.
    + now contradiction Hne.
Qed.
Example C93_example_ready : forall m b, m <> Cyclical ->
  Ready zoo none_of False layer2 needs2 modes2 known_texts all_wilds 2 [] not_cyclical (fresh m b).
Proof.
  intros m b Hm. split; [exact Hm|]. split; [right; intros x []|]. split; [intros []|].
  split; [intros u n K M Hu; discriminate Hu|]. split; [intros x []|]. intros x v Hx. discriminate Hx.
Qed.
(** So no run of it raises any of them. *)
Example C93_example_calm_runs : forall G m b f limit, m <> Cyclical ->
  match sample_prompts zoo f (fresh m b) (WCmd calm_cmd) limit with
  | MErr _ => False
  | MOk g => forall f' k r e, snd (fst (collect G zoo f' k g r)) = EndRaise e -> e = ERuntime
  | MFuel => True
  end.
Proof.
  intros G m b f limit Hm.
  pose proof (C93_every_exception_has_its_cause G zoo none_of False layer2 needs2 modes2 known_texts all_wilds
    2 [] not_cyclical (fresh m b) (WCmd calm_cmd) limit f C93_example_texts C93_example_wilds (C93_example_ready m b Hm) C93_example_calm) as H.
  destruct (sample_prompts zoo f (fresh m b) (WCmd calm_cmd) limit) as [g|e|]; auto.
  intros f' k r e He. destruct (H f' k r e He) as [[]|He']. exact He'.
Qed.

Print Assumptions C93_every_exception_has_its_cause.
Print Assumptions C93_combinatorial_generator.
Print Assumptions C93_random_generator.
Print Assumptions C93_kinds_of_exceptions.
Print Assumptions C93_no_key_error.
