(** C40-C46, C50-C54: the prompt generators and the template functions. *)
From Coq Require Import String NArith ZArith QArith Qcanon Bool Arith List Sorted Permutation Lia.
From Verif.Model Require Import Str Utils Command Float Rng Values Context Sampler Generators.
From Verif.Spec Require Import Regex CleanUp Text Comb Items StreamRng Lang Seeds Generators.
From Verif.Proofs Require Import CleanUpFacts StrFacts UtilsFacts FloatFacts RngFacts GeneratorFacts MagicFacts AttentionFacts.
From Verif.Properties Require Import P_Sampler.
Import ListNotations.
Local Open Scope nat_scope.

(** The environment in which every template is parsed as [cmd] (and one
    wildcard with unequal weights exists). *)
Definition parses_to (cmd : command) : env := {|
  env_parse := fun s => if str_eqb s $"T" then Ok cmd else Ok (Lit s None);
  env_lookup := fun s => if str_eqb s $"w"
                         then [{| w_content := $"cat"; w_weight_opt := Some 1%Qc |};
                               {| w_content := $"dog"; w_weight_opt := Some (Q2Qc (3 # 1)) |}]
                         else if str_eqb s $"e"
                         then [{| w_content := $"red"; w_weight_opt := None |};
                               {| w_content := $"tan"; w_weight_opt := None |}] else [];
  env_wrap := $"__"
|}.
Definition seeded (cmd : command) (seeds : list Z) : out (list N) (list str) :=
  random_generate stream_rng (parses_to cmd) 50 (ctx0 Random) $"T" (length seeds) (SList seeds) [].
Definition texts {S} (x : out S (list str)) : option (list str) :=
  match x with Ret l _ => Some l | _ => None end.

(** * C40 *)
Theorem C40_batches_are_repeated_calls : forall (S : Type) (inner : S -> out S (list str)) b s result s',
  batched_generate inner b s = Ret result s' <->
  exists outs, Calls inner b s outs s' /\ result = concat outs.
Proof. intros S inner. exact (batched_ok inner). Qed.

Theorem C40_an_exception_stops_the_batches : forall (S : Type) (inner : S -> out S (list str)) b s e s',
  batched_generate inner b s = Exn e s' <->
  exists k outs s1, k < b /\ Calls inner k s outs s1 /\ inner s1 = Exn e s'.
Proof. intros S inner. exact (batched_exn inner). Qed.

Definition count_up (s : nat) : out nat (list str) :=
  if Nat.ltb s 3 then Ret [repeat 97%N s; $"x"] (S s) else Exn EValue s.
Example C40_example_ok : batched_generate count_up 2 1 = Ret [$"a"; $"x"; $"aa"; $"x"] 3.
Proof. reflexivity. Qed.
Example C40_example_exn : batched_generate count_up 4 1 = Exn EValue 3.
Proof. reflexivity. Qed.

(** * C41 *)
(** Equal seeds give equal prompts, wherever they stand in the two lists,
    whatever the other seeds and the initial random states are. *)
Theorem C41_the_seed_determines_the_prompt :
  forall G E c template cmd fuel fuel' l l' r0 r0' ts ts' r1 r1' i j z,
  NoMemoryCtx E c -> env_parse E template = Ok cmd -> NoMemory E cmd ->
  random_generate G E fuel c template (length l) (SList l) r0 = Ret ts r1 ->
  random_generate G E fuel' c template (length l') (SList l') r0' = Ret ts' r1' ->
  nth_error l i = Some z -> nth_error l' j = Some z ->
  exists t, nth_error ts i = Some t /\ nth_error ts' j = Some t.
Proof. exact seed_determines. Qed.

Definition memoryless_cmd : command :=
  Seq [lit "a "; Var (opts ["x"; "y"; "z"]%string) 1 2 $"+" None; Wild (WStr $"e") None []] [] None.
Example C41_memoryless_cmd : NoMemory (parses_to memoryless_cmd) memoryless_cmd.
Proof.
  constructor; [discriminate|]. repeat constructor; try discriminate.
  exists $"e". split; [reflexivity|]. intros cmd H. cbn in H. injection H as <-.
  exists $"e", None. split; [reflexivity|]. split; intros a b Ha Hb; cbn in Ha, Hb;
    destruct Ha as [<-|[<-|[]]], Hb as [<-|[<-|[]]]; reflexivity.
Qed.
Example C41_memoryless_ctx : NoMemoryCtx (parses_to memoryless_cmd) (ctx0 Random).
Proof. split; [reflexivity|]. split; [constructor|discriminate]. Qed.
Example C41_example :
  texts (seeded memoryless_cmd [5; 6; 5]%Z) = Some [$"a x+yred"; $"a xred"; $"a x+yred"]
  /\ texts (seeded memoryless_cmd [7; 5]%Z) = Some [$"a x+yred"; $"a x+yred"].
Proof. vm_compute. split; reflexivity. Qed.

(** Not true of wildcards whose entries have different weights: ten draws are
    made ahead. *)
Theorem C41_refuted_for_weighted_wildcards : exists cmd l ts r,
  cmd = Wild (WStr $"w") None [] /\ nth_error l 0 = nth_error l 2 /\
  seeded cmd l = Ret ts r /\ nth_error ts 0 <> nth_error ts 2.
Proof.
  exists (Wild (WStr $"w") None []), [4503599627370496; 2; 4503599627370496]%Z, [$"dog"; $"cat"; $"cat"].
  eexists. split; [reflexivity|]. split; [reflexivity|]. split; [vm_compute; reflexivity|discriminate].
Qed.
(** Nor of cyclical variants, whose position is kept. *)
Theorem C41_refuted_for_cyclical_variants : exists cmd l ts r,
  cmd = Var (opts ["a"; "b"]%string) 1 1 $"," (Some Cyclical) /\ nth_error l 0 = nth_error l 1 /\
  seeded cmd l = Ret ts r /\ nth_error ts 0 <> nth_error ts 1.
Proof.
  exists (Var (opts ["a"; "b"]%string) 1 1 $"," (Some Cyclical)), [1; 1]%Z, [$"a"; $"b"].
  eexists. split; [reflexivity|]. split; [reflexivity|]. split; [vm_compute; reflexivity|discriminate].
Qed.
(** Nor of immediate assignments, which are evaluated before the first prompt. *)
Theorem C41_refuted_for_immediate_assignments : exists cmd l ts r l' ts' r',
  cmd = Seq [Assign $"x" (Wild (WStr $"e") None []) true true; Access $"x" None] [] None /\
  seeded cmd l = Ret ts r /\ seeded cmd l' = Ret ts' r' /\
  nth_error l 0 = nth_error l' 1 /\ nth_error l 0 = Some 1%Z /\ nth_error ts 0 <> nth_error ts' 1.
Proof.
  exists (Seq [Assign $"x" (Wild (WStr $"e") None []) true true; Access $"x" None] [] None).
  exists [1; 0]%Z, [$"tan"; $"tan"], [0%N], [0; 1]%Z, [$"red"; $"red"], [1%N].
  split; [reflexivity|]. split; [vm_compute; reflexivity|]. split; [vm_compute; reflexivity|].
  split; [reflexivity|]. split; [reflexivity|discriminate].
Qed.

(** * C42 *)
Theorem C42_one_seed_per_prompt_in_order : forall G E fuel c template l r ts, l <> [] ->
  (exists r', random_generate G E fuel c template (length l) (SList l) r = Ret ts r') <->
  exists g, sample_prompts E fuel c (WStr template) (Some (length l)) = MOk g /\
    Reseeded G E fuel g l ts.
Proof.
  intros G E fuel c template l r ts Hl. split.
  - intros [r' H]. exact (random_in_order G E _ _ _ _ _ _ _ Hl H).
  - intros (g & Hg & H). exact (random_in_order_conv G E _ _ _ _ _ _ _ Hl Hg H).
Qed.
Theorem C42_a_single_seed_is_used_for_all : forall G E fuel c template n z r, 0 < n ->
  random_generate G E fuel c template n (SList [z]) r =
  random_generate G E fuel c template n (SList (repeat z n)) r.
Proof. exact random_broadcast. Qed.
Theorem C42_an_integer_is_one_seed : forall G E fuel c template n z r, z <> 0%Z ->
  random_generate G E fuel c template n (SInt z) r =
  random_generate G E fuel c template n (SList [z]) r.
Proof. exact random_int. Qed.
Theorem C42_other_counts_are_rejected : forall G E fuel c template n l r,
  l <> [] -> length l <> 1 -> length l <> n ->
  random_generate G E fuel c template n (SList l) r = Exn EValue r.
Proof. exact random_wrong_count. Qed.
Theorem C42_zero_and_the_empty_list_are_no_seed : forall G E fuel c template n r,
  random_generate G E fuel c template n (SInt 0) r = random_generate G E fuel c template n SNone r /\
  random_generate G E fuel c template n (SList []) r = random_generate G E fuel c template n SNone r.
Proof. intros. split; reflexivity. Qed.

Definition dice : command := Wild (WStr $"e") None [].
Definition generate (seeds : seeds_arg) (n : nat) (r : list N) : out (list N) (list str) :=
  random_generate stream_rng (parses_to dice) 50 (ctx0 Random) $"T" n seeds r.
Example C42_example_list : texts (generate (SList [0; 1; 0]%Z) 3 []) = Some [$"red"; $"tan"; $"red"].
Proof. vm_compute. reflexivity. Qed.
Example C42_example_int : texts (generate (SInt 1) 3 []) = Some [$"tan"; $"tan"; $"tan"].
Proof. vm_compute. reflexivity. Qed.
Example C42_example_wrong : generate (SList [1; 2]%Z) 3 [9%N] = Exn EValue [9%N].
Proof. vm_compute. reflexivity. Qed.
(** Seed 0 leaves the random generator as it was, so the result depends on it. *)
Example C42_example_zero :
  texts (generate (SInt 0) 1 [1%N]) = Some [$"tan"] /\ texts (generate (SList [0]%Z) 1 [1%N]) = Some [$"red"].
Proof. vm_compute. split; reflexivity. Qed.

(** * C43 *)
Theorem C43_jinja_collects_blocks_or_texts :
  forall (S : Type) (render : S -> out S (str * list str)) limit ws n s ps s',
  jinja_generate (Some render) limit ws n s = Ret ps s' ->
  exists outs base kept, Calls render n s outs s' /\
    (concat (map snd outs) <> [] -> base = concat (map snd outs)) /\
    (concat (map snd outs) = [] -> base = map fst outs) /\
    (limit = false -> kept = base) /\
    (limit = true -> length kept <= n /\ exists dropped, base = kept ++ dropped /\
                        (dropped <> [] -> length kept = n)) /\
    Forall2 (Tidy ws) kept ps.
Proof. intros S render. exact (jinja_ok render). Qed.

Definition render0 (s : nat) : out nat (str * list str) :=
  Ret (repeat 97%N s, repeat ($"p  q") s) (S s).
Example C43_example_blocks : jinja_generate (Some render0) true true 2 1 = Ret [$"p q"; $"p q"] 3.
Proof. reflexivity. Qed.
Example C43_example_all_blocks :
  jinja_generate (Some render0) false false 2 1 = Ret [$"p  q"; $"p  q"; $"p  q"] 3.
Proof. reflexivity. Qed.
Example C43_example_texts : jinja_generate (Some render0) true true 1 0 = Ret [[]] 1.
Proof. reflexivity. Qed.

(** * C44 *)
(** [magic] is what the first pass returns. *)
Theorem C44_blocked_prompts_are_regenerated_in_place :
  forall alnum bang_weight (S : Type) (model : list str -> S -> list str * S) blocked
         has_blocklist attempts prompts s magic s1,
  generate_magic_prompts alnum bang_weight model prompts s = (magic, s1) ->
  exists final used s',
    magic_generate alnum bang_weight model blocked has_blocklist attempts prompts s = Some (final, used, s') /\
    length final = length magic /\ used <= attempts /\
    (forall i f, nth_error final i = Some f ->
       exists o x, nth_error prompts i = Some o /\ f = clean_up_magic_prompt alnum bang_weight o x) /\
    (forall i p, nth_error magic i = Some p -> has_blocklist = false \/ blocked p = false ->
       nth_error final i = Some p) /\
    (has_blocklist = true -> used < attempts -> Forall (fun p => blocked p = false) final).
Proof. intros. now apply magic_ok with (s1 := s1). Qed.
(** One prompt per input prompt if the model answers every one. *)
Theorem C44_one_prompt_per_prompt :
  forall alnum bang_weight (S : Type) (model : list str -> S -> list str * S) prompts s magic s1,
  length (fst (model prompts s)) = length prompts ->
  generate_magic_prompts alnum bang_weight model prompts s = (magic, s1) -> length magic = length prompts.
Proof.
  intros alnum bang_weight S model prompts s magic s1 Hl H.
  rewrite (gmp_length _ _ _ _ _ _ _ H), Hl. apply Nat.min_id.
Qed.

Definition ascii_alnum (c : N) : bool :=
  (N.leb 48 c && N.leb c 57) || (N.leb 65 c && N.leb c 90) || (N.leb 97 c && N.leb c 122).
(** A model that appends "bad" in its first two calls and "ok" later. *)
Definition model0 (l : list str) (s : nat) : list str * nat :=
  (map (fun p => p ++ (if Nat.ltb s 2 && str_eqb p $"q" then $", bad" else $", ok")) l, S s).
Definition blocked0 (p : str) : bool := contains p $"bad".
Example C44_example :
  magic_generate ascii_alnum (fun _ => $"1.1") model0 blocked0 true 5 [$"p"; $"q"] 0
    = Some ([$"p ok"; $"q ok"], 2, 3)
  /\ magic_generate ascii_alnum (fun _ => $"1.1") model0 blocked0 true 1 [$"p"; $"q"] 0
    = Some ([$"p ok"; $"q bad"], 1, 2)
  /\ magic_generate ascii_alnum (fun _ => $"1.1") model0 blocked0 false 5 [$"p"; $"q"] 0
    = Some ([$"p ok"; $"q bad"], 0, 1).
Proof. vm_compute. repeat split. Qed.

(** * C45, C50 *)
Theorem C45_the_prompt_is_kept : forall alnum bang_weight orig prompt, StartsWith prompt orig ->
  StartsWith (clean_up_magic_prompt alnum bang_weight orig prompt) orig.
Proof.
  intros alnum bang_weight orig prompt [q ->]. unfold clean_up_magic_prompt. rewrite startswith_app.
  eexists. reflexivity.
Qed.
(** The part that the model added has no braces left, so sampling the result
    again adds no new variants. *)
Theorem C50_no_braces_are_added : forall alnum bang_weight,
  (forall n, Forall (fun c => c <> 123%N /\ c <> 125%N) (bang_weight n)) ->
  forall orig prompt,
  (StartsWith prompt orig /\ exists rest, clean_up_magic_prompt alnum bang_weight orig prompt = orig ++ rest /\
     Forall (fun c => c <> 123%N /\ c <> 125%N) rest) \/
  (~ StartsWith prompt orig /\
     Forall (fun c => c <> 123%N /\ c <> 125%N) (clean_up_magic_prompt alnum bang_weight orig prompt)).
Proof.
  intros alnum bang_weight Hb orig prompt. destruct (prefix_dec prompt orig) as [[q Hq]|Hn].
  - left. assert (H : StartsWith prompt orig) by now exists q. split; [assumption|].
    destruct (clean_keeps_prompt alnum bang_weight Hb orig prompt H) as (rest & -> & Hr).
    exists (32%N :: rest). split; [reflexivity|]. constructor; [split; discriminate|assumption].
  - right. assert (H : ~ StartsWith prompt orig) by (intros [q Hq]; now apply (Hn q)).
    split; [assumption|]. now apply clean_other.
Qed.
Example C45_example :
  clean_up_magic_prompt ascii_alnum (fun _ => $"1.1") $"a {x|y}" $"a {x|y}, neon {bold} - art ?"
  = $"a {x|y} neon (bold) - art".
Proof. vm_compute. reflexivity. Qed.

(** * C46 *)
Theorem C46_existing_text_is_marked : forall G chunks show,
  (forall p k, In k (chunks p) -> k <> [] /\ Occurs k p) ->
  forall a b prompts r, Double a -> Double b -> exists lo hi results r',
  ((lo, hi) = (a, b) \/ (lo, hi) = (b, a)) /\ (lo <= hi)%Qc /\
  attention_generate G chunks show a b prompts r = Ret results r' /\
  Forall2 (fun p q => (chunks p = [] /\ q = p) \/
     exists k x w, In k (chunks p) /\ Occurs k p /\ (lo <= x)%Qc /\ (x <= hi)%Qc /\ w = round2 x /\
       (Q2Qc (-1 # 200) <= w - x)%Qc /\ (w - x <= Q2Qc (1 # 200))%Qc /\
       (Hundredths lo -> Hundredths hi -> (lo <= w)%Qc /\ (w <= hi)%Qc) /\
       Replaced k ($"(" ++ k ++ $":" ++ show w ++ $")") p q /\
       Subst (fun _ => False) (exactly k) ($"(" ++ k ++ $":" ++ show w ++ $")") [] p q) prompts results.
Proof.
  intros G chunks show Hch a b prompts r Da Db.
  destruct (attention_ok G chunks show a b prompts r Da Db) as (lo & hi & qs & r' & H1 & H2 & H3 & H4).
  exists lo, hi, qs, r'. repeat split; try assumption.
  clear H3. induction H4 as [|p q ps qs Hpq H4 IH]; constructor; [|exact IH].
  destruct Hpq as [Hpq|(k & x & Hk & Hlo & Hhi & ->)]; [now left|]. right.
  destruct (Hch p k Hk) as [Hne Ho]. exists k, x, (round2 x).
  repeat (split; [assumption || reflexivity || apply round2_near|]).
  split; [|split; [now apply replace_Replaced|now apply replace_subst]].
  intros Hl Hh. split; [now apply round2_low|now apply round2_high].
Qed.
Theorem C46_chunks_occur : forall digit p k, In k (cheap_chunker digit p) ->
  k <> [] /\ Occurs k p /\ Forall (fun c => split_punct c = false) k.
Proof. exact chunker_pieces. Qed.

Definition ascii_digit (c : N) : bool := N.leb 48 c && N.leb c 57.
Definition show0 (q : Qc) : str := $"w".
Example C46_example :
  cheap_chunker ascii_digit $" a red cat, 12, a dog! " = [$"a red cat"; $"a dog"] /\
  attention_generate stream_rng (cheap_chunker ascii_digit) show0 (ieee_round (Q2Qc (9 # 10))) (ieee_round (Q2Qc (1 # 10)))
    [$"a red cat, 12, a dog!"; $"12"] [1; half53]%N
  = Ret [$"a red cat, 12, (a dog:w)!"; $"12"] [] /\
  Double (ieee_round (Q2Qc (9 # 10))) /\ Double (ieee_round (Q2Qc (1 # 10))).
Proof.
  split; [vm_compute; reflexivity|]. split; [run_both|]. split; apply ieee_rounding.
Qed.
(** At the upper end rounding gives the upper bound itself, never more. *)
Example C46_upper_end :
  fst (uniform stream_rng (ieee_round (Q2Qc (1 # 10))) (ieee_round (Q2Qc (1 # 2))) [top53]%N) = Q2Qc (1 # 2).
Proof. apply Qc_is_canon. vm_compute. reflexivity. Qed.
Example C46_rounding : round2 (Q2Qc (1234 # 1000)) = Q2Qc (123 # 100) /\ round2 (Q2Qc (1 # 8)) = Q2Qc (12 # 100)
  /\ round2 (Q2Qc (135 # 1000)) = Q2Qc (14 # 100).
Proof. repeat split. Qed.
(** The weight can leave bounds that are not whole hundredths. *)
Theorem C46_refuted_for_fine_bounds : exists lo hi r, Double lo /\ Double hi /\ (lo <= hi)%Qc /\
  (round2 (fst (uniform stream_rng lo hi r)) < lo)%Qc.
Proof.
  exists (Q2Qc (1 # 8)), (Q2Qc (1 # 8)), [].
  assert (Double (Q2Qc (1 # 8))) by (exists 1%Z, (-3)%Z; split; [discriminate|reflexivity]).
  repeat (split; [assumption|]). split; [apply Qcle_refl|]. vm_compute. reflexivity.
Qed.

(** * C51 *)
Theorem C51_permutations_lists_every_selection : forall {A} (items : list A) low high l,
  permutation items low high = Ok l ->
  let top := match high with Some h => h | None => low end in
  exists idxs, Forall2 (PickedAt items) idxs l /\
  (forall idx, In idx idxs <->
     (low <= Z.of_nat (length idx) <= top)%Z /\ NoDup idx /\ Forall (fun i => i < length items) idx) /\
  StronglySorted (fun a b => length a < length b \/ (length a = length b /\ LexBefore a b)) idxs.
Proof. intros A. exact (@permutation_ok A). Qed.
Theorem C51_negative_sizes_are_rejected : forall {A} (items : list A) low high e,
  permutation items low high = Err e <->
  e = EValue /\ (low < 0)%Z /\ (low <= match high with Some h => h | None => low end)%Z.
Proof. intros A. exact (@permutation_err A). Qed.
Example C51_example :
  permutation [7; 8; 7] 1 (Some 2%Z) = Ok [[7]; [8]; [7]; [7; 8]; [7; 7]; [8; 7]; [8; 7]; [7; 7]; [7; 8]]
  /\ permutation [7; 8] 0 None = Ok [[]] /\ permutation [7; 8] 3 None = Ok []
  /\ permutation [7; 8] (-1) None = Err EValue /\ permutation [7; 8] 2 (Some (-5)%Z) = Ok [].
Proof. vm_compute. repeat split. Qed.

(** * C52 *)
(** The first prompt of the wrapped generator is looked up, or a random number
    if it is blank. *)
Theorem C52_feeling_lucky : forall G search show_int q qs num r,
  exists query r1,
    (((exists c, In c q /\ isspace c = false) /\ query = q /\ r1 = r) \/
     (forallb isspace q = true /\ exists z, query = show_int z /\ (0 <= z <= 10000000)%Z)) /\
    match search query with
    | None => exists r', lucky_generate G search show_int (q :: qs) num r = Exn EGenerator r'
    | Some [] => 0 < num -> exists r', lucky_generate G search show_int (q :: qs) num r = Exn EGenerator r'
    | Some found => (Z.of_nat (length found) <= 2 ^ 53)%Z ->
                    exists ts r', lucky_generate G search show_int (q :: qs) num r = Ret ts r' /\
                      length ts = num /\ Forall (fun t => In t found) ts
    end.
Proof. exact lucky_ok. Qed.
Definition search0 (q : str) : option (list str) :=
  if str_eqb q $"cat" then Some [$"c1"; $"c2"; $"c3"] else if str_eqb q $"17" then Some [$"n"] else None.
Example C52_example :
  lucky_generate stream_rng search0 (fun _ => $"17") [$"cat"; $"dog"] 2 [half53; top53]%N = Ret [$"c2"; $"c3"] []
  /\ lucky_generate stream_rng search0 (fun _ => $"17") [$" "] 1 [5%N] = Ret [$"n"] []
  /\ lucky_generate stream_rng search0 (fun _ => $"17") [$"dog"] 1 [] = Exn EGenerator [].
Proof. vm_compute. repeat split. Qed.

(** * C53 *)
Theorem C53_choice_returns_an_item : forall G {A} (items : list A) r, items <> [] ->
  exists x r', jinja_choice G items r = ROk x r' /\ In x items.
Proof. intros G A. exact (@jinja_choice_ok G A). Qed.
Theorem C53_choice_of_nothing_fails : forall G {A} r, jinja_choice G (@nil A) r = RErr EIndex r.
Proof. intros G A. exact (@jinja_choice_nil G A). Qed.
Theorem C53_weighted_choice_avoids_zero : forall G {A} (items : list (A * Qc)) r x r',
  jinja_weighted_choice G items r = ROk x r' -> exists w, In (x, w) items /\ (0 < w)%Qc.
Proof. intros G A. exact (@jinja_weighted_ok G A). Qed.
Theorem C53_weighted_choice_succeeds : forall G {A} (items : list (A * Qc)) r,
  (0 < float_sum (fl G) (map snd items))%Qc -> exists x r', jinja_weighted_choice G items r = ROk x r'.
Proof. intros G A. exact (@jinja_weighted_succeeds G A). Qed.
Theorem C53_weighted_choice_fails_without_weight : forall G {A} (items : list (A * Qc)) r e r',
  jinja_weighted_choice G items r = RErr e r' -> e = EValue /\ (float_sum (fl G) (map snd items) <= 0)%Qc.
Proof. intros G A. exact (@jinja_weighted_err G A). Qed.
Theorem C53_total_is_positive : forall G ws, Forall (fun w => 0 <= w)%Qc ws ->
  ((0 < float_sum (fl G) ws)%Qc <-> Exists (fun w => 0 < w)%Qc ws).
Proof. exact float_sum_positive. Qed.
Example C53_example :
  jinja_choice stream_rng [7; 8; 9] [4%N] = ROk (G := stream_rng) 8 []
  /\ jinja_weighted_choice stream_rng [(7, 0%Qc); (8, 1%Qc); (9, 0%Qc)] [0%N] = ROk (G := stream_rng) 8 []
  /\ jinja_weighted_choice stream_rng [(7, 0%Qc); (8, 1%Qc); (9, 0%Qc)] [top53] = ROk (G := stream_rng) 8 []
  /\ jinja_weighted_choice stream_rng [(7, 0%Qc)] [] = RErr (G := stream_rng) EValue [].
Proof. run_both. Qed.

(** * C54 *)
Theorem C54_random_without_seeds : forall G E fuel c template n seeds r ts r',
  is_nonfinite (c_method c) = true -> effective_seeds seeds n = None ->
  random_generate G E fuel c template n seeds r = Ret ts r' ->
  (ts = [] \/ length ts = n) /\ Forall (Allowed E c (WStr template)) ts.
Proof. exact random_unseeded. Qed.
Theorem C54_random_with_seeds : forall G E fuel c template n seeds l r ts r',
  effective_seeds seeds n = Some (Ok l) ->
  random_generate G E fuel c template n seeds r = Ret ts r' ->
  length ts = n /\ Forall (Allowed E c (WStr template)) ts.
Proof. exact random_seeded. Qed.
Theorem C54_combinatorial : forall G E fuel steps c template limit r ts r',
  combinatorial_generate G E fuel steps c template limit r = Ret ts r' ->
  (forall k, limit = Some k -> length ts <= k) /\ Forall (Allowed E c (WStr template)) ts.
Proof. exact combinatorial_ok. Qed.
(** The dummy generator repeats its template. *)
Theorem C54_dummy : forall template n p,
  length (dummy_generate template n) = n /\ (In p (dummy_generate template n) -> p = template).
Proof. intros template n p. split; [apply repeat_length|apply repeat_spec]. Qed.
Example C54_dummy_example : dummy_generate $"{a|b}" 2 = [$"{a|b}"; $"{a|b}"].
Proof. reflexivity. Qed.
Example C54_example :
  texts (generate SNone 3 [0; 1]%N) = Some [$"red"; $"tan"; $"red"] /\
  texts (combinatorial_generate stream_rng (parses_to dice) 50 9 (ctx0 Combinatorial) $"T" (Some 5) [])
    = Some [$"red"; $"tan"].
Proof. vm_compute. split; reflexivity. Qed.

Print Assumptions C40_batches_are_repeated_calls.
Print Assumptions C40_an_exception_stops_the_batches.
Print Assumptions C41_the_seed_determines_the_prompt.
Print Assumptions C41_refuted_for_weighted_wildcards.
Print Assumptions C41_refuted_for_cyclical_variants.
Print Assumptions C41_refuted_for_immediate_assignments.
Print Assumptions C42_one_seed_per_prompt_in_order.
Print Assumptions C42_a_single_seed_is_used_for_all.
Print Assumptions C42_an_integer_is_one_seed.
Print Assumptions C42_other_counts_are_rejected.
Print Assumptions C42_zero_and_the_empty_list_are_no_seed.
Print Assumptions C43_jinja_collects_blocks_or_texts.
Print Assumptions C44_blocked_prompts_are_regenerated_in_place.
Print Assumptions C44_one_prompt_per_prompt.
Print Assumptions C45_the_prompt_is_kept.
Print Assumptions C50_no_braces_are_added.
Print Assumptions C46_existing_text_is_marked.
Print Assumptions C46_chunks_occur.
Print Assumptions C46_refuted_for_fine_bounds.
Print Assumptions C51_permutations_lists_every_selection.
Print Assumptions C51_negative_sizes_are_rejected.
Print Assumptions C52_feeling_lucky.
Print Assumptions C53_choice_returns_an_item.
Print Assumptions C53_choice_of_nothing_fails.
Print Assumptions C53_weighted_choice_avoids_zero.
Print Assumptions C53_weighted_choice_succeeds.
Print Assumptions C53_weighted_choice_fails_without_weight.
Print Assumptions C53_total_is_positive.
Print Assumptions C54_random_without_seeds.
Print Assumptions C54_random_with_seeds.
Print Assumptions C54_combinatorial.
Print Assumptions C54_dummy.
