(** From texts to answers. *)
From Verif Require Import Base NumTypes AlgoFib SpecNum Ast Display Internal Eval Runner Peg Build SpecAst SpecClimb SpecSyntax SpecText SpecSession SpecAnswer.
From Verif Require Import ProofAst ProofDisplay ProofEval ProofRunner ProofAtom ProofText ProofStatement ProofSource ProofSyntax ProofKeyword.
From Verif Require ProofFib.
From Verif Require Import SpecSource.
Local Open Scope Z_scope.
Local Open Scope outcome_scope.

Lemma forget_integers : forall l ns, map forget_positions l = map Integer ns -> l = map Integer ns.
Proof.
  induction l as [|a l IH]; intros [|n ns] H; try discriminate; [reflexivity|]. cbn [map] in H. injection H as H1 H2.
  cbn [map]. rewrite <- (IH ns H2). f_equal. destruct a; try discriminate; exact H1.
Qed.
Lemma forget_call : forall a s args, forget_positions a = forget_positions (call s args) ->
  exists args' pos, a = Function s [mkParam args' [] pos] /\ map forget_positions args' = map forget_positions args.
Proof.
  intros a s args H. unfold call in H. destruct a as [|l|s' ps|b|i|d|s'|t]; try discriminate. cbn [forget_positions map arguments options] in H. injection H as -> H.
  destruct ps as [|p [|q ps]]; try discriminate. cbn [map] in H. destruct p as [args' opts pos]. cbn [arguments options] in H. injection H as H1 H2.
  destruct opts; [|discriminate]. exists args', pos. split; [reflexivity|exact H1].
Qed.

Section Answer.
  Variable U : unicode.
  Hypothesis HU : sane U.
  Variable W : Z.

  Lemma denotes_ok : forall text a, denotes U text (Ret a) -> forall f, exists a', parse U f text = Ret (Ok a') /\ forget_positions a' = forget_positions a.
  Proof.
    intros text a H f. specialize (H f). destruct (parse U f text) as [[a'|e]|k|]; try discriminate. exists a'. split; [reflexivity|]. injection H as H. exact H.
  Qed.
  Lemma denotes_panic : forall text k, denotes U text (Panic k) -> forall f, parse U f text = Panic k.
  Proof. intros text k H f. specialize (H f). destruct (parse U f text) as [[a'|e]|k'|]; try discriminate. injection H as ->. reflexivity. Qed.

  Lemma session_keys : forall p calls c, keys_ok c -> keys_ok (fst (run_session W p calls c)).
  Proof.
    intros p. induction calls as [|s calls IH]; intros c H; [exact H|]. cbn [run_session]. pose proof (evaluate_keys_ok W p s c H) as K.
    destruct (Runner.evaluate W p s c) as [c1 r]. cbn [fst] in K. destruct r; [|exact K|exact K]. specialize (IH c1 K). destruct (run_session W p calls c1). exact IH.
  Qed.
  Lemma answer_eq : forall calls text, exists c, answer U W calls text =
    match parse U (lit "anonymous") text with
    | Panic k => Panic k
    | OutOfFuel => OutOfFuel
    | Ret (Err e) => Ret (Err e)
    | Ret (Ok a) =>
        match forward W a c with
        | Panic k => Panic k
        | OutOfFuel => OutOfFuel
        | Ret (Err e, _) => Ret (Err e)
        | Ret (Ok o, _) => t <- display o; Ret (Ok t)
        end
    end.
  Proof.
    intros calls text. unfold answer. set (c := fst _). exists (entered text c). rewrite evaluate_unfold by (apply session_keys; split; constructor).
    destruct (parse U (lit "anonymous") text) as [[a|e]|k|]; try reflexivity.
    destruct (forward W a (entered text c)) as [[[o|e] c']|k|]; reflexivity.
  Qed.
  Lemma answer_value : forall calls text a n, denotes U text (Ret a) -> (0 <= n) ->
    (forall a' c, forget_positions a' = forget_positions a -> forward W a' c = Ret (Ok (Integer n), c)) -> prints n (answer U W calls text).
  Proof.
    intros calls text a n H N F. destruct (denotes_ok text a H (lit "anonymous")) as (a' & P & E). destruct (answer_eq calls text) as [c ->]. rewrite P, (F a' c E). cbn [display obind].
    exists (show_int n). split; [|reflexivity]. unfold show_int. destruct (n <? 0) eqn:L; [apply Z.ltb_lt in L; lia|]. apply show_nat_spec. exact N.
  Qed.
  Lemma answer_error : forall calls text a e, denotes U text (Ret a) ->
    (forall a' c, forget_positions a' = forget_positions a -> forward W a' c = Ret (Err e, c)) -> answer U W calls text = Ret (Err e).
  Proof.
    intros calls text a e H F. destruct (denotes_ok text a H (lit "anonymous")) as (a' & P & E). destruct (answer_eq calls text) as [c ->]. rewrite P, (F a' c E). reflexivity.
  Qed.
  Lemma answer_panic : forall calls text k, denotes U text (Panic k) -> answer U W calls text = Panic k.
  Proof. intros calls text k H. destruct (answer_eq calls text) as [c ->]. rewrite (denotes_panic text k H). reflexivity. Qed.

  Lemma number_term : forall n x, numeral_of n x -> term U x (Ret (Integer n)).
  Proof. intros n x H. apply numeral_of_numeral in H as [H <-]. apply node_term, n_integer. exact H. Qed.
  Lemma number_plain : forall n x y, numeral_of n x -> plain_start (x ++ y) = true.
  Proof.
    intros n x y H. apply numeral_of_numeral in H as [H _]. apply harmless_plain, digit_harmless. destruct x as [|c x]; [discriminate|]. cbn [app head_is numeral] in *.
    destruct (c =? 48)%N eqn:E; [apply N.eqb_eq in E; subst c; reflexivity|]. apply andb_prop in H as [H _]. exact H.
  Qed.
  (** a op b *)
  Lemma text_two : forall g a x g1 s q n p g2 b y ws, spacing g = true -> numeral_of a x -> spacing g1 = true -> lookup s operators = Some (q, n, p) -> s <> lit "." -> spacing g2 = true -> (s = lit "/" -> head_is (N.eqb 47) g2 = false) -> numeral_of b y -> closing ws = true ->
    denotes U (g ++ (x ++ g1 ++ s ++ g2 ++ y) ++ ws) (Ret (binary n s p [Integer a; Integer b])).
  Proof.
    intros g a x g1 s q n p g2 b y ws Hg Hx Hg1 Hs Nd Hg2 Hs2 Hy Hw.
    assert (K : In s (map fst operators ++ ignored)).
    { apply in_or_app. left. clear -Hs. induction operators as [|[k v] l IH]; [discriminate|]. cbn [lookup] in Hs. cbn [map fst]. destruct (str_eqb s k) eqn:E; [left; symmetry; apply str_eqb_eq; exact E|right; auto]. }
    pose proof (r_more U g1 s g2 y _ [] [] Hg1 K Hg2 (number_term b y Hy) ltac:(intros ->; contradiction) Hs2 (r_nil U)) as R.
    rewrite app_nil_r in R.
    assert (Q : forallb known [Sign s; Operand (Ret (Integer b))] = true) by (cbn [forallb known]; rewrite Hs; reflexivity).
    pose proof (text_operators U HU g x _ _ _ (Bin (Leaf (Operand (Ret (Integer a)))) (Sign s) (Leaf (Operand (Ret (Integer b))))) ws Hg (number_term a x Hx) R Q
      (number_plain a x _ Hx) eq_refl (wb_bin _ _ _ _ _ (wb_leaf _ _ _) (wb_leaf _ _ _) ltac:(discriminate) ltac:(discriminate)) Hw) as T.
    cbn [evaluate token_value token_apply obind] in T. rewrite Hs in T. destruct (str_eqb s (lit ".")) eqn:E; [elim Nd; apply str_eqb_eq; exact E|]. exact T.
  Qed.
  Lemma numeral_nonneg : forall n x, numeral_of n x -> 0 <= n.
  Proof. intros n x (_ & H & <- & _). apply numeral_value_bounds. exact H. Qed.

  Lemma forward_two : forall a' s x y c, forget_positions a' = forget_positions (call s [Integer x; Integer y]) ->
    exists pos, forward W a' c = forward W (Function s [mkParam [Integer x; Integer y] [] pos]) c.
  Proof. intros a' s x y c H. apply forget_call in H as (args & pos & -> & H). apply (forget_integers args [x; y]) in H. subst args. exists pos. reflexivity. Qed.
  Lemma forward_one : forall a' s x c, forget_positions a' = forget_positions (call s [Integer x]) ->
    exists pos, forward W a' c = forward W (Function s [mkParam [Integer x] [] pos]) c.
  Proof. intros a' s x c H. apply forget_call in H as (args & pos & -> & H). apply (forget_integers args [x]) in H. subst args. exists pos. reflexivity. Qed.

  Ltac table := match goal with |- forward W (Function ?f [mkParam ?args ?o ?pos]) ?c = _ =>
    pose proof (forward_table W f args o pos c) as TB; cbv zeta in TB; destruct TB as (Tplus & Ttimes & Tpow & Tpow' & Tbin & Tone & Tnone) end.
  Lemma answer_times : forall calls g a x g1 g2 b y ws, spacing g = true -> numeral_of a x -> spacing g1 = true -> spacing g2 = true -> numeral_of b y -> closing ws = true ->
    prints (a * b) (answer U W calls (g ++ (x ++ g1 ++ lit "*" ++ g2 ++ y) ++ ws)).
  Proof.
    intros calls g a x g1 g2 b y ws Hg Hx Hg1 Hg2 Hy Hw. eapply answer_value; [eapply text_two; try eassumption; [reflexivity|discriminate|discriminate]| |].
    - apply Z.mul_nonneg_nonneg; eapply numeral_nonneg; eassumption.
    - intros a' c H. destruct (forward_two _ _ _ _ c H) as [pos ->]. table. exact (Ttimes eq_refl a b eq_refl).
  Qed.
  Lemma answer_power : forall calls g a x g1 g2 b y ws, spacing g = true -> numeral_of a x -> spacing g1 = true -> spacing g2 = true -> numeral_of b y -> closing ws = true ->
    prints (if b <? 2 ^ 64 then a ^ b else a) (answer U W calls (g ++ (x ++ g1 ++ lit "^" ++ g2 ++ y) ++ ws)).
  Proof.
    intros calls g a x g1 g2 b y ws Hg Hx Hg1 Hg2 Hy Hw. pose proof (numeral_nonneg a x Hx) as Ha. pose proof (numeral_nonneg b y Hy) as Hb.
    eapply answer_value; [eapply text_two; try eassumption; [reflexivity|discriminate|discriminate]| |].
    - destruct (b <? 2 ^ 64); [apply Z.pow_nonneg|]; exact Ha.
    - intros a' c H. destruct (forward_two _ _ _ _ c H) as [pos ->]. destruct (Z.ltb_spec b (2 ^ 64)) as [L|L].
      + table. exact (Tpow eq_refl a b eq_refl (conj Hb L)).
      + table. refine (Tpow' eq_refl a b eq_refl _). clear -L. lia.
  Qed.
  Lemma forward_unknown : forall s args opts pos c, ~ In (name s) builtin_names -> forward W (Function s [mkParam args opts pos]) c = Ret (Err unimplemented_function, c).
  Proof. intros s args opts pos c H. exact (proj2 (proj2 (proj2 (proj2 (proj2 (proj2 (forward_table W s args opts pos c)))))) H). Qed.
  Lemma answer_unknown : forall calls text s args, denotes U text (Ret (call s args)) -> ~ In (name s) builtin_names -> answer U W calls text = Ret (Err unimplemented_function).
  Proof.
    intros calls text s args H N. eapply answer_error; [exact H|]. intros a' c E. apply forget_call in E as (args' & pos & -> & _). apply forward_unknown. exact N.
  Qed.
  Lemma answer_other : forall calls g a x g1 s g2 b y ws, spacing g = true -> numeral_of a x -> spacing g1 = true -> In s [lit "+"; lit "-"; lit "/"; [215%N]; [247%N]] ->
    spacing g2 = true -> (s = lit "/" -> head_is (N.eqb 47) g2 = false) -> numeral_of b y -> closing ws = true ->
    answer U W calls (g ++ (x ++ g1 ++ s ++ g2 ++ y) ++ ws) = Ret (Err unimplemented_function).
  Proof.
    intros calls g a x g1 s g2 b y ws Hg Hx Hg1 Hs Hg2 Hs2 Hy Hw.
    assert (X : exists q n p, lookup s operators = Some (q, n, p) /\ s <> lit "." /\ ~ In n builtin_names).
    { destruct Hs as [<-|[<-|[<-|[<-|[<-|[]]]]]]; do 3 eexists; (split; [reflexivity|split; [discriminate|]]); intros H; cbn in H;
        repeat (destruct H as [H|H]; [discriminate|]); exact H. }
    destruct X as (q & n & p & L & D & N). eapply answer_unknown; [eapply text_two; eassumption|exact N].
  Qed.
  Lemma text_suffix : forall g a x y l v ws, spacing g = true -> numeral_of a x -> suffixes U y l -> suffix_value l (Integer a) = Ret v -> closing ws = true ->
    denotes U (g ++ (x ++ y) ++ ws) (Ret v).
  Proof.
    intros g a x y l v ws Hg Hx Hy Hv Hw. pose proof (number_plain a x y Hx) as P. apply numeral_of_numeral in Hx as [Hx <-].
    pose proof (t_intro U [] x _ y l eq_refl (n_integer U x Hx) Hy) as T. cbn [app obind] in T. rewrite Hv in T. cbn [obind prefix_value] in T.
    apply source_text; [exact HU|exact Hg|apply term_expr; exact T|exact P|exact Hw].
  Qed.
  Lemma answer_factorial : forall calls g a x ws, 0 < W -> spacing g = true -> numeral_of a x -> closing ws = true ->
    (a < 2 ^ (W - 1) -> prints (factorial a) (answer U W calls (g ++ (x ++ lit "!") ++ ws))) /\
    (2 ^ (W - 1) <= a -> answer U W calls (g ++ (x ++ lit "!") ++ ws) = Ret (Err Overflow)).
  Proof.
    intros calls g a x ws HW Hg Hx Hw. pose proof (numeral_nonneg a x Hx) as Ha. pose proof (text_suffix g a x (lit "!") [Bang] _ ws Hg Hx (s_bang U [] [] (s_nil U) eq_refl) eq_refl Hw) as T.
    split; intro L; [eapply answer_value; [exact T|unfold factorial; lia|]|eapply answer_error; [exact T|]]; intros a' c H; destruct (forward_one _ _ _ c H) as [pos ->].
    - change (with_ctx (factorial_fn W (Integer a)) c = Ret (Ok (Integer (factorial a)), c)). rewrite (proj1 (factorial_fn_spec W a) HW (conj Ha L)). reflexivity.
    - change (with_ctx (factorial_fn W (Integer a)) c = Ret (Err Overflow, c)). rewrite (proj2 (proj2 (factorial_fn_spec W a)) (or_intror L)). reflexivity.
  Qed.
  Lemma answer_double_factorial : forall calls g a x ws, spacing g = true -> numeral_of a x -> closing ws = true ->
    answer U W calls (g ++ (x ++ lit "!!") ++ ws) = Ret (Err unimplemented_function).
  Proof.
    intros calls g a x ws Hg Hx Hw. pose proof (text_suffix g a x (lit "!!") [BangBang] _ ws Hg Hx (s_bangbang U [] [] (s_nil U)) eq_refl Hw) as T.
    eapply answer_unknown; [exact T|]. intros H; cbn in H; repeat (destruct H as [H|H]; [discriminate|]); exact H.
  Qed.
  Lemma text_apply : forall g w xs ns ws, spacing g = true -> word U w = true -> existsb (fun k => starts_with k w) statement_words = false ->
    Forall2 (fun x n => numeral_of n x) xs ns -> closing ws = true ->
    denotes U (g ++ (w ++ paren (join (lit ", ") xs)) ++ ws) (Ret (call (named w []) (map Integer ns))).
  Proof.
    intros g w xs ns ws Hg Hw K F Hws. pose proof (text_call_numbers U HU g w [] [xs] [ns] ws Hg (word_part U HU w Hw) eq_refl) as T. cbn [path_tail] in T. rewrite app_nil_r in T.
    specialize (T K ltac:(discriminate) (Forall2_cons _ _ F (Forall2_nil _)) Hws). unfold lists_text in T. cbn [map concat] in T. rewrite app_nil_r in T. exact T.
  Qed.
  Lemma answer_fibonacci : forall calls g a x ws, 0 < W -> spacing g = true -> numeral_of a x -> closing ws = true ->
    (a < 2 ^ (W - 1) -> prints (fib (Z.to_nat a)) (answer U W calls (g ++ (lit "fibonacci" ++ paren x) ++ ws))) /\
    (2 ^ (W - 1) <= a -> answer U W calls (g ++ (lit "fibonacci" ++ paren x) ++ ws) = Ret (Err Overflow)).
  Proof.
    intros calls g a x ws HW Hg Hx Hw. pose proof (numeral_nonneg a x Hx) as Ha.
    pose proof (text_apply g (lit "fibonacci") [x] [a] ws Hg eq_refl eq_refl ltac:(repeat (apply Forall2_cons || apply Forall2_nil); assumption) Hw) as T. cbn [join map] in T.
    split; intro L; [eapply answer_value; [exact T|apply (ProofFib.fib_nonneg (Z.to_nat a))|]|eapply answer_error; [exact T|]]; intros a' c H; destruct (forward_one _ _ _ c H) as [pos ->].
    - change (with_ctx (fibonacci_fn W (Integer a)) c = Ret (Ok (Integer (fib (Z.to_nat a))), c)). rewrite (proj1 (fibonacci_fn_spec W a) HW (conj Ha L)). reflexivity.
    - change (with_ctx (fibonacci_fn W (Integer a)) c = Ret (Err Overflow, c)). rewrite (proj2 (proj2 (proj2 (fibonacci_fn_spec W a))) (or_intror L)). reflexivity.
  Qed.
  Lemma answer_plus : forall calls g a x b y ws, spacing g = true -> numeral_of a x -> numeral_of b y -> closing ws = true ->
    prints (a + b) (answer U W calls (g ++ (lit "plus" ++ paren (x ++ lit ", " ++ y)) ++ ws)).
  Proof.
    intros calls g a x b y ws Hg Hx Hy Hw.
    pose proof (text_apply g (lit "plus") [x; y] [a; b] ws Hg eq_refl eq_refl ltac:(repeat (apply Forall2_cons || apply Forall2_nil); assumption) Hw) as T. cbn [join map] in T.
    eapply answer_value; [exact T|apply Z.add_nonneg_nonneg; eapply numeral_nonneg; eassumption|].
    intros a' c H; destruct (forward_two _ _ _ _ c H) as [pos ->]. table. exact (Tplus eq_refl a b eq_refl).
  Qed.
  Lemma answer_juxtaposed : forall calls g xs ns ws, spacing g = true -> Forall2 (fun x n => numeral_of n x) xs ns -> (2 <= length xs)%nat -> closing ws = true ->
    match ns with
    | [a; b] => prints (a * b) (answer U W calls (g ++ join (lit " ") xs ++ ws))
    | _ => answer U W calls (g ++ join (lit " ") xs ++ ws) = Ret (Err unimplemented_function)
    end.
  Proof.
    intros calls g xs ns ws Hg F L Hw.
    assert (T : denotes U (g ++ join (lit " ") xs ++ ws) (Ret (times (map Integer ns)))).
    { apply text_product; [exact HU|exact Hg| |exact L| |exact Hw].
      - clear -F. induction F; cbn [map]; constructor; [constructor; assumption|assumption].
      - destruct F as [|x n xs ns Hx F]; [cbn [length] in L; lia|]. cbn [firstn join]. pose proof (number_plain n x [] Hx) as P. rewrite app_nil_r in P. exact P. }
    assert (E : forall a' c, forget_positions a' = forget_positions (times (map Integer ns)) -> exists pos,
      forward W a' c = forward W (Function (mkSymbol [lit "std"; lit "infix"] (lit "times") (Infix (lit "*") 140) 0) [mkParam (map Integer ns) [] pos]) c).
    { intros a' c H. apply forget_call in H as (args & pos & -> & H). assert (Q : map forget_positions (map Integer ns) = map Integer ns) by (rewrite map_map; apply map_ext; reflexivity).
      rewrite Q in H. apply forget_integers in H. subst args. exists pos. reflexivity. }
    assert (N : ~ (exists x y, map Integer ns = [Integer x; Integer y]) -> answer U W calls (g ++ join (lit " ") xs ++ ws) = Ret (Err unimplemented_function)).
    { intros Q. eapply answer_error; [exact T|]. intros a' c H. destruct (E a' c H) as [pos ->].
      table. exact (Tbin (or_intror (or_introl eq_refl)) Q). }
    destruct F as [|x a xs ns Hx [|y b xs' ns' Hy [|z d xs'' ns'' Hz F]]]; try (apply N; intros (u & v & Q); discriminate).
    eapply answer_value; [exact T|apply Z.mul_nonneg_nonneg; eapply numeral_nonneg; eassumption|]. intros a' c H. destruct (E a' c H) as [pos ->].
    table. exact (Ttimes eq_refl a b eq_refl).
  Qed.
  Lemma answer_empty : forall calls g, closing g = true -> answer U W calls g = Panic PUnimplemented.
  Proof.
    intros calls g H. destruct (denotes_ok g _ (text_empty U g H) (lit "anonymous")) as (a' & P & E). destruct (answer_eq calls g) as [c ->]. rewrite P.
    destruct a'; try discriminate. reflexivity.
  Qed.
  (** an operation on something that is not two integers *)
  Lemma answer_nested : forall calls text n s p a b, denotes U text (Ret (binary n s p [a; b])) -> (forall i j, a = Integer i -> b <> Integer j) -> In n (map (fun o => snd (fst (snd o))) operators) ->
    answer U W calls text = Ret (Err unimplemented_function).
  Proof.
    intros calls text n s p a b H N K. eapply answer_error; [exact H|]. intros a' c E. apply forget_call in E as (args & pos & -> & E).
    assert (Q : ~ (exists x y, args = [Integer x; Integer y])).
    { intros (x & y & ->). cbn [map forget_positions] in E. injection E as E1 E2. apply (N x y); [destruct a; try discriminate; exact (eq_sym E1)|destruct b; try discriminate; exact (eq_sym E2)]. }
    destruct (in_dec (list_eq_dec N.eq_dec) n builtin_names) as [I|I]; [|apply forward_unknown; exact I].
    table. refine (Tbin _ Q). cbn [name].
    clear -K I. cbn [name].  cbn in K. repeat (destruct K as [<-|K]; [cbn in I; repeat (destruct I as [I|I]; [try discriminate; (right; left; reflexivity) || (right; right; left; reflexivity)|]); destruct I|]). destruct K.
  Qed.
End Answer.
