(** Proofs about the evaluator and the built-in functions. *)
From Verif Require Import Base AlgoError NumTypes AlgoGamma AlgoFib AlgoPrime.
From Verif Require Import Ast Display Internal Eval SpecNum SpecAst SpecSession SpecUtf8 ProofUtf8 ProofAst ProofBasic ProofFib ProofNumMisc.
Local Open Scope Z_scope.

(** ** strings *)
Lemma utf8_width_ge1 : forall c, 1 <= utf8_width c.
Proof. intro c. unfold utf8_width. repeat destruct (_ <? _)%N; lia. Qed.
Lemma utf8_len_ge : forall s, Z.of_nat (length s) <= utf8_len s.
Proof.
  induction s as [|c s IH]; cbn [utf8_len length]; [lia|]. pose proof (utf8_width_ge1 c). lia.
Qed.
Lemma utf8_len_ascii : forall s, utf8_len s = Z.of_nat (length s) <-> ascii_text s.
Proof.
  induction s as [|c s IH]; cbn [utf8_len length].
  - split; [constructor | reflexivity].
  - pose proof (utf8_width_ge1 c) as H1. pose proof (utf8_len_ge s) as H2. split.
    + intro H. assert (utf8_width c = 1 /\ utf8_len s = Z.of_nat (length s)) as [E1 E2] by lia.
      constructor; [|apply IH; exact E2]. unfold utf8_width in E1.
      destruct (c <? 128)%N eqn:E; [apply N.ltb_lt; exact E|].
      destruct (c <? 2048)%N, (c <? 65536)%N; discriminate.
    + intro H. inversion H as [|? ? Hc Hs]; subst. apply IH in Hs. rewrite Hs.
      unfold utf8_width. rewrite (proj2 (N.ltb_lt _ _) Hc). lia.
Qed.

Lemma rev_hd_snoc : forall {A} (s : list A) c, rev (s ++ [c]) = c :: rev s.
Proof. intros. apply rev_unit. Qed.

Lemma last_fn_snoc : forall s c, last_fn (Str (s ++ [c])) = Ret (Ok (Str [c])).
Proof. intros s c. unfold last_fn. rewrite rev_unit. reflexivity. Qed.

(** ** evaluator *)
Lemma eval_unknown : forall W f p ctx, ~ In (name f) builtin_names ->
  evaluate_function W f p ctx = Ret (Err unimplemented_function, ctx).
Proof.
  intros W f p ctx H. unfold evaluate_function.
  repeat match goal with
  | |- context [str_eqb (name f) ?l] =>
      destruct (str_eqb (name f) l) eqn:?E;
      [exfalso; apply H; apply str_eqb_eq in E; rewrite E; cbn; tauto|clear E]
  end. reflexivity.
Qed.

Lemma eval_builtin : forall W f p ctx n, name f = n ->
  evaluate_function W f p ctx =
  evaluate_function W (mkSymbol [] n Normal 0) p ctx.
Proof. intros W f p ctx n H. unfold evaluate_function. cbn [name]. rewrite H. reflexivity. Qed.

Lemma forward_name_only : forall W f g p q ctx,
  name f = name g -> arguments p = arguments q ->
  forward W (Function f [p]) ctx = forward W (Function g [q]) ctx.
Proof. intros W f g p q ctx H1 H2. cbn [forward]. unfold evaluate_function. rewrite H1, H2. reflexivity. Qed.

Ltac eval_cases :=
  unfold forward, evaluate_function;
  repeat match goal with |- context [str_eqb ?a ?b] => destruct (str_eqb a b) eqn:? end.

Lemma forward_ctx : forall W a c1, exists r,
  (forall c, forward W a c = match r with Ret x => Ret (x, c) | Panic k => Panic k | OutOfFuel => OutOfFuel end)
  /\ forward W a c1 = match r with Ret x => Ret (x, c1) | Panic k => Panic k | OutOfFuel => OutOfFuel end.
Proof.
  intros W a c1.
  assert (H : exists r, forall c, forward W a c =
    match r with Ret x => Ret (x, c) | Panic k => Panic k | OutOfFuel => OutOfFuel end).
  { destruct a as [|l|s ps|b|n|d|s|s];
      try (eexists (Ret _); intro; reflexivity); try (eexists (Panic _); intro; reflexivity).
    destruct ps as [|p [|q ps]];
      try (eexists (Ret _); intro; reflexivity).
    unfold forward, evaluate_function, with_ctx, obind, evaluate_additive, evaluate_multiplicative, evaluate_power.
    repeat match goal with
    | |- context [if str_eqb ?a ?b then _ else _] => destruct (str_eqb a b)
    end;
    try (eexists (Ret _); intro; reflexivity);
    destruct (arguments p) as [|x [|y [|z args]]]; cbn [arg0];
    try (eexists (Ret _); intro; reflexivity); try (eexists (Panic _); intro; reflexivity).
    all: try (match goal with |- context [first_fn ?v] => destruct (first_fn v)
              | |- context [last_fn ?v] => destruct (last_fn v)
              | |- context [length_fn ?v] => destruct (length_fn v)
              | |- context [factorial_fn ?u ?v] => destruct (factorial_fn u v)
              | |- context [fibonacci_fn ?u ?v] => destruct (fibonacci_fn u v) end;
              [eexists (Ret _); intro; reflexivity | eexists (Panic _); intro; reflexivity
              | exists OutOfFuel; intro; reflexivity]).
    all: destruct x; try (eexists (Ret _); intro; reflexivity);
         try (destruct y; try (eexists (Ret _); intro; reflexivity)).
    all: try (destruct (to_u64 _); eexists (Ret _); intro; reflexivity). }
  destruct H as [r H]. exists r. split; [exact H | apply H].
Qed.

Lemma forward_keeps_context : forall W a c r c', forward W a c = Ret (r, c') -> c' = c.
Proof.
  intros W a c r c' H. destruct (forward_ctx W a c) as (x & _ & E). rewrite E in H.
  destruct x; congruence.
Qed.
Lemma forward_context_irrelevant : forall W a c d,
  (forall r, forward W a c = Ret (r, c) <-> forward W a d = Ret (r, d)) /\
  (forall k, forward W a c = Panic k <-> forward W a d = Panic k).
Proof.
  intros W a c d. destruct (forward_ctx W a c) as (x & H & _). rewrite !H.
  destruct x; split; intros; split; intro; congruence.
Qed.

(** The whole table for one argument list. *)
Lemma forward_table : forall W f args opts pos ctx,
  let r := forward W (Function f [mkParam args opts pos]) ctx in
  (name f = lit "plus" -> forall x y, args = [Integer x; Integer y] -> r = Ret (Ok (Integer (x + y)), ctx)) /\
  (name f = lit "times" -> forall x y, args = [Integer x; Integer y] -> r = Ret (Ok (Integer (x * y)), ctx)) /\
  (name f = lit "power" -> forall x y, args = [Integer x; Integer y] -> 0 <= y < 2 ^ 64 ->
     r = Ret (Ok (Integer (x ^ y)), ctx)) /\
  (name f = lit "power" -> forall x y, args = [Integer x; Integer y] -> ~ (0 <= y < 2 ^ 64) ->
     r = Ret (Ok (Integer x), ctx)) /\
  (In (name f) [lit "plus"; lit "times"; lit "power"] ->
     ~ (exists x y, args = [Integer x; Integer y]) -> r = Ret (Err unimplemented_function, ctx)) /\
  (In (name f) [lit "first"; lit "last"; lit "length"; lit "factorial"; lit "fibonacci"] ->
     args = [] -> r = Panic PIndex) /\
  (~ In (name f) builtin_names -> r = Ret (Err unimplemented_function, ctx)).
Proof.
  intros W f args opts pos ctx r. unfold r. cbn [forward]. repeat split.
  - intros H x y ->. rewrite (eval_builtin W f _ ctx (lit "plus") H). reflexivity.
  - intros H x y ->. rewrite (eval_builtin W f _ ctx (lit "times") H). reflexivity.
  - intros H x y -> Hy. rewrite (eval_builtin W f _ ctx (lit "power") H).
    change (evaluate_function W (mkSymbol [] (lit "power") Normal 0) (mkParam [Integer x; Integer y] opts pos) ctx)
      with (evaluate_power [Integer x; Integer y] ctx).
    unfold evaluate_power, to_u64.
    destruct ((0 <=? y) && (y <? 2 ^ 64)) eqn:E; [reflexivity|]. exfalso.
    apply andb_false_iff in E. rewrite Z.leb_gt, Z.ltb_ge in E. lia.
  - intros H x y -> Hy. rewrite (eval_builtin W f _ ctx (lit "power") H).
    change (evaluate_function W (mkSymbol [] (lit "power") Normal 0) (mkParam [Integer x; Integer y] opts pos) ctx)
      with (evaluate_power [Integer x; Integer y] ctx).
    unfold evaluate_power, to_u64.
    destruct ((0 <=? y) && (y <? 2 ^ 64)) eqn:E; [|reflexivity]. exfalso.
    apply andb_true_iff in E. rewrite Z.leb_le, Z.ltb_lt in E. lia.
  - intros H Hn. cbn in H. destruct H as [H|[H|[H|[]]]]; symmetry in H.
    + rewrite (eval_builtin W f _ ctx (lit "plus") H).
      change (evaluate_additive args ctx = Ret (Err unimplemented_function, ctx)).
      unfold evaluate_additive.
      destruct args as [|[] [|[] [|]]]; try reflexivity. exfalso; apply Hn; eauto.
    + rewrite (eval_builtin W f _ ctx (lit "times") H).
      change (evaluate_multiplicative args ctx = Ret (Err unimplemented_function, ctx)).
      unfold evaluate_multiplicative.
      destruct args as [|[] [|[] [|]]]; try reflexivity. exfalso; apply Hn; eauto.
    + rewrite (eval_builtin W f _ ctx (lit "power") H).
      change (evaluate_power args ctx = Ret (Err unimplemented_function, ctx)).
      unfold evaluate_power.
      destruct args as [|[] [|[] [|]]]; try reflexivity. exfalso; apply Hn; eauto.
  - intros H ->. cbn in H. destruct H as [H|[H|[H|[H|[H|[]]]]]]; symmetry in H.
    + rewrite (eval_builtin W f _ ctx (lit "first") H). reflexivity.
    + rewrite (eval_builtin W f _ ctx (lit "last") H). reflexivity.
    + rewrite (eval_builtin W f _ ctx (lit "length") H). reflexivity.
    + rewrite (eval_builtin W f _ ctx (lit "factorial") H). reflexivity.
    + rewrite (eval_builtin W f _ ctx (lit "fibonacci") H). reflexivity.
  - intro H. apply eval_unknown. exact H.
Qed.

(** one-argument builtins look at the first argument only *)
Lemma forward_unary_table : forall W f a rest opts pos ctx,
  let r := forward W (Function f [mkParam (a :: rest) opts pos]) ctx in
  (name f = lit "first" -> r = with_ctx (first_fn a) ctx) /\
  (name f = lit "last" -> r = with_ctx (last_fn a) ctx) /\
  (name f = lit "length" -> r = with_ctx (length_fn a) ctx) /\
  (name f = lit "factorial" -> r = with_ctx (factorial_fn W a) ctx) /\
  (name f = lit "fibonacci" -> r = with_ctx (fibonacci_fn W a) ctx).
Proof.
  intros W f a rest opts pos ctx r. unfold r. cbn [forward]. repeat split; intro H.
  - rewrite (eval_builtin W f _ ctx (lit "first") H). reflexivity.
  - rewrite (eval_builtin W f _ ctx (lit "last") H). reflexivity.
  - rewrite (eval_builtin W f _ ctx (lit "length") H). reflexivity.
  - rewrite (eval_builtin W f _ ctx (lit "factorial") H). reflexivity.
  - rewrite (eval_builtin W f _ ctx (lit "fibonacci") H). reflexivity.
Qed.

Lemma forward_first : forall W f s rest opts pos ctx, name f = lit "first" ->
  forward W (Function f [mkParam (Str s :: rest) opts pos]) ctx =
  Ret (match s with [] => Err (EmptyContainer (lit "Can't call `first` on empty string"))
       | c :: _ => Ok (Str [c]) end, ctx).
Proof.
  intros W f s rest opts pos ctx H. rewrite (proj1 (forward_unary_table W f (Str s) rest opts pos ctx) H).
  destruct s; reflexivity.
Qed.
Lemma forward_last : forall W f rest opts pos ctx, name f = lit "last" ->
  (forall s c, forward W (Function f [mkParam (Str (s ++ [c]) :: rest) opts pos]) ctx = Ret (Ok (Str [c]), ctx)) /\
  forward W (Function f [mkParam (Str [] :: rest) opts pos]) ctx =
    Ret (Err (EmptyContainer (lit "Can't call `last` on empty string")), ctx).
Proof.
  intros W f rest opts pos ctx H. split.
  - intros s c. rewrite (proj1 (proj2 (forward_unary_table W f (Str (s ++ [c])) rest opts pos ctx)) H).
    rewrite last_fn_snoc. reflexivity.
  - rewrite (proj1 (proj2 (forward_unary_table W f (Str []) rest opts pos ctx)) H). reflexivity.
Qed.
Lemma forward_length : forall W f s rest opts pos ctx, name f = lit "length" ->
  forward W (Function f [mkParam (Str s :: rest) opts pos]) ctx = Ret (Ok (Integer (utf8_len s)), ctx).
Proof.
  intros W f s rest opts pos ctx H.
  rewrite (proj1 (proj2 (proj2 (forward_unary_table W f (Str s) rest opts pos ctx))) H). reflexivity.
Qed.

Lemma forward_string_fns_panic : forall W f a rest opts pos ctx,
  In (name f) [lit "first"; lit "last"; lit "length"] -> (forall s, a <> Str s) ->
  forward W (Function f [mkParam (a :: rest) opts pos]) ctx = Panic PUnimplemented.
Proof.
  intros W f a rest opts pos ctx H Ha.
  destruct (forward_unary_table W f a rest opts pos ctx) as (H1 & H2 & H3 & _).
  cbn in H. destruct H as [H|[H|[H|[]]]]; symmetry in H;
    [rewrite (H1 H) | rewrite (H2 H) | rewrite (H3 H)];
    destruct a; try reflexivity; exfalso; eapply Ha; reflexivity.
Qed.

(** ** C50 *)
Lemma factorial_fn_spec : forall W n,
  (0 < W -> 0 <= n < 2 ^ (W - 1) -> factorial_fn W (Integer n) = Ret (Ok (Integer (factorial n)))) /\
  (0 < W -> - 2 ^ (W - 1) <= n < 0 -> factorial_fn W (Integer n) = Ret (Err SMComplexInfinity)) /\
  (n < - 2 ^ (W - 1) \/ 2 ^ (W - 1) <= n -> factorial_fn W (Integer n) = Ret (Err Overflow)).
Proof.
  intros W n. unfold factorial_fn. split; [|split].
  - intros HW Hn. rewrite factorial_i_nonneg by assumption. reflexivity.
  - intros HW Hn. rewrite factorial_i_neg by assumption. reflexivity.
  - intros Hn. rewrite factorial_i_big by assumption. reflexivity.
Qed.
Lemma fibonacci_fn_spec : forall W n,
  (0 < W -> 0 <= n < 2 ^ (W - 1) -> fibonacci_fn W (Integer n) = Ret (Ok (Integer (fib (Z.to_nat n))))) /\
  (0 < W -> - 2 ^ (W - 1) <= n < 0 -> Z.even n = true -> fibonacci_fn W (Integer n) = Panic PNegate) /\
  (0 < W -> - 2 ^ (W - 1) <= n < 0 -> Z.even n = false -> fibonacci_fn W (Integer n) = Ret (Ok (Integer (fib (Z.to_nat (n + 2 ^ W)))))) /\
  (n < - 2 ^ (W - 1) \/ 2 ^ (W - 1) <= n -> fibonacci_fn W (Integer n) = Ret (Err Overflow)).
Proof.
  intros W n. unfold fibonacci_fn. split; [|split; [|split]].
  - intros HW Hn. rewrite fibonacci_i_nonneg by assumption. reflexivity.
  - intros HW Hn He. rewrite fibonacci_i_neg by assumption. rewrite He. reflexivity.
  - intros HW Hn He. rewrite fibonacci_i_neg by assumption. rewrite He. reflexivity.
  - intros Hn. rewrite fibonacci_i_big by assumption. reflexivity.
Qed.

Lemma message_identifies : forall e e', display_alg_error e = display_alg_error e' -> e = e'.
Proof.
  intros e e' H. destruct e, e'; try reflexivity; try discriminate H; f_equal.
  - exact (app_inv_head (lit "IOError: ") _ _ H).
  - exact (app_inv_head (lit "Undefined: ") _ _ H).
Qed.

(** ** Heads of heads *)
Lemma head_firstn : forall s (ps : list parameter) k, (S k < length ps)%nat ->
  head (Function s (firstn (length ps - k) ps)) = Function s (firstn (length ps - S k) ps).
Proof.
  intros s ps k H. replace (length ps - k)%nat with (S (length ps - S k)) by lia. set (n := (length ps - S k)%nat).
  assert (L : length (firstn (S n) ps) = S n) by (rewrite firstn_length; lia). unfold head.
  destruct (firstn (S n) ps) as [|x [|y l]] eqn:E; [discriminate|cbn in L; lia|]. rewrite <- E, removelast_firstn by lia. reflexivity.
Qed.
Lemma heads_firstn : forall s (ps : list parameter) k, (k < length ps)%nat -> Nat.iter k head (Function s ps) = Function s (firstn (length ps - k) ps).
Proof.
  intros s ps. induction k as [|k IH]; intro H; [rewrite Nat.sub_0_r, firstn_all; reflexivity|].
  change (Nat.iter (S k) head (Function s ps)) with (head (Nat.iter k head (Function s ps))). rewrite IH by lia. apply head_firstn. exact H.
Qed.
Lemma heads_of_call : forall s (ps : list parameter) k, (k < length ps)%nat ->
  Nat.iter k head (Function s ps) = Function s (firstn (length ps - k) ps) /\ Nat.iter (length ps) head (Function s ps) = Sym s.
Proof.
  intros s ps k H. split; [apply heads_firstn, H|]. destruct ps as [|p ps]; [cbn in H; lia|].
  change (Nat.iter (length (p :: ps)) head (Function s (p :: ps))) with (head (Nat.iter (length ps) head (Function s (p :: ps)))).
  rewrite heads_firstn by (cbn; lia). replace (length (p :: ps) - length ps)%nat with 1%nat by (change (length (p :: ps)) with (S (length ps)); lia). reflexivity.
Qed.
Lemma symbol_head : forall m, Nat.iter m head (ast_symbol (lit "std::core::Symbol")) = ast_symbol (lit "std::core::Symbol").
Proof. induction m as [|m IH]; [reflexivity|]. change (Nat.iter (S m) head (ast_symbol (lit "std::core::Symbol"))) with (head (Nat.iter m head (ast_symbol (lit "std::core::Symbol")))). rewrite IH. reflexivity. Qed.
Lemma iter_add : forall A (F : A -> A) j k x, Nat.iter (j + k) F x = Nat.iter j F (Nat.iter k F x).
Proof. induction j as [|j IH]; intros k x; [reflexivity|]. change (F (Nat.iter (j + k) F x) = F (Nat.iter j F (Nat.iter k F x))). rewrite IH. reflexivity. Qed.
Lemma heads_end : forall a, (exists l, a = Program l) \/ a = EmptyStatement \/
  exists n, forall m, (n <= m)%nat -> Nat.iter m head a = Sym (mkSymbol [lit "std"; lit "core"] (lit "Symbol") Normal 0).
Proof.
  assert (K : forall a n, Nat.iter n head a = ast_symbol (lit "std::core::Symbol") -> forall m, (n <= m)%nat -> Nat.iter m head a = Sym (mkSymbol [lit "std"; lit "core"] (lit "Symbol") Normal 0)).
  { intros a n H m L. replace m with ((m - n) + n)%nat by lia. rewrite iter_add, H, symbol_head. reflexivity. }
  intros [|l|s ps|b|n|d|s|s]; [right; left; reflexivity|left; eexists; reflexivity|right; right..].
  - destruct ps as [|p ps]; [exists 1%nat; apply K; reflexivity|]. exists (S (length (p :: ps))). apply K.
    change (Nat.iter (S (length (p :: ps))) head (Function s (p :: ps))) with (head (Nat.iter (length (p :: ps)) head (Function s (p :: ps)))).
    rewrite (proj2 (heads_of_call s (p :: ps) 0 ltac:(cbn; lia))). reflexivity.
  - exists 2%nat. apply K. reflexivity.
  - exists 2%nat. apply K. reflexivity.
  - exists 2%nat. apply K. reflexivity.
  - exists 1%nat. apply K. reflexivity.
  - exists 2%nat. apply K. reflexivity.
Qed.

(** ** lengths in bytes *)
Lemma length_in_bytes : forall W f s bs rest opts pos ctx, name f = lit "length" -> utf8 s bs ->
  forward W (Function f [mkParam (Str s :: rest) opts pos]) ctx = Ret (Ok (Integer (Z.of_nat (length bs))), ctx).
Proof. intros W f s bs rest opts pos ctx N B. rewrite (text_width s bs B). apply forward_length. exact N. Qed.
Lemma bytes_unique : forall s, exists bs, utf8 s bs /\ forall bs', utf8 s bs' -> bs' = bs.
Proof. intros s. destruct (text_bytes s) as [bs B]. exists bs. split; [exact B|]. intros bs' B'. exact (text_once s bs' bs B' B). Qed.
Lemma bytes_ascii : forall s bs, utf8 s bs -> (length bs = length s <-> ascii_text s).
Proof. intros s bs B. rewrite <- utf8_len_ascii, <- (text_width s bs B). split; [intros E; f_equal; exact E|apply Nat2Z.inj]. Qed.
