(** Property theorems about trees, printing, evaluation, sessions and export
    (those that do not need the parser). *)
From Verif Require Import Base AlgoError NumTypes Ast Display Internal Eval Tex Wolfram Runner ParseFile.
From Verif Require Import AlgoGamma AlgoFib AlgoPrime SpecNum SpecAst SpecOrder SpecSession SpecUtf8.
From Verif Require Import ProofUtf8 ProofAst ProofOrder ProofDisplay ProofEval ProofRunner ProofExport.
Local Open Scope Z_scope.

(** ** C17 symbol paths *)
Theorem C17_display_from : forall s, display_symbol (symbol_from s) = s.
Proof. exact display_symbol_from. Qed.
Print Assumptions C17_display_from.
(** 58 is ':' *)
Theorem C17_from_display : forall s,
  Forall (fun c => ~ In 58%N c) (name_space s) -> ~ In 58%N (name s) ->
  name_space (symbol_from (display_symbol s)) = name_space s /\
  name (symbol_from (display_symbol s)) = name s.
Proof. exact symbol_from_display. Qed.
Print Assumptions C17_from_display.
Theorem C17_from_display_refuted : exists s,
  name (symbol_from (display_symbol s)) <> name s.
Proof. exists (mkSymbol [lit "std"] (lit "a::b") Normal 0). vm_compute. discriminate. Qed.
Print Assumptions C17_from_display_refuted.
Example C17_example :
  let s := mkSymbol [lit "std"; lit "core"] (lit "Span") Normal 0 in
  Forall (fun c => ~ In 58%N c) (name_space s) /\ ~ In 58%N (name s) /\
  display_symbol s = lit "std::core::Span".
Proof.
  cbn. repeat split; repeat constructor; intro H; repeat (destruct H as [H|H]; [discriminate|]); exact H.
Qed.

(** ** C18 option maps *)
Theorem C18_options_last_wins_sorted : forall (writes : list (ast * ast)),
  let m := fold_left (fun m kv => btree_insert ast_compare (fst kv) (snd kv) m) writes [] in
  strictly_increasing tree_before (map fst m) /\
  (forall k v, (exists k', alike k k' /\ In (k', v) m) <-> last_write alike k v writes).
Proof. exact options_order. Qed.
Print Assumptions C18_options_last_wins_sorted.
(** keys written by the parser are symbols: equal in the order means equal *)
Theorem C18_symbol_keys : forall s a, ast_compare (Sym s) a = Eq <-> a = Sym s.
Proof.
  intros s a. split; [exact (ast_symbol_compare_eq s a)|]. intros ->. exact (proj1 (good_ast (Sym s))).
Qed.
Print Assumptions C18_symbol_keys.
(** the derived order is total, antisymmetric and transitive *)
Theorem C18_order_antisym : forall a b, ast_compare b a = CompOpp (ast_compare a b).
Proof. intros a b. exact (proj1 (proj2 (good_ast a)) b). Qed.
Print Assumptions C18_order_antisym.
Theorem C18_order_trans : forall a b c, ast_compare a b = Lt -> ast_compare b c = Lt -> ast_compare a c = Lt.
Proof. exact (cmp_lt_trans ast_compare good_ast). Qed.
Print Assumptions C18_order_trans.
Example C18_example :
  let k n := ast_symbol n in
  fold_left (fun m kv => btree_insert ast_compare (fst kv) (snd kv) m)
    [(k (lit "b"), Integer 1); (k (lit "a"), Integer 2); (k (lit "b"), Integer 3)] [] =
  [(k (lit "a"), Integer 2); (k (lit "b"), Integer 3)].
Proof. reflexivity. Qed.

(** ** C19 printing *)
Theorem C19_display_panics_iff : forall a, (exists k, display a = Panic k) <-> unprintable a.
Proof. exact display_panics_iff. Qed.
Print Assumptions C19_display_panics_iff.
Theorem C19_display_returns : forall a, ~ unprintable a -> exists t, display a = Ret t.
Proof. exact display_returns. Qed.
Print Assumptions C19_display_returns.
Example C19_example :
  let plus := mkSymbol [] (lit "add") (Infix (lit "+") 80) 0 in
  let f := mkSymbol [] (lit "f") Normal 0 in
  let pos := default_position in
  display (Function plus [mkParam [Integer 1; Integer 2] [] pos]) = Ret (lit "1+2") /\
  unprintable (Function plus [mkParam [Integer 1; Function f [mkParam [] [] pos]] [] pos]) /\
  ~ unprintable (Function plus [mkParam [Integer 1] [] pos]).
Proof.
  split; [reflexivity|]. split.
  - eapply unprintable_infix with (x := Function (mkSymbol [] (lit "f") Normal 0) [mkParam [] [] default_position]);
      [reflexivity | cbn; lia | right; left; reflexivity | constructor; left; reflexivity].
  - intro H. inversion H; subst; try discriminate; [destruct H1; discriminate | cbn in *; lia].
Qed.

(** ** C22 head and rewrite *)
Theorem C22_head_call : forall s ps p q, head (Function s (ps ++ [p; q])) = Function s (ps ++ [p]).
Proof.
  intros s ps p q. unfold head. change (ps ++ [p; q]) with (ps ++ ([p] ++ [q])). rewrite app_assoc.
  destruct ((ps ++ [p]) ++ [q]) as [|x [|y l]] eqn:E.
  - destruct (ps ++ [p]); discriminate.
  - apply (f_equal (@length _)) in E. rewrite !app_length in E. cbn in E. lia.
  - rewrite <- E, removelast_last. reflexivity.
Qed.
Print Assumptions C22_head_call.
Theorem C22_head_single : forall s p, head (Function s [p]) = Sym s.
Proof. reflexivity. Qed.
Print Assumptions C22_head_single.
Theorem C22_head_atoms : forall b n d s t,
  head (Boolean b) = ast_symbol (lit "std::core::Boolean") /\
  head (Integer n) = ast_symbol (lit "std::core::Integer") /\
  head (Decimal d) = ast_symbol (lit "std::core::Decimal") /\
  head (Sym s) = ast_symbol (lit "std::core::Symbol") /\
  head (Str t) = ast_symbol (lit "std::core::String").
Proof. repeat split. Qed.
Print Assumptions C22_head_atoms.
Theorem C22_rewrite_identity : forall e, rewrite e = e.
Proof. destruct e; reflexivity. Qed.
Print Assumptions C22_rewrite_identity.
(** f(a)(b)(c) has the head f(a)(b), that has the head f(a), and that f *)
Theorem C22_heads_of_call : forall s ps k, (k < length ps)%nat ->
  Nat.iter k head (Function s ps) = Function s (firstn (length ps - k) ps) /\ Nat.iter (length ps) head (Function s ps) = Sym s.
Proof. exact heads_of_call. Qed.
Print Assumptions C22_heads_of_call.
(** heads of heads end in std::core::Symbol, which is its own head; what is not an expression has no head *)
Theorem C22_heads_end : forall a, (exists l, a = Program l) \/ a = EmptyStatement \/
  exists n, forall m, (n <= m)%nat -> Nat.iter m head a = Sym (mkSymbol [lit "std"; lit "core"] (lit "Symbol") Normal 0).
Proof. exact heads_end. Qed.
Print Assumptions C22_heads_end.
Theorem C22_no_head : forall l, head (Program l) = EmptyStatement /\ head EmptyStatement = EmptyStatement.
Proof. split; reflexivity. Qed.
Print Assumptions C22_no_head.
Example C22_example :
  let f := mkSymbol [] (lit "f") Normal 0 in
  let p n := mkParam [Integer n] [] default_position in
  (1 < length [p 1%Z; p 2%Z; p 3%Z])%nat /\ Nat.iter 1 head (Function f [p 1; p 2; p 3]) = Function f [p 1; p 2] /\
  Nat.iter 3 head (Function f [p 1; p 2; p 3]) = Sym f /\ head (Integer 5) = Sym (mkSymbol [lit "std"; lit "core"] (lit "Integer") Normal 0).
Proof. repeat split; cbn; lia. Qed.

(** ** C23 strings.  [f] is any symbol with that name. *)
(** [bs]: the bytes of s in UTF-8, of which there is exactly one list *)
Theorem C23_length_bytes : forall W f s bs rest opts pos ctx, name f = lit "length" -> utf8 s bs ->
  forward W (Function f [mkParam (Str s :: rest) opts pos]) ctx = Ret (Ok (Integer (Z.of_nat (length bs))), ctx).
Proof. exact length_in_bytes. Qed.
Print Assumptions C23_length_bytes.
Theorem C23_bytes : forall s, exists bs, utf8 s bs /\ forall bs', utf8 s bs' -> bs' = bs.
Proof. exact bytes_unique. Qed.
Print Assumptions C23_bytes.
(** there are characters up to 1114111 = 0x10FFFF *)
Theorem C23_bytes_differ : forall s s' bs, utf8 s bs -> utf8 s' bs -> Forall (fun c => c < 1114112)%N s -> Forall (fun c => c < 1114112)%N s' -> s = s'.
Proof. exact text_back. Qed.
Print Assumptions C23_bytes_differ.
Theorem C23_length_is_chars_iff_ascii : forall s bs, utf8 s bs -> (length bs = length s <-> ascii_text s).
Proof. exact bytes_ascii. Qed.
Print Assumptions C23_length_is_chars_iff_ascii.
Theorem C23_first : forall W f s rest opts pos ctx, name f = lit "first" ->
  forward W (Function f [mkParam (Str s :: rest) opts pos]) ctx =
  Ret (match s with [] => Err (EmptyContainer (lit "Can't call `first` on empty string"))
       | c :: _ => Ok (Str [c]) end, ctx).
Proof. exact forward_first. Qed.
Print Assumptions C23_first.
Theorem C23_last : forall W f rest opts pos ctx, name f = lit "last" ->
  (forall s c, forward W (Function f [mkParam (Str (s ++ [c]) :: rest) opts pos]) ctx = Ret (Ok (Str [c]), ctx)) /\
  forward W (Function f [mkParam (Str [] :: rest) opts pos]) ctx =
    Ret (Err (EmptyContainer (lit "Can't call `last` on empty string")), ctx).
Proof. exact forward_last. Qed.
Print Assumptions C23_last.
Theorem C23_non_string_panics : forall W f a rest opts pos ctx,
  In (name f) [lit "first"; lit "last"; lit "length"] -> (forall s, a <> Str s) ->
  forward W (Function f [mkParam (a :: rest) opts pos]) ctx = Panic PUnimplemented.
Proof. exact forward_string_fns_panic. Qed.
Print Assumptions C23_non_string_panics.
Example C23_example : utf8 [233%N; 98%N] [195; 169; 98]%N /\ utf8 [128512%N] [240; 159; 152; 128]%N /\ ~ ascii_text [233%N; 98%N] /\ ascii_text (lit "abc").
Proof.
  split; [apply (utf8_more 233%N [195; 169]%N _ [98%N]); [apply (utf8_2 3 41); lia|apply (utf8_more 98%N [98%N] [] []); [apply utf8_1; lia|constructor]]|].
  split; [apply (utf8_more 128512%N [240; 159; 152; 128]%N [] []); [apply (utf8_4 0 31 24 0); lia|constructor]|].
  split; [intro H; inversion H; lia|]. repeat constructor.
Qed.

(** ** C41 the evaluator's decision table *)
Theorem C41_atoms : forall W a ctx,
  (a = EmptyStatement \/ (exists b, a = Boolean b) \/ (exists n, a = Integer n) \/
   (exists d, a = Decimal d) \/ (exists s, a = Sym s) \/ (exists s, a = Str s)) ->
  forward W a ctx = Ret (Ok a, ctx).
Proof. intros W a ctx H. decompose [or] H; try decompose [ex] H0; try decompose [ex] H1; subst; reflexivity. Qed.
Print Assumptions C41_atoms.
Theorem C41_program_panics : forall W l ctx, forward W (Program l) ctx = Panic PUnimplemented.
Proof. reflexivity. Qed.
Print Assumptions C41_program_panics.
Theorem C41_no_list : forall W s ctx, forward W (Function s []) ctx = Ret (Ok (Sym s), ctx).
Proof. reflexivity. Qed.
Print Assumptions C41_no_list.
Theorem C41_many_lists : forall W s p q ps ctx,
  forward W (Function s (p :: q :: ps)) ctx = Ret (Err unimplemented_function, ctx).
Proof. reflexivity. Qed.
Print Assumptions C41_many_lists.
Theorem C41_one_list : forall W f args opts pos ctx,
  let r := forward W (Function f [mkParam args opts pos]) ctx in
  (name f = lit "plus" -> forall x y, args = [Integer x; Integer y] -> r = Ret (Ok (Integer (x + y)), ctx)) /\
  (name f = lit "times" -> forall x y, args = [Integer x; Integer y] -> r = Ret (Ok (Integer (x * y)), ctx)) /\
  (name f = lit "power" -> forall x y, args = [Integer x; Integer y] -> 0 <= y < 2 ^ 64 ->
     r = Ret (Ok (Integer (x ^ y)), ctx)) /\
  (name f = lit "power" -> forall x y, args = [Integer x; Integer y] -> ~ (0 <= y < 2 ^ 64) ->
     r = Ret (Ok (Integer x), ctx)) /\
  (In (name f) [lit "plus"; lit "times"; lit "power"] ->
     ~ (exists x y, args = [Integer x; Integer y]) -> r = Ret (Err unimplemented_function, ctx)) /\
  (In (name f) [lit "first"; lit "last"; lit "length"; lit "factorial"; lit "fibonacci"] ->
     args = [] -> r = Panic PIndex) /\
  (~ In (name f) builtin_names -> r = Ret (Err unimplemented_function, ctx)).
Proof. exact forward_table. Qed.
Print Assumptions C41_one_list.
Theorem C41_name_and_arguments_only : forall W f g p q ctx,
  name f = name g -> arguments p = arguments q ->
  forward W (Function f [p]) ctx = forward W (Function g [q]) ctx.
Proof. exact forward_name_only. Qed.
Print Assumptions C41_name_and_arguments_only.
Theorem C41_context_unchanged : forall W a c r c', forward W a c = Ret (r, c') -> c' = c.
Proof. exact forward_keeps_context. Qed.
Print Assumptions C41_context_unchanged.
Theorem C41_context_irrelevant : forall W a c d,
  (forall r, forward W a c = Ret (r, c) <-> forward W a d = Ret (r, d)) /\
  (forall k, forward W a c = Panic k <-> forward W a d = Panic k).
Proof. exact forward_context_irrelevant. Qed.
Print Assumptions C41_context_irrelevant.
Example C41_example :
  let times := mkSymbol [lit "std"; lit "infix"] (lit "times") (Infix (lit "*") 140) 0 in
  let nested := Function times [mkParam [Integer 2; Integer 3] [] default_position] in
  forward 64 nested empty_context = Ret (Ok (Integer 6), empty_context) /\
  forward 64 (Function times [mkParam [nested; Integer 4] [] default_position]) empty_context =
    Ret (Err unimplemented_function, empty_context) /\
  ~ In (lit "add") builtin_names.
Proof.
  split; [reflexivity|]. split; [reflexivity|].
  intro H; cbn in H; repeat (destruct H as [H|H]; [discriminate|]); exact H.
Qed.

(** ** C43 power *)
Theorem C43_power_in_range : forall W f x y opts pos ctx, name f = lit "power" -> 0 <= y < 2 ^ 64 ->
  forward W (Function f [mkParam [Integer x; Integer y] opts pos]) ctx = Ret (Ok (Integer (x ^ y)), ctx).
Proof.
  intros W f x y opts pos ctx Hf Hy.
  exact (proj1 (proj2 (proj2 (forward_table W f [Integer x; Integer y] opts pos ctx))) Hf x y eq_refl Hy).
Qed.
Print Assumptions C43_power_in_range.
Theorem C43_power_out_of_range : forall W f x y opts pos ctx, name f = lit "power" -> ~ (0 <= y < 2 ^ 64) ->
  forward W (Function f [mkParam [Integer x; Integer y] opts pos]) ctx = Ret (Ok (Integer x), ctx).
Proof.
  intros W f x y opts pos ctx Hf Hy.
  exact (proj1 (proj2 (proj2 (proj2 (forward_table W f [Integer x; Integer y] opts pos ctx)))) Hf x y eq_refl Hy).
Qed.
Print Assumptions C43_power_out_of_range.
Example C43_example : ~ (0 <= -1 < 2 ^ 64) /\ ~ (0 <= 2 ^ 70 < 2 ^ 64) /\ 0 <= 10 < 2 ^ 64.
Proof. lia. Qed.

(** ** C44 history of a session *)
Theorem C44_history : forall W parse calls,
  let '(c, answers) := run_session W parse calls empty_context in
  Forall (fun r => is_ret r = true) answers ->
  length answers = length calls /\
  index c = Z.of_nat (length calls) /\
  inputs c = combine (zseq 1 (length calls)) calls /\
  (forall i o, In (i, o) (outputs c) <->
     1 <= i /\ exists s, nth_error calls (Z.to_nat (i - 1)) = Some s /\ evaluates_to W parse s o).
Proof.
  intros W parse calls.
  pose proof (returned_all_calls W parse calls empty_context) as HL.
  pose proof (session_history W parse calls) as HH.
  destruct (run_session W parse calls empty_context) as [c rs]. cbn [fst snd] in *.
  intro H. specialize (HL H). destruct (HH HL) as (H1 & H2 & H3 & _). auto.
Qed.
Print Assumptions C44_history.
Theorem C44_answers : forall W parse calls i s r,
  nth_error calls i = Some s ->
  nth_error (snd (run_session W parse calls empty_context)) i = Some r ->
  (forall t, r = Ret (Ok t) <-> exists o, evaluates_to W parse s o /\ display o = Ret t) /\
  (forall e, r = Ret (Err e) <-> fails_with W parse s e).
Proof.
  intros W parse calls i s r. apply session_answers. split; constructor.
Qed.
Print Assumptions C44_answers.
Example C44_example :
  let parse s := Ret (Ok (Integer (Z.of_nat (length s)))) in
  Forall (fun r => is_ret r = true) (snd (run_session 64 parse [lit "a"; lit "bc"] empty_context)) /\
  outputs (fst (run_session 64 parse [lit "a"; lit "bc"] empty_context)) = [(1, Integer 1); (2, Integer 2)].
Proof. split; [repeat constructor | reflexivity]. Qed.

(** ** C45 last *)
Theorem C45_last_fresh_panics : last_output empty_context = Panic PUnwrap.
Proof. reflexivity. Qed.
Print Assumptions C45_last_fresh_panics.
(** after any session followed by one more call -- whatever that call answered,
    even if it panicked -- [last] is the output of that call *)
Theorem C45_last_most_recent : forall W parse calls s,
  length (snd (run_session W parse calls empty_context)) = length calls ->
  let c := fst (run_session W parse calls empty_context) in
  let c' := fst (evaluate W parse s c) in
  (forall o, last_output c' = Ret (Ok o) <-> evaluates_to W parse s o) /\
  ((forall o, ~ evaluates_to W parse s o) -> last_output c' = Panic PUnwrap).
Proof.
  intros W parse calls s H c c'. apply (last_after_call W parse calls). apply session_history. exact H.
Qed.
Print Assumptions C45_last_most_recent.
(** after an output and then an error, [last] panics: the older output is not given again *)
Example C45_example :
  let parse s := match s with [] => Ret (Err Overflow) | _ => Ret (Ok (Integer (Z.of_nat (length s)))) end in
  let c := fst (run_session 64 parse [lit "ab"] empty_context) in
  (length (snd (run_session 64 parse [lit "ab"] empty_context)) = 1)%nat /\ last_output c = Ret (Ok (Integer 2)) /\
  last_output (fst (evaluate 64 parse [] c)) = Panic PUnwrap /\ last_output (fst (evaluate 64 parse (lit "abc") c)) = Ret (Ok (Integer 3)).
Proof. repeat split. Qed.

(** ** C46 playground *)
Theorem C46_panic_disables : forall W parse debug calls i j r r',
  nth_error (pg_run W parse debug calls fresh_playground) i = Some r -> is_ret r = false -> (i < j)%nat ->
  nth_error (pg_run W parse debug calls fresh_playground) j = Some r' -> r' = Panic PPoisoned.
Proof. intros W parse debug calls. exact (pg_run_after_panic W parse debug calls fresh_playground). Qed.
Print Assumptions C46_panic_disables.
(** after any sequence of calls none of which panicked, the answer to one more
    text is the printed output or the text of the error, and a panic exactly of the
    parser or of the printer *)
Theorem C46_errors_are_text : forall W parse debug calls s,
  Forall (fun r => is_ret r = true) (pg_run W parse debug calls fresh_playground) ->
  exists r,
  pg_run W parse debug (calls ++ [CallResult s]) fresh_playground =
    pg_run W parse debug calls fresh_playground ++ [r] /\
  (forall o t, evaluates_to W parse s o -> display o = Ret t -> r = Ret t) /\
  (forall e, fails_with W parse s e -> r = Ret (debug s e)) /\
  (forall o, evaluates_to W parse s o -> unprintable o -> r = Panic PUnimplemented) /\
  (forall k, parse s = Panic k -> r = Panic k).
Proof. exact pg_next_result. Qed.
Print Assumptions C46_errors_are_text.
(** [result_tex] shows the output of the most recent text, and panics if that text
    had none *)
Theorem C46_tex_of_last : forall W parse debug calls,
  Forall (fun r => is_ret r = true) (pg_run W parse debug calls fresh_playground) ->
  exists r,
  pg_run W parse debug (calls ++ [CallTex]) fresh_playground =
    pg_run W parse debug calls fresh_playground ++ [r] /\
  (texts calls = [] -> r = Panic PUnwrap) /\
  (forall before s, texts calls = before ++ [s] ->
     (forall o, evaluates_to W parse s o -> r = to_tex o) /\
     ((forall o, ~ evaluates_to W parse s o) -> r = Panic PUnwrap)).
Proof. exact pg_next_tex. Qed.
Print Assumptions C46_tex_of_last.
Example C46_example :
  let parse s := match s with [] => Ret (Err Overflow) | _ => Ret (Ok (Integer (Z.of_nat (length s)))) end in
  let debug (s : str) (e : sm_error) := lit "error" in
  pg_run 64 parse debug [CallResult (lit "ab"); CallTex; CallResult []; CallTex; CallTex] fresh_playground =
    [Ret (lit "2"); Ret (lit "2"); Ret (lit "error"); Panic PUnwrap; Panic PPoisoned].
Proof. vm_compute. reflexivity. Qed.

(** ** C47 TeX *)
Theorem C47_plain_brackets_many : forall s a b l opts pos more ts,
  ~ operator_space s -> In (name s) trig_names -> omapM to_tex (a :: b :: l) = Ret ts ->
  to_tex (Function s (mkParam (a :: b :: l) opts pos :: more)) =
  Ret (lit "\\" ++ display_symbol s ++ lit "(" ++ join (lit ", ") ts ++ lit ")").
Proof. exact tex_trig_many. Qed.
Print Assumptions C47_plain_brackets_many.
Theorem C47_plain_brackets_one : forall s a opts pos more w t,
  ~ operator_space s -> In (name s) trig_names -> width a = Ret w -> to_tex a = Ret t ->
  to_tex (Function s (mkParam [a] opts pos :: more)) =
  Ret (lit "\\" ++ display_symbol s ++ (if w <=? 1 then lit " " ++ t else lit "(" ++ t ++ lit ")")).
Proof. exact tex_trig_one. Qed.
Print Assumptions C47_plain_brackets_one.
Theorem C47_list : forall s p more, ~ operator_space s -> name s = lit "List" ->
  (arguments p = [] -> to_tex (Function s (p :: more)) = Panic PUnwrap) /\
  (forall ts, arguments p <> [] -> omapM to_tex (arguments p) = Ret ts ->
     to_tex (Function s (p :: more)) = Ret (lit "\\{" ++ join (lit ", ") ts ++ lit "\\}")).
Proof. exact tex_list. Qed.
Print Assumptions C47_list.
Theorem C47_infix_two_operands : forall s p more lhs rhs rest,
  name_space s = [lit "std"; lit "infix"] -> arguments p = lhs :: rhs :: rest ->
  ((exists k, to_tex (Function s (p :: more)) = Panic k) <-> unprintable lhs \/ unprintable rhs) /\
  (forall l r, display lhs = Ret l -> display rhs = Ret r ->
     to_tex (Function s (p :: more)) =
     Ret (l ++ (if str_eqb (name s) (lit "times") then lit " "
                else lit " " ++ (if str_eqb (name s) (lit "add") then lit "+" else name s) ++ lit " ") ++ r)).
Proof. exact tex_infix_two. Qed.
Print Assumptions C47_infix_two_operands.
Theorem C47_prefix_suffix_panic : forall s ps,
  name_space s = [lit "std"; lit "prefix"] \/ name_space s = [lit "std"; lit "suffix"] ->
  to_tex (Function s ps) = Panic PUnimplemented.
Proof. exact tex_unary_panics. Qed.
Print Assumptions C47_prefix_suffix_panic.
Example C47_example :
  let times := mkSymbol [lit "std"; lit "infix"] (lit "times") (Infix (lit "*") 140) 0 in
  let sin := mkSymbol [] (lit "sin") Normal 0 in
  let prod := Function times [mkParam [Integer 2; Integer 3; Integer 4] [] default_position] in
  ~ operator_space sin /\ In (lit "sin") trig_names /\
  to_tex prod = Ret (lit "2 3") /\
  to_tex (Function sin [mkParam [prod] [] default_position]) = Ret (lit "\\sin(2 3)").
Proof.
  split; [intros (n & E & _); discriminate|]. split; [left; reflexivity|]. split; reflexivity.
Qed.

(** ** C48 Wolfram export *)
Theorem C48_shape_only : forall cap a b, same_shape a b -> to_wolfram cap a = to_wolfram cap b.
Proof. exact to_wolfram_shape. Qed.
Print Assumptions C48_shape_only.
Theorem C48_leaves_once_in_order : forall cap a, wolfram_leaves (to_wolfram cap a) = ast_leaves a.
Proof. exact to_wolfram_leaves. Qed.
Print Assumptions C48_leaves_once_in_order.
Example C48_example :
  let f := mkSymbol [lit "m"] (lit "f") Normal 0 in
  let g := mkSymbol [] (lit "f") Alias 7 in
  let p := mkPosition (lit "x") (1, 2) (3, 4) in
  same_shape (Function f [mkParam [Integer 2; Str (lit "s")] [] p])
             (Function g [mkParam [Integer 2; Str (lit "s")] [] default_position]) /\
  to_wolfram (fun s => s) (Function f [mkParam [Integer 2; Str (lit "s")] [] p]) =
    WFunction (WSystem (lit "f")) [WBigInteger 2; WString (lit "s")].
Proof. split; [repeat constructor | reflexivity]. Qed.

(** ** C49 parse_file *)
Theorem C49_untouched_unless_parsed : forall decode parse bytes from to f0 f pc,
  pf_reach decode parse bytes from to (f0, AtRead) (f, pc) ->
  (forall a, ~ parse_succeeds decode parse from f0 a) -> f = f0.
Proof. exact pf_untouched. Qed.
Print Assumptions C49_untouched_unless_parsed.
Theorem C49_other_paths : forall decode parse bytes from to f0 f pc q,
  pf_reach decode parse bytes from to (f0, AtRead) (f, pc) -> q <> to -> f q = f0 q.
Proof. exact pf_other_paths. Qed.
Print Assumptions C49_other_paths.
Theorem C49_crash_states : forall decode parse bytes from to f0 f pc,
  pf_reach decode parse bytes from to (f0, AtRead) (f, pc) ->
  f = f0 \/ exists a written rest, parse_succeeds decode parse from f0 a /\
              bytes a = written ++ rest /\ f to = Some written.
Proof. exact pf_crash_states. Qed.
Print Assumptions C49_crash_states.
Theorem C49_success_complete : forall decode parse bytes from to f0 f,
  pf_reach decode parse bytes from to (f0, AtRead) (f, Finished (Ret (Ok tt))) ->
  exists a, parse_succeeds decode parse from f0 a /\ f to = Some (bytes a).
Proof. exact pf_success. Qed.
Print Assumptions C49_success_complete.
(** the old content is lost from the moment the file is created: every prefix of
    the new content is a possible crash state *)
Theorem C49_not_atomic : forall decode parse bytes from to f0 a w rest,
  parse_succeeds decode parse from f0 a -> bytes a = w ++ rest ->
  exists f, pf_reach decode parse bytes from to (f0, AtRead) (f, AtWrite rest) /\ f to = Some w.
Proof. exact pf_prefix_reachable. Qed.
Print Assumptions C49_not_atomic.
Theorem C49_failed_write_leaves_strict_prefix : forall decode parse bytes from to f0 f e,
  pf_reach decode parse bytes from to (f0, AtRead) (f, Finished (Ret (Err e))) ->
  f = f0 \/ exists a written rest, parse_succeeds decode parse from f0 a /\
              bytes a = written ++ rest /\ rest <> [] /\ f to = Some written.
Proof. exact pf_error_after_create. Qed.
Print Assumptions C49_failed_write_leaves_strict_prefix.
Example C49_example :
  let f0 := update (update (fun _ => None) (lit "in") [49%N]) (lit "out") [1%N; 2%N; 3%N] in
  parse_succeeds Some (fun _ => Ret (Ok (Integer 1))) (lit "in") f0 (Integer 1) /\ f0 (lit "out") = Some [1%N; 2%N; 3%N].
Proof. split; [exists [49%N], [49%N]; repeat split | reflexivity]. Qed.

(** ** C50 errors of the algorithms *)
Theorem C50_factorial : forall W n,
  (0 < W -> 0 <= n < 2 ^ (W - 1) -> factorial_fn W (Integer n) = Ret (Ok (Integer (factorial n)))) /\
  (0 < W -> - 2 ^ (W - 1) <= n < 0 -> factorial_fn W (Integer n) = Ret (Err SMComplexInfinity)) /\
  (n < - 2 ^ (W - 1) \/ 2 ^ (W - 1) <= n -> factorial_fn W (Integer n) = Ret (Err Overflow)).
Proof. exact factorial_fn_spec. Qed.
Print Assumptions C50_factorial.
Theorem C50_fibonacci : forall W n,
  (0 < W -> 0 <= n < 2 ^ (W - 1) -> fibonacci_fn W (Integer n) = Ret (Ok (Integer (fib (Z.to_nat n))))) /\
  (0 < W -> - 2 ^ (W - 1) <= n < 0 -> Z.even n = true -> fibonacci_fn W (Integer n) = Panic PNegate) /\
  (0 < W -> - 2 ^ (W - 1) <= n < 0 -> Z.even n = false -> fibonacci_fn W (Integer n) = Ret (Ok (Integer (fib (Z.to_nat (n + 2 ^ W)))))) /\
  (n < - 2 ^ (W - 1) \/ 2 ^ (W - 1) <= n -> fibonacci_fn W (Integer n) = Ret (Err Overflow)).
Proof. exact fibonacci_fn_spec. Qed.
Print Assumptions C50_fibonacci.
Theorem C50_translation : forall md n v e,
  (prime_sum_i md n = Ret (Ok v) -> prime_sum_fn md (Integer n) = Ret (Ok (Integer v))) /\
  (prime_sum_i md n = Ret (Err e) -> exists e', prime_sum_fn md (Integer n) = Ret (Err e') /\
     match e with
     | OverFlow => e' = Overflow
     | ComplexInfinity => e' = SMComplexInfinity
     | IOError s => e' = SMIOError s
     | Unimplemented => exists s, e' = SMUnimplemented s
     | Indeterminate | Undefined _ => e' = SMUnknown
     end).
Proof.
  intros md n v e. unfold prime_sum_fn. split; intro H; rewrite H; cbn; [reflexivity|].
  eexists. split; [reflexivity|]. destruct e; cbn; eauto.
Qed.
Print Assumptions C50_translation.
Theorem C50_decimal_unchanged : forall W md d,
  factorial_fn W (Decimal d) = Ret (Ok (Decimal d)) /\
  fibonacci_fn W (Decimal d) = Ret (Ok (Decimal d)) /\
  prime_sum_fn md (Decimal d) = Ret (Ok (Decimal d)).
Proof. repeat split. Qed.
Print Assumptions C50_decimal_unchanged.
Theorem C50_other_panics : forall W md a, (forall n, a <> Integer n) -> (forall d, a <> Decimal d) ->
  factorial_fn W a = Panic PUnimplemented /\ fibonacci_fn W a = Panic PUnimplemented /\
  prime_sum_fn md a = Panic PUnimplemented.
Proof. intros W md a H1 H2. destruct a; repeat split; exfalso; (eapply H1; reflexivity) || (eapply H2; reflexivity). Qed.
Print Assumptions C50_other_panics.
(** an error of the algorithms is known from its message *)
Theorem C50_message_identifies : forall e e', display_alg_error e = display_alg_error e' -> e = e'.
Proof. exact message_identifies. Qed.
Print Assumptions C50_message_identifies.
Example C50_message_example : map display_alg_error [OverFlow; ComplexInfinity; IOError (lit "f"); Unimplemented; Indeterminate; Undefined (lit "x")] =
  [lit "OverFlow"; lit "ComplexInfinity"; lit "IOError: f"; lit "Unimplemented"; lit "Indeterminate"; lit "Undefined: x"].
Proof. reflexivity. Qed.
Example C50_example : 0 < 64 /\ 0 <= 6 < 2 ^ (64 - 1) /\ factorial_fn 64 (Integer 6) = Ret (Ok (Integer 720)).
Proof. repeat split; vm_compute; congruence. Qed.
