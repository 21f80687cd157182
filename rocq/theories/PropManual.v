(** Property theorems about what the manual says of lines and signs.  The words of
    the manual are in [SpecManual], the reference syntax in [SpecSource]. *)
From Verif Require Import Base Ast SmError Internal Peg Build Wolfram SpecAst SpecClimb SpecSyntax SpecText SpecSource SpecAnswer SpecManual SpecJuxta.
From Verif Require Import ProofLex ProofManual ProofRepl ProofSample ProofJuxta.
Local Open Scope outcome_scope.

(** ** C63 lines *)
(** an expression ends at a line break unless the next line starts with an operator: what follows is never its argument,
    its index or its factor *)
Theorem C63_new_line : forall U, sane U -> forall g x o ws c w, spacing g = true -> expr U x o -> plain_start x = true ->
  broken ws = true -> white_space c = false -> operator_start c = false -> denotes_or_refused U (g ++ x ++ ws ++ c :: w) o.
Proof. exact new_line. Qed.
Print Assumptions C63_new_line.
(** the text is accepted when the next lines are expressions too *)
Theorem C63_expressions : forall U, sane U -> forall g x o ws w, spacing g = true -> expr U x o -> plain_start x = true ->
  broken ws = true -> head_is white_space w = false -> head_is operator_start w = false -> head_is semi w = false -> statements U w ->
  denotes U (g ++ x ++ ws ++ w) o.
Proof. exact new_line_then. Qed.
Print Assumptions C63_expressions.
(** an operator takes both its operands, with line breaks on either side of it or without *)
Theorem C63_operators_continue : forall U, sane U -> forall g x o g1 s q n p g2 y o' ws, spacing g = true -> term U x o ->
  plain_start (x ++ g1 ++ s ++ g2 ++ y) = true -> spacing g1 = true -> lookup s operators = Some (q, n, p) -> s <> lit "." ->
  spacing g2 = true -> (s = lit "/" -> head_is (N.eqb 47) g2 = false) -> term U y o' -> closing ws = true ->
  denotes U (g ++ (x ++ g1 ++ s ++ g2 ++ y) ++ ws) (a <- o; b <- o'; Ret (binary n s p [a; b])).
Proof. exact continued. Qed.
Print Assumptions C63_operators_continue.

(** a, then (b) on the next line; 2, then b; a minus b on three lines *)
Example C63_example : expr ascii_only (lit "a") (Ret (Sym (named (lit "a") []))) /\ statements ascii_only (lit "(b)") /\
  broken [32; 10]%N = true /\ operator_start 40%N = false /\ forall xs xc f, let p t := omap forget_result (parse (mkUnicode xs xc) f t) in
  p (lit "a" ++ [10%N] ++ lit "(b)") = Ret (Ok (Sym (named (lit "a") []))) /\
  p (lit "2" ++ [10%N] ++ lit "b") = Ret (Ok (Integer 2)) /\
  p (lit "a" ++ [10%N] ++ lit "-" ++ [10%N] ++ lit "b") =
    Ret (Ok (binary (lit "subtract") (lit "-") 80 [Sym (named (lit "a") []); Sym (named (lit "b") [])])).
Proof.
  pose proof (fun w H K => sample_expr w _ [] [] (Leaf (Operand _)) (sample_name w H K) (r_nil _) eq_refl eq_refl ltac:(bracketed)) as N. cbn [app] in N.
  pose proof (N (lit "a") eq_refl eq_refl) as A. pose proof (n_paren _ _ _ (N (lit "b") eq_refl eq_refl)) as B.
  pose proof (t_intro ascii_only [] _ _ [] [] eq_refl B (s_nil _)) as T.
  pose proof (sample_expr _ _ [] [] (Leaf (Operand _)) T (r_nil _) eq_refl eq_refl ltac:(bracketed)) as E.
  split; [exact A|]. split; [exact (ss_last _ [] _ _ [] eq_refl E eq_refl eq_refl)|]. split; [reflexivity|]. split; [reflexivity|].
  intros. split; [|split]; vm_compute; reflexivity.
Qed.

(** ** C64 signs *)
(** nothing can stand at | & $ ~ < \ ` ) ] } or , after an expression *)
Theorem C64_unknown_sign : forall U, sane U -> forall g x o ws c w, spacing g = true -> expr U x o -> plain_start x = true ->
  spacing ws = true -> In c foreign -> forall f, parse U f (g ++ x ++ ws ++ c :: w) = Ret (Err SMParseError).
Proof. exact foreign_refused. Qed.
Print Assumptions C64_unknown_sign.
(** an operator without a right operand is an error *)
Theorem C64_missing_operand : forall U, sane U -> forall g x o g1 s g2 w, spacing g = true -> expr U x o -> plain_start x = true ->
  spacing g1 = true -> In s (map fst operators ++ ignored) -> spacing g2 = true ->
  head_is (operand_start U) w = false -> head_is white_space w = false -> comment_start (s ++ g2 ++ w) = false -> comment_start w = false ->
  forall f, parse U f (g ++ x ++ g1 ++ s ++ g2 ++ w) = Ret (Err SMParseError).
Proof. exact missing_operand. Qed.
Print Assumptions C64_missing_operand.
(** so the operators ==, >=, ->, =>, .. and // cannot be used *)
Theorem C64_two_signs : forall U, sane U -> forall g x o g1 s w, spacing g = true -> expr U x o -> plain_start x = true ->
  spacing g1 = true -> In s pairs_of_signs -> comment_start (s ++ w) = false -> comment_start (tl s ++ w) = false ->
  forall f, parse U f (g ++ x ++ g1 ++ s ++ w) = Ret (Err SMParseError).
Proof. exact two_signs. Qed.
Print Assumptions C64_two_signs.
(** x @ y is no application: it is x, or refused *)
Theorem C64_at : forall U, sane U -> forall g x o ws w, spacing g = true -> expr U x o -> plain_start x = true -> spacing ws = true ->
  denotes_or_refused U (g ++ x ++ ws ++ lit "@" ++ w) o.
Proof. exact at_stops. Qed.
Print Assumptions C64_at.
(** x ** y, x ++ y and x -- y are the operator applied to x and to the prefix operator applied to y *)
Theorem C64_doubled : forall U, sane U -> forall g x o c q n p m y o' ws, spacing g = true -> term U x o -> plain_start (x ++ c :: c :: y) = true ->
  lookup [c] operators = Some (q, n, p) -> lookup [c] prefix_names = Some m -> term U y o' -> closing ws = true ->
  denotes U (g ++ (x ++ c :: c :: y) ++ ws)
    (a <- o; b <- o'; Ret (binary n [c] p [a; call (mkSymbol [lit "std"; lit "prefix"] m (Prefix [c]) 0) [b]])).
Proof. exact doubled. Qed.
Print Assumptions C64_doubled.
(** x != y is the factorial of x *)
Theorem C64_not_equal : forall U, sane U -> forall g x o y o' ws, spacing g = true -> node U x o -> plain_start (x ++ lit "!=" ++ y) = true ->
  term U y o' -> closing ws = true ->
  denotes U (g ++ (x ++ lit "!=" ++ y) ++ ws) (a <- o; Ret (suffix_call (lit "factorial") (lit "!") a)).
Proof. exact not_equal. Qed.
Print Assumptions C64_not_equal.

(** a<b, a== b, a @b, 2**3, a!=b *)
Example C64_example : In 60%N foreign /\ In (lit "==") pairs_of_signs /\ comment_start (lit "== b") = false /\ head_is (operand_start ascii_only) (lit "= b") = false /\
  forall xs xc f, let p t := omap forget_result (parse (mkUnicode xs xc) f t) in
  p (lit "a<b") = Ret (Err SMParseError) /\ p (lit "a == b") = Ret (Err SMParseError) /\ p (lit "a+") = Ret (Err SMParseError) /\
  p (lit "1.") = Ret (Err SMParseError) /\ p (lit "1..2") = Ret (Err SMParseError) /\
  p (lit "a @b(c)") = Ret (Ok (Sym (named (lit "a") []))) /\
  p (lit "2**3") = Ret (Ok (times [Integer 2; call (mkSymbol [lit "std"; lit "prefix"] (lit "unpack") (Prefix (lit "*")) 0) [Integer 3]])) /\
  p (lit "a!=b") = Ret (Ok (suffix_call (lit "factorial") (lit "!") (Sym (named (lit "a") [])))).
Proof. split; [cbn; auto 10|]. split; [cbn; auto|]. split; [reflexivity|]. split; [reflexivity|]. intros. repeat split; vm_compute; reflexivity. Qed.

(** ** C65 line comments *)
(** comments and white space before a text, whatever the text, change nothing but positions *)
Theorem C65_leading : forall U f w t, spacing w = true -> omap forget_result (parse U f (w ++ t)) = omap forget_result (parse U f t).
Proof. exact leading_spacing. Qed.
Print Assumptions C65_leading.
Theorem C65_comment_is_spacing : forall d body e, In d (lit "/?!*") -> one_line body = true -> line_end e = true ->
  spacing (line_comment d body ++ [e]) = true.
Proof. exact comment_spacing. Qed.
Print Assumptions C65_comment_is_spacing.
(** the last comment needs no line end *)
Theorem C65_trailing : forall U, sane U -> forall g x o ws d body, spacing g = true -> expr U x o -> plain_start x = true -> spacing ws = true ->
  In d (lit "/?!*") -> one_line body = true -> denotes U (g ++ x ++ ws ++ line_comment d body) o.
Proof. exact trailing_comment. Qed.
Print Assumptions C65_trailing.
(** a slash directly before a comment is no division: it belongs to the comment *)
Theorem C65_slash_before : forall U, sane U -> forall g x o g1 body e c w, spacing g = true -> expr U x o -> plain_start x = true -> spacing g1 = true ->
  one_line body = true -> line_end e = true -> white_space c = false -> operator_start c = false ->
  denotes_or_refused U (g ++ x ++ g1 ++ lit "/" ++ line_comment 47%N body ++ e :: c :: w) o.
Proof. exact swallowed. Qed.
Print Assumptions C65_slash_before.

(** comments before, between, inside the arguments and at the end; a division lost in a comment; a division that is not *)
Example C65_example : spacing (lit " //? one" ++ [10; 9]%N) = true /\ one_line (lit " one") = true /\ spacing (lit "// one" ++ [10%N]) = false /\
  forall xs xc f, let p t := omap forget_result (parse (mkUnicode xs xc) f t) in
  p (lit "/// sum" ++ [10%N] ++ lit "a //! of" ++ [10%N] ++ lit "+ //? two" ++ [13; 10]%N ++ lit "b //* end") =
    Ret (Ok (binary (lit "add") (lit "+") 80 [Sym (named (lit "a") []); Sym (named (lit "b") [])])) /\
  p (lit "f(a, /// first" ++ [10%N] ++ lit "b)") = p (lit "f(a, b)") /\
  p (lit "4////half" ++ [10%N] ++ lit "2") = Ret (Ok (Integer 4)) /\
  p (lit "4/ ///half" ++ [10%N] ++ lit "2") = Ret (Ok (binary (lit "divide") (lit "/") 140 [Integer 4; Integer 2])).
Proof. split; [reflexivity|]. split; [reflexivity|]. split; [reflexivity|]. intros. repeat split; vm_compute; reflexivity. Qed.

(** ** C67 references to earlier lines, and slots *)
(** ¶n and ⁋n *)
Theorem C67_nth : forall U, sane U -> forall g b n x ws, spacing g = true -> (0 < n)%Z -> numeral_of n x -> closing ws = true ->
  denotes U (g ++ (reference_mark b :: x) ++ ws) (Ret (reference b n)).
Proof. exact text_nth. Qed.
Print Assumptions C67_nth.
(** ¶ ¶¶ ¶¶¶ … *)
Theorem C67_counted_back : forall U, sane U -> forall g b k ws, spacing g = true -> closing ws = true ->
  denotes U (g ++ repeat (reference_mark b) (S k) ++ ws) (Ret (reference b (- Z.of_nat (S k)))).
Proof. exact text_back. Qed.
Print Assumptions C67_counted_back.
(** the exported form, with the capitalisation [cap] *)
Theorem C67_exported : forall U, sane U -> forall cap g b ws, spacing g = true -> closing ws = true ->
  let head := WSystem (cap (if b : bool then lit "output" else lit "input")) in
  (forall n x, (0 < n)%Z -> numeral_of n x -> forall f, exists a,
    parse U f (g ++ (reference_mark b :: x) ++ ws) = Ret (Ok a) /\ to_wolfram cap a = WFunction head [WBigInteger n]) /\
  (forall k f, exists a, parse U f (g ++ repeat (reference_mark b) (S k) ++ ws) = Ret (Ok a) /\ to_wolfram cap a = WFunction head [WBigInteger (- Z.of_nat (S k))]).
Proof. exact exported_reference. Qed.
Print Assumptions C67_exported.
(** but a session does not look them up, whatever was entered before *)
Theorem C67_nth_not_answered : forall U, sane U -> forall W calls g b n x ws, spacing g = true -> (0 < n)%Z -> numeral_of n x -> closing ws = true ->
  answer U W calls (g ++ (reference_mark b :: x) ++ ws) = Ret (Err unimplemented_function).
Proof. exact answer_nth. Qed.
Print Assumptions C67_nth_not_answered.
Theorem C67_back_not_answered : forall U, sane U -> forall W calls g b k ws, spacing g = true -> closing ws = true ->
  answer U W calls (g ++ repeat (reference_mark b) (S k) ++ ws) = Ret (Err unimplemented_function).
Proof. exact answer_back. Qed.
Print Assumptions C67_back_not_answered.
(** # #n #name ## ##n *)
Theorem C67_slots : forall U, sane U -> forall g ws, spacing g = true -> closing ws = true ->
  denotes U (g ++ lit "#" ++ ws) (Ret (call (core (lit "slot")) [])) /\
  (forall n x, numeral_of n x -> denotes U (g ++ (lit "#" ++ x) ++ ws) (Ret (call (core (lit "slot")) [Integer n]))) /\
  (forall w, word U w = true -> denotes U (g ++ (lit "#" ++ w) ++ ws) (Ret (call (core (lit "slot")) [Str w]))) /\
  denotes U (g ++ lit "##" ++ ws) (Ret (call (core (lit "slot_sequence")) [])) /\
  (forall n x, (0 < n)%Z -> numeral_of n x -> denotes U (g ++ (lit "##" ++ x) ++ ws) (Panic PUnreachable)).
Proof. exact text_slots. Qed.
Print Assumptions C67_slots.
Example C67_example : numeral_of 12 (lit "12") /\ (let p t := omap forget_result (parse ascii_only [] t) in
  p ([182%N] ++ lit "12") = Ret (Ok (reference false 12)) /\ p [8267; 8267]%N = Ret (Ok (reference true (-2))) /\
  p (lit "#a*2") = Ret (Ok (times [call (core (lit "slot")) [Str (lit "a")]; Integer 2])) /\ p (lit "##3") = Panic PUnreachable /\
  answer ascii_only 64 [lit "6*7"] [8267%N] = Ret (Err unimplemented_function) /\ answer ascii_only 64 [] (lit "6*7") = Ret (Ok (lit "42"))).
Proof. split; [exact (sample_numeral (lit "12") eq_refl)|]. repeat split; vm_compute; reflexivity. Qed.

(** ** C68 syntax without a meaning *)
(** f'(x) *)
Theorem C68_derivative : forall U, sane U -> forall g w l n y p ws, spacing g = true -> segment U w = true -> forallb (segment U) l = true -> calls U y [p] ->
  plain_start (w ++ path_tail l ++ repeat 39%N (S n) ++ y) = true -> closing ws = true ->
  denotes U (g ++ (w ++ path_tail l ++ repeat 39%N (S n) ++ y) ++ ws) (Panic PUnreachable).
Proof. exact text_derivative. Qed.
Print Assumptions C68_derivative.
(** dictionaries *)
Theorem C68_dictionary : forall U, sane U -> forall g h t ws, spacing g = true -> spacing h = true -> trailing t -> closing ws = true ->
  denotes U (g ++ (lit "{" ++ h ++ lit "}") ++ ws) (Panic PUnreachable) /\
  forall x, entries U x -> denotes U (g ++ (lit "{" ++ h ++ x ++ t ++ lit "}") ++ ws) (Panic PUnreachable).
Proof. exact text_dictionary. Qed.
Print Assumptions C68_dictionary.
(** ? and primes after an operand *)
Theorem C68_suffix : forall U, sane U -> forall g x a s ws, spacing g = true -> node U x (Ret a) -> s = lit "?" \/ (exists n, s = repeat 39%N (S n)) ->
  plain_start (x ++ s) = true -> closing ws = true -> denotes U (g ++ (x ++ s) ++ ws) (Panic PUnreachable).
Proof. exact text_unknown. Qed.
Print Assumptions C68_suffix.
(** ¬ before an operand *)
Theorem C68_not : forall U, sane U -> forall g x o a ws, spacing g = true -> term U x o -> o = Ret a -> closing ws = true ->
  denotes U (g ++ (172%N :: x) ++ ws) (Panic PUnreachable).
Proof. exact text_not. Qed.
Print Assumptions C68_not.
Example C68_example : calls ascii_only (lit "()") [Ret (mkParam [] [] default_position)] /\ entries ascii_only (lit "1: 3") /\
  (let p t := omap forget_result (parse ascii_only [] t) in
  p (lit "f'(x)") = Panic PUnreachable /\ p (lit "{1: 3}") = Panic PUnreachable /\ p (lit "{a: 1, ""b"": 2,}") = Panic PUnreachable /\
  p (lit "x?") = Panic PUnreachable /\ p (lit "x''") = Panic PUnreachable /\ p (172%N :: lit "x") = Panic PUnreachable).
Proof.
  split; [exact (c_empty ascii_only [] [] [] [] eq_refl eq_refl (c_nil _))|]. split; [|repeat split; vm_compute; reflexivity].
  exact (d_one ascii_only (lit "1") [] 58%N (lit " ") (lit "3") _ [] (k_integer _ (lit "1") eq_refl) eq_refl eq_refl eq_refl
    (ProofSyntax.term_expr ascii_only _ _ (sample_number (lit "3") eq_refl)) eq_refl).
Qed.

(** ** C69 operands side by side *)
(** a parenthesis after an operand that cannot be called is not a factor: it is dropped, or the text is refused for what
    follows *)
Theorem C69_parenthesis_dropped : forall U, sane U -> forall g x o h w, spacing g = true -> not_callable U x o -> inline h = true ->
  plain_start (x ++ h ++ lit "(" ++ w) = true ->
  denotes_or_refused U (g ++ x ++ h ++ lit "(" ++ w) o /\ (statements U (lit "(" ++ w) -> denotes U (g ++ x ++ h ++ lit "(" ++ w) o).
Proof. exact beside_parenthesis. Qed.
Print Assumptions C69_parenthesis_dropped.
(** so are numbers, names, references and slots after an operand that cannot be a factor *)
Theorem C69_word_dropped : forall U, sane U -> forall g x o h c w, spacing g = true -> not_a_factor U x o -> inline h = true -> begins U c = true ->
  plain_start (x ++ h ++ c :: w) = true ->
  denotes_or_refused U (g ++ x ++ h ++ c :: w) o /\ (statements U (c :: w) -> denotes U (g ++ x ++ h ++ c :: w) o).
Proof. exact beside_word. Qed.
Print Assumptions C69_word_dropped.
(** dictionaries and ¬ after any expression; strings, references and slots after any expression and white space *)
Theorem C69_sign_dropped : forall U, sane U -> forall g x o h c w, spacing g = true -> expr U x o -> plain_start x = true -> spacing h = true ->
  In c [123; 172]%N \/ In c [34; 35; 182; 8267]%N /\ h <> [] ->
  denotes_or_refused U (g ++ x ++ h ++ c :: w) o /\ (statements U (c :: w) -> denotes U (g ++ x ++ h ++ c :: w) o).
Proof. exact beside_sign. Qed.
Print Assumptions C69_sign_dropped.

(** 2(3), a + 2(3), sin(x) cos(x), (a)b, #(a+1), (a)(b), a!(b), x ""y"" *)
Example C69_example : statements ascii_only (lit "(3)") /\ not_callable ascii_only (lit "2") (Ret (Integer 2)) /\
  not_callable ascii_only (lit "a+2") (Ret (binary (lit "add") (lit "+") 80 [Sym (named (lit "a") []); Integer 2])) /\
  not_a_factor ascii_only (lit "f()") (Ret (Function (named (lit "f") []) [mkParam [] [] default_position])) /\
  (let p t := omap forget_result (parse ascii_only [] t) in
  p (lit "2(3)") = Ret (Ok (Integer 2)) /\ p (lit "2 (3") = Ret (Err SMParseError) /\
  p (lit "a+2(3)") = p (lit "a+2") /\ p (lit "sin(x) cos(x)") = p (lit "sin(x)") /\ p (lit "(a)b") = p (lit "a") /\ p (lit "(a)(b)") = p (lit "a") /\
  p (lit "#(a+1)") = p (lit "#") /\ p (lit "a!(b)") = p (lit "a!") /\ p (lit "x ""y""") = p (lit "x")).
Proof.
  split; [|split; [|split; [|split; [|repeat split; vm_compute; reflexivity]]]].
  - pose proof (n_paren _ _ _ (ProofSyntax.term_expr ascii_only _ _ (sample_number (lit "3") eq_refl))) as B.
    pose proof (ProofSyntax.term_expr ascii_only _ _ (t_intro ascii_only [] _ _ [] [] eq_refl B (s_nil _))) as E.
    exact (ss_last _ [] _ _ [] eq_refl E eq_refl eq_refl).
  - exact (en_term _ _ _ _ _ (lt_operand _ _ _ [] _ _ eq_refl (u_integer ascii_only (lit "2") eq_refl))).
  - refine (en_rest ascii_only _ _ (lit "a") _ (lit "+2") _ (Bin (Leaf (Operand _)) (Sign (lit "+")) (Leaf (Operand _))) (sample_name (lit "a") eq_refl eq_refl)
      (lr_last _ _ _ [] (lit "+") [] (lit "2") _ eq_refl _ eq_refl (lt_operand _ _ _ [] _ _ eq_refl (u_integer ascii_only (lit "2") eq_refl)) _ _) eq_refl eq_refl _).
    + cbn. auto 20.
    + discriminate.
    + discriminate.
    + bracketed.
  - exact (en_term _ _ _ _ _ (lt_operand _ _ _ [] _ _ eq_refl (v_call ascii_only (lit "f") [] (lit "()") _ [] eq_refl eq_refl (c_empty ascii_only [] [] [] [] eq_refl eq_refl (c_nil _))))).
Qed.
