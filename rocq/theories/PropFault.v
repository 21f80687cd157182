(** Property theorems about where the error of a refused text points.  The
    vocabulary is in [SpecFault]; [error_place] is the line and the column the
    error gives. *)
From Verif Require Import Base Ast SmError Internal Peg Grammar Build Track SpecAst SpecClimb SpecSyntax SpecText SpecSource SpecPlace SpecManual SpecFault SpecOutside.
From Verif Require Import ProofExpect ProofFault ProofOutside ProofSample.
Local Open Scope outcome_scope.
Local Open Scope nat_scope.

(** ** C70 the place of an error *)
(** it is a place of the text, its end included *)
Theorem C70_in_text : forall U f text, parse U f text = Ret (Err SMParseError) -> exists i, blamed U text i.
Proof. exact error_in_text. Qed.
Print Assumptions C70_in_text.
Theorem C70_only_refused : forall U f text, parse U f text <> Ret (Err SMParseError) -> error_place U text = None.
Proof. exact no_error. Qed.
Print Assumptions C70_only_refused.
(** it lists rules as expected, and each of them was tried there in vain; nothing is listed as unexpected *)
Theorem C70_expected : forall U text i yes no, parse_error U text = Some (i, yes, no) -> yes <> [] /\ (forall r, In r yes -> misses U text i r) /\ no = [].
Proof. exact error_names. Qed.
Print Assumptions C70_expected.
(** never before the end of the expressions that stand on lines of their own at the start of the text, whatever follows them *)
Theorem C70_after_lines : forall U, sane U -> forall g t c w f, spacing g = true -> lines U t ->
  white_space c = false -> operator_start c = false -> semi c = false -> parse U f (g ++ t ++ c :: w) = Ret (Err SMParseError) ->
  exists i, length (g ++ t) <= i /\ blamed U (g ++ t ++ c :: w) i.
Proof. exact after_lines. Qed.
Print Assumptions C70_after_lines.
(** a character without meaning, outside strings and comments: the text is refused and the error is not after it, whatever surrounds it *)
Theorem C70_stranger : forall U u c w, bare u = true -> stranger U c = true ->
  (forall f, parse U f (u ++ c :: w) = Ret (Err SMParseError)) /\ exists i, i <= length u /\ blamed U (u ++ c :: w) i.
Proof. exact stranger_refused. Qed.
Print Assumptions C70_stranger.
(** refused also if strings and comments surround it *)
Theorem C70_stranger_outside : forall U text k c, outside text = Some k -> In c k -> stranger U c = true -> forall f, parse U f text = Ret (Err SMParseError).
Proof. exact stranger_outside. Qed.
Print Assumptions C70_stranger_outside.
(** after an expression, the error is exactly there, and the end of the text is among what was expected *)
Theorem C70_stranger_after_expression : forall U, sane U -> forall g t x o ws c w, spacing g = true -> lines U t -> expr U x o -> plain_start x = true ->
  t = [] \/ head_is operator_start x = false -> spacing ws = true -> stranger U c = true -> bare (g ++ t ++ x ++ ws) = true ->
  (forall f, parse U f ((g ++ t ++ x ++ ws) ++ c :: w) = Ret (Err SMParseError)) /\
  blamed U ((g ++ t ++ x ++ ws) ++ c :: w) (length (g ++ t ++ x ++ ws)) /\ end_expected U ((g ++ t ++ x ++ ws) ++ c :: w).
Proof. exact stranger_exact. Qed.
Print Assumptions C70_stranger_after_expression.
(** in place of an operand too *)
Theorem C70_stranger_after_operator : forall U, sane U -> forall g t x o g1 s g2 c w, spacing g = true -> lines U t -> expr U x o -> plain_start x = true ->
  t = [] \/ head_is operator_start x = false -> spacing g1 = true -> In s (map fst operators ++ ignored) -> spacing g2 = true -> stranger U c = true ->
  comment_start (s ++ g2 ++ c :: w) = false -> bare (g ++ t ++ x ++ g1 ++ s ++ g2) = true ->
  blamed U ((g ++ t ++ x ++ g1 ++ s ++ g2) ++ c :: w) (length (g ++ t ++ x ++ g1 ++ s ++ g2)).
Proof. exact missing_operand_stranger. Qed.
Print Assumptions C70_stranger_after_operator.
(** an operator at the end of the text: the error is at the end of the text *)
Theorem C70_missing_operand : forall U, sane U -> forall g t x o g1 s g2, spacing g = true -> lines U t -> expr U x o -> plain_start x = true ->
  t = [] \/ head_is operator_start x = false -> spacing g1 = true -> In s (map fst operators ++ ignored) -> spacing g2 = true ->
  comment_start (s ++ g2) = false ->
  (forall f, parse U f (g ++ t ++ x ++ g1 ++ s ++ g2) = Ret (Err SMParseError)) /\
  blamed U (g ++ t ++ x ++ g1 ++ s ++ g2) (length (g ++ t ++ x ++ g1 ++ s ++ g2)).
Proof. exact missing_operand_end. Qed.
Print Assumptions C70_missing_operand.
(** an operator followed by something that starts no operand: the error is not before that *)
Theorem C70_missing_operand_before : forall U, sane U -> forall g t x o g1 s g2 w, spacing g = true -> lines U t -> expr U x o -> plain_start x = true ->
  t = [] \/ head_is operator_start x = false -> spacing g1 = true -> In s (map fst operators ++ ignored) -> spacing g2 = true ->
  head_is (operand_start U) w = false -> head_is white_space w = false -> comment_start (s ++ g2 ++ w) = false -> comment_start w = false ->
  (forall f, parse U f ((g ++ t ++ x ++ g1 ++ s ++ g2) ++ w) = Ret (Err SMParseError)) /\
  exists i, length (g ++ t ++ x ++ g1 ++ s ++ g2) <= i /\ blamed U ((g ++ t ++ x ++ g1 ++ s ++ g2) ++ w) i.
Proof. exact missing_operand_after. Qed.
Print Assumptions C70_missing_operand_before.
(** | & $ ~ < \ ` ) ] } or , after an expression: the error is not before the sign *)
Theorem C70_sign_after_expression : forall U, sane U -> forall g t x o ws c w, spacing g = true -> lines U t -> expr U x o -> plain_start x = true ->
  t = [] \/ head_is operator_start x = false -> spacing ws = true -> In c foreign ->
  (forall f, parse U f ((g ++ t ++ x ++ ws) ++ c :: w) = Ret (Err SMParseError)) /\
  exists i, length (g ++ t ++ x ++ ws) <= i /\ blamed U ((g ++ t ++ x ++ ws) ++ c :: w) i.
Proof. exact sign_after. Qed.
Print Assumptions C70_sign_after_expression.

(** the fourth line of b & c after three; 1 + at the end of a line *)
Example C70_example : lines ascii_only (lit "a" ++ [10%N] ++ lit "b" ++ [10; 10]%N) /\ stranger ascii_only 38%N = true /\ bare (lit "a / b") = true /\ bare (lit "a /// b") = false /\
  place (lit "a" ++ [10%N] ++ lit "b" ++ [10; 10]%N ++ lit "c & d") 7 = (4%Z, 3%Z) /\
  let e := error_place ascii_only in
  e (lit "a" ++ [10%N] ++ lit "b" ++ [10; 10]%N ++ lit "c & d") = Some (4%Z, 3%Z) /\ e (lit "f(a, & )") = Some (1%Z, 6%Z) /\
  e (lit "1 +") = Some (1%Z, 4%Z) /\ e (lit "1 + $") = Some (1%Z, 5%Z) /\ e (lit "a" ++ [10%N] ++ lit "2 * ") = Some (2%Z, 5%Z) /\
  e (lit "a + b") = None /\ e (lit "(a") = Some (1%Z, 3%Z) /\
  parse_error ascii_only (lit "a = ") = Some (4, [R_MultiLineComment; R_term], []).
Proof.
  pose proof (fun w H K => sample_expr w _ [] [] (Leaf (Operand _)) (sample_name w H K) (r_nil _) eq_refl eq_refl ltac:(bracketed)) as N. cbn [app] in N.
  pose proof (N (lit "a") eq_refl eq_refl) as A. pose proof (N (lit "b") eq_refl eq_refl) as B.
  split; [exact (lines_more _ _ _ [10%N] _ A eq_refl eq_refl eq_refl (lines_more _ _ _ [10; 10]%N [] B eq_refl eq_refl eq_refl (lines_none _)))|].
  repeat split; vm_compute; reflexivity.
Qed.

(** & is a stranger, outside the string and the comment; in a string it does no harm *)
Example C70_example_outside : outside (lit "f(""&"") & /// b") = Some (lit "f() & ") /\ In 38%N (lit "f() & ") /\ stranger ascii_only 38%N = true /\
  parse ascii_only [] (lit "f(""&"") & /// b") = Ret (Err SMParseError) /\ error_place ascii_only (lit "f(""&"") /// &") = None.
Proof. repeat split; try (vm_compute; reflexivity). cbn. auto 8. Qed.
