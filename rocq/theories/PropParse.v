(** Property theorems about parsing that hold for every text or every tree of
    pairs: termination, spans, operator precedence, dot calls. *)
From Verif Require Import Base Ast SmError Peg Grammar Climber Build SpecAst SpecPeg SpecClimb SpecParse SpecSyntax.
From Verif Require Import ProofGrammar ProofBuild ProofSpace.
Local Open Scope Z_scope.

(** ** C24 termination *)
(** started at any function of the parser, in any state, the recursion ends at a
    depth that is linear in what remains of the text *)
Theorem C24_recursion_depth_linear : forall U (r : rule) k q s n,
  ((length (rest s) + 1) * 70 <= n)%nat ->
  run U grammar skip_body n (ECall r) k q s <> PFuel.
Proof. exact rule_terminates. Qed.
Print Assumptions C24_recursion_depth_linear.
Theorem C24_program_accepts_or_rejects : forall U text,
  (exists s ts, run_program U text = POk s ts) \/ (exists s ts, run_program U text = PErr s ts).
Proof. exact program_decides. Qed.
Print Assumptions C24_program_accepts_or_rejects.
(** parsing to an AST returns or panics, it never goes on forever *)
Theorem C24_parse_terminates : forall U fname text, parse U fname text <> OutOfFuel.
Proof. exact parse_terminates. Qed.
Print Assumptions C24_parse_terminates.
Example C24_example : forall xs xc,
  let U := mkUnicode xs xc in
  (exists s ts, run_program U (lit "f(1, [2])") = POk s ts) /\
  (exists s ts, run_program U (lit "1+") = PErr s ts).
Proof. intros. vm_compute. split; eexists; eexists; reflexivity. Qed.

(** ** C25 spans *)
Theorem C25_accepted_text_is_consumed : forall U text s ts,
  run_program U text = POk s ts ->
  rest s = [] /\ pos s = length text /\
  in_order 0 (length text) ts /\ Forall (well_spanned text) ts.
Proof. exact accepted_text. Qed.
Print Assumptions C25_accepted_text_is_consumed.
(** started at any function and any place of a text *)
Theorem C25_spans_everywhere : forall U text n r k q p st s ts,
  (p <= length text)%nat ->
  run U grammar skip_body n (ECall r) k q (mkPs p (skipn p text) st) = POk s ts ->
  (p <= pos s <= length text)%nat /\ rest s = skipn (pos s) text /\
  in_order p (pos s) ts /\ Forall (well_spanned text) ts.
Proof. exact spans_everywhere. Qed.
Print Assumptions C25_spans_everywhere.
Example C25_example : forall xs xc,
  exists s ts, run_program (mkUnicode xs xc) (lit "a + 12") = POk s ts /\ ts <> [].
Proof. intros. vm_compute. eexists. eexists. split; [reflexivity|discriminate]. Qed.

(** ** C26 leading whitespace *)
(** the characters of Unicode's White_Space, and no others, are white space *)
Theorem C26_white_space : forall c, white_space c = true <-> In c blanks.
Proof. exact white_blanks. Qed.
Print Assumptions C26_white_space.
(** white space before the text changes neither the AST (positions aside), nor the
    error, nor the panic *)
Theorem C26_leading_whitespace : forall U fname w t,
  Forall (fun c => In c blanks) w ->
  omap forget_result (parse U fname (w ++ t)) = omap forget_result (parse U fname t).
Proof. exact leading_blanks. Qed.
Print Assumptions C26_leading_whitespace.
(** all outcomes occur: a text that parses (with other positions), a text that does not, a text that panics;
    the space is 9 tab, 13 10 a line end, 32 blank, 12288 ideographic space *)
Example C26_example : forall xs xc fname,
  let U := mkUnicode xs xc in
  let w := [9; 13; 10; 32; 12288]%N in
  Forall (fun c => In c blanks) w /\
  (exists a, parse U fname (w ++ lit "1+x") = Ret (Ok a) /\ parse U fname (lit "1+x") <> Ret (Ok a)) /\
  (exists e, parse U fname (w ++ lit "1//2") = Ret (Err e)) /\
  (exists k, parse U fname (w ++ lit "1.05") = Panic k).
Proof.
  intros xs xc fname U w. split; [repeat (apply Forall_cons; [cbn; auto 30|]); apply Forall_nil|].
  split; [eexists; split; vm_compute; [reflexivity|discriminate]|].
  split; eexists; vm_compute; reflexivity.
Qed.

(** ** C32 precedence *)
(** an expression x0 o1 x1 ... on xn: exactly one bracketing respects the table,
    and it is the one that is evaluated *)
Theorem C32_precedence : forall fname input r a b x x0 l,
  Forall (fun p => supported (fst p)) l ->
  let e := Node r a b x (alternate x0 l) in
  exists t, well_bracketed op_strength op_to_right t /\ written t = alternate x0 l /\
    (forall t', well_bracketed op_strength op_to_right t' -> written t' = alternate x0 l -> t' = t) /\
    parse_expr fname input e =
    evaluate (primary fname input (parse_expr fname input)) (infix_node (get_position fname input e)) t.
Proof. exact expression_precedence. Qed.
Print Assumptions C32_precedence.
Example C32_example :
  let x := Node R_term 0 1 (lit "1") [] in
  let o r := Node r 1 2 [] [] in
  Forall (fun p => supported (fst p)) [(o R_Plus, x); (o R_Power, x); (o R_Power, x); (o R_Minus, x)] /\
  well_bracketed op_strength op_to_right
    (Bin (Bin (Leaf x) (o R_Plus) (Bin (Leaf x) (o R_Power) (Bin (Leaf x) (o R_Power) (Leaf x)))) (o R_Minus) (Leaf x)).
Proof.
  cbn zeta. split; [repeat constructor|].
  repeat first [apply wb_leaf | apply wb_bin]; intros p H; try discriminate; injection H as <-;
    first [left; reflexivity | right; split; reflexivity].
Qed.

(** ** C33 other operators *)
Theorem C33_unsupported_operator_truncates : forall fname input r a b x x0 l o k,
  Forall (fun p => supported (fst p)) l -> ~ supported o ->
  parse_expr fname input (Node r a b x (alternate x0 l ++ o :: k)) =
  parse_expr fname input (Node r a b x (alternate x0 l)).
Proof. exact unsupported_truncates. Qed.
Print Assumptions C33_unsupported_operator_truncates.
Theorem C33_unsupported_operators : forall o,
  In (pair_rule o) [R_Set; R_Modulo; R_Grater; R_CenterDot; R_Kronecker; R_TensorProduct; R_Quotient; R_Equal; R_GraterEqual] ->
  ~ supported o.
Proof. exact unsupported_list. Qed.
Print Assumptions C33_unsupported_operators.
Example C33_example : forall xs xc fname,
  let show t := match parse (mkUnicode xs xc) fname t with Ret (Ok a) => Some a | _ => None end in
  show (lit "7%2") = Some (Integer 7) /\ show (lit "a=b") = Some (ast_symbol (lit "a")).
Proof. intros. vm_compute. auto. Qed.

(** ** C36 dot calls *)
Theorem C36_dot_call : forall p lhs op rhs, pair_rule op = R_Dot ->
  infix_node p lhs op rhs =
  match rhs with
  | Sym f => Ret (Function f [mkParam [lhs] [] p])
  | Function f (mkParam args opts q :: more) => Ret (Function f (mkParam (lhs :: args) opts q :: more))
  | Function f [] => Panic PIndex
  | Integer i => Ret (Function (mkSymbol [lit "std"; lit "core"] (lit "index") Normal 0) [mkParam [lhs; Integer i] [] p])
  | _ => Panic PUnreachable
  end.
Proof. exact dot_call. Qed.
Print Assumptions C36_dot_call.
Example C36_example : forall xs xc fname,
  exists p q, parse (mkUnicode xs xc) fname (lit "a.f(1)(2)") =
  Ret (Ok (Function (symbol_from (lit "f"))
    [mkParam [ast_symbol (lit "a"); Integer 1] [] p; mkParam [Integer 2] [] q])).
Proof. intros. eexists. eexists. vm_compute. reflexivity. Qed.
