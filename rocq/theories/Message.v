(** The message of a refused text, as in the payload of ParseError: [e.to_string()] of
    projects/sm-ast/src/error/traits.rs:15-19 for the error that parser/parse.rs:26
    passes on.  The rendering is pest's (2.1.3, pest/src/error.rs, position.rs and
    parser_state.rs [state]), not in /repo. *)
From Verif Require Import Base Peg Grammar Build Display Track.
Local Open Scope nat_scope.

(** sm_parser.rs:2-155 [enum Rule]: the variants in their order, which is the derived
    Ord, with the names that the derived Debug prints *)
Definition rule_names : list (rule * str) :=
  [(R_EOI, lit "EOI"); (R_program, lit "program"); (R_statement, lit "statement");
   (R_emptyStatement, lit "emptyStatement"); (R_eos, lit "eos");
   (R_comma_or_semi, lit "comma_or_semi"); (R_block_or_stmt, lit "block_or_stmt");
   (R_importStatement, lit "importStatement"); (R_use_alias, lit "use_alias");
   (R_use_module_select, lit "use_module_select"); (R_module_block, lit "module_block");
   (R_module_tuple, lit "module_tuple"); (R_ModuleSplit, lit "ModuleSplit"); (R_As, lit "As");
   (R_controlFlow, lit "controlFlow"); (R_block, lit "block"); (R_if_statement, lit "if_statement");
   (R_for_statement, lit "for_statement"); (R_for_in_loop, lit "for_in_loop");
   (R_re_control, lit "re_control"); (R_Return, lit "Return"); (R_Yield, lit "Yield");
   (R_Break, lit "Break"); (R_Pass, lit "Pass"); (R_Type, lit "Type");
   (R_classStatement, lit "classStatement"); (R_traitStatement, lit "traitStatement");
   (R_short_block, lit "short_block"); (R_short_statement, lit "short_statement");
   (R_short_annotation, lit "short_annotation"); (R_extendStatement, lit "extendStatement");
   (R_with_trait, lit "with_trait"); (R_assignStatement, lit "assignStatement");
   (R_assign_terms, lit "assign_terms"); (R_assign_name, lit "assign_name");
   (R_assign_pair, lit "assign_pair"); (R_defineStatement, lit "defineStatement");
   (R_define_terms, lit "define_terms"); (R_define_parameter, lit "define_parameter");
   (R_define_pair, lit "define_pair"); (R_annotation, lit "annotation");
   (R_annotation_call, lit "annotation_call"); (R_apply, lit "apply"); (R_apply_kv, lit "apply_kv");
   (R_function_name, lit "function_name"); (R_function_module, lit "function_module");
   (R_expression, lit "expression"); (R_expr, lit "expr"); (R_term, lit "term");
   (R_node, lit "node"); (R_apply_call, lit "apply_call"); (R_derivative, lit "derivative");
   (R_space_call, lit "space_call"); (R_type_expr, lit "type_expr"); (R_type_hint, lit "type_hint");
   (R_TypeInfix, lit "TypeInfix"); (R_data, lit "data"); (R_dict, lit "dict"); (R_list, lit "list");
   (R_slice, lit "slice"); (R_key_valid, lit "key_valid"); (R_key_value, lit "key_value");
   (R_index, lit "index"); (R_Start, lit "Start"); (R_End, lit "End"); (R_Step, lit "Step");
   (R_Number, lit "Number"); (R_Decimal, lit "Decimal"); (R_Integer, lit "Integer");
   (R_Byte, lit "Byte"); (R_String, lit "String"); (R_StringNormal, lit "StringNormal");
   (R_StringBlock, lit "StringBlock"); (R_StringText, lit "StringText"); (R_Symbol, lit "Symbol");
   (R_SYMBOL, lit "SYMBOL"); (R_Special, lit "Special"); (R_Slot, lit "Slot"); (R_REPL, lit "REPL");
   (R_Positive, lit "Positive"); (R_WHITESPACE, lit "WHITESPACE"); (R_COMMENT, lit "COMMENT");
   (R_MultiLineComment, lit "MultiLineComment"); (R_Prefix, lit "Prefix"); (R_Suffix, lit "Suffix");
   (R_Infix, lit "Infix"); (R_Set, lit "Set"); (R_Derivative, lit "Derivative"); (R_Or, lit "Or");
   (R_LazyOr, lit "LazyOr"); (R_Star, lit "Star"); (R_Slash, lit "Slash"); (R_Escape, lit "Escape");
   (R_Proportion, lit "Proportion"); (R_Comma, lit "Comma"); (R_Dot, lit "Dot");
   (R_Separate, lit "Separate"); (R_Semicolon, lit "Semicolon"); (R_Colon, lit "Colon");
   (R_Question, lit "Question"); (R_Underline, lit "Underline"); (R_Load, lit "Load");
   (R_Save, lit "Save"); (R_LeftShift, lit "LeftShift"); (R_RightShift, lit "RightShift");
   (R_LessEqual, lit "LessEqual"); (R_GraterEqual, lit "GraterEqual"); (R_Less, lit "Less");
   (R_Grater, lit "Grater"); (R_Pipeline, lit "Pipeline"); (R_Equivalent, lit "Equivalent");
   (R_NotEquivalent, lit "NotEquivalent"); (R_Equal, lit "Equal"); (R_NotEqual, lit "NotEqual");
   (R_Plus, lit "Plus"); (R_Minus, lit "Minus"); (R_Multiply, lit "Multiply");
   (R_CenterDot, lit "CenterDot"); (R_Kronecker, lit "Kronecker");
   (R_TensorProduct, lit "TensorProduct"); (R_Divide, lit "Divide"); (R_Quotient, lit "Quotient");
   (R_Modulo, lit "Modulo"); (R_Remainder, lit "Remainder"); (R_Power, lit "Power");
   (R_Surd, lit "Surd"); (R_Increase, lit "Increase"); (R_Decrease, lit "Decrease");
   (R_To, lit "To"); (R_Elvis, lit "Elvis"); (R_Map, lit "Map"); (R_Quote, lit "Quote");
   (R_Acute, lit "Acute"); (R_Apostrophe, lit "Apostrophe"); (R_Quotation, lit "Quotation");
   (R_LogicOr, lit "LogicOr"); (R_LogicAnd, lit "LogicAnd"); (R_LogicNot, lit "LogicNot");
   (R_Ellipsis, lit "Ellipsis"); (R_LogicXor, lit "LogicXor"); (R_MapAll, lit "MapAll");
   (R_Concat, lit "Concat"); (R_Destruct, lit "Destruct"); (R_DoubleBang, lit "DoubleBang");
   (R_Bang, lit "Bang"); (R_Not, lit "Not"); (R_Sharp, lit "Sharp"); (R_Curry, lit "Curry");
   (R_Apply, lit "Apply"); (R_At, lit "At")].
Definition rule_dec : forall a b : rule, {a = b} + {a <> b}.
Proof. decide equality. Defined.
(** the place of a rule among the variants *)
Fixpoint rank_in (l : list (rule * str)) (r : rule) : nat :=
  match l with [] => 0 | (a, _) :: l' => if rule_dec a r then 0 else S (rank_in l' r) end.
Definition rank : rule -> nat := rank_in rule_names.
(** its name; the functions that are no variants never get here *)
Fixpoint name_in (l : list (rule * str)) (r : rule) : str :=
  match l with [] => [] | (a, n) :: l' => if rule_dec a r then n else name_in l' r end.
Definition rule_name : rule -> str := name_in rule_names.

(** pest [state]: the attempts are sorted and consecutive equal ones dropped.  Any
    sorting gives the same list; here insertion. *)
Fixpoint insert_rule (r : rule) (l : list rule) : list rule :=
  match l with [] => [r] | a :: l' => if rank r <=? rank a then r :: l else a :: insert_rule r l' end.
Definition sort_rules (l : list rule) : list rule := fold_right insert_rule [] l.
Fixpoint dedup (l : list rule) : list rule :=
  match l with
  | a :: (b :: _) as l' => if rule_dec a b then dedup l' else a :: dedup l'
  | _ => l
  end.

(** pest [Error::enumerate] *)
Definition enumerate (rules : list rule) : outcome str :=
  match map rule_name rules with
  | [] => Panic PIndex
  | [a] => Ret a
  | [a; b] => Ret (a ++ lit " or " ++ b)
  | l => Ret (join (lit ", ") (removelast l) ++ lit ", or " ++ last l [])
  end.
(** pest [Error::parsing_error_message] *)
Definition expectation (yes no : list rule) : outcome str :=
  match no, yes with
  | _ :: _, _ :: _ => obind (enumerate no) (fun n => obind (enumerate yes) (fun y => Ret (lit "unexpected " ++ n ++ lit "; expected " ++ y)))
  | _ :: _, [] => obind (enumerate no) (fun n => Ret (lit "unexpected " ++ n))
  | [], _ :: _ => obind (enumerate yes) (fun y => Ret (lit "expected " ++ y))
  | [], [] => Ret (lit "unknown parsing error")
  end.

(** the characters before the first line feed *)
Fixpoint until_feed (s : str) : str :=
  match s with
  | [] => []
  | c :: s' => if (c =? 10)%N then [] else c :: until_feed s'
  end.
(** the characters up to the next line feed, that included *)
Fixpoint to_feed (s : str) : str :=
  match s with
  | [] => []
  | c :: s' => if (c =? 10)%N then [c] else c :: to_feed s'
  end.
(** pest [Position::line_of]: [find_line_start] looks backwards from offset p for a line
    feed, [find_line_end] forwards.  (Its case for the last byte of the text gives the
    same as the general one.) *)
Definition line_of (text : str) (p : nat) : str :=
  rev (until_feed (rev (firstn p text))) ++ to_feed (skipn p text).
(** pest [visualize_whitespace] *)
Definition visualize (c : char) : char :=
  if (c =? 13)%N then 9229%N else if (c =? 10)%N then 9226%N else c.
(** pest [Error::new_from_pos]: the line to show *)
Definition quoted_line (text : str) (p : nat) : str :=
  match skipn p text with
  | c :: _ => if ((c =? 10) || (c =? 13))%N then map visualize (line_of text p)
              else filter (fun c => negb ((c =? 13) || (c =? 10))%N) (line_of text p)
  | [] => filter (fun c => negb ((c =? 13) || (c =? 10))%N) (line_of text p)
  end.
(** pest [Error::underline] without an end *)
Definition underline (line : str) (column : Z) : str :=
  map (fun c => if (c =? 9)%N then 9%N else 32%N) (firstn (Z.to_nat (column - 1)) line) ++ lit "^---".
(** pest [Error::format] without a path and without a second line *)
Definition format_error (l c : Z) (line what : str) : str :=
  let s := repeat 32%N (length (show_nat l)) in
  let nl := [10%N] in
  s ++ lit "--> " ++ show_nat l ++ lit ":" ++ show_nat c ++ nl ++
  s ++ lit " |" ++ nl ++
  show_nat l ++ lit " | " ++ line ++ nl ++
  s ++ lit " | " ++ underline line c ++ nl ++
  s ++ lit " |" ++ nl ++
  s ++ lit " = " ++ what.
(** the message of the text, if it is refused *)
Definition message (U : unicode) (text : str) : option (outcome str) :=
  match parse_error U text with
  | Some (p, yes, no) =>
      let '(l, c) := line_col (firstn p text) in
      Some (omap (format_error l c (quoted_line text p)) (expectation (dedup (sort_rules yes)) (dedup (sort_rules no))))
  | None => None
  end.
