(** What the message of a refused text looks like. *)
From Verif Require Import Base Grammar SpecAst SpecPlace.
Local Open Scope nat_scope.

(** the lines of a text, without the line feeds between them *)
Fixpoint lines_of (s : str) : list str :=
  match s with
  | [] => [[]]
  | c :: s' => if is_feed c then [] :: lines_of s' else match lines_of s' with l :: r => (c :: l) :: r | [] => [[c]] end
  end.

(** six lines: line number l and column c; the line of the text; a mark under it; what was expected *)
Definition laid_out (m : str) (l c : Z) (line mark what : str) : Prop :=
  exists dl dc, numeral_of l dl /\ numeral_of c dc /\
    let blank := repeat 32%N (length dl) in
    lines_of m = [blank ++ lit "--> " ++ dl ++ lit ":" ++ dc;
                  blank ++ lit " |";
                  dl ++ lit " | " ++ line;
                  blank ++ lit " | " ++ mark;
                  blank ++ lit " |";
                  blank ++ lit " = expected " ++ what].

Definition is_return (c : char) : bool := (c =? 13)%N.
(** line number l of the text *)
Definition text_line (text : str) (l : Z) : str := nth (Z.to_nat (l - 1)) (lines_of text) [].
(** there are further lines *)
Definition goes_on (text : str) (l : Z) : bool := Z.to_nat l <? length (lines_of text).
(** ␍ for a carriage return *)
Definition sign_returns (s : str) : str := map (fun c => if is_return c then 9229%N else c) s.

(** a, b, or c *)
Fixpoint listing_more (l : list str) : str :=
  match l with
  | [a; b] => a ++ lit ", or " ++ b
  | a :: r => a ++ lit ", " ++ listing_more r
  | [] => []
  end.
Definition listing (l : list str) : str :=
  match l with
  | [a] => a
  | [a; b] => a ++ lit " or " ++ b
  | _ => listing_more l
  end.
(** the rules of the grammar with their names, in the order of the program (projects/sm-parser/src/sm_parser.rs:4) *)
Definition rules_named : list (rule * str) :=
  [(R_EOI, lit "EOI"); (R_program, lit "program"); (R_statement, lit "statement");
   (R_emptyStatement, lit "emptyStatement"); (R_eos, lit "eos"); (R_comma_or_semi, lit "comma_or_semi");
   (R_block_or_stmt, lit "block_or_stmt"); (R_importStatement, lit "importStatement");
   (R_use_alias, lit "use_alias"); (R_use_module_select, lit "use_module_select");
   (R_module_block, lit "module_block"); (R_module_tuple, lit "module_tuple");
   (R_ModuleSplit, lit "ModuleSplit"); (R_As, lit "As"); (R_controlFlow, lit "controlFlow");
   (R_block, lit "block"); (R_if_statement, lit "if_statement"); (R_for_statement, lit "for_statement");
   (R_for_in_loop, lit "for_in_loop"); (R_re_control, lit "re_control"); (R_Return, lit "Return");
   (R_Yield, lit "Yield"); (R_Break, lit "Break"); (R_Pass, lit "Pass"); (R_Type, lit "Type");
   (R_classStatement, lit "classStatement"); (R_traitStatement, lit "traitStatement");
   (R_short_block, lit "short_block"); (R_short_statement, lit "short_statement");
   (R_short_annotation, lit "short_annotation"); (R_extendStatement, lit "extendStatement");
   (R_with_trait, lit "with_trait"); (R_assignStatement, lit "assignStatement");
   (R_assign_terms, lit "assign_terms"); (R_assign_name, lit "assign_name");
   (R_assign_pair, lit "assign_pair"); (R_defineStatement, lit "defineStatement");
   (R_define_terms, lit "define_terms"); (R_define_parameter, lit "define_parameter");
   (R_define_pair, lit "define_pair"); (R_annotation, lit "annotation");
   (R_annotation_call, lit "annotation_call"); (R_apply, lit "apply"); (R_apply_kv, lit "apply_kv");
   (R_function_name, lit "function_name"); (R_function_module, lit "function_module");
   (R_expression, lit "expression"); (R_expr, lit "expr"); (R_term, lit "term"); (R_node, lit "node");
   (R_apply_call, lit "apply_call"); (R_derivative, lit "derivative"); (R_space_call, lit "space_call");
   (R_type_expr, lit "type_expr"); (R_type_hint, lit "type_hint"); (R_TypeInfix, lit "TypeInfix");
   (R_data, lit "data"); (R_dict, lit "dict"); (R_list, lit "list"); (R_slice, lit "slice");
   (R_key_valid, lit "key_valid"); (R_key_value, lit "key_value"); (R_index, lit "index");
   (R_Start, lit "Start"); (R_End, lit "End"); (R_Step, lit "Step"); (R_Number, lit "Number");
   (R_Decimal, lit "Decimal"); (R_Integer, lit "Integer"); (R_Byte, lit "Byte"); (R_String, lit "String");
   (R_StringNormal, lit "StringNormal"); (R_StringBlock, lit "StringBlock");
   (R_StringText, lit "StringText"); (R_Symbol, lit "Symbol"); (R_SYMBOL, lit "SYMBOL");
   (R_Special, lit "Special"); (R_Slot, lit "Slot"); (R_REPL, lit "REPL"); (R_Positive, lit "Positive");
   (R_WHITESPACE, lit "WHITESPACE"); (R_COMMENT, lit "COMMENT");
   (R_MultiLineComment, lit "MultiLineComment"); (R_Prefix, lit "Prefix"); (R_Suffix, lit "Suffix");
   (R_Infix, lit "Infix"); (R_Set, lit "Set"); (R_Derivative, lit "Derivative"); (R_Or, lit "Or");
   (R_LazyOr, lit "LazyOr"); (R_Star, lit "Star"); (R_Slash, lit "Slash"); (R_Escape, lit "Escape");
   (R_Proportion, lit "Proportion"); (R_Comma, lit "Comma"); (R_Dot, lit "Dot");
   (R_Separate, lit "Separate"); (R_Semicolon, lit "Semicolon"); (R_Colon, lit "Colon");
   (R_Question, lit "Question"); (R_Underline, lit "Underline"); (R_Load, lit "Load"); (R_Save, lit "Save");
   (R_LeftShift, lit "LeftShift"); (R_RightShift, lit "RightShift"); (R_LessEqual, lit "LessEqual");
   (R_GraterEqual, lit "GraterEqual"); (R_Less, lit "Less"); (R_Grater, lit "Grater");
   (R_Pipeline, lit "Pipeline"); (R_Equivalent, lit "Equivalent"); (R_NotEquivalent, lit "NotEquivalent");
   (R_Equal, lit "Equal"); (R_NotEqual, lit "NotEqual"); (R_Plus, lit "Plus"); (R_Minus, lit "Minus");
   (R_Multiply, lit "Multiply"); (R_CenterDot, lit "CenterDot"); (R_Kronecker, lit "Kronecker");
   (R_TensorProduct, lit "TensorProduct"); (R_Divide, lit "Divide"); (R_Quotient, lit "Quotient");
   (R_Modulo, lit "Modulo"); (R_Remainder, lit "Remainder"); (R_Power, lit "Power"); (R_Surd, lit "Surd");
   (R_Increase, lit "Increase"); (R_Decrease, lit "Decrease"); (R_To, lit "To"); (R_Elvis, lit "Elvis");
   (R_Map, lit "Map"); (R_Quote, lit "Quote"); (R_Acute, lit "Acute"); (R_Apostrophe, lit "Apostrophe");
   (R_Quotation, lit "Quotation"); (R_LogicOr, lit "LogicOr"); (R_LogicAnd, lit "LogicAnd");
   (R_LogicNot, lit "LogicNot"); (R_Ellipsis, lit "Ellipsis"); (R_LogicXor, lit "LogicXor");
   (R_MapAll, lit "MapAll"); (R_Concat, lit "Concat"); (R_Destruct, lit "Destruct");
   (R_DoubleBang, lit "DoubleBang"); (R_Bang, lit "Bang"); (R_Not, lit "Not"); (R_Sharp, lit "Sharp");
   (R_Curry, lit "Curry"); (R_Apply, lit "Apply"); (R_At, lit "At")].
(** the names of the rules of the grammar, in the order of the program, for which p holds *)
Definition names_where (p : rule -> bool) : list str := map snd (filter (fun x => p (fst x)) rules_named).

(** the line of the text with offset i, as the message quotes it: without carriage returns; but if a line ends, or a
    carriage return stands, at i, these are made visible *)
Definition line_shown (text : str) (i : nat) : str :=
  let l := fst (place text i) in
  match nth_error text i with
  | Some c =>
      if is_feed c || is_return c then sign_returns (text_line text l) ++ (if goes_on text l then [9226%N] else [])
      else filter (fun c => negb (is_return c)) (text_line text l)
  | None => filter (fun c => negb (is_return c)) (text_line text l)
  end.
(** the sign in a quoted line for a character *)
Definition sign_of (c : char) : char := if is_return c then 9229%N else if is_feed c then 9226%N else c.
(** blank, but for tabs *)
Definition blanked (s : str) : str := map (fun c => if (c =? 9)%N then 9%N else 32%N) s.
