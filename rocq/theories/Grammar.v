(** The generated parser projects/sm-parser/src/sm_parser.rs, function by function.
    This file is produced by tools/gen_grammar.py, which translates the Rust text;
    the line after each name is the line of the Rust function. *)
From Verif Require Import Base Peg.

(** The functions of [rules::visible]; most are also variants of [enum Rule]. *)
Inductive rule :=
| R_program
| R_statement
| R_emptyStatement
| R_eos
| R_comma_or_semi
| R_block_or_stmt
| R_importStatement
| R_use_alias
| R_use_module_select
| R_module_block
| R_module_tuple
| R_ModuleSplit
| R_As
| R_controlFlow
| R_block
| R_if_statement
| R_for_statement
| R_for_in_loop
| R_re_control
| R_Return
| R_Yield
| R_Break
| R_Pass
| R_Type
| R_classStatement
| R_traitStatement
| R_short_block
| R_short_statement
| R_short_annotation
| R_extendStatement
| R_with_trait
| R_assignStatement
| R_assign_terms
| R_assign_name
| R_assign_pair
| R_defineStatement
| R_define_terms
| R_define_parameter
| R_define_pair
| R_annotation
| R_annotation_call
| R_apply
| R_apply_kv
| R_function_name
| R_function_module
| R_expression
| R_expr
| R_term
| R_node
| R_apply_call
| R_derivative
| R_space_call
| R_type_expr
| R_type_hint
| R_TypeInfix
| R_data
| R_dict
| R_list
| R_slice
| R_key_valid
| R_key_value
| R_index
| R_Start
| R_End
| R_Step
| R_Number
| R_Decimal
| R_Integer
| R_Byte
| R_String
| R_StringNormal
| R_StringBlock
| R_StringText
| R_Symbol
| R_SYMBOL
| R_Special
| R_Slot
| R_REPL
| R_Positive
| R_WHITESPACE
| R_COMMENT
| R_MultiLineComment
| R_Prefix
| R_Suffix
| R_Infix
| R_Set
| R_Derivative
| R_Or
| R_LazyOr
| R_Star
| R_Slash
| R_Escape
| R_Proportion
| R_Comma
| R_Dot
| R_Separate
| R_Semicolon
| R_Colon
| R_Question
| R_Underline
| R_Load
| R_Save
| R_LeftShift
| R_RightShift
| R_LessEqual
| R_GraterEqual
| R_Less
| R_Grater
| R_Pipeline
| R_Equivalent
| R_NotEquivalent
| R_Equal
| R_NotEqual
| R_Plus
| R_Minus
| R_Multiply
| R_CenterDot
| R_Kronecker
| R_TensorProduct
| R_Divide
| R_Quotient
| R_Modulo
| R_Remainder
| R_Power
| R_Surd
| R_Increase
| R_Decrease
| R_To
| R_Elvis
| R_Map
| R_Quote
| R_Acute
| R_Apostrophe
| R_Quotation
| R_LogicOr
| R_LogicAnd
| R_LogicNot
| R_Ellipsis
| R_LogicXor
| R_MapAll
| R_Concat
| R_Destruct
| R_DoubleBang
| R_Bang
| R_Not
| R_Sharp
| R_Curry
| R_Apply
| R_At
| R_ANY
| R_EOI
| R_SOI
| R_PEEK
| R_POP
| R_ASCII_DIGIT
| R_ASCII_NONZERO_DIGIT
| R_ASCII_BIN_DIGIT
| R_ASCII_OCT_DIGIT
| R_ASCII_HEX_DIGIT
| R_NEWLINE
| R_WHITE_SPACE
| R_XID_CONTINUE
| R_XID_START
.

(** projects/sm-parser/src/sm_parser.rs:169-985 [rules::visible] *)
Definition grammar (r : rule) : pexp rule :=
  match r with
  (* 172 *)
  | R_program =>
      (ESeq (EThen (EThen (EThen (EThen (ECall R_SOI) ESkip) (ESeq (EOpt (EThen (ERestore (ECall
      R_statement)) (ERep (ESeq (EThen ESkip (ERestore (ECall R_statement))))))))) ESkip) (ECall
      R_EOI)))
  (* 177 *)
  | R_statement =>
      (EElse (EElse (EElse (EElse (EElse (EElse (EElse (EElse (EElse (ECall R_emptyStatement)
      (ERestore (ESeq (EThen (EThen (ECall R_importStatement) ESkip) (EOpt (ECall R_eos))))))
      (ERestore (ESeq (EThen (EThen (ECall R_classStatement) ESkip) (EOpt (ECall R_eos)))))) (ERestore
      (ESeq (EThen (EThen (ECall R_traitStatement) ESkip) (EOpt (ECall R_eos)))))) (ERestore (ESeq
      (EThen (EThen (ECall R_extendStatement) ESkip) (EOpt (ECall R_eos)))))) (ERestore (ESeq (EThen
      (EThen (ECall R_controlFlow) ESkip) (EOpt (ECall R_eos)))))) (ERestore (ESeq (EThen (EThen
      (ECall R_assignStatement) ESkip) (EOpt (ECall R_eos)))))) (ERestore (ESeq (EThen (EThen (ECall
      R_defineStatement) ESkip) (EOpt (ECall R_eos)))))) (ERestore (ESeq (EThen (EThen (ECall
      R_annotation) ESkip) (EOpt (ECall R_eos)))))) (ERestore (ECall R_expression)))
  (* 182 *)
  | R_emptyStatement =>
      (ERule R_emptyStatement (EElse (ECall R_eos) (ECall R_Separate)))
  (* 187 *)
  | R_eos =>
      (ERule R_eos (ECall R_Semicolon))
  (* 192 *)
  | R_comma_or_semi =>
      (EElse (ECall R_Comma) (ECall R_Semicolon))
  (* 197 *)
  | R_block_or_stmt =>
      (EElse (ERestore (ECall R_block)) (ERestore (ESeq (EThen (EThen (ECall R_Set) ESkip) (ECall
      R_statement)))))
  (* 202 *)
  | R_importStatement =>
      (ERule R_importStatement (ESeq (EThen (EThen (EThen (EThen (EStr (lit "using")) ESkip) (ESeq
      (EOpt (EThen (ECall R_Dot) (ERep (ESeq (EThen ESkip (ECall R_Dot)))))))) ESkip) (EElse (ERestore
      (ECall R_use_alias)) (ERestore (ECall R_use_module_select))))))
  (* 207 *)
  | R_use_alias =>
      (EAtomic NonAtomic (ERule R_use_alias (EElse (ERestore (ESeq (EThen (EThen (EThen (EThen (ECall
      R_String) ESkip) (ECall R_As)) ESkip) (ECall R_SYMBOL)))) (ESeq (EThen (EThen (EThen (EThen
      (EThen (EThen (ECall R_SYMBOL) ESkip) (ESeq (EOpt (EThen (ESeq (EThen (EThen (ECall
      R_ModuleSplit) ESkip) (ECall R_SYMBOL))) (ERep (ESeq (EThen ESkip (ESeq (EThen (EThen (ECall
      R_ModuleSplit) ESkip) (ECall R_SYMBOL)))))))))) ESkip) (ECall R_As)) ESkip) (ECall
      R_SYMBOL))))))
  (* 212 *)
  | R_use_module_select =>
      (EAtomic NonAtomic (ERule R_use_module_select (ESeq (EThen (EThen (EThen (EThen (ECall R_SYMBOL)
      ESkip) (ESeq (EOpt (EThen (ESeq (EThen (EThen (ECall R_ModuleSplit) ESkip) (ECall R_SYMBOL)))
      (ERep (ESeq (EThen ESkip (ESeq (EThen (EThen (ECall R_ModuleSplit) ESkip) (ECall
      R_SYMBOL)))))))))) ESkip) (EOpt (ESeq (EThen (EThen (ECall R_ModuleSplit) ESkip) (EElse
      (ERestore (ECall R_module_block)) (ECall R_Star)))))))))
  (* 217 *)
  | R_module_block =>
      (ERule R_module_block (ESeq (EThen (EThen (EThen (EThen (EThen (EThen (EThen (EThen (EStr (lit
      "{")) ESkip) (ECall R_module_tuple)) ESkip) (ESeq (EOpt (EThen (ERestore (ESeq (EThen (EThen
      (EOpt (ECall R_comma_or_semi)) ESkip) (ECall R_module_tuple)))) (ERep (ESeq (EThen ESkip
      (ERestore (ESeq (EThen (EThen (EOpt (ECall R_comma_or_semi)) ESkip) (ECall
      R_module_tuple))))))))))) ESkip) (EOpt (ECall R_comma_or_semi))) ESkip) (EStr (lit "}")))))
  (* 222 *)
  | R_module_tuple =>
      (ERule R_module_tuple (EElse (ERestore (ECall R_use_alias)) (ERestore (ECall
      R_use_module_select))))
  (* 227 *)
  | R_ModuleSplit =>
      (EElse (ECall R_Dot) (ECall R_Proportion))
  (* 232 *)
  | R_As =>
      (ERule R_As (EAtomic Atomic (EStr (lit "as"))))
  (* 237 *)
  | R_controlFlow =>
      (EElse (EElse (ERestore (ECall R_re_control)) (ERestore (ECall R_if_statement))) (ERestore
      (ECall R_for_statement)))
  (* 242 *)
  | R_block =>
      (EAtomic NonAtomic (ERule R_block (ESeq (EThen (EThen (EThen (EThen (EStr (lit "{")) ESkip)
      (ESeq (EThen (EThen (ECall R_statement) ESkip) (ESeq (EOpt (EThen (ERestore (ECall R_statement))
      (ERep (ESeq (EThen ESkip (ERestore (ECall R_statement))))))))))) ESkip) (EStr (lit "}"))))))
  (* 247 *)
  | R_if_statement =>
      (ERule R_if_statement (ESeq (EThen (EThen (EThen (EThen (EStr (lit "if")) ESkip) (EElse
      (ERestore (ESeq (EThen (EThen (EThen (EThen (EStr (lit "(")) ESkip) (ECall R_expr)) ESkip) (EStr
      (lit ")"))))) (ERestore (ECall R_expr)))) ESkip) (EElse (ERestore (ESeq (EThen (EThen (EThen
      (EThen (EThen (EThen (EStr (lit "then")) ESkip) (ECall R_block)) ESkip) (EOpt (ERestore (ESeq
      (EThen (EThen (EStr (lit "else")) ESkip) (ECall R_block)))))) ESkip) (EOpt (ERestore (ESeq
      (EThen (EThen (EStr (lit "otherwise")) ESkip) (ECall R_block)))))))) (ERestore (ESeq (EThen
      (EThen (EThen (EThen (EThen (EThen (EThen (EThen (EThen (EThen (EStr (lit "{")) ESkip) (ECall
      R_statement)) ESkip) (EOpt (ERestore (ESeq (EThen (EThen (ECall R_Comma) ESkip) (ECall
      R_statement)))))) ESkip) (EOpt (ERestore (ESeq (EThen (EThen (ECall R_Comma) ESkip) (ECall
      R_statement)))))) ESkip) (EOpt (ECall R_Comma))) ESkip) (EStr (lit "}")))))))))
  (* 252 *)
  | R_for_statement =>
      (ERule R_for_statement (ESeq (EThen (EThen (EStr (lit "for")) ESkip) (ECall R_for_in_loop))))
  (* 257 *)
  | R_for_in_loop =>
      (ERule R_for_in_loop (ESeq (EThen (EThen (EThen (EThen (EThen (EThen (ECall R_SYMBOL) ESkip)
      (EStr (lit "in"))) ESkip) (ECall R_expr)) ESkip) (ECall R_block))))
  (* 262 *)
  | R_re_control =>
      (ERule R_re_control (EElse (EElse (ERestore (ESeq (EThen (EThen (ECall R_Return) ESkip) (ECall
      R_expr)))) (ECall R_Break)) (ECall R_Pass)))
  (* 267 *)
  | R_Return =>
      (ERule R_Return (EAtomic Atomic (EStr (lit "return"))))
  (* 272 *)
  | R_Yield =>
      (ERule R_Yield (EAtomic Atomic (EStr (lit "yield"))))
  (* 277 *)
  | R_Break =>
      (ERule R_Break (EAtomic Atomic (EStr (lit "break"))))
  (* 282 *)
  | R_Pass =>
      (ERule R_Pass (EAtomic Atomic (EStr (lit "pass"))))
  (* 287 *)
  | R_Type =>
      (ERule R_Type (EAtomic Atomic (EStr (lit "type"))))
  (* 292 *)
  | R_classStatement =>
      (ERule R_classStatement (ESeq (EThen (EThen (EThen (EThen (EStr (lit "class")) ESkip) (ECall
      R_assign_pair)) ESkip) (EOpt (ERestore (ECall R_short_block))))))
  (* 297 *)
  | R_traitStatement =>
      (ERule R_traitStatement (ESeq (EThen (EThen (EThen (EThen (EStr (lit "trait")) ESkip) (ECall
      R_assign_pair)) ESkip) (EOpt (ERestore (ECall R_short_block))))))
  (* 302 *)
  | R_short_block =>
      (ERule R_short_block (ESeq (EThen (EThen (EThen (EThen (EStr (lit "{")) ESkip) (ESeq (EOpt
      (EThen (ERestore (ECall R_short_statement)) (ERep (ESeq (EThen ESkip (ERestore (ECall
      R_short_statement))))))))) ESkip) (EStr (lit "}")))))
  (* 307 *)
  | R_short_statement =>
      (ERule R_short_statement (EElse (EElse (EElse (ECall R_emptyStatement) (ERestore (ESeq (EThen
      (EThen (EThen (EThen (EOpt (EStr (lit "def"))) ESkip) (ECall R_define_terms)) ESkip) (EOpt
      (ECall R_eos)))))) (ERestore (ESeq (EThen (EThen (EThen (EThen (EOpt (EStr (lit "let"))) ESkip)
      (ECall R_assign_terms)) ESkip) (EOpt (ECall R_eos)))))) (ERestore (ESeq (EThen (EThen (ECall
      R_short_annotation) ESkip) (EOpt (ECall R_eos)))))))
  (* 312 *)
  | R_short_annotation =>
      (ERule R_short_annotation (ESeq (EThen (EThen (ESeq (EThen (EThen (ECall R_annotation_call)
      ESkip) (ESeq (EOpt (EThen (ERestore (ECall R_annotation_call)) (ERep (ESeq (EThen ESkip
      (ERestore (ECall R_annotation_call)))))))))) ESkip) (ECall R_short_statement))))
  (* 317 *)
  | R_extendStatement =>
      (ERule R_extendStatement (ESeq (EThen (EThen (EThen (EThen (EThen (EThen (EStr (lit "extends"))
      ESkip) (ECall R_Symbol)) ESkip) (EOpt (ECall R_with_trait))) ESkip) (ECall R_short_block))))
  (* 322 *)
  | R_with_trait =>
      (ERule R_with_trait (ESeq (EThen (EThen (EStr (lit "with")) ESkip) (ECall R_Symbol))))
  (* 327 *)
  | R_assignStatement =>
      (ERule R_assignStatement (ESeq (EThen (EThen (EStr (lit "let")) ESkip) (ECall R_assign_terms))))
  (* 332 *)
  | R_assign_terms =>
      (EElse (ESeq (EThen (EThen (EThen (EThen (EThen (EThen (EThen (EThen (EStr (lit "(")) ESkip)
      (ECall R_assign_name)) ESkip) (EStr (lit ")"))) ESkip) (EOpt (ERestore (ECall R_type_hint))))
      ESkip) (EOpt (ERestore (ECall R_block_or_stmt))))) (ESeq (EThen (EThen (EThen (EThen (ECall
      R_assign_name) ESkip) (EOpt (ERestore (ECall R_type_hint)))) ESkip) (EOpt (ERestore (ECall
      R_block_or_stmt))))))
  (* 337 *)
  | R_assign_name =>
      (ESeq (EThen (EThen (EThen (EThen (ECall R_assign_pair) ESkip) (ESeq (EOpt (EThen (ESeq (EThen
      (EThen (ECall R_Comma) ESkip) (ECall R_assign_pair))) (ERep (ESeq (EThen ESkip (ESeq (EThen
      (EThen (ECall R_Comma) ESkip) (ECall R_assign_pair)))))))))) ESkip) (EOpt (ECall R_Comma))))
  (* 342 *)
  | R_assign_pair =>
      (ERule R_assign_pair (ECall R_Symbol))
  (* 347 *)
  | R_defineStatement =>
      (ERule R_defineStatement (ESeq (EThen (EThen (EStr (lit "def")) ESkip) (ECall R_define_terms))))
  (* 352 *)
  | R_define_terms =>
      (ESeq (EThen (EThen (EThen (EThen (EThen (EThen (ECall R_assign_pair) ESkip) (ECall
      R_define_parameter)) ESkip) (EOpt (ERestore (ECall R_type_hint)))) ESkip) (EOpt (ERestore (ECall
      R_block_or_stmt)))))
  (* 357 *)
  | R_define_parameter =>
      (ERule R_define_parameter (ESeq (EThen (EThen (EStr (lit "(")) ESkip) (EElse (ERestore (ESeq
      (EThen (EThen (EThen (EThen (EThen (EThen (ECall R_define_pair) ESkip) (ESeq (EOpt (EThen
      (ERestore (ESeq (EThen (EThen (ECall R_Comma) ESkip) (ECall R_define_pair)))) (ERep (ESeq (EThen
      ESkip (ERestore (ESeq (EThen (EThen (ECall R_Comma) ESkip) (ECall R_define_pair)))))))))))
      ESkip) (EOpt (ECall R_Comma))) ESkip) (EStr (lit ")"))))) (EStr (lit ")"))))))
  (* 362 *)
  | R_define_pair =>
      (ERule R_define_pair (ESeq (EThen (EThen (EThen (EThen (ECall R_SYMBOL) ESkip) (EOpt (ERestore
      (ECall R_type_hint)))) ESkip) (EOpt (ERestore (ESeq (EThen (EThen (ECall R_Set) ESkip) (ECall
      R_expr))))))))
  (* 367 *)
  | R_annotation =>
      (ERule R_annotation (ESeq (EThen (EThen (ESeq (EThen (EThen (ECall R_annotation_call) ESkip)
      (ESeq (EOpt (EThen (ERestore (ECall R_annotation_call)) (ERep (ESeq (EThen ESkip (ERestore
      (ECall R_annotation_call)))))))))) ESkip) (ECall R_statement))))
  (* 372 *)
  | R_annotation_call =>
      (ERule R_annotation_call (EAtomic Atomic (ESeq (EThen (ECall R_At) (EElse (EElse (ERestore
      (ECall R_list)) (ERestore (ECall R_apply))) (ECall R_Symbol))))))
  (* 377 *)
  | R_apply =>
      (EAtomic NonAtomic (ERule R_apply (ESeq (EThen (EThen (EThen (EThen (EThen (EThen (EThen (EThen
      (EStr (lit "(")) ESkip) (EOpt (ERestore (ECall R_apply_kv)))) ESkip) (ESeq (EOpt (EThen
      (ERestore (ESeq (EThen (EThen (ECall R_Comma) ESkip) (ECall R_apply_kv)))) (ERep (ESeq (EThen
      ESkip (ERestore (ESeq (EThen (EThen (ECall R_Comma) ESkip) (ECall R_apply_kv))))))))))) ESkip)
      (EOpt (ECall R_Comma))) ESkip) (EStr (lit ")"))))))
  (* 382 *)
  | R_apply_kv =>
      (ERule R_apply_kv (EElse (ERestore (ESeq (EThen (EThen (EThen (EThen (ECall R_SYMBOL) ESkip)
      (ECall R_Colon)) ESkip) (ECall R_expr)))) (ERestore (ECall R_expr))))
  (* 387 *)
  | R_function_name =>
      (ERule R_function_name (ECall R_SYMBOL))
  (* 392 *)
  | R_function_module =>
      (ERule R_function_module (ESeq (EThen (EThen (ECall R_Dot) ESkip) (ESeq (EOpt (EThen (ESeq
      (EThen (EThen (ECall R_SYMBOL) ESkip) (ECall R_Dot))) (ERep (ESeq (EThen ESkip (ESeq (EThen
      (EThen (ECall R_SYMBOL) ESkip) (ECall R_Dot))))))))))))
  (* 397 *)
  | R_expression =>
      (ERule R_expression (ESeq (EThen (EThen (ECall R_expr) ESkip) (EOpt (ECall R_eos)))))
  (* 402 *)
  | R_expr =>
      (EAtomic NonAtomic (ERule R_expr (ESeq (EThen (EThen (ECall R_term) ESkip) (ESeq (EOpt (EThen
      (ERestore (ESeq (EThen (EThen (ECall R_Infix) ESkip) (ECall R_term)))) (ERep (ESeq (EThen ESkip
      (ERestore (ESeq (EThen (EThen (ECall R_Infix) ESkip) (ECall R_term))))))))))))))
  (* 407 *)
  | R_term =>
      (EAtomic CompoundAtomic (ERule R_term (ESeq (EThen (EThen (ERep (ECall R_Prefix)) (ECall
      R_node)) (ERep (EElse (ECall R_Suffix) (ERestore (ESeq (EThen (ERep (ESeq (EThen (ENot (ECall
      R_NEWLINE)) (ECall R_WHITESPACE)))) (ECall R_slice))))))))))
  (* 412 *)
  | R_node =>
      (ERule R_node (EElse (EElse (EElse (EElse (ERestore (ESeq (EThen (EThen (EThen (EThen (EStr (lit
      "(")) ESkip) (ECall R_expr)) ESkip) (EStr (lit ")"))))) (ERestore (ECall R_apply_call)))
      (ERestore (ECall R_derivative))) (ERestore (ECall R_space_call))) (ERestore (ECall R_data))))
  (* 417 *)
  | R_apply_call =>
      (EAtomic CompoundAtomic (ERule R_apply_call (ESeq (EThen (EThen (ECall R_Symbol) (ESeq (EThen
      (ERep (ESeq (EThen (ENot (ECall R_NEWLINE)) (ECall R_WHITESPACE)))) (ECall R_apply)))) (ERep
      (ERestore (ESeq (EThen (ERep (ESeq (EThen (ENot (ECall R_NEWLINE)) (ECall R_WHITESPACE))))
      (ECall R_apply)))))))))
  (* 422 *)
  | R_derivative =>
      (EAtomic CompoundAtomic (ERule R_derivative (ESeq (EThen (EThen (EThen (ECall R_Symbol) (ECall
      R_Derivative)) (ERep (ESeq (EThen (ENot (ECall R_NEWLINE)) (ECall R_WHITESPACE))))) (ECall
      R_apply)))))
  (* 427 *)
  | R_space_call =>
      (EAtomic CompoundAtomic (ERule R_space_call (ESeq (EThen (EThen (EElse (EElse (ERestore (ECall
      R_apply_call)) (ECall R_Number)) (ECall R_Symbol)) (ESeq (EThen (ERep (ESeq (EThen (ENot (ECall
      R_NEWLINE)) (ECall R_WHITESPACE)))) (EElse (EElse (ERestore (ECall R_apply_call)) (ECall
      R_Number)) (ECall R_Symbol))))) (ERep (ESeq (EThen (ERep (ESeq (EThen (ENot (ECall R_NEWLINE))
      (ECall R_WHITESPACE)))) (EElse (EElse (ERestore (ECall R_apply_call)) (ECall R_Number)) (ECall
      R_Symbol)))))))))
  (* 432 *)
  | R_type_expr =>
      (ESeq (EThen (EThen (ECall R_term) ESkip) (ESeq (EOpt (EThen (ERestore (ESeq (EThen (EThen
      (ECall R_TypeInfix) ESkip) (ECall R_term)))) (ERep (ESeq (EThen ESkip (ERestore (ESeq (EThen
      (EThen (ECall R_TypeInfix) ESkip) (ECall R_term))))))))))))
  (* 437 *)
  | R_type_hint =>
      (ERule R_type_hint (ESeq (EThen (EThen (ECall R_Colon) ESkip) (ECall R_type_expr))))
  (* 442 *)
  | R_TypeInfix =>
      (ERule R_TypeInfix (EAtomic Atomic (ECall R_Or)))
  (* 447 *)
  | R_data =>
      (EAtomic CompoundAtomic (ERule R_data (EElse (EElse (EElse (EElse (EElse (EElse (EElse (ERestore
      (ECall R_dict)) (ERestore (ECall R_list))) (ECall R_Special)) (ECall R_REPL)) (ECall R_Slot))
      (ECall R_Number)) (ERestore (ECall R_String))) (ECall R_Symbol))))
  (* 452 *)
  | R_dict =>
      (EAtomic NonAtomic (ERule R_dict (ESeq (EThen (EThen (EStr (lit "{")) ESkip) (EElse (EStr (lit
      "}")) (ERestore (ESeq (EThen (EThen (EThen (EThen (EThen (EThen (ECall R_key_value) ESkip) (ESeq
      (EOpt (EThen (ERestore (ESeq (EThen (EThen (ECall R_Comma) ESkip) (ECall R_key_value)))) (ERep
      (ESeq (EThen ESkip (ERestore (ESeq (EThen (EThen (ECall R_Comma) ESkip) (ECall
      R_key_value))))))))))) ESkip) (EOpt (ECall R_Comma))) ESkip) (EStr (lit "}"))))))))))
  (* 457 *)
  | R_list =>
      (EAtomic NonAtomic (ERule R_list (ESeq (EThen (EThen (EStr (lit "[")) ESkip) (EElse (EStr (lit
      "]")) (ERestore (ESeq (EThen (EThen (EThen (EThen (EThen (EThen (ECall R_expr) ESkip) (ESeq
      (EOpt (EThen (ERestore (ESeq (EThen (EThen (ECall R_Comma) ESkip) (ECall R_expr)))) (ERep (ESeq
      (EThen ESkip (ERestore (ESeq (EThen (EThen (ECall R_Comma) ESkip) (ECall R_expr)))))))))))
      ESkip) (EOpt (ECall R_Comma))) ESkip) (EStr (lit "]"))))))))))
  (* 462 *)
  | R_slice =>
      (EAtomic NonAtomic (ERule R_slice (ESeq (EThen (EThen (EThen (EThen (EThen (EThen (EThen (EThen
      (EStr (lit "[")) ESkip) (ECall R_index)) ESkip) (ESeq (EOpt (EThen (ERestore (ESeq (EThen (EThen
      (ECall R_Comma) ESkip) (ECall R_index)))) (ERep (ESeq (EThen ESkip (ERestore (ESeq (EThen (EThen
      (ECall R_Comma) ESkip) (ECall R_index))))))))))) ESkip) (EOpt (ECall R_Comma))) ESkip) (EStr
      (lit "]"))))))
  (* 467 *)
  | R_key_valid =>
      (EAtomic NonAtomic (ERule R_key_valid (EElse (EElse (ECall R_Integer) (ECall R_SYMBOL))
      (ERestore (ECall R_String)))))
  (* 472 *)
  | R_key_value =>
      (EAtomic NonAtomic (ERule R_key_value (ESeq (EThen (EThen (EThen (EThen (ECall R_key_valid)
      ESkip) (ECall R_Colon)) ESkip) (ECall R_expr)))))
  (* 477 *)
  | R_index =>
      (ERule R_index (EElse (EElse (ESeq (EThen (EThen (EThen (EThen (EThen (EThen (EThen (EThen (EOpt
      (ERestore (ECall R_Start))) ESkip) (ECall R_Colon)) ESkip) (EOpt (ERestore (ECall R_End))))
      ESkip) (ECall R_Colon)) ESkip) (EOpt (ERestore (ECall R_Step))))) (ESeq (EThen (EThen (EThen
      (EThen (EOpt (ERestore (ECall R_Start))) ESkip) (ECall R_Colon)) ESkip) (EOpt (ERestore (ECall
      R_End)))))) (ERestore (ECall R_expr))))
  (* 482 *)
  | R_Start =>
      (ERule R_Start (ECall R_expr))
  (* 487 *)
  | R_End =>
      (ERule R_End (ECall R_expr))
  (* 492 *)
  | R_Step =>
      (ERule R_Step (ECall R_expr))
  (* 497 *)
  | R_Number =>
      (EElse (EElse (ECall R_Byte) (ECall R_Decimal)) (ECall R_Integer))
  (* 502 *)
  | R_Decimal =>
      (EAtomic CompoundAtomic (ERule R_Decimal (ESeq (EThen (EThen (ECall R_Integer) (ECall R_Dot))
      (ECall R_Integer)))))
  (* 507 *)
  | R_Integer =>
      (ERule R_Integer (EAtomic Atomic (EElse (EStr (lit "0")) (ECall R_Positive))))
  (* 512 *)
  | R_Byte =>
      (EAtomic CompoundAtomic (ERule R_Byte (EElse (EElse (ESeq (EThen (EThen (EInsens (lit "0b"))
      (ESeq (EThen (EOpt (ECall R_Underline)) (ECall R_ASCII_BIN_DIGIT)))) (ERep (ESeq (EThen (EOpt
      (ECall R_Underline)) (ECall R_ASCII_BIN_DIGIT)))))) (ESeq (EThen (EThen (EInsens (lit "0o"))
      (ESeq (EThen (EOpt (ECall R_Underline)) (ECall R_ASCII_OCT_DIGIT)))) (ERep (ESeq (EThen (EOpt
      (ECall R_Underline)) (ECall R_ASCII_OCT_DIGIT))))))) (ESeq (EThen (EThen (EInsens (lit "0x"))
      (ESeq (EThen (EOpt (ECall R_Underline)) (ECall R_ASCII_HEX_DIGIT)))) (ERep (ESeq (EThen (EOpt
      (ECall R_Underline)) (ECall R_ASCII_HEX_DIGIT)))))))))
  (* 517 *)
  | R_String =>
      (EAtomic CompoundAtomic (ERule R_String (ESeq (EThen (EOpt (ECall R_SYMBOL)) (EElse (ERestore
      (ECall R_StringBlock)) (ECall R_StringNormal))))))
  (* 522 *)
  | R_StringNormal =>
      (ERule R_StringNormal (EAtomic Atomic (ESeq (EThen (EThen (ECall R_Quotation) (ERep (EElse (ESeq
      (EThen (ECall R_Escape) (EElse (ECall R_Quotation) (ECall R_Escape)))) (ESeq (EThen (ENot (ECall
      R_Quotation)) (ECall R_ANY)))))) (ECall R_Quotation)))))
  (* 527 *)
  | R_StringBlock =>
      (EAtomic CompoundAtomic (ERule R_StringBlock (ESeq (EThen (EThen (EThen (EThen (EThen (EThen
      (ESeq (EThen (EThen (ECall R_Quotation) (ECall R_Quotation)) (ECall R_Quotation))) (EPush (ERep
      (ECall R_Quotation)))) (ECall R_StringText)) (ECall R_POP)) (ECall R_Quotation)) (ECall
      R_Quotation)) (ECall R_Quotation)))))
  (* 532 *)
  | R_StringText =>
      (ERule R_StringText (EAtomic Atomic (ESeq (EThen (ESeq (EThen (ENot (ESeq (EThen (ESeq (EThen
      (EThen (ECall R_Quotation) (ECall R_Quotation)) (ECall R_Quotation))) (ECall R_PEEK)))) (ECall
      R_ANY))) (ERep (ESeq (EThen (ENot (ESeq (EThen (ESeq (EThen (EThen (ECall R_Quotation) (ECall
      R_Quotation)) (ECall R_Quotation))) (ECall R_PEEK)))) (ECall R_ANY))))))))
  (* 537 *)
  | R_Symbol =>
      (EAtomic CompoundAtomic (ERule R_Symbol (ESeq (EThen (ECall R_SYMBOL) (ERep (ESeq (EThen (ECall
      R_Proportion) (ECall R_SYMBOL))))))))
  (* 542 *)
  | R_SYMBOL =>
      (ERule R_SYMBOL (EAtomic Atomic (EElse (ESeq (EThen (ECall R_XID_START) (ERep (ECall
      R_XID_CONTINUE)))) (ESeq (EThen (EThen (ECall R_Underline) (ECall R_XID_CONTINUE)) (ERep (ECall
      R_XID_CONTINUE)))))))
  (* 547 *)
  | R_Special =>
      (ERule R_Special (EAtomic Atomic (EElse (EElse (EStr (lit "null")) (EStr (lit "true"))) (EStr
      (lit "false")))))
  (* 552 *)
  | R_Slot =>
      (EAtomic CompoundAtomic (ERule R_Slot (EElse (ESeq (EThen (EStr (lit "##")) (EOpt (ECall
      R_Positive)))) (ESeq (EThen (EStr (lit "#")) (EOpt (EElse (ECall R_SYMBOL) (ECall
      R_Integer))))))))
  (* 557 *)
  | R_REPL =>
      (ERule R_REPL (EAtomic Atomic (EElse (EElse (ESeq (EThen (EStr ([182%N])) (ECall R_Positive)))
      (ESeq (EThen (EStr ([182%N])) (ERep (EStr ([182%N])))))) (ESeq (EThen (EStr ([8267%N])) (EElse
      (ECall R_Positive) (ERep (EStr ([8267%N])))))))))
  (* 562 *)
  | R_Positive =>
      (ERule R_Positive (EAtomic Atomic (ESeq (EThen (ECall R_ASCII_NONZERO_DIGIT) (ERep (ECall
      R_ASCII_DIGIT))))))
  (* 567 *)
  | R_WHITESPACE =>
      (EAtomic Atomic (EElse (ECall R_NEWLINE) (ECall R_WHITE_SPACE)))
  (* 572 *)
  | R_COMMENT =>
      (EAtomic Atomic (EElse (EElse (EElse (EElse (ECall R_MultiLineComment) (ESeq (EThen (EStr (lit
      "///")) (ERep (ESeq (EThen (ENot (ECall R_NEWLINE)) (ECall R_ANY))))))) (ESeq (EThen (EStr (lit
      "//?")) (ERep (ESeq (EThen (ENot (ECall R_NEWLINE)) (ECall R_ANY))))))) (ESeq (EThen (EStr (lit
      "//!")) (ERep (ESeq (EThen (ENot (ECall R_NEWLINE)) (ECall R_ANY))))))) (ESeq (EThen (EStr (lit
      "//*")) (ERep (ESeq (EThen (ENot (ECall R_NEWLINE)) (ECall R_ANY))))))))
  (* 577 *)
  | R_MultiLineComment =>
      (EAtomic CompoundAtomic (ERule R_MultiLineComment (ESeq (EThen (EThen (EStr (lit "%%%")) (ERep
      (EElse (ECall R_MultiLineComment) (ESeq (EThen (ENot (EStr (lit "%%%"))) (ECall R_ANY))))))
      (EStr (lit "%%%"))))))
  (* 582 *)
  | R_Prefix =>
      (ERule R_Prefix (EAtomic Atomic (EElse (EElse (EElse (EElse (ECall R_Bang) (ECall R_Not)) (ECall
      R_Plus)) (ECall R_Minus)) (ECall R_Star))))
  (* 587 *)
  | R_Suffix =>
      (ERule R_Suffix (EAtomic Atomic (EElse (EElse (EElse (ECall R_Derivative) (ECall R_DoubleBang))
      (ECall R_Bang)) (ECall R_Question))))
  (* 592 *)
  | R_Infix =>
      (EElse (EElse (EElse (EElse (EElse (EElse (EElse (EElse (EElse (EElse (EElse (EElse (EElse
      (EElse (ECall R_Set) (ECall R_Plus)) (ECall R_Minus)) (ECall R_Multiply)) (ECall R_CenterDot))
      (ECall R_Kronecker)) (ECall R_TensorProduct)) (ECall R_Divide)) (ECall R_Quotient)) (ECall
      R_Modulo)) (ECall R_Power)) (ECall R_Grater)) (ECall R_GraterEqual)) (ECall R_Equal)) (ECall
      R_Dot))
  (* 597 *)
  | R_Set =>
      (ERule R_Set (EAtomic Atomic (EStr (lit "="))))
  (* 602 *)
  | R_Derivative =>
      (ERule R_Derivative (EAtomic Atomic (ESeq (EThen (EStr (lit "'")) (ERep (EStr (lit "'")))))))
  (* 607 *)
  | R_Or =>
      (ERule R_Or (EAtomic Atomic (EStr (lit "|"))))
  (* 612 *)
  | R_LazyOr =>
      (ERule R_LazyOr (EAtomic Atomic (EStr (lit "||"))))
  (* 617 *)
  | R_Star =>
      (ERule R_Star (EAtomic Atomic (EStr (lit "*"))))
  (* 622 *)
  | R_Slash =>
      (ERule R_Slash (EAtomic Atomic (EStr (lit "/"))))
  (* 627 *)
  | R_Escape =>
      (ERule R_Escape (EAtomic Atomic (EStr (lit "\"))))
  (* 632 *)
  | R_Proportion =>
      (ERule R_Proportion (EAtomic Atomic (EElse (EStr (lit "::")) (EStr ([8759%N])))))
  (* 637 *)
  | R_Comma =>
      (ERule R_Comma (EAtomic Atomic (EElse (EStr (lit ",")) (EStr ([65292%N])))))
  (* 642 *)
  | R_Dot =>
      (ERule R_Dot (EAtomic Atomic (EStr (lit "."))))
  (* 647 *)
  | R_Separate =>
      (ERule R_Separate (EAtomic Atomic (EStr (lit ";;"))))
  (* 652 *)
  | R_Semicolon =>
      (ERule R_Semicolon (EAtomic Atomic (EElse (EStr (lit ";")) (EStr ([65307%N])))))
  (* 657 *)
  | R_Colon =>
      (ERule R_Colon (EAtomic Atomic (EElse (EStr (lit ":")) (EStr ([65306%N])))))
  (* 662 *)
  | R_Question =>
      (ERule R_Question (EAtomic Atomic (EStr (lit "?"))))
  (* 667 *)
  | R_Underline =>
      (ERule R_Underline (EAtomic Atomic (EStr (lit "_"))))
  (* 672 *)
  | R_Load =>
      (ERule R_Load (EAtomic Atomic (EElse (EStr (lit "<<<")) (EStr ([8920%N])))))
  (* 677 *)
  | R_Save =>
      (ERule R_Save (EAtomic Atomic (EElse (EStr (lit ">>>")) (EStr ([8921%N])))))
  (* 682 *)
  | R_LeftShift =>
      (ERule R_LeftShift (EAtomic Atomic (EElse (EStr (lit "<<")) (EStr ([8810%N])))))
  (* 687 *)
  | R_RightShift =>
      (ERule R_RightShift (EAtomic Atomic (EElse (EStr (lit ">>")) (EStr ([8811%N])))))
  (* 692 *)
  | R_LessEqual =>
      (ERule R_LessEqual (EAtomic Atomic (EStr (lit "<="))))
  (* 697 *)
  | R_GraterEqual =>
      (ERule R_GraterEqual (EAtomic Atomic (EStr (lit ">="))))
  (* 702 *)
  | R_Less =>
      (ERule R_Less (EAtomic Atomic (EStr (lit "<"))))
  (* 707 *)
  | R_Grater =>
      (ERule R_Grater (EAtomic Atomic (EStr (lit ">"))))
  (* 712 *)
  | R_Pipeline =>
      (ERule R_Pipeline (EAtomic Atomic (EStr (lit "|>"))))
  (* 717 *)
  | R_Equivalent =>
      (ERule R_Equivalent (EAtomic Atomic (EStr (lit "==="))))
  (* 722 *)
  | R_NotEquivalent =>
      (ERule R_NotEquivalent (EAtomic Atomic (EStr (lit "=!="))))
  (* 727 *)
  | R_Equal =>
      (ERule R_Equal (EAtomic Atomic (EStr (lit "=="))))
  (* 732 *)
  | R_NotEqual =>
      (ERule R_NotEqual (EAtomic Atomic (EElse (EStr (lit "!=")) (EStr ([8800%N])))))
  (* 737 *)
  | R_Plus =>
      (ERule R_Plus (EAtomic Atomic (EStr (lit "+"))))
  (* 742 *)
  | R_Minus =>
      (ERule R_Minus (EAtomic Atomic (EStr (lit "-"))))
  (* 747 *)
  | R_Multiply =>
      (ERule R_Multiply (EAtomic Atomic (EElse (ECall R_Star) (EStr ([215%N])))))
  (* 752 *)
  | R_CenterDot =>
      (ERule R_CenterDot (EAtomic Atomic (EStr ([8901%N]))))
  (* 757 *)
  | R_Kronecker =>
      (ERule R_Kronecker (EAtomic Atomic (EStr ([8855%N]))))
  (* 762 *)
  | R_TensorProduct =>
      (ERule R_TensorProduct (EAtomic Atomic (EStr ([8857%N]))))
  (* 767 *)
  | R_Divide =>
      (ERule R_Divide (EAtomic Atomic (EElse (ECall R_Slash) (EStr ([247%N])))))
  (* 772 *)
  | R_Quotient =>
      (ERule R_Quotient (EAtomic Atomic (EStr (lit "//"))))
  (* 777 *)
  | R_Modulo =>
      (ERule R_Modulo (EAtomic Atomic (EStr (lit "%"))))
  (* 782 *)
  | R_Remainder =>
      (ERule R_Remainder (EAtomic Atomic (EStr ([8274%N]))))
  (* 787 *)
  | R_Power =>
      (ERule R_Power (EAtomic Atomic (EStr (lit "^"))))
  (* 792 *)
  | R_Surd =>
      (ERule R_Surd (EAtomic Atomic (EStr ([8730%N]))))
  (* 797 *)
  | R_Increase =>
      (ERule R_Increase (EAtomic Atomic (EStr (lit "++"))))
  (* 802 *)
  | R_Decrease =>
      (ERule R_Decrease (EAtomic Atomic (EStr (lit "--"))))
  (* 807 *)
  | R_To =>
      (ERule R_To (EAtomic Atomic (EStr (lit "->"))))
  (* 812 *)
  | R_Elvis =>
      (ERule R_Elvis (EAtomic Atomic (EStr (lit ":?"))))
  (* 817 *)
  | R_Map =>
      (ERule R_Map (EAtomic Atomic (EStr (lit "/@"))))
  (* 822 *)
  | R_Quote =>
      (ERule R_Quote (EAtomic Atomic (EStr (lit "`"))))
  (* 827 *)
  | R_Acute =>
      (ERule R_Acute (EAtomic Atomic (EStr ([180%N]))))
  (* 832 *)
  | R_Apostrophe =>
      (ERule R_Apostrophe (EAtomic Atomic (EStr (lit "'"))))
  (* 837 *)
  | R_Quotation =>
      (ERule R_Quotation (EAtomic Atomic (EStr ([34%N]))))
  (* 842 *)
  | R_LogicOr =>
      (ERule R_LogicOr (EAtomic Atomic (EElse (EStr (lit "||")) (EStr ([8743%N])))))
  (* 847 *)
  | R_LogicAnd =>
      (ERule R_LogicAnd (EAtomic Atomic (EElse (EStr (lit "&&")) (EStr ([8744%N])))))
  (* 852 *)
  | R_LogicNot =>
      (ERule R_LogicNot (EAtomic Atomic (EStr ([172%N]))))
  (* 857 *)
  | R_Ellipsis =>
      (ERule R_Ellipsis (EAtomic Atomic (EElse (EStr (lit "...")) (EStr ([8230%N])))))
  (* 862 *)
  | R_LogicXor =>
      (ERule R_LogicXor (EAtomic Atomic (EStr ([8853%N]))))
  (* 867 *)
  | R_MapAll =>
      (ERule R_MapAll (EAtomic Atomic (EStr (lit "//@"))))
  (* 872 *)
  | R_Concat =>
      (ERule R_Concat (EAtomic Atomic (EStr (lit "~~"))))
  (* 877 *)
  | R_Destruct =>
      (ERule R_Destruct (EAtomic Atomic (EStr (lit "~="))))
  (* 882 *)
  | R_DoubleBang =>
      (ERule R_DoubleBang (EAtomic Atomic (EStr (lit "!!"))))
  (* 887 *)
  | R_Bang =>
      (ERule R_Bang (EAtomic Atomic (EStr (lit "!"))))
  (* 892 *)
  | R_Not =>
      (ERule R_Not (EAtomic Atomic (EStr ([172%N]))))
  (* 897 *)
  | R_Sharp =>
      (ERule R_Sharp (EAtomic Atomic (EStr (lit "#"))))
  (* 902 *)
  | R_Curry =>
      (ERule R_Curry (EAtomic Atomic (EStr (lit "@@@"))))
  (* 907 *)
  | R_Apply =>
      (ERule R_Apply (EAtomic Atomic (EStr (lit "@@"))))
  (* 912 *)
  | R_At =>
      (ERule R_At (EAtomic Atomic (EStr (lit "@"))))
  (* 917 *)
  | R_ANY =>
      EAny
  (* 922 *)
  | R_EOI =>
      (ERule R_EOI EEoi)
  (* 927 *)
  | R_SOI =>
      ESoi
  (* 932 *)
  | R_PEEK =>
      EPeek
  (* 937 *)
  | R_POP =>
      EPop
  (* 942 *)
  | R_ASCII_DIGIT =>
      (ERange 48%N 57%N)
  (* 947 *)
  | R_ASCII_NONZERO_DIGIT =>
      (ERange 49%N 57%N)
  (* 952 *)
  | R_ASCII_BIN_DIGIT =>
      (ERange 48%N 49%N)
  (* 957 *)
  | R_ASCII_OCT_DIGIT =>
      (ERange 48%N 55%N)
  (* 962 *)
  | R_ASCII_HEX_DIGIT =>
      (EElse (EElse (ERange 48%N 57%N) (ERange 97%N 102%N)) (ERange 65%N 70%N))
  (* 967 *)
  | R_NEWLINE =>
      (EElse (EElse (EStr ([10%N])) (EStr ([13%N; 10%N]))) (EStr ([13%N])))
  (* 972 *)
  | R_WHITE_SPACE =>
      (EClass WhiteSpace)
  (* 977 *)
  | R_XID_CONTINUE =>
      (EClass XidContinue)
  (* 982 *)
  | R_XID_START =>
      (EClass XidStart)
  end.

(** sm_parser.rs:164 [rules::hidden::skip], the NonAtomic branch *)
Definition skip_body : pexp rule :=
      (ESeq (EThen (ERep (ECall R_WHITESPACE)) (ERep (ESeq (EThen (ECall R_COMMENT) (ERep (ECall
      R_WHITESPACE))))))).

(** all functions, for checks over the whole grammar *)
Definition all_rules : list rule :=
  [R_program; R_statement; R_emptyStatement; R_eos; R_comma_or_semi; R_block_or_stmt;
      R_importStatement; R_use_alias; R_use_module_select; R_module_block; R_module_tuple;
      R_ModuleSplit; R_As; R_controlFlow; R_block; R_if_statement; R_for_statement; R_for_in_loop;
      R_re_control; R_Return; R_Yield; R_Break; R_Pass; R_Type; R_classStatement; R_traitStatement;
      R_short_block; R_short_statement; R_short_annotation; R_extendStatement; R_with_trait;
      R_assignStatement; R_assign_terms; R_assign_name; R_assign_pair; R_defineStatement;
      R_define_terms; R_define_parameter; R_define_pair; R_annotation; R_annotation_call; R_apply;
      R_apply_kv; R_function_name; R_function_module; R_expression; R_expr; R_term; R_node;
      R_apply_call; R_derivative; R_space_call; R_type_expr; R_type_hint; R_TypeInfix; R_data; R_dict;
      R_list; R_slice; R_key_valid; R_key_value; R_index; R_Start; R_End; R_Step; R_Number; R_Decimal;
      R_Integer; R_Byte; R_String; R_StringNormal; R_StringBlock; R_StringText; R_Symbol; R_SYMBOL;
      R_Special; R_Slot; R_REPL; R_Positive; R_WHITESPACE; R_COMMENT; R_MultiLineComment; R_Prefix;
      R_Suffix; R_Infix; R_Set; R_Derivative; R_Or; R_LazyOr; R_Star; R_Slash; R_Escape; R_Proportion;
      R_Comma; R_Dot; R_Separate; R_Semicolon; R_Colon; R_Question; R_Underline; R_Load; R_Save;
      R_LeftShift; R_RightShift; R_LessEqual; R_GraterEqual; R_Less; R_Grater; R_Pipeline;
      R_Equivalent; R_NotEquivalent; R_Equal; R_NotEqual; R_Plus; R_Minus; R_Multiply; R_CenterDot;
      R_Kronecker; R_TensorProduct; R_Divide; R_Quotient; R_Modulo; R_Remainder; R_Power; R_Surd;
      R_Increase; R_Decrease; R_To; R_Elvis; R_Map; R_Quote; R_Acute; R_Apostrophe; R_Quotation;
      R_LogicOr; R_LogicAnd; R_LogicNot; R_Ellipsis; R_LogicXor; R_MapAll; R_Concat; R_Destruct;
      R_DoubleBang; R_Bang; R_Not; R_Sharp; R_Curry; R_Apply; R_At; R_ANY; R_EOI; R_SOI; R_PEEK;
      R_POP; R_ASCII_DIGIT; R_ASCII_NONZERO_DIGIT; R_ASCII_BIN_DIGIT; R_ASCII_OCT_DIGIT;
      R_ASCII_HEX_DIGIT; R_NEWLINE; R_WHITE_SPACE; R_XID_CONTINUE; R_XID_START].
Lemma all_rules_complete : forall r, In r all_rules.
Proof. intro r; destruct r; repeat (first [left; reflexivity | right]). Qed.
