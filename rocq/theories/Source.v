(** The grammar projects/sm-parser/simple-math.pest, rule by rule.  This file is
    produced by tools/gen_source.py; the number before a rule is its line. *)
From Verif Require Import Base Grammar SpecPest.

Definition source (r : rule) : definition :=
  match r with
  (* 1 *)
  | R_program => Rule Silent
      (Then (Then (Name R_SOI) (Many (Name R_statement))) (Name R_EOI))
  (* 3 *)
  | R_statement => Rule Silent
      (Or (Or (Or (Or (Or (Or (Or (Or (Or (Name R_emptyStatement) (Then (Name R_importStatement) (Maybe (Name
      R_eos)))) (Then (Name R_classStatement) (Maybe (Name R_eos)))) (Then (Name R_traitStatement) (Maybe (Name
      R_eos)))) (Then (Name R_extendStatement) (Maybe (Name R_eos)))) (Then (Name R_controlFlow) (Maybe (Name
      R_eos)))) (Then (Name R_assignStatement) (Maybe (Name R_eos)))) (Then (Name R_defineStatement) (Maybe (Name
      R_eos)))) (Then (Name R_annotation) (Maybe (Name R_eos)))) (Name R_expression))
  (* 16 *)
  | R_emptyStatement => Rule Plain
      (Or (Name R_eos) (Name R_Separate))
  (* 17 *)
  | R_eos => Rule Plain
      (Name R_Semicolon)
  (* 18 *)
  | R_comma_or_semi => Rule Silent
      (Or (Name R_Comma) (Name R_Semicolon))
  (* 19 *)
  | R_block_or_stmt => Rule Silent
      (Or (Name R_block) (Then (Name R_Set) (Name R_statement)))
  (* 22 *)
  | R_importStatement => Rule Plain
      (Or (Then (Then (Text (lit "using")) (Many (Name R_Dot))) (Name R_use_alias)) (Then (Then (Text (lit "using"))
      (Many (Name R_Dot))) (Name R_use_module_select)))
  (* 26 *)
  | R_use_alias => Rule NonAtomicRule
      (Or (Then (Then (Name R_String) (Name R_As)) (Name R_SYMBOL)) (Then (Then (Then (Name R_SYMBOL) (Many (Then
      (Name R_ModuleSplit) (Name R_SYMBOL)))) (Name R_As)) (Name R_SYMBOL)))
  (* 27 *)
  | R_use_module_select => Rule NonAtomicRule
      (Then (Then (Name R_SYMBOL) (Many (Then (Name R_ModuleSplit) (Name R_SYMBOL)))) (Maybe (Then (Name
      R_ModuleSplit) (Or (Name R_module_block) (Name R_Star)))))
  (* 28 *)
  | R_module_block => Rule Plain
      (Then (Then (Then (Then (Text (lit "{")) (Name R_module_tuple)) (Many (Then (Maybe (Name R_comma_or_semi))
      (Name R_module_tuple)))) (Maybe (Name R_comma_or_semi))) (Text (lit "}")))
  (* 29 *)
  | R_module_tuple => Rule Plain
      (Or (Name R_use_alias) (Name R_use_module_select))
  (* 30 *)
  | R_ModuleSplit => Rule Silent
      (Or (Name R_Dot) (Name R_Proportion))
  (* 32 *)
  | R_As => Rule AtomicRule
      (Text (lit "as"))
  (* 34 *)
  | R_controlFlow => Rule Silent
      (Or (Or (Name R_re_control) (Name R_if_statement)) (Name R_for_statement))
  (* 35 *)
  | R_block => Rule NonAtomicRule
      (Then (Then (Text (lit "{")) (Several (Name R_statement))) (Text (lit "}")))
  (* 37 *)
  | R_if_statement => Rule Plain
      (Then (Then (Text (lit "if")) (Or (Then (Then (Text (lit "(")) (Name R_expr)) (Text (lit ")"))) (Name R_expr)))
      (Or (Then (Then (Then (Text (lit "then")) (Name R_block)) (Maybe (Then (Text (lit "else")) (Name R_block))))
      (Maybe (Then (Text (lit "otherwise")) (Name R_block)))) (Then (Then (Then (Then (Then (Text (lit "{")) (Name
      R_statement)) (Maybe (Then (Name R_Comma) (Name R_statement)))) (Maybe (Then (Name R_Comma) (Name
      R_statement)))) (Maybe (Name R_Comma))) (Text (lit "}")))))
  (* 44 *)
  | R_for_statement => Rule Plain
      (Then (Text (lit "for")) (Name R_for_in_loop))
  (* 45 *)
  | R_for_in_loop => Rule Plain
      (Then (Then (Then (Name R_SYMBOL) (Text (lit "in"))) (Name R_expr)) (Name R_block))
  (* 48 *)
  | R_re_control => Rule Plain
      (Or (Or (Then (Name R_Return) (Name R_expr)) (Name R_Break)) (Name R_Pass))
  (* 55 *)
  | R_Return => Rule AtomicRule
      (Text (lit "return"))
  (* 56 *)
  | R_Yield => Rule AtomicRule
      (Text (lit "yield"))
  (* 57 *)
  | R_Break => Rule AtomicRule
      (Text (lit "break"))
  (* 58 *)
  | R_Pass => Rule AtomicRule
      (Text (lit "pass"))
  (* 61 *)
  | R_Type => Rule AtomicRule
      (Text (lit "type"))
  (* 63 *)
  | R_classStatement => Rule Plain
      (Then (Then (Text (lit "class")) (Name R_assign_pair)) (Maybe (Name R_short_block)))
  (* 64 *)
  | R_traitStatement => Rule Plain
      (Then (Then (Text (lit "trait")) (Name R_assign_pair)) (Maybe (Name R_short_block)))
  (* 66 *)
  | R_short_block => Rule Plain
      (Then (Then (Text (lit "{")) (Many (Name R_short_statement))) (Text (lit "}")))
  (* 67 *)
  | R_short_statement => Rule Plain
      (Or (Or (Or (Name R_emptyStatement) (Then (Then (Maybe (Text (lit "def"))) (Name R_define_terms)) (Maybe (Name
      R_eos)))) (Then (Then (Maybe (Text (lit "let"))) (Name R_assign_terms)) (Maybe (Name R_eos)))) (Then (Name
      R_short_annotation) (Maybe (Name R_eos))))
  (* 73 *)
  | R_short_annotation => Rule Plain
      (Then (Several (Name R_annotation_call)) (Name R_short_statement))
  (* 75 *)
  | R_extendStatement => Rule Plain
      (Then (Then (Then (Text (lit "extends")) (Name R_Symbol)) (Maybe (Name R_with_trait))) (Name R_short_block))
  (* 78 *)
  | R_with_trait => Rule Plain
      (Then (Text (lit "with")) (Name R_Symbol))
  (* 81 *)
  | R_assignStatement => Rule Plain
      (Then (Text (lit "let")) (Name R_assign_terms))
  (* 82 *)
  | R_assign_terms => Rule Silent
      (Or (Then (Then (Then (Then (Text (lit "(")) (Name R_assign_name)) (Text (lit ")"))) (Maybe (Name
      R_type_hint))) (Maybe (Name R_block_or_stmt))) (Then (Then (Name R_assign_name) (Maybe (Name R_type_hint)))
      (Maybe (Name R_block_or_stmt))))
  (* 86 *)
  | R_assign_name => Rule Silent
      (Then (Then (Name R_assign_pair) (Many (Then (Name R_Comma) (Name R_assign_pair)))) (Maybe (Name R_Comma)))
  (* 87 *)
  | R_assign_pair => Rule Plain
      (Name R_Symbol)
  (* 89 *)
  | R_defineStatement => Rule Plain
      (Then (Text (lit "def")) (Name R_define_terms))
  (* 90 *)
  | R_define_terms => Rule Silent
      (Then (Then (Then (Name R_assign_pair) (Name R_define_parameter)) (Maybe (Name R_type_hint))) (Maybe (Name
      R_block_or_stmt)))
  (* 93 *)
  | R_define_parameter => Rule Plain
      (Or (Then (Then (Then (Then (Text (lit "(")) (Name R_define_pair)) (Many (Then (Name R_Comma) (Name
      R_define_pair)))) (Maybe (Name R_Comma))) (Text (lit ")"))) (Then (Text (lit "(")) (Text (lit ")"))))
  (* 97 *)
  | R_define_pair => Rule Plain
      (Then (Then (Name R_SYMBOL) (Maybe (Name R_type_hint))) (Maybe (Then (Name R_Set) (Name R_expr))))
  (* 100 *)
  | R_annotation => Rule Plain
      (Then (Several (Name R_annotation_call)) (Name R_statement))
  (* 101 *)
  | R_annotation_call => Rule AtomicRule
      (Then (Name R_At) (Or (Or (Name R_list) (Name R_apply)) (Name R_Symbol)))
  (* 103 *)
  | R_apply => Rule NonAtomicRule
      (Then (Then (Then (Then (Text (lit "(")) (Maybe (Name R_apply_kv))) (Many (Then (Name R_Comma) (Name
      R_apply_kv)))) (Maybe (Name R_Comma))) (Text (lit ")")))
  (* 106 *)
  | R_apply_kv => Rule Plain
      (Or (Then (Then (Name R_SYMBOL) (Name R_Colon)) (Name R_expr)) (Name R_expr))
  (* 111 *)
  | R_function_name => Rule Plain
      (Name R_SYMBOL)
  (* 112 *)
  | R_function_module => Rule Plain
      (Then (Name R_Dot) (Many (Then (Name R_SYMBOL) (Name R_Dot))))
  (* 114 *)
  | R_expression => Rule Plain
      (Then (Name R_expr) (Maybe (Name R_eos)))
  (* 115 *)
  | R_expr => Rule NonAtomicRule
      (Then (Name R_term) (Many (Then (Name R_Infix) (Name R_term))))
  (* 116 *)
  | R_term => Rule CompoundRule
      (Then (Then (Many (Name R_Prefix)) (Name R_node)) (Many (Or (Name R_Suffix) (Then (Many (Then (Not (Name
      R_NEWLINE)) (Name R_WHITESPACE))) (Name R_slice)))))
  (* 117 *)
  | R_node => Rule Plain
      (Or (Or (Or (Or (Then (Then (Text (lit "(")) (Name R_expr)) (Text (lit ")"))) (Name R_apply_call)) (Name
      R_derivative)) (Name R_space_call)) (Name R_data))
  (* 118 *)
  | R_apply_call => Rule CompoundRule
      (Then (Name R_Symbol) (Several (Then (Many (Then (Not (Name R_NEWLINE)) (Name R_WHITESPACE))) (Name R_apply))))
  (* 119 *)
  | R_derivative => Rule CompoundRule
      (Then (Then (Then (Name R_Symbol) (Name R_Derivative)) (Many (Then (Not (Name R_NEWLINE)) (Name
      R_WHITESPACE)))) (Name R_apply))
  (* 120 *)
  | R_space_call => Rule CompoundRule
      (Then (Or (Or (Name R_apply_call) (Name R_Number)) (Name R_Symbol)) (Several (Then (Many (Then (Not (Name
      R_NEWLINE)) (Name R_WHITESPACE))) (Or (Or (Name R_apply_call) (Name R_Number)) (Name R_Symbol)))))
  (* 123 *)
  | R_type_expr => Rule Silent
      (Then (Name R_term) (Many (Then (Name R_TypeInfix) (Name R_term))))
  (* 126 *)
  | R_type_hint => Rule Plain
      (Then (Name R_Colon) (Name R_type_expr))
  (* 130 *)
  | R_TypeInfix => Rule AtomicRule
      (Name R_Or)
  (* 132 *)
  | R_data => Rule CompoundRule
      (Or (Or (Or (Or (Or (Or (Or (Name R_dict) (Name R_list)) (Name R_Special)) (Name R_REPL)) (Name R_Slot)) (Name
      R_Number)) (Name R_String)) (Name R_Symbol))
  (* 133 *)
  | R_dict => Rule NonAtomicRule
      (Or (Then (Text (lit "{")) (Text (lit "}"))) (Then (Then (Then (Then (Text (lit "{")) (Name R_key_value)) (Many
      (Then (Name R_Comma) (Name R_key_value)))) (Maybe (Name R_Comma))) (Text (lit "}"))))
  (* 134 *)
  | R_list => Rule NonAtomicRule
      (Or (Then (Text (lit "[")) (Text (lit "]"))) (Then (Then (Then (Then (Text (lit "[")) (Name R_expr)) (Many
      (Then (Name R_Comma) (Name R_expr)))) (Maybe (Name R_Comma))) (Text (lit "]"))))
  (* 135 *)
  | R_slice => Rule NonAtomicRule
      (Then (Then (Then (Then (Text (lit "[")) (Name R_index)) (Many (Then (Name R_Comma) (Name R_index)))) (Maybe
      (Name R_Comma))) (Text (lit "]")))
  (* 136 *)
  | R_key_valid => Rule NonAtomicRule
      (Or (Or (Name R_Integer) (Name R_SYMBOL)) (Name R_String))
  (* 137 *)
  | R_key_value => Rule NonAtomicRule
      (Then (Then (Name R_key_valid) (Name R_Colon)) (Name R_expr))
  (* 138 *)
  | R_index => Rule Plain
      (Or (Or (Then (Then (Then (Then (Maybe (Name R_Start)) (Name R_Colon)) (Maybe (Name R_End))) (Name R_Colon))
      (Maybe (Name R_Step))) (Then (Then (Maybe (Name R_Start)) (Name R_Colon)) (Maybe (Name R_End)))) (Name R_expr))
  (* 143 *)
  | R_Start => Rule Plain
      (Name R_expr)
  (* 144 *)
  | R_End => Rule Plain
      (Name R_expr)
  (* 145 *)
  | R_Step => Rule Plain
      (Name R_expr)
  (* 148 *)
  | R_Number => Rule Silent
      (Or (Or (Name R_Byte) (Name R_Decimal)) (Name R_Integer))
  (* 149 *)
  | R_Decimal => Rule CompoundRule
      (Then (Then (Name R_Integer) (Name R_Dot)) (Name R_Integer))
  (* 150 *)
  | R_Integer => Rule AtomicRule
      (Or (Text (lit "0")) (Name R_Positive))
  (* 151 *)
  | R_Byte => Rule CompoundRule
      (Or (Or (Then (AnyCase (lit "0b")) (Several (Then (Maybe (Name R_Underline)) (Name R_ASCII_BIN_DIGIT)))) (Then
      (AnyCase (lit "0o")) (Several (Then (Maybe (Name R_Underline)) (Name R_ASCII_OCT_DIGIT))))) (Then (AnyCase
      (lit "0x")) (Several (Then (Maybe (Name R_Underline)) (Name R_ASCII_HEX_DIGIT)))))
  (* 158 *)
  | R_String => Rule CompoundRule
      (Then (Maybe (Name R_SYMBOL)) (Or (Name R_StringBlock) (Name R_StringNormal)))
  (* 159 *)
  | R_StringNormal => Rule AtomicRule
      (Then (Then (Name R_Quotation) (Many (Or (Then (Name R_Escape) (Or (Name R_Quotation) (Name R_Escape))) (Then
      (Not (Name R_Quotation)) (Name R_ANY))))) (Name R_Quotation))
  (* 160 *)
  | R_StringBlock => Rule CompoundRule
      (Then (Then (Then (Then (Times 3 (Name R_Quotation)) (Push (Many (Name R_Quotation)))) (Name R_StringText))
      (Name R_POP)) (Times 3 (Name R_Quotation)))
  (* 161 *)
  | R_StringText => Rule AtomicRule
      (Several (Then (Not (Then (Times 3 (Name R_Quotation)) (Name R_PEEK))) (Name R_ANY)))
  (* 164 *)
  | R_Symbol => Rule CompoundRule
      (Then (Name R_SYMBOL) (Many (Then (Name R_Proportion) (Name R_SYMBOL))))
  (* 165 *)
  | R_SYMBOL => Rule AtomicRule
      (Or (Then (Name R_XID_START) (Many (Name R_XID_CONTINUE))) (Then (Name R_Underline) (Several (Name
      R_XID_CONTINUE))))
  (* 171 *)
  | R_Special => Rule AtomicRule
      (Or (Or (Text (lit "null")) (Text (lit "true"))) (Text (lit "false")))
  (* 172 *)
  | R_Slot => Rule CompoundRule
      (Or (Then (Text (lit "##")) (Maybe (Name R_Positive))) (Then (Text (lit "#")) (Maybe (Or (Name R_SYMBOL) (Name
      R_Integer)))))
  (* 173 *)
  | R_REPL => Rule AtomicRule
      (Or (Or (Or (Then (Text ([182]%N)) (Name R_Positive)) (Several (Text ([182]%N)))) (Then (Text ([8267]%N)) (Name
      R_Positive))) (Several (Text ([8267]%N))))
  (* 174 *)
  | R_Positive => Rule AtomicRule
      (Then (Name R_ASCII_NONZERO_DIGIT) (Many (Name R_ASCII_DIGIT)))
  (* 177 *)
  | R_WHITESPACE => Rule Silent
      (Or (Name R_NEWLINE) (Name R_WHITE_SPACE))
  (* 178 *)
  | R_COMMENT => Rule Silent
      (Or (Or (Or (Or (Name R_MultiLineComment) (Then (Text (lit "///")) (Many (Then (Not (Name R_NEWLINE)) (Name
      R_ANY))))) (Then (Text (lit "//?")) (Many (Then (Not (Name R_NEWLINE)) (Name R_ANY))))) (Then (Text (lit
      "//!")) (Many (Then (Not (Name R_NEWLINE)) (Name R_ANY))))) (Then (Text (lit "//*")) (Many (Then (Not (Name
      R_NEWLINE)) (Name R_ANY)))))
  (* 185 *)
  | R_MultiLineComment => Rule CompoundRule
      (Then (Then (Text (lit "%%%")) (Many (Or (Name R_MultiLineComment) (Then (Not (Text (lit "%%%"))) (Name
      R_ANY))))) (Text (lit "%%%")))
  (* 188 *)
  | R_Prefix => Rule AtomicRule
      (Or (Or (Or (Or (Name R_Bang) (Name R_Not)) (Name R_Plus)) (Name R_Minus)) (Name R_Star))
  (* 191 *)
  | R_Suffix => Rule AtomicRule
      (Or (Or (Or (Name R_Derivative) (Name R_DoubleBang)) (Name R_Bang)) (Name R_Question))
  (* 196 *)
  | R_Infix => Rule Silent
      (Or (Or (Or (Or (Or (Or (Or (Or (Or (Or (Or (Or (Or (Or (Name R_Set) (Name R_Plus)) (Name R_Minus)) (Name
      R_Multiply)) (Name R_CenterDot)) (Name R_Kronecker)) (Name R_TensorProduct)) (Name R_Divide)) (Name
      R_Quotient)) (Name R_Modulo)) (Name R_Power)) (Name R_Grater)) (Name R_GraterEqual)) (Name R_Equal)) (Name
      R_Dot))
  (* 206 *)
  | R_Set => Rule AtomicRule
      (Text (lit "="))
  (* 207 *)
  | R_Derivative => Rule AtomicRule
      (Several (Text (lit "'")))
  (* 208 *)
  | R_Or => Rule AtomicRule
      (Text (lit "|"))
  (* 209 *)
  | R_LazyOr => Rule AtomicRule
      (Text (lit "||"))
  (* 212 *)
  | R_Star => Rule AtomicRule
      (Text (lit "*"))
  (* 213 *)
  | R_Slash => Rule AtomicRule
      (Text (lit "/"))
  (* 214 *)
  | R_Escape => Rule AtomicRule
      (Text (lit "\"))
  (* 216 *)
  | R_Proportion => Rule AtomicRule
      (Or (Text (lit "::")) (Text ([8759]%N)))
  (* 217 *)
  | R_Comma => Rule AtomicRule
      (Or (Text (lit ",")) (Text ([65292]%N)))
  (* 218 *)
  | R_Dot => Rule AtomicRule
      (Text (lit "."))
  (* 219 *)
  | R_Separate => Rule AtomicRule
      (Text (lit ";;"))
  (* 220 *)
  | R_Semicolon => Rule AtomicRule
      (Or (Text (lit ";")) (Text ([65307]%N)))
  (* 221 *)
  | R_Colon => Rule AtomicRule
      (Or (Text (lit ":")) (Text ([65306]%N)))
  (* 223 *)
  | R_Question => Rule AtomicRule
      (Text (lit "?"))
  (* 224 *)
  | R_Underline => Rule AtomicRule
      (Text (lit "_"))
  (* 228 *)
  | R_Load => Rule AtomicRule
      (Or (Text (lit "<<<")) (Text ([8920]%N)))
  (* 229 *)
  | R_Save => Rule AtomicRule
      (Or (Text (lit ">>>")) (Text ([8921]%N)))
  (* 230 *)
  | R_LeftShift => Rule AtomicRule
      (Or (Text (lit "<<")) (Text ([8810]%N)))
  (* 231 *)
  | R_RightShift => Rule AtomicRule
      (Or (Text (lit ">>")) (Text ([8811]%N)))
  (* 232 *)
  | R_LessEqual => Rule AtomicRule
      (Text (lit "<="))
  (* 233 *)
  | R_GraterEqual => Rule AtomicRule
      (Text (lit ">="))
  (* 234 *)
  | R_Less => Rule AtomicRule
      (Text (lit "<"))
  (* 235 *)
  | R_Grater => Rule AtomicRule
      (Text (lit ">"))
  (* 236 *)
  | R_Pipeline => Rule AtomicRule
      (Text (lit "|>"))
  (* 239 *)
  | R_Equivalent => Rule AtomicRule
      (Text (lit "==="))
  (* 240 *)
  | R_NotEquivalent => Rule AtomicRule
      (Text (lit "=!="))
  (* 241 *)
  | R_Equal => Rule AtomicRule
      (Text (lit "=="))
  (* 242 *)
  | R_NotEqual => Rule AtomicRule
      (Or (Text (lit "!=")) (Text ([8800]%N)))
  (* 250 *)
  | R_Plus => Rule AtomicRule
      (Text (lit "+"))
  (* 251 *)
  | R_Minus => Rule AtomicRule
      (Text (lit "-"))
  (* 255 *)
  | R_Multiply => Rule AtomicRule
      (Or (Name R_Star) (Text ([215]%N)))
  (* 256 *)
  | R_CenterDot => Rule AtomicRule
      (Text ([8901]%N))
  (* 257 *)
  | R_Kronecker => Rule AtomicRule
      (Text ([8855]%N))
  (* 258 *)
  | R_TensorProduct => Rule AtomicRule
      (Text ([8857]%N))
  (* 259 *)
  | R_Divide => Rule AtomicRule
      (Or (Name R_Slash) (Text ([247]%N)))
  (* 260 *)
  | R_Quotient => Rule AtomicRule
      (Text (lit "//"))
  (* 261 *)
  | R_Modulo => Rule AtomicRule
      (Text (lit "%"))
  (* 262 *)
  | R_Remainder => Rule AtomicRule
      (Text ([8274]%N))
  (* 265 *)
  | R_Power => Rule AtomicRule
      (Text (lit "^"))
  (* 266 *)
  | R_Surd => Rule AtomicRule
      (Text ([8730]%N))
  (* 269 *)
  | R_Increase => Rule AtomicRule
      (Text (lit "++"))
  (* 270 *)
  | R_Decrease => Rule AtomicRule
      (Text (lit "--"))
  (* 273 *)
  | R_To => Rule AtomicRule
      (Text (lit "->"))
  (* 276 *)
  | R_Elvis => Rule AtomicRule
      (Text (lit ":?"))
  (* 277 *)
  | R_Map => Rule AtomicRule
      (Text (lit "/@"))
  (* 280 *)
  | R_Quote => Rule AtomicRule
      (Text (lit "`"))
  (* 281 *)
  | R_Acute => Rule AtomicRule
      (Text ([180]%N))
  (* 282 *)
  | R_Apostrophe => Rule AtomicRule
      (Text (lit "'"))
  (* 283 *)
  | R_Quotation => Rule AtomicRule
      (Text ([34]%N))
  (* 286 *)
  | R_LogicOr => Rule AtomicRule
      (Or (Text (lit "||")) (Text ([8743]%N)))
  (* 287 *)
  | R_LogicAnd => Rule AtomicRule
      (Or (Text (lit "&&")) (Text ([8744]%N)))
  (* 288 *)
  | R_LogicNot => Rule AtomicRule
      (Text ([172]%N))
  (* 290 *)
  | R_Ellipsis => Rule AtomicRule
      (Or (Text (lit "...")) (Text ([8230]%N)))
  (* 295 *)
  | R_LogicXor => Rule AtomicRule
      (Text ([8853]%N))
  (* 296 *)
  | R_MapAll => Rule AtomicRule
      (Text (lit "//@"))
  (* 298 *)
  | R_Concat => Rule AtomicRule
      (Text (lit "~~"))
  (* 299 *)
  | R_Destruct => Rule AtomicRule
      (Text (lit "~="))
  (* 302 *)
  | R_DoubleBang => Rule AtomicRule
      (Text (lit "!!"))
  (* 303 *)
  | R_Bang => Rule AtomicRule
      (Text (lit "!"))
  (* 304 *)
  | R_Not => Rule AtomicRule
      (Text ([172]%N))
  (* 306 *)
  | R_Sharp => Rule AtomicRule
      (Text (lit "#"))
  (* 308 *)
  | R_Curry => Rule AtomicRule
      (Text (lit "@@@"))
  (* 309 *)
  | R_Apply => Rule AtomicRule
      (Text (lit "@@"))
  (* 310 *)
  | R_At => Rule AtomicRule
      (Text (lit "@"))
  (* names that pest defines *)
  | R_ANY => Built AnyChar
  | R_EOI => Built EndOfInput
  | R_SOI => Built StartOfInput
  | R_PEEK => Built Peek
  | R_POP => Built Pop
  | R_ASCII_DIGIT => Built Digit
  | R_ASCII_NONZERO_DIGIT => Built NonzeroDigit
  | R_ASCII_BIN_DIGIT => Built BinDigit
  | R_ASCII_OCT_DIGIT => Built OctDigit
  | R_ASCII_HEX_DIGIT => Built HexDigit
  | R_NEWLINE => Rule Silent (Or (Or (Text [10]%N) (Text [13; 10]%N)) (Text [13]%N))
  | R_WHITE_SPACE => Built White
  | R_XID_CONTINUE => Built IdContinue
  | R_XID_START => Built IdStart
  end.
