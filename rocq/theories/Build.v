(** projects/sm-ast/src/parser: from pest pairs to the AST. *)
From Verif Require Import Base Ast SmError Peg Grammar Climber.
Local Open Scope Z_scope.
Local Open Scope outcome_scope.

(** parser/ops.rs:3-17 [prefix_map] *)
Definition prefix_map (text : str) : outcome symbol :=
  n <- (if str_eqb text (lit "+") then Ret (lit "plus")
        else if str_eqb text (lit "-") then Ret (lit "minus")
        else if str_eqb text (lit "*") then Ret (lit "unpack")
        else if str_eqb text (lit "!") then Ret (lit "not")
        else Panic PUnreachable);
  Ret (mkSymbol [lit "std"; lit "prefix"] n (Prefix text) 0).

(** parser/ops.rs:19-31 [suffix_map] *)
Definition suffix_map (text : str) : outcome symbol :=
  n <- (if str_eqb text (lit "!") then Ret (lit "factorial")
        else if str_eqb text (lit "!!") then Ret (lit "factorial2")
        else Panic PUnreachable);
  Ret (mkSymbol [lit "std"; lit "suffix"] n (Suffix text) 0).

(** parser/ops.rs:33-49 [infix_map] *)
Definition infix_map (text : str) : symbol :=
  let '(n, p) :=
    if str_eqb text (lit "+") then (lit "add", 80)
    else if str_eqb text (lit "-") then (lit "subtract", 80)
    else if str_eqb text (lit "*") then (lit "times", 140)
    else if str_eqb text (lit "/") then (lit "divide", 140)
    else if str_eqb text (lit "//") then (lit "quotient", 140)
    else if str_eqb text (lit "^") then (lit "power", 150)
    else (text, 170) in
  mkSymbol [lit "std"; lit "infix"] n (Infix text p) 0.

(** ** Number literals (external crates) *)

(** num-bigint 0.2, value of a digit in [from_str_radix]; called at parser/parse.rs:330, 348, 367, 373 *)
Definition digit_of (c : char) : option Z :=
  if ((48 <=? c) && (c <=? 57))%N then Some (Z.of_N c - 48)
  else if ((97 <=? c) && (c <=? 122))%N then Some (Z.of_N c - 97 + 10)
  else if ((65 <=? c) && (c <=? 90))%N then Some (Z.of_N c - 65 + 10)
  else None.

(** num-bigint 0.2, the digits of [from_str_radix]; called at parser/parse.rs:330, 348, 367, 373 *)
Fixpoint radix_loop (radix : Z) (s : str) (acc : Z) : option Z :=
  match s with
  | [] => Some acc
  | c :: s' =>
      if (c =? 95)%N then radix_loop radix s' acc
      else match digit_of c with
           | Some d => if d <? radix then radix_loop radix s' (radix * acc + d) else None
           | None => None
           end
  end.

(** num-bigint 0.2 [BigUint::from_str_radix]: [None] is an error; called by the next *)
Definition uint_from_str_radix (s : str) (radix : Z) : option Z :=
  let s := match s with
           | 43%N :: tail => match tail with 43%N :: _ => s | _ => tail end
           | _ => s
           end in
  match s with
  | [] => None
  | 95%N :: _ => None
  | _ => radix_loop radix s 0
  end.

(** num-bigint 0.2 [BigInt::from_str_radix]; called at parser/parse.rs:330, 348, 367, 373 *)
Definition int_from_str_radix (s : str) (radix : Z) : option Z :=
  match s with
  | 45%N :: tail =>
      let s' := match tail with 43%N :: _ => s | _ => tail end in
      match uint_from_str_radix s' radix with Some v => Some (- v) | None => None end
  | _ => uint_from_str_radix s radix
  end.

(** the text before and after the first '.'; used by the next *)
Fixpoint split_dot (s : str) : option (str * str) :=
  match s with
  | [] => None
  | c :: s' =>
      if (c =? 46)%N then Some ([], s')
      else match split_dot s' with Some (a, b) => Some (c :: a, b) | None => None end
  end.

(** bigdecimal 0.1 [BigDecimal::from_str_radix] with radix 10.  Simplified: no
    exponent part, the grammar's Decimal has none. called at parser/parse.rs:379. *)
Definition decimal_from_str (s : str) : option decimal :=
  let '(digits, scale) :=
    match split_dot s with
    | None => (s, 0)
    | Some (lead, trail) => (lead ++ trail, Z.of_nat (length trail))
    end in
  match int_from_str_radix digits 10 with
  | Some v => Some (mkDecimal v scale)
  | None => None
  end.

(** [Option::unwrap], [Result::unwrap], parser/parse.rs:120-379 *)
Definition unwrap {A} (o : option A) : outcome A :=
  match o with Some a => Ret a | None => Panic PUnwrap end.

(** ** Positions *)

(** pest [Position::line_col] of the end of the given prefix of the input;
    called at parser/traits.rs:11-13 *)
Fixpoint line_col_loop (s : str) (l c : Z) : Z * Z :=
  match s with
  | [] => (l, c)
  | 13%N :: s' =>
      match s' with
      | 10%N :: s'' => line_col_loop s'' (l + 1) 1
      | _ => line_col_loop s' l (c + 1)
      end
  | 10%N :: s' => line_col_loop s' (l + 1) 1
  | _ :: s' => line_col_loop s' l (c + 1)
  end.
(** called at parser/traits.rs:11-13 *)
Definition line_col (prefix : str) : Z * Z := line_col_loop prefix 1 1.

(** [Pair::as_rule], parser/parse.rs throughout *)
Definition t_rule (t : tree rule) : rule := match t with Node r _ _ _ _ => r end.
(** [Pair::as_str], parser/parse.rs throughout *)
Definition t_text (t : tree rule) : str := match t with Node _ _ _ x _ => x end.
(** [Pair::into_inner], parser/parse.rs throughout *)
Definition t_inner (t : tree rule) : list (tree rule) := match t with Node _ _ _ _ l => l end.
(** [Span::start_pos], parser/traits.rs:11-13 *)
Definition t_start (t : tree rule) : nat := match t with Node _ a _ _ _ => a end.
(** [Span::end_pos], parser/traits.rs:11-13 *)
Definition t_stop (t : tree rule) : nat := match t with Node _ _ b _ _ => b end.

Section Build.
  (** [ParserSettings::file] and the parsed text (pest spans borrow the input) *)
  Variable fname : str.
  Variable input : str.

  (** parser/traits.rs:11-13 [get_position] *)
  Definition get_position (t : tree rule) : position :=
    mkPosition fname (line_col (firstn (t_start t) input)) (line_col (firstn (t_stop t) input)).

  (** parse.rs:371-375 *)
  Definition parse_integer (t : tree rule) : outcome ast :=
    i <- unwrap (int_from_str_radix (t_text t) 10);
    Ret (Integer i).

  (** parse.rs:377-381 *)
  Definition parse_decimal (t : tree rule) : outcome ast :=
    i <- unwrap (decimal_from_str (t_text t));
    Ret (Decimal i).

  (** parse.rs:358-369 *)
  Definition parse_byte (t : tree rule) : outcome ast :=
    match t_text t with
    | _ :: b :: digits =>
        base <- (if ((b =? 120) || (b =? 88))%N then Ret 16
                 else if ((b =? 111) || (b =? 79))%N then Ret 8
                 else if ((b =? 98) || (b =? 66))%N then Ret 2
                 else Panic PUnreachable);
        i <- unwrap (int_from_str_radix digits base);
        Ret (Integer i)
    | _ => Panic PUnwrap
    end.

  (** parse.rs:383-390 *)
  Definition parse_special (t : tree rule) : outcome ast :=
    if str_eqb (t_text t) (lit "null") then Ret (ast_symbol (lit "std::constant:Null"))
    else if str_eqb (t_text t) (lit "true") then Ret (Boolean true)
    else if str_eqb (t_text t) (lit "false") then Ret (Boolean false)
    else Panic PUnreachable.

  (** parse.rs:323-338; 182 and 8267 are the two paragraph signs *)
  Definition parse_in_out (t : tree rule) : outcome ast :=
    let is_head c := ((c =? 182) || (c =? 8267))%N in
    let head := filter is_head (t_text t) in
    let n := filter (fun c => negb (is_head c)) (t_text t) in
    i <- (match n with
          | [] => Ret (- Z.of_nat (length head))
          | _ => unwrap (int_from_str_radix n 10)
          end);
    s <- (match head with
          | [] => Panic PIndex
          | 182%N :: _ => Ret (symbol_from (lit "std::repl::input"))
          | 8267%N :: _ => Ret (symbol_from (lit "std::repl::output"))
          | _ => Panic PUnreachable
          end);
    Ret (Function s [plain_param [Integer i] (get_position t)]).

  (** parse.rs:340-356 *)
  Definition parse_slot (t : tree rule) : outcome ast :=
    let s := match strip_prefix (lit "##") (t_text t) with
             | Some _ => symbol_from (lit "std::core::slot_sequence")
             | None => symbol_from (lit "std::core::slot")
             end in
    slot <- omapM (fun c =>
              match t_rule c with
              | R_SYMBOL => Ret (Str (t_text c))
              | R_Integer => i <- unwrap (int_from_str_radix (t_text c) 10); Ret (Integer i)
              | _ => Panic PUnreachable
              end) (t_inner t);
    Ret (Function s [plain_param slot (get_position t)]).

  (** parse.rs:301-304: [&h[1..h.len() - 1]]; the first and last char are quotes *)
  Definition unquote (h : str) : outcome str :=
    match h with
    | _ :: (_ :: _) as h' => Ret (removelast h')
    | _ => Panic PIndex
    end.

  (** parse.rs:305-313, the pairs inside a StringBlock *)
  Fixpoint parse_string_block (l : list (tree rule)) (s : str) : outcome str :=
    match l with
    | [] => Ret s
    | c :: l' =>
        match t_rule c with
        | R_Quotation => parse_string_block l' s
        | R_StringText => parse_string_block l' (t_text c)
        | _ => Panic PUnreachable
        end
    end.

  (** parse.rs:296-321; the handler name h is read but not used *)
  Fixpoint parse_string_loop (l : list (tree rule)) (s : str) : outcome ast :=
    match l with
    | [] => Ret (Str s)
    | c :: l' =>
        match t_rule c with
        | R_SYMBOL => parse_string_loop l' s
        | R_StringNormal => s' <- unquote (t_text c); parse_string_loop l' s'
        | R_StringBlock => s' <- parse_string_block (t_inner c) s; parse_string_loop l' s'
        | _ => Panic PUnreachable
        end
    end.
  (** parse.rs:296-321 *)
  Definition parse_string (t : tree rule) : outcome ast := parse_string_loop (t_inner t) [].

  (** parse.rs:169-186 *)
  Definition parse_space_call (t : tree rule) : outcome ast :=
    stack <- omapM (fun c =>
               match t_rule c with
               | R_WHITESPACE => Ret []
               | R_Symbol => Ret [ast_symbol (t_text c)]
               | R_Integer => i <- parse_integer c; Ret [i]
               | _ => Panic PUnreachable
               end) (t_inner t);
    Ret (Function (infix_map (lit "*")) [plain_param (concat stack) (get_position t)]).

  (** parse.rs:130-153 *)
  Definition parse_dot_call (lhs rhs : ast) (p : position) : outcome ast :=
    match rhs with
    | Sym rs => Ret (Function rs [plain_param [lhs] p])
    | Function rs (q :: ps) =>
        Ret (Function rs (mkParam (lhs :: arguments q) (options q) (ppos q) :: ps))
    | Function _ [] => Panic PIndex
    | Integer i => Ret (Function (symbol_from (lit "std::core::index")) [plain_param [lhs; Integer i] p])
    | _ => Panic PUnreachable
    end.

  (** parse.rs:69-79, the infix closure of [parse_expr] *)
  Definition infix_node (p : position) (lhs : ast) (op : tree rule) (rhs : ast) : outcome ast :=
    match t_rule op with
    | R_Dot => parse_dot_call lhs rhs p
    | _ => Ret (Function (infix_map (t_text op)) [plain_param [lhs; rhs] p])
    end.

  (** The mutually recursive functions all recurse through [parse_expr], which is
      the argument [rec] here. *)
  Section Rec.
    Variable rec : tree rule -> outcome ast.

    (** parse.rs:211-222 *)
    Fixpoint parse_apply_kv_loop (l : list (tree rule)) (key value : ast) : outcome (ast * ast) :=
      match l with
      | [] => Ret (key, value)
      | c :: l' =>
          match t_rule c with
          | R_Colon => parse_apply_kv_loop l' key value
          | R_SYMBOL => parse_apply_kv_loop l' (ast_symbol (t_text c)) value
          | R_expr => v <- rec c; parse_apply_kv_loop l' key v
          | _ => Panic PUnreachable
          end
      end.
    (** parse.rs:211-222 *)
    Definition parse_apply_kv (t : tree rule) : outcome (ast * ast) :=
      parse_apply_kv_loop (t_inner t) EmptyStatement EmptyStatement.

    (** parse.rs:188-209 *)
    Fixpoint parse_apply_loop (l : list (tree rule)) (args : list ast) (kws : list (ast * ast))
      : outcome (list ast * list (ast * ast)) :=
      match l with
      | [] => Ret (args, kws)
      | c :: l' =>
          match t_rule c with
          | R_WHITESPACE => parse_apply_loop l' args kws
          | R_Comma => parse_apply_loop l' args kws
          | R_apply_kv =>
              '(k, v) <- parse_apply_kv c;
              match k with
              | EmptyStatement => parse_apply_loop l' (args ++ [v]) kws
              | _ => parse_apply_loop l' args (btree_insert ast_compare k v kws)
              end
          | _ => Panic PUnreachable
          end
      end.
    (** parse.rs:188-209 *)
    Definition parse_apply (t : tree rule) : outcome parameter :=
      '(args, kws) <- parse_apply_loop (t_inner t) [] [];
      Ret (mkParam args kws (get_position t)).

    (** parse.rs:155-167 *)
    Definition parse_apply_call (t : tree rule) : outcome ast :=
      match t_inner t with
      | [] => Panic PUnwrap
      | h :: l =>
          stack <- omapM (fun c =>
                     match t_rule c with
                     | R_apply => parse_apply c
                     | _ => Panic PUnreachable
                     end) l;
          Ret (Function (symbol_from (t_text h)) stack)
      end.

    (** parse.rs:236-263 *)
    Fixpoint parse_index_loop (t : tree rule) (l : list (tree rule)) (start stop step : ast)
      : outcome ast :=
      match l with
      | [] => Ret (Function (symbol_from (lit "std::core::Span"))
                     [plain_param [start; stop; step] (get_position t)])
      | c :: l' =>
          match t_rule c with
          | R_Colon => parse_index_loop t l' start stop step
          | R_Start =>
              match t_inner c with
              | [] => Panic PUnwrap
              | e :: _ => x <- rec e; parse_index_loop t l' x stop step
              end
          | R_End =>
              match t_inner c with
              | [] => Panic PUnwrap
              | e :: _ => x <- rec e; parse_index_loop t l' start x step
              end
          | R_Step =>
              match t_inner c with
              | [] => Panic PUnwrap
              | e :: _ => x <- rec e; parse_index_loop t l' start stop x
              end
          | R_expr => rec c
          | _ => Panic PUnreachable
          end
      end.
    (** parse.rs:236-263 *)
    Definition parse_index (t : tree rule) : outcome ast :=
      parse_index_loop t (t_inner t) (Integer 1) (ast_symbol (lit "std::core::All")) (Integer 1).

    (** parse.rs:224-234 *)
    Definition parse_slice (t : tree rule) : outcome (list ast) :=
      l <- omapM (fun c =>
             match t_rule c with
             | R_Comma => Ret []
             | R_index => x <- parse_index c; Ret [x]
             | _ => Panic PUnreachable
             end) (t_inner t);
      Ret (concat l).

    (** parse.rs:281-294 *)
    Definition parse_list (t : tree rule) : outcome ast :=
      v <- omapM (fun c =>
             match t_rule c with
             | R_Comma => Ret []
             | R_expr => x <- rec c; Ret [x]
             | _ => Panic PUnreachable
             end) (t_inner t);
      Ret (Function (symbol_from (lit "std::containers::List")) [plain_param (concat v) (get_position t)]).

    (** parse.rs:265-279 *)
    Definition parse_data (t : tree rule) : outcome ast :=
      match t_inner t with
      | [] => Panic PUnwrap
      | c :: _ =>
          match t_rule c with
          | R_list => parse_list c
          | R_Symbol => Ret (ast_symbol (t_text c))
          | R_String => parse_string c
          | R_Decimal => parse_decimal c
          | R_Integer => parse_integer c
          | R_Byte => parse_byte c
          | R_Special => parse_special c
          | R_REPL => parse_in_out c
          | R_Slot => parse_slot c
          | _ => Panic PUnreachable
          end
      end.

    (** parse.rs:119-128 *)
    Definition parse_node (t : tree rule) : outcome ast :=
      match t_inner t with
      | [] => Panic PUnwrap
      | c :: _ =>
          match t_rule c with
          | R_expr => rec c
          | R_data => parse_data c
          | R_apply_call => parse_apply_call c
          | R_space_call => parse_space_call c
          | _ => Panic PUnreachable
          end
      end.

    (** parse.rs:112-115 *)
    Fixpoint apply_prefixes (l : list (str * position)) (base : ast) : outcome ast :=
      match l with
      | [] => Ret base
      | (a, b) :: l' =>
          s <- prefix_map a;
          apply_prefixes l' (Function s [plain_param [base] b])
      end.

    (** parse.rs:87-116; [pre]: the prefixes read so far, last first *)
    Fixpoint parse_term_loop (l : list (tree rule)) (base : ast) (pre : list (str * position))
      : outcome ast :=
      match l with
      | [] => apply_prefixes pre base
      | c :: l' =>
          match t_rule c with
          | R_node => b <- parse_node c; parse_term_loop l' b pre
          | R_Prefix => parse_term_loop l' base ((t_text c, get_position c) :: pre)
          | R_Suffix =>
              s <- suffix_map (t_text c);
              parse_term_loop l' (Function s [plain_param [base] (get_position c)]) pre
          | R_slice =>
              new <- parse_slice c;
              parse_term_loop l'
                (Function (symbol_from (lit "std::core::Index"))
                   [plain_param (base :: new) (get_position c)]) pre
          | _ => Panic PUnreachable
          end
      end.
    (** parse.rs:83-86 *)
    Definition parse_term (t : tree rule) : outcome ast := parse_term_loop (t_inner t) EmptyStatement [].

    (** parse.rs:64-68, the primary closure of [parse_expr] *)
    Definition primary (c : tree rule) : outcome ast :=
      match t_rule c with
      | R_expr => rec c
      | R_term => parse_term c
      | _ => Panic PUnreachable
      end.
  End Rec.

  (** parse.rs:60-81 *)
  Fixpoint parse_expr (t : tree rule) : outcome ast :=
    match t with
    | Node _ _ _ _ l =>
        climb (fun op => operators (t_rule op)) (infix_node (get_position t))
              (map (fun c => (c, primary parse_expr c)) l)
    end.

  (** parse.rs:44-57 *)
  Fixpoint parse_expression_loop (l : list (tree rule)) (base : ast) (eos : bool) : outcome (ast * bool) :=
    match l with
    | [] => Ret (base, eos)
    | c :: l' =>
        match t_rule c with
        | R_expr => b <- parse_expr c; parse_expression_loop l' b eos
        | R_eos => parse_expression_loop l' base true
        | _ => Panic PUnreachable
        end
    end.
  (** parse.rs:44-57 *)
  Definition parse_expression (t : tree rule) : outcome (ast * bool) :=
    parse_expression_loop (t_inner t) EmptyStatement false.

  (** parse.rs:31-41 *)
  Fixpoint parse_pairs (l : list (tree rule)) : outcome ast :=
    match l with
    | [] => Ret EmptyStatement
    | c :: l' =>
        match t_rule c with
        | R_EOI => parse_pairs l'
        | R_expression => '(a, _) <- parse_expression c; Ret a
        | R_COMMENT => parse_pairs l'
        | _ => Panic PUnreachable
        end
    end.
End Build.

(** [SMParser::parse(Rule::program, text)] (sm_parser.rs:987-): the fuel is linear in the
    length of the text; ProofPeg.v proves that it never runs out. *)
Definition peg_fuel (text : str) : nat := (length text + 1) * 70.
(** the call at parse.rs:30 *)
Definition run_program (U : unicode) (text : str) : pres rule :=
  run U grammar skip_body (peg_fuel text) (ECall R_program) NonAtomic false (mkPs 0 text []).

(** parse.rs:29-42 [ParserSettings::parse]; a pest error becomes SMError::ParseError
    (sm-ast/src/error.rs) *)
Definition parse (U : unicode) (fname : str) (text : str) : outcome (sm_result ast) :=
  match run_program U text with
  | POk _ pairs => a <- parse_pairs fname text pairs; Ret (Ok a)
  | PErr _ _ => Ret (Err SMParseError)
  | PPanic => Panic PUnwrap
  | PFuel => OutOfFuel
  end.
