(** What the TeX and Wolfram exports of a tree are. *)
From Verif Require Import Base Ast Display Wolfram SpecSession.
Local Open Scope Z_scope.

(** ** TeX; the literals below contain two backslashes where two are written *)
Definition bare_functions : list str :=
  [lit "sin"; lit "cos"; lit "tan"; lit "cot"; lit "sec"; lit "csc"; lit "arcsin"; lit "arccos"; lit "arctan"].
Definition named_functions : list str :=
  [lit "arccot"; lit "arcsec"; lit "arccsc"; lit "arcsinh"; lit "arccosh"; lit "arctanh"; lit "arccoth"; lit "arcsech"; lit "arccsch"].
(** trees that need no brackets as the only argument of sin, cos, ..., and those
    that get them; prefix and suffix operators are neither *)
Definition narrow (a : ast) : Prop :=
  match a with
  | Function s ps => ~ operator_space s \/ name_space s = [lit "std"; lit "infix"] /\ exists p more, ps = p :: more /\ (length (arguments p) <= 1)%nat
  | _ => True
  end.
Definition wide (a : ast) : Prop :=
  match a with
  | Function s ps => name_space s = [lit "std"; lit "infix"] /\ exists p more, ps = p :: more /\ (1 < length (arguments p))%nat
  | _ => False
  end.
(** the sign between two operands *)
Definition tex_sign (n : str) : str :=
  if str_eqb n (lit "times") then lit " " else lit " " ++ (if str_eqb n (lit "add") then lit "+" else n) ++ lit " ".

(** the texts of the arguments of sin, cos, ... *)
Inductive bracketed : list ast -> list str -> str -> Prop :=
| br_none : bracketed [] [] (lit "()")
| br_narrow : forall a t, narrow a -> bracketed [a] [t] (lit " " ++ t)
| br_wide : forall a t, wide a -> bracketed [a] [t] (lit "(" ++ t ++ lit ")")
| br_many : forall a b l ts, bracketed (a :: b :: l) ts (lit "(" ++ join (lit ", ") ts ++ lit ")").

Inductive tex_of : ast -> str -> Prop :=
| tex_empty : tex_of EmptyStatement []
| tex_boolean : forall b, tex_of (Boolean b) (if b then lit "\\mathtt{true}" else lit "\\mathtt{false}")
| tex_integer : forall n t, display (Integer n) = Ret t -> tex_of (Integer n) t
| tex_decimal : forall d t, display (Decimal d) = Ret t -> tex_of (Decimal d) t
| tex_symbol : forall s, tex_of (Sym s) (name s)
| tex_string : forall s, tex_of (Str s) (lit "\\text{" ++ s ++ lit "}")
| tex_infix : forall s p more lhs rhs rest l r, name_space s = [lit "std"; lit "infix"] -> arguments p = lhs :: rhs :: rest ->
    display lhs = Ret l -> display rhs = Ret r -> tex_of (Function s (p :: more)) (l ++ tex_sign (name s) ++ r)
| tex_bare : forall s p more ts t, ~ operator_space s -> In (name s) bare_functions -> Forall2 tex_of (arguments p) ts ->
    bracketed (arguments p) ts t -> tex_of (Function s (p :: more)) (lit "\\" ++ display_symbol s ++ t)
| tex_named : forall s p more ts t, ~ operator_space s -> In (name s) named_functions -> Forall2 tex_of (arguments p) ts ->
    bracketed (arguments p) ts t -> tex_of (Function s (p :: more)) (lit "\\operatorname{" ++ display_symbol s ++ lit "}" ++ t)
| tex_list : forall s p more ts, ~ operator_space s -> name s = lit "List" -> arguments p <> [] -> Forall2 tex_of (arguments p) ts ->
    tex_of (Function s (p :: more)) (lit "\\{" ++ join (lit ", ") ts ++ lit "\\}")
| tex_call : forall s ps tss, ~ operator_space s -> ~ In (name s) bare_functions -> ~ In (name s) named_functions -> name s <> lit "List" ->
    Forall2 (fun p ts => Forall2 tex_of (arguments p) ts) ps tss ->
    tex_of (Function s ps) (lit "\\operatorname{" ++ name s ++ lit "}" ++ concat (map (fun ts => lit "\\left(" ++ join (lit ", ") ts ++ lit "\\right)") tss)).

(** all names, operators and strings in a tree *)
Definition symbol_texts (s : symbol) : list str :=
  name s :: name_space s ++ match kind s with Prefix o | Infix o _ | Suffix o => [o] | _ => [] end.
Fixpoint tree_texts (a : ast) : list str :=
  match a with
  | Program l => flat_map tree_texts l
  | Function s ps => symbol_texts s ++ flat_map (fun p => flat_map tree_texts (arguments p)) ps
  | Sym s => symbol_texts s
  | Str s => [s]
  | _ => []
  end.
(** backslashes only in pairs: TeX reads a pair as a line break, never as a command *)
Inductive doubled : str -> Prop :=
| dbl_nil : doubled []
| dbl_char : forall c t, c <> 92%N -> doubled t -> doubled (c :: t)
| dbl_pair : forall t, doubled t -> doubled (92 :: 92 :: t)%N.
(** round and curly brackets match *)
Inductive nested : str -> Prop :=
| nest_nil : nested []
| nest_char : forall c, ~ In c (lit "(){}") -> nested [c]
| nest_app : forall x y, nested x -> nested y -> nested (x ++ y)
| nest_round : forall x, nested x -> nested (lit "(" ++ x ++ lit ")")
| nest_curly : forall x, nested x -> nested (lit "{" ++ x ++ lit "}").

(** ** Wolfram; [cap] capitalises the first letter *)
Inductive exported (cap : str -> str) : ast -> wolfram -> Prop :=
| exp_empty : exported cap EmptyStatement WSkip
| exp_program : forall l ws, Forall2 (exported cap) l ws -> exported cap (Program l) (WFunction (WSystem (lit "CompoundExpression")) ws)
| exp_true : exported cap (Boolean true) (WSystem (lit "True"))
| exp_false : exported cap (Boolean false) (WSystem (lit "False"))
| exp_integer : forall n, exported cap (Integer n) (WBigInteger n)
| exp_decimal : forall d t, display (Decimal d) = Ret t -> exported cap (Decimal d) (WBigDecimal t)
| exp_symbol : forall s, exported cap (Sym s) (WSymbol (name s))
| exp_string : forall s, exported cap (Str s) (WString s)
| exp_factor : forall s, name s = lit "factor" -> exported cap (Function s []) (WSystem (lit "FactorInteger"))
| exp_head : forall s, name s <> lit "factor" -> exported cap (Function s []) (WSystem (cap (name s)))
(** f(..)(..): the call of f(..); arguments first, options as rules *)
| exp_call : forall s ps p h args rules, exported cap (Function s ps) h -> Forall2 (exported cap) (arguments p) args ->
    Forall2 (fun kv r => exists k v, exported cap (fst kv) k /\ exported cap (snd kv) v /\ r = WFunction (WSystem (lit "Rule")) [k; v]) (options p) rules ->
    exported cap (Function s (ps ++ [p])) (WFunction h (args ++ rules)).

(** for the examples *)
Definition plain_symbol (n : str) : symbol := mkSymbol [] n Normal 0.
Definition call (n : str) (l : list ast) : ast := Function (plain_symbol n) [mkParam l [] default_position].
