(** What an accepted text stands for, said of the pairs that the grammar produces
    ([SpecPest]): the tree of a pair, with the place in the text of every argument
    list.  A pair without a tree is one on which the project panics. *)
From Verif Require Import Base Ast Peg Grammar SpecAst SpecOrder SpecClimb SpecSyntax SpecPlace SpecParse SpecSafe.
From Verif Require SpecSource.
Local Open Scope Z_scope.

(** ** Words *)
Definition digits (w : str) : Prop := w <> [] /\ forallb digit w = true.
(** the parts of a name: cut at every ::, from the left *)
Inductive parts : str -> list str -> Prop :=
| parts_one : forall w, ~ contains (lit "::") w -> parts w [w]
| parts_more : forall a b l, ~ contains (lit "::") (a ++ lit ":") -> parts b l -> parts (a ++ lit "::" ++ b) (a :: l).
Inductive named : str -> symbol -> Prop :=
| named_by : forall w l, parts w l -> named w (mkSymbol (removelast l) (last l []) Normal 0).
Definition standard (module n : str) : symbol := mkSymbol [lit "std"; module] n Normal 0.

(** ¶ refers to an input and ⁋ to an output *)
Definition register (c : char) (s : symbol) : Prop :=
  c = 182%N /\ s = standard (lit "repl") (lit "input") \/ c = 8267%N /\ s = standard (lit "repl") (lit "output").
(** the one of that number, or as many steps back as there are signs *)
Inductive refers : str -> symbol -> Z -> Prop :=
| refers_number : forall c s n, register c s -> digits n -> refers (c :: n) s (numeral_value n)
| refers_back : forall c s k, register c s -> refers (repeat c (S k)) s (- Z.of_nat (S k)).

(** ** Options: in the order of their keys, the last value given for each *)
Definition collected (writes options : list (ast * ast)) : Prop :=
  strictly_increasing tree_before (map fst options) /\
  forall k v, In (k, v) options <-> last_write eq k v writes.

Section Values.
  (** the name of the file and the text *)
  Variable f text : str.

  Definition spot (t : tree rule) : position :=
    match t with Node _ i j _ _ => mkPosition f (place text i) (place text j) end.
  Definition rule_of (t : tree rule) : rule := match t with Node r _ _ _ _ => r end.
  Definition text_of (t : tree rule) : str := match t with Node _ _ _ w _ => w end.
  Definition call_at (s : symbol) (args : list ast) (t : tree rule) : ast := Function s [mkParam args [] (spot t)].

  (** a.b, in the expression t *)
  Inductive dotted (t : tree rule) (a : ast) : ast -> ast -> Prop :=
  | dotted_name : forall s, dotted t a (Sym s) (call_at s [a] t)
  | dotted_call : forall s args opts p ps, dotted t a (Function s (mkParam args opts p :: ps)) (Function s (mkParam (a :: args) opts p :: ps))
  | dotted_number : forall n, dotted t a (Integer n) (call_at (standard (lit "core") (lit "index")) [a; Integer n] t).

  (** prefix operators, the last one first *)
  Inductive prefixed : list (tree rule) -> ast -> ast -> Prop :=
  | prefixed_none : forall a, prefixed [] a a
  | prefixed_by : forall t l a b n, rule_of t = R_Prefix -> prefixed l a b -> SpecSource.lookup (text_of t) SpecSource.prefix_names = Some n ->
      prefixed (t :: l) a (call_at (mkSymbol [lit "std"; lit "prefix"] n (Prefix (text_of t)) 0) [b] t).
  Definition suffix_names : list (str * str) := [(lit "!", lit "factorial"); (lit "!!", lit "factorial2")].

  Inductive string_value : tree rule -> str -> Prop :=
  | string_normal : forall i j s l, string_value (Node R_StringNormal i j (quoted s) l) s
  | string_block : forall i j w l t l', rule_of t = R_StringText -> Forall (fun q => rule_of q = R_Quotation) (l ++ l') ->
      string_value (Node R_StringBlock i j w (l ++ t :: l')) (text_of t).

  (** the argument of a slot *)
  Inductive slot_value : tree rule -> ast -> Prop :=
  | slot_name : forall i j w l, slot_value (Node R_SYMBOL i j w l) (Str w)
  | slot_number : forall i j w l, digits w -> slot_value (Node R_Integer i j w l) (Integer (numeral_value w)).

  (** factors of a product: integers and names *)
  Inductive factor_value : tree rule -> ast -> Prop :=
  | factor_integer : forall i j w l, digits w -> factor_value (Node R_Integer i j w l) (Integer (numeral_value w))
  | factor_name : forall i j w l s, named w s -> factor_value (Node R_Symbol i j w l) (Sym s).

  Inductive expr_value : tree rule -> ast -> Prop :=
  (** operators bind as in [SpecParse]; what follows an operator without meaning is left out *)
  | expr_chain : forall i j w x0 l k b a, let t := Node R_expr i j w (alternate x0 l ++ k) in
      Forall (fun p => supported (fst p)) l -> match k with [] => True | o :: _ => ~ supported o end ->
      well_bracketed op_strength op_to_right b -> written b = alternate x0 l -> group_value t b a -> expr_value t a
  with group_value : tree rule -> bracketing (tree rule) -> ast -> Prop :=
  | group_term : forall t x a, term_value x a -> group_value t (Leaf x) a
  | group_dot : forall t l o r a b c, rule_of o = R_Dot -> group_value t l a -> group_value t r b -> dotted t a b c -> group_value t (Bin l o r) c
  | group_operator : forall t l o r a b q n p, rule_of o <> R_Dot -> text_of o <> lit "." -> group_value t l a -> group_value t r b ->
      SpecSource.lookup (text_of o) SpecSource.operators = Some (q, n, p) ->
      group_value t (Bin l o r) (call_at (mkSymbol [lit "std"; lit "infix"] n (Infix (text_of o) p) 0) [a; b] t)
  with term_value : tree rule -> ast -> Prop :=
  | term_parts : forall i j w l x r a b c, node_value x a -> suffixed r a b -> prefixed l b c -> term_value (Node R_term i j w (l ++ x :: r)) c
  (** suffix operators and slices, the first one first *)
  with suffixed : list (tree rule) -> ast -> ast -> Prop :=
  | suffixed_none : forall a, suffixed [] a a
  | suffixed_by : forall t r a b n, rule_of t = R_Suffix -> SpecSource.lookup (text_of t) suffix_names = Some n ->
      suffixed r (call_at (mkSymbol [lit "std"; lit "suffix"] n (Suffix (text_of t)) 0) [a] t) b -> suffixed (t :: r) a b
  | suffixed_slice : forall i j w l r a b vs, indices_value l vs ->
      suffixed r (call_at (standard (lit "core") (lit "Index")) (a :: vs) (Node R_slice i j w l)) b -> suffixed (Node R_slice i j w l :: r) a b
  with indices_value : list (tree rule) -> list ast -> Prop :=
  | indices_none : indices_value [] []
  | indices_comma : forall c l vs, rule_of c = R_Comma -> indices_value l vs -> indices_value (c :: l) vs
  | indices_more : forall x l v vs, index_value x v -> indices_value l vs -> indices_value (x :: l) (v :: vs)
  with index_value : tree rule -> ast -> Prop :=
  | index_plain : forall i j w x v, expr_value x v -> index_value (Node R_index i j w [x]) v
  | index_range : forall i j w a c b va vb, let t := Node R_index i j w (a ++ c :: b) in
      bound_value R_Start (Integer 1) a va -> rule_of c = R_Colon -> bound_value R_End (Sym (standard (lit "core") (lit "All"))) b vb ->
      index_value t (call_at (standard (lit "core") (lit "Span")) [va; vb; Integer 1] t)
  | index_step : forall i j w a c b d e va vb ve, let t := Node R_index i j w (a ++ c :: b ++ d :: e) in
      bound_value R_Start (Integer 1) a va -> rule_of c = R_Colon -> bound_value R_End (Sym (standard (lit "core") (lit "All"))) b vb ->
      rule_of d = R_Colon -> bound_value R_Step (Integer 1) e ve ->
      index_value t (call_at (standard (lit "core") (lit "Span")) [va; vb; ve] t)
  (** a bound of a range, which may be missing *)
  with bound_value : rule -> ast -> list (tree rule) -> ast -> Prop :=
  | bound_none : forall r d, bound_value r d [] d
  | bound_some : forall r d i j w x v, expr_value x v -> bound_value r d [Node r i j w [x]] v
  with node_value : tree rule -> ast -> Prop :=
  | node_expr : forall i j w x l v, expr_value x v -> node_value (Node R_node i j w (x :: l)) v
  | node_call : forall i j w i' j' w' h l l' s ps, rule_of h = R_Symbol -> named (text_of h) s -> applies l ps ->
      node_value (Node R_node i j w (Node R_apply_call i' j' w' (h :: l) :: l')) (Function s ps)
  | node_product : forall i j w i' j' w' l l' vs, let t := Node R_space_call i' j' w' l in Forall2 factor_value l vs ->
      node_value (Node R_node i j w (t :: l')) (call_at (mkSymbol [lit "std"; lit "infix"] (lit "times") (Infix (lit "*") 140) 0) vs t)
  | node_data : forall i j w i' j' w' x l l' v, data_value x v -> node_value (Node R_node i j w (Node R_data i' j' w' (x :: l) :: l')) v
  (** the argument lists of a call *)
  with applies : list (tree rule) -> list parameter -> Prop :=
  | applies_none : applies [] []
  | applies_more : forall i j w l r args writes opts ps, let t := Node R_apply i j w l in
      arguments_value l args writes -> collected writes opts -> applies r ps -> applies (t :: r) (mkParam args opts (spot t) :: ps)
  with arguments_value : list (tree rule) -> list ast -> list (ast * ast) -> Prop :=
  | arguments_none : arguments_value [] [] []
  | arguments_comma : forall c l args kvs, rule_of c = R_Comma -> arguments_value l args kvs -> arguments_value (c :: l) args kvs
  | arguments_plain : forall i j w x l v args kvs, expr_value x v -> arguments_value l args kvs ->
      arguments_value (Node R_apply_kv i j w [x] :: l) (v :: args) kvs
  | arguments_keyword : forall i j w k s c x l v args kvs, rule_of k = R_SYMBOL -> named (text_of k) s -> rule_of c = R_Colon -> expr_value x v ->
      arguments_value l args kvs -> arguments_value (Node R_apply_kv i j w [k; c; x] :: l) args ((Sym s, v) :: kvs)
  with data_value : tree rule -> ast -> Prop :=
  | data_integer : forall i j w l, digits w -> data_value (Node R_Integer i j w l) (Integer (numeral_value w))
  | data_decimal : forall i j x y l, digits x -> digits y ->
      data_value (Node R_Decimal i j (x ++ lit "." ++ y) l) (Decimal (mkDecimal (numeral_value (x ++ y)) (Z.of_nat (length y))))
  (** no underscore before the first digit *)
  | data_based : forall i j b P s l, based b P -> s <> [] -> grouped P s = true -> hd_error s <> Some 95%N ->
      data_value (Node R_Byte i j (48%N :: b :: s) l) (Integer (based_value (base_of b) s))
  | data_special : forall i j w l a, special w a -> data_value (Node R_Special i j w l) a
  | data_name : forall i j w l s, named w s -> data_value (Node R_Symbol i j w l) (Sym s)
  (** a string, perhaps after a name, which is not used *)
  | data_string : forall i j w l x s, Forall (fun h => rule_of h = R_SYMBOL) l -> string_value x s ->
      data_value (Node R_String i j w (l ++ [x])) (Str s)
  | data_register : forall i j w l s n, let t := Node R_REPL i j w l in refers w s n -> data_value t (call_at s [Integer n] t)
  | data_slot : forall i j w l vs, let t := Node R_Slot i j w l in Forall2 slot_value l vs ->
      data_value t (call_at (standard (lit "core") (if starts_with (lit "##") w then lit "slot_sequence" else lit "slot")) vs t)
  | data_list : forall i j w l vs, let t := Node R_list i j w l in elements_value l vs ->
      data_value t (call_at (standard (lit "containers") (lit "List")) vs t)
  with elements_value : list (tree rule) -> list ast -> Prop :=
  | elements_none : elements_value [] []
  | elements_comma : forall c l vs, rule_of c = R_Comma -> elements_value l vs -> elements_value (c :: l) vs
  | elements_more : forall x l v vs, expr_value x v -> elements_value l vs -> elements_value (x :: l) (v :: vs).

  (** only the first expression counts *)
  Inductive program_value : list (tree rule) -> ast -> Prop :=
  | program_empty : forall t, rule_of t = R_EOI -> program_value [t] EmptyStatement
  | program_first : forall i j w x l l' a, Forall (fun e => rule_of e = R_eos) l -> expr_value x a ->
      program_value (Node R_expression i j w (x :: l) :: l') a.
End Values.
