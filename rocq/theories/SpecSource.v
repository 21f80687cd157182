(** A reference syntax: which texts are expressions and what they mean, said
    without the parser.  A meaning is a tree, or a panic where the source text of
    the project panics on an accepted text.

    Left out: block comments, which are not transparent (C34). *)
From Verif Require Import Base Ast Peg SpecAst SpecClimb SpecSyntax.
Local Open Scope Z_scope.
Local Open Scope outcome_scope.

(** ** Meanings *)

Definition call (s : symbol) (args : list ast) : ast := Function s [mkParam args [] default_position].
Definition core (n : str) : symbol := mkSymbol [lit "std"; lit "core"] n Normal 0.
(** the name w::l1::...::ln *)
Definition named (w : str) (l : list str) : symbol := mkSymbol (removelast (w :: l)) (last (w :: l) []) Normal 0.

(** values from left to right; the first panic wins *)
Fixpoint all {V} (l : list (outcome V)) : outcome (list V) :=
  match l with [] => Ret [] | o :: l' => v <- o; vs <- all l'; Ret (v :: vs) end.

(** infix operators: sign, strength, function, printing precedence *)
Definition operators : list (str * (Z * str * Z)) :=
  [(lit "+", (1, lit "add", 80)); (lit "-", (1, lit "subtract", 80));
   (lit "*", (2, lit "times", 140)); ([215%N], (2, [215%N], 170));
   (lit "/", (3, lit "divide", 140)); ([247%N], (3, [247%N], 170));
   (lit "^", (4, lit "power", 150)); (lit ".", (6, [], 0))].
Fixpoint lookup {V} (s : str) (l : list (str * V)) : option V :=
  match l with [] => None | (k, v) :: l' => if str_eqb s k then Some v else lookup s l' end.
(** signs the grammar takes as operators, but which end the expression *)
Definition ignored : list str := [lit "="; lit "%"; lit ">"; [8901%N]; [8855%N]; [8857%N]].

Definition binary (n s : str) (p : Z) (args : list ast) : ast :=
  call (mkSymbol [lit "std"; lit "infix"] n (Infix s p) 0) args.
Definition times (args : list ast) : ast := binary (lit "times") (lit "*") 140 args.
(** a.b *)
Definition dotted (a b : ast) : outcome ast :=
  match b with
  | Sym s => Ret (call s [a])
  | Function s (q :: ps) => Ret (Function s (mkParam (a :: arguments q) (options q) (ppos q) :: ps))
  | Function _ [] => Panic PIndex
  | Integer n => Ret (call (core (lit "index")) [a; Integer n])
  | _ => Panic PUnreachable
  end.

Inductive token := Operand (o : outcome ast) | Sign (s : str).
Definition token_strength (t : token) : Z :=
  match t with Sign s => match lookup s operators with Some (q, _, _) => q | None => 0 end | Operand _ => 0 end.
(** only ^ groups to the right *)
Definition token_to_right (t : token) : bool := match t with Sign s => str_eqb s (lit "^") | Operand _ => false end.
Definition token_value (t : token) : outcome ast := match t with Operand o => o | Sign _ => Panic PUnreachable end.
Definition token_apply (a : ast) (t : token) (b : ast) : outcome ast :=
  match t with
  | Sign s =>
      if str_eqb s (lit ".") then dotted a b
      else match lookup s operators with Some (_, n, p) => Ret (binary n s p [a; b]) | None => Panic PUnreachable end
  | Operand _ => Panic PUnreachable
  end.
Definition known (t : token) : bool := match t with Sign s => match lookup s operators with Some _ => true | None => false end | Operand _ => true end.
(** nothing, or something that starts with an ignored operator *)
Definition cut (l : list token) : bool := match l with [] => true | t :: _ => negb (known t) end.

(** prefix operators, applied from right to left; there is no function for ¬ *)
Definition prefix_names : list (str * str) :=
  [(lit "+", lit "plus"); (lit "-", lit "minus"); (lit "*", lit "unpack"); (lit "!", lit "not")].
Fixpoint prefix_value (cs : str) (a : ast) : outcome ast :=
  match cs with
  | [] => Ret a
  | c :: cs' =>
      b <- prefix_value cs' a;
      match lookup [c] prefix_names with
      | Some n => Ret (call (mkSymbol [lit "std"; lit "prefix"] n (Prefix [c]) 0) [b])
      | None => Panic PUnreachable
      end
  end.
(** what may follow an operand, applied from left to right *)
Inductive suffix := Bang | BangBang | At (os : list (outcome ast)) | Unknown.
Definition suffix_call (n s : str) (a : ast) : ast := call (mkSymbol [lit "std"; lit "suffix"] n (Suffix s) 0) [a].
Fixpoint suffix_value (l : list suffix) (a : ast) : outcome ast :=
  match l with
  | [] => Ret a
  | Bang :: l' => suffix_value l' (suffix_call (lit "factorial") (lit "!") a)
  | BangBang :: l' => suffix_value l' (suffix_call (lit "factorial2") (lit "!!") a)
  | At os :: l' => vs <- all os; suffix_value l' (call (core (lit "Index")) (a :: vs))
  (** ? and ' have no function *)
  | Unknown :: _ => Panic PUnreachable
  end.

(** an argument list: the positional arguments in order; the keyword arguments in
    an ordered map, later ones replacing earlier ones *)
Definition argument_value := (option str * outcome ast)%type.
Definition positional (kvs : list (option str * ast)) : list ast :=
  flat_map (fun kv => match fst kv with None => [snd kv] | Some _ => [] end) kvs.
Definition keyword (kvs : list (option str * ast)) : list (ast * ast) :=
  flat_map (fun kv => match fst kv with None => [] | Some k => [(Sym (named k []), snd kv)] end) kvs.
Definition ordered_map (writes : list (ast * ast)) : list (ast * ast) :=
  fold_left (fun m kv => btree_insert ast_compare (fst kv) (snd kv) m) writes [].
Definition parameter_of (rs : list argument_value) : outcome parameter :=
  vs <- all (map snd rs);
  let kvs := combine (map fst rs) vs in
  Ret (mkParam (positional kvs) (ordered_map (keyword kvs)) default_position).

(** the n-th input or output of the session; a negative number counts from the last one *)
Definition reference (output : bool) (n : Z) : ast :=
  call (mkSymbol [lit "std"; lit "repl"] (if output then lit "output" else lit "input") Normal 0) [Integer n].
Definition reference_mark (output : bool) : char := if output then 8267%N else 182%N.

(** start:end:step *)
Definition all_bound : ast := Sym (core (lit "All")).
Definition span (start stop step : outcome ast) : outcome ast :=
  a <- start; b <- stop; c <- step; Ret (call (core (lit "Span")) [a; b; c]).

(** ** Texts *)

Section Texts.
  Variable U : unicode.

  (** the last comma before a closing bracket *)
  Inductive trailing : str -> Prop :=
  | t_none : trailing []
  | t_comma : forall c g, comma_char c = true -> spacing g = true -> trailing (c :: g).

  (** factors of a product: their kind, and which of them may touch *)
  Inductive factor_kind := KName (x : str) | KInt (x : str) | KDecimal (fraction : str) | KBased | KCall (h : str).
  Definition touches (k k' : factor_kind) : Prop :=
    match k, k' with
    | KInt x, KName h | KInt x, KCall h => x <> [48%N] \/ head_is base_letter h = false
    | KInt x, KInt _ => x = [48%N]
    | KDecimal _, KName _ | KDecimal _, KCall _ => True
    | KDecimal y, KInt _ => y = [48%N]
    | _, _ => False
    end.
  Definition is_call (k : factor_kind) : bool := match k with KCall _ => true | _ => false end.

  (** string literals between quotes *)
  Inductive literal : str -> str -> Prop :=
  | l_line : forall s, quotable s = true -> literal (quoted s) s
  | l_block : forall n s, fenceable n s = true -> literal (fenced n s) s.
  (** keys of a dictionary *)
  Inductive key : str -> Prop :=
  | k_integer : forall x, numeral x = true -> key x
  | k_name : forall w, word U w = true -> key w
  | k_string : forall x s, literal x s -> key x.
  Definition constant_like (x : str) : bool := existsb (fun k => starts_with k x) [lit "null"; lit "true"; lit "false"].

  Inductive node : str -> outcome ast -> Prop :=
  | n_integer : forall x, numeral x = true -> node x (Ret (Integer (numeral_value x)))
  | n_decimal : forall x y, numeral x = true -> numeral y = true ->
      node (x ++ lit "." ++ y) (Ret (Decimal (mkDecimal (numeral_value (x ++ y)) (Z.of_nat (length y)))))
  | n_based : forall b P s, based b P -> s <> [] -> grouped P s = true -> node (lit "0" ++ b :: s) (byte_value b s)
  | n_constant : forall x a, special x a -> node x (Ret a)
  | n_name : forall w l, segment U w = true -> forallb (segment U) l = true ->
      constant_like (w ++ path_tail l) = false ->
      node (w ++ path_tail l) (Ret (Sym (named w l)))
  | n_string : forall x s, literal x s -> node x (Ret (Str s))
  (** the name before a string literal has no effect *)
  | n_tagged : forall w x s, word U w = true -> constant_like w = false -> literal x s -> node (w ++ x) (Ret (Str s))
  (** ¶3 ⁋3, and ¶¶¶ ⁋⁋⁋ counted from the last one *)
  | n_reference : forall b x, positive x = true -> node (reference_mark b :: x) (Ret (reference b (numeral_value x)))
  | n_back : forall b k, node (repeat (reference_mark b) (S k)) (Ret (reference b (- Z.of_nat (S k))))
  | n_slot : node (lit "#") (Ret (call (core (lit "slot")) []))
  | n_slot_name : forall w, word U w = true -> node (lit "#" ++ w) (Ret (call (core (lit "slot")) [Str w]))
  | n_slot_number : forall x, numeral x = true -> node (lit "#" ++ x) (Ret (call (core (lit "slot")) [Integer (numeral_value x)]))
  | n_slots : node (lit "##") (Ret (call (core (lit "slot_sequence")) []))
  | n_slots_number : forall x, positive x = true -> node (lit "##" ++ x) (Panic PUnreachable)
  (** f'(x) *)
  | n_derivative : forall w l n y p, segment U w = true -> forallb (segment U) l = true -> calls y [p] ->
      node (w ++ path_tail l ++ repeat 39%N (S n) ++ y) (Panic PUnreachable)
  | n_no_entry : forall g, spacing g = true -> node (lit "{" ++ g ++ lit "}") (Panic PUnreachable)
  | n_dictionary : forall g x t, spacing g = true -> entries x -> trailing t -> node (lit "{" ++ g ++ x ++ t ++ lit "}") (Panic PUnreachable)
  | n_paren : forall x o, expr x o -> node (paren x) o
  | n_nil : forall g, spacing g = true -> node (lit "[" ++ g ++ lit "]") (Ret (call (mkSymbol [lit "std"; lit "containers"] (lit "List") Normal 0) []))
  | n_list : forall g x os t, spacing g = true -> elements x os -> trailing t ->
      node (lit "[" ++ g ++ x ++ t ++ lit "]") (vs <- all os; Ret (call (mkSymbol [lit "std"; lit "containers"] (lit "List") Normal 0) vs))
  | n_call : forall w l y p ps, segment U w = true -> forallb (segment U) l = true -> calls y (p :: ps) ->
      node (w ++ path_tail l ++ y) (qs <- all (p :: ps); Ret (Function (named w l) qs))
  | n_product : forall k x o o' os, product k x (o :: o' :: os) -> is_call k = false ->
      node x (vs <- all (o :: o' :: os); Ret (times vs))
  (** integers and names are factors; for the others there is no case *)
  with factor : factor_kind -> str -> outcome ast -> Prop :=
  | f_name : forall w l, segment U w = true -> forallb (segment U) l = true -> factor (KName (w ++ path_tail l)) (w ++ path_tail l) (Ret (Sym (named w l)))
  | f_integer : forall x, numeral x = true -> factor (KInt x) x (Ret (Integer (numeral_value x)))
  | f_decimal : forall x y, numeral x = true -> numeral y = true -> factor (KDecimal y) (x ++ lit "." ++ y) (Panic PUnreachable)
  | f_based : forall b P s, based b P -> s <> [] -> grouped P s = true -> factor KBased ([48%N; b] ++ s) (Panic PUnreachable)
  | f_call : forall w l y p ps, segment U w = true -> forallb (segment U) l = true -> calls y (p :: ps) ->
      factor (KCall (w ++ path_tail l)) (w ++ path_tail l ++ y) (Panic PUnreachable)
  with product : factor_kind -> str -> list (outcome ast) -> Prop :=
  | p_one : forall k x o, factor k x o -> product k x [o]
  | p_more : forall k x o g k' y os, factor k x o -> inline g = true -> (g = [] -> touches k k') -> product k' y os ->
      product k (x ++ g ++ y) (o :: os)
  (** the argument lists of a call *)
  with calls : str -> list (outcome parameter) -> Prop :=
  | c_nil : calls [] []
  | c_empty : forall g g' y ps, inline g = true -> spacing g' = true -> calls y ps ->
      calls (g ++ (lit "(" ++ g' ++ lit ")") ++ y) (Ret (mkParam [] [] default_position) :: ps)
  | c_some : forall g g' x rs t y ps, inline g = true -> spacing g' = true -> args x rs -> trailing t -> calls y ps ->
      calls (g ++ (lit "(" ++ g' ++ x ++ t ++ lit ")") ++ y) (parameter_of rs :: ps)
  with args : str -> list argument_value -> Prop :=
  | a_one : forall x r s, argument x r -> spacing s = true -> args (x ++ s) [r]
  | a_more : forall x r s c g y rs, argument x r -> spacing s = true -> comma_char c = true -> spacing g = true -> args y rs ->
      args (x ++ s ++ c :: g ++ y) (r :: rs)
  with argument : str -> argument_value -> Prop :=
  | a_plain : forall x o, expr x o -> argument x (None, o)
  | a_keyword : forall k g c g' x o, word U k = true -> spacing g = true -> colon_char c = true -> spacing g' = true -> expr x o ->
      argument (k ++ g ++ c :: g' ++ x) (Some k, o)
  (** the elements of a list *)
  with elements : str -> list (outcome ast) -> Prop :=
  | e_one : forall x o s, expr x o -> spacing s = true -> elements (x ++ s) [o]
  | e_more : forall x o s c g y os, expr x o -> spacing s = true -> comma_char c = true -> spacing g = true -> elements y os ->
      elements (x ++ s ++ c :: g ++ y) (o :: os)
  (** the entries of a dictionary *)
  with entries : str -> Prop :=
  | d_one : forall k g c g' x o s, key k -> spacing g = true -> colon_char c = true -> spacing g' = true -> expr x o -> spacing s = true ->
      entries ((k ++ g ++ c :: g' ++ x) ++ s)
  | d_more : forall k g c g' x o s c' h y, key k -> spacing g = true -> colon_char c = true -> spacing g' = true -> expr x o -> spacing s = true ->
      comma_char c' = true -> spacing h = true -> entries y -> entries ((k ++ g ++ c :: g' ++ x) ++ s ++ c' :: h ++ y)
  (** the indices of a slice *)
  with indices : str -> list (outcome ast) -> Prop :=
  | i_one : forall x o s, index x o -> spacing s = true -> indices (x ++ s) [o]
  | i_more : forall x o s c g y os, index x o -> spacing s = true -> comma_char c = true -> spacing g = true -> indices y os ->
      indices (x ++ s ++ c :: g ++ y) (o :: os)
  with index : str -> outcome ast -> Prop :=
  | i_plain : forall x o, expr x o -> index x o
  | i_range : forall a oa g c g' b ob, bound (Integer 1) a oa -> spacing g = true -> (a = [] -> g = []) -> colon_char c = true ->
      spacing g' = true -> bound all_bound b ob -> index (a ++ g ++ c :: g' ++ b) (span oa ob (Ret (Integer 1)))
  (** a word directly after :: would be part of a name *)
  | i_step : forall a oa g c g' b ob g3 c' g4 s os, bound (Integer 1) a oa -> spacing g = true -> (a = [] -> g = []) -> colon_char c = true ->
      spacing g' = true -> bound all_bound b ob -> spacing g3 = true -> colon_char c' = true -> spacing g4 = true -> bound (Integer 1) s os ->
      (a <> [] -> g ++ g' ++ b ++ g3 ++ g4 = [] -> head_is (word_head U) s = false) ->
      index (a ++ g ++ c :: g' ++ b ++ g3 ++ c' :: g4 ++ s) (span oa ob os)
  with bound : ast -> str -> outcome ast -> Prop :=
  | b_none : forall d, bound d [] (Ret d)
  | b_some : forall d x o, expr x o -> bound d x o
  (** prefix operators, operand, suffixes *)
  with term : str -> outcome ast -> Prop :=
  | t_intro : forall cs x o y l, forallb prefix_char cs = true -> node x o -> suffixes y l ->
      term (cs ++ x ++ y) (a <- o; b <- suffix_value l a; prefix_value cs b)
  with suffixes : str -> list suffix -> Prop :=
  | s_nil : suffixes [] []
  | s_bang : forall y l, suffixes y l -> head_is (N.eqb 33) y = false -> suffixes (lit "!" ++ y) (Bang :: l)
  | s_bangbang : forall y l, suffixes y l -> suffixes (lit "!!" ++ y) (BangBang :: l)
  | s_slice : forall g0 g x os t y l, inline g0 = true -> spacing g = true -> indices x os -> trailing t -> suffixes y l ->
      suffixes ((g0 ++ lit "[" ++ g ++ x ++ t ++ lit "]") ++ y) (At os :: l)
  | s_question : forall y l, suffixes y l -> suffixes (lit "?" ++ y) (Unknown :: l)
  | s_primes : forall n y l, suffixes y l -> head_is (N.eqb 39) y = false -> suffixes (repeat 39%N (S n) ++ y) (Unknown :: l)
  (** operators and operands; a digit directly after . would be part of a number, and a comment directly after / would
      start with it *)
  with rest : str -> list token -> Prop :=
  | r_nil : rest [] []
  | r_more : forall g s g' x o y l, spacing g = true -> In s (map fst operators ++ ignored) -> spacing g' = true -> term x o ->
      (s = lit "." -> g' = [] -> head_is digit x = false) -> (s = lit "/" -> head_is (N.eqb 47) g' = false) -> rest y l ->
      rest (g ++ s ++ g' ++ x ++ y) (Sign s :: Operand o :: l)
  with expr : str -> outcome ast -> Prop :=
  | e_intro : forall x o y l z m b, term x o -> rest y l -> forallb known l = true -> rest z m -> cut m = true ->
      written b = Operand o :: l -> well_bracketed token_strength token_to_right b ->
      expr (x ++ y ++ z) (evaluate token_value token_apply b).
End Texts.
