(** projects/sm-ast/src/ast/mod.rs and parts of ast/traits.rs: the AST type, its
    derived order, option maps and constructors. *)
From Verif Require Import Base.
Local Open Scope Z_scope.

(** [bigdecimal::BigDecimal] (external, 0.1): the number dec_int * 10^(-dec_scale).
    ast/mod.rs:20 [Decimal(BigDecimal)] *)
Record decimal := mkDecimal { dec_int : Z; dec_scale : Z }.

(** ast/mod.rs:54-65 [SymbolKind] *)
Inductive symbol_kind :=
| Normal
| Alias
| Prefix (o : str)
| Infix (o : str) (p : Z)       (* p : u8 *)
| Suffix (o : str).

(** ast/mod.rs:45-52 [Symbol] *)
Record symbol := mkSymbol {
  name_space : list str; name : str; kind : symbol_kind; attributes : Z }.

(** ast/mod.rs:32-37 [Position] *)
Record position := mkPosition { file : str; pstart : Z * Z; pend : Z * Z }.

(** ast/mod.rs:25-30 [Parameter]; a BTreeMap is the list of its entries in
    increasing key order (see [btree_insert]). *)
Record param (A : Type) := mkParam {
  arguments : list A; options : list (A * A); ppos : position }.
Arguments mkParam {A} arguments options ppos.
Arguments arguments {A} p.
Arguments options {A} p.
Arguments ppos {A} p.

(** ast/mod.rs:7-23 [AST] *)
Inductive ast :=
| EmptyStatement
| Program (l : list ast)
| Function (s : symbol) (ps : list (param ast))
| Boolean (b : bool)
| Integer (n : Z)
| Decimal (d : decimal)
| Sym (s : symbol)
| Str (s : str).
Notation parameter := (param ast).

(** ** Derived [Ord] (ast/mod.rs:7,25,32,45,54): lexicographic, variants in
    declaration order. *)
Definition lex (a b : comparison) : comparison :=
  match a with Eq => b | _ => a end.

Section ListCompare.
  Context {A : Type} (cmp : A -> A -> comparison).
  (** [Ord] of vectors and maps, ast/mod.rs:25-30 *)
  Fixpoint list_compare (l m : list A) : comparison :=
    match l, m with
    | [], [] => Eq
    | [], _ :: _ => Lt
    | _ :: _, [] => Gt
    | x :: l', y :: m' => lex (cmp x y) (list_compare l' m')
    end.
End ListCompare.

(** Rust compares strings by UTF-8 bytes, which is the order of scalar values. ast/mod.rs:7-65. *)
Definition str_compare : str -> str -> comparison := list_compare N.compare.

(** [Ord] of tuples, ast/mod.rs:28, 32-37 *)
Definition pair_compare {A B} (ca : A -> A -> comparison) (cb : B -> B -> comparison)
  (p q : A * B) : comparison :=
  lex (ca (fst p) (fst q)) (cb (snd p) (snd q)).

(** [Ord] of bool, ast/mod.rs:7-23 *)
Definition bool_compare (a b : bool) : comparison :=
  match a, b with
  | false, true => Lt
  | true, false => Gt
  | _, _ => Eq
  end.

(** bigdecimal compares numeric values. ast/mod.rs:7-23. *)
Definition dec_compare (x y : decimal) : comparison :=
  let s := Z.max 0 (Z.max (dec_scale x) (dec_scale y)) in
  Z.compare (dec_int x * 10 ^ (s - dec_scale x)) (dec_int y * 10 ^ (s - dec_scale y)).

(** the order of the variants of ast/mod.rs:54-65 *)
Definition kind_tag (k : symbol_kind) : Z :=
  match k with Normal => 0 | Alias => 1 | Prefix _ => 2 | Infix _ _ => 3 | Suffix _ => 4 end.

(** the derived [Ord] of ast/mod.rs:54 *)
Definition kind_compare (x y : symbol_kind) : comparison :=
  match x, y with
  | Prefix a, Prefix b => str_compare a b
  | Infix a p, Infix b q => lex (str_compare a b) (Z.compare p q)
  | Suffix a, Suffix b => str_compare a b
  | _, _ => Z.compare (kind_tag x) (kind_tag y)
  end.

(** the derived [Ord] of ast/mod.rs:45 *)
Definition symbol_compare (x y : symbol) : comparison :=
  lex (list_compare str_compare (name_space x) (name_space y))
   (lex (str_compare (name x) (name y))
     (lex (kind_compare (kind x) (kind y)) (Z.compare (attributes x) (attributes y)))).

(** the derived [Ord] of ast/mod.rs:32 *)
Definition pos_compare (x y : position) : comparison :=
  lex (str_compare (file x) (file y))
   (lex (pair_compare Z.compare Z.compare (pstart x) (pstart y))
        (pair_compare Z.compare Z.compare (pend x) (pend y))).

(** the derived [Ord] of ast/mod.rs:25 *)
Definition param_compare {A} (cmp : A -> A -> comparison) (x y : param A) : comparison :=
  lex (list_compare cmp (arguments x) (arguments y))
   (lex (list_compare (pair_compare cmp cmp) (options x) (options y))
        (pos_compare (ppos x) (ppos y))).

(** the order of the variants of ast/mod.rs:7-23 *)
Definition ast_tag (a : ast) : Z :=
  match a with
  | EmptyStatement => 0 | Program _ => 1 | Function _ _ => 2 | Boolean _ => 3
  | Integer _ => 4 | Decimal _ => 5 | Sym _ => 6 | Str _ => 7
  end.

(** the derived [Ord] of ast/mod.rs:7 *)
Fixpoint ast_compare (x y : ast) {struct x} : comparison :=
  match x, y with
  | Program a, Program b => list_compare ast_compare a b
  | Function s ps, Function t qs =>
      lex (symbol_compare s t) (list_compare (param_compare ast_compare) ps qs)
  | Boolean a, Boolean b => bool_compare a b
  | Integer a, Integer b => Z.compare a b
  | Decimal a, Decimal b => dec_compare a b
  | Sym a, Sym b => symbol_compare a b
  | Str a, Str b => str_compare a b
  | _, _ => Z.compare (ast_tag x) (ast_tag y)
  end.

(** [BTreeMap::insert]: an equal key keeps its old key object and gets the new
    value. *)
Section BTree.
  Context {K V : Type} (cmp : K -> K -> comparison).
  (** [BTreeMap::insert], used at parser/parse.rs:191-203 *)
  Fixpoint btree_insert (k : K) (v : V) (m : list (K * V)) : list (K * V) :=
    match m with
    | [] => [(k, v)]
    | (k', v') :: m' =>
        match cmp k k' with
        | Lt => (k, v) :: m
        | Eq => (k', v) :: m'
        | Gt => (k', v') :: btree_insert k v m'
        end
    end.
  (** [BTreeMap::get]; ast/mod.rs:28 (the map [options]) *)
  Fixpoint btree_get (k : K) (m : list (K * V)) : option V :=
    match m with
    | [] => None
    | (k', v') :: m' => match cmp k k' with Eq => Some v' | _ => btree_get k m' end
    end.
End BTree.

(** ** Symbols *)

(** [str::split("::")], leftmost non-overlapping matches; [cur] is the reversed
    current piece. ast/traits.rs:69. *)
Fixpoint split_colons (s : str) (cur : str) : list str :=
  match s with
  | [] => [rev cur]
  | c :: s' =>
      match c, s' with
      | 58%N, 58%N :: s'' => rev cur :: split_colons s'' []
      | _, _ => split_colons s' (c :: cur)
      end
  end.

(** ast/traits.rs:67-73 [impl From<&str> for Symbol] *)
Definition symbol_from (s : str) : symbol :=
  let ns := split_colons s [] in
  mkSymbol (removelast ns) (last ns []) Normal 0.

(** ast/traits.rs:55-59 [impl Display for Symbol] *)
Definition display_symbol (s : symbol) : str :=
  match name_space s with
  | [] => name s
  | ns => join (lit "::") ns ++ lit "::" ++ name s
  end.

(** ast/traits.rs:101-103 [AST::symbol] *)
Definition ast_symbol (s : str) : ast := Sym (symbol_from s).

(** ast/traits.rs:93-107, [Parameter] literals with [Default::default()] options *)
Definition plain_param (args : list ast) (p : position) : parameter := mkParam args [] p.

(** ast/traits.rs:61-65 [impl Display for Position] *)
Definition display_position (p : position) : str := file p.

(** ast/traits.rs:81-91 [Default for Symbol], [Default for Position] *)
Definition default_symbol : symbol := mkSymbol [] [] Normal 0.
(** ast/traits.rs:87-91 *)
Definition default_position : position := mkPosition [] (0, 0) (0, 0).
