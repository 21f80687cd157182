(** Orders of texts and trees, as a dictionary has them. *)
From Coq Require Import QArith.
From Verif Require Import Base Ast.
Local Open Scope Z_scope.

(** l stands before m: they agree up to a place where l ends or has a smaller entry *)
Inductive ahead {A} (same less : A -> A -> Prop) : list A -> list A -> Prop :=
| ahead_end : forall y m, ahead same less [] (y :: m)
| ahead_here : forall x l y m, less x y -> ahead same less (x :: l) (y :: m)
| ahead_later : forall x l y m, same x y -> ahead same less l m -> ahead same less (x :: l) (y :: m).
Definition text_before : list N -> list N -> Prop := ahead eq N.lt.

(** kinds of names: ordinary ones, aliases, prefixes, infixes, suffixes *)
Inductive kind_before : symbol_kind -> symbol_kind -> Prop :=
| kb_normal : forall k, k <> Normal -> kind_before Normal k
| kb_alias : forall k, k <> Normal -> k <> Alias -> kind_before Alias k
| kb_prefix : forall o p, text_before o p -> kind_before (Prefix o) (Prefix p)
| kb_prefix_infix : forall o p n, kind_before (Prefix o) (Infix p n)
| kb_prefix_suffix : forall o p, kind_before (Prefix o) (Suffix p)
| kb_infix : forall o m p n, text_before o p -> kind_before (Infix o m) (Infix p n)
| kb_infix_strength : forall o m n, m < n -> kind_before (Infix o m) (Infix o n)
| kb_infix_suffix : forall o m p, kind_before (Infix o m) (Suffix p)
| kb_suffix : forall o p, text_before o p -> kind_before (Suffix o) (Suffix p).
(** by namespace, name, kind and attributes *)
Inductive symbol_before : symbol -> symbol -> Prop :=
| sb_space : forall ns ns' n n' k k' a a', ahead eq text_before ns ns' -> symbol_before (mkSymbol ns n k a) (mkSymbol ns' n' k' a')
| sb_name : forall ns n n' k k' a a', text_before n n' -> symbol_before (mkSymbol ns n k a) (mkSymbol ns n' k' a')
| sb_kind : forall ns n k k' a a', kind_before k k' -> symbol_before (mkSymbol ns n k a) (mkSymbol ns n k' a')
| sb_attributes : forall ns n k a a', a < a' -> symbol_before (mkSymbol ns n k a) (mkSymbol ns n k a').
(** places: by file, start, end; line before column *)
Definition spot_before (x y : Z * Z) : Prop := fst x < fst y \/ fst x = fst y /\ snd x < snd y.
Inductive position_before : position -> position -> Prop :=
| pb_file : forall f f' s s' e e', text_before f f' -> position_before (mkPosition f s e) (mkPosition f' s' e')
| pb_start : forall f s s' e e', spot_before s s' -> position_before (mkPosition f s e) (mkPosition f s' e')
| pb_end : forall f s e e', spot_before e e' -> position_before (mkPosition f s e) (mkPosition f s e').

(** equal trees, but decimals count by their value *)
Definition value_of (d : decimal) : Q := (inject_Z (dec_int d) * inject_Z 10 ^ (- dec_scale d))%Q.
Inductive alike : ast -> ast -> Prop :=
| alike_empty : alike EmptyStatement EmptyStatement
| alike_program : forall l m, Forall2 alike l m -> alike (Program l) (Program m)
| alike_function : forall s ps qs,
    Forall2 (fun p q => Forall2 alike (arguments p) (arguments q) /\
                        Forall2 (fun x y => alike (fst x) (fst y) /\ alike (snd x) (snd y)) (options p) (options q) /\ ppos p = ppos q) ps qs ->
    alike (Function s ps) (Function s qs)
| alike_boolean : forall b, alike (Boolean b) (Boolean b)
| alike_integer : forall n, alike (Integer n) (Integer n)
| alike_decimal : forall d e, (value_of d == value_of e)%Q -> alike (Decimal d) (Decimal e)
| alike_symbol : forall s, alike (Sym s) (Sym s)
| alike_string : forall s, alike (Str s) (Str s).

(** the sorts of trees in their order *)
Definition sort_of (a : ast) : nat :=
  match a with
  | EmptyStatement => 0 | Program _ => 1 | Function _ _ => 2 | Boolean _ => 3 | Integer _ => 4 | Decimal _ => 5 | Sym _ => 6 | Str _ => 7
  end.
Definition options_alike (x y : ast * ast) : Prop := alike (fst x) (fst y) /\ alike (snd x) (snd y).
Definition calls_alike (p q : parameter) : Prop :=
  Forall2 alike (arguments p) (arguments q) /\ Forall2 options_alike (options p) (options q) /\ ppos p = ppos q.
Inductive tree_before : ast -> ast -> Prop :=
| tb_sort : forall a b, (sort_of a < sort_of b)%nat -> tree_before a b
| tb_program : forall l m, ahead alike tree_before l m -> tree_before (Program l) (Program m)
| tb_function : forall s t ps qs, symbol_before s t -> tree_before (Function s ps) (Function t qs)
| tb_calls : forall s ps qs,
    ahead calls_alike
      (fun p q => ahead alike tree_before (arguments p) (arguments q) \/
         Forall2 alike (arguments p) (arguments q) /\
         (ahead options_alike (fun x y => tree_before (fst x) (fst y) \/ alike (fst x) (fst y) /\ tree_before (snd x) (snd y)) (options p) (options q) \/
          Forall2 options_alike (options p) (options q) /\ position_before (ppos p) (ppos q))) ps qs ->
    tree_before (Function s ps) (Function s qs)
| tb_boolean : tree_before (Boolean false) (Boolean true)
| tb_integer : forall m n, m < n -> tree_before (Integer m) (Integer n)
| tb_decimal : forall d e, (value_of d < value_of e)%Q -> tree_before (Decimal d) (Decimal e)
| tb_symbol : forall s t, symbol_before s t -> tree_before (Sym s) (Sym t)
| tb_string : forall s t, text_before s t -> tree_before (Str s) (Str t).
