(** What an export to Wolfram leaves of a tree. *)
From Verif Require Import Base Ast.
Local Open Scope Z_scope.

(** x is a part of a tree, or the tree *)
Inductive within (x : ast) : ast -> Prop :=
| within_self : within x x
| within_program : forall l a, In a l -> within x a -> within x (Program l)
| within_argument : forall s ps p a, In p ps -> In a (arguments p) -> within x a -> within x (Function s ps)
| within_key : forall s ps p k v, In p ps -> In (k, v) (options p) -> within x k -> within x (Function s ps)
| within_value : forall s ps p k v, In p ps -> In (k, v) (options p) -> within x v -> within x (Function s ps).

Section Export.
  (** [cap] capitalises the first letter *)
  Variable cap : str -> str.
  (** the Wolfram name of a function *)
  Inductive wolfram_name : str -> str -> Prop :=
  | wolfram_factor : wolfram_name (lit "factor") (lit "FactorInteger")
  | wolfram_other : forall n, n <> lit "factor" -> wolfram_name n (cap n).
  (** the Wolfram names that the export uses itself *)
  Definition reserved : list str := [lit "Rule"; lit "True"; lit "False"; lit "CompoundExpression"].
  Definition calls_nothing_reserved (a : ast) : Prop := forall s ps n, within (Function s ps) a -> wolfram_name (name s) n -> ~ In n reserved.
  (** no decimal stands for a number with zeros before the point left out *)
  Definition decimals_written (a : ast) : Prop := forall d, within (Decimal d) a -> 0 <= dec_scale d.

  (** the same trees but for positions, namespaces, kinds and attributes, where the functions have the same Wolfram names *)
  Inductive agree : ast -> ast -> Prop :=
  | agree_empty : agree EmptyStatement EmptyStatement
  | agree_program : forall l m, Forall2 agree l m -> agree (Program l) (Program m)
  | agree_function : forall s t n ps qs, wolfram_name (name s) n -> wolfram_name (name t) n ->
      Forall2 (fun p q => Forall2 agree (arguments p) (arguments q) /\
                          Forall2 (fun e f => agree (fst e) (fst f) /\ agree (snd e) (snd f)) (options p) (options q)) ps qs ->
      agree (Function s ps) (Function t qs)
  | agree_boolean : forall b, agree (Boolean b) (Boolean b)
  | agree_integer : forall n, agree (Integer n) (Integer n)
  | agree_decimal : forall d, agree (Decimal d) (Decimal d)
  | agree_symbol : forall s t, name s = name t -> agree (Sym s) (Sym t)
  | agree_string : forall s, agree (Str s) (Str s).
End Export.
