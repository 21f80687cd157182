(** Expressions whose last operand cannot take what is written after it.  The
    reference syntax is in [SpecSource]. *)
From Verif Require Import Base Ast Peg SpecAst SpecClimb SpecSyntax SpecSource.
Local Open Scope outcome_scope.

Section Juxta.
  Variable U : unicode.

  (** ( [ { or a quote, which the operand closes itself *)
  Definition enclosed (x : str) : bool := head_is (fun c => existsb (N.eqb c) [40; 91; 123; 34]%N) x.
  (** # ¶ ⁋ *)
  Definition mark (c : char) : bool := existsb (N.eqb c) [35; 182; 8267]%N.

  (** ** Operands that cannot be called: numbers, parentheses, lists, dictionaries, strings, references and slots *)
  Inductive uncallable : str -> outcome ast -> Prop :=
  | u_integer : forall x, numeral x = true -> uncallable x (Ret (Integer (numeral_value x)))
  | u_decimal : forall x y, numeral x = true -> numeral y = true ->
      uncallable (x ++ lit "." ++ y) (Ret (Decimal (mkDecimal (numeral_value (x ++ y)) (Z.of_nat (length y)))))
  | u_based : forall b P s, based b P -> s <> [] -> grouped P s = true -> uncallable (lit "0" ++ b :: s) (byte_value b s)
  | u_enclosed : forall x o, node U x o -> enclosed x = true -> uncallable x o
  | u_tagged : forall w x s, word U w = true -> constant_like w = false -> literal x s -> uncallable (w ++ x) (Ret (Str s))
  | u_mark : forall x o, node U x o -> head_is mark x = true -> uncallable x o.

  (** ** Operands that cannot be factors of a product: parentheses, lists, dictionaries, strings and calls *)
  Inductive unfactored : str -> outcome ast -> Prop :=
  | v_enclosed : forall x o, node U x o -> enclosed x = true -> unfactored x o
  | v_tagged : forall w x s, word U w = true -> constant_like w = false -> literal x s -> unfactored (w ++ x) (Ret (Str s))
  | v_call : forall w l y p ps, segment U w = true -> forallb (segment U) l = true -> calls U y (p :: ps) ->
      unfactored (w ++ path_tail l ++ y) (qs <- all (p :: ps); Ret (Function (named w l) qs))
  | v_derivative : forall w l n y p, segment U w = true -> forallb (segment U) l = true -> calls U y [p] ->
      unfactored (w ++ path_tail l ++ repeat 39%N (S n) ++ y) (Panic PUnreachable).

  (** ** Expressions of the reference syntax whose last operand is in a class *)
  Section Ends.
    (** the last operand when it has no suffix, and what is allowed as its suffixes otherwise *)
    Variable last_operand : str -> outcome ast -> Prop.
    Variable last_suffix : str -> Prop.
    Inductive last_term : str -> outcome ast -> Prop :=
    | lt_operand : forall cs x o, forallb prefix_char cs = true -> last_operand x o -> last_term (cs ++ x) (a <- o; prefix_value cs a)
    | lt_suffix : forall cs x o y l, forallb prefix_char cs = true -> node U x o -> suffixes U y l -> y <> [] -> last_suffix y ->
        last_term (cs ++ x ++ y) (a <- o; b <- suffix_value l a; prefix_value cs b).
    Inductive last_rest : str -> list token -> Prop :=
    | lr_last : forall g s g' x o, spacing g = true -> In s (map fst operators ++ ignored) -> spacing g' = true -> last_term x o ->
        (s = lit "." -> g' = [] -> head_is digit x = false) -> (s = lit "/" -> head_is (N.eqb 47) g' = false) ->
        last_rest (g ++ s ++ g' ++ x) [Sign s; Operand o]
    | lr_more : forall g s g' x o y l, spacing g = true -> In s (map fst operators ++ ignored) -> spacing g' = true -> term U x o ->
        (s = lit "." -> g' = [] -> head_is digit x = false) -> (s = lit "/" -> head_is (N.eqb 47) g' = false) -> last_rest y l ->
        last_rest (g ++ s ++ g' ++ x ++ y) (Sign s :: Operand o :: l).
    Inductive ends_in : str -> outcome ast -> Prop :=
    | en_term : forall x o, last_term x o -> ends_in x o
    | en_rest : forall x o y l b, term U x o -> last_rest y l -> forallb known l = true ->
        written b = Operand o :: l -> well_bracketed token_strength token_to_right b -> ends_in (x ++ y) (evaluate token_value token_apply b)
    | en_cut : forall x o y l z m b, term U x o -> rest U y l -> forallb known l = true -> last_rest z m -> cut m = true ->
        written b = Operand o :: l -> well_bracketed token_strength token_to_right b -> ends_in (x ++ y ++ z) (evaluate token_value token_apply b).
  End Ends.

  (** a prime before an argument list would make a derivative of the name before it *)
  Definition not_callable : str -> outcome ast -> Prop := ends_in uncallable (fun y => last y 0%N <> 39%N).
  Definition not_a_factor : str -> outcome ast -> Prop := ends_in unfactored (fun _ => True).
  (** a number, a word, a reference or a slot starts here *)
  Definition begins (c : char) : bool := digit c || word_head U c || mark c.
End Juxta.
