(** Texts that break off inside an expression: what is written so far is right,
    and more has to follow or may follow.  The complete parts are those of the
    reference syntax. *)
From Verif Require Import Base Peg SpecSyntax SpecSource.

Section Texts.
  Variable U : unicode.

  (** an expression *)
  Inductive unfinished : str -> Prop :=
  | u_due : unfinished []
  | u_whole : forall x o g, expr U x o -> spacing g = true -> unfinished (x ++ g)
  | u_open : forall y, opened y -> unfinished y
  (** an operator, and an operand that is due or not complete *)
  | u_operator : forall x o g s g', expr U x o -> spacing g = true -> In s (map fst operators ++ ignored) -> spacing g' = true ->
      (s = lit "/" -> head_is (N.eqb 47) g' = false) -> unfinished (x ++ g ++ s ++ g')
  | u_operand : forall x o g s g' y, expr U x o -> spacing g = true -> In s (map fst operators ++ ignored) -> spacing g' = true ->
      (s = lit "/" -> head_is (N.eqb 47) g' = false) -> (s = lit "." -> g' = [] -> head_is digit y = false) -> opened y ->
      unfinished (x ++ g ++ s ++ g' ++ y)
  (** prefix operators without their operand; an operand with a bracket that is not closed *)
  with opened : str -> Prop :=
  | o_due : forall cs, cs <> [] -> forallb prefix_char cs = true -> opened cs
  | o_prefix : forall cs y, forallb prefix_char cs = true -> bracket_open y -> opened (cs ++ y)
  with bracket_open : str -> Prop :=
  | b_group : forall y, unfinished y -> bracket_open (lit "(" ++ y)
  | b_list : forall g y, spacing g = true -> unfinished y -> bracket_open (lit "[" ++ g ++ y)
  | b_list_more : forall g x os c g' y, spacing g = true -> elements U x os -> comma_char c = true -> spacing g' = true -> unfinished y ->
      bracket_open (lit "[" ++ g ++ x ++ c :: g' ++ y)
  (** a call, perhaps of the result of calls; a derivative *)
  | b_call : forall w l z ps g0 y, segment U w = true -> forallb (segment U) l = true -> calls U z ps -> inline g0 = true -> arguments_open y ->
      bracket_open (w ++ path_tail l ++ z ++ g0 ++ y)
  | b_derivative : forall w l n g0 y, segment U w = true -> forallb (segment U) l = true -> inline g0 = true -> arguments_open y ->
      bracket_open (w ++ path_tail l ++ repeat 39%N (S n) ++ g0 ++ y)
  | b_product : forall k y, product_open k y -> is_call k = false -> bracket_open y
  | b_dictionary : forall g y, spacing g = true -> entry_due y -> bracket_open (lit "{" ++ g ++ y)
  | b_dictionary_more : forall g x c g' y, spacing g = true -> entries U x -> comma_char c = true -> spacing g' = true -> entry_due y ->
      bracket_open (lit "{" ++ g ++ x ++ c :: g' ++ y)
  (** indices after an operand *)
  | b_slice : forall x o z l g0 g y, node U x o -> suffixes U z l -> inline g0 = true -> spacing g = true -> index_due y ->
      bracket_open (x ++ z ++ g0 ++ lit "[" ++ g ++ y)
  | b_slice_more : forall x o z l g0 g v os c g' y, node U x o -> suffixes U z l -> inline g0 = true -> spacing g = true -> indices U v os ->
      comma_char c = true -> spacing g' = true -> index_due y ->
      bracket_open (x ++ z ++ g0 ++ lit "[" ++ g ++ v ++ c :: g' ++ y)
  (** factors, the last one a call *)
  with product_open : factor_kind -> str -> Prop :=
  | p_last : forall k x o g w l z ps g0 y, factor U k x o -> inline g = true -> (g = [] -> touches k (KCall (w ++ path_tail l))) ->
      segment U w = true -> forallb (segment U) l = true -> calls U z ps -> inline g0 = true -> arguments_open y ->
      product_open k (x ++ g ++ w ++ path_tail l ++ z ++ g0 ++ y)
  | p_next : forall k x o g k' y, factor U k x o -> inline g = true -> (g = [] -> touches k k') -> product_open k' y ->
      product_open k (x ++ g ++ y)
  with arguments_open : str -> Prop :=
  | a_first : forall g y, spacing g = true -> argument_due y -> arguments_open (lit "(" ++ g ++ y)
  | a_more : forall g x rs c g' y, spacing g = true -> args U x rs -> comma_char c = true -> spacing g' = true -> argument_due y ->
      arguments_open (lit "(" ++ g ++ x ++ c :: g' ++ y)
  with argument_due : str -> Prop :=
  | a_value : forall y, unfinished y -> argument_due y
  | a_key : forall k g c g' y, word U k = true -> spacing g = true -> colon_char c = true -> spacing g' = true -> unfinished y ->
      argument_due (k ++ g ++ c :: g' ++ y)
  with entry_due : str -> Prop :=
  | d_key : entry_due []
  | d_colon : forall k g, key U k -> spacing g = true -> entry_due (k ++ g)
  | d_value : forall k g c g' y, key U k -> spacing g = true -> colon_char c = true -> spacing g' = true -> unfinished y ->
      entry_due (k ++ g ++ c :: g' ++ y)
  with index_due : str -> Prop :=
  | i_first : forall y, unfinished y -> index_due y
  | i_second : forall d a oa g c g' y, bound U d a oa -> spacing g = true -> (a = [] -> g = []) -> colon_char c = true -> spacing g' = true -> unfinished y ->
      index_due (a ++ g ++ c :: g' ++ y)
  | i_third : forall d a oa g c g' d' b ob g3 c' g4 y, bound U d a oa -> spacing g = true -> (a = [] -> g = []) -> colon_char c = true -> spacing g' = true ->
      bound U d' b ob -> spacing g3 = true -> colon_char c' = true -> spacing g4 = true -> unfinished y ->
      (a <> [] -> g ++ g' ++ b ++ g3 ++ g4 = [] -> head_is (word_head U) y = false) ->
      index_due (a ++ g ++ c :: g' ++ b ++ g3 ++ c' :: g4 ++ y).
End Texts.
