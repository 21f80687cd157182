(** Where the parts of a tree come from, and how large a tree is. *)
From Verif Require Import Base Ast SpecAst SpecSyntax SpecSource SpecSafe SpecValue.
Local Open Scope Z_scope.

(** the names that the parser adds *)
Definition added_names : list str :=
  [lit "std::core::index"; lit "std::core::Index"; lit "std::core::Span"; lit "std::core::All"; lit "std::core::slot"; lit "std::core::slot_sequence";
   lit "std::containers::List"; lit "std::repl::input"; lit "std::repl::output"; lit "std::constant:Null"].

Section Origin.
  Variable text : str.
  (** a name of the text, with its path, or one that the parser adds; an operator whose sign is in the text;
      the product that is written without a sign *)
  Inductive taken_symbol : symbol -> Prop :=
  | taken_name : forall w s, SpecSafe.contains w text \/ In w added_names -> named w s -> taken_symbol s
  | taken_infix : forall o q n p, SpecSource.lookup o SpecSource.operators = Some (q, n, p) -> SpecSafe.contains o text ->
      taken_symbol (mkSymbol [lit "std"; lit "infix"] n (Infix o p) 0)
  | taken_prefix : forall o n, SpecSource.lookup o SpecSource.prefix_names = Some n -> SpecSafe.contains o text ->
      taken_symbol (mkSymbol [lit "std"; lit "prefix"] n (Prefix o) 0)
  | taken_suffix : forall o n, SpecSource.lookup o suffix_names = Some n -> SpecSafe.contains o text ->
      taken_symbol (mkSymbol [lit "std"; lit "suffix"] n (Suffix o) 0)
  | taken_product : taken_symbol (mkSymbol [lit "std"; lit "infix"] (lit "times") (Infix (lit "*") 140) 0).
  (** a numeral of the text; 1 for a missing bound; a number of marks, counted back *)
  Inductive taken_integer : Z -> Prop :=
  | taken_numeral : forall w, SpecSafe.contains w text -> SpecValue.digits w -> taken_integer (numeral_value w)
  | taken_based : forall b P s, SpecSafe.contains (48%N :: b :: s) text -> based b P -> grouped P s = true -> taken_integer (based_value (base_of b) s)
  | taken_bound : taken_integer 1
  | taken_marks : forall n, - Z.of_nat (length text) <= n < 0 -> taken_integer n.
  Inductive drawn : ast -> Prop :=
  | drawn_empty : drawn EmptyStatement
  | drawn_true : SpecSafe.contains (lit "true") text -> drawn (Boolean true)
  | drawn_false : SpecSafe.contains (lit "false") text -> drawn (Boolean false)
  | drawn_integer : forall n, taken_integer n -> drawn (Integer n)
  | drawn_decimal : forall x y, SpecSafe.contains (x ++ lit "." ++ y) text -> digits x -> digits y ->
      drawn (Decimal (mkDecimal (numeral_value (x ++ y)) (Z.of_nat (length y))))
  | drawn_symbol : forall s, taken_symbol s -> drawn (Sym s)
  | drawn_string : forall s, SpecSafe.contains s text -> drawn (Str s)
  | drawn_call : forall s ps, taken_symbol s ->
      Forall (fun p => Forall drawn (arguments p) /\ Forall (fun o => drawn (fst o) /\ drawn (snd o)) (options p)) ps -> drawn (Function s ps).
End Origin.

(** the number of nodes: a call, an argument, the key and the value of an option *)
Fixpoint nodes (a : ast) : nat :=
  match a with
  | Program l => S (list_sum (map nodes l))
  | Function _ ps => S (list_sum (map (fun p => (list_sum (map nodes (arguments p)) + list_sum (map (fun o => nodes (fst o) + nodes (snd o)) (options p)))%nat) ps))
  | _ => 1
  end.
