(** Which trees the parser can return. *)
From Verif Require Import Base Ast Peg SpecAst SpecOrder SpecSyntax SpecSource.
Local Open Scope Z_scope.

(** [null] *)
Definition null_symbol : symbol := mkSymbol [lit "std"] (lit "constant:Null") Normal 0.
Definition input_symbol (output : bool) : symbol :=
  mkSymbol [lit "std"; lit "repl"] (if output then lit "output" else lit "input") Normal 0.
Definition times_symbol : symbol := mkSymbol [lit "std"; lit "infix"] (lit "times") (Infix (lit "*") 140) 0.
(** symbols with names of their own that stand before arguments, and the least number of arguments *)
Inductive operator_symbol : symbol -> nat -> Prop :=
| operator_infix : forall s q n p, In (s, (q, n, p)) operators -> s <> lit "." -> operator_symbol (mkSymbol [lit "std"; lit "infix"] n (Infix s p) 0) 2
| operator_prefix : forall s n, In (s, n) prefix_names -> operator_symbol (mkSymbol [lit "std"; lit "prefix"] n (Prefix s) 0) 1
| operator_suffix : forall s n, In (s, n) [(lit "!", lit "factorial"); (lit "!!", lit "factorial2")] ->
    operator_symbol (mkSymbol [lit "std"; lit "suffix"] n (Suffix s) 0) 1
| operator_null : operator_symbol null_symbol 1.

(** m has k digits, without a zero before them *)
Definition has_digits (k m : Z) : Prop := k = 1 /\ 0 <= m < 10 \/ 1 < k /\ 10 ^ (k - 1) <= m < 10 ^ k.
(** a string that can be written between single or between triple quotes *)
Definition writable_string (s : str) : Prop :=
  quotable s = true \/ s <> [] /\ hd_error s <> Some 34%N /\ last s 0%N <> 34%N.
(** option keys in the order of their names *)
Definition earlier_key (a b : ast) : Prop :=
  match a, b with Sym s, Sym t => text_before (name s) (name t) | _, _ => False end.

Section Image.
  Variable U : unicode.
  Definition name_parts (s : symbol) : list str := name_space s ++ [name s].
  (** a name that can be written *)
  Definition writable (s : symbol) : Prop :=
    Forall (fun x => segment U x = true) (name_parts s) /\ kind s = Normal /\ attributes s = 0.
  (** it does not start with null, true or false *)
  Definition ordinary (s : symbol) : Prop := constant_like (hd [] (name_parts s)) = false.
  (** factors written side by side; there names may start with null, true or false *)
  Inductive simple_factor : ast -> Prop :=
  | factor_integer : forall n, 0 <= n -> simple_factor (Integer n)
  | factor_symbol : forall s, writable s -> simple_factor (Sym s).

  Inductive produced : ast -> Prop :=
  | produced_integer : forall n, 0 <= n -> produced (Integer n)
  | produced_decimal : forall n m k, 0 <= n -> has_digits k m -> produced (Decimal (mkDecimal (n * 10 ^ k + m) k))
  | produced_boolean : forall b, produced (Boolean b)
  | produced_null : produced (Sym null_symbol)
  | produced_name : forall s, writable s -> ordinary s -> produced (Sym s)
  | produced_string : forall s, writable_string s -> produced (Str s)
  | produced_call : forall s ps, writable s -> ps <> [] ->
      Forall (fun p => Forall produced (arguments p) /\ strictly_increasing earlier_key (map fst (options p)) /\
        Forall (fun o => (exists k, fst o = Sym (mkSymbol [] k Normal 0) /\ word U k = true) /\ produced (snd o)) (options p)) ps ->
      produced (Function s ps)
  (** a.(b+c) puts a before the other arguments *)
  | produced_operator : forall s n args p, operator_symbol s n -> (n <= length args)%nat -> Forall produced args -> produced (Function s [mkParam args [] p])
  | produced_product : forall l vs p, Forall produced l -> (2 <= length vs)%nat -> Forall simple_factor vs -> produced (Function times_symbol [mkParam (l ++ vs) [] p])
  (** the only negative integers *)
  | produced_back : forall o n l p, n < 0 -> Forall produced l -> produced (Function (input_symbol o) [mkParam (l ++ [Integer n]) [] p]).
End Image.
