(** Specification vocabulary for the AST layer, independent of the model's
    functions. *)
From Verif Require Import Base Ast.

(** ** Which trees cannot be printed *)
Inductive unprintable : ast -> Prop :=
| unprintable_empty : unprintable EmptyStatement
| unprintable_program : forall l, unprintable (Program l)
| unprintable_call : forall s ps, kind s = Normal \/ kind s = Alias -> unprintable (Function s ps)
| unprintable_prefix : forall s o x pos,
    kind s = Prefix o -> unprintable x -> unprintable (Function s [mkParam [x] [] pos])
| unprintable_suffix : forall s o x pos,
    kind s = Suffix o -> unprintable x -> unprintable (Function s [mkParam [x] [] pos])
| unprintable_infix : forall s o q args x pos,
    kind s = Infix o q -> (2 <= length args)%nat -> In x args -> unprintable x ->
    unprintable (Function s [mkParam args [] pos]).

(** ** Ordered maps *)

(** the value written last for key k in a list of writes *)
Inductive last_write {K V} (same : K -> K -> Prop) (k : K) (v : V) : list (K * V) -> Prop :=
| last_write_intro : forall before k' after,
    same k k' -> (forall e, In e after -> ~ same k (fst e)) ->
    last_write same k v (before ++ (k', v) :: after).

Definition strictly_increasing {K} (lt : K -> K -> Prop) (l : list K) : Prop :=
  forall i j a b, (i < j)%nat -> nth_error l i = Some a -> nth_error l j = Some b -> lt a b.

(** ** ASTs that differ only in positions, namespaces, operator kinds and
    attributes *)
Inductive same_shape : ast -> ast -> Prop :=
| shape_empty : same_shape EmptyStatement EmptyStatement
| shape_program : forall l m, Forall2 same_shape l m -> same_shape (Program l) (Program m)
| shape_function : forall s t ps qs,
    name s = name t ->
    Forall2 (fun p q => Forall2 same_shape (arguments p) (arguments q) /\
                        Forall2 (fun e f => same_shape (fst e) (fst f) /\ same_shape (snd e) (snd f))
                                (options p) (options q)) ps qs ->
    same_shape (Function s ps) (Function t qs)
| shape_boolean : forall b, same_shape (Boolean b) (Boolean b)
| shape_integer : forall n, same_shape (Integer n) (Integer n)
| shape_decimal : forall d, same_shape (Decimal d) (Decimal d)
| shape_symbol : forall s t, name s = name t -> same_shape (Sym s) (Sym t)
| shape_string : forall s, same_shape (Str s) (Str s).

(** t is a contiguous part of s *)
Definition occurs (t s : str) : Prop := exists a b, s = a ++ t ++ b.

Definition ascii_text (s : str) : Prop := Forall (fun c => (c < 128)%N) s.

(** ** Decimal numerals *)
Definition is_digit (c : char) : Prop := (48 <= c <= 57)%N.
Definition digit_value (c : char) : Z := Z.of_N c - 48.
(** value of a digit string, most significant digit first *)
Definition numeral_value (s : str) : Z :=
  fold_left (fun a c => (10 * a + digit_value c)%Z) s 0%Z.
(** s is the usual decimal numeral of n: digits only, value n, no leading zero *)
Definition numeral_of (n : Z) (s : str) : Prop :=
  s <> [] /\ Forall is_digit s /\ numeral_value s = n /\
  (hd_error s = Some 48%N -> s = [48%N]).

(** ** ASTs up to source positions *)
Fixpoint forget_positions (a : ast) : ast :=
  match a with
  | Program l => Program (map forget_positions l)
  | Function s ps =>
      Function s (map (fun p => mkParam (map forget_positions (arguments p))
                                        (map (fun e => (forget_positions (fst e), forget_positions (snd e))) (options p))
                                        default_position) ps)
  | a => a
  end.
(** the same on what [parse] returns *)
Definition forget_result {E} (r : result ast E) : result ast E :=
  match r with Ok a => Ok (forget_positions a) | Err e => Err e end.
