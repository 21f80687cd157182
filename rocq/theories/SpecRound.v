(** Operator expressions, and which of them are printed unambiguously. *)
From Verif Require Import Base Ast Peg SpecAst SpecSyntax SpecSource.
Local Open Scope Z_scope.

Inductive otree :=
| OInt (n : Z) | OBool (b : bool) | OName (w : str) (l : list str)
| OPre (c : char) (x : otree) | OSuf (double : bool) (x : otree) | OBin (s : str) (x y : otree).

(** the tree the parser builds for it *)
Definition prefix_call (c : char) (a : ast) : ast :=
  call (mkSymbol [lit "std"; lit "prefix"] (match lookup [c] prefix_names with Some n => n | None => [] end) (Prefix [c]) 0) [a].
Definition infix_call (s : str) (a b : ast) : ast :=
  match lookup s operators with Some (_, n, p) => binary n s p [a; b] | None => EmptyStatement end.
Fixpoint ast_of (t : otree) : ast :=
  match t with
  | OInt n => Integer n
  | OBool b => Boolean b
  | OName w l => Sym (named w l)
  | OPre c x => prefix_call c (ast_of x)
  | OSuf double x => if double then suffix_call (lit "factorial2") (lit "!!") (ast_of x) else suffix_call (lit "factorial") (lit "!") (ast_of x)
  | OBin s x y => infix_call s (ast_of x) (ast_of y)
  end.

(** the operators with a function of their own; the point is not printed *)
Definition infix_signs : list str := [lit "+"; lit "-"; lit "*"; [215%N]; lit "/"; [247%N]; lit "^"].
Definition prefix_signs : list char := [43; 45; 42; 33]%N.
(** names are made of segments and do not start with a reserved word *)
Definition good_name (U : unicode) (w : str) (l : list str) : Prop :=
  segment U w = true /\ forallb (segment U) l = true /\ existsb (fun k => starts_with k (w ++ path_tail l)) (statement_words ++ constant_words) = false.
Fixpoint good_tree (U : unicode) (t : otree) : Prop :=
  match t with
  | OInt _ | OBool _ => True
  | OName w l => good_name U w l
  | OPre c x => In c prefix_signs /\ good_tree U x
  | OSuf _ x => good_tree U x
  | OBin s x y => In s infix_signs /\ good_tree U x /\ good_tree U y
  end.

(** how tight an operator binds when it is read, and when it is printed *)
Definition strength (s : str) : Z := match lookup s operators with Some (q, _, _) => q | None => 0 end.
Definition printed (s : str) : Z := match lookup s operators with Some (_, _, p) => p | None => 0 end.

(** printing puts an operand between parentheses only if its operator is printed
    with a lower precedence; otherwise it must bind tighter when it is read, or
    equally tight on the proper side *)
Definition fits_left (s : str) (x : otree) : Prop :=
  match x with OBin s' _ _ => printed s' < printed s \/ strength s' > strength s \/ strength s' = strength s /\ s <> lit "^" | _ => True end.
Definition fits_right (s : str) (y : otree) : Prop :=
  match y with OBin s' _ _ => printed s' < printed s \/ strength s' > strength s \/ strength s' = strength s /\ s = lit "^" | _ => True end.
Definition no_infix (x : otree) : Prop := match x with OBin _ _ _ => False | _ => True end.
(** ! and !! are printed without parentheses, and !! is read as one sign *)
Definition takes_suffix (x : otree) : Prop :=
  match x with OInt _ | OBool _ | OName _ _ | OSuf true _ => True | _ => False end.
Fixpoint faithful (t : otree) : Prop :=
  match t with
  | OInt n => 0 <= n
  | OBool _ | OName _ _ => True
  | OPre _ x => faithful x /\ no_infix x
  | OSuf _ x => faithful x /\ takes_suffix x
  | OBin s x y => faithful x /\ faithful y /\ fits_left s x /\ fits_right s y
  end.

(** literals that are not negative, and names *)
Definition atom (U : unicode) (t : otree) : Prop :=
  match t with OInt n => 0 <= n | OBool _ => True | OName w l => good_name U w l | _ => False end.
(** pairs of trees: what is printed, and what is read instead *)
Definition misread (a b c : otree) : list (otree * otree) :=
  let add := OBin (lit "+") in let sub := OBin (lit "-") in let mul := OBin (lit "*") in let div := OBin (lit "/") in let pow := OBin (lit "^") in
  [(add a (add b c), add (add a b) c); (add a (sub b c), sub (add a b) c);
   (sub a (add b c), add (sub a b) c); (sub a (sub b c), sub (sub a b) c);
   (mul a (mul b c), mul (mul a b) c); (div a (div b c), div (div a b) c);
   (div a (mul b c), mul (div a b) c); (div (mul a b) c, mul a (div b c));
   (pow (pow a b) c, pow a (pow b c));
   (OPre 45%N (add a b), add (OPre 45%N a) b); (OPre 45%N (pow a b), pow (OPre 45%N a) b);
   (OSuf false (add a b), add a (OSuf false b)); (OSuf false (pow a b), pow a (OSuf false b));
   (OSuf false (OPre 45%N a), OPre 45%N (OSuf false a));
   (OSuf false (OSuf false a), OSuf true a); (OSuf true (OSuf false a), OSuf false (OSuf true a))].
