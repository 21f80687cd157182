(** Texts that are expensive to parse, and nesting. *)
From Verif Require Import Base Ast Peg.

(** x1[x2[...[y]...]] *)
Fixpoint indexed (xs : list str) (y : str) : str :=
  match xs with [] => y | x :: xs' => x ++ lit "[" ++ indexed xs' y ++ lit "]" end.
(** f1(f2(...fn(y *)
Fixpoint unclosed (fs : list str) (y : str) : str :=
  match fs with [] => y | f :: fs' => f ++ lit "(" ++ unclosed fs' y end.

(** ** Nesting *)
(** the signs after which something nested may follow: brackets, the @ of an annotation, the = of a
    declaration, the % of a comment *)
Definition nesting_signs : str := lit "([{@=%".
Definition nesting_sign (c : char) : bool := existsb (N.eqb c) nesting_signs.
Definition signs (text : str) : nat := length (filter nesting_sign text).
(** ((...(y)...)) *)
Definition wrapped (n : nat) (y : str) : str := repeat 40%N n ++ y ++ repeat 41%N n.
(** how deep pairs nest *)
Fixpoint pair_levels {R} (t : tree R) : nat := match t with Node _ _ _ _ l => S (list_max (map pair_levels l)) end.
(** how deep a tree is: an atom is 1 *)
Fixpoint tree_levels (a : ast) : nat :=
  match a with
  | Program l => S (list_max (map tree_levels l))
  | Function _ ps => S (list_max (map (fun p => list_max (map tree_levels (arguments p))) ps))
  | _ => 1
  end.
