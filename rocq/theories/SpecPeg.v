(** Specification vocabulary for parsing: spans. *)
From Verif Require Import Base Peg.

(** the characters of [input] from offset a (included) to b (excluded) *)
Definition substring (input : str) (a b : nat) : str := firstn (b - a) (skipn a input).

Definition tree_start {R} (t : tree R) : nat := match t with Node _ a _ _ _ => a end.
Definition tree_stop {R} (t : tree R) : nat := match t with Node _ _ b _ _ => b end.

(** the pairs of l lie one after the other between a and b *)
Fixpoint in_order {R} (a b : nat) (l : list (tree R)) : Prop :=
  match l with
  | [] => (a <= b)%nat
  | t :: l' => (a <= tree_start t <= tree_stop t)%nat /\ in_order (tree_stop t) b l'
  end.

(** every pair of t spans a part of the input, shows that part as its text, and
    its inner pairs lie one after the other inside it *)
Inductive well_spanned {R} (input : str) : tree R -> Prop :=
| well_spanned_node : forall r a b l,
    (a <= b <= length input)%nat ->
    in_order a b l ->
    Forall (well_spanned input) l ->
    well_spanned input (Node r a b (substring input a b) l).
