(** Brackets that match. *)
From Verif Require Import Base SpecFault.

(** the pairs of brackets of the language *)
Definition brackets : list (char * char) := [(40, 41); (91, 93); (123, 125)]%N.
Definition a_bracket (c : char) : Prop := exists d, In (c, d) brackets \/ In (d, c) brackets.
(** every bracket of the text is one of a pair, and pairs do not overlap *)
Inductive balanced : str -> Prop :=
| balanced_nil : balanced []
| balanced_plain : forall c x, ~ a_bracket c -> balanced x -> balanced (c :: x)
| balanced_pair : forall a b x y, In (a, b) brackets -> balanced x -> balanced y -> balanced (a :: x ++ b :: y).
(** c, after u, is a closing bracket and no bracket of u waits for it *)
Definition closes_nothing (u : str) (c : char) : Prop :=
  (exists a, In (a, c) brackets) /\ forall p a x, u = p ++ a :: x -> In (a, c) brackets -> ~ balanced x.
