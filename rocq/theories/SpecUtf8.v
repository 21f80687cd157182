(** UTF-8: the bytes of a character and of a text (RFC 3629, section 3). *)
From Verif Require Import Base.
Local Open Scope N_scope.

(** In the last case a is below 5 for the characters there are. *)
Inductive utf8_char : char -> list N -> Prop :=
| utf8_1 : forall a, a < 128 -> utf8_char a [a]
| utf8_2 : forall a b, a < 32 -> b < 64 -> 128 <= a * 64 + b -> utf8_char (a * 64 + b) [192 + a; 128 + b]
| utf8_3 : forall a b c, a < 16 -> b < 64 -> c < 64 -> 2048 <= (a * 64 + b) * 64 + c -> utf8_char ((a * 64 + b) * 64 + c) [224 + a; 128 + b; 128 + c]
| utf8_4 : forall a b c d, b < 64 -> c < 64 -> d < 64 -> 65536 <= ((a * 64 + b) * 64 + c) * 64 + d ->
    utf8_char (((a * 64 + b) * 64 + c) * 64 + d) [240 + a; 128 + b; 128 + c; 128 + d].
Inductive utf8 : str -> list N -> Prop :=
| utf8_none : utf8 [] []
| utf8_more : forall c bs s l, utf8_char c bs -> utf8 s l -> utf8 (c :: s) (bs ++ l).

(** phi replaces characters by characters with as many bytes *)
Definition keeps_size (phi : char -> char) : Prop := forall c bs bs', utf8_char c bs -> utf8_char (phi c) bs' -> length bs' = length bs.
