(** Specification vocabulary: texts that avoid given pieces. *)
From Verif Require Import Base SmError Ast Peg Build SpecSyntax.

(** the piece occurs somewhere in the text *)
Definition contains (piece text : str) : Prop := exists before after, text = before ++ piece ++ after.
Definition avoids (pieces : list str) (text : str) : Prop := forall piece, In piece pieces -> ~ contains piece text.

(** 172 is the sign for logical not *)
Definition troublemakers : list str := [lit "."; lit "{"; lit "'"; lit "?"; [172%N]; lit "##"; lit "%%%"].
Definition byte_heads : list str := [lit "0x"; lit "0X"; lit "0o"; lit "0O"; lit "0b"; lit "0B"].

(** no character can begin a name *)
Definition nameless (U : unicode) (text : str) : Prop := forall c, In c text -> word_head U c = false.

(** what a name, a number or a call ends with; what it starts with *)
Definition operand_end (U : unicode) (c : char) : bool := xid_start U c || xid_continue U c || (c =? 41)%N.
Definition operand_start (U : unicode) (d : char) : bool := word_head U d || digit d.
(** somewhere an operand ends and the next one starts after nothing but white space: there is some
    white space, or the first one is closed by a parenthesis, or it ends with a digit and the second one
    starts with a letter, or the second one starts with a character that cannot continue a name (a name
    can start with no such character in Unicode as it is) *)
Definition side_by_side (U : unicode) (text : str) : Prop :=
  exists a c ws d b, text = a ++ [c] ++ ws ++ [d] ++ b /\ operand_end U c = true /\ white ws = true /\ operand_start U d = true /\
    (ws <> [] \/ c = 41%N \/ (digit c = true /\ digit d = false) \/ xid_continue U d = false).

(** parsing ends, without a panic, in a tree or a parse error *)
Definition answers (U : unicode) (text : str) : Prop :=
  forall fname, (exists a, parse U fname text = Ret (Ok a)) \/ parse U fname text = Ret (Err SMParseError).

(** the texts of which C55 says so, and which are not blank *)
Inductive harmless (U : unicode) : str -> Prop :=
| harmless_text : forall g x, spacing g = true -> x <> [] -> head_is white_space x = false -> comment_start x = false -> plain_start x = true ->
    avoids troublemakers x -> (nameless U x \/ ~ contains (lit "(") x /\ avoids byte_heads x \/ ~ side_by_side U x) -> harmless U (g ++ x).
(** the factorial sign and the names of the functions that panic on other arguments *)
Definition loud_words : list str := [lit "!"; lit "first"; lit "last"; lit "length"; lit "factorial"; lit "fibonacci"].
