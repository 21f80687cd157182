(** Property theorems about replies of the web page given back to it as texts
    ([SpecAgain]). *)
From Verif Require Import Base Ast SmError Internal Peg Build Display Runner Track Message Debug SpecSyntax SpecSession SpecImage SpecDebug SpecAgain.
From Verif Require Import ProofSample ProofDebug ProofAgain.
Local Open Scope Z_scope.

(** ** C82 replies as texts *)
(** the reply to a text whose value is a number or a truth value has the same value, and is the reply to itself *)
Theorem C82_plain : forall U W st text b, sane U -> 0 < W -> evaluates_to W (parse U (lit "anonymous")) text b -> plain_value b ->
  exists w, replies U W st text w /\ reads_back U W st b w.
Proof. exact plain_again. Qed.
Print Assumptions C82_plain.
(** so is the reply to a text whose value is a name, if it does not start with a word that starts a statement *)
Theorem C82_name : forall U W st text s, sane U -> 0 < W -> evaluates_to W (parse U (lit "anonymous")) text (Sym s) -> s <> null_symbol ->
  replies U W st text (display_symbol s) /\ (plain_start (display_symbol s) = true -> reads_back U W st (Sym s) (display_symbol s)).
Proof. exact name_again. Qed.
Print Assumptions C82_name.
(** no text has a negative value *)
Theorem C82_unsigned : forall U W st text b w, sane U -> 0 < W -> evaluates_to W (parse U (lit "anonymous")) text b -> number b ->
  replies U W st text w -> unsigned_numeral w.
Proof. exact unsigned_values. Qed.
Print Assumptions C82_unsigned.
(** not so for null, for other names and for strings: the reply to null is refused as a text, giving back the reply to (letter)
    is a panic, and the reply to the string 2^10 is a text with another reply *)
Theorem C82_refuted : exists st, let p := parse ascii_only (lit "anonymous") in
  (evaluates_to 64 p (lit "null") (Sym null_symbol) /\ replies ascii_only 64 st (lit "null") (lit "std::constant:Null") /\ fails_with 64 p (lit "std::constant:Null") SMParseError) /\
  (evaluates_to 64 p (lit "(letter)") (Sym (mkSymbol [] (lit "letter") Normal 0)) /\ replies ascii_only 64 st (lit "(letter)") (lit "letter") /\ p (lit "letter") = Panic PUnreachable) /\
  (evaluates_to 64 p (lit """2^10""") (Str (lit "2^10")) /\ replies ascii_only 64 st (lit """2^10""") (lit "2^10") /\ replies ascii_only 64 st (lit "2^10") (lit "1024")).
Proof. exact again_refuted. Qed.
Print Assumptions C82_refuted.
(** 5! and a decimal *)
Example C82_example : evaluates_to 64 (parse ascii_only (lit "anonymous")) (lit "5!") (Integer 120) /\ plain_value (Integer 120) /\
  evaluates_to 64 (parse ascii_only (lit "anonymous")) (lit "1.50") (Decimal (mkDecimal 150 2)) /\ number (Decimal (mkDecimal 150 2)) /\
  reads_back ascii_only 64 old_style (Integer 120) (lit "120") /\ reads_back ascii_only 64 old_style (Decimal (mkDecimal 150 2)) (lit "1.50") /\
  evaluates_to 64 (parse ascii_only (lit "anonymous")) (lit "(a::b)") (Sym (mkSymbol [lit "a"] (lit "b") Normal 0)) /\ plain_start (display_symbol (mkSymbol [lit "a"] (lit "b") Normal 0)) = true.
Proof. exact again_example. Qed.
Print Assumptions C82_example.
