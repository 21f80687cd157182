(** Property theorems about what the web page writes when the evaluation of a text
    fails ([SpecDebug]). *)
From Verif Require Import Base Ast SmError Internal Peg Build Runner Track Message Debug SpecAst SpecSyntax SpecSession SpecImage SpecDebug.
From Verif Require Import ProofSample ProofDebug.
Local Open Scope N_scope.

(** ** C81 errors on the web page *)
(** one line: the name of the error, and what it carries as a string literal; whatever came before *)
Theorem C81_reply : forall U W st text e, fails_with W (parse U (lit "anonymous")) text e ->
  exists w, replies U W st text w /\ one_line w /\ written_error (message_of U text) e w.
Proof. exact error_reply. Qed.
Print Assumptions C81_reply.
(** for a refused text this is the message of C80 *)
Theorem C81_refused : forall U W st text, parse U (lit "anonymous") text = Ret (Err SMParseError) ->
  exists m body, message U text = Some (Ret m) /\ literal_of body m /\ replies U W st text (lit "ParseError(""" ++ body ++ lit """)").
Proof. exact refused_reply. Qed.
Print Assumptions C81_refused.
(** the error can be read off the reply *)
Theorem C81_readable : forall m m' e e' w, written_error m e w -> written_error m' e' w -> error_name e = error_name e' /\ carried m e = carried m' e'.
Proof. exact written_read. Qed.
Print Assumptions C81_readable.
Theorem C81_same_error : forall U W st s t e e' w, fails_with W (parse U (lit "anonymous")) s e -> fails_with W (parse U (lit "anonymous")) t e' ->
  replies U W st s w -> replies U W st t w -> e = e' /\ (e = SMParseError -> message_of U s = message_of U t).
Proof. exact failed_same. Qed.
Print Assumptions C81_same_error.
Theorem C81_same_place : forall U W st s t w, parse U (lit "anonymous") s = Ret (Err SMParseError) -> parse U (lit "anonymous") t = Ret (Err SMParseError) ->
  replies U W st s w -> replies U W st t w -> error_place U s = error_place U t.
Proof. exact refused_same. Qed.
Print Assumptions C81_same_place.
(** but not that there was an error: each of these replies is also the reply to a text that is read as a string and evaluates to it *)
Theorem C81_mimicked : forall U, sane U -> forall st text e, exists text', parse U (lit "anonymous") text' = Ret (Ok (Str (debug_error U st text e))) /\ forall W, replies U W st text' (debug_error U st text e).
Proof. exact error_mimicked. Qed.
Print Assumptions C81_mimicked.
(** almost everything is the reply to some text: all that neither begins nor ends with a quotation mark *)
Theorem C81_any_reply : forall U, sane U -> forall w, writable_string w -> exists text, parse U (lit "anonymous") text = Ret (Ok (Str w)) /\ forall W st, replies U W st text w.
Proof. exact string_reply. Qed.
Print Assumptions C81_any_reply.
(** the reply to a factorial that is too large is the reply to the name Overflow *)
Example C81_example : fails_with 64 (parse ascii_only (lit "anonymous")) (lit "9223372036854775808!") Overflow /\
  replies ascii_only 64 old_style (lit "9223372036854775808!") (lit "Overflow") /\ replies ascii_only 64 old_style (lit "Overflow") (lit "Overflow") /\
  debug_error ascii_only old_style (lit "1 + " ++ [10] ++ lit " &") SMParseError =
    lit "ParseError("" --> 2:2\n  |\n2 |  &\n  |  ^---\n  |\n  = expected term or MultiLineComment"")" /\
  debug_error ascii_only old_style [] (SMIOError [97; 34; 955; 39; 0]) = lit "IOError(""a\""\u{3bb}\'\u{0}"")".
Proof. exact debug_sample. Qed.
