(** Property theorems about what the parser takes for a comment or a string.  The
    vocabulary is in [SpecOutside]. *)
From Verif Require Import Base Ast SmError Internal Peg Grammar Build Track SpecSyntax SpecOutside.
From Verif Require Import ProofOutside ProofSample.
Local Open Scope outcome_scope.
Local Open Scope nat_scope.

(** ** C84 comments and strings *)
(** a comment, tried at any place of any text, is read up to where [after_comment] says, and only there *)
Theorem C84_comment : forall U m s k,
  (exists n s1 ts, run U grammar skip_body n (ECall R_COMMENT) m false s = POk s1 ts /\ rest s1 = k) <-> after_comment (rest s) = Some k.
Proof. exact comment_taken. Qed.
Print Assumptions C84_comment.
(** a string in single quotes ends at the next quote that is not escaped *)
Theorem C84_quoted : forall U m s k,
  (exists n s1 ts, run U grammar skip_body n (ECall R_StringNormal) m false s = POk s1 ts /\ rest s1 = k) <-> exists v, rest s = 34%N :: v /\ after_quote v = Some k.
Proof. exact normal_taken. Qed.
Print Assumptions C84_quoted.
(** a string in three or more quotes ends at the next place with that many quotes in a row *)
Theorem C84_fenced : forall U m s k,
  (exists n s1 ts, run U grammar skip_body n (ECall R_StringBlock) m false s = POk s1 ts /\ rest s1 = k) <->
  3 <= quotes (rest s) /\ after_quotes (quotes (rest s)) (skipn (quotes (rest s)) (rest s)) = Some k.
Proof. exact fence_taken. Qed.
Print Assumptions C84_fenced.
(** a text that starts with %%% and has an even number of them after that is refused, whatever else it contains: comments do
    not nest, and of an odd number of %%% the first is no comment *)
Theorem C84_even : forall U g v, spacing g = true -> Nat.even (markers v) = true -> forall f, parse U f (g ++ lit "%%%" ++ v) = Ret (Err SMParseError).
Proof. exact even_refused. Qed.
Print Assumptions C84_even.

(** a comment up to the next %%%, if that makes an even number in all; three of them: the first is no comment, the second starts one *)
Example C84_example : after_comment (lit "%%% a %%% b") = Some (lit " b") /\ after_comment (lit "%%% a %%% b %%% c") = None /\
  after_comment (lit "%%% a %%% b %%% c %%% d") = Some (lit " b %%% c %%% d") /\ after_comment (lit "/// a" ++ 10%N :: lit "b") = Some (10%N :: lit "b") /\
  after_comment (lit "// a") = None /\ after_string (lit """a\""b"" c") = Some (lit " c") /\ after_string (lit """""""a""""b"""""" c") = Some (lit " c") /\
  markers (lit " a %%% b %%% c") = 2 /\ markers (lit "%%%%%%%") = 2 /\ outside (lit "a %%% b %%% c %%% d") = Some (lit "a %%% b  d") /\
  parse ascii_only [] (lit "%%% a %%% b %%% c") = Ret (Err SMParseError).
Proof. repeat split; vm_compute; reflexivity. Qed.
