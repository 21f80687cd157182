(** Property theorems: which pieces of a text can make the parser panic.  [answers],
    [avoids], [contains] and [side_by_side] are in [SpecSafe]. *)
From Verif Require Import Base Ast SmError Peg Build Runner SpecSyntax SpecSafe SpecAnswer.
From Verif Require Import ProofSample ProofSafe ProofQuiet.

(** ** C55 texts that cannot make the parser panic *)
(** In each of the three theorems the text is any text at all, well formed or not, that
    does not start (after white space and line comments) with a comment or another kind of statement and
    does not contain . { ' ? ## %%% or the sign for logical not. *)
(** no names *)
Theorem C55_nameless : forall U g x, spacing g = true -> head_is white_space x = false -> comment_start x = false -> plain_start x = true ->
  avoids troublemakers x -> nameless U x -> answers U (g ++ x).
Proof. exact nameless_answers. Qed.
Print Assumptions C55_nameless.
(** names, but no parentheses and no 0x, 0o, 0b *)
Theorem C55_no_calls : forall U g x, spacing g = true -> head_is white_space x = false -> comment_start x = false -> plain_start x = true ->
  avoids troublemakers x -> ~ contains (lit "(") x -> avoids byte_heads x -> answers U (g ++ x).
Proof. exact flat_answers. Qed.
Print Assumptions C55_no_calls.
(** names and calls, but no operands side by side *)
Theorem C55_no_products : forall U g x, spacing g = true -> head_is white_space x = false -> comment_start x = false -> plain_start x = true ->
  avoids troublemakers x -> ~ side_by_side U x -> answers U (g ++ x).
Proof. exact spaced_answers. Qed.
Print Assumptions C55_no_products.
(** none of the pieces can be allowed in general: some text with that piece, and none of
    the others, makes the parser panic *)
Theorem C55_each_piece_matters : forall U, sane U -> forall piece, In piece troublemakers -> exists x,
  head_is white_space x = false /\ comment_start x = false /\ plain_start x = true /\ nameless U x /\
  (forall other, In other troublemakers -> other <> piece -> ~ contains other x) /\
  forall fname, parse U fname x = Panic PUnreachable.
Proof. exact piece_matters. Qed.
Print Assumptions C55_each_piece_matters.
(** so do a call, or a based literal, next to another operand *)
Theorem C55_products_matter : forall U fname,
  parse U fname (lit "x f(y)") = Panic PUnreachable /\ parse U fname (lit "2 0x1") = Panic PUnreachable.
Proof. exact products_matter. Qed.
Print Assumptions C55_products_matter.
Example C55_example :
  (let x := lit "((1 + 2!) * 3 ) 4 - [5, -6][::2] ]) = )) 7; ; (" in
   head_is white_space x = false /\ comment_start x = false /\ plain_start x = true /\ avoids troublemakers x /\ nameless ascii_only x /\
   (exists a, parse ascii_only [] (lit "((1 + 2!) * 3) - [4, -5][1:2]") = Ret (Ok a))) /\
  (let x := lit "a b - 2 c::d[3] = true + [" in
   head_is white_space x = false /\ comment_start x = false /\ plain_start x = true /\ avoids troublemakers x /\
   ~ contains (lit "(") x /\ avoids byte_heads x /\ (exists a, parse ascii_only [] (lit "a b - 2 c::d[3] = true") = Ret (Ok a))) /\
  (let x := lit "f(x, k: [1, 2])(y) * (g(-3)! + z[1:])" in
   head_is white_space x = false /\ comment_start x = false /\ plain_start x = true /\ avoids troublemakers x /\ ~ side_by_side ascii_only x /\
   (exists a, parse ascii_only [] x = Ret (Ok a))).
Proof.
  split; [|split]; cbv zeta; (split; [reflexivity|]); (split; [reflexivity|]); (split; [reflexivity|]); (split; [apply avoids_chk; vm_compute; reflexivity|]).
  - split; [apply nameless_chk_text; vm_compute; reflexivity|]. eexists. vm_compute. reflexivity.
  - split; [apply (avoids_chk [lit "("]); [vm_compute; reflexivity|left; reflexivity]|]. split; [apply avoids_chk; vm_compute; reflexivity|]. eexists. vm_compute. reflexivity.
  - split; [apply beside_chk; vm_compute; reflexivity|]. eexists. vm_compute. reflexivity.
Qed.

(** ** C56 texts that cannot make a session panic *)
(** [harmless]: not blank, and of one of the three kinds of C55 *)
Theorem C56_answers : forall U W calls text, harmless U text -> avoids loud_words text -> exists r, answer U W calls text = Ret r.
Proof. exact harmless_answer. Qed.
Print Assumptions C56_answers.
(** on the web page, after any calls none of which panicked *)
Theorem C56_playground : forall U W debug calls text,
  Forall (fun r => is_ret r = true) (pg_run W (parse U (lit "anonymous")) debug calls fresh_playground) ->
  harmless U text -> avoids loud_words text ->
  Forall (fun r => is_ret r = true) (pg_run W (parse U (lit "anonymous")) debug (calls ++ [CallResult text]) fresh_playground).
Proof. exact harmless_playground. Qed.
Print Assumptions C56_playground.
(** none of the words can be allowed in general *)
Theorem C56_each_word_matters : forall U W calls w, In w loud_words -> exists text, harmless U text /\ contains w text /\
  (forall other, In other loud_words -> other <> w -> ~ contains other text) /\ exists k, answer U W calls text = Panic k.
Proof. exact words_matter. Qed.
Print Assumptions C56_each_word_matters.
Example C56_example :
  (let text := lit " f(x, k: [1, 2])(y) * (g(-3) + z[1:])" in harmless ascii_only text /\ avoids loud_words text) /\
  (let text := lit "12 * 3" in harmless ascii_only text /\ avoids loud_words text /\ answer ascii_only 64 [] text = Ret (Ok (lit "36"))).
Proof.
  split; cbv zeta.
  - split; [|apply avoids_chk; vm_compute; reflexivity]. apply (harmless_text ascii_only (lit " ") (lit "f(x, k: [1, 2])(y) * (g(-3) + z[1:])")); try reflexivity; [discriminate| |].
    + apply avoids_chk. vm_compute. reflexivity.
    + right. right. apply beside_chk. vm_compute. reflexivity.
  - split; [|split; [apply avoids_chk; vm_compute; reflexivity|vm_compute; reflexivity]]. apply (harmless_text ascii_only [] (lit "12 * 3")); try reflexivity; [discriminate| |].
    + apply avoids_chk. vm_compute. reflexivity.
    + left. apply nameless_chk_text. vm_compute. reflexivity.
Qed.
