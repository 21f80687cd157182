(** Properties of replacing letters. *)
From Verif Require Import Base Ast SmError Peg Grammar Build Track SpecAnswer SpecUtf8 SpecLetter.
From Verif Require Import ProofUtf8 ProofSample ProofLetter ProofAlike.
Local Open Scope Z_scope.

(** C76: characters outside ASCII, other than the signs of the grammar, are told
    apart only as far as they may start words, continue words or are white space:
    when they are replaced by others of the same class, one for one, in a text that
    is accepted, then the text stays accepted, with the same tree but for the
    replaced names and strings: the same shape, numbers and places *)
Theorem C76_letters_alike : forall U phi psi f text a, replaces U phi psi -> parse U f text = Ret (Ok a) ->
  exists b, parse U f (map phi text) = Ret (Ok b) /\ replaced phi a b.
Proof.
  exact parse_letters.
Qed.
Print Assumptions C76_letters_alike.

(** C76: a refused text stays refused, and the error points to the same place and
    tells of the same rules *)
Theorem C76_refused_alike : forall U phi psi f text e, replaces U phi psi -> (parse U f text = Ret (Err e) <-> parse U f (map phi text) = Ret (Err e)).
Proof.
  exact refused_letters.
Qed.
Print Assumptions C76_refused_alike.
Theorem C76_error_alike : forall U phi psi text, replaces U phi psi -> parse_error U (map phi text) = parse_error U text.
Proof.
  exact error_letters_of.
Qed.
Print Assumptions C76_error_alike.
Theorem C76_error_place_alike : forall U phi psi text, replaces U phi psi -> error_place U (map phi text) = error_place U text.
Proof.
  exact place_letters.
Qed.
Print Assumptions C76_error_place_alike.

(** C76: and a text on which the project panics stays one *)
Theorem C76_panics_alike : forall U phi psi f text, replaces U phi psi -> ((exists k, parse U f text = Panic k) <-> exists k, parse U f (map phi text) = Panic k).
Proof.
  exact panics_letters.
Qed.
Print Assumptions C76_panics_alike.

(** C76: the same for what a session replies, after any earlier texts, if letters are replaced
    by letters with as many bytes: the letters are replaced in the reply too, and errors and
    panics stay *)
Theorem C76_replies : forall U phi psi W calls text w, replaces U phi psi -> keeps_size phi -> 0 < W ->
  (answer U W calls text = Ret (Ok w) <-> answer U W calls (map phi text) = Ret (Ok (map phi w))).
Proof.
  exact reply_letters.
Qed.
Print Assumptions C76_replies.
Theorem C76_reply_errors : forall U phi psi W calls text e, replaces U phi psi -> keeps_size phi -> 0 < W ->
  (answer U W calls text = Ret (Err e) <-> answer U W calls (map phi text) = Ret (Err e)).
Proof.
  exact error_letters.
Qed.
Print Assumptions C76_reply_errors.
Theorem C76_reply_panics : forall U phi psi W calls text, replaces U phi psi -> keeps_size phi -> 0 < W ->
  ((exists k, answer U W calls text = Panic k) <-> exists k, answer U W calls (map phi text) = Panic k).
Proof.
  exact panic_letters.
Qed.
Print Assumptions C76_reply_panics.
(** C76: it fails for letters with other numbers of bytes, because the length of a string counts them *)
Theorem C76_bytes_refuted : exists U phi psi, replaces U phi psi /\
  forall W calls, exists text, answer U W calls text = Ret (Ok (lit "2")) /\ answer U W calls (map phi text) = Ret (Ok (lit "3")).
Proof.
  exact length_letters.
Qed.
Print Assumptions C76_bytes_refuted.

(** exchanging alpha and beta keeps the number of bytes; the first letter of a string *)
Example C76_reply_example :
  let phi := swapped 945%N 946%N in let greek := fun c => (N.eqb c 945 || N.eqb c 946)%N in let U := mkUnicode greek greek in
  let text := lit "first(" ++ [34; 945; 34]%N ++ lit ")" in
  replaces U phi phi /\ keeps_size phi /\ map phi text = lit "first(" ++ [34; 946; 34]%N ++ lit ")" /\
  answer U 64 [] text = Ret (Ok [945%N]) /\ answer U 64 [] (map phi text) = Ret (Ok [946%N]).
Proof.
  cbv zeta. split; [apply swap_replaces; (reflexivity || discriminate)|]. split.
  - apply width_keeps. intros c. unfold swapped. destruct (N.eqb_spec c 945%N) as [->|N]; [reflexivity|]. destruct (N.eqb_spec c 946%N) as [->|]; reflexivity.
  - split; [reflexivity|]. split; vm_compute; reflexivity.
Qed.

(** the Greek letters alpha and beta, exchanged *)
Example C76_example : exists a b,
  let greek := fun c => (N.eqb c 945 || N.eqb c 946)%N in let U := mkUnicode greek greek in
  let swap := fun c => if N.eqb c 945 then 946%N else if N.eqb c 946 then 945%N else c in
  let x := 945%N in let y := 946%N in
  let text := [x] ++ lit "(" ++ [x] ++ lit ":1," ++ [y] ++ lit ":2,3)+" ++ [34; x; 34]%N in
  replaces U swap swap /\ parse U (lit "f") text = Ret (Ok a) /\ parse U (lit "f") (map swap text) = Ret (Ok b) /\ replaced swap a b /\ a <> b.
Proof. exact letters_example. Qed.
