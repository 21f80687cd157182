(** Property theorems: which trees the parser can return ([SpecImage]). *)
From Verif Require Import Base Ast SmError Peg Build SpecAst SpecSyntax SpecImage.
From Verif Require Import ProofSample ProofRange.

(** ** C79 the trees that can be written *)
(** up to the places of the parts, the trees of texts are the tree of the blank text and those of [produced], and no others *)
Theorem C79_image : forall U, sane U -> forall f a,
  (exists text a', parse U f text = Ret (Ok a') /\ forget_positions a' = forget_positions a) <-> a = EmptyStatement \/ produced U a.
Proof. exact image. Qed.
Print Assumptions C79_image.
(** so no text gives a list of statements, a negative number, a string that starts with a quotation mark, or a call without parameters *)
Theorem C79_never : forall U, sane U -> forall f text,
  (forall l, parse U f text <> Ret (Ok (Program l))) /\
  (forall n, (n < 0)%Z -> parse U f text <> Ret (Ok (Integer n))) /\
  (forall s, parse U f text <> Ret (Ok (Str (34%N :: s)))) /\
  (forall s, parse U f text <> Ret (Ok (Function s []))).
Proof. exact unwritten_trees. Qed.
Print Assumptions C79_never.
(** sums of three terms can be written, with a point; sums of one term, or of a negative number, cannot *)
Example C79_example :
  let x := Sym (mkSymbol [] (lit "x") Normal 0) in
  let plus := mkSymbol [lit "std"; lit "infix"] (lit "add") (Infix (lit "+") 80) 0 in
  let sum l := Function plus [mkParam l [] default_position] in
  produced ascii_only (sum [x; Integer 2; Str (lit "s")]) /\
  (forall f, exists a, parse ascii_only f (lit "x.(2+""s"")") = Ret (Ok a) /\ forget_positions a = sum [x; Integer 2; Str (lit "s")]) /\
  ~ produced ascii_only (sum [x]) /\ ~ produced ascii_only (sum [x; Integer (-1)]).
Proof. exact image_example. Qed.
