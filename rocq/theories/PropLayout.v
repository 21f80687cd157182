(** C73: layout. *)
From Verif Require Import Base Ast SmError Peg Grammar Build SpecAst SpecSyntax SpecPeg SpecSource SpecLayout SpecPieces SpecAnswer.
From Verif Require Import ProofLayout ProofPieces ProofAlike ProofSample.

(** ** C73 layout *)
(** texts without string quotes that differ only in how wide their gaps are, and of which white space they
    are made, are accepted, refused or made to panic alike, and denote the same expression *)
Theorem C73_layout : forall U, sane U -> forall f text text', layout text = layout text' -> ~ In 34%N text ->
  omap forget_result (parse U f text) = omap forget_result (parse U f text').
Proof. exact same_layout. Qed.
Print Assumptions C73_layout.
(** the line ends may be those of any system *)
Theorem C73_line_ends : forall U, sane U -> forall f text, ~ In 34%N text ->
  omap forget_result (parse U f text) = omap forget_result (parse U f (unix text)).
Proof. exact unix_alike. Qed.
Print Assumptions C73_line_ends.
(** tabulators are as good as blanks *)
Theorem C73_tabs : forall U, sane U -> forall f text, ~ In 34%N text ->
  omap forget_result (parse U f text) = omap forget_result (parse U f (untabbed text)).
Proof. exact untabbed_alike. Qed.
Print Assumptions C73_tabs.
(** blanks at the ends of lines are ignored, in comments too *)
Theorem C73_line_tails : forall U, sane U -> forall f text, ~ In 34%N text ->
  omap forget_result (parse U f text) = omap forget_result (parse U f (trimmed text)).
Proof. exact trimmed_alike. Qed.
Print Assumptions C73_line_tails.
(** the layout itself is a text of this layout: any text may be reformatted to it *)
Theorem C73_reformatted : forall U, sane U -> forall f text, ~ In 34%N text ->
  omap forget_result (parse U f text) = omap forget_result (parse U f (layout text)).
Proof. exact layout_alike. Qed.
Print Assumptions C73_reformatted.
(** what must not change: whether there is a gap, whether it has a line break, what is inside quotes *)
Theorem C73_limits : forall xs xc f, let p t := omap forget_result (parse (mkUnicode xs xc) f t) in
  p (lit "a b") <> p (lit "ab") /\ p (lit "a (b)") <> p ([97; 10]%N ++ lit "(b)") /\
  p ([34%N] ++ lit "a  b" ++ [34%N]) <> p ([34%N] ++ lit "a b" ++ [34%N]).
Proof. exact layout_limits. Qed.
Print Assumptions C73_limits.
Example C73_example :
  let text := lit "f(" ++ [13; 10; 9]%N ++ lit "1 ,   2)" ++ [32; 9; 13; 10]%N ++ lit "/// end  of" ++ [9; 13; 10]%N ++ lit "* x" in
  let text' := lit "f(" ++ [10%N] ++ lit "1 , 2)" ++ [10%N] ++ lit "/// end of" ++ [10%N] ++ lit "* x" in
  layout text = text' /\ layout text' = text' /\ text <> text' /\ ~ In 34%N text /\ sane ascii_only /\
  unix text <> text /\ untabbed text <> text /\ trimmed text <> text /\
  omap forget_result (parse ascii_only [] text) =
    Ret (Ok (times [call (named (lit "f") []) [Integer 1; Integer 2]; Sym (named (lit "x") [])])).
Proof.
  cbv zeta. split; [vm_compute; reflexivity|]. split; [vm_compute; reflexivity|]. split; [discriminate|].
  split; [cbn; intro H; repeat (destruct H as [H|H]; [discriminate H|]); exact H|]. split; [exact ascii_only_sane|].
  do 3 (split; [vm_compute; discriminate|]). vm_compute. reflexivity.
Qed.
(** and for texts with strings: two texts with the same strings, the same characters outside strings and
    comments, gaps at the same places, broken into lines at the same places, and comments at the same places,
    whatever is written in these, are accepted, refused or made to panic alike, and denote the same expression *)
Theorem C73_pieces : forall U, sane U -> forall f text text', pieces text = pieces text' ->
  omap forget_result (parse U f text) = omap forget_result (parse U f text').
Proof. exact same_pieces. Qed.
Print Assumptions C73_pieces.
(** so a session replies the same to them *)
Theorem C73_replies : forall U, sane U -> forall W calls text text', pieces text = pieces text' ->
  answer U W calls text = answer U W calls text'.
Proof. exact pieces_replies. Qed.
Print Assumptions C73_replies.
Example C73_pieces_example :
  let q := [34%N] in
  let text := lit "f(" ++ q ++ lit "a  /// b" ++ q ++ lit ",   x) " ++ [13; 10]%N ++ lit "/// say " ++ q ++ lit "no" ++ [10%N] ++ lit "* 2;  %%% one " ++ q ++ lit " %%%" in
  let text' := lit "f(" ++ q ++ lit "a  /// b" ++ q ++ lit ", x)" ++ [10; 9]%N ++ lit "//!" ++ [13%N] ++ lit "*" ++ [9%N] ++ lit "2; %%%%%%" in
  pieces text = pieces text' /\
  pieces text = map Mark (lit "f(") ++ [Literal (q ++ lit "a  /// b" ++ q); Mark 44%N; Gap false] ++ map Mark (lit "x)") ++
    [Gap true; Remark false; Gap true; Mark 42%N; Gap false; Mark 50%N; Mark 59%N; Gap false; Remark true] /\
  pieces (q ++ lit "a  b" ++ q) <> pieces (q ++ lit "a b" ++ q) /\ sane ascii_only /\
  omap forget_result (parse ascii_only [] text) =
    Ret (Ok (times [call (named (lit "f") []) [Str (lit "a  /// b"); Sym (named (lit "x") [])]; Integer 2])).
Proof.
  cbv zeta. split; [vm_compute; reflexivity|]. split; [vm_compute; reflexivity|]. split; [vm_compute; discriminate|].
  split; [exact ascii_only_sane|]. vm_compute. reflexivity.
Qed.
