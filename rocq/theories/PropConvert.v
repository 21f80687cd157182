(** Property theorems about converting files as a whole ([SpecConvert]). *)
From Verif Require Import Base Ast SmError Peg Build Wolfram ParseFile SpecAst SpecSyntax SpecPieces SpecSession SpecExport SpecConvert.
From Verif Require Import ProofConvert ProofSample.

(** ** C87 converting files *)
(** a conversion can end well exactly if the source is a text with a tree, whatever the operating system does *)
Theorem C87_possible : forall E n from to f, (exists g, converts E n from to f g) <-> exists text a, source_text E f from text /\ parse (tables E) n text = Ret (Ok a).
Proof. exact converts_iff. Qed.
Print Assumptions C87_possible.
(** sources that differ only in layout and in the words of comments are converted alike, wherever they are and whatever they are called *)
Theorem C87_layout : forall E, sane (tables E) -> forall n n' from from' to to' f f' s t, source_text E f from s -> source_text E f' from' t -> pieces s = pieces t ->
  ((exists g, converts E n from to f g) <-> (exists g, converts E n' from' to' f' g)) /\
  forall g g', converts E n from to f g -> converts E n' from' to' f' g' -> g to = g' to'.
Proof. exact same_conversion. Qed.
Print Assumptions C87_layout.
(** what two conversions have written is the same exactly if the trees of the sources agree (C86), if values are written differently when they are different *)
Theorem C87_tells : forall E, sane (tables E) -> (forall w w', encoded E w = encoded E w' -> w = w') ->
  forall n n' from from' to to' f f' g g' s t a b, converts E n from to f g -> converts E n' from' to' f' g' -> source_text E f from s -> source_text E f' from' t ->
    parse (tables E) n s = Ret (Ok a) -> parse (tables E) n' t = Ret (Ok b) -> calls_nothing_reserved (capital E) a -> calls_nothing_reserved (capital E) b ->
  (g to = g' to' <-> agree (capital E) a b).
Proof. exact telling_conversion. Qed.
Print Assumptions C87_tells.
(** two sources that differ in a comment and in their line ends *)
Example C87_example : let crlf := lit "f(1,  /// two words" ++ [13; 10]%N ++ lit " x)" in let lf := lit "f(1, ///one" ++ [10%N] ++ lit "x)" in
  let f := update (update (fun _ => None) (lit "a") crlf) (lit "b") lf in
  forall cap encode, let E := mkSurroundings Some ascii_only cap encode in
  source_text E f (lit "a") crlf /\ source_text E f (lit "b") lf /\ pieces crlf = pieces lf /\ crlf <> lf /\ (exists g, converts E (lit "a") (lit "a") (lit "c") f g) /\ sane (tables E).
Proof. exact convert_sample. Qed.
