(** The TeX and Wolfram exports. *)
From Verif Require Import Base Ast Display Tex Wolfram SpecAst SpecSession SpecTex ProofTex.
Local Open Scope Z_scope.

(** ** C47 TeX *)
Theorem C47_exactly : forall a t, to_tex a = Ret t <-> tex_of a t.
Proof. exact tex_iff. Qed.
Print Assumptions C47_exactly.
Theorem C47_panics_exactly : forall a, (exists k, to_tex a = Panic k) <-> ~ exists t, tex_of a t.
Proof. exact tex_panics_iff. Qed.
Print Assumptions C47_panics_exactly.
Example C47_exactly_example :
  to_tex (call (lit "arcsinh") [call (lit "List") [call (lit "f") [Integer 1; Str (lit "s")]; Boolean true]]) =
    Ret (lit "\\operatorname{arcsinh} \\{\\operatorname{f}\\left(1, \\text{s}\\right), \\mathtt{true}\\}") /\
  tex_of (call (lit "arcsinh") [call (lit "List") [call (lit "f") [Integer 1; Str (lit "s")]; Boolean true]])
    (lit "\\operatorname{arcsinh} \\{\\operatorname{f}\\left(1, \\text{s}\\right), \\mathtt{true}\\}") /\
  ~ (exists t, tex_of (call (lit "List") []) t).
Proof.
  split; [reflexivity|]. split; [apply tex_iff; reflexivity|]. apply tex_panics_iff. eexists. reflexivity.
Qed.

(** ** C57 No TeX commands in the TeX *)
Theorem C57_no_command : forall a t, Forall doubled (tree_texts a) -> to_tex a = Ret t -> doubled t.
Proof. exact tex_doubled. Qed.
Print Assumptions C57_no_command.
Theorem C57_brackets_match : forall a t, Forall nested (tree_texts a) -> to_tex a = Ret t -> nested t.
Proof. exact tex_nested. Qed.
Print Assumptions C57_brackets_match.
Example C57_example :
  let a := call (lit "sin") [Function (mkSymbol [lit "std"; lit "infix"] (lit "add") (Infix (lit " + ") 250) 0) [mkParam [Sym (plain_symbol (lit "x")); Integer 1] [] default_position]] in
  Forall doubled (tree_texts a) /\ Forall nested (tree_texts a) /\ to_tex a = Ret (lit "\\sin(x + 1)") /\
  (exists t, to_tex (Str (lit "a\b")) = Ret t /\ ~ doubled t) /\
  ~ doubled (lit "\sin(x)").
Proof.
  cbn zeta. split; [vm_compute; repeat (apply Forall_cons || apply Forall_nil); repeat (apply dbl_nil || (apply dbl_char; [discriminate|]))|].
  split.
  { vm_compute. repeat (apply Forall_cons || apply Forall_nil);
      repeat match goal with |- nested [] => apply nest_nil | |- nested (?c :: ?l) => apply (nest_app [c] l); [apply nest_char; intro X; cbn in X; repeat (destruct X as [X|X]; [discriminate|]); exact X|] end. }
  split; [reflexivity|]. split.
  - eexists. split; [reflexivity|]. intro H. cbn in H. repeat match goal with X : doubled _ |- _ => inversion X; subst; clear X end; congruence.
  - intro H. cbn in H. repeat match goal with X : doubled _ |- _ => inversion X; subst; clear X end; congruence.
Qed.

(** ** C48 Wolfram *)
Theorem C48_exactly : forall cap a w, to_wolfram cap a = w <-> exported cap a w.
Proof. intros cap a w. symmetry. exact (exported_iff cap a w). Qed.
Print Assumptions C48_exactly.
Example C48_exactly_example :
  exported (fun s => lit "!" ++ s) (Program [call (lit "factor") [Integer 12]; call (lit "f") [Boolean true]; EmptyStatement])
    (WFunction (WSystem (lit "CompoundExpression"))
      [WFunction (WSystem (lit "FactorInteger")) [WBigInteger 12]; WFunction (WSystem (lit "!f")) [WSystem (lit "True")]; WSkip]).
Proof. apply exported_iff. reflexivity. Qed.
