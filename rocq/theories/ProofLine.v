(** Where a line ends an expression. *)
From Verif Require Import Base Ast SmError Peg Grammar Build SpecAst SpecClimb SpecSyntax SpecText.
From Verif Require Import ProofAst ProofPeg ProofPegShift ProofSym ProofGrammar ProofBuild ProofPos ProofSpace ProofLex ProofToken ProofNode ProofAtom ProofTerm ProofExpr ProofGroup ProofCall ProofArgs ProofString ProofMark ProofSlice ProofText ProofStatement ProofComment ProofKeyword ProofSource ProofSyntax ProofManual ProofJuxta.
From Verif Require Import SpecSource SpecJuxta SpecLine.
Local Open Scope nat_scope.
Local Open Scope outcome_scope.

Section Line.
  Variable U : unicode.
  Hypothesis HU : sane U.

  Lemma fresh_quiet : forall c, fresh c = true -> white_space c = false /\ semi c = false /\ infix_head c = false.
  Proof.
    intros c H. unfold fresh in H. apply andb_prop in H as [H H3]. apply andb_prop in H as [H1 H2]. apply negb_true_iff in H1, H2, H3.
    split; [exact H1|]. split; [exact H2|]. unfold infix_head. destruct (existsb _ _) eqn:E; [|reflexivity]. exfalso.
    apply existsb_exists in E as (d & D & E). apply N.eqb_eq in E. subst d.
    cbn [In] in D. decompose [or] D; try contradiction; subst c; vm_compute in H3; discriminate.
  Qed.
  Lemma fresh_solid : forall c w, fresh c = true -> solid (c :: w) = true.
  Proof.
    intros c w H. destruct (fresh_quiet c H) as (B5 & _ & B6).
    unfold solid. cbn [head_is]. rewrite B5. unfold infix_head in B6. cbn [existsb] in B6.
    repeat match goal with H : (_ || _)%bool = false |- _ => apply orb_false_iff in H as [? H] end.
    change (lit "//") with [47; 47]%N. change (lit "%%%") with [37; 37; 37]%N. rewrite !strip_other by assumption. reflexivity.
  Qed.
  Lemma drop_inline_break : forall P h w, spacing h = true -> existsb line_end h = true -> P 10%N = false -> P 13%N = false -> P 47%N = false ->
    head_is P (drop_inline (h ++ w)) = false.
  Proof.
    intros P h w Hs He H1 H2 H3. revert h Hs He. apply (spacing_ind' (fun h => existsb line_end h = true -> head_is P (drop_inline (h ++ w)) = false)); [discriminate|intros c s Hc _ IH|intros; exact H3].
    intro He. cbn [app drop_inline]. destruct (inline_space c) eqn:E.
    - apply IH. cbn [existsb] in He. unfold inline_space in E. unfold line_end in He at 1. rewrite Hc in E. cbn [andb] in E. apply andb_prop in E as [E1 E2].
      apply negb_true_iff in E1, E2. rewrite E1, E2 in He. exact He.
    - cbn [head_is]. unfold inline_space in E. rewrite Hc in E. cbn [andb] in E. apply andb_false_iff in E as [E|E]; apply negb_false_iff in E; apply N.eqb_eq in E; subst c; assumption.
  Qed.
  Lemma break_stop : forall h c w, line_break h = true -> fresh c = true -> expr_stop U h (c :: w).
  Proof.
    intros h c w H F. unfold line_break in H. apply andb_prop in H as [Hs He]. destruct (fresh_quiet c F) as (B5 & _ & B6).
    split; [apply spacing_gone; [exact Hs|apply fresh_solid; exact F]|]. split; [|split; [apply fresh_solid; exact F|apply blocked_head; exact B6]].
    destruct (joins_inline U) as [J1 [J2 J3]].
    pose proof (drop_inline_break (joins U) h (c :: w) Hs He J1 J2 J3) as A. pose proof (drop_inline_break (N.eqb 91) h (c :: w) Hs He eq_refl eq_refl eq_refl) as B.
    destruct h as [|d h]; [discriminate|]. destruct (spacing_quiet U HU d h Hs) as (X1 & X2 & X3 & X4 & X5 & X6 & X7 & X8 & X9).
    unfold tstop, ProofNode.nstop. rewrite A, B.
    unfold sym_stop, path_more. cbn [app head_is]. change (lit "::") with [58; 58]%N. rewrite !strip_other by assumption.
    cbn [dot_digit]. rewrite X1, X5, X6, X8, no_primes by (apply orb_false_iff in X8; apply X8). reflexivity.
  Qed.
  Lemma line_ends_expression : forall g x o h c w, spacing g = true -> expr U x o -> plain_start x = true -> line_break h = true -> fresh c = true ->
    denotes_or_refused U (g ++ x ++ h ++ c :: w) o /\ (statements U (c :: w) -> denotes U (g ++ x ++ h ++ c :: w) o).
  Proof.
    intros g x o h c w Hg Hx Hp Hh F. destruct (fresh_quiet c F) as (_ & Sc & _).
    split; [|intro Hw]; [apply (text_stop U HU)|apply (text_then U HU)]; try assumption; apply break_stop; assumption.
  Qed.

  Lemma operator_continues : forall g x a h s h' y b ws, spacing g = true -> term U x a -> spacing h = true -> In s (map fst operators) -> spacing h' = true -> term U y b ->
    (s = lit "." -> h' = [] -> head_is digit y = false) -> (s = lit "/" -> head_is (N.eqb 47) h' = false) -> plain_start (x ++ h ++ s ++ h' ++ y) = true -> closing ws = true ->
    denotes U (g ++ x ++ h ++ s ++ h' ++ y ++ ws) (u <- a; v <- b; token_apply u (Sign s) v).
  Proof.
    intros g x a h s h' y b ws Hg Hx Hh Hs Hh' Hy D D' Hp Hw.
    pose proof (source_text U HU g (x ++ (h ++ s ++ h' ++ y ++ []) ++ []) (evaluate token_value token_apply (Bin (Leaf (Operand a)) (Sign s) (Leaf (Operand b)))) ws Hg) as T.
    cbn [evaluate token_value] in T. rewrite !app_nil_r, <- !app_assoc in T. apply T; try assumption.
    pose proof (e_intro U x a (h ++ s ++ h' ++ y ++ []) [Sign s; Operand b] [] [] (Bin (Leaf (Operand a)) (Sign s) (Leaf (Operand b))) Hx) as E.
    rewrite !app_nil_r in E. apply E.
    - pose proof (r_more U h s h' y b [] [] Hh (in_or_app _ _ _ (or_introl Hs)) Hh' Hy D D' (r_nil U)) as R. rewrite app_nil_r in R. exact R.
    - cbn [forallb known]. apply in_map_iff in Hs as ([k v] & <- & Hk). cbn [fst].
      cbn [In operators] in Hk. decompose [or] Hk; try contradiction; match goal with H : _ = (k, v) |- _ => injection H as <- <- end; reflexivity.
    - constructor.
    - reflexivity.
    - reflexivity.
    - constructor; [constructor|constructor|discriminate|discriminate].
  Qed.
End Line.
