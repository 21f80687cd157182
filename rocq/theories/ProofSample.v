(** Concrete members of the reference syntax, for the examples. *)
From Verif Require Import Base Ast Peg SpecAst SpecClimb SpecSyntax SpecSource SpecText.
From Verif Require Import ProofSource ProofSyntax.
Local Open Scope outcome_scope.

(** the examples use a Unicode table without letters above ASCII *)
Definition ascii_only : unicode := mkUnicode (fun _ => false) (fun _ => false).
Example ascii_only_sane : sane ascii_only.
Proof.
  intros c H. assert (X : (c <? 128)%N = true \/ (c <? 128)%N = false) by (destruct (c <? 128)%N; auto).
  unfold xid_start, xid_continue. destruct X as [X|X]; rewrite X; [|split; reflexivity].
  apply orb_prop in H as [H|H].
  - apply existsb_exists in H as (d & I & E). apply N.eqb_eq in E. subst d. cbn in I.
    repeat (destruct I as [<-|I]; [discriminate|]). destruct I.
  - unfold white_space in H. apply N.ltb_lt in X.
    assert (K : (c = 32 \/ 9 <= c <= 13)%N) by (repeat (apply orb_prop in H as [H|H]); repeat (apply andb_prop in H as [H ?]); rewrite ?N.eqb_eq, ?N.leb_le in *; lia).
    unfold ascii_letter, ascii_digit. repeat match goal with |- context [(?a <=? ?b)%N] => destruct (N.leb_spec a b) | |- context [(?a =? ?b)%N] => destruct (N.eqb_spec a b) end;
      cbn; try (split; reflexivity); lia.
Qed.


Lemma sample_number : forall x, numeral x = true -> term ascii_only x (Ret (Integer (numeral_value x))).
Proof. intros x H. pose proof (t_intro ascii_only [] x _ [] [] eq_refl (n_integer ascii_only x H) (s_nil _)) as T. cbn [app] in T. rewrite app_nil_r in T. exact T. Qed.
Lemma sample_node_name : forall w, word ascii_only w = true -> existsb (fun k => starts_with k w) constant_words = false -> node ascii_only w (Ret (Sym (named w []))).
Proof. intros w H K. pose proof (n_name ascii_only w [] (word_part ascii_only ascii_only_sane w H) eq_refl) as N. cbn [path_tail] in N. rewrite app_nil_r in N. exact (N K). Qed.
Lemma sample_name : forall w, word ascii_only w = true -> existsb (fun k => starts_with k w) constant_words = false -> term ascii_only w (Ret (Sym (named w []))).
Proof. intros w H K. pose proof (t_intro ascii_only [] w _ [] [] eq_refl (sample_node_name w H K) (s_nil _)) as T. cbn [app] in T. rewrite app_nil_r in T. exact T. Qed.
Lemma sample_minus_factorial : forall w, word ascii_only w = true -> existsb (fun k => starts_with k w) constant_words = false ->
  term ascii_only (lit "-" ++ w ++ lit "!") (Ret (call (mkSymbol [lit "std"; lit "prefix"] (lit "minus") (Prefix (lit "-")) 0) [suffix_call (lit "factorial") (lit "!") (Sym (named w []))])).
Proof.
  intros w H K. pose proof (n_name ascii_only w [] (word_part ascii_only ascii_only_sane w H) eq_refl) as N. cbn [path_tail] in N. rewrite app_nil_r in N. specialize (N K).
  exact (t_intro ascii_only (lit "-") w _ (lit "!") [Bang] eq_refl N (s_bang _ [] [] (s_nil _) eq_refl)).
Qed.
Lemma sample_expr : forall x o y l b, term ascii_only x o -> rest ascii_only y l -> forallb known l = true ->
  written b = Operand o :: l -> well_bracketed token_strength token_to_right b -> expr ascii_only (x ++ y) (evaluate token_value token_apply b).
Proof. intros x o y l b Hx Hy K W B. pose proof (e_intro ascii_only x o y l [] [] b Hx Hy K (r_nil _) eq_refl W B) as E. rewrite app_nil_r in E. exact E. Qed.
Ltac bracketed :=
  repeat first [apply wb_leaf | apply wb_bin]; intros p E; try discriminate; injection E as <-; first [left; reflexivity | right; split; reflexivity].
Lemma sample_numeral : forall x, numeral x = true -> numeral_of (numeral_value x) x.
Proof.
  intros x H. split; [intros ->; discriminate|]. split; [apply digits_spec, numeral_forall; exact H|]. split; [reflexivity|].
  destruct x as [|c x]; [discriminate|]. intros E. injection E as ->. destruct x; [reflexivity|discriminate].
Qed.
