(** References to earlier lines of a session, slots, and syntax without a meaning. *)
From Verif Require Import Base Ast Display SmError Peg Grammar Climber Build Internal Runner Wolfram SpecAst SpecPeg SpecClimb SpecParse SpecSyntax SpecSource SpecText SpecSession SpecAnswer.
From Verif Require Import ProofAst ProofToken ProofExpr ProofSource ProofSyntax ProofAnswer.
Local Open Scope Z_scope.
Local Open Scope outcome_scope.

Section Repl.
  Variable U : unicode.
  Hypothesis HU : sane U.

  Lemma numeral_positive : forall n x, 0 < n -> numeral_of n x -> positive x = true /\ numeral_value x = n.
  Proof.
    intros n x Hn H. apply numeral_of_numeral in H as [H E]. split; [|exact E]. unfold positive. rewrite H. cbn [andb].
    destruct (str_eqb x [48%N]) eqn:Z; [|reflexivity]. apply str_eqb_eq in Z. subst x. cbn in E. lia.
  Qed.
  Lemma mark_plain : forall b x, plain_start (reference_mark b :: x) = true.
  Proof. intros [] x; apply harmless_plain; reflexivity. Qed.
  Lemma text_nth : forall g b n x ws, spacing g = true -> 0 < n -> numeral_of n x -> closing ws = true -> denotes U (g ++ (reference_mark b :: x) ++ ws) (Ret (reference b n)).
  Proof.
    intros g b n x ws Hg Hn Hx Hw. destruct (numeral_positive n x Hn Hx) as [P <-]. apply (node_text U HU); [exact Hg|apply n_reference; exact P|apply mark_plain|exact Hw].
  Qed.
  Lemma text_back : forall g b k ws, spacing g = true -> closing ws = true -> denotes U (g ++ repeat (reference_mark b) (S k) ++ ws) (Ret (reference b (- Z.of_nat (S k)))).
  Proof. intros g b k ws Hg Hw. apply (node_text U HU); [exact Hg|apply n_back|cbn [repeat]; apply mark_plain|exact Hw]. Qed.
  Lemma reference_unknown : forall b, ~ In (if b : bool then lit "output" else lit "input") builtin_names.
  Proof. intros [] H; cbn in H; repeat (destruct H as [H|H]; [discriminate|]); exact H. Qed.
  Lemma answer_nth : forall W calls g b n x ws, spacing g = true -> 0 < n -> numeral_of n x -> closing ws = true ->
    answer U W calls (g ++ (reference_mark b :: x) ++ ws) = Ret (Err unimplemented_function).
  Proof. intros W calls g b n x ws Hg Hn Hx Hw. eapply answer_unknown; [exact (text_nth g b n x ws Hg Hn Hx Hw)|apply reference_unknown]. Qed.
  Lemma answer_back : forall W calls g b k ws, spacing g = true -> closing ws = true ->
    answer U W calls (g ++ repeat (reference_mark b) (S k) ++ ws) = Ret (Err unimplemented_function).
  Proof. intros W calls g b k ws Hg Hw. eapply answer_unknown; [exact (text_back g b k ws Hg Hw)|apply reference_unknown]. Qed.

  Lemma text_slots : forall g ws, spacing g = true -> closing ws = true ->
    denotes U (g ++ lit "#" ++ ws) (Ret (call (core (lit "slot")) [])) /\
    (forall n x, numeral_of n x -> denotes U (g ++ (lit "#" ++ x) ++ ws) (Ret (call (core (lit "slot")) [Integer n]))) /\
    (forall w, word U w = true -> denotes U (g ++ (lit "#" ++ w) ++ ws) (Ret (call (core (lit "slot")) [Str w]))) /\
    denotes U (g ++ lit "##" ++ ws) (Ret (call (core (lit "slot_sequence")) [])) /\
    (forall n x, 0 < n -> numeral_of n x -> denotes U (g ++ (lit "##" ++ x) ++ ws) (Panic PUnreachable)).
  Proof.
    intros g ws Hg Hw. repeat split.
    - apply (node_text U HU); [exact Hg|apply n_slot|reflexivity|exact Hw].
    - intros n x H. apply numeral_of_numeral in H as [H <-]. apply (node_text U HU); [exact Hg|apply n_slot_number; exact H|apply harmless_plain; reflexivity|exact Hw].
    - intros w H. apply (node_text U HU); [exact Hg|apply n_slot_name; exact H|apply harmless_plain; reflexivity|exact Hw].
    - apply (node_text U HU); [exact Hg|apply n_slots|reflexivity|exact Hw].
    - intros n x Hn H. destruct (numeral_positive n x Hn H) as [P _]. apply (node_text U HU); [exact Hg|apply n_slots_number; exact P|apply harmless_plain; reflexivity|exact Hw].
  Qed.

  Lemma exported_of : forall cap text sy n, denotes U text (Ret (call sy [Integer n])) ->
    forall f, exists a, parse U f text = Ret (Ok a) /\ to_wolfram cap a = WFunction (WSystem (function_map cap sy)) [WBigInteger n].
  Proof.
    intros cap text sy n H f. destruct (denotes_ok U text _ H f) as (a & P & E). exists a. split; [exact P|]. apply forget_call in E as (args & pos & -> & E).
    apply (forget_integers args [n]) in E. subst args. reflexivity.
  Qed.
  Lemma exported_reference : forall cap g b ws, spacing g = true -> closing ws = true ->
    let head := WSystem (cap (if b : bool then lit "output" else lit "input")) in
    (forall n x, 0 < n -> numeral_of n x -> forall f, exists a,
      parse U f (g ++ (reference_mark b :: x) ++ ws) = Ret (Ok a) /\ to_wolfram cap a = WFunction head [WBigInteger n]) /\
    (forall k f, exists a, parse U f (g ++ repeat (reference_mark b) (S k) ++ ws) = Ret (Ok a) /\ to_wolfram cap a = WFunction head [WBigInteger (- Z.of_nat (S k))]).
  Proof.
    intros cap g b ws Hg Hw head. split.
    - intros n x Hn Hx. intro f. pose proof (exported_of cap _ _ _ (text_nth g b n x ws Hg Hn Hx Hw) f) as E. destruct b; exact E.
    - intros k f. pose proof (exported_of cap _ _ _ (text_back g b k ws Hg Hw) f) as E. destruct b; exact E.
  Qed.

  (** ** Syntax without a meaning *)
  Lemma text_derivative : forall g w l n y p ws, spacing g = true -> segment U w = true -> forallb (segment U) l = true -> calls U y [p] ->
    plain_start (w ++ path_tail l ++ repeat 39%N (S n) ++ y) = true -> closing ws = true ->
    denotes U (g ++ (w ++ path_tail l ++ repeat 39%N (S n) ++ y) ++ ws) (Panic PUnreachable).
  Proof. intros. apply (node_text U HU); try assumption. eapply n_derivative; eassumption. Qed.
  Lemma text_dictionary : forall g h t ws, spacing g = true -> spacing h = true -> trailing t -> closing ws = true ->
    denotes U (g ++ (lit "{" ++ h ++ lit "}") ++ ws) (Panic PUnreachable) /\
    forall x, entries U x -> denotes U (g ++ (lit "{" ++ h ++ x ++ t ++ lit "}") ++ ws) (Panic PUnreachable).
  Proof.
    intros g h t ws Hg Hh Ht Hw. split; [|intros x Hx]; (apply (node_text U HU); [exact Hg| |apply harmless_plain; reflexivity|exact Hw]).
    - apply n_no_entry. exact Hh.
    - apply n_dictionary; assumption.
  Qed.
  Lemma text_unknown : forall g x a s ws, spacing g = true -> node U x (Ret a) -> s = lit "?" \/ (exists n, s = repeat 39%N (S n)) ->
    plain_start (x ++ s) = true -> closing ws = true -> denotes U (g ++ (x ++ s) ++ ws) (Panic PUnreachable).
  Proof.
    intros g x a s ws Hg Hx Hs Hp Hw.
    assert (S : suffixes U s [Unknown]).
    { destruct Hs as [->|[n ->]]; [exact (s_question U [] [] (s_nil U))|]. rewrite <- (app_nil_r (repeat 39%N (S n))). apply s_primes; [apply s_nil|reflexivity]. }
    pose proof (t_intro U [] x (Ret a) s [Unknown] eq_refl Hx S) as T. cbn [app obind suffix_value] in T.
    apply (source_text U HU); try assumption. apply term_expr. exact T.
  Qed.
  Lemma text_not : forall g x o a ws, spacing g = true -> SpecSource.term U x o -> o = Ret a -> closing ws = true -> denotes U (g ++ (172%N :: x) ++ ws) (Panic PUnreachable).
  Proof.
    intros g x o a ws Hg Hx Ho Hw. apply (source_text U HU); [exact Hg| |apply harmless_plain; reflexivity|exact Hw]. apply term_expr.
    destruct Hx as [cs x o y l Hc Hx Hy]. pose proof (t_intro U (172%N :: cs) x o y l ltac:(cbn [forallb]; exact Hc) Hx Hy) as T.
    destruct o as [v|e|]; cbn [obind] in *; try discriminate Ho. destruct (suffix_value l v) as [b|e|]; cbn [obind prefix_value] in *; try discriminate Ho.
    rewrite Ho in T. exact T.
  Qed.
  Lemma text_tagged : forall g w x s ws, spacing g = true -> word U w = true -> literal x s -> existsb (fun k => starts_with k (w ++ x)) statement_words = false ->
    existsb (fun k => starts_with k w) constant_words = false -> closing ws = true -> denotes U (g ++ (w ++ x) ++ ws) (Ret (Str s)).
  Proof.
    intros g w x s ws Hg Hw Hx H1 H2 Hs. apply (node_text U HU); [exact Hg|apply n_tagged; assumption| |exact Hs].
    unfold plain_start. rewrite H1. cbn [negb]. rewrite andb_true_r. apply negb_true_iff. destruct w as [|c w]; [discriminate|]. cbn [app head_is].
    pose proof (word_word_head U (c :: w) [] Hw) as X. cbn [app head_is] in X.
    assert (N : forall d, word_head U d = false -> (c =? d)%N = false) by (intros d Hd; apply N.eqb_neq; intros ->; congruence).
    rewrite !N; [reflexivity|reflexivity|apply (sign_quiet U HU); reflexivity|reflexivity].
  Qed.
End Repl.
