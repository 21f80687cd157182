(** Property theorems about the tree of an accepted text.  What the pairs of the
    grammar stand for is in [SpecValue]; which pairs a text has is in [SpecPest]. *)
From Verif Require Import Base Ast SmError Peg Grammar Build SpecClimb SpecSyntax SpecPlace SpecParse SpecAst SpecPest Source SpecValue ProofMeaning ProofSample.
Local Open Scope Z_scope.

(** ** C59 the tree of every accepted text *)
(** parse returns a tree exactly when the text has pairs and the pairs have that
    tree, with the place of every argument list *)
Theorem C59_tree : forall U f text a, parse U f text = Ret (Ok a) <->
  exists s ts, reads U source NonAtomic (Name R_program) (mkPs 0 text []) (Some (s, ts)) /\ program_value f text ts a.
Proof. exact parse_tree. Qed.
Print Assumptions C59_tree.
(** and panics exactly when the text has pairs but the pairs have no tree *)
Theorem C59_panics : forall U f text, (exists k, parse U f text = Panic k) <->
  exists s ts, reads U source NonAtomic (Name R_program) (mkPs 0 text []) (Some (s, ts)) /\ forall a, ~ program_value f text ts a.
Proof. exact parse_panics. Qed.
Print Assumptions C59_panics.
Theorem C59_unique : forall f text ts a b, program_value f text ts a -> program_value f text ts b -> a = b.
Proof. exact program_unique. Qed.
Print Assumptions C59_unique.

(** a[2:]+1, from its pairs: the sum stands from column 1 to 8, the slice from 2 to
    6, the range in it from 3 to 5 *)
Example C59_sum : forall f, let text := lit "a[2:]+1" in
  let number i j n := Node R_term i j n [Node R_node i j n [Node R_data i j n [Node R_Integer i j n []]]] in
  let range := Node R_index 2 4 (lit "2:") [Node R_Start 2 3 (lit "2") [Node R_expr 2 3 (lit "2") [number 2%nat 3%nat (lit "2")]]; Node R_Colon 3 4 (lit ":") []] in
  let name := Node R_node 0 1 (lit "a") [Node R_data 0 1 (lit "a") [Node R_Symbol 0 1 (lit "a") [Node R_SYMBOL 0 1 (lit "a") []]]] in
  let ts := [Node R_expression 0 7 text [Node R_expr 0 7 text
    [Node R_term 0 5 (lit "a[2:]") [name; Node R_slice 1 5 (lit "[2:]") [range]]; Node R_Plus 5 6 (lit "+") []; number 6%nat 7%nat (lit "1")]]; Node R_EOI 7 7 [] []] in
  let at_ i j := mkPosition f (1, i) (1, j) in
  let a := Function (mkSymbol [lit "std"; lit "infix"] (lit "add") (Infix (lit "+") 80) 0)
    [mkParam [Function (standard (lit "core") (lit "Index"))
      [mkParam [Sym (mkSymbol [] (lit "a") Normal 0); Function (standard (lit "core") (lit "Span")) [mkParam [Integer 2; Sym (standard (lit "core") (lit "All")); Integer 1] [] (at_ 3 5)]] [] (at_ 2 6)];
      Integer 1] [] (at_ 1 8)] in
  program_value f text ts a /\ parse ascii_only f text = Ret (Ok a).
Proof.
  intros f text number range name ts at_ a.
  assert (D : forall c, digit c = true -> digits [c]) by (intros c H; split; [discriminate|cbn; rewrite H; reflexivity]).
  assert (N : forall i j c, digit c = true -> term_value f text (number i j [c]) (Integer (numeral_value [c]))).
  { intros i j c H. apply (term_parts f text i j [c] [] _ []) with (a := Integer (numeral_value [c])) (b := Integer (numeral_value [c])); [|constructor|constructor].
    apply node_data. apply data_integer, D, H. }
  split; [|vm_compute; reflexivity].
  assert (E : a = call_at f text (mkSymbol [lit "std"; lit "infix"] (lit "add") (Infix (lit "+") 80) 0)
    [call_at f text (standard (lit "core") (lit "Index"))
      [Sym (mkSymbol [] (lit "a") Normal 0); call_at f text (standard (lit "core") (lit "Span")) [Integer 2; Sym (standard (lit "core") (lit "All")); Integer 1] range]
      (Node R_slice 1 5 (lit "[2:]") [range]); Integer 1]
    (Node R_expr 0 7 text (alternate (Node R_term 0 5 (lit "a[2:]") [name; Node R_slice 1 5 (lit "[2:]") [range]]) [(Node R_Plus 5 6 (lit "+") [], number 6%nat 7%nat (lit "1"))] ++ [])))
    by (vm_compute; reflexivity).
  rewrite E. clear E a at_. apply program_first; [constructor|].
  apply (expr_chain f text 0 7 text (Node R_term 0 5 (lit "a[2:]") [name; Node R_slice 1 5 (lit "[2:]") [range]])
    [(Node R_Plus 5 6 (lit "+") [], number 6%nat 7%nat (lit "1"))] []
    (Bin (Leaf (Node R_term 0 5 (lit "a[2:]") [name; Node R_slice 1 5 (lit "[2:]") [range]])) (Node R_Plus 5 6 (lit "+") []) (Leaf (number 6%nat 7%nat (lit "1"))))).
  - repeat constructor.
  - exact I.
  - constructor; [constructor|constructor|discriminate|discriminate].
  - reflexivity.
  - apply (group_operator f text _ _ (Node R_Plus 5 6 (lit "+") []) _ _ _ 1 (lit "add") 80); [discriminate|discriminate| |apply group_term, (N _ _ 49%N eq_refl)|reflexivity].
    apply group_term. eapply (term_parts f text _ _ _ []); [|eapply suffixed_slice; [|constructor]|constructor].
    + apply node_data, data_name. apply (named_by (lit "a") [lit "a"]). apply parts_one. intros (x & y & E).
      destruct x as [|c [|d x]]; discriminate.
    + apply indices_more; [|constructor].
      eapply (index_range f text 2%nat 4%nat (lit "2:") [_] _ []); [|reflexivity|constructor]. apply bound_some.
      apply (expr_chain f text 2 3 (lit "2") (number 2%nat 3%nat (lit "2")) [] [] (Leaf (number 2%nat 3%nat (lit "2")))); [constructor|exact I|constructor|reflexivity|].
      apply group_term, (N _ _ 50%N eq_refl).
Qed.
(** a text that starts with a comment has pairs but no tree *)
Example C59_comment : exists s ts, reads ascii_only source NonAtomic (Name R_program) (mkPs 0 (lit "%%%x%%% 1") []) (Some (s, ts)) /\ forall a, ~ program_value [] (lit "%%%x%%% 1") ts a.
Proof. apply C59_panics. vm_compute. eexists. reflexivity. Qed.
