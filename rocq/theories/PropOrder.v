(** Property theorems about the order of trees. *)
From Verif Require Import Base Ast Display SpecAst SpecUtf8 SpecOrder ProofOrder ProofAst.
Local Open Scope Z_scope.

(** ** C85 comparing trees *)
Theorem C85_less : forall a b, ast_compare a b = Lt <-> tree_before a b.
Proof. exact order_lt. Qed.
Print Assumptions C85_less.
Theorem C85_greater : forall a b, ast_compare a b = Gt <-> tree_before b a.
Proof. exact order_gt. Qed.
Print Assumptions C85_greater.
Theorem C85_equal : forall a b, ast_compare a b = Eq <-> alike a b.
Proof. exact order_eq. Qed.
Print Assumptions C85_equal.
(** texts: a dictionary of characters is one of their bytes *)
Theorem C85_bytes : forall s t bs bt,
  Forall (fun c => c < 1114112)%N s -> Forall (fun c => c < 1114112)%N t -> utf8 s bs -> utf8 t bt ->
  (ast_compare (Str s) (Str t) = Lt <-> text_before bs bt).
Proof. exact strings_bytes. Qed.
Print Assumptions C85_bytes.
(** exactly one of: before, alike, after *)
Theorem C85_total : forall a b,
  tree_before a b /\ ~ alike a b /\ ~ tree_before b a \/
  ~ tree_before a b /\ alike a b /\ ~ tree_before b a \/
  ~ tree_before a b /\ ~ alike a b /\ tree_before b a.
Proof. exact order_total. Qed.
Print Assumptions C85_total.
Theorem C85_transitive : forall a b c, tree_before a b -> tree_before b c -> tree_before a c.
Proof. exact order_transitive. Qed.
Print Assumptions C85_transitive.
(** alike trees may differ in their text: 1.5 and 1.50 *)
Theorem C85_alike_not_equal : exists a b, alike a b /\ display a <> display b.
Proof. exact alike_differ. Qed.
Print Assumptions C85_alike_not_equal.
Example C85_example :
  ast_compare (Function (symbol_from (lit "f")) [mkParam [Integer 2] [] default_position]) (Function (symbol_from (lit "f")) [mkParam [Integer 2; Integer 1] [] default_position]) = Lt /\
  ast_compare (Integer 100) (Decimal (mkDecimal 15 1)) = Lt /\
  ast_compare (Str (lit "Z")) (Str (lit "a")) = Lt /\ ast_compare (Str (lit "b")) (Str (lit "abc")) = Gt /\
  ast_compare (Decimal (mkDecimal 15 1)) (Decimal (mkDecimal 150 2)) = Eq /\
  utf8 [233%N] [195; 169]%N /\ ast_compare (Str (lit "z")) (Str [233%N]) = Lt.
Proof. repeat split; try reflexivity. apply (utf8_more _ [195; 169]%N _ _ (utf8_2 3 41 eq_refl eq_refl ltac:(discriminate)) utf8_none). Qed.
