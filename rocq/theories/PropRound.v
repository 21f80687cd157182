(** Property theorems about printing a tree and reading the text back.
    [good_tree], [faithful], [ast_of] and [misread] are in [SpecRound]. *)
From Verif Require Import Base Ast Display Peg Build SpecAst SpecSyntax SpecSource SpecText SpecRound.
From Verif Require Import ProofSample ProofRound.
Local Open Scope Z_scope.
Local Open Scope outcome_scope.

(** ** C20 printing then reading *)
(** every operator expression is printed as a text that is accepted, and the text
    means the expression exactly if the expression is [faithful] *)
Theorem C20_round_trip : forall U, sane U -> forall t a, good_tree U t -> forget_positions a = ast_of t ->
  exists text, display a = Ret text /\ (exists t', denotes U text (Ret (ast_of t'))) /\ (denotes U text (Ret a) <-> faithful t).
Proof. exact round_trip_any. Qed.
Print Assumptions C20_round_trip.
(** the printed text does not depend on source positions *)
Theorem C20_positions : forall a, display (forget_positions a) = display a.
Proof. exact display_positions. Qed.
Print Assumptions C20_positions.
(** different trees of the class are different syntax trees *)
Theorem C20_trees_differ : forall U t t', good_tree U t -> ast_of t = ast_of t' -> t = t'.
Proof. exact ast_of_inj. Qed.
Print Assumptions C20_trees_differ.
Example C20_example :
  let x := OName (lit "x") [] in
  let t := OBin (lit "*") (OBin (lit "+") x (OInt 2)) (OBin (lit "^") (OPre 45%N (OSuf false x)) (OBin (lit "^") (OInt 3) (OBool true))) in
  good_tree ascii_only t /\ faithful t /\ display (ast_of t) = Ret (lit "(x+2)*-x!^3^true").
Proof.
  cbv zeta. split; [|split; [|reflexivity]].
  - cbn [good_tree]. unfold good_name. repeat split; cbn; tauto.
  - cbn [faithful fits_left fits_right no_infix takes_suffix]. unfold printed, strength. cbn. intuition (lia || discriminate).
Qed.

(** ** C21 printing is ambiguous *)
(** an expression that is not [faithful] is read back as another tree *)
Theorem C21_unfaithful : forall U, sane U -> forall t, good_tree U t -> ~ faithful t ->
  exists text t', display (ast_of t) = Ret text /\ denotes U text (Ret (ast_of t')) /\ ast_of t' <> ast_of t.
Proof. exact unfaithful. Qed.
Print Assumptions C21_unfaithful.
(** which tree, for the smallest shapes *)
Theorem C21_misread : forall U, sane U -> forall a b c t t', atom U a -> atom U b -> atom U c -> In (t, t') (misread a b c) ->
  exists text, display (ast_of t) = Ret text /\ denotes U text (Ret (ast_of t')) /\ ast_of t' <> ast_of t.
Proof. exact misread_texts. Qed.
Print Assumptions C21_misread.
(** a product of three or more factors is read back as nested products of two *)
Theorem C21_long_product : forall U, sane U -> forall a b ts, atom U a -> atom U b -> Forall (atom U) ts -> ts <> [] ->
  exists text, display (times (map ast_of (a :: b :: ts))) = Ret text /\
    denotes U text (Ret (ast_of (fold_left (OBin (lit "*")) (b :: ts) a))) /\
    ast_of (fold_left (OBin (lit "*")) (b :: ts) a) <> times (map ast_of (a :: b :: ts)).
Proof. exact product_text. Qed.
Print Assumptions C21_long_product.
Example C21_example : forall xs xc f,
  omap forget_result (parse (mkUnicode xs xc) f (lit "9-(5-3)")) = Ret (Ok (ast_of (OBin (lit "-") (OInt 9) (OBin (lit "-") (OInt 5) (OInt 3))))) /\
  display (ast_of (OBin (lit "-") (OInt 9) (OBin (lit "-") (OInt 5) (OInt 3)))) = Ret (lit "9-5-3") /\
  omap forget_result (parse (mkUnicode xs xc) f (lit "9-5-3")) = Ret (Ok (ast_of (OBin (lit "-") (OBin (lit "-") (OInt 9) (OInt 5)) (OInt 3)))) /\
  ~ faithful (OInt (-1)).
Proof.
  intros xs xc f. split; [vm_compute; reflexivity|]. split; [vm_compute; reflexivity|]. split; [vm_compute; reflexivity|]. cbn [faithful]. lia.
Qed.
