(** Property theorems about the positions recorded in a tree.  The vocabulary is in
    [SpecPlace]. *)
From Verif Require Import Base Ast SmError Peg Build SpecPeg SpecPlace ProofPlace ProofSample.
Local Open Scope Z_scope.

(** ** C54 positions *)
(** every argument list of a parsed tree carries the file name and the line and
    column of the start and end of a part of the text; for a prefix or suffix
    operator that part is the operator's sign *)
Theorem C54_positions : forall U f text a, parse U f text = Ret (Ok a) -> located f text a.
Proof. exact parse_located. Qed.
Print Assumptions C54_positions.
Theorem C54_start_before_end : forall f text p part, marks f text p part ->
  file p = f /\ not_after (pstart p) (pend p).
Proof. exact marks_order. Qed.
Print Assumptions C54_start_before_end.
(** offsets in order are places in order *)
Theorem C54_places_are_ordered : forall text i j, (i <= j)%nat -> not_after (place text i) (place text j).
Proof. exact place_order. Qed.
Print Assumptions C54_places_are_ordered.
(** the second line, after a carriage return and a line feed: f from column 1, its
    argument list from 2 to 5, the sign ! from 5 to 6 *)
Example C54_example : forall f,
  let text := [32; 13; 10; 102; 40; 49; 41; 33]%N in
  (exists s t a, parse ascii_only f text =
    Ret (Ok (Function s [mkParam [Function t [mkParam [Integer 1] [] a]] [] (mkPosition f (2, 5) (2, 6))])) /\
    a = mkPosition f (2, 2) (2, 5)) /\
  place text 4 = (2, 2) /\ marks f text (mkPosition f (2, 5) (2, 6)) (lit "!").
Proof.
  intros f. split; [vm_compute; eexists; eexists; eexists; split; reflexivity|]. split; [vm_compute; reflexivity|].
  exists 7%nat, 8%nat. split; [cbn; lia|]. split; vm_compute; reflexivity.
Qed.
