(** Property theorems about the work of the parser.  [program_steps] counts the
    calls of the parser's functions for a text, [program_depth] is how deep they
    nest; the texts are in [SpecCost], the reference syntax in [SpecSource]. *)
From Verif Require Import Base Ast SmError Peg Grammar Build Steps SpecAst SpecSyntax SpecText SpecSource SpecCost.
From Verif Require Import ProofSteps ProofDepth ProofWork ProofSample.
Local Open Scope nat_scope.

(** ** C62 parsing takes exponential time *)
(** every level of indexing triples the work *)
Theorem C62_indexing : forall U, sane U -> forall xs y, Forall (fun x => exists o, node U x o) xs -> (exists o, expr U y o) ->
  plain_start (indexed xs y) = true -> 3 ^ length xs <= program_steps U (indexed xs y).
Proof. exact indexed_steps. Qed.
Print Assumptions C62_indexing.
(** every unclosed call doubles it, and the text is refused in the end *)
Theorem C62_unclosed : forall U, sane U -> forall f fs y, Forall (fun w => word U w = true) (f :: fs) -> ~ In 41%N (unclosed (f :: fs) y) ->
  existsb (fun k => starts_with k f) [lit "null"; lit "true"; lit "false"] = false -> plain_start (unclosed (f :: fs) y) = true ->
  2 ^ length (f :: fs) <= program_steps U (unclosed (f :: fs) y) /\ forall i, parse U i (unclosed (f :: fs) y) = Ret (Err SMParseError).
Proof. exact unclosed_both. Qed.
Print Assumptions C62_unclosed.
(** so no polynomial bounds the work, not even for texts that are accepted *)
Theorem C62_no_polynomial : forall U, sane U -> forall c k, exists text a,
  denotes U text (Ret a) /\ c * (length text + 1) ^ k < program_steps U text.
Proof. exact deep_expensive. Qed.
Print Assumptions C62_no_polynomial.
(** it is never more than exponential *)
Theorem C62_at_most : forall U text, program_steps U text < 2 ^ ((length text + 1) * 70).
Proof. exact steps_below. Qed.
Print Assumptions C62_at_most.
(** only nesting makes it exponential: with few brackets, @, = and % it is polynomial *)
Theorem C62_few_signs : forall U text, program_steps U text <= (6 * (length text + 1)) ^ (6 * (signs text + 1)).
Proof. exact steps_signs. Qed.
Print Assumptions C62_few_signs.
Theorem C62_no_signs : forall U text, forallb (fun c => negb (nesting_sign c)) text = true -> program_steps U text <= (6 * (length text + 1)) ^ 6.
Proof. exact steps_plain. Qed.
Print Assumptions C62_no_signs.
(** the count is that of the whole run: more fuel finds no more calls *)
Theorem C62_whole_run : forall U text n, peg_fuel text <= n ->
  steps U grammar skip_body n (ECall R_program) NonAtomic false (mkPs 0 text []) = program_steps U text.
Proof. exact whole_run. Qed.
Print Assumptions C62_whole_run.

(** 0, a[0] and a[a[0]]; f(f( *)
Example C62_example : indexed [lit "a"; lit "a"] (lit "0") = lit "a[a[0]]" /\
  map (program_steps ascii_only) [lit "0"; lit "a[0]"; lit "a[a[0]]"] = [232; 611; 1748] /\
  forallb (fun c => negb (nesting_sign c)) (lit "a b + 2^c! // 'x'") = true /\
  unclosed [lit "f"; lit "f"] [] = lit "f(f(" /\ plain_start (lit "f(f(") = true /\
  (forall U, Forall (fun x => exists o, node U x o) [lit "a"; lit "a"]) /\ forall U, exists o, expr U (lit "0") o.
Proof.
  split; [reflexivity|]. split; [vm_compute; reflexivity|]. split; [reflexivity|]. split; [reflexivity|]. split; [reflexivity|]. split.
  - intro U. exact (deep_node U 2).
  - exact deep_zero.
Qed.

(** ** C66 how deep the parser recurses *)
(** only brackets, @, = and % make the calls nest: 14 calls, and 14 more for each such sign *)
Theorem C66_at_most : forall U text, program_depth U text <= 14 * (signs text + 1).
Proof. exact depth_signs. Qed.
Print Assumptions C66_at_most.
(** every opening parenthesis nests three more calls, whatever follows them *)
Theorem C66_parentheses : forall U n w, 3 * n <= program_depth U (repeat 40%N n ++ w).
Proof. exact open_depth. Qed.
Print Assumptions C66_parentheses.
(** so there is no limit to the depth, not even for accepted texts *)
Theorem C66_no_limit : forall U, sane U -> forall n, exists text a, denotes U text (Ret a) /\ tree_levels a = 1 /\ n < program_depth U text.
Proof. exact depth_unlimited. Qed.
Print Assumptions C66_no_limit.
(** pairs nest at most as deep as calls *)
Theorem C66_pairs : forall U text s ts, run_program U text = POk s ts -> list_max (map pair_levels ts) <= program_depth U text.
Proof. exact pairs_within. Qed.
Print Assumptions C66_pairs.
(** a sum without brackets is parsed in bounded depth, but its tree is as deep as the sum is long *)
Theorem C66_flat_text_deep_tree : forall U, sane U -> forall x xs, Forall (fun x => numeral x = true) (x :: xs) ->
  (exists a, denotes U (join (lit "+") (x :: xs)) (Ret a) /\ tree_levels a = length (x :: xs)) /\ program_depth U (join (lit "+") (x :: xs)) <= 14.
Proof. exact sum_tall. Qed.
Print Assumptions C66_flat_text_deep_tree.
(** the depth is that of the whole run *)
Theorem C66_whole_run : forall U text n, peg_fuel text <= n ->
  depth U grammar skip_body n (ECall R_program) NonAtomic false (mkPs 0 text []) = program_depth U text.
Proof. exact depth_whole. Qed.
Print Assumptions C66_whole_run.

Example C66_example : map (program_depth ascii_only) [lit "0"; lit "(0)"; lit "((0))"; lit "1+1+1"; lit "((("] = [12; 15; 18; 12; 21] /\
  signs (lit "f(x)[0] + 1") = 2 /\ Forall (fun x => numeral x = true) [lit "1"; lit "20"] /\ join (lit "+") [lit "1"; lit "20"] = lit "1+20".
Proof. split; [vm_compute; reflexivity|]. repeat split. repeat constructor. Qed.
