(** Property theorems about texts that break off inside an expression.  The
    vocabulary is in [SpecUnfinished], [SpecBracket] and [SpecFault]. *)
From Verif Require Import Base Ast SmError Internal Peg Grammar Build Track SpecAst SpecClimb SpecSyntax SpecText SpecSource SpecPlace SpecManual SpecFault SpecBracket SpecUnfinished.
From Verif Require Import ProofBracket ProofUnfinished ProofSample.
Local Open Scope outcome_scope.
Local Open Scope nat_scope.

(** ** C72 texts that break off *)
(** a text that ends while a bracket is open is refused, and the error is at the end *)
Theorem C72_open_bracket : forall U, sane U -> forall g t y, spacing g = true -> lines U t -> unfinished U y -> y <> [] -> plain_start y = true ->
  t = [] \/ head_is operator_start y = false -> bare (g ++ t ++ y) = true -> ~ balanced (g ++ t ++ y) ->
  (forall f, parse U f (g ++ t ++ y) = Ret (Err SMParseError)) /\ blamed U (g ++ t ++ y) (length (g ++ t ++ y)).
Proof. exact unfinished_end. Qed.
Print Assumptions C72_open_bracket.
(** with strings and comments too, for every text that breaks off and is refused *)
Theorem C72_end : forall U, sane U -> forall g t y, spacing g = true -> lines U t -> unfinished U y -> y <> [] -> plain_start y = true ->
  t = [] \/ head_is operator_start y = false -> forall f, parse U f (g ++ t ++ y) = Ret (Err SMParseError) -> blamed U (g ++ t ++ y) (length (g ++ t ++ y)).
Proof. exact unfinished_refused. Qed.
Print Assumptions C72_end.
(** a character without meaning there: the error is at the character, however deep in brackets *)
Theorem C72_stranger : forall U, sane U -> forall g t y, spacing g = true -> lines U t -> unfinished U y -> y <> [] -> plain_start y = true ->
  t = [] \/ head_is operator_start y = false -> forall c w, bare (g ++ t ++ y) = true -> stranger U c = true ->
  (forall f, parse U f ((g ++ t ++ y) ++ c :: w) = Ret (Err SMParseError)) /\ blamed U ((g ++ t ++ y) ++ c :: w) (length (g ++ t ++ y)).
Proof. exact unfinished_stranger. Qed.
Print Assumptions C72_stranger.
(** a closing bracket the innermost open bracket does not wait for: the error is at the closing bracket *)
Theorem C72_wrong_closer : forall U, sane U -> forall g t y, spacing g = true -> lines U t -> unfinished U y -> y <> [] -> plain_start y = true ->
  t = [] \/ head_is operator_start y = false -> forall c w, bare (g ++ t ++ y) = true -> closes_nothing (g ++ t ++ y) c ->
  (forall f, parse U f ((g ++ t ++ y) ++ c :: w) = Ret (Err SMParseError)) /\ blamed U ((g ++ t ++ y) ++ c :: w) (length (g ++ t ++ y)).
Proof. exact unfinished_closer. Qed.
Print Assumptions C72_wrong_closer.

(** f(b, [c + on a second line, then & or a round bracket *)
Example C72_example : let y := lit "f(b, [c + " in let u := lit "a" ++ [10%N] ++ y in
  lines ascii_only (lit "a" ++ [10%N]) /\ unfinished ascii_only y /\ plain_start y = true /\ head_is operator_start y = false /\ bare u = true /\ ~ balanced u /\
  stranger ascii_only 38%N = true /\ closes_nothing u 41%N /\
  error_place ascii_only u = Some (2%Z, 11%Z) /\ error_place ascii_only (u ++ lit "& d])") = Some (2%Z, 11%Z) /\ error_place ascii_only (u ++ lit ") d])") = Some (2%Z, 11%Z) /\
  (unfinished ascii_only (lit "{k: x[1:") /\ error_place ascii_only (lit "{k: x[1:") = Some (1%Z, 9%Z)) /\
  (unfinished ascii_only (lit "2 f(-") /\ error_place ascii_only (lit "2 f(-") = Some (1%Z, 6%Z)).
Proof.
  pose proof (fun w H K => sample_expr w _ [] [] (Leaf (Operand _)) (sample_name w H K) (r_nil _) eq_refl eq_refl ltac:(bracketed)) as N. cbn [app] in N.
  pose proof (N (lit "a") eq_refl eq_refl) as A. pose proof (N (lit "b") eq_refl eq_refl) as B. pose proof (N (lit "c") eq_refl eq_refl) as C.
  cbv zeta.
  split; [exact (lines_more _ _ _ [10%N] [] A eq_refl eq_refl eq_refl (lines_none _))|].
  split.
  { apply u_open. apply (o_prefix _ [] _ eq_refl). apply (b_call _ (lit "f") [] [] [] [] (lit "(b, [c + ") eq_refl eq_refl (c_nil _) eq_refl).
    apply (a_more _ [] (lit "b") _ 44%N (lit " ") (lit "[c + ") eq_refl (a_one _ _ _ [] (a_plain _ _ _ B) eq_refl) eq_refl eq_refl).
    apply a_value, u_open. apply (o_prefix _ [] _ eq_refl). apply (b_list _ [] (lit "c + ") eq_refl).
    apply (u_operator _ (lit "c") _ (lit " ") (lit "+") (lit " ") C eq_refl); [cbn; auto|reflexivity|reflexivity]. }
  split; [reflexivity|]. split; [reflexivity|]. split; [vm_compute; reflexivity|].
  split; [intro X; apply balanced_walk with (st := []) in X; discriminate X|]. split; [vm_compute; reflexivity|].
  split; [apply (walk_closes_nothing _ 41%N); [reflexivity|reflexivity|discriminate]|].
  split; [vm_compute; reflexivity|]. split; [vm_compute; reflexivity|]. split; [vm_compute; reflexivity|].
  split.
  2:{ split; [|vm_compute; reflexivity]. apply u_open. apply (o_prefix _ [] _ eq_refl). apply (b_product _ (KInt (lit "2"))); [|reflexivity].
    apply (p_last _ (KInt (lit "2")) (lit "2") _ (lit " ") (lit "f") [] [] [] [] (lit "(-") (f_integer ascii_only (lit "2") eq_refl) eq_refl ltac:(discriminate) eq_refl eq_refl (c_nil _) eq_refl).
    apply (a_first _ [] (lit "-") eq_refl). apply a_value, u_open. apply o_due; [discriminate|reflexivity]. }
  split; [|vm_compute; reflexivity].
  apply u_open. apply (o_prefix _ [] _ eq_refl). apply (b_dictionary _ [] (lit "k: x[1:") eq_refl).
  apply (d_value _ (lit "k") [] 58%N (lit " ") (lit "x[1:") (k_name ascii_only (lit "k") eq_refl) eq_refl eq_refl eq_refl).
  apply u_open. apply (o_prefix _ [] _ eq_refl). apply (b_slice _ (lit "x") _ [] [] [] [] (lit "1:") (sample_node_name (lit "x") eq_refl eq_refl) (s_nil _) eq_refl eq_refl).
  pose proof (sample_expr (lit "1") _ [] [] (Leaf (Operand _)) (sample_number (lit "1") eq_refl) (r_nil _) eq_refl eq_refl ltac:(bracketed)) as One.
  apply (i_second _ (Integer 1) (lit "1") _ [] 58%N [] [] (b_some _ _ _ _ One) eq_refl ltac:(reflexivity) eq_refl eq_refl). apply u_due.
Qed.
