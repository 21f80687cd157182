(** Property theorems about the message the error of a refused text carries.
    The vocabulary is in [SpecMessage]; [message] is the text in the error. *)
From Verif Require Import Base Ast SmError Internal Peg Grammar Build Track SpecAst SpecText SpecPlace SpecFault Message SpecMessage.
From Verif Require Import ProofMessage ProofSample.
Local Open Scope outcome_scope.
Local Open Scope nat_scope.

(** ** C80 the message of a refused text *)
(** six lines: the place of the error, the line of the text it stands in, a mark, and the names of exactly the rules that were tried
    there in vain, each of them once *)
Theorem C80_message : forall U f text, parse U f text = Ret (Err SMParseError) -> exists i yes m mark p,
  parse_error U text = Some (i, yes, []) /\ blamed U text i /\ message U text = Some (Ret m) /\
  laid_out m (fst (place text i)) (snd (place text i)) (line_shown text i) mark (listing (names_where p)) /\
  yes <> [] /\ forall r, p r = true <-> In r yes.
Proof. exact refused_message. Qed.
Print Assumptions C80_message.
Theorem C80_only_refused : forall U f text, parse U f text <> Ret (Err SMParseError) -> message U text = None.
Proof. exact accepted_message. Qed.
Print Assumptions C80_only_refused.
(** the message can be taken apart again in one way only *)
Theorem C80_readable : forall m l c line mark what l' c' line' mark' what', laid_out m l c line mark what -> laid_out m l' c' line' mark' what' ->
  l = l' /\ c = c' /\ line = line' /\ mark = mark' /\ what = what'.
Proof. exact layout_read. Qed.
Print Assumptions C80_readable.
(** texts refused at different places have different messages *)
Theorem C80_place : forall U f g s t, parse U f s = Ret (Err SMParseError) -> parse U g t = Ret (Err SMParseError) -> message U s = message U t ->
  error_place U s = error_place U t.
Proof. exact messages_differ. Qed.
Print Assumptions C80_place.
(** and so do texts with different sets of rules that were tried in vain *)
Theorem C80_expected : forall U f g s t i yes no j yes' no', parse U f s = Ret (Err SMParseError) -> parse U g t = Ret (Err SMParseError) -> message U s = message U t ->
  parse_error U s = Some (i, yes, no) -> parse_error U t = Some (j, yes', no') -> forall r, In r yes <-> In r yes'.
Proof. exact messages_expect. Qed.
Print Assumptions C80_expected.
(** the line quoted begins with what stands before the error in its line, the next sign is the character at the error, and the mark
    stands under that sign; if no carriage return stands before the error in the line *)
Theorem C80_mark : forall U f text i yes no m l c line mark what, parse U f text = Ret (Err SMParseError) -> parse_error U text = Some (i, yes, no) -> message U text = Some (Ret m) ->
  laid_out m l c line mark what -> existsb is_return (last_line (firstn i text)) = false ->
  exists rest, line = last_line (firstn i text) ++ rest /\ mark = blanked (last_line (firstn i text)) ++ lit "^---" /\ hd_error rest = option_map sign_of (nth_error text i).
Proof. exact mark_below. Qed.
Print Assumptions C80_mark.
(** with a carriage return there the mark is not under the character at the error (&): it stands one column too far *)
Theorem C80_mark_refuted : let text := lit "a" ++ [13%N] ++ lit "&" in parse ascii_only [] text = Ret (Err SMParseError) /\
  exists yes m what, parse_error ascii_only text = Some (2, yes, []) /\ message ascii_only text = Some (Ret m) /\
    nth_error text 2 = Some 38%N /\ laid_out m 1 3 (lit "a&") (lit "  ^---") what.
Proof. exact mark_off. Qed.
Print Assumptions C80_mark_refuted.
Example C80_example : let text := lit "1 + " ++ [10%N] ++ lit " &" in parse ascii_only [] text = Ret (Err SMParseError) /\
  message ascii_only text = Some (Ret (lit " --> 2:2" ++ [10%N] ++ lit "  |" ++ [10%N] ++ lit "2 |  &" ++ [10%N] ++ lit "  |  ^---" ++ [10%N] ++ lit "  |" ++ [10%N] ++ lit "  = expected term or MultiLineComment")) /\
  existsb is_return (last_line (firstn 6 text)) = false /\ blanked (last_line (firstn 6 text)) = lit " ".
Proof. exact message_sample. Qed.
