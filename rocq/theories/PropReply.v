(** Property theorems about what a session replies to any text.  The value of a
    tree and how values are written are in [SpecReply], the tree of a text in
    [SpecPest] and [SpecValue]. *)
From Verif Require Import Base Ast SmError Peg SpecAnswer SpecReply ProofSample ProofReply.
Local Open Scope Z_scope.

(** ** C60 the reply to every text *)
(** [answer]: after any earlier texts; [W] is the number of bits of usize *)
Theorem C60_reply : forall U W, 0 < W -> forall calls text w, answer U W calls text = Ret (Ok w) <->
  exists a b, understood U text a /\ evaluates W a (Ok b) /\ shown b w.
Proof. exact reply_ok. Qed.
Print Assumptions C60_reply.
Theorem C60_error : forall U W, 0 < W -> forall calls text e, answer U W calls text = Ret (Err e) <->
  refused U text /\ e = SMParseError \/ exists a, understood U text a /\ evaluates W a (Err e).
Proof. exact reply_error. Qed.
Print Assumptions C60_error.
(** it panics on all other texts: those without a tree, those whose tree has no
    value and those whose value cannot be written *)
Theorem C60_panic : forall U W, 0 < W -> forall calls text, (exists k, answer U W calls text = Panic k) <->
  ~ refused U text /\ forall a r, understood U text a -> evaluates W a r -> exists b, r = Ok b /\ forall w, ~ shown b w.
Proof. exact reply_panic. Qed.
Print Assumptions C60_panic.

(** 2^10 and 5! and first("ab"), after another text *)
Example C60_values : let p := understood ascii_only in
  (exists a, p (lit "2^10") a /\ evaluates 64 a (Ok (Integer 1024)) /\ shown (Integer 1024) (lit "1024")) /\
  (exists a, p (lit "5!") a /\ evaluates 64 a (Ok (Integer 120)) /\ shown (Integer 120) (lit "120")) /\
  (exists a, p (lit "first(""ab"")") a /\ evaluates 64 a (Ok (Str (lit "a"))) /\ shown (Str (lit "a")) (lit "a")) /\
  answer ascii_only 64 [lit "1+1"] (lit "2^10") = Ret (Ok (lit "1024")).
Proof.
  cbv zeta.
  split; [|split; [|split; [|vm_compute; reflexivity]]].
  - eexists. split; [apply understood_parse; vm_compute; reflexivity|]. split; [|apply display_shown; [exact I|vm_compute; reflexivity]].
    apply value_call. apply (power_two 64 2 10). split; [discriminate|reflexivity].
  - eexists. split; [apply understood_parse; vm_compute; reflexivity|]. split; [|apply display_shown; [exact I|vm_compute; reflexivity]].
    apply value_call. apply (factorial_value 64 5). split; [discriminate|reflexivity].
  - eexists. split; [apply understood_parse; vm_compute; reflexivity|]. split; [|apply display_shown; [exact I|vm_compute; reflexivity]].
    apply value_call. apply (first_char 64 97%N (lit "b")).
Qed.
(** an addition has no meaning to the evaluator, length of a number no value, and
    an empty text a value that cannot be written *)
Example C60_others : let r := answer ascii_only 64 [lit "7"] in
  r (lit "1+1") = Ret (Err unimplemented_function) /\ r (lit ")") = Ret (Err SMParseError) /\
  (exists k, r (lit "length(5)") = Panic k) /\ (exists k, r [] = Panic k) /\
  refused ascii_only (lit ")") /\ ~ refused ascii_only (lit "length(5)") /\ understood ascii_only [] EmptyStatement.
Proof.
  cbv zeta. split; [vm_compute; reflexivity|]. split; [vm_compute; reflexivity|].
  assert (P : exists k, answer ascii_only 64 [lit "7"] (lit "length(5)") = Panic k) by (eexists; vm_compute; reflexivity).
  split; [exact P|]. split; [eexists; vm_compute; reflexivity|].
  split; [apply refused_parse; vm_compute; reflexivity|]. split; [apply C60_panic in P; [apply P|reflexivity]|].
  apply understood_parse. vm_compute. reflexivity.
Qed.
(** writing values *)
Example C60_written : shown (Integer (-20)) (lit "-20") /\ shown (Decimal (mkDecimal 25 3)) (lit "0.025") /\
  shown (Sym (mkSymbol [lit "std"; lit "core"] (lit "All") Normal 0)) (lit "std::core::All") /\ forall w, ~ shown EmptyStatement w.
Proof.
  repeat split; try (apply display_shown; [exact I|vm_compute; reflexivity]). intros w H. inversion H.
Qed.
