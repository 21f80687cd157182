(** Property theorems about the grammar file.  What a grammar means is in
    [SpecPest]; [source] is the grammar file itself. *)
From Verif Require Import Base SmError Peg Grammar Build SpecPest Source ProofPest ProofFollow ProofSample.
Local Open Scope nat_scope.

(** ** C58 the parser follows the grammar file *)
(** the generated parser accepts exactly the texts that the grammar accepts, with
    the same end and the same pairs *)
Theorem C58_accepts : forall U text s ts, run_program U text = POk s ts <-> reads U source NonAtomic (Name R_program) (mkPs 0 text []) (Some (s, ts)).
Proof. exact program_accepts. Qed.
Print Assumptions C58_accepts.
Theorem C58_rejects : forall U text, (exists s ts, run_program U text = PErr s ts) <-> reads U source NonAtomic (Name R_program) (mkPs 0 text []) None.
Proof. exact program_rejects. Qed.
Print Assumptions C58_rejects.
(** so does every other generated function, in every state and mode; these three
    read the matched texts and panic when there are none *)
Theorem C58_every_rule_accepts : forall U r m s s1 ts, ~ In r [R_PEEK; R_POP; R_StringText] ->
  (exists n, run U grammar skip_body n (ECall r) m false s = POk s1 ts) <-> reads U source m (Name r) s (Some (s1, ts)).
Proof. exact rule_accepts. Qed.
Print Assumptions C58_every_rule_accepts.
Theorem C58_every_rule_rejects : forall U r m s, ~ In r [R_PEEK; R_POP; R_StringText] ->
  (exists n s1 ts, run U grammar skip_body n (ECall r) m false s = PErr s1 ts) <-> reads U source m (Name r) s None.
Proof. exact rule_rejects. Qed.
Print Assumptions C58_every_rule_rejects.
(** with matched texts, those three agree with the grammar as well *)
Theorem C58_stack_rules : forall U r m n s, match run U grammar skip_body n (ECall r) m false s with
  | POk s1 ts => reads U source m (Name r) s (Some (s1, ts))
  | PErr _ _ => reads U source m (Name r) s None
  | PPanic | PFuel => True
  end.
Proof. intros. apply run_sound. Qed.
Print Assumptions C58_stack_rules.
(** the grammar has one meaning for every text *)
Theorem C58_unambiguous : forall U m e s o o', reads U source m e s o -> reads U source m e s o' -> o = o'.
Proof. exact reads_once. Qed.
Print Assumptions C58_unambiguous.
Theorem C58_total : forall U text, exists o, reads U source NonAtomic (Name R_program) (mkPs 0 text []) o.
Proof. exact program_total. Qed.
Print Assumptions C58_total.
(** what parse refuses is what the grammar refuses *)
Theorem C58_parse_refuses : forall U f text, reads U source NonAtomic (Name R_program) (mkPs 0 text []) None <->
  exists e, parse U f text = Ret (Err e).
Proof. exact parse_refuses. Qed.
Print Assumptions C58_parse_refuses.

(** a call is accepted, a lone bracket is not *)
Example C58_accepted : exists s ts, reads ascii_only source NonAtomic (Name R_program) (mkPs 0 (lit "f(1)") []) (Some (s, ts)) /\ rest s = [] /\ ts <> [].
Proof.
  destruct (run_program ascii_only (lit "f(1)")) as [s ts|s ts| |] eqn:E; [|vm_compute in E; discriminate E..].
  exists s, ts. split; [apply C58_accepts; exact E|]. vm_compute in E. injection E as <- <-. split; [reflexivity|discriminate].
Qed.
Example C58_rejected : reads ascii_only source NonAtomic (Name R_program) (mkPs 0 (lit ")") []) None.
Proof. apply C58_rejects. vm_compute. eexists. eexists. reflexivity. Qed.
(** the meaning by hand: the rule Positive reads a digit but 0 *)
Example C58_digit : reads ascii_only source NonAtomic (Name R_Positive) (mkPs 3 (lit "7+") []) (Some (mkPs 4 (lit "+") [], [Node R_Positive 3 4 (lit "7") []])).
Proof.
  apply (r_rule ascii_only source NonAtomic R_Positive AtomicRule (Then (Name R_ASCII_NONZERO_DIGIT) (Many (Name R_ASCII_DIGIT))) (mkPs 3 (lit "7+") []) (mkPs 4 (lit "+") []) [] (lit "7")); [reflexivity| |reflexivity].
  apply (r_then ascii_only source _ _ _ _ (mkPs 4 (lit "+") []) [] (mkPs 4 (lit "+") []) [] _ []).
  - eapply (r_char _ _ _ _ NonzeroDigit _ 55%N); [reflexivity|reflexivity|unfold between; lia|]. repeat split.
  - apply skips_nothing. discriminate.
  - apply r_many_no. eapply r_char_no; [reflexivity|reflexivity|]. intros (c & k & E & [A B]). injection E as <- _. lia.
Qed.
