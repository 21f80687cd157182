(** The generic facts about the interpreter, instantiated with the grammar. *)
From Verif Require Import Base Peg Grammar SpecPeg ProofPeg ProofPegShift ProofSym Build.
Local Open Scope nat_scope.

Notation grammar_wf := (wf grammar skip_body 15 70 20).

Lemma all_wf : forallb (fun r => grammar_wf (grammar r)) all_rules = true.
Proof. vm_compute. reflexivity. Qed.
Lemma wf_rule : forall r, grammar_wf (grammar r) = true.
Proof. intro r. pose proof all_wf as H. rewrite forallb_forall in H. apply H. apply all_rules_complete. Qed.
Lemma wf_skip : grammar_wf skip_body = true.
Proof. vm_compute. reflexivity. Qed.
Lemma dep_rules : forallb (fun r => Nat.leb (dep grammar skip_body 15 70 20 (ECall r)) 70) all_rules = true.
Proof. vm_compute. reflexivity. Qed.
Lemma dep_rule : forall r, dep grammar skip_body 15 70 20 (ECall r) <= 70.
Proof.
  intro r. pose proof dep_rules as H. rewrite forallb_forall in H.
  apply Nat.leb_le. apply H. apply all_rules_complete.
Qed.
Lemma wf_call : forall r, grammar_wf (ECall r) = true.
Proof. intro r. cbn [wf]. rewrite andb_true_r. apply Nat.leb_le. apply dep_rule. Qed.

(** the fuel never runs out *)
Lemma rule_terminates : forall U r k q s n, (length (rest s) + 1) * 70 <= n ->
  run U grammar skip_body n (ECall r) k q s <> PFuel.
Proof.
  intros U r k q s n H.
  apply (run_terminates U grammar skip_body 15 70 20 wf_rule wf_skip n (ECall r) k q s 20).
  - apply wf_call.
  - apply dep_rule.
  - pose proof (dep_rule r) as D. revert D. generalize (dep grammar skip_body 15 70 20 (ECall r)). intros d D. lia.
Qed.
Lemma program_terminates : forall U text, run_program U text <> PFuel.
Proof. intros. unfold run_program. apply rule_terminates. unfold peg_fuel. cbn [rest]. lia. Qed.

Lemma rule_ev : forall U r k q s, ev U grammar skip_body (ECall r) k q s
  (run U grammar skip_body ((length (rest s) + 1) * 70) (ECall r) k q s).
Proof. intros. split; [apply rule_terminates; lia|]. eexists. reflexivity. Qed.

Lemma program_ev : forall U text r,
  ev U grammar skip_body (ECall R_program) NonAtomic false (mkPs 0 text []) r -> run_program U text = r.
Proof. intros U text r H. unfold run_program. apply ev_run; [exact H|]. apply program_terminates. Qed.

(** the matched-text stack is never empty where it is read *)
Definition needs_stack (r : rule) : bool :=
  match r with R_PEEK | R_POP | R_StringText => true | _ => false end.
Lemma all_sd : forallb (fun r => needs_stack r || match sd grammar needs_stack 5 (grammar r) 0 with None => false | _ => true end)
  all_rules = true.
Proof. vm_compute. reflexivity. Qed.
Lemma sd_rule : forall r, needs_stack r = false -> sd grammar needs_stack 5 (grammar r) 0 <> None.
Proof.
  intros r Hr. pose proof all_sd as H. rewrite forallb_forall in H. specialize (H r (all_rules_complete r)).
  rewrite Hr in H. cbn [orb] in H. destruct (sd grammar needs_stack 5 (grammar r) 0); congruence.
Qed.
Lemma sd_skip : sd grammar needs_stack 5 skip_body 0 <> None.
Proof. vm_compute. discriminate. Qed.
Lemma program_no_panic : forall U text, run_program U text <> PPanic.
Proof.
  intros. unfold run_program.
  apply (run_no_panic U grammar skip_body needs_stack 5 sd_rule sd_skip). vm_compute. discriminate.
Qed.

(** spans *)
Lemma program_good : forall U text, good_res text (mkPs 0 text []) (run_program U text).
Proof. intros. apply run_good. split; [cbn; lia|reflexivity]. Qed.

Lemma program_consumes : forall U text s ts, run_program U text = POk s ts -> rest s = [].
Proof.
  intros U text s ts. unfold run_program. generalize (peg_fuel text). intros n.
  generalize (mkPs 0 text []). generalize false. generalize NonAtomic. intros k q s0 H.
  do 2 (destruct n as [|n]; [discriminate|]). cbn [run grammar] in H.
  destruct n as [|n]; [discriminate|]. cbn [run] in H.
  match type of H with match match ?x with _ => _ end with _ => _ end = _ => destruct x as [s1 t1|s1 t1| |]; try discriminate end.
  destruct n as [|n]; [discriminate|]. cbn [run grammar] in H.
  destruct n as [|n]; [discriminate|]. cbn [run] in H.
  destruct n as [|n]; [discriminate|]. cbn [run] in H.
  destruct (rest s1) eqn:E; cbn in H; [|discriminate].
  injection H as <- <-. exact E.
Qed.

Lemma accepted_spans : forall U text s ts, run_program U text = POk s ts ->
  pos s = length text /\ in_order 0 (length text) ts /\ Forall (well_spanned text) ts.
Proof.
  intros U text s ts H. pose proof (program_good U text) as G. rewrite H in G. cbn in G.
  destruct G as ([L E] & _ & O & W). pose proof (program_consumes _ _ _ _ H) as R.
  assert (P : pos s = length text).
  { rewrite R in E. symmetry in E. apply (f_equal (@length _)) in E. rewrite skipn_length in E. cbn in E. lia. }
  rewrite P in O. auto.
Qed.

(** offsets *)
Definition reads_start (r : rule) : bool := match r with R_program | R_SOI => true | _ => false end.
Lemma all_no_soi : forallb (fun r => reads_start r || no_soi reads_start (grammar r)) all_rules = true.
Proof. vm_compute. reflexivity. Qed.
Lemma no_soi_rule : forall r, reads_start r = false -> no_soi reads_start (grammar r) = true.
Proof.
  intros r Hr. pose proof all_no_soi as H. rewrite forallb_forall in H. specialize (H r (all_rules_complete r)).
  rewrite Hr in H. exact H.
Qed.
Lemma grammar_shift : forall U f d e k q s, no_soi reads_start e = true ->
  run U grammar skip_body f e k q (shift_state d s) = shift_res d (run U grammar skip_body f e k q s).
Proof. intros. apply (run_shift U grammar skip_body reads_start no_soi_rule); [vm_compute; reflexivity|assumption]. Qed.
