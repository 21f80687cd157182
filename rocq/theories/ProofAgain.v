(** Proofs about replies given back as texts. *)
From Verif Require Import Base Ast SmError Internal Peg Grammar Build Display Runner Track Message Debug SpecNum SpecAst SpecSyntax SpecSource SpecText SpecSession SpecUtf8 SpecPest SpecValue SpecReply SpecImage SpecDebug SpecAgain.
From Verif Require Import ProofUtf8 ProofAtom ProofFib ProofEval ProofDisplay ProofAst ProofSyntax ProofSource ProofValue ProofImage ProofProduced ProofReply ProofAnswer ProofRunner ProofSample ProofDebug.
Local Open Scope Z_scope.

(** ** Values *)
Definition fine (a : ast) : Prop :=
  match a with
  | Integer n => 0 <= n
  | Decimal d => exists n m k, d = mkDecimal (n * 10 ^ k + m) k /\ 0 <= n /\ has_digits k m
  | _ => True
  end.
Lemma produced_fine : forall U a, produced U a -> fine a.
Proof. intros U a H. destruct H; cbn [fine]; try exact I; [assumption|]. exists n, m, k. auto. Qed.
Lemma simple_fine : forall U a, simple_factor U a -> fine a.
Proof. intros U a H. destruct H; cbn [fine]; [assumption|exact I]. Qed.
Lemma produced_forall : forall U l, Forall (produced U) l -> Forall fine l.
Proof. intros U l H. eapply Forall_impl; [|exact H]. intros a. apply produced_fine. Qed.
Lemma applied_fine : forall W f l b, applied W f l (Ok b) -> Forall fine l -> fine b /\ forall s, b <> Sym s.
Proof.
  intros W f l b A F. inversion A; subst; (split; [|discriminate]); try exact I; cbn [fine]; repeat match goal with H : Forall fine (_ :: _) |- _ => inversion H; subst; clear H end; cbn [fine] in *; try assumption.
  - lia.
  - unfold factorial. lia.
  - apply fib_nonneg.
  - apply fib_nonneg.
  - lia.
  - nia.
  - apply Z.pow_nonneg. assumption.
Qed.
(** the values of texts *)
Inductive outcome_of (U : unicode) : ast -> Prop :=
| of_nothing : outcome_of U EmptyStatement
| of_integer : forall n, 0 <= n -> outcome_of U (Integer n)
| of_decimal : forall n m k, 0 <= n -> has_digits k m -> outcome_of U (Decimal (mkDecimal (n * 10 ^ k + m) k))
| of_boolean : forall b, outcome_of U (Boolean b)
| of_null : outcome_of U (Sym null_symbol)
| of_name : forall s, writable U s -> ordinary s -> outcome_of U (Sym s)
| of_string : forall s, outcome_of U (Str s).
Lemma fine_outcome : forall U b, value b -> fine b -> (forall s, b <> Sym s) -> outcome_of U b.
Proof.
  intros U b V F N. destruct b; try contradiction; cbn [fine] in F; try (constructor; assumption).
  - destruct F as (n & m & k & -> & H & D). constructor; assumption.
  - exfalso. eapply N. reflexivity.
Qed.
Lemma produced_outcome : forall U W a b, produced U a -> evaluates W a (Ok b) -> outcome_of U b.
Proof.
  intros U W a b P E. pose proof (evaluates_value _ _ _ E) as V.
  assert (K : forall s args, Forall fine args -> applied W (name s) args (Ok b) -> outcome_of U b).
  { intros s args F A. destruct (applied_fine _ _ _ _ A F) as [X Y]. apply fine_outcome; assumption. }
  inversion E as [a' N|s|s args opts pos r A|]; subst.
  - destruct P; try contradiction; try (constructor; assumption).
  - inversion P; subst. contradiction.
  - inversion P as [| | | | | |s' ps H1 H2 H3| | |o n l p Hn Hl]; subst.
    + inversion H3 as [|? ? (H & _) _]; subst. cbn [arguments] in H. eapply K; [eapply produced_forall, H|exact A]. 
    + eapply K; [eapply produced_forall; eassumption|exact A].
    + eapply K; [|exact A]. apply Forall_app. split; [eapply produced_forall; eassumption|]. eapply Forall_impl; [|eassumption]. intros x. apply simple_fine.
    + exfalso. destruct o; cbn [input_symbol name] in A; inversion A.
Qed.
Lemma text_outcome : forall U W text b, sane U -> 0 < W -> evaluates_to W (parse U (lit "anonymous")) text b -> outcome_of U b.
Proof.
  intros U W text b HU HW (a & P & F). destruct (evaluates_forward W a (Ok b) (Eval.mkContext 0 [] [] []) _ HW (F _)) as [E _].
  destruct (parse_produced U _ _ _ HU P) as [->|Q]; [|exact (produced_outcome U W a b Q E)].
  inversion E; subst. constructor.
Qed.

(** ** Their texts *)
Lemma tail_flat : forall l n, path_tail (l ++ [n]) = lit "::" ++ flat_map (fun m => m ++ lit "::") l ++ n.
Proof. induction l as [|x l IH]; intros n; cbn [app path_tail flat_map]; [rewrite app_nil_r; reflexivity|]. rewrite IH, <- !app_assoc. reflexivity. Qed.
Lemma named_shown : forall w l, display_symbol (SpecSource.named w l) = w ++ path_tail l.
Proof.
  intros w l. rewrite symbol_flat. unfold SpecSource.named. cbn [name_space name]. destruct l as [|x l] using rev_ind; [cbn; rewrite app_nil_r; reflexivity|].
  rewrite app_comm_cons, removelast_last, last_last, tail_flat. cbn [flat_map]. rewrite <- !app_assoc. reflexivity.
Qed.
Lemma decimal_text : forall U n m k w, 0 <= n -> has_digits k m -> shown (Decimal (mkDecimal (n * 10 ^ k + m) k)) w ->
  node U w (Ret (Decimal (mkDecimal (n * 10 ^ k + m) k))) /\ exists x y, w = x ++ lit "." ++ y /\ numeral_of n x /\ Forall is_digit y /\ y <> [].
Proof.
  intros U n m k w Hn Hm H. assert (K : 0 < k /\ 0 <= m < 10 ^ k).
  { destruct Hm as [[-> H1]|[H1 [H2 H3]]]; [split; lia|]. pose proof (Z.pow_nonneg 10 (k - 1)). lia. }
  destruct K as [K M]. assert (T : 0 <= n * 10 ^ k) by (apply Z.mul_nonneg_nonneg; [exact Hn|apply Z.pow_nonneg; lia]).
  inversion H as [| | |i k' q r x y w' Hk E N D L V S|i k' x w' Hk| |]; subst; [|lia].
  pose proof (numeral_value_bounds y D) as B. rewrite Z.abs_eq in E by lia.
  assert (q = n) by nia. subst q. assert (V : numeral_value y = m) by nia.
  destruct (show_nat_spec m ltac:(lia)) as (N1 & D1 & V1 & Z1). pose proof (show_length _ _ Hm) as L1. apply Nat2Z.inj in L1.
  assert (Y : y = show_nat m) by (apply numeral_length_inj; [exact D|exact D1|congruence|congruence]).
  destruct S as [[_ ->]|[S _]]; [|lia]. split.
  - destruct (ProofSyntax.numeral_of_numeral n x N) as [X XV]. destruct (show_nat_numeral m ltac:(lia)) as [Y1 _]. rewrite <- Y in Y1.
    pose proof (n_decimal U x y X Y1) as Q. rewrite numeral_value_app, XV, V in Q. exact Q.
  - exists x, y. split; [reflexivity|]. split; [exact N|]. split; [exact D|]. intros ->. cbn in K. lia.
Qed.
Lemma outcome_text : forall U b w, outcome_of U b -> display b = Ret w -> (forall s, b <> Str s) -> b <> Sym null_symbol ->
  node U w (Ret b).
Proof.
  intros U b w O D S N. destruct O; try (exfalso; eapply S; reflexivity); try congruence.
  - discriminate D.
  - cbn [display] in D. injection D as <-. unfold show_int. destruct (Z.ltb_spec n 0); [lia|]. destruct (show_nat_numeral n H) as [X V].
    pose proof (n_integer U _ X) as Y. rewrite V in Y. exact Y.
  - apply display_shown in D; [|exact I]. apply (decimal_text U n m k w H H0 D).
  - destruct b; injection D as <-; apply n_constant; constructor.
  - cbn [display] in D. injection D as <-. destruct (writable_named U s H) as (x & l & -> & Hx & Hl & E). rewrite named_shown.
    apply n_name; [exact Hx|exact Hl|]. rewrite constant_tail. unfold ordinary in H0. rewrite E in H0. exact H0.
Qed.
Lemma node_reads_back : forall U W st b w, sane U -> node U w (Ret b) -> plain_start w = true -> display b = Ret w -> value b -> reads_back U W st b w.
Proof.
  intros U W st b w HU N P D V. pose proof (source_text U HU [] w (Ret b) [] eq_refl (node_written U w b N) P eq_refl (lit "anonymous")) as T. cbn [app] in T. rewrite app_nil_r in T.
  assert (E : evaluates_to W (parse U (lit "anonymous")) w b).
  { destruct (parse U (lit "anonymous") w) as [[a|e]| |] eqn:X; cbn [omap obind forget_result] in T; try discriminate T. injection T as T.
    assert (a = b) by (destruct b; try contradiction; destruct a; try discriminate T; exact T). subst a. exists b. split; [exact X|]. intros c. destruct b; try contradiction; reflexivity. }
  split; [exact E|]. intros calls H. destruct (pg_next_result W (parse U (lit "anonymous")) (debug_error U st) calls w H) as (r & Q & X & _). unfold page_run. rewrite Q, (X b w E D). reflexivity.
Qed.
Lemma value_reply : forall U W st text b w, evaluates_to W (parse U (lit "anonymous")) text b -> display b = Ret w -> replies U W st text w.
Proof.
  intros U W st text b w E D calls H. destruct (pg_next_result W (parse U (lit "anonymous")) (debug_error U st) calls text H) as (r & Q & X & _). unfold page_run. rewrite Q, (X b w E D). reflexivity.
Qed.
Lemma plain_again : forall U W st text b, sane U -> 0 < W -> evaluates_to W (parse U (lit "anonymous")) text b -> plain_value b ->
  exists w, replies U W st text w /\ reads_back U W st b w.
Proof.
  intros U W st text b HU HW E V. pose proof (text_outcome U W text b HU HW E) as O.
  assert (D : exists w, display b = Ret w) by (destruct b; try contradiction; eexists; reflexivity). destruct D as [w D]. exists w. split; [exact (value_reply _ _ _ _ _ _ E D)|].
  assert (N : node U w (Ret b)) by (apply outcome_text; try assumption; intros; intros ->; contradiction).
  apply node_reads_back; try assumption; [|destruct b; try contradiction; exact I].
  destruct O; try contradiction.
  - cbn [display] in D. injection D as <-. unfold show_int. destruct (Z.ltb_spec n 0); [lia|]. rewrite <- (app_nil_r (show_nat n)). apply (number_plain n). apply show_nat_spec. assumption.
  - apply display_shown in D; [|exact I]. destruct (decimal_text U n m k w H H0 D) as [_ (x & y & -> & X & _)]. apply (number_plain n). exact X.
  - destruct b; injection D as <-; reflexivity.
Qed.
Lemma name_again : forall U W st text s, sane U -> 0 < W -> evaluates_to W (parse U (lit "anonymous")) text (Sym s) -> s <> null_symbol ->
  replies U W st text (display_symbol s) /\ (plain_start (display_symbol s) = true -> reads_back U W st (Sym s) (display_symbol s)).
Proof.
  intros U W st text s HU HW E N. split; [exact (value_reply _ _ _ _ _ _ E eq_refl)|]. intros P.
  apply node_reads_back; [exact HU| |exact P|reflexivity|exact I]. apply outcome_text; [exact (text_outcome U W text _ HU HW E)|reflexivity|discriminate|congruence].
Qed.
Lemma unsigned_values : forall U W st text b w, sane U -> 0 < W -> evaluates_to W (parse U (lit "anonymous")) text b -> number b ->
  replies U W st text w -> unsigned_numeral w.
Proof.
  intros U W st text b w HU HW E V R. pose proof (text_outcome U W text b HU HW E) as O.
  assert (D : exists w, display b = Ret w) by (destruct b; try contradiction; eexists; reflexivity). destruct D as [w' D].
  pose proof (replies_one _ _ _ _ _ _ (value_reply U W st _ _ _ E D) R). subst w'. destruct O; try contradiction.
  - cbn [display] in D. injection D as <-. unfold show_int. destruct (Z.ltb_spec n 0); [lia|]. destruct (show_nat_spec n H) as (A & B & _). exists (show_nat n), []. split; [left; reflexivity|]. split; [exact A|]. rewrite app_nil_r. exact B.
  - apply display_shown in D; [|exact I]. destruct (decimal_text U n m k w H H0 D) as [_ (x & y & -> & (A & B & _) & C & F)]. exists x, y. split; [right; split; [reflexivity|exact F]|]. split; [exact A|]. apply Forall_app. split; assumption.
Qed.
Lemma values_only : forall U W text b, sane U -> 0 < W -> evaluates_to W (parse U (lit "anonymous")) text b -> value b.
Proof. intros U W text b HU HW E. destruct (text_outcome U W text b HU HW E); exact I. Qed.

(** ** Samples *)
Lemma sample_value : forall text b, parse ascii_only (lit "anonymous") text = Ret (Ok b) -> value b -> evaluates_to 64 (parse ascii_only (lit "anonymous")) text b.
Proof. intros text b P V. exists b. split; [exact P|]. intros c. destruct b; try contradiction; reflexivity. Qed.
Lemma sample_power : evaluates_to 64 (parse ascii_only (lit "anonymous")) (lit "2^10") (Integer 1024).
Proof. eexists. split; [vm_compute; reflexivity|]. intros c. vm_compute. reflexivity. Qed.
Lemma sample_factorial : evaluates_to 64 (parse ascii_only (lit "anonymous")) (lit "5!") (Integer 120).
Proof. eexists. split; [vm_compute; reflexivity|]. intros c. vm_compute. reflexivity. Qed.
Lemma again_refuted : exists st, let p := parse ascii_only (lit "anonymous") in
  (evaluates_to 64 p (lit "null") (Sym null_symbol) /\ replies ascii_only 64 st (lit "null") (lit "std::constant:Null") /\ fails_with 64 p (lit "std::constant:Null") SMParseError) /\
  (evaluates_to 64 p (lit "(letter)") (Sym (mkSymbol [] (lit "letter") Normal 0)) /\ replies ascii_only 64 st (lit "(letter)") (lit "letter") /\ p (lit "letter") = Panic PUnreachable) /\
  (evaluates_to 64 p (lit """2^10""") (Str (lit "2^10")) /\ replies ascii_only 64 st (lit """2^10""") (lit "2^10") /\ replies ascii_only 64 st (lit "2^10") (lit "1024")).
Proof.
  exists old_style. cbv zeta.
  assert (A : evaluates_to 64 (parse ascii_only (lit "anonymous")) (lit "null") (Sym null_symbol)) by (apply sample_value; [vm_compute; reflexivity|exact I]).
  assert (B : evaluates_to 64 (parse ascii_only (lit "anonymous")) (lit "(letter)") (Sym (mkSymbol [] (lit "letter") Normal 0))) by (apply sample_value; [vm_compute; reflexivity|exact I]).
  assert (C : evaluates_to 64 (parse ascii_only (lit "anonymous")) (lit """2^10""") (Str (lit "2^10"))) by (apply sample_value; [vm_compute; reflexivity|exact I]).
  split; [|split].
  - split; [exact A|]. split; [exact (value_reply _ _ _ _ _ _ A eq_refl)|]. left. vm_compute. reflexivity.
  - split; [exact B|]. split; [exact (value_reply _ _ _ _ _ _ B eq_refl)|]. vm_compute. reflexivity.
  - split; [exact C|]. split; [exact (value_reply _ _ _ _ _ _ C eq_refl)|]. exact (value_reply _ _ _ _ _ _ sample_power eq_refl).
Qed.
Lemma again_example : evaluates_to 64 (parse ascii_only (lit "anonymous")) (lit "5!") (Integer 120) /\ plain_value (Integer 120) /\
  evaluates_to 64 (parse ascii_only (lit "anonymous")) (lit "1.50") (Decimal (mkDecimal 150 2)) /\ number (Decimal (mkDecimal 150 2)) /\
  reads_back ascii_only 64 old_style (Integer 120) (lit "120") /\ reads_back ascii_only 64 old_style (Decimal (mkDecimal 150 2)) (lit "1.50") /\
  evaluates_to 64 (parse ascii_only (lit "anonymous")) (lit "(a::b)") (Sym (mkSymbol [lit "a"] (lit "b") Normal 0)) /\ plain_start (display_symbol (mkSymbol [lit "a"] (lit "b") Normal 0)) = true.
Proof.
  assert (D : evaluates_to 64 (parse ascii_only (lit "anonymous")) (lit "1.50") (Decimal (mkDecimal 150 2))) by (apply sample_value; [vm_compute; reflexivity|exact I]).
  assert (I1 : evaluates_to 64 (parse ascii_only (lit "anonymous")) (lit "120") (Integer 120)) by (apply sample_value; [vm_compute; reflexivity|exact I]).
  split; [exact sample_factorial|]. split; [exact I|]. split; [exact D|]. split; [exact I|].
  split; [split; [exact I1|exact (value_reply _ _ _ _ _ _ I1 eq_refl)]|]. split; [split; [exact D|exact (value_reply _ _ _ _ _ _ D eq_refl)]|].
  split; [apply sample_value; [vm_compute; reflexivity|exact I]|]. vm_compute. reflexivity.
Qed.
