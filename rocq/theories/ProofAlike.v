(** Texts of the same meaning get the same reply, and replaced letters are replaced in the reply. *)
From Verif Require Import Base Ast SmError AlgoGamma AlgoFib Display Internal Eval Peg Build Runner SpecNum SpecAst SpecSyntax SpecSession SpecUtf8 SpecPest SpecValue SpecAnswer SpecReply SpecLetter SpecPieces.
From Verif Require SpecSource.
From Verif Require Import ProofUtf8 ProofAst ProofAnswer ProofReply ProofRound ProofLetter ProofPieces ProofSample.
Local Open Scope Z_scope.
Local Open Scope outcome_scope.

(** ** Places *)
Definition reply_to (W : Z) (c : context) (a : ast) : outcome (sm_result str) :=
  match forward W a c with
  | Panic k => Panic k
  | OutOfFuel => OutOfFuel
  | Ret (Err e, _) => Ret (Err e)
  | Ret (Ok o, _) => t <- display o; Ret (Ok t)
  end.
Lemma reply_forget : forall W c c' a, reply_to W c' (forget_positions a) = reply_to W c a.
Proof.
  intros W c c' a. unfold reply_to. destruct a as [|l|s ps|b|n|d|s|w]; try reflexivity. destruct ps as [|[args opts pos] [|q ps]]; try reflexivity.
  cbn [forget_positions map forward arguments options evaluate_function]. unfold evaluate_function. cbn [arguments].
  repeat match goal with |- context [if ?b then _ else _] => destruct b end; try reflexivity.
  1-5: destruct args as [|[] args]; cbn [map arg0 obind forget_positions first_fn last_fn length_fn factorial_fn fibonacci_fn with_ctx]; try reflexivity.
  all: try (match goal with |- context [rev ?x] => destruct (rev x); reflexivity end); try (match goal with x : str |- _ => destruct x; reflexivity end).
  all: try (match goal with |- context [fibonacci_i ?W ?n] => destruct (fibonacci_i W n) as [r|k|]; cbn [with_ctx obind]; try reflexivity end).
  all: try (match goal with |- context [lift_alg ?x] => destruct (lift_alg x); reflexivity end).
  - destruct args as [|[] [|[] [|]]]; reflexivity.
  - destruct args as [|[] [|[] [|]]]; reflexivity.
  - destruct args as [|[] [|[] [|]]]; try reflexivity. cbn. match goal with |- context [match ?x with Some _ => _ | None => _ end] => destruct x end; reflexivity.
Qed.
Lemma answer_alike : forall U W calls calls' text text', omap forget_result (parse U (lit "anonymous") text) = omap forget_result (parse U (lit "anonymous") text') ->
  answer U W calls text = answer U W calls' text'.
Proof.
  intros U W calls calls' text text' H. destruct (answer_eq U W calls text) as [c ->], (answer_eq U W calls' text') as [c' ->].
  destruct (parse U (lit "anonymous") text) as [[a|e]|k|], (parse U (lit "anonymous") text') as [[a'|e']|k'|]; cbn in H; try discriminate H; try (injection H as ->; reflexivity); try reflexivity.
  injection H as H. change (reply_to W c a = reply_to W c' a'). rewrite <- (reply_forget W c c a), H. apply reply_forget.
Qed.
Lemma pieces_replies : forall U, sane U -> forall W calls text text', SpecPieces.pieces text = SpecPieces.pieces text' -> answer U W calls text = answer U W calls text'.
Proof. intros U HU W calls text text' P. apply answer_alike. apply same_pieces; assumption. Qed.

(** ** Letters *)
Section Letters.
  Variable U : unicode.
  Variables phi psi : char -> char.
  Hypothesis R : replaces U phi psi.
  Hypothesis size : keeps_size phi.
  Notation m := (map phi).
  Definition plain_text (w : str) : bool := forallb (fun c => (c <? 128)%N) w.
  Lemma plain_kept : forall w, plain_text w = true -> m w = w.
  Proof.
    induction w as [|c w IH]; intros H; [reflexivity|]. cbn [plain_text forallb] in H. apply andb_prop in H as [H1 H2]. cbn [map]. rewrite (kept U phi psi R c) by (left; apply N.ltb_lt; exact H1).
    f_equal. apply IH. exact H2.
  Qed.
  Lemma m_inj : forall v w, m v = m w -> v = w.
  Proof. intros v w H. rewrite <- (map_back U phi psi v R), <- (map_back U phi psi w R), H. reflexivity. Qed.
  Lemma names_plain : forall f, In f builtin_names -> m f = f.
  Proof. intros f H. apply plain_kept. cbn in H. repeat (destruct H as [<-|H]; [reflexivity|]). destruct H. Qed.
  Lemma names_kept : forall f, In (m f) builtin_names -> m f = f.
  Proof. intros f H. apply m_inj. apply names_plain. exact H. Qed.
  Lemma width_kept : forall w, utf8_len (m w) = utf8_len w.
  Proof. induction w as [|c w IH]; [reflexivity|]. cbn [map utf8_len]. rewrite (keeps_width phi size), IH. reflexivity. Qed.
  Lemma bytes_kept : forall w bs, utf8 w bs -> exists bs', utf8 (m w) bs' /\ length bs' = length bs.
  Proof. intros w bs B. destruct (text_bytes (m w)) as [bs' B']. exists bs'. split; [exact B'|]. apply Nat2Z.inj. rewrite (text_width _ _ B), (text_width _ _ B'). apply width_kept. Qed.
  Definition replaced_result (r r' : sm_result ast) : Prop := match r, r' with Ok a, Ok b => replaced phi a b | Err e, Err e' => e = e' | _, _ => False end.
  Lemma replaced_ints : forall l l', Forall2 (replaced phi) l l' -> forall a b, l' = [Integer a; Integer b] -> l = [Integer a; Integer b].
  Proof. intros l l' H a b ->. inversion H as [|x ? l1 ? H1 H2]; subst. inversion H2 as [|y ? l2 ? H3 H4]; subst. inversion H4; subst. inversion H1; inversion H3; subst. reflexivity. Qed.
  Lemma applied_letters : forall W f l r, applied W f l r -> forall l', Forall2 (replaced phi) l l' -> exists r', applied W (m f) l' r' /\ replaced_result r r'.
  Proof.
    intros W f l r H l' L.
    assert (K : In f builtin_names -> m f = f) by apply names_plain.
    inversion H; subst; try (rewrite K by (cbn; tauto));
      repeat match goal with X : Forall2 (replaced phi) (_ :: _) _ |- _ => inversion X; clear X; subst | X : Forall2 (replaced phi) [] _ |- _ => inversion X; clear X; subst end;
      repeat match goal with X : replaced phi (Str _) _ |- _ => inversion X; clear X; subst | X : replaced phi (Integer _) _ |- _ => inversion X; clear X; subst | X : replaced phi (Decimal _) _ |- _ => inversion X; clear X; subst end.
    - eexists. split; [apply first_char|apply (replaced_string phi [c])].
    - eexists. split; [apply first_none|reflexivity].
    - eexists. rewrite map_app. split; [apply last_char|apply (replaced_string phi [c])].
    - eexists. split; [apply last_none|reflexivity].
    - match goal with X : utf8 _ _ |- _ => apply bytes_kept in X as (bs' & B & E) end. exists (Ok (Integer (Z.of_nat (length bs')))). split; [apply length_bytes; exact B|]. rewrite E. apply replaced_integer.
    - eexists. split; [apply factorial_value; assumption|apply replaced_integer].
    - eexists. split; [apply factorial_negative; assumption|reflexivity].
    - eexists. split; [apply factorial_large; assumption|reflexivity].
    - eexists. split; [apply factorial_decimal|apply replaced_decimal].
    - eexists. split; [apply fibonacci_value; assumption|apply replaced_integer].
    - eexists. split; [apply fibonacci_odd; assumption|apply replaced_integer].
    - eexists. split; [apply fibonacci_large; assumption|reflexivity].
    - eexists. split; [apply fibonacci_decimal|apply replaced_decimal].
    - eexists. split; [apply plus_two|apply replaced_integer].
    - eexists. split; [apply times_two|apply replaced_integer].
    - eexists. split; [apply power_two; assumption|apply replaced_integer].
    - eexists. split; [apply power_base; assumption|apply replaced_integer].
    - eexists. split; [apply arithmetic_other; [assumption|]|reflexivity]. intros a b E. eapply H1. eapply replaced_ints; eassumption.
    - eexists. split; [apply unknown_name|reflexivity]. intros X. pose proof (names_kept _ X) as Y. rewrite Y in X. contradiction.
  Qed.
  Lemma evaluates_letters : forall W a r b, evaluates W a r -> replaced phi a b -> exists r', evaluates W b r' /\ replaced_result r r'.
  Proof.
    intros W a r b E H. inversion E; subst.
    - exists (Ok b). split; [|exact H]. apply value_self. inversion H; subst; try exact I; contradiction.
    - inversion H; subst. match goal with X : Forall2 _ [] _ |- _ => inversion X; subst end. eexists. split; [apply value_name|apply replaced_sym].
    - inversion H as [| | | | | |s0 ps qs F]; subst. inversion F as [|p q l l' Hp Hl]; subst. inversion Hl; subst. destruct q as [args' opts' pos']. cbn [arguments] in Hp. destruct Hp as (A & _).
      match goal with X : applied _ _ _ _ |- _ => destruct (applied_letters _ _ _ _ X _ A) as (r' & V & Q) end. exists r'. split; [apply value_call; exact V|exact Q].
    - inversion H as [| | | | | |s0 ps0 qs F]; subst. inversion F as [|? q1 ? l' Hp Hl]; subst. inversion Hl; subst. eexists. split; [apply value_curried|reflexivity].
  Qed.
  Lemma numeral_kept : forall n w, numeral_of n w -> plain_text w = true.
  Proof.
    intros n w H. assert (D : Forall is_digit w) by (apply H). apply forallb_forall. intros c I. rewrite Forall_forall in D. specialize (D c I). unfold is_digit in D. apply N.ltb_lt. lia.
  Qed.
  Lemma digits_kept : forall w, Forall is_digit w -> plain_text w = true.
  Proof. intros w D. apply forallb_forall. intros c I. rewrite Forall_forall in D. specialize (D c I). unfold is_digit in D. apply N.ltb_lt. lia. Qed.
  Lemma signed_kept : forall n w w', signed n w w' -> plain_text w = true -> plain_text w' = true.
  Proof. intros n w w' [[_ ->]|[_ ->]] H; [exact H|]. cbn. exact H. Qed.
  Lemma plain_app : forall v w, plain_text v = true -> plain_text w = true -> plain_text (v ++ w) = true.
  Proof. intros v w A B. unfold plain_text. rewrite forallb_app. apply andb_true_intro. auto. Qed.
  Lemma shown_letters : forall a b w, shown a w -> replaced phi a b -> shown b (m w).
  Proof.
    intros a b w S H. inversion S; subst; inversion H; subst.
    - rewrite plain_kept by reflexivity. exact shown_true.
    - rewrite plain_kept by reflexivity. exact shown_false.
    - rewrite plain_kept; [exact S|]. eapply signed_kept; [eassumption|]. eapply numeral_kept; eassumption.
    - rewrite plain_kept; [exact S|]. eapply signed_kept; [eassumption|]. apply plain_app; [eapply numeral_kept; eassumption|]. apply (plain_app (lit ".")); [reflexivity|]. apply digits_kept; assumption.
    - rewrite plain_kept; [exact S|]. eapply signed_kept; [eassumption|]. apply plain_app; [eapply numeral_kept; eassumption|]. apply forallb_forall. intros c I. apply repeat_spec in I as ->. reflexivity.
    - unfold replaced_symbol. cbn [name_space name kind attributes]. rewrite map_app. assert (E : m (flat_map (fun v => v ++ lit "::") ns) = flat_map (fun v => v ++ lit "::") (map m ns)).
      { induction ns as [|v l IH]; [reflexivity|]. cbn [flat_map map]. rewrite !map_app, (plain_kept (lit "::") eq_refl). f_equal. apply IH; constructor. }
      rewrite E. apply shown_symbol.
    - apply shown_string.
  Qed.
End Letters.
Lemma replies_letters : forall U phi psi W calls calls' text w, replaces U phi psi -> keeps_size phi -> 0 < W ->
  answer U W calls text = Ret (Ok w) -> answer U W calls' (map phi text) = Ret (Ok (map phi w)).
Proof.
  intros U phi psi W calls calls' text w R L HW H. apply (reply_ok U W HW) in H as (a & b & P & E & S). apply understood_parse in P. destruct (parse_letters U phi psi _ text a R P) as (a' & P' & Q).
  destruct (evaluates_letters U phi psi R L W a _ a' E Q) as ([b'|e] & E' & Q'); [|contradiction]. apply (reply_ok U W HW). exists a', b'. split; [apply understood_parse; exact P'|]. split; [exact E'|].
  eapply shown_letters; eassumption.
Qed.
Lemma errors_letters : forall U phi psi W calls calls' text e, replaces U phi psi -> keeps_size phi -> 0 < W ->
  answer U W calls text = Ret (Err e) -> answer U W calls' (map phi text) = Ret (Err e).
Proof.
  intros U phi psi W calls calls' text e R L HW H. apply (reply_error U W HW) in H. apply (reply_error U W HW). destruct H as [[P ->]|(a & P & E)].
  - left. split; [|reflexivity]. apply refused_parse in P. apply refused_parse. apply (proj1 (refused_letters U phi psi _ _ _ R)). exact P.
  - right. apply understood_parse in P. destruct (parse_letters U phi psi _ text a R P) as (a' & P' & Q). destruct (evaluates_letters U phi psi R L W a _ a' E Q) as ([b'|e'] & E' & Q'); [contradiction|]. cbn in Q'. subst e'.
    exists a'. split; [apply understood_parse; exact P'|exact E'].
Qed.
Lemma width_back : forall U phi psi, replaces U phi psi -> keeps_size phi -> keeps_size psi.
Proof. intros U phi psi R L c bs bs' B B'. symmetry. apply (L (psi c)); [exact B'|]. rewrite (forth U phi psi R). exact B. Qed.
Theorem reply_letters : forall U phi psi W calls text w, replaces U phi psi -> keeps_size phi -> 0 < W ->
  (answer U W calls text = Ret (Ok w) <-> answer U W calls (map phi text) = Ret (Ok (map phi w))).
Proof.
  intros U phi psi W calls text w R L HW. split; intros H; [eapply replies_letters; eassumption|].
  apply (replies_letters U psi phi W calls calls _ _ (replaces_back U phi psi R) (width_back U phi psi R L) HW) in H. rewrite !(map_back U phi psi) in H by exact R. exact H.
Qed.
Theorem error_letters : forall U phi psi W calls text e, replaces U phi psi -> keeps_size phi -> 0 < W ->
  (answer U W calls text = Ret (Err e) <-> answer U W calls (map phi text) = Ret (Err e)).
Proof.
  intros U phi psi W calls text e R L HW. split; intros H; [eapply errors_letters; eassumption|].
  apply (errors_letters U psi phi W calls calls _ _ (replaces_back U phi psi R) (width_back U phi psi R L) HW) in H. rewrite (map_back U phi psi) in H by exact R. exact H.
Qed.
Lemma answer_total : forall U W calls text, 0 < W -> answer U W calls text <> OutOfFuel.
Proof.
  intros U W calls text HW H. assert (P : exists k, answer U W calls text = Panic k); [|destruct P as [k P]; congruence]. apply (reply_panic U W HW). split.
  - intros X. assert (Y : answer U W calls text = Ret (Err SMParseError)) by (apply (reply_error U W HW); auto). congruence.
  - intros a [b|e] A E.
    + exists b. split; [reflexivity|]. intros w S. assert (Y : answer U W calls text = Ret (Ok w)) by (apply (reply_ok U W HW); eauto). congruence.
    + assert (Y : answer U W calls text = Ret (Err e)) by (apply (reply_error U W HW); eauto). congruence.
Qed.
Theorem panic_letters : forall U phi psi W calls text, replaces U phi psi -> keeps_size phi -> 0 < W ->
  ((exists k, answer U W calls text = Panic k) <-> exists k, answer U W calls (map phi text) = Panic k).
Proof.
  assert (G : forall U phi psi W calls text, replaces U phi psi -> keeps_size phi -> 0 < W ->
    (exists k, answer U W calls text = Panic k) -> exists k, answer U W calls (map phi text) = Panic k).
  { intros U phi psi W calls text R L HW [k H]. destruct (answer U W calls (map phi text)) as [[w|e]|k'|] eqn:E; [exfalso|exfalso|eauto|elim (answer_total U W calls _ HW E)].
    - assert (X : w = map phi (map psi w)) by (symmetry; apply (map_back U psi phi); apply replaces_back; exact R). rewrite X in E. apply (reply_letters U phi psi) in E; [congruence|assumption..].
    - apply (error_letters U phi psi) in E; [congruence|assumption..]. }
  intros U phi psi W calls text R L HW. split; [apply (G U phi psi); assumption|]. intros H. apply (G U psi phi) in H; [|apply replaces_back; exact R|apply (width_back U phi psi R L)|exact HW].
  rewrite (map_back U phi psi) in H by exact R. exact H.
Qed.
(** exchanging two letters *)
Definition swapped (a b c : char) : char := (if N.eqb c a then b else if N.eqb c b then a else c)%N.
Lemma swap_replaces : forall U a b, (128 <= a)%N -> (128 <= b)%N -> existsb (N.eqb a) grammar_signs = false -> existsb (N.eqb b) grammar_signs = false ->
  xid_start U a = xid_start U b -> xid_continue U a = xid_continue U b -> white_space a = white_space b -> replaces U (swapped a b) (swapped a b).
Proof.
  intros U a b La Lb Sa Sb A B C.
  assert (Q : forall c l, In c l -> existsb (N.eqb c) l = true) by (intros c l I; apply existsb_exists; exists c; split; [exact I|apply N.eqb_refl]).
  assert (S : forall c, swapped a b (swapped a b c) = c).
  { intro c. unfold swapped. destruct (N.eqb_spec c a) as [->|N1]; [destruct (N.eqb_spec b a) as [->|N2]; [reflexivity|rewrite N.eqb_refl; reflexivity]|].
    destruct (N.eqb_spec c b) as [->|N2]; [rewrite N.eqb_refl; reflexivity|]. apply N.eqb_neq in N1, N2. rewrite N1, N2. reflexivity. }
  constructor; try assumption; intros c; unfold swapped.
  - intros H. destruct (N.eqb_spec c a) as [->|N1]; [exfalso; destruct H as [H|H]; [lia|apply Q in H; congruence]|].
    destruct (N.eqb_spec c b) as [->|N2]; [exfalso; destruct H as [H|H]; [lia|apply Q in H; congruence]|reflexivity].
  - destruct (N.eqb_spec c a) as [->|N1]; [congruence|]. destruct (N.eqb_spec c b) as [->|N2]; congruence.
  - destruct (N.eqb_spec c a) as [->|N1]; [congruence|]. destruct (N.eqb_spec c b) as [->|N2]; congruence.
  - destruct (N.eqb_spec c a) as [->|N1]; [congruence|]. destruct (N.eqb_spec c b) as [->|N2]; congruence.
Qed.
(** the letter a with two dots has two bytes, the Chinese one has three *)
Lemma length_letters : exists U phi psi, replaces U phi psi /\ forall W calls, exists text, answer U W calls text = Ret (Ok (lit "2")) /\ answer U W calls (map phi text) = Ret (Ok (lit "3")).
Proof.
  exists ascii_only, (swapped 228 19968)%N, (swapped 228 19968)%N. split; [apply swap_replaces; try reflexivity; discriminate|]. intros W calls. exists (lit "length(" ++ [34; 228; 34]%N ++ lit ")").
  destruct (answer_eq ascii_only W calls (lit "length(" ++ [34; 228; 34]%N ++ lit ")")) as [c ->]. destruct (answer_eq ascii_only W calls (map (swapped 228 19968)%N (lit "length(" ++ [34; 228; 34]%N ++ lit ")"))) as [c' ->].
  split.
  - assert (P : omap forget_result (parse ascii_only (lit "anonymous") (lit "length(" ++ [34; 228; 34]%N ++ lit ")")) = Ret (Ok (forget_positions (SpecSource.call (SpecSource.named (lit "length") []) [Str [228%N]])))) by (vm_compute; reflexivity).
    destruct (parse ascii_only (lit "anonymous") _) as [[a|]| |]; cbn in P; try discriminate P. injection P as P. change (reply_to W c a = Ret (Ok (lit "2"))). rewrite <- (reply_forget W c c a), P. vm_compute. reflexivity.
  - assert (P : omap forget_result (parse ascii_only (lit "anonymous") (map (swapped 228 19968)%N (lit "length(" ++ [34; 228; 34]%N ++ lit ")"))) = Ret (Ok (forget_positions (SpecSource.call (SpecSource.named (lit "length") []) [Str [19968%N]])))) by (vm_compute; reflexivity).
    destruct (parse ascii_only (lit "anonymous") _) as [[a|]| |]; cbn in P; try discriminate P. injection P as P. change (reply_to W c' a = Ret (Ok (lit "3"))). rewrite <- (reply_forget W c' c' a), P. vm_compute. reflexivity.
Qed.
