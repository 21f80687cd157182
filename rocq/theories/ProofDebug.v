(** How errors are written on the web page. *)
From Verif Require Import Base Ast SmError Peg Build Display Internal Eval Runner Track Message Debug SpecAst SpecSyntax SpecSource SpecText SpecImage SpecFault SpecMessage SpecDebug.
From Verif Require Import SpecSession ProofRunner ProofImage ProofRange ProofMessage ProofSample.
Local Open Scope N_scope.

(** ** Reading *)
Definition digit_of (c : char) : N := match hex_read c with Some d => d | None => 0 end.
Definition value_from (n : N) (ds : str) : N := fold_left (fun n c => 16 * n + digit_of c) ds n.
Lemma hex_letter_value : forall d, d < 16 -> hex_read (hex_letter d) = Some d.
Proof.
  intros d H. unfold hex_letter, hex_read. destruct (N.ltb_spec d 10).
  - replace (48 <=? 48 + d) with true by (symmetry; apply N.leb_le; lia). replace (48 + d <=? 57) with true by (symmetry; apply N.leb_le; lia). cbn [andb]. f_equal. lia.
  - replace (87 + d <=? 57) with false by (symmetry; apply N.leb_gt; lia). rewrite andb_false_r. replace (97 <=? 87 + d) with true by (symmetry; apply N.leb_le; lia).
    replace (87 + d <=? 102) with true by (symmetry; apply N.leb_le; lia). cbn [andb]. f_equal. lia.
Qed.
Lemma hex_letter_range : forall d, d < 16 -> 48 <= hex_letter d /\ hex_letter d <> 125.
Proof. intros d H. unfold hex_letter. destruct (d <? 10); lia. Qed.
Definition hexadecimal (c : char) : Prop := (exists d, hex_read c = Some d) /\ 48 <= c /\ c <> 125.
Lemma mod_16 : forall n, n mod 16 < 16.
Proof. intros n. apply N.mod_lt. discriminate. Qed.
Lemma hex_loop_digits : forall f n acc, Forall hexadecimal acc -> Forall hexadecimal (hex_loop f n acc).
Proof.
  induction f as [|f IH]; intros n acc H; [exact H|]. cbn [hex_loop]. pose proof (mod_16 n) as M.
  assert (K : Forall hexadecimal (hex_letter (n mod 16) :: acc)) by (constructor; [split; [eexists; apply hex_letter_value, M|apply hex_letter_range, M]|exact H]).
  destruct (n <? 16); [exact K|apply IH, K].
Qed.
Lemma hex_loop_value : forall f n acc, n < 2 ^ N.of_nat f -> value_from 0 (hex_loop f n acc) = value_from n acc.
Proof.
  induction f as [|f IH]; intros n acc H.
  - cbn in H. replace n with 0 by lia. reflexivity.
  - cbn [hex_loop]. pose proof (mod_16 n) as M. destruct (N.ltb_spec n 16) as [L|L].
    + cbn [value_from fold_left]. unfold value_from at 1. cbn [fold_left]. unfold digit_of at 2. rewrite (N.mod_small n 16 L), (hex_letter_value n L). reflexivity.
    + rewrite IH.
      * unfold value_from at 1. cbn [fold_left]. unfold digit_of at 2. rewrite (hex_letter_value _ M). rewrite <- (N.div_mod n 16) by discriminate. reflexivity.
      * apply N.div_lt_upper_bound; [discriminate|]. rewrite Nat2N.inj_succ, N.pow_succ_r' in H. lia.
Qed.
Lemma hex_value_is : forall c, value_from 0 (hex c) = c.
Proof.
  intros c. unfold hex. rewrite hex_loop_value; [reflexivity|]. rewrite Nat2N.inj_succ, N2Nat.id. destruct c; [reflexivity|]. apply N.log2_spec. lia.
Qed.
Lemma digits_read : forall ds n t, Forall hexadecimal ds -> unquote (Digits n) (ds ++ 125 :: t) = option_map (cons (value_from n ds)) (unquote Outside t).
Proof.
  induction ds as [|d ds IH]; intros n t H; [reflexivity|]. inversion H as [|? ? [[v V] [_ D]] H']; subst. cbn [app unquote]. destruct (N.eqb_spec d 125); [contradiction|]. rewrite V, (IH _ _ H'). unfold value_from. cbn [fold_left]. unfold digit_of at 3. rewrite V. reflexivity.
Qed.
Lemma char_read : forall st c t, unquote Outside (escape_char st c ++ t) = option_map (cons c) (unquote Outside t).
Proof.
  intros st c t. unfold escape_char.
  destruct (N.eqb_spec c 9) as [->|N9]; [reflexivity|]. destruct (N.eqb_spec c 13) as [->|N13]; [reflexivity|]. destruct (N.eqb_spec c 10) as [->|N10]; [reflexivity|].
  destruct (N.eqb_spec c 92) as [->|N92]; [reflexivity|]. destruct (N.eqb_spec c 34) as [->|N34]; [reflexivity|]. cbn [orb].
  destruct (N.eqb_spec c 39) as [->|N39]; [destruct (single_escaped st); reflexivity|].
  destruct ((c =? 0) && short_nul st) eqn:Z; [apply andb_prop in Z as [Z _]; apply N.eqb_eq in Z; subst c; reflexivity|].
  destruct (printable st c).
  - cbn [app unquote]. destruct (N.eqb_spec c 92); [contradiction|]. destruct (N.eqb_spec c 34); [contradiction|]. reflexivity.
  - rewrite <- !app_assoc. change (lit "}" ++ t) with (125 :: t). change (unquote Outside (lit "\u{" ++ hex c ++ 125 :: t)) with (unquote (Digits 0) (hex c ++ 125 :: t)).
    rewrite digits_read by (apply hex_loop_digits; constructor). rewrite hex_value_is. reflexivity.
Qed.
Lemma text_read : forall st s, literal_of (escape_text st s) s.
Proof.
  intros st s. unfold literal_of, escape_text. induction s as [|c s IH]; [reflexivity|]. cbn [flat_map]. rewrite char_read, IH. reflexivity.
Qed.
Lemma debug_written : forall U st text e, written_error (message_of U text) e (debug_error U st text e).
Proof. intros U st text e. unfold message_of. destruct e; cbn; try reflexivity; eexists; (split; [apply text_read|reflexivity]). Qed.
Lemma literal_one : forall body s s', literal_of body s -> literal_of body s' -> s = s'.
Proof. unfold literal_of. congruence. Qed.
Lemma written_read : forall m m' e e' w, written_error m e w -> written_error m' e' w -> error_name e = error_name e' /\ carried m e = carried m' e'.
Proof.
  intros m m' e e' w H H'. unfold written_error in *. destruct e, e'; cbn [carried error_name] in *;
    repeat match goal with H : exists _, _ |- _ => destruct H as (? & ? & ?) end; subst;
    match goal with
    | H : ?a = ?b |- _ => (split; [reflexivity|]); f_equal; cbn in H; repeat (injection H as H); apply app_inv_tail in H; subst; eapply literal_one; eassumption
    | H : ?a = ?b |- _ => cbn in H; discriminate H
    | _ => split; reflexivity
    end.
Qed.
Lemma written_same : forall m m' e e', error_name e = error_name e' -> carried m e = carried m' e' -> e = e'.
Proof. intros m m' e e' N C. destruct e, e'; cbn in *; try discriminate; congruence. Qed.

(** ** One line *)
Lemma escape_char_line : forall st c x, In x (escape_char st c) -> x <> 10 /\ x <> 13.
Proof.
  intros st c x. unfold escape_char.
  destruct (N.eqb_spec c 9) as [->|N9]; [cbn; intuition lia|]. destruct (N.eqb_spec c 13) as [->|N13]; [cbn; intuition lia|]. destruct (N.eqb_spec c 10) as [->|N10]; [cbn; intuition lia|].
  destruct ((c =? 92) || (c =? 34)) eqn:Q; [apply orb_true_iff in Q as [Q|Q]; apply N.eqb_eq in Q; subst c; cbn; intuition lia|].
  destruct (N.eqb_spec c 39) as [->|N39]; [destruct (single_escaped st); cbn; intuition lia|].
  destruct ((c =? 0) && short_nul st); [cbn; intuition lia|]. destruct (printable st c); [cbn; intuition lia|].
  intros H. apply in_app_or in H as [H|H]; [cbn in H; intuition lia|]. apply in_app_or in H as [H|H]; [|cbn in H; intuition lia].
  pose proof (hex_loop_digits (S (N.to_nat (N.log2 c))) c [] ltac:(constructor)) as F. rewrite Forall_forall in F. destruct (F x H) as [_ [L _]]. lia.
Qed.
Lemma escape_line : forall st s, one_line (escape_text st s).
Proof. intros st s. unfold escape_text. split; intros H; apply in_flat_map in H as (c & _ & H); apply escape_char_line in H; lia. Qed.
Lemma one_line_app : forall a b, one_line a -> one_line b -> one_line (a ++ b).
Proof. intros a b [A1 A2] [B1 B2]. split; intros H; apply in_app_or in H as [H|H]; tauto. Qed.
Lemma debug_line : forall U st text e, one_line (debug_error U st text e).
Proof.
  intros U st text e.
  assert (K : forall n s, one_line n -> one_line (variant_text st n s)).
  { intros n s H. apply one_line_app; [exact H|]. apply one_line_app; [split; cbn; intuition discriminate|]. apply one_line_app; [apply escape_line|split; cbn; intuition discriminate]. }
  destruct e; cbn [debug_error]; try apply K; split; cbn; intuition discriminate.
Qed.

(** ** Replies of the page *)
Lemma string_reply : forall U, sane U -> forall w, writable_string w -> exists text, parse U (lit "anonymous") text = Ret (Ok (Str w)) /\ forall W st, replies U W st text w.
Proof.
  intros U HU w Hw. destruct (proj2 (image U HU (lit "anonymous") (Str w)) (or_intror (produced_string U w Hw))) as (text & a & P & F).
  assert (a = Str w) by (destruct a; try discriminate F; exact F). subst a. exists text. split; [exact P|]. intros W st calls H.
  destruct (pg_next_result W (parse U (lit "anonymous")) (debug_error U st) calls text H) as (r & E & V & _). unfold page_run. rewrite E. f_equal. f_equal. apply (V (Str w) w); [|reflexivity].
  exists (Str w). split; [exact P|]. reflexivity.
Qed.
Lemma debug_writable : forall U st text e, writable_string (debug_error U st text e).
Proof.
  intros U st text e. right.
  assert (K : forall n s c n', n = c :: n' -> c <> 34 -> variant_text st n s <> [] /\ hd_error (variant_text st n s) <> Some 34 /\ last (variant_text st n s) 0 <> 34).
  { intros n s c n' -> C. split; [discriminate|]. split; [intros X; injection X as X; contradiction|]. unfold variant_text.
    assert (Q : forall p b : str, p ++ lit "(""" ++ b ++ lit """)" = (p ++ lit "(""" ++ b ++ lit """") ++ [41]) by (intros p b; rewrite <- !app_assoc; reflexivity).
    intros X. assert (Y : 41 = 34 :> N); [|discriminate Y]. etransitivity; [symmetry|exact X]. etransitivity; [apply (f_equal (fun l => last l 0)), Q|]. apply (@last_last N). }
  destruct e; cbn [debug_error]; try (eapply K; [reflexivity|discriminate]); repeat split; discriminate.
Qed.
Lemma error_mimicked : forall U, sane U -> forall st text e, exists text', parse U (lit "anonymous") text' = Ret (Ok (Str (debug_error U st text e))) /\ forall W, replies U W st text' (debug_error U st text e).
Proof. intros U HU st text e. destruct (string_reply U HU _ (debug_writable U st text e)) as (t & P & H). exists t. split; [exact P|]. intros W. apply H. Qed.
Lemma error_reply : forall U W st text e, fails_with W (parse U (lit "anonymous")) text e ->
  exists w, replies U W st text w /\ one_line w /\ written_error (message_of U text) e w.
Proof.
  intros U W st text e E. exists (debug_error U st text e). split; [|split; [apply debug_line|apply debug_written]].
  intros calls H. destruct (pg_next_result W (parse U (lit "anonymous")) (debug_error U st) calls text H) as (r & R & _ & V & _). rewrite (V e E) in R. exact R.
Qed.
Lemma replies_one : forall U W st text w w', replies U W st text w -> replies U W st text w' -> w = w'.
Proof. intros U W st text w w' H H'. pose proof (H [] (Forall_nil _)) as E. rewrite (H' [] (Forall_nil _)) in E. cbn in E. injection E as ->. reflexivity. Qed.
Lemma refused_reply : forall U W st text, parse U (lit "anonymous") text = Ret (Err SMParseError) ->
  exists m body, message U text = Some (Ret m) /\ literal_of body m /\ replies U W st text (lit "ParseError(""" ++ body ++ lit """)").
Proof.
  intros U W st text E. destruct (refused_message _ _ _ E) as (i & yes & m & k & p & _ & _ & M & _).
  destruct (error_reply U W st text SMParseError (or_introl E)) as (w & R & _ & D). unfold written_error in D. cbn [carried] in D. destruct D as (body & L & ->). unfold message_of in L. rewrite M in L.
  exists m, body. split; [exact M|]. split; [exact L|exact R].
Qed.
Lemma failed_same : forall U W st s t e e' w, fails_with W (parse U (lit "anonymous")) s e -> fails_with W (parse U (lit "anonymous")) t e' -> replies U W st s w -> replies U W st t w ->
  e = e' /\ (e = SMParseError -> message_of U s = message_of U t).
Proof.
  intros U W st s t e e' w F F' R R'. destruct (error_reply U W st s e F) as (w1 & R1 & _ & D1). destruct (error_reply U W st t e' F') as (w2 & R2 & _ & D2).
  rewrite (replies_one _ _ _ _ _ _ R1 R) in D1. rewrite (replies_one _ _ _ _ _ _ R2 R') in D2. destruct (written_read _ _ _ _ _ D1 D2) as [N C]. pose proof (written_same _ _ _ _ N C) as <-. split; [reflexivity|].
  intros ->. cbn [carried] in C. injection C as C. exact C.
Qed.
Lemma refused_same : forall U W st s t w, parse U (lit "anonymous") s = Ret (Err SMParseError) -> parse U (lit "anonymous") t = Ret (Err SMParseError) -> replies U W st s w -> replies U W st t w ->
  error_place U s = error_place U t.
Proof.
  intros U W st s t w P P' R R'. destruct (failed_same U W st s t _ _ w (or_introl P) (or_introl P') R R') as [_ M]. specialize (M eq_refl).
  destruct (refused_message _ _ _ P) as (? & ? & m & ? & ? & _ & _ & Q & _). destruct (refused_message _ _ _ P') as (? & ? & m' & ? & ? & _ & _ & Q' & _).
  unfold message_of in M. rewrite Q, Q' in M. subst m'. apply (messages_differ U (lit "anonymous") (lit "anonymous") s t P P'). congruence.
Qed.
Definition old_style : style := mkStyle false true (fun c => (32 <=? c) && (c <=? 126)).
Lemma debug_sample : fails_with 64 (parse ascii_only (lit "anonymous")) (lit "9223372036854775808!") Overflow /\
  replies ascii_only 64 old_style (lit "9223372036854775808!") (lit "Overflow") /\ replies ascii_only 64 old_style (lit "Overflow") (lit "Overflow") /\
  debug_error ascii_only old_style (lit "1 + " ++ [10] ++ lit " &") SMParseError =
    lit "ParseError("" --> 2:2\n  |\n2 |  &\n  |  ^---\n  |\n  = expected term or MultiLineComment"")" /\
  debug_error ascii_only old_style [] (SMIOError [97; 34; 955; 39; 0]) = lit "IOError(""a\""\u{3bb}\'\u{0}"")".
Proof.
  assert (F : fails_with 64 (parse ascii_only (lit "anonymous")) (lit "9223372036854775808!") Overflow).
  { right. eexists. split; [vm_compute; reflexivity|]. intros c. reflexivity. }
  split; [exact F|]. split; [|split; [|split; vm_compute; reflexivity]].
  - destruct (error_reply ascii_only 64 old_style _ _ F) as (w & R & _ & D). cbn in D. subst w. exact R.
  - intros calls H. destruct (pg_next_result 64 (parse ascii_only (lit "anonymous")) (debug_error ascii_only old_style) calls (lit "Overflow") H) as (r & E & V & _). unfold page_run. rewrite E. f_equal. f_equal.
    eapply V; [eexists; split; [vm_compute; reflexivity|reflexivity]|reflexivity].
Qed.
