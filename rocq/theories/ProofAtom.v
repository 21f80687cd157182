(** Operands that are a single token: what they mean. *)
From Verif Require Import Base Ast Display SmError Peg Grammar Climber Build SpecAst SpecPeg SpecSyntax.
From Verif Require Import ProofAst ProofDisplay ProofPeg ProofPegShift ProofSym ProofGrammar ProofBuild ProofPos ProofSpace ProofLex ProofToken ProofNode.
Local Open Scope nat_scope.

(** ** Values of digit strings *)
Lemma digit_figure : forall c, digit c = true -> digit_of c = Some (digit_value c) /\ (0 <= digit_value c < 10)%Z /\ (c =? 95)%N = false.
Proof.
  intros c H. unfold digit_of, digit_value. unfold digit in H. rewrite H. apply andb_prop in H as [H1 H2].
  apply N.leb_le in H1. apply N.leb_le in H2. split; [reflexivity|]. split; [lia|]. apply N.eqb_neq. lia.
Qed.
Lemma radix_digits : forall s a, forallb digit s = true ->
  radix_loop 10 s a = Some (fold_left (fun a c => (10 * a + digit_value c)%Z) s a).
Proof.
  induction s as [|c s IH]; intros a H; [reflexivity|]. cbn [forallb] in H. apply andb_prop in H as [Hc Hs].
  destruct (digit_figure c Hc) as (E1 & E2 & E3). cbn [radix_loop fold_left]. rewrite E3, E1.
  destruct (Z.ltb_spec (digit_value c) 10); [|lia]. apply IH. exact Hs.
Qed.
Lemma int_unsigned : forall c s r, c <> 43%N -> c <> 45%N -> c <> 95%N -> int_from_str_radix (c :: s) r = radix_loop r (c :: s) 0.
Proof.
  intros c s r H1 H2 H3. unfold int_from_str_radix, uint_from_str_radix.
  destruct c as [|p]; [reflexivity|].
  do 7 (destruct p as [p|p|]; try reflexivity; try congruence).
Qed.
Lemma int_digits : forall s, s <> [] -> forallb digit s = true -> int_from_str_radix s 10 = Some (numeral_value s).
Proof.
  intros [|c s] N H; [congruence|]. pose proof H as H'. cbn [forallb] in H'. apply andb_prop in H' as [Hc _].
  assert (R : (48 <= c <= 57)%N).
  { apply andb_prop in Hc as [H1 H2]. apply N.leb_le in H1. apply N.leb_le in H2. lia. }
  rewrite int_unsigned by lia. apply radix_digits. exact H.
Qed.
Lemma numeral_digits : forall s, numeral s = true -> s <> [] /\ forallb digit s = true.
Proof.
  intros [|c s] H; [discriminate|]. split; [discriminate|]. cbn in *. destruct (N.eqb_spec c 48) as [->|].
  - destruct s; [reflexivity|discriminate].
  - exact H.
Qed.
Lemma numeral_int : forall s, numeral s = true -> int_from_str_radix s 10 = Some (numeral_value s).
Proof. intros s H. apply numeral_digits in H as [H1 H2]. apply int_digits; assumption. Qed.
Lemma numeral_of_numeral : forall n s, numeral_of n s -> numeral s = true.
Proof.
  intros n s (N & D & _ & Z). destruct s as [|c s]; [congruence|]. cbn.
  assert (D' : forallb digit (c :: s) = true).
  { apply forallb_forall. rewrite Forall_forall in D. intros d Hd. specialize (D d Hd). unfold is_digit in D. unfold digit.
    apply andb_true_intro. split; apply N.leb_le; lia. }
  destruct (N.eqb_spec c 48) as [->|]; [|exact D']. specialize (Z eq_refl). injection Z as ->. reflexivity.
Qed.
Lemma show_nat_numeral : forall n, (0 <= n)%Z -> numeral (show_nat n) = true /\ numeral_value (show_nat n) = n.
Proof. intros n H. pose proof (show_nat_spec n H) as S. split; [eapply numeral_of_numeral; exact S|apply S]. Qed.

(** digits of the base, underscores between them *)
Lemma hex_figure : forall c, hex_digit c = true -> digit_of c = Some (figure c) /\ (0 <= figure c < 16)%Z /\
  c <> 43%N /\ c <> 45%N /\ c <> 95%N.
Proof.
  intros c H. unfold digit_of, figure, digit. unfold hex_digit in H.
  repeat match goal with |- context [(?a <=? ?b)%N] => destruct (N.leb_spec a b) end; cbn in *;
    repeat match type of H with context [(?a <=? ?b)%N] => destruct (N.leb_spec a b) end; cbn in *; try discriminate; try lia;
    (split; [first [reflexivity|lia]|lia]).
Qed.
Lemma small_figures : forall c, (bin_digit c = true -> hex_digit c = true /\ (figure c < 2)%Z) /\ (oct_digit c = true -> hex_digit c = true /\ (figure c < 8)%Z).
Proof.
  intro c. unfold bin_digit, oct_digit, hex_digit, figure, digit.
  split; intro H; apply andb_prop in H as [H1 H2]; apply N.leb_le in H1; apply N.leb_le in H2;
    repeat match goal with |- context [(?a <=? ?b)%N] => destruct (N.leb_spec a b) end; cbn; try lia; split; try reflexivity; lia.
Qed.
Lemma based_figures : forall b P, based b P -> forall c, P c = true -> hex_digit c = true /\ (figure c < base_of b)%Z.
Proof.
  intros b P H c Hc. destruct H; cbn;
  first [apply (proj1 (small_figures c)); exact Hc | apply (proj2 (small_figures c)); exact Hc | split; [exact Hc|apply hex_figure; exact Hc]].
Qed.
Lemma radix_grouped : forall base P, (forall c, P c = true -> hex_digit c = true /\ (figure c < base)%Z) ->
  forall n s a, length s <= n -> grouped P s = true ->
  radix_loop base s a = Some (fold_left (fun a c => if (c =? 95)%N then a else (base * a + figure c)%Z) s a).
Proof.
  intros base P HP. induction n as [|n IH]; intros s a L H; [destruct s; [reflexivity|cbn in L; lia]|].
  assert (one : forall c s a, length s <= n -> P c = true -> grouped P s = true ->
    radix_loop base (c :: s) a = Some (fold_left (fun a c => if (c =? 95)%N then a else (base * a + figure c)%Z) (c :: s) a)).
  { intros c t x L' Hc Ht. destruct (HP c Hc) as [Hh Hl]. destruct (hex_figure c Hh) as (E1 & E2 & _ & _ & E3).
    cbn [radix_loop fold_left]. apply N.eqb_neq in E3. rewrite E3, E1. destruct (Z.ltb_spec (figure c) base); [|lia]. apply IH; assumption. }
  destruct s as [|c s]; [reflexivity|]. cbn [grouped] in H. destruct (c =? 95)%N eqn:E.
  - destruct s as [|d s]; [discriminate|]. apply andb_prop in H as [Hd Hs].
    change (radix_loop base (c :: d :: s) a) with (if (c =? 95)%N then radix_loop base (d :: s) a else
      match digit_of c with Some x => if (x <? base)%Z then radix_loop base (d :: s) (base * a + x) else None | None => None end).
    change (fold_left ?f (c :: d :: s) a) with (fold_left f (d :: s) (f a c)). cbv beta. rewrite E.
    apply one; [cbn in L; lia|exact Hd|exact Hs].
  - apply andb_prop in H as [Hc Hs]. apply one; [cbn in L; lia|exact Hc|exact Hs].
Qed.

Section Atom.
  Variable U : unicode.
  Hypothesis HU : sane U.
  Notation ev := (ev U grammar skip_body).
  Notation fails := (fails U).
  Notation node_means := (node_means U).
  Notation nstop := (nstop U).

  Lemma node_symbol : forall x, is_path U x -> (forall w, nstop w = true -> no_special (x ++ w) = true) -> node_means x (Ret (ast_symbol x)).
  Proof. intros x H1 H2. apply node_data; [apply plain_symbol; exact H1|apply data_symbol; assumption]. Qed.

  Lemma digit_head : forall x w, x <> [] -> forallb digit x = true -> head_is digit (x ++ w) = true.
  Proof. intros [|c x] w N H; [congruence|]. cbn in *. apply andb_prop in H as [H _]. exact H. Qed.

  Notation lstop := (lstop U).
  Notation node_in := (node_in U).
  Lemma node_number : forall x o, (forall w, head_is digit (x ++ w) = true) ->
    (forall p w st, lstop w = true -> exists T, ev (ECall R_Number) CompoundAtomic false (mkPs p (x ++ w) st) (POk (mkPs (p + length x) w st) [T]) /\
       forall a b l f i, orel sim (parse_data f i (parse_expr f i) (Node R_data a b l [T])) o) ->
    node_in lstop x o.
  Proof.
    intros x o H1 H2. apply node_data.
    - apply plain_number; [exact H1|apply (lstop_more U)|]. intros p w st Hw. destruct (H2 p w st Hw) as (T & HT & _). eauto.
    - apply data_number; assumption.
  Qed.

  Lemma integer_in : forall x, numeral x = true -> node_in lstop x (Ret (Integer (numeral_value x))).
  Proof.
    intros x Hx. destruct (numeral_digits x Hx) as [N D]. apply node_number.
    - intro w. apply digit_head; assumption.
    - intros p w st Hw. eexists. split.
      + apply (ok_Number_int U CompoundAtomic x p w st Hx); [apply (lstop_int U HU); exact Hw|apply (lstop_num U HU); exact Hw].
      + intros a b l f i. unfold parse_data. cbn [t_inner t_rule]. unfold parse_integer. cbn [t_text].
        rewrite numeral_int by exact Hx. cbn. reflexivity.
  Qed.

  Lemma decimal_in : forall x y, numeral x = true -> numeral y = true ->
    node_in lstop (x ++ lit "." ++ y) (Ret (Decimal (mkDecimal (numeral_value (x ++ y)) (Z.of_nat (length y))))).
  Proof.
    intros x y Hx Hy. destruct (numeral_digits x Hx) as [N D]. destruct (numeral_digits y Hy) as [N' D']. apply node_number.
    - intro w. rewrite <- app_assoc. apply digit_head; assumption.
    - intros p w st Hw. destruct (ok_Number_dec U CompoundAtomic x y p w st Hx Hy) as [t Ht]; [apply (lstop_int U HU); exact Hw|].
      eexists. split; [rewrite <- !app_assoc; exact Ht|].
      intros a b l f i. unfold parse_data. cbn [t_inner t_rule]. unfold parse_decimal. cbn [t_text].
      unfold decimal_from_str.
      assert (E : split_dot (x ++ lit "." ++ y) = Some (x, y)).
      { clear N Hx Ht. induction x as [|c x IH]; [reflexivity|]. cbn [forallb] in D. apply andb_prop in D as [Dc D].
        cbn [app split_dot]. destruct (N.eqb_spec c 46) as [->|]; [discriminate|]. rewrite IH by exact D. reflexivity. }
      rewrite E. rewrite int_digits.
      + cbn. reflexivity.
      + destruct x; [congruence|discriminate].
      + rewrite forallb_app, D, D'. reflexivity.
  Qed.

  Lemma group_stop_xid : forall P w, (forall c, P c = true -> hex_digit c = true) -> head_is (xid_continue U) w = false -> group_stop P w = true.
  Proof.
    intros P w HP H. unfold group_stop. destruct w as [|c w]; [reflexivity|]. cbn [head_is] in *.
    destruct (P c) eqn:E.
    - exfalso. apply HP in E. unfold hex_digit in E.
      assert (X : xid_continue U c = true); [|congruence].
      apply orb_prop in E as [E|E]; [apply orb_prop in E as [E|E]|].
      + apply digit_xid. exact E.
      + apply letter_xid. unfold ascii_letter. apply andb_prop in E as [E1 E2]. apply N.leb_le in E1. apply N.leb_le in E2.
        apply orb_true_iff. right. apply andb_true_intro. split; apply N.leb_le; lia.
      + apply letter_xid. unfold ascii_letter. apply andb_prop in E as [E1 E2]. apply N.leb_le in E1. apply N.leb_le in E2.
        apply orb_true_iff. left. apply andb_true_intro. split; apply N.leb_le; lia.
    - destruct (N.eqb_spec c 95) as [->|]; [discriminate|reflexivity].
  Qed.

  Lemma byte_in : forall b P s, based b P -> s <> [] -> grouped P s = true ->
    node_in lstop (lit "0" ++ b :: s) (byte_value b s).
  Proof.
    intros b P s Hb N Hs. pose proof (based_figures b P Hb) as HF. apply node_number.
    - reflexivity.
    - intros p w st Hw. destruct (ok_Number_byte U CompoundAtomic b P s p w st Hb N Hs) as [t Ht].
      { apply group_stop_xid; [intros c Hc; apply HF; exact Hc|]. apply (lstop_xid U HU). exact Hw. }
      eexists. split; [exact Ht|].
      intros a0 b0 l f i. unfold parse_data. cbn [t_inner t_rule]. unfold parse_byte. cbn [t_text app].
      assert (B : (if ((b =? 120) || (b =? 88))%N then Ret 16%Z else if ((b =? 111) || (b =? 79))%N then Ret 8%Z
        else if ((b =? 98) || (b =? 66))%N then Ret 2%Z else Panic PUnreachable) = Ret (base_of b)) by (destruct Hb; reflexivity).
      rewrite B. cbn [obind]. destruct s as [|c s]; [congruence|]. destruct (N.eqb_spec c 95) as [->|N95].
      + cbn. reflexivity.
      + assert (V : byte_value b (c :: s) = Ret (Integer (based_value (base_of b) (c :: s)))).
        { unfold byte_value. destruct c as [|q]; [reflexivity|]. do 7 (destruct q as [q|q|]; try reflexivity; try congruence). }
        rewrite V. pose proof Hs as Hs'. cbn [grouped] in Hs. apply N.eqb_neq in N95. rewrite N95 in Hs. apply andb_prop in Hs as [Hc _].
        destruct (HF c Hc) as [Hh _]. destruct (hex_figure c Hh) as (_ & _ & A1 & A2 & A3).
        rewrite int_unsigned by assumption.
        assert (E : radix_loop (base_of b) (c :: s) 0 = Some (based_value (base_of b) (c :: s)))
          by exact (radix_grouped (base_of b) P HF (length (c :: s)) (c :: s) 0%Z (le_n _) Hs').
        unfold str, char in *. rewrite E. cbn [unwrap obind orel]. reflexivity.
  Qed.

  Lemma node_integer : forall x, numeral x = true -> node_means x (Ret (Integer (numeral_value x))).
  Proof. intros. apply node_lstop, integer_in. assumption. Qed.
  Lemma node_decimal : forall x y, numeral x = true -> numeral y = true ->
    node_means (x ++ lit "." ++ y) (Ret (Decimal (mkDecimal (numeral_value (x ++ y)) (Z.of_nat (length y))))).
  Proof. intros. apply node_lstop, decimal_in; assumption. Qed.
  Lemma node_byte : forall b P s, based b P -> s <> [] -> grouped P s = true ->
    node_means (lit "0" ++ b :: s) (byte_value b s).
  Proof. intros b P s H1 H2 H3. apply node_lstop, (byte_in b P); assumption. Qed.

  (** ** null, true, false *)
  Lemma ok_Special : forall x a k p w st, special x a ->
    ev (ECall R_Special) k false (mkPs p (x ++ w) st) (POk (mkPs (p + length x) w st) (node_of R_Special k p x [])).
  Proof.
    intros x a k p w st H. apply ev_call. cbn [grammar]. apply ok_rule, ev_atomic.
    destruct H.
    - apply ev_else_ok, ev_else_ok. apply ev_str.
    - apply ev_else_ok, ev_else_err; [apply er_str; reflexivity|apply ev_str].
    - apply ev_else_err; [apply er_else; apply er_str; reflexivity|apply ev_str].
  Qed.
  Lemma data_special : forall x a p w st, special x a -> exists T,
    ev (ECall R_data) CompoundAtomic false (mkPs p (x ++ w) st) (POk (mkPs (p + length x) w st) [T]) /\ t_rule T = R_data /\
    forall f i, parse_data f i (parse_expr f i) T = Ret a.
  Proof.
    intros x a p w st H. eexists. split; [|split].
    - apply ev_call. cbn [grammar]. apply ev_atomic. apply (ok_rule U R_data _ CompoundAtomic p x w st st).
      do 5 apply ev_else_ok. apply ev_else_err; [|eapply ok_Special; exact H].
      apply er_else; [apply er_dict|apply er_list]; destruct H; reflexivity.
    - reflexivity.
    - intros f i. destruct H; reflexivity.
  Qed.
  (** also when more word characters follow *)
  Lemma node_special_more : forall x a y p w st, special x a -> is_path U (x ++ y) -> nstop w = true -> exists T,
    ev (ECall R_node) CompoundAtomic false (mkPs p (x ++ y ++ w) st) (POk (mkPs (p + length x) (y ++ w) st) [T]) /\ t_rule T = R_node /\
    forall f i, parse_node f i (parse_expr f i) T = Ret a.
  Proof.
    intros x a y p w st H Hp Hw. pose proof (plain_symbol U _ Hp p w st Hw) as (H1 & H2 & H3 & H4). rewrite <- app_assoc in *.
    destruct (data_special x a p (y ++ w) st H) as (T & HT & HR & HM). eexists. split; [|split].
    - apply ev_call. cbn [grammar]. apply (ok_rule U R_node _ CompoundAtomic p x (y ++ w) st st).
      apply ev_else_err; [|apply ok_restore; exact HT].
      apply er_else; [apply er_else; [apply er_else|]|].
      + apply er_paren. exact H1.
      + apply er_restore. exact H2.
      + apply er_restore. exact H3.
      + apply er_restore. exact H4.
    - reflexivity.
    - intros f i. unfold parse_node. cbn [node_of emits t_inner]. rewrite HR. apply HM.
  Qed.
  Lemma special_word : forall x a, special x a -> is_path U x.
  Proof. intros x a H. exists x, []. split; [cbn; rewrite app_nil_r; reflexivity|]. split; [destruct H; reflexivity|reflexivity]. Qed.
  Lemma node_special : forall x a, special x a -> node_means x (Ret a).
  Proof.
    intros x a H p w st Hw. destruct (node_special_more x a [] p w st H) as (T & HT & HR & HM); [rewrite app_nil_r; eapply special_word; exact H|exact Hw|].
    exists T. split; [exact HT|]. split; [exact HR|]. intros f i. rewrite HM. cbn. reflexivity.
  Qed.
End Atom.
