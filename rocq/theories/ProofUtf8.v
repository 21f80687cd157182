(** Numbers of bytes. *)
From Verif Require Import Base SpecUtf8.
Local Open Scope Z_scope.

Lemma char_width : forall c bs, utf8_char c bs -> Z.of_nat (length bs) = utf8_width c.
Proof.
  intros c bs H. unfold utf8_width. destruct H; cbn [length]; repeat match goal with |- context [(?a <? ?b)%N] => destruct (N.ltb_spec a b) end; lia.
Qed.
Lemma char_bytes : forall c, exists bs, utf8_char c bs.
Proof.
  intros c. pose proof (N.div_mod c 64 ltac:(lia)) as A. pose proof (N.mod_lt c 64 ltac:(lia)). set (q := (c / 64)%N) in *. set (r := (c mod 64)%N) in *.
  pose proof (N.div_mod q 64 ltac:(lia)) as B. pose proof (N.mod_lt q 64 ltac:(lia)). set (q2 := (q / 64)%N) in *. set (r2 := (q mod 64)%N) in *.
  pose proof (N.div_mod q2 64 ltac:(lia)) as C. pose proof (N.mod_lt q2 64 ltac:(lia)). set (q3 := (q2 / 64)%N) in *. set (r3 := (q2 mod 64)%N) in *.
  destruct (N.ltb_spec c 128) as [L|L]; [eexists; apply utf8_1; exact L|].
  destruct (N.ltb_spec c 2048) as [M|M]; [replace c with (q * 64 + r)%N by lia; eexists; apply utf8_2; lia|].
  destruct (N.ltb_spec c 65536) as [K|K]; [replace c with ((q2 * 64 + r2) * 64 + r)%N by lia; eexists; apply utf8_3; lia|].
  replace c with (((q3 * 64 + r3) * 64 + r2) * 64 + r)%N by lia. eexists. apply utf8_4; lia.
Qed.
Lemma char_once : forall c bs bs', utf8_char c bs -> utf8_char c bs' -> bs = bs'.
Proof.
  intros c bs bs' H H'. inversion H; subst; inversion H'; subst; try (exfalso; lia); repeat f_equal; lia.
Qed.
Lemma text_width : forall s bs, utf8 s bs -> Z.of_nat (length bs) = utf8_len s.
Proof. induction 1 as [|c bs s l C H IH]; [reflexivity|]. cbn [utf8_len]. rewrite app_length, <- IH, <- (char_width c bs C). lia. Qed.
Lemma text_bytes : forall s, exists bs, utf8 s bs.
Proof. induction s as [|c s [l IH]]; [exists []; constructor|]. destruct (char_bytes c) as [bs B]. exists (bs ++ l). constructor; assumption. Qed.
Lemma text_once : forall s bs bs', utf8 s bs -> utf8 s bs' -> bs = bs'.
Proof. induction s as [|c s IH]; intros bs bs' H H'; inversion H; inversion H'; subst; [reflexivity|]. f_equal; [eapply char_once; eassumption|apply IH; assumption]. Qed.
Lemma cons_both : forall (x y : N) l l', x :: l = y :: l' -> x = y /\ l = l'. Proof. intros x y l l' H. inversion H. auto. Qed.
(** a character begins with a byte that tells how many there are *)
Lemma char_front : forall c c' bs bs' l l', utf8_char c bs -> utf8_char c' bs' -> (c < 1114112)%N -> (c' < 1114112)%N -> bs ++ l = bs' ++ l' -> c = c' /\ l = l'.
Proof.
  intros c c' bs bs' l l' H H' L L' E. inversion H; subst; inversion H'; subst; cbn [app] in E; 
    repeat match goal with X : _ :: _ = _ :: _ |- _ => apply cons_both in X as [? ?] end; first [exfalso; lia|split; [lia|congruence]].
Qed.
Lemma text_back : forall s s' bs, utf8 s bs -> utf8 s' bs -> Forall (fun c => (c < 1114112)%N) s -> Forall (fun c => (c < 1114112)%N) s' -> s = s'.
Proof.
  assert (N : forall c, ~ utf8_char c []) by (intros c H; inversion H).
  induction s as [|c s IH]; intros s' bs H H' F F'; inversion H as [E1 E2|c1 b1 s1 l1 C1 T1 E1 E2]; subst; inversion H' as [E1' E2'|c' bs' s2 l' C' T' E1' E2']; subst; try reflexivity.
  - apply app_eq_nil in E2' as [-> _]. elim (N _ C').
  - symmetry in E2'. apply app_eq_nil in E2' as [-> _]. elim (N _ C1).
  - inversion F; inversion F'; subst. destruct (char_front c c' b1 bs' l1 l' C1 C') as [-> ->]; [assumption|assumption|symmetry; exact E2'|]. f_equal. eapply IH; eassumption.
Qed.
Lemma keeps_width : forall phi, keeps_size phi -> forall c, utf8_width (phi c) = utf8_width c.
Proof.
  intros phi K c. destruct (char_bytes c) as [bs B], (char_bytes (phi c)) as [bs' B']. rewrite <- (char_width _ _ B), <- (char_width _ _ B'), (K c bs bs' B B'). reflexivity.
Qed.
Lemma width_keeps : forall phi, (forall c, utf8_width (phi c) = utf8_width c) -> keeps_size phi.
Proof. intros phi K c bs bs' B B'. apply Nat2Z.inj. rewrite (char_width _ _ B), (char_width _ _ B'). apply K. Qed.
