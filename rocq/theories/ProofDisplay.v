(** Proofs about printing. *)
From Verif Require Import Base Ast Display SpecAst ProofAst.
Local Open Scope Z_scope.

(** ** Numerals *)
Lemma numeral_value_snoc : forall s c, numeral_value (s ++ [c]) = 10 * numeral_value s + digit_value c.
Proof. intros s c. unfold numeral_value. rewrite fold_left_app. reflexivity. Qed.
Lemma numeral_fold_shift : forall s a,
  fold_left (fun a c => (10 * a + digit_value c)%Z) s a = a * 10 ^ Z.of_nat (length s) + numeral_value s.
Proof.
  intros s a. induction s as [|c s IH] using rev_ind.
  - cbn. lia.
  - rewrite fold_left_app, numeral_value_snoc, app_length, Nat2Z.inj_add. cbn [fold_left length].
    rewrite IH, Z.pow_add_r by lia. change (10 ^ Z.of_nat 1) with 10. ring.
Qed.
Lemma numeral_value_app : forall s t,
  numeral_value (s ++ t) = numeral_value s * 10 ^ Z.of_nat (length t) + numeral_value t.
Proof. intros s t. unfold numeral_value at 1. rewrite fold_left_app. apply numeral_fold_shift. Qed.
Lemma numeral_value_cons : forall c s,
  numeral_value (c :: s) = digit_value c * 10 ^ Z.of_nat (length s) + numeral_value s.
Proof. intros c s. change (c :: s) with ([c] ++ s). rewrite numeral_value_app. reflexivity. Qed.
Lemma numeral_value_bounds : forall s, Forall is_digit s ->
  0 <= numeral_value s < 10 ^ Z.of_nat (length s).
Proof.
  intros s H. induction s as [|c s IH] using rev_ind; [cbn; lia|].
  apply Forall_app in H. destruct H as [H1 H2]. inversion H2 as [|? ? Hc _]; subst.
  specialize (IH H1). rewrite numeral_value_snoc, app_length, Nat2Z.inj_add. cbn [length].
  rewrite Z.pow_add_r by lia. change (10 ^ Z.of_nat 1) with 10.
  unfold is_digit in Hc. unfold digit_value. nia.
Qed.

Lemma digits_loop_spec : forall fuel n acc, 0 <= n < 10 ^ Z.of_nat fuel -> (0 < fuel)%nat ->
  exists ds, digits_loop fuel n acc = ds ++ acc /\ numeral_of n ds.
Proof.
  induction fuel as [|f IH]; intros n acc Hn Hf; [lia|].
  cbn [digits_loop]. pose proof (Z.mod_pos_bound n 10 ltac:(lia)) as Hm.
  set (c := Z.to_N (48 + n mod 10)).
  assert (Hc : is_digit c) by (unfold is_digit, c; lia).
  assert (Hv : digit_value c = n mod 10) by (unfold digit_value, c; rewrite Z2N.id; lia).
  destruct (n <? 10) eqn:E.
  - apply Z.ltb_lt in E. exists [c]. split; [reflexivity|]. repeat split.
    + discriminate.
    + constructor; [exact Hc | constructor].
    + unfold numeral_value; cbn [fold_left]. rewrite Hv, Z.mod_small by lia. lia.
    + cbn. congruence.
  - apply Z.ltb_ge in E. pose proof (Z.div_mod n 10 ltac:(lia)) as Hd.
    rewrite Nat2Z.inj_succ, Z.pow_succ_r in Hn by lia.
    destruct f as [|f']; [cbn in Hn; lia|].
    destruct (IH (n / 10) (c :: acc)) as (ds & E1 & H1 & H2 & H3 & H4).
    { split; [apply Z.div_pos; lia | apply Z.div_lt_upper_bound; lia]. }
    { lia. }
    exists (ds ++ [c]). split; [rewrite E1, <- app_assoc; reflexivity|]. repeat split.
    + destruct ds; discriminate.
    + apply Forall_app. split; [exact H2 | constructor; [exact Hc | constructor]].
    + rewrite numeral_value_snoc, H3, Hv. lia.
    + intro Hh. destruct ds as [|d ds]; [congruence|]. cbn in Hh. injection Hh as ->.
      specialize (H4 eq_refl). injection H4 as ->.
      change (numeral_value [48%N]) with 0 in H3. exfalso.
      assert (1 <= n / 10) by (apply Z.div_le_lower_bound; lia). lia.
Qed.

Lemma show_nat_spec : forall n, 0 <= n -> numeral_of n (show_nat n).
Proof.
  intros n Hn. unfold show_nat.
  destruct (digits_loop_spec (S (Z.to_nat (Z.log2 n))) n []) as (ds & E & H); [|lia|].
  - split; [exact Hn|]. rewrite Nat2Z.inj_succ, Z2Nat.id by apply Z.log2_nonneg.
    destruct (Z.eq_dec n 0) as [->|Hz]; [reflexivity|].
    destruct (Z.log2_spec n ltac:(lia)) as [_ H].
    eapply Z.lt_le_trans; [exact H|]. apply Z.pow_le_mono_l. lia.
  - rewrite E, app_nil_r. exact H.
Qed.

(** the numeral of a number is unique *)
Lemma numeral_length_inj : forall s t, Forall is_digit s -> Forall is_digit t ->
  length s = length t -> numeral_value s = numeral_value t -> s = t.
Proof.
  induction s as [|c s IH]; intros [|d t] Hs Ht Hl Hv; cbn in Hl; try lia; [reflexivity|].
  inversion Hs as [|? ? Hc Hs']; inversion Ht as [|? ? Hd Ht']; subst.
  rewrite !numeral_value_cons in Hv. injection Hl as Hl. rewrite Hl in Hv.
  pose proof (numeral_value_bounds s Hs') as B1. pose proof (numeral_value_bounds t Ht') as B2.
  rewrite Hl in B1.
  assert (digit_value c = digit_value d) by nia.
  assert (c = d) by (unfold digit_value, is_digit in *; lia). subst d.
  f_equal. apply IH; auto. lia.
Qed.
Lemma numeral_of_length : forall n s, numeral_of n s -> n <> 0 ->
  10 ^ Z.of_nat (pred (length s)) <= n < 10 ^ Z.of_nat (length s).
Proof.
  intros n s (H1 & H2 & H3 & H4) Hn. subst n. split; [|apply numeral_value_bounds; exact H2].
  destruct s as [|c s]; [congruence|]. inversion H2 as [|? ? Hc Hs]; subst.
  rewrite numeral_value_cons in *. cbn [length pred].
  pose proof (numeral_value_bounds s Hs) as B.
  assert (1 <= digit_value c).
  { destruct (N.eq_dec c 48) as [->|]; [|unfold digit_value, is_digit in *; lia].
    specialize (H4 eq_refl). injection H4 as ->. cbn in Hn. lia. }
  nia.
Qed.
Lemma numeral_of_zero : forall s, numeral_of 0 s -> s = [48%N].
Proof.
  intros s (H1 & H2 & H3 & H4). destruct s as [|c s]; [congruence|].
  inversion H2 as [|? ? Hc Hs]; subst. rewrite numeral_value_cons in H3.
  pose proof (numeral_value_bounds s Hs) as B.
  destruct (N.eq_dec c 48) as [->|]; [apply H4; reflexivity|].
  exfalso. assert (1 <= digit_value c) by (unfold digit_value, is_digit in *; lia). nia.
Qed.
Lemma numeral_of_inj : forall n s t, numeral_of n s -> numeral_of n t -> s = t.
Proof.
  intros n s t Hs Ht. destruct (Z.eq_dec n 0) as [->|Hn].
  - rewrite (numeral_of_zero s Hs), (numeral_of_zero t Ht). reflexivity.
  - pose proof (numeral_of_length n s Hs Hn) as B1. pose proof (numeral_of_length n t Ht Hn) as B2.
    destruct Hs as (S1 & S2 & S3 & S4), Ht as (T1 & T2 & T3 & T4).
    assert (length s = length t).
    { destruct (Nat.lt_trichotomy (length s) (length t)) as [H|[H|H]]; [|exact H|]; exfalso.
      - assert (10 ^ Z.of_nat (length s) <= 10 ^ Z.of_nat (pred (length t)))
          by (apply Z.pow_le_mono_r; lia). lia.
      - assert (10 ^ Z.of_nat (length t) <= 10 ^ Z.of_nat (pred (length s)))
          by (apply Z.pow_le_mono_r; lia). lia. }
    apply numeral_length_inj; auto. congruence.
Qed.
Lemma show_nat_unique : forall n s, numeral_of n s -> show_nat n = s.
Proof.
  intros n s H. apply (numeral_of_inj n); [|exact H]. apply show_nat_spec.
  destruct H as (_ & H2 & <- & _). apply numeral_value_bounds. exact H2.
Qed.

(** ** is_unary / is_multiary *)
Lemma is_unary_iff : forall ps, is_unary ps = true <-> exists x pos, ps = [mkParam [x] [] pos].
Proof.
  intro ps. split.
  - destruct ps as [|[args opts pos] [|]]; try discriminate. unfold is_unary, param_is_unary. cbn.
    destruct args as [|x [|]], opts; cbn; try discriminate. intros _. exists x, pos. reflexivity.
  - intros (x & pos & ->). reflexivity.
Qed.
Lemma is_multiary_iff : forall ps, is_multiary ps = true <->
  exists args pos, ps = [mkParam args [] pos] /\ (2 <= length args)%nat.
Proof.
  intro ps. split.
  - destruct ps as [|[args opts pos] [|]]; try discriminate. unfold is_multiary, param_is_multiary.
    cbn [arguments options]. destruct args as [|x [|y args]], opts; cbn; try discriminate.
    intros _. exists (x :: y :: args), pos. split; [reflexivity|]. cbn. lia.
  - intros (args & pos & -> & H). unfold is_multiary, param_is_multiary. cbn [arguments options length].
    destruct args as [|x [|y args]]; cbn in H; try lia. reflexivity.
Qed.

Lemma omapM_ret : forall {A B} (f : A -> outcome B) g l,
  (forall x, In x l -> f x = Ret (g x)) -> omapM f l = Ret (map g l).
Proof.
  intros A B f g. induction l as [|x l IH]; intro H; [reflexivity|].
  cbn. rewrite H by (left; reflexivity). cbn. rewrite IH by (intros; apply H; right; assumption). reflexivity.
Qed.

(** every element returns, or some element panics with k *)
Lemma omapM_dichotomy : forall {A B} (f : A -> outcome B) k (bad : A -> Prop) l,
  (forall x, In x l -> (bad x /\ f x = Panic k) \/ (~ bad x /\ exists t, f x = Ret t)) ->
  ((exists x, In x l /\ bad x) /\ omapM f l = Panic k) \/
  ((forall x, In x l -> ~ bad x) /\ exists ts, omapM f l = Ret ts).
Proof.
  intros A B f k bad. induction l as [|x l IH]; intro H.
  - right. split; [intros x []|]. exists []. reflexivity.
  - destruct (H x (or_introl eq_refl)) as [[Hb E]|[Hb [t E]]].
    + left. split; [exists x; split; [left; reflexivity | exact Hb]|]. cbn. rewrite E. reflexivity.
    + destruct IH as [[(y & Hy & Hby) E2]|[Hg [ts E2]]]; [intros y Hy; apply H; right; exact Hy| |].
      * left. split; [exists y; split; [right; exact Hy | exact Hby]|]. cbn. rewrite E. cbn. rewrite E2. reflexivity.
      * right. split.
        -- intros y [<-|Hy]; [exact Hb | apply Hg; exact Hy].
        -- exists (t :: ts). cbn. rewrite E. cbn. rewrite E2. reflexivity.
Qed.

Lemma display_dichotomy : forall a,
  (unprintable a /\ display a = Panic PUnimplemented) \/
  (~ unprintable a /\ exists t, display a = Ret t).
Proof.
  induction a as [|l H|s ps H|b|n|d|s|s] using ast_ind'.
  - left. split; [constructor | reflexivity].
  - left. split; [constructor | reflexivity].
  - cbn [display]. destruct (kind s) as [| |o|o q|o] eqn:Ek.
    + left. split; [constructor; left; exact Ek | reflexivity].
    + left. split; [constructor; right; exact Ek | reflexivity].
    + destruct (is_unary ps) eqn:E.
      * apply is_unary_iff in E. destruct E as (x & pos & ->). cbn [arguments].
        inversion H as [|? ? [Hx _] _]; subst. inversion Hx as [|? ? Hx' _]; subst.
        destruct Hx' as [[Hu E]|[Hu [t E]]].
        -- left. split; [eapply unprintable_prefix; eauto | rewrite E; reflexivity].
        -- right. split; [|rewrite E; eexists; reflexivity].
           intro Hc. inversion Hc; subst; try congruence. destruct H1; congruence.
      * right. split; [|eexists; reflexivity]. intro Hc. inversion Hc; subst; try congruence.
        -- destruct H1; congruence.
        -- cbn in E. discriminate.
    + destruct (is_multiary ps) eqn:E.
      * apply is_multiary_iff in E. destruct E as (args & pos & -> & Hl). cbn [arguments].
        inversion H as [|? ? [Hx _] _]; subst. cbn [arguments] in Hx.
        destruct (omapM_dichotomy (fun x => obind (display x) (fun t => Ret (wrap_operand x q t)))
                    PUnimplemented unprintable args) as [[(x & Hin & Hb) E]|[Hg [ts E]]].
        { intros x Hin. rewrite Forall_forall in Hx. destruct (Hx x Hin) as [[Hu E]|[Hu [t E]]].
          - left. split; [exact Hu|]. rewrite E. reflexivity.
          - right. split; [exact Hu|]. rewrite E. eexists; reflexivity. }
        -- left. split; [eapply unprintable_infix; eauto | rewrite E; reflexivity].
        -- right. split; [|rewrite E; eexists; reflexivity].
           intro Hc. inversion Hc; subst; try congruence; [destruct H1; congruence|].
           eapply Hg; eassumption.
      * right. split; [|eexists; reflexivity]. intro Hc. inversion Hc; subst; try congruence.
        -- destruct H1; congruence.
        -- assert (is_multiary [mkParam args [] pos] = true); [|congruence].
           apply is_multiary_iff. exists args, pos. auto.
    + destruct (is_unary ps) eqn:E.
      * apply is_unary_iff in E. destruct E as (x & pos & ->). cbn [arguments].
        inversion H as [|? ? [Hx _] _]; subst. inversion Hx as [|? ? Hx' _]; subst.
        destruct Hx' as [[Hu E]|[Hu [t E]]].
        -- left. split; [eapply unprintable_suffix; eauto | rewrite E; reflexivity].
        -- right. split; [|rewrite E; eexists; reflexivity].
           intro Hc. inversion Hc; subst; try congruence. destruct H1; congruence.
      * right. split; [|eexists; reflexivity]. intro Hc. inversion Hc; subst; try congruence.
        -- destruct H1; congruence.
        -- cbn in E. discriminate.
  - right. split; [intro Hc; inversion Hc | eexists; reflexivity].
  - right. split; [intro Hc; inversion Hc | eexists; reflexivity].
  - right. split; [intro Hc; inversion Hc | eexists; reflexivity].
  - right. split; [intro Hc; inversion Hc | eexists; reflexivity].
  - right. split; [intro Hc; inversion Hc | eexists; reflexivity].
Qed.

Lemma display_panics_iff : forall a, (exists k, display a = Panic k) <-> unprintable a.
Proof.
  intro a. destruct (display_dichotomy a) as [[H E]|[H [t E]]]; split; intro Hx; auto.
  - eexists; exact E.
  - destruct Hx as [k Hk]. congruence.
  - contradiction.
Qed.
Lemma display_returns : forall a, ~ unprintable a -> exists t, display a = Ret t.
Proof. intro a. destruct (display_dichotomy a) as [[H E]|[H [t E]]]; intro Hx; [contradiction | eauto]. Qed.
