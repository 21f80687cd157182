From Verif Require Import Base AlgoError NumTypes AlgoBasic AlgoGamma AlgoFib SpecNum.
From Coq Require Import Znumtheory Factorial.
Local Open Scope Z_scope.

(** ** Factorial *)

Lemma zseq_S_last : forall l a, zseq a (S l) = zseq a l ++ [a + Z.of_nat l].
Proof.
  induction l; intros.
  - cbn. f_equal. lia.
  - cbn [zseq app]. f_equal.
    specialize (IHl (a + 1)). cbn [zseq] in IHl. rewrite IHl.
    do 2 f_equal. lia.
Qed.

Lemma factorial_fold_nat : forall n,
  fold_left (fun a b => a * b) (zseq 1 n) 1 = Z.of_nat (fact n).
Proof.
  induction n.
  - reflexivity.
  - rewrite zseq_S_last, fold_left_app, IHn. cbn [fold_left].
    cbn [fact]. lia.
Qed.

Lemma factorial_fold_u_ok : forall n, factorial_fold_u n = factorial n.
Proof. intros. apply factorial_fold_nat. Qed.

Lemma pow2_pred : forall W, 0 < W -> 2 ^ W = 2 * 2 ^ (W - 1).
Proof. intros. replace W with (Z.succ (W - 1)) at 1 by lia. apply Z.pow_succ_r. lia. Qed.

Lemma isize_as_usize_nonneg : forall W s, 0 < W -> 0 <= s < 2 ^ (W - 1) -> isize_as_usize W s = s.
Proof.
  intros W s HW Hs. unfold isize_as_usize. apply Z.mod_small.
  rewrite pow2_pred by lia. lia.
Qed.

Lemma isize_as_usize_neg : forall W s, 0 < W -> - 2 ^ (W - 1) <= s < 0 ->
  isize_as_usize W s = s + 2 ^ W.
Proof.
  intros W s HW Hs. unfold isize_as_usize.
  pose proof (pow2_pred W HW).
  symmetry. apply Z.mod_unique with (q := -1); lia.
Qed.

Lemma to_isize_some : forall W n, - 2 ^ (W - 1) <= n < 2 ^ (W - 1) -> to_isize W n = Some n.
Proof.
  intros. unfold to_isize.
  replace (- 2 ^ (W - 1) <=? n) with true by lia.
  replace (n <? 2 ^ (W - 1)) with true by lia. reflexivity.
Qed.

Lemma to_isize_none : forall W n, n < - 2 ^ (W - 1) \/ 2 ^ (W - 1) <= n -> to_isize W n = None.
Proof.
  intros W n H. unfold to_isize.
  destruct (Z.leb_spec (- 2 ^ (W - 1)) n); destruct (Z.ltb_spec n (2 ^ (W - 1))); cbn; auto; lia.
Qed.

Lemma factorial_i_nonneg : forall W n, 0 < W -> 0 <= n < 2 ^ (W - 1) ->
  factorial_i W n = Ok (factorial n).
Proof.
  intros W n HW H. unfold factorial_i. rewrite to_isize_some by lia.
  replace (n <? 0) with false by lia.
  rewrite isize_as_usize_nonneg by lia. now rewrite factorial_fold_u_ok.
Qed.

Lemma factorial_i_neg : forall W n, 0 < W -> - 2 ^ (W - 1) <= n < 0 ->
  factorial_i W n = Err ComplexInfinity.
Proof.
  intros W n HW H. unfold factorial_i. rewrite to_isize_some by lia.
  replace (n <? 0) with true by lia. reflexivity.
Qed.

Lemma factorial_i_big : forall W n, n < - 2 ^ (W - 1) \/ 2 ^ (W - 1) <= n ->
  factorial_i W n = Err OverFlow.
Proof. intros W n H. unfold factorial_i. now rewrite to_isize_none. Qed.

(** ** Power *)

Lemma power_iu_spec : forall a b, 0 <= b ->
  power_iu a b =
    if (b =? 0) then (if a =? 0 then Err Indeterminate else Ok 0)
    else if (b =? 1) then Ok (if a =? 0 then 0 else 1)
    else if (a =? 0) || (a =? 1) then Ok a
    else if b <? 2 ^ 32 then Ok (a ^ b) else Err OverFlow.
Proof.
  intros a b Hb. unfold power_iu, to_u32.
  change (2 ^ 32) with 4294967296.
  replace (0 <=? b) with true by lia.
  destruct (Z.eqb_spec a 0), (Z.eqb_spec b 0), (Z.eqb_spec a 1), (Z.eqb_spec b 1); subst;
    cbn [andb orb]; try reflexivity; try lia.
  now destruct (b <? _).
Qed.

Lemma power_iu_correct : forall a b, 2 <= b < 2 ^ 32 -> power_iu a b = Ok (a ^ b).
Proof.
  intros a b Hb. rewrite power_iu_spec by lia.
  replace (b =? 0) with false by lia. replace (b =? 1) with false by lia.
  replace (b <? 2 ^ 32) with true by lia.
  destruct (Z.eqb_spec a 0); cbn [orb].
  - subst. rewrite Z.pow_0_l by lia. reflexivity.
  - destruct (Z.eqb_spec a 1); auto. subst. rewrite Z.pow_1_l by lia. reflexivity.
Qed.

(** ** Extended gcd *)

Section Egcd.
  Variables a b : Z.

  Definition egcd_inv (r s t : Z * Z) : Prop :=
    fst r = fst s * a + fst t * b /\ snd r = snd s * a + snd t * b /\
    Z.gcd (snd r) (fst r) = Z.gcd a b.

  Lemma gcd_sub_mul : forall x y q, Z.gcd y (x - q * y) = Z.gcd x y.
  Proof.
    intros. rewrite (Z.gcd_comm x y).
    replace (x - q * y) with (x + (- q) * y) by ring.
    apply Z.gcd_add_mult_diag_r.
  Qed.

  Lemma egcd_inv_step : forall r s t q, egcd_inv r s t ->
    egcd_inv (egcd_f q r) (egcd_f q s) (egcd_f q t).
  Proof.
    intros [r0 r1] [s0 s1] [t0 t1] q (H1 & H2 & H3). unfold egcd_inv, egcd_f in *. cbn in *.
    repeat split; try nia. rewrite gcd_sub_mul. exact H3.
  Qed.

  Lemma egcd_loop_ret : forall fuel r s t res, egcd_inv r s t ->
    egcd_loop fuel r s t = Ret res ->
    let '(g, x, y) := res in g = Z.gcd a b /\ a * x + b * y = g.
  Proof.
    induction fuel; intros r s t res Hi Hr; cbn [egcd_loop] in Hr; [discriminate|].
    destruct (Z.eqb_spec (fst r) 0) as [E|E].
    - destruct Hi as (H1 & H2 & H3). rewrite E, Z.gcd_0_r in H3.
      destruct (Z.leb_spec 0 (snd r)); inversion Hr; subst; split; lia.
    - apply (IHfuel _ _ _ res (egcd_inv_step _ _ _ _ Hi) Hr).
  Qed.
End Egcd.

Lemma quot_rem_step : forall x y, y <> 0 -> x - Z.quot x y * y = Z.rem x y.
Proof. intros. pose proof (Z.quot_rem' x y). lia. Qed.

Lemma rem_abs_half : forall x y, y <> 0 -> Z.abs y < Z.abs x -> 2 * Z.abs (Z.rem x y) < Z.abs x.
Proof.
  intros x y Hy Hlt.
  rewrite <- Z.rem_abs by auto.
  pose proof (Z.rem_mod_nonneg (Z.abs x) (Z.abs y)) as E.
  rewrite E by lia.
  pose proof (Z.div_mod (Z.abs x) (Z.abs y)).
  pose proof (Z.mod_pos_bound (Z.abs x) (Z.abs y)).
  assert (1 <= Z.abs x / Z.abs y) by (apply Z.div_le_lower_bound; lia).
  nia.
Qed.

Lemma egcd_loop_fuel : forall k fuel r s t,
  Z.abs (fst r) < 2 ^ Z.of_nat k -> (2 * k < fuel)%nat ->
  egcd_loop fuel r s t <> OutOfFuel.
Proof.
  assert (Hret : forall fuel r s t, fst r = 0 -> egcd_loop (S fuel) r s t <> OutOfFuel).
  { intros fuel r s t E. cbn [egcd_loop]. rewrite E. cbn. destruct (0 <=? snd r); discriminate. }
  induction k; intros fuel r s t Hlt Hf.
  - destruct fuel as [|fuel]; [lia|]. apply Hret. change (2 ^ Z.of_nat 0) with 1 in Hlt. lia.
  - destruct fuel as [|[|fuel]]; [lia|lia|].
    destruct (Z.eqb_spec (fst r) 0) as [E|E]; [apply Hret; auto|].
    cbn [egcd_loop].
    replace (fst r =? 0) with false by lia.
    destruct r as [r0 r1]. cbn [fst snd egcd_f] in *.
    rewrite quot_rem_step by auto.
    destruct (Z.eqb_spec (Z.rem r1 r0) 0) as [E2|E2].
    + destruct (0 <=? r0); discriminate.
    + apply IHk; [|lia]. unfold egcd_f. cbn [fst snd]. rewrite quot_rem_step by auto.
      assert (Z.abs (Z.rem r1 r0) < Z.abs r0) by (apply Z.rem_bound_abs; auto).
      pose proof (rem_abs_half r0 (Z.rem r1 r0) E2 H).
      replace (Z.of_nat (S k)) with (Z.succ (Z.of_nat k)) in Hlt by lia.
      rewrite Z.pow_succ_r in Hlt by lia. rewrite quot_rem_step by auto. lia.
Qed.

Lemma egcd_loop_no_panic : forall fuel r s t k, egcd_loop fuel r s t <> Panic k.
Proof.
  induction fuel; intros; cbn [egcd_loop]; [discriminate|].
  destruct (fst r =? 0); [destruct (0 <=? snd r); discriminate|auto].
Qed.

Lemma extended_gcd_total : forall a b, exists x y,
  extended_gcd a b = Ret (Z.gcd a b, x, y) /\ a * x + b * y = Z.gcd a b.
Proof.
  intros a b. unfold extended_gcd.
  assert (Hi : egcd_inv a b (b, a) (0, 1) (1, 0)).
  { unfold egcd_inv. cbn [fst snd]. repeat split; lia. }
  destruct (egcd_loop (egcd_fuel b) (b, a) (0, 1) (1, 0)) as [[[g x] y]|k|] eqn:E.
  - destruct (egcd_loop_ret a b _ _ _ _ _ Hi E) as [Hg Hb]. subst g. eauto.
  - exfalso. eapply egcd_loop_no_panic; eauto.
  - exfalso. revert E. apply egcd_loop_fuel with (k := Z.to_nat (Z.log2 (Z.abs b) + 1)).
    + cbn [fst]. pose proof (Z.log2_nonneg (Z.abs b)). rewrite Z2Nat.id by lia.
      destruct (Z.eq_dec b 0) as [->|Hb]; [cbn; lia|].
      pose proof (Z.log2_spec (Z.abs b)). rewrite Z.add_1_r. lia.
    + unfold egcd_fuel. lia.
Qed.

(** ** Modular functions *)

Lemma modulo_inverse_spec : forall a m,
  (Z.gcd a m = 1 /\ exists x, modulo_inverse a m = Ret (Some x) /\ congruent m (a * x) 1) \/
  (Z.gcd a m <> 1 /\ modulo_inverse a m = Ret None).
Proof.
  intros a m. unfold modulo_inverse.
  destruct (extended_gcd_total a m) as (x & y & E & B). rewrite E. cbn [obind].
  destruct (Z.eqb_spec (Z.gcd a m) 1) as [G|G]; [left|right]; split; auto.
  exists (x + m). split; auto. unfold congruent. exists (a - y). rewrite G in B. nia.
Qed.

Lemma modulo_division_spec : forall a b m,
  (b = 0 /\ m = 0 /\ modulo_division a b m = Panic PDivZero) \/
  ((b <> 0 \/ m <> 0) /\
   ((exists x, modulo_division a b m = Ret (Some x) /\ (Z.gcd b m | a) /\ congruent b (m * x) a) \/
    (modulo_division a b m = Ret None /\ ~ (Z.gcd b m | a)))).
Proof.
  intros a b m. unfold modulo_division.
  destruct (extended_gcd_total b m) as (x & y & E & B). rewrite E. cbn [obind].
  unfold big_rem, big_quot.
  destruct (Z.eqb_spec (Z.gcd b m) 0) as [G|G].
  - left. apply Z.gcd_eq_0 in G. tauto.
  - right. split.
    { destruct (Z.eq_dec b 0); [|tauto]. destruct (Z.eq_dec m 0); [|tauto]. subst. now cbn in G. }
    cbn [obind]. destruct (Z.eqb_spec (Z.rem a (Z.gcd b m)) 0) as [R|R].
    + left. apply Z.rem_divide in R; auto. eexists. repeat split; eauto.
      destruct R as [k Hk]. exists (- (k * x)). rewrite Hk, Z.quot_mul by auto.
      nia.
    + right. split; auto. intros D. apply R. apply Z.rem_divide; auto.
Qed.

Lemma is_coprime_spec : forall x y, is_coprime x y = true <-> rel_prime x y.
Proof.
  intros x y. unfold is_coprime. rewrite Z.eqb_eq. apply Zgcd_1_rel_prime.
Qed.
