(** The size of the coefficients of the extended Euclidean algorithm. *)
From Verif Require Import Base NumTypes AlgoBasic ProofBasic.
Local Open Scope Z_scope.

Definition small_inv (n : Z) (r s : Z * Z) : Prop :=
  Z.abs (fst r) < Z.abs (snd r) /\
  Z.abs (fst s) * Z.abs (snd r) + Z.abs (snd s) * Z.abs (fst r) = n /\
  (fst s * snd s) * (fst r * snd r) <= 0 /\
  (fst r = 0 -> 2 * Z.abs (snd s) <= Z.abs (fst s)).

Lemma quot_parts : forall x y, y <> 0 ->
  Z.abs x = Z.abs (Z.quot x y) * Z.abs y + Z.abs (x - Z.quot x y * y) /\ Z.abs (x - Z.quot x y * y) < Z.abs y /\
  0 <= Z.quot x y * (x * y) /\ 0 <= (x - Z.quot x y * y) * x.
Proof.
  intros x y Hy. assert (E : x - Z.quot x y * y = Z.rem x y) by (pose proof (Z.quot_rem' x y); lia). rewrite E.
  rewrite <- Z.quot_abs, <- Z.rem_abs by exact Hy. pose proof (Z.quot_rem' (Z.abs x) (Z.abs y)) as D.
  pose proof (Z.rem_bound_pos (Z.abs x) (Z.abs y) ltac:(lia) ltac:(lia)) as B.
  split; [lia|]. split; [lia|]. split; [|apply Z.rem_sign_mul; exact Hy].
  destruct (Z.le_gt_cases 0 x) as [X|X]; destruct (Z.le_gt_cases 0 y) as [Y|Y].
  - assert (0 <= Z.quot x y) by (apply Z.quot_pos; lia). assert (0 <= x * y) by nia. nia.
  - assert (0 <= Z.quot x (- y)) by (apply Z.quot_pos; lia). rewrite Z.quot_opp_r in H by lia. assert (x * y <= 0) by nia. nia.
  - assert (0 <= Z.quot (- x) y) by (apply Z.quot_pos; lia). rewrite Z.quot_opp_l in H by lia. assert (x * y <= 0) by nia. nia.
  - assert (0 <= Z.quot (- x) (- y)) by (apply Z.quot_pos; lia). rewrite Z.quot_opp_opp in H by lia. assert (0 <= x * y) by nia. nia.
Qed.
Lemma abs_minus : forall u v, u * v <= 0 -> Z.abs (u - v) = Z.abs u + Z.abs v.
Proof. intros u v H. destruct (Z.le_gt_cases 0 u), (Z.le_gt_cases 0 v); try lia; assert (u = 0 \/ v = 0) by nia; lia. Qed.

Lemma sign_same : forall a b c, b <> 0 -> 0 <= a * b -> c * b <= 0 -> a * c <= 0.
Proof. intros a b c H1 H2 H3. destruct (Z.lt_trichotomy b 0) as [B|[B|B]]; [|lia|]; [assert (a <= 0) by nia; assert (0 <= c) by nia|assert (0 <= a) by nia; assert (c <= 0) by nia]; nia. Qed.
Lemma small_step : forall n r s, fst r <> 0 -> small_inv n r s ->
  let q := Z.quot (snd r) (fst r) in small_inv n (egcd_f q r) (egcd_f q s).
Proof.
  intros n [r0 r1] [s0 s1] Hr (H1 & H2 & H3 & H4). cbn [fst snd] in *. unfold small_inv, egcd_f. cbn [fst snd].
  destruct (quot_parts r1 r0 Hr) as (P1 & P2 & P3 & P4). set (q := Z.quot r1 r0) in *. set (r' := r1 - q * r0) in *.
  assert (R1 : r1 <> 0) by lia. assert (N : r0 * r1 <> 0) by nia.
  assert (Sg : s1 * (q * s0) <= 0).
  { replace (s1 * (q * s0)) with (q * (s0 * s1)) by ring. apply (sign_same q (r0 * r1) (s0 * s1)); [exact N|lia|exact H3]. }
  pose proof (abs_minus s1 (q * s0) Sg) as A. rewrite Z.abs_mul in A.
  split; [exact P2|]. split; [rewrite A, <- H2, P1; ring|]. split.
  - assert (X : (s1 - q * s0) * s0 * (r0 * r1) <= 0).
    { replace ((s1 - q * s0) * s0 * (r0 * r1)) with (s0 * s1 * (r0 * r1) - q * (r1 * r0) * (s0 * s0)) by ring.
      assert (0 <= q * (r1 * r0) * (s0 * s0)) by (apply Z.mul_nonneg_nonneg; [exact P3|apply Z.square_nonneg]). lia. }
    assert (Y : 0 <= (r' * r0) * (r0 * r1)) by (replace (r' * r0 * (r0 * r1)) with ((r' * r1) * (r0 * r0)) by ring; apply Z.mul_nonneg_nonneg; [exact P4|apply Z.square_nonneg]).
    rewrite Z.mul_comm. apply (sign_same (r' * r0) (r0 * r1)); [exact N|exact Y|exact X].
  - intros Z0. rewrite Z0 in P1. rewrite A. assert (2 <= Z.abs q) by nia. nia.
Qed.
Lemma small_loop : forall fuel n n' r s t g x y, small_inv n r s -> small_inv n' r t ->
  egcd_loop fuel r s t = Ret (g, x, y) -> 2 * g * Z.abs x <= n /\ 2 * g * Z.abs y <= n'.
Proof.
  induction fuel as [|fuel IH]; intros n n' r s t g x y Hs Ht H; cbn [egcd_loop] in H; [discriminate|].
  destruct (Z.eqb_spec (fst r) 0) as [E|E].
  - destruct Hs as (_ & S2 & _ & S4). destruct Ht as (_ & T2 & _ & T4). specialize (S4 E). specialize (T4 E). rewrite E in S2, T2. change (Z.abs 0) with 0 in *. rewrite Z.mul_0_r, Z.add_0_r in S2, T2.
    destruct (Z.leb_spec 0 (snd r)); injection H as <- <- <-; [rewrite (Z.abs_eq (snd r)) in S2, T2 by lia|rewrite (Z.abs_neq (snd r)) in S2, T2 by lia; replace (Z.abs (0 - snd s)) with (Z.abs (snd s)) by lia; replace (Z.abs (0 - snd t)) with (Z.abs (snd t)) by lia]; split; nia.
  - eapply IH; [apply small_step; [exact E|exact Hs]|apply small_step; [exact E|exact Ht]|exact H].
Qed.
Lemma extended_gcd_least : forall a b g x y, a <> 0 -> b <> 0 -> Z.abs a <> Z.abs b -> extended_gcd a b = Ret (g, x, y) ->
  2 * g * Z.abs x <= Z.abs b /\ 2 * g * Z.abs y <= Z.abs a.
Proof.
  intros a b g x y Ha Hb N H. unfold extended_gcd, egcd_fuel in H. destruct (Z.le_gt_cases (Z.abs a) (Z.abs b)) as [L|L].
  - cbn [egcd_loop fst snd] in H. replace (b =? 0) with false in H by lia.
    assert (Q : Z.quot a b = 0) by (apply Z.abs_0_iff; rewrite <- Z.quot_abs by exact Hb; apply Z.quot_small; lia). rewrite Q in H.
    eapply small_loop; [| |exact H]; unfold small_inv, egcd_f; cbn [fst snd]; rewrite ?Z.mul_0_l, ?Z.sub_0_r; change (Z.abs 1) with 1; change (Z.abs 0) with 0; lia.
  - eapply small_loop; [| |exact H]; unfold small_inv; cbn [fst snd]; change (Z.abs 1) with 1; change (Z.abs 0) with 0; lia.
Qed.
Lemma extended_gcd2_least : forall a b g x y, a <> 0 -> b <> 0 -> Z.abs a <> Z.abs b -> extended_gcd2 a b = Ret (g, [x; y]) ->
  2 * g * Z.abs x <= Z.abs b /\ 2 * g * Z.abs y <= Z.abs a.
Proof.
  intros a b g x y Ha Hb N H. unfold extended_gcd2 in H. destruct (extended_gcd a b) as [[[g' x'] y']| |] eqn:E; try discriminate. injection H as -> -> ->.
  eapply extended_gcd_least; eassumption.
Qed.
(** the cases left out *)
Lemma extended_gcd2_same : forall a b, Z.abs a = Z.abs b -> b <> 0 -> extended_gcd2 a b = Ret (Z.abs b, [0; Z.sgn b]).
Proof.
  intros a b H Hb. unfold extended_gcd2, extended_gcd, egcd_fuel. set (k := Z.to_nat (Z.log2 (Z.abs b) + 1)). assert (k = S (pred k)) as -> by (pose proof (Z.log2_nonneg (Z.abs b)); unfold k; lia).
  replace (2 * S (pred k))%nat with (S (S (2 * pred k))) by lia. cbn [egcd_loop fst snd]. replace (b =? 0) with false by lia.
  assert (Q : a = b /\ Z.quot a b = 1 \/ a = - b /\ Z.quot a b = -1).
  { assert (Z.quot b b = 1) by (apply Z.quot_same; exact Hb). destruct (Z.eq_dec a b) as [->|]; [left; auto|]. assert (a = - b) as -> by lia. right. rewrite Z.quot_opp_l by exact Hb. lia. }
  unfold egcd_f. cbn [fst snd]. destruct Q as [(-> & ->)|(-> & ->)];
  [replace (b - 1 * b) with 0 by ring|replace (- b - -1 * b) with 0 by ring]; cbn [Z.eqb obind];
  destruct (Z.leb_spec 0 b); cbn [obind]; repeat f_equal; lia.
Qed.
Lemma extended_gcd2_zero_left : forall b, b <> 0 -> extended_gcd2 0 b = Ret (Z.abs b, [0; Z.sgn b]).
Proof.
  intros b Hb. unfold extended_gcd2, extended_gcd, egcd_fuel. set (k := Z.to_nat (Z.log2 (Z.abs b) + 1)). assert (k = S (pred k)) as -> by (pose proof (Z.log2_nonneg (Z.abs b)); unfold k; lia).
  replace (2 * S (pred k))%nat with (S (S (2 * pred k))) by lia. cbn [egcd_loop fst snd]. replace (b =? 0) with false by lia.
  rewrite Z.quot_0_l by exact Hb. unfold egcd_f. cbn [fst snd]. replace (0 - 0 * b) with 0 by ring. cbn [Z.eqb obind].
  destruct (Z.leb_spec 0 b); cbn [obind]; repeat f_equal; lia.
Qed.
Lemma extended_gcd2_zero_right : forall a, extended_gcd2 a 0 = Ret (Z.abs a, [if a <? 0 then -1 else 1; 0]).
Proof. intros a. unfold extended_gcd2, extended_gcd, egcd_fuel. cbn [egcd_loop fst snd Z.eqb]. destruct (Z.leb_spec 0 a), (Z.ltb_spec a 0); cbn [obind]; try lia; repeat f_equal; lia. Qed.

Lemma modulo_inverse_between : forall a m x, 0 < m -> modulo_inverse a m = Ret (Some x) -> m <= 2 * x <= 3 * m.
Proof.
  intros a m x Hm H. unfold modulo_inverse in H. destruct (extended_gcd a m) as [[[g u] v]| |] eqn:E; cbn [obind] in H; try discriminate.
  destruct (Z.eqb_spec g 1) as [->|]; [|discriminate]. injection H as <-.
  assert (E2 : extended_gcd2 a m = Ret (1, [u; v])) by (unfold extended_gcd2; rewrite E; reflexivity).
  assert (2 * Z.abs u <= m); [|lia].
  destruct (Z.eq_dec a 0) as [->|Ha]; [rewrite extended_gcd2_zero_left in E2 by lia; injection E2 as _ <- _; lia|].
  destruct (Z.eq_dec (Z.abs a) (Z.abs m)) as [D|D]; [rewrite extended_gcd2_same in E2 by lia; injection E2 as _ <- _; lia|].
  pose proof (extended_gcd_least a m 1 u v Ha ltac:(lia) D E). lia.
Qed.
Lemma modulo_inverse_between2 : forall a m x, 0 < m -> modulo_inverse a m = Ret (Some x) -> 0 < x < 2 * m /\ m <= 2 * x <= 3 * m.
Proof. intros a m x H E. pose proof (modulo_inverse_between a m x H E). lia. Qed.

(** no others are smaller *)
Lemma shifted_least : forall n g x d, 0 < g -> 2 * g * Z.abs x <= n -> g * d <> 0 -> (n | g * d) -> Z.abs x <= Z.abs (x + d).
Proof.
  intros n g x d Hg H N (k & K). assert (n <> 0) by (intros ->; lia). assert (0 < n) by nia. assert (K0 : k <> 0) by (intros ->; lia).
  assert (n <= g * Z.abs d).
  { replace (g * Z.abs d) with (Z.abs (g * d)) by (rewrite Z.abs_mul, (Z.abs_eq g) by lia; reflexivity). rewrite K, Z.abs_mul, (Z.abs_eq n) by lia. nia. }
  assert (2 * Z.abs x <= Z.abs d) by nia. lia.
Qed.
Lemma extended_gcd2_smallest : forall a b g x y x' y', Z.abs a <> Z.abs b -> extended_gcd2 a b = Ret (g, [x; y]) -> a * x' + b * y' = g ->
  Z.abs x <= Z.abs x' /\ Z.abs y <= Z.abs y'.
Proof.
  intros a b g x y x' y' N H E. destruct (Z.eq_dec a 0) as [->|Ha]; [|destruct (Z.eq_dec b 0) as [->|Hb]].
  - rewrite extended_gcd2_zero_left in H by lia. injection H as <- <- <-. split; [lia|]. assert (y' <> 0) by lia. lia.
  - rewrite extended_gcd2_zero_right in H. injection H as <- <- <-. split; [|lia]. assert (x' <> 0) by lia. destruct (a <? 0); lia.
  - pose proof (extended_gcd2_least a b g x y Ha Hb N H) as [B1 B2].
    assert (G : g = Z.gcd a b /\ a * x + b * y = g).
    { unfold extended_gcd2 in H. destruct (extended_gcd_total a b) as (u & v & T & Q). rewrite T in H. injection H as <- <- <-. auto. }
    destruct G as [-> G]. set (g := Z.gcd a b) in *.
    assert (Hg : 0 < g) by (pose proof (Z.gcd_nonneg a b); assert (g <> 0) by (intros X; apply Z.gcd_eq_0 in X; lia); lia).
    (* a (x' - x) = b (y - y'), and g = a x + b y *)
    assert (D : a * (x' - x) + b * (y' - y) = 0) by lia.
    assert (D1 : (Z.abs b | g * (x' - x))) by (apply Z.divide_abs_l; exists (x * (y - y') + y * (x' - x)); rewrite <- G; nia).
    assert (D2 : (Z.abs a | g * (y' - y))) by (apply Z.divide_abs_l; exists (y * (x - x') + x * (y' - y)); rewrite <- G; nia).
    split.
    + destruct (Z.eq_dec x' x) as [->|X]; [lia|]. replace x' with (x + (x' - x)) by lia. apply (shifted_least (Z.abs b) g); [exact Hg|exact B1|nia|exact D1].
    + destruct (Z.eq_dec y' y) as [->|X]; [lia|]. replace y' with (y + (y' - y)) by lia. apply (shifted_least (Z.abs a) g); [exact Hg|exact B2|nia|exact D2].
Qed.

Lemma modulo_division_divisor : forall a b m, b <> 0 -> (b | m) -> Z.abs b <> Z.abs m -> (b | a) -> modulo_division a b m = Ret (Some 0).
Proof.
  intros a b m Hb Hm Ne Ha. destruct (extended_gcd_total b m) as (x & y & E0 & _).
  assert (E : extended_gcd2 b m = Ret (Z.gcd b m, [x; y])) by (unfold extended_gcd2; rewrite E0; reflexivity).
  assert (G : Z.gcd b m = Z.abs b). { apply Z.divide_antisym_nonneg; [apply Z.gcd_nonneg|lia| |].
    - apply Z.divide_abs_r. apply Z.gcd_divide_l.
    - apply Z.gcd_greatest; apply Z.divide_abs_l; [apply Z.divide_refl|exact Hm]. }
  rewrite G in E, E0. pose proof (extended_gcd2_smallest b m _ _ _ (Z.sgn b) 0 Ne E ltac:(lia)) as [_ Y].
  unfold modulo_division. rewrite E0. cbn [obind]. unfold big_rem, big_quot. replace (Z.abs b =? 0) with false by lia. cbn [obind].
  replace (Z.rem a (Z.abs b)) with 0. 2: { symmetry. apply Z.rem_divide; [lia|]. apply Z.divide_abs_l. exact Ha. }
  cbn [Z.eqb obind]. do 2 f_equal. replace y with 0 by lia. lia.
Qed.
Lemma modulo_division_divisor_wrong : forall a b m x, b <> 0 -> (b | m) -> Z.abs b <> Z.abs m -> (b | a) -> ~ (m | a) ->
  modulo_division a b m = Ret (Some x) -> ~ (m | b * x - a).
Proof.
  intros a b m x Hb Hm Ne Ha Na E. rewrite (modulo_division_divisor a b m Hb Hm Ne Ha) in E. injection E as <-. intros [k K]. apply Na. exists (- k). lia.
Qed.
