(** Mathematics of the prime-sum sieve, independent of the code. *)
From Coq Require Import ZArith List Bool Lia Znumtheory.
From Verif Require Import SpecNum.
Import ListNotations.
Local Open Scope Z_scope.

(** [surv p i]: i >= 2 and no d in 2..p with d <> i divides i. *)
Definition surv_prop (p i : Z) : Prop := 2 <= i /\ forall d, 2 <= d <= p -> (d | i) -> i = d.

Fixpoint surv_upto (k : nat) (i : Z) : bool :=
  match k with
  | O => 2 <=? i
  | S k' => surv_upto k' i && (negb (i mod (Z.of_nat k + 1) =? 0) || (i =? Z.of_nat k + 1))
  end.
Definition surv (p i : Z) : bool := surv_upto (Z.to_nat (p - 1)) i.

Lemma surv_upto_spec : forall k i, surv_upto k i = true <-> surv_prop (Z.of_nat k + 1) i.
Proof.
  induction k; intros i; cbn [surv_upto].
  - rewrite Z.leb_le. unfold surv_prop. split; [|tauto]. intros H. split; auto. intros d Hd. lia.
  - rewrite andb_true_iff, IHk, orb_true_iff, negb_true_iff, Z.eqb_neq, Z.eqb_eq.
    unfold surv_prop. split.
    + intros [[H1 H2] H3]. split; auto. intros d Hd Hdiv.
      destruct (Z.eq_dec d (Z.of_nat (S k) + 1)) as [->|Hne].
      * destruct H3 as [H3|H3]; auto. exfalso. apply H3. now apply Z.mod_divide; [lia|].
      * apply H2; auto. lia.
    + intros [H1 H2]. split; [split; auto|].
      * intros d Hd. apply H2. lia.
      * destruct (Z.eq_dec (i mod (Z.of_nat (S k) + 1)) 0) as [E|E]; [right|left; auto].
        apply H2; [lia|]. apply Z.mod_divide in E; auto. lia.
Qed.

Lemma surv_spec : forall p i, 1 <= p -> surv p i = true <-> surv_prop p i.
Proof.
  intros p i Hp. unfold surv. rewrite surv_upto_spec. now replace (Z.of_nat (Z.to_nat (p - 1)) + 1) with p by lia.
Qed.

Lemma surv_false : forall p i, 1 <= p -> surv p i = false <-> ~ surv_prop p i.
Proof. intros. rewrite <- surv_spec by auto. now destruct (surv p i). Qed.

Lemma surv_1 : forall i, surv 1 i = (2 <=? i).
Proof. reflexivity. Qed.

Lemma not_prime_small_divisor : forall i, 2 <= i -> ~ prime i ->
  exists d, 2 <= d /\ d * d <= i /\ (d | i).
Proof.
  intros i Hi Hn. destruct (not_prime_divide i) as (d & Hd & [k Hk]); auto; try lia.
  destruct (Z.le_gt_cases (d * d) i) as [H|H].
  - exists d. repeat split; auto; try lia. exists k. auto.
  - exists k. repeat split; try nia. exists d. lia.
Qed.

Lemma surv_prime : forall p i, 1 <= p -> i < (p + 1) * (p + 1) -> (surv_prop p i <-> prime i).
Proof.
  intros p i Hp Hlt. split.
  - intros [H1 H2]. destruct (prime_dec i) as [|Hn]; auto. exfalso.
    destruct (not_prime_small_divisor i H1 Hn) as (d & Hd & Hdd & Hdiv).
    assert (i = d) by (apply H2; auto; nia). nia.
  - intros Hpr. pose proof (prime_ge_2 i Hpr). split; auto.
    intros d Hd Hdiv. apply prime_divisors in Hdiv; auto. lia.
Qed.

(** Sum of the survivors up to v. *)
Definition term (p i : Z) : Z := if surv p i then i else 0.
Fixpoint ssum_nat (p : Z) (m : nat) : Z :=
  match m with
  | O => 0
  | S m' => ssum_nat p m' + term p (Z.of_nat m)
  end.
Definition ssum (p v : Z) : Z := ssum_nat p (Z.to_nat v).

Lemma ssum_0 : forall p, ssum p 0 = 0.
Proof. reflexivity. Qed.

Lemma ssum_succ : forall p v, 0 <= v -> ssum p (v + 1) = ssum p v + term p (v + 1).
Proof.
  intros p v Hv. unfold ssum. replace (Z.to_nat (v + 1)) with (S (Z.to_nat v)) by lia.
  cbn [ssum_nat]. now replace (Z.of_nat (S (Z.to_nat v))) with (v + 1) by lia.
Qed.

Lemma ssum_ind : forall (P : Z -> Prop), P 0 -> (forall v, 0 <= v -> P v -> P (v + 1)) -> forall v, 0 <= v -> P v.
Proof. intros P H0 HS v Hv. apply natlike_ind; auto. Qed.

Lemma term_nonneg : forall p i, 0 <= i -> 0 <= term p i <= i.
Proof. intros. unfold term. destruct (surv p i); lia. Qed.

Lemma ssum_mono : forall p v w, 0 <= v <= w -> ssum p v <= ssum p w.
Proof.
  intros p v w H. replace w with (v + (w - v)) by lia.
  apply (ssum_ind (fun k => ssum p v <= ssum p (v + k))).
  - rewrite Z.add_0_r. lia.
  - intros k Hk IH. rewrite Z.add_assoc, ssum_succ by lia.
    pose proof (term_nonneg p (v + k + 1)). lia.
  - lia.
Qed.

Lemma ssum_nonneg : forall p v, 0 <= v -> 0 <= ssum p v.
Proof. intros. rewrite <- (ssum_0 p). apply ssum_mono. lia. Qed.

(** S(v,1) = v(v+1)/2 - 1 *)
Lemma ssum_1 : forall v, 1 <= v -> 2 * (ssum 1 v + 1) = v * (v + 1).
Proof.
  intros v Hv. replace v with (1 + (v - 1)) by lia.
  apply (ssum_ind (fun k => 2 * (ssum 1 (1 + k) + 1) = (1 + k) * (1 + k + 1))).
  - reflexivity.
  - intros k Hk IH. rewrite Z.add_assoc, ssum_succ by lia.
    unfold term. rewrite surv_1. replace (2 <=? 1 + k + 1) with true by lia. nia.
  - lia.
Qed.

(** Terms with a composite p. *)
Lemma surv_step_composite : forall p i, 2 <= p -> ~ prime p -> surv p i = surv (p - 1) i.
Proof.
  intros p i Hp Hn. apply eq_true_iff_eq. rewrite !surv_spec by lia. split.
  - intros [H1 H2]. split; auto. intros d Hd. apply H2. lia.
  - intros [H1 H2]. split; auto. intros d Hd Hdiv.
    destruct (Z.eq_dec d p) as [->|Hne]; [|apply H2; auto; lia].
    exfalso. destruct (not_prime_small_divisor p Hp Hn) as (q & Hq & Hqq & Hqd).
    assert (i = q). { apply H2; [nia|]. eapply Z.divide_trans; eauto. }
    subst q. assert (i < p) by nia. apply Z.divide_pos_le in Hdiv; lia.
Qed.

Lemma ssum_step_composite : forall p v, 2 <= p -> ~ prime p -> 0 <= v -> ssum p v = ssum (p - 1) v.
Proof.
  intros p v Hp Hn Hv. revert v Hv. apply ssum_ind; auto.
  intros v Hv IH. rewrite !ssum_succ by lia. unfold term. rewrite surv_step_composite by auto. lia.
Qed.

(** Terms with a prime p. *)
Lemma surv_step_nodiv : forall p i, 2 <= p -> ~ (p | i) \/ i = p -> surv p i = surv (p - 1) i.
Proof.
  intros p i Hp Hor. apply eq_true_iff_eq. rewrite !surv_spec by lia. split.
  - intros [H1 H2]. split; auto. intros d Hd. apply H2. lia.
  - intros [H1 H2]. split; auto. intros d Hd Hdiv.
    destruct (Z.eq_dec d p) as [->|Hne]; [tauto|apply H2; auto; lia].
Qed.

Lemma surv_multiple : forall p j, prime p -> 2 <= j ->
  surv p (p * j) = false /\ (surv (p - 1) (p * j) = true <-> p <= j /\ surv (p - 1) j = true).
Proof.
  intros p j Hp Hj. pose proof (prime_ge_2 p Hp) as Hp2. split.
  - apply surv_false; [lia|]. intros [H1 H2].
    assert (p * j = p) by (apply H2; [lia|exists j; ring]). nia.
  - rewrite !surv_spec by lia. split.
    + intros [H1 H2].
      assert (Hno : forall d, 2 <= d <= p - 1 -> ~ (d | j)).
      { intros d Hd Hdiv. assert (p * j = d) by (apply H2; auto; apply Z.divide_mul_r; auto). nia. }
      assert (p <= j).
      { destruct (Z.le_gt_cases p j); auto. exfalso. apply (Hno j); [lia|]. apply Z.divide_refl. }
      split; auto. split; auto. intros d Hd Hdiv. exfalso. eapply Hno; eauto.
    + intros [Hle [H1 H2]]. split; [nia|]. intros d Hd Hdiv. exfalso.
      assert (Hr : rel_prime d p).
      { apply rel_prime_sym. apply prime_rel_prime; auto. intros Hpd. apply Z.divide_pos_le in Hpd; lia. }
      apply Gauss in Hdiv; auto. assert (j = d) by (apply H2; auto). lia.
Qed.

(** Sum of the survivors of level p-1 that lie in p..j. *)
Definition hterm (p j : Z) : Z := if (p <=? j) then term (p - 1) j else 0.
Fixpoint hsum_nat (p : Z) (m : nat) : Z :=
  match m with
  | O => 0
  | S m' => hsum_nat p m' + hterm p (Z.of_nat m)
  end.
Definition hsum (p v : Z) : Z := hsum_nat p (Z.to_nat v).

Lemma hsum_succ : forall p v, 0 <= v -> hsum p (v + 1) = hsum p v + hterm p (v + 1).
Proof.
  intros p v Hv. unfold hsum. replace (Z.to_nat (v + 1)) with (S (Z.to_nat v)) by lia.
  cbn [hsum_nat]. now replace (Z.of_nat (S (Z.to_nat v))) with (v + 1) by lia.
Qed.

Lemma hsum_small : forall p v, 0 <= v -> v < p -> hsum p v = 0.
Proof.
  intros p v Hv. revert v Hv. apply (ssum_ind (fun v => v < p -> hsum p v = 0)); [reflexivity|].
  intros v Hv IH Hlt. rewrite hsum_succ by lia. rewrite IH by lia. unfold hterm.
  replace (p <=? v + 1) with false by lia. lia.
Qed.

Lemma hsum_big : forall p v, 1 <= p -> p - 1 <= v -> hsum p v = ssum (p - 1) v - ssum (p - 1) (p - 1).
Proof.
  intros p v Hp Hv. replace v with (p - 1 + (v - (p - 1))) by lia.
  apply (ssum_ind (fun k => hsum p (p - 1 + k) = ssum (p - 1) (p - 1 + k) - ssum (p - 1) (p - 1))).
  - rewrite Z.add_0_r. rewrite hsum_small by lia. lia.
  - intros k Hk IH. rewrite Z.add_assoc, hsum_succ, ssum_succ by lia. rewrite IH.
    unfold hterm. replace (p <=? p - 1 + k + 1) with true by lia. lia.
  - lia.
Qed.

Lemma div_succ_cases : forall p v, 0 < p -> 0 <= v ->
  ((p | v + 1) /\ (v + 1) / p = v / p + 1 /\ v + 1 = p * (v / p + 1)) \/
  (~ (p | v + 1) /\ (v + 1) / p = v / p).
Proof.
  intros p v Hp Hv. destruct (Zdivide_dec p (v + 1)) as [D|D].
  - left. split; auto. destruct D as [k Hk].
    assert (E1 : (v + 1) / p = k) by (rewrite Hk; apply Z.div_mul; lia).
    assert (E2 : v / p = k - 1).
    { symmetry. apply Z.div_unique with (r := p - 1); lia. }
    lia.
  - right. split; auto.
    assert ((v + 1) mod p <> 0) by (intros E; apply D; apply Z.mod_divide; auto; lia).
    pose proof (Z.div_mod (v + 1) p). pose proof (Z.mod_pos_bound (v + 1) p).
    apply Z.div_unique with (r := (v + 1) mod p - 1); lia.
Qed.

Lemma ssum_step_gen : forall p v, prime p -> 0 <= v -> ssum (p - 1) v - ssum p v = p * hsum p (v / p).
Proof.
  intros p v Hp Hv. pose proof (prime_ge_2 p Hp). revert v Hv. apply ssum_ind.
  - rewrite Z.div_0_l by lia. cbn. lia.
  - intros v Hv IH. rewrite !ssum_succ by lia.
    destruct (div_succ_cases p v) as [(D & E1 & E2)|(D & E1)]; try lia; rewrite E1.
    + assert (Hd : 0 <= v / p) by (apply Z.div_pos; lia).
      rewrite hsum_succ by auto.
      destruct (Z.eq_dec (v / p) 0) as [E0|E0].
      * rewrite E0 in *. replace (v + 1) with p by lia. unfold term.
        rewrite (surv_step_nodiv p p) by (auto; lia). unfold hterm. replace (p <=? 0 + 1) with false by lia.
        replace (0 + 1) with 1 in * by lia. lia.
      * destruct (surv_multiple p (v / p + 1) Hp ltac:(lia)) as [S1 S2].
        rewrite E2. unfold hterm, term. rewrite S1.
        destruct (surv (p - 1) (p * (v / p + 1))) eqn:Es.
        -- destruct S2 as [S2 _]. destruct (S2 eq_refl) as [Hle Hs]. rewrite Hs.
           replace (p <=? v / p + 1) with true by lia. nia.
        -- destruct (Z.leb_spec p (v / p + 1)) as [Hle|Hle]; [|nia].
           destruct (surv (p - 1) (v / p + 1)) eqn:Es2; [|nia].
           destruct S2 as [_ S2]. assert (false = true) by (apply S2; auto). discriminate.
    + unfold term. rewrite (surv_step_nodiv p (v + 1)) by (auto; lia). lia.
Qed.

(** The recurrence used by the program. *)
Lemma ssum_step : forall p v, prime p -> p * p <= v ->
  ssum p v = ssum (p - 1) v - p * (ssum (p - 1) (v / p) - ssum (p - 1) (p - 1)).
Proof.
  intros p v Hp Hv. pose proof (prime_ge_2 p Hp).
  assert (p <= v / p) by (apply Z.div_le_lower_bound; lia).
  pose proof (ssum_step_gen p v Hp ltac:(nia)). rewrite hsum_big in * by lia. lia.
Qed.

Lemma ssum_step_small : forall p v, prime p -> 0 <= v < p * p -> ssum p v = ssum (p - 1) v.
Proof.
  intros p v Hp Hv. pose proof (prime_ge_2 p Hp).
  assert (v / p < p) by (apply Z.div_lt_upper_bound; lia).
  assert (0 <= v / p) by (apply Z.div_pos; lia).
  pose proof (ssum_step_gen p v Hp ltac:(lia)). rewrite hsum_small in * by lia. lia.
Qed.

(** Deciding primality of p from level p-1. *)
Lemma ssum_prime_test : forall p, 2 <= p ->
  (ssum (p - 1) (p - 1) < ssum (p - 1) p <-> prime p).
Proof.
  intros p Hp. replace (ssum (p - 1) p) with (ssum (p - 1) (p - 1 + 1)) by (f_equal; lia).
  rewrite ssum_succ by lia. replace (p - 1 + 1) with p by lia.
  rewrite <- (surv_prime (p - 1) p) by nia. rewrite <- surv_spec by lia.
  unfold term. destruct (surv (p - 1) p).
  - split; auto. lia.
  - split; [lia|discriminate].
Qed.

(** Levels only decrease the sum. *)
Lemma ssum_level_le : forall p v, 2 <= p -> 0 <= v -> ssum p v <= ssum (p - 1) v.
Proof.
  intros p v Hp Hv. destruct (prime_dec p) as [H|H].
  - pose proof (ssum_step_gen p v H Hv).
    assert (0 <= hsum p (v / p)).
    { destruct (Z.le_gt_cases (p - 1) (v / p)).
      - rewrite hsum_big by lia. pose proof (ssum_mono (p - 1) (p - 1) (v / p)). lia.
      - rewrite hsum_small; try lia. apply Z.div_pos; lia. }
    nia.
  - rewrite ssum_step_composite; auto. lia.
Qed.

Lemma ssum_le_1 : forall p v, 1 <= p -> 0 <= v -> ssum p v <= ssum 1 v.
Proof.
  intros p v Hp Hv. replace p with (1 + (p - 1)) by lia.
  apply (ssum_ind (fun k => ssum (1 + k) v <= ssum 1 v)).
  - rewrite Z.add_0_r. lia.
  - intros k Hk IH. pose proof (ssum_level_le (1 + (k + 1)) v ltac:(lia) Hv).
    replace (1 + (k + 1) - 1) with (1 + k) in * by lia. lia.
  - lia.
Qed.

(** At level r with n < (r+1)^2 the survivors are the primes. *)
Lemma ssum_final : forall r n, 1 <= r -> 0 <= n < (r + 1) * (r + 1) -> ssum r n = sum_of_primes n.
Proof.
  intros r n Hr [Hn Hlt]. unfold sum_of_primes, ssum.
  assert (H : forall m, Z.of_nat m < (r + 1) * (r + 1) -> ssum_nat r m = prime_sum_upto m).
  { induction m; intros Hm; [reflexivity|]. cbn [ssum_nat prime_sum_upto].
    rewrite IHm by lia. f_equal. unfold term.
    pose proof (surv_prime r (Z.of_nat (S m)) Hr Hm) as Hs. rewrite <- surv_spec in Hs by auto.
    destruct (prime_dec (Z.of_nat (S m))) as [Hp|Hp], (surv r (Z.of_nat (S m))); auto.
    - destruct Hs as [_ Hs]. specialize (Hs Hp). discriminate.
    - exfalso. apply Hp. apply Hs. auto. }
  apply H. lia.
Qed.
