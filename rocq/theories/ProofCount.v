(** A counting sieve, proved correct, used only to check the rows of
    [prime_count_table] against the definition of primality. *)
From Verif Require Import Base NumTypes AlgoPrime SpecNum ProofSieve ProofPrime.
From Coq Require Import Znumtheory FMapPositive Sorted.
Local Open Scope Z_scope.

Definition cterm (p i : Z) : Z := if surv p i then 1 else 0.
Fixpoint csum_nat (p : Z) (m : nat) : Z :=
  match m with
  | O => 0
  | S m' => csum_nat p m' + cterm p (Z.of_nat m)
  end.
Definition csum (p v : Z) : Z := csum_nat p (Z.to_nat v).

Lemma csum_succ : forall p v, 0 <= v -> csum p (v + 1) = csum p v + cterm p (v + 1).
Proof.
  intros p v Hv. unfold csum. replace (Z.to_nat (v + 1)) with (S (Z.to_nat v)) by lia.
  cbn [csum_nat]. now replace (Z.of_nat (S (Z.to_nat v))) with (v + 1) by lia.
Qed.

Lemma csum_1 : forall v, 1 <= v -> csum 1 v = v - 1.
Proof.
  intros v Hv. replace v with (1 + (v - 1)) by lia.
  apply (ssum_ind (fun k => csum 1 (1 + k) = 1 + k - 1)).
  - reflexivity.
  - intros k Hk IH. rewrite Z.add_assoc, csum_succ by lia.
    unfold cterm. rewrite surv_1. replace (2 <=? 1 + k + 1) with true by lia. lia.
  - lia.
Qed.

Lemma csum_step_composite : forall p v, 2 <= p -> ~ prime p -> 0 <= v -> csum p v = csum (p - 1) v.
Proof.
  intros p v Hp Hn Hv. revert v Hv. apply ssum_ind; auto.
  intros v Hv IH. rewrite !csum_succ by lia. unfold cterm. rewrite surv_step_composite by auto. lia.
Qed.

Definition chterm (p j : Z) : Z := if (p <=? j) then cterm (p - 1) j else 0.
Fixpoint chsum_nat (p : Z) (m : nat) : Z :=
  match m with
  | O => 0
  | S m' => chsum_nat p m' + chterm p (Z.of_nat m)
  end.
Definition chsum (p v : Z) : Z := chsum_nat p (Z.to_nat v).

Lemma chsum_succ : forall p v, 0 <= v -> chsum p (v + 1) = chsum p v + chterm p (v + 1).
Proof.
  intros p v Hv. unfold chsum. replace (Z.to_nat (v + 1)) with (S (Z.to_nat v)) by lia.
  cbn [chsum_nat]. now replace (Z.of_nat (S (Z.to_nat v))) with (v + 1) by lia.
Qed.

Lemma chsum_small : forall p v, 0 <= v -> v < p -> chsum p v = 0.
Proof.
  intros p v Hv. revert v Hv. apply (ssum_ind (fun v => v < p -> chsum p v = 0)); [reflexivity|].
  intros v Hv IH Hlt. rewrite chsum_succ by lia. rewrite IH by lia. unfold chterm.
  replace (p <=? v + 1) with false by lia. lia.
Qed.

Lemma chsum_big : forall p v, 1 <= p -> p - 1 <= v -> chsum p v = csum (p - 1) v - csum (p - 1) (p - 1).
Proof.
  intros p v Hp Hv. replace v with (p - 1 + (v - (p - 1))) by lia.
  apply (ssum_ind (fun k => chsum p (p - 1 + k) = csum (p - 1) (p - 1 + k) - csum (p - 1) (p - 1))).
  - rewrite Z.add_0_r. rewrite chsum_small by lia. lia.
  - intros k Hk IH. rewrite Z.add_assoc, chsum_succ, csum_succ by lia. rewrite IH.
    unfold chterm. replace (p <=? p - 1 + k + 1) with true by lia. lia.
  - lia.
Qed.

Lemma csum_step_gen : forall p v, prime p -> 0 <= v -> csum (p - 1) v - csum p v = chsum p (v / p).
Proof.
  intros p v Hp Hv. pose proof (prime_ge_2 p Hp). revert v Hv. apply ssum_ind.
  - rewrite Z.div_0_l by lia. reflexivity.
  - intros v Hv IH. rewrite !csum_succ by lia.
    destruct (div_succ_cases p v) as [(D & E1 & E2)|(D & E1)]; try lia; rewrite E1.
    + assert (Hd : 0 <= v / p) by (apply Z.div_pos; lia).
      rewrite chsum_succ by auto.
      destruct (Z.eq_dec (v / p) 0) as [E0|E0].
      * rewrite E0 in *. replace (v + 1) with p by lia. unfold cterm.
        rewrite (surv_step_nodiv p p) by (auto; lia). unfold chterm. replace (p <=? 0 + 1) with false by lia.
        lia.
      * destruct (surv_multiple p (v / p + 1) Hp ltac:(lia)) as [S1 S2].
        rewrite E2. unfold chterm, cterm. rewrite S1.
        destruct (surv (p - 1) (p * (v / p + 1))) eqn:Es.
        -- destruct S2 as [S2 _]. destruct (S2 eq_refl) as [Hle Hs]. rewrite Hs.
           replace (p <=? v / p + 1) with true by lia. lia.
        -- destruct (Z.leb_spec p (v / p + 1)) as [Hle|Hle]; [|lia].
           destruct (surv (p - 1) (v / p + 1)) eqn:Es2; [|lia].
           destruct S2 as [_ S2]. assert (false = true) by (apply S2; auto). discriminate.
    + unfold cterm. rewrite (surv_step_nodiv p (v + 1)) by (auto; lia). lia.
Qed.

Lemma csum_step : forall p v, prime p -> p * p <= v ->
  csum p v = csum (p - 1) v - (csum (p - 1) (v / p) - csum (p - 1) (p - 1)).
Proof.
  intros p v Hp Hv. pose proof (prime_ge_2 p Hp).
  assert (p <= v / p) by (apply Z.div_le_lower_bound; lia).
  pose proof (csum_step_gen p v Hp ltac:(nia)). rewrite chsum_big in * by lia. lia.
Qed.

Lemma csum_step_small : forall p v, prime p -> 0 <= v < p * p -> csum p v = csum (p - 1) v.
Proof.
  intros p v Hp Hv. pose proof (prime_ge_2 p Hp).
  assert (v / p < p) by (apply Z.div_lt_upper_bound; lia).
  assert (0 <= v / p) by (apply Z.div_pos; lia).
  pose proof (csum_step_gen p v Hp ltac:(lia)). rewrite chsum_small in * by lia. lia.
Qed.

Lemma csum_prime_test : forall p, 2 <= p ->
  (csum (p - 1) (p - 1) < csum (p - 1) p <-> prime p).
Proof.
  intros p Hp. replace (csum (p - 1) p) with (csum (p - 1) (p - 1 + 1)) by (f_equal; lia).
  rewrite csum_succ by lia. replace (p - 1 + 1) with p by lia.
  rewrite <- (surv_prime (p - 1) p) by nia. rewrite <- surv_spec by lia.
  unfold cterm. destruct (surv (p - 1) p).
  - split; auto. lia.
  - split; [lia|discriminate].
Qed.

Lemma csum_final : forall r n, 1 <= r -> 0 <= n < (r + 1) * (r + 1) -> csum r n = number_of_primes n.
Proof.
  intros r n Hr [Hn Hlt]. unfold number_of_primes, csum.
  assert (H : forall m, Z.of_nat m < (r + 1) * (r + 1) -> csum_nat r m = prime_count_upto m).
  { induction m; intros Hm; [reflexivity|]. cbn [csum_nat prime_count_upto].
    rewrite IHm by lia. f_equal. unfold cterm.
    pose proof (surv_prime r (Z.of_nat (S m)) Hr Hm) as Hs. rewrite <- surv_spec in Hs by auto.
    destruct (prime_dec (Z.of_nat (S m))) as [Hp|Hp], (surv r (Z.of_nat (S m))); auto.
    - destruct Hs as [_ Hs]. specialize (Hs Hp). discriminate.
    - exfalso. apply Hp. apply Hs. auto. }
  apply H. lia.
Qed.

(** The checker itself. *)
Fixpoint cs_init (v : list Z) (s : smap) : smap :=
  match v with
  | [] => s
  | i :: v' => cs_init v' (s_set s i (i - 1))
  end.

Definition s_get0 (s : smap) (k : Z) : Z := match s_get s k with Some x => x | None => 0 end.

Fixpoint cs_inner (p sp p2 : Z) (v : list Z) (s : smap) : smap :=
  match v with
  | [] => s
  | ve :: v' =>
      if ve <? p2 then s
      else cs_inner p sp p2 v' (s_set s ve (s_get0 s ve - (s_get0 s (ve / p) - sp)))
  end.

Fixpoint cs_outer (v ps : list Z) (s : smap) : smap :=
  match ps with
  | [] => s
  | p :: ps' =>
      let sp := s_get0 s (p - 1) in
      cs_outer v ps' (if sp <? s_get0 s p then cs_inner p sp (p * p) v s else s)
  end.

Definition count_primes (n : Z) : Z :=
  let r := Z.sqrt n in
  let v := ps_quotients n r ++ rev (zseq 0 (Z.to_nat (n / r))) in
  s_get0 (cs_outer v (zseq 2 (Z.to_nat (r - 1))) (cs_init v (PositiveMap.empty Z))) n.

Section Sieve.
  Variables n r : Z.
  Hypothesis Hr : 1 <= r.
  Hypothesis Hrr : r * r <= n.
  Hypothesis Hnr : n < (r + 1) * (r + 1).

  Definition cinv (p : Z) (s : smap) : Prop :=
    forall k, keyset n r k -> 1 <= k -> s_get0 s k = csum p k.

  Lemma s_get0_same : forall s k v, s_get0 (s_set s k v) k = v.
  Proof. intros. unfold s_get0. now rewrite s_get_set_same. Qed.
  Lemma s_get0_other : forall s k k' v, 0 <= k -> 0 <= k' -> k <> k' -> s_get0 (s_set s k v) k' = s_get0 s k'.
  Proof. intros. unfold s_get0. now rewrite s_get_set_other. Qed.

  Lemma cs_init_ok : forall v s, (forall k, In k v -> 0 <= k) ->
    forall k, 1 <= k -> (In k v \/ s_get0 s k = csum 1 k) -> s_get0 (cs_init v s) k = csum 1 k.
  Proof.
    induction v as [|i v IH]; intros s Hv k Hk Hor; cbn [cs_init].
    - destruct Hor as [[]|]; auto.
    - apply IH; auto. { intros j Hj. apply Hv. now right. }
      destruct (Z.eq_dec i k) as [->|Hne].
      + right. rewrite s_get0_same, csum_1; lia.
      + destruct Hor as [[->|Hin]|Hh]; [congruence|left; auto|right].
        rewrite s_get0_other; auto; try lia. apply Hv. now left.
  Qed.

  Lemma cs_inner_ok : forall p v s, prime p -> 2 <= p <= r ->
    StronglySorted Z.gt v ->
    (forall k, In k v -> keyset n r k) ->
    (forall k j, In k v -> keyset n r j -> j <= k -> In j v) ->
    (forall k, keyset n r k -> 1 <= k -> ~ In k v -> s_get0 s k = csum p k) ->
    (forall k, In k v -> 1 <= k -> s_get0 s k = csum (p - 1) k) ->
    cinv p (cs_inner p (csum (p - 1) (p - 1)) (p * p) v s).
  Proof.
    intros p v. induction v as [|ve v IH]; intros s Hpr Hp Hsort Hkeys Hclosed Hdone Htodo; cbn [cs_inner].
    - intros k Hk Hk1. apply Hdone; auto.
    - destruct (Z.ltb_spec ve (p * p)) as [Hlt|Hge].
      + intros k Hk Hk1.
        destruct (in_dec Z.eq_dec k (ve :: v)) as [Hin|Hnin]; [|auto].
        rewrite Htodo by auto. symmetry. apply csum_step_small; auto.
        split; [lia|]. destruct Hin as [<-|Hin]; auto.
        inversion Hsort as [|? ? _ Hf]; subst. rewrite Forall_forall in Hf.
        specialize (Hf k Hin). lia.
      + assert (Hve : keyset n r ve) by (apply Hkeys; now left).
        pose proof (keyset_range n r Hr Hrr Hnr ve Hve) as Hrange.
        assert (Hkp : p <= ve / p) by (apply Z.div_le_lower_bound; lia).
        assert (Hkp2 : ve / p < ve) by (apply Z.div_lt; nia).
        inversion Hsort as [|? ? Hsort' Hf]; subst. rewrite Forall_forall in Hf.
        assert (Hlow : s_get0 s (ve / p) = csum (p - 1) (ve / p)).
        { apply Htodo; [|lia]. apply Hclosed with (k := ve); [now left| |lia].
          apply keyset_div; auto. lia. }
        rewrite Hlow, (Htodo ve (or_introl eq_refl) ltac:(nia)).
        rewrite <- csum_step by (auto; lia).
        apply IH; auto.
        * intros k Hk. apply Hkeys. now right.
        * intros k j Hk Hj Hjk. pose proof (Hf k Hk).
          destruct (Hclosed k j (or_intror Hk) Hj Hjk) as [<-|Hin]; [lia|auto].
        * intros k Hk Hk1 Hnin. destruct (Z.eq_dec ve k) as [<-|Hne].
          -- apply s_get0_same.
          -- rewrite s_get0_other; auto; try lia. apply Hdone; auto. intros [|]; auto.
        * intros k Hk Hk1. pose proof (Hf k Hk). rewrite s_get0_other; auto; try lia. apply Htodo; auto. now right.
  Qed.

  Variable v : list Z.
  Hypothesis Hsorted : StronglySorted Z.gt v.
  Hypothesis Hv : forall k, In k v <-> keyset n r k.

  Lemma cs_outer_ok : forall l p s, 2 <= p -> p + Z.of_nat l = r + 1 -> cinv (p - 1) s ->
    cinv r (cs_outer v (zseq p l) s).
  Proof.
    induction l; intros p s Hp Hl Hinv; cbn [zseq cs_outer].
    - now replace r with (p - 1) by lia.
    - apply IHl; try lia. replace (p + 1 - 1) with p by lia.
      rewrite (Hinv p), (Hinv (p - 1)); try lia; try (apply keyset_small; auto; lia).
      pose proof (csum_prime_test p ltac:(lia)) as Ht.
      destruct (Z.ltb_spec (csum (p - 1) (p - 1)) (csum (p - 1) p)) as [Hlt|Hge].
      + assert (Hpr : prime p) by (apply Ht; auto).
        apply cs_inner_ok; auto; try lia.
        * intros k. apply Hv.
        * intros k j _ Hj _. now apply Hv.
        * intros k Hk _ Hn. exfalso. apply Hn, Hv; auto.
        * intros k Hk. apply Hinv. apply Hv; auto.
      + intros k Hk Hk1. rewrite Hinv by auto. symmetry.
        apply csum_step_composite; try lia. intros Hpr. apply Ht in Hpr. lia.
  Qed.
End Sieve.

Lemma count_primes_ok : forall n, 1 <= n -> count_primes n = number_of_primes n.
Proof.
  intros n Hn. unfold count_primes.
  destruct (sqrt_bounds n ltac:(lia)) as (Hr1 & Hr2 & Hr3). set (r := Z.sqrt n) in *.
  rewrite <- (csum_final r) by lia.
  apply (cs_outer_ok n r Hr1 Hr2 Hr3); try lia.
  - apply keys_sorted; auto.
  - intros k. apply in_keys; auto.
  - intros k Hk Hk1. change (2 - 1) with 1. apply cs_init_ok; auto.
    + intros j Hj. apply in_keys in Hj; auto. apply keyset_range in Hj; auto. lia.
    + left. apply in_keys; auto.
  - apply keyset_n; auto.
Qed.
