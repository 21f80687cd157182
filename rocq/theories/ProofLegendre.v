(** Sums and numbers of primes up to a bound, computed by the recursion of
    [ProofSieve] from a table of small values; proved correct, used only to check the
    rows of the constant tables. *)
From Verif Require Import Base SpecNum ProofSieve ProofCount.
From Coq Require Import Znumtheory FMapPositive.
Local Open Scope Z_scope.

(** ** numbers without a divisor in 2..7, by residues modulo 420 *)
Definition free (r : Z) : bool := negb ((r mod 2 =? 0) || (r mod 3 =? 0) || (r mod 5 =? 0) || (r mod 7 =? 0)).
Fixpoint residues (n : nat) (r s c : Z) (t : PositiveMap.t (Z * Z)) : PositiveMap.t (Z * Z) :=
  match n with
  | O => t
  | S n' => let '(s', c') := if free r then (s + r, c + 1) else (s, c) in
            residues n' (r + 1) s' c' (PositiveMap.add (Z.to_pos (r + 1)) (s', c') t)
  end.
Definition wheel : PositiveMap.t (Z * Z) := Eval vm_compute in residues 420 0 0 0 (PositiveMap.empty _).
Definition wheel_at (v : Z) : Z * Z :=
  let '(q, r) := Z.div_eucl v 420 in
  match PositiveMap.find (Z.to_pos (r + 1)) wheel with
  | Some (s, c) => (20160 * (q * (q - 1)) + q * 20160 + 420 * (q * c) + s + 16, 96 * q + c + 3)
  | None => (0, 0)
  end.

(** ** the small values *)
Section Small.
  Variable M : Z.
  Fixpoint mark (n : nat) (p i : positive) (m : PositiveMap.t unit) : PositiveMap.t unit :=
    match n with
    | O => m
    | S n' => mark n' p (i + p) (match PositiveMap.find i m with Some _ => m | None => PositiveMap.add i tt m end)
    end.
  Definition marks (ds : list Z) : PositiveMap.t unit :=
    fold_left (fun m d => mark (Z.to_nat (M / d - 1)) (Z.to_pos d) (Z.to_pos (2 * d)) m) ds (PositiveMap.empty _).

  Fixpoint totals (m : PositiveMap.t unit) (n : nat) (i s c : Z) (t : PositiveMap.t (Z * Z)) : PositiveMap.t (Z * Z) :=
    match n with
    | O => t
    | S n' =>
        let '(s', c') := match PositiveMap.find (Z.to_pos i) m with Some _ => (s, c) | None => (s + i, c + 1) end in
        if s' <? 0 then t else if c' <? 0 then t else
        let t' := PositiveMap.add (Z.to_pos i) (s', c') t in
        match PositiveMap.find (Z.to_pos i) t' with Some _ => totals m n' (i + 1) s' c' t' | None => t end
    end.
End Small.

Definition small_primes : list Z := [2;3;5;7;11;13;17;19;23;29;31;37;41;43;47;53;59;61;67;71;73;79;83;89;97;101;103;107;109;113;127;131;137;139;149;151;157;163;167;173;179;181;191;193;197;199;211;223;227;229;233;239;241;251;257;263;269;271;277;281;283;293;307;311;313].

Section Recursion.
  Variable M : Z.
  Variable t : PositiveMap.t (Z * Z).
  Definition small (v : Z) : Z * Z := match PositiveMap.find (Z.to_pos v) t with Some x => x | None => (0, 0) end.

  (** primes with their squares and the totals below them *)
  Record prime_entry := mkEntry { pr : Z; sq : Z; below_sum : Z; below_count : Z }.
  Variable ps : list prime_entry.

  Fixpoint sieved (n : nat) (v q : Z) {struct n} : Z * Z :=
    match n with
    | O => (0, 0)
    | S n' =>
        (fix loop (l : list prime_entry) (s c : Z) {struct l} : Z * Z :=
           match l with
           | [] => (s, c)
           | e :: l' =>
               if pr e <? q then
                 if sq e <=? v then
                   let w := v / pr e in
                   let '(s1, c1) := if w <? sq e then if w <=? M then small w else sieved n' w (pr e) else sieved n' w (pr e) in
                   let s' := s - pr e * (s1 - below_sum e) in
                   let c' := c - (c1 - below_count e) in
                   if s' <? 0 then (0, 0) else if c' <? 0 then (0, 0) else loop l' s' c'
                 else (s, c)
               else (s, c)
           end) ps (fst (wheel_at v)) (snd (wheel_at v))
    end.
End Recursion.

Fixpoint entries (t : PositiveMap.t (Z * Z)) (n : nat) (i : Z) : list prime_entry :=
  match n with
  | O => []
  | S n' => let '(s0, c0) := small t (i - 1) in let '(s1, c1) := small t i in
            if c0 <? c1 then mkEntry i (i * i) s0 c0 :: entries t n' (i + 1) else entries t n' (i + 1)
  end.


(** ** proofs *)
Lemma surv7 : forall i, 7 < i -> surv 7 i = free (i mod 420).
Proof.
  intros i Hi. unfold surv, free. change (Z.to_nat (7 - 1)) with 6%nat. cbn [surv_upto].
  repeat match goal with |- context [Z.of_nat ?n + 1] => let v := eval vm_compute in (Z.of_nat n + 1) in change (Z.of_nat n + 1) with v end.
  rewrite !(proj2 (Z.eqb_neq i _)) by lia. rewrite !orb_false_r. rewrite (proj2 (Z.leb_le 2 i)) by lia.
  assert (D : forall d, (d | 420) -> 0 < d -> (i mod 420) mod d = i mod d) by (intros d A B; symmetry; apply Zmod_div_mod; [exact B|lia|exact A]).
  rewrite !D by (try (apply Zdivide_intro with (q := 210); reflexivity); try (apply Zdivide_intro with (q := 140); reflexivity); try (apply Zdivide_intro with (q := 84); reflexivity); try (apply Zdivide_intro with (q := 60); reflexivity); lia).
  assert (A4 : i mod 4 =? 0 = true -> i mod 2 =? 0 = true).
  { intros H. apply Z.eqb_eq in H. apply Z.eqb_eq. apply Z.mod_divide in H; [|lia]. apply Z.mod_divide; [lia|]. eapply Z.divide_trans; [|exact H]. exists 2. reflexivity. }
  assert (A6 : i mod 6 =? 0 = true -> i mod 2 =? 0 = true).
  { intros H. apply Z.eqb_eq in H. apply Z.eqb_eq. apply Z.mod_divide in H; [|lia]. apply Z.mod_divide; [lia|]. eapply Z.divide_trans; [|exact H]. exists 3. reflexivity. }
  destruct (i mod 2 =? 0), (i mod 3 =? 0), (i mod 4 =? 0), (i mod 5 =? 0), (i mod 6 =? 0), (i mod 7 =? 0); try reflexivity; try (specialize (A4 eq_refl); discriminate); try (specialize (A6 eq_refl); discriminate).
Qed.

Definition wheel_get (r : Z) : Z * Z := match PositiveMap.find (Z.to_pos (r + 1)) wheel with Some x => x | None => (0, 0) end.
Definition wheel_present (r : Z) : bool := match PositiveMap.find (Z.to_pos (r + 1)) wheel with Some _ => true | None => false end.
Fixpoint all_below (n : nat) (P : Z -> bool) : bool := match n with O => true | S n' => P (Z.of_nat n') && all_below n' P end.
Lemma all_below_spec : forall n P, all_below n P = true -> forall r, 0 <= r < Z.of_nat n -> P r = true.
Proof.
  induction n as [|n IH]; intros P H r Hr; [lia|]. cbn [all_below] in H. apply andb_prop in H as [H1 H2].
  destruct (Z.eq_dec r (Z.of_nat n)) as [->|]; [exact H1|]. apply IH; [exact H2|lia].
Qed.
Lemma wheel_all : forall r, 0 <= r < 420 -> wheel_present r = true.
Proof. apply (all_below_spec 420). vm_compute. reflexivity. Qed.
Lemma wheel_next : forall r, 0 <= r < 419 -> wheel_get (r + 1) = (fst (wheel_get r) + (if free (r + 1) then r + 1 else 0), snd (wheel_get r) + (if free (r + 1) then 1 else 0)).
Proof.
  intros r Hr. set (P := fun r => let a := wheel_get (r + 1) in let b := wheel_get r in (fst a =? fst b + (if free (r + 1) then r + 1 else 0)) && (snd a =? snd b + (if free (r + 1) then 1 else 0))).
  assert (H : P r = true) by (apply (all_below_spec 419); [vm_compute; reflexivity|exact Hr]).
  unfold P in H. cbv zeta in H. apply andb_prop in H as [H1 H2]. apply Z.eqb_eq in H1, H2. rewrite <- H1, <- H2. destruct (wheel_get (r + 1)); reflexivity.
Qed.
Lemma wheel_at_eq : forall v, 0 <= v -> wheel_at v = (20160 * (v / 420 * (v / 420 - 1)) + v / 420 * 20160 + 420 * (v / 420 * snd (wheel_get (v mod 420))) + fst (wheel_get (v mod 420)) + 16, 96 * (v / 420) + snd (wheel_get (v mod 420)) + 3).
Proof.
  intros v Hv. unfold wheel_at, wheel_get. pose proof (wheel_all (v mod 420) (Z.mod_pos_bound v 420 eq_refl)) as H. unfold wheel_present in H.
  unfold Z.div, Z.modulo in *. destruct (Z.div_eucl v 420) as [q r]. destruct (PositiveMap.find _ wheel) as [[s c]|]; [reflexivity|discriminate].
Qed.
Lemma wheel_step : forall v, 7 <= v -> wheel_at (v + 1) = (fst (wheel_at v) + (if surv 7 (v + 1) then v + 1 else 0), snd (wheel_at v) + (if surv 7 (v + 1) then 1 else 0)).
Proof.
  intros v Hv. rewrite surv7 by lia. rewrite !wheel_at_eq by lia. cbn [fst snd].
  pose proof (Z.mod_pos_bound v 420 eq_refl) as B. pose proof (Z.div_mod v 420 ltac:(lia)) as E. set (q := v / 420) in *. set (r := v mod 420) in *.
  destruct (Z.eq_dec r 419) as [R|R].
  - assert (Q : (v + 1) / 420 = q + 1) by (symmetry; apply (Z.div_unique _ _ _ 0); lia). assert (Q' : (v + 1) mod 420 = 0) by (symmetry; apply (Z.mod_unique _ _ (q + 1)); lia).
    rewrite Q, Q', R. change (free 0) with false. change (wheel_get 0) with (0, 0). change (wheel_get 419) with (20160, 96). cbn [fst snd]. f_equal; ring.
  - assert (Q : (v + 1) / 420 = q) by (symmetry; apply (Z.div_unique _ _ _ (r + 1)); lia). assert (Q' : (v + 1) mod 420 = r + 1) by (symmetry; apply (Z.mod_unique _ _ q); lia).
    rewrite Q, Q', wheel_next by lia. cbn [fst snd]. destruct (free (r + 1)); f_equal; lia.
Qed.
Lemma wheel_ok : forall v, 7 <= v -> wheel_at v = (ssum 7 v, csum 7 v).
Proof.
  intros v Hv. replace v with (7 + (v - 7)) by lia. apply (ssum_ind (fun k => wheel_at (7 + k) = (ssum 7 (7 + k), csum 7 (7 + k)))); [|intros k Hk IH|lia].
  - vm_compute. reflexivity.
  - rewrite Z.add_assoc, wheel_step, ssum_succ, csum_succ, IH by lia. reflexivity.
Qed.

(** *** marks *)
Lemma find_add : forall A i j (x : A) m, PositiveMap.find j (PositiveMap.add i x m) = if Pos.eq_dec i j then Some x else PositiveMap.find j m.
Proof. intros. destruct (Pos.eq_dec i j) as [->|N]; [apply PositiveMap.gss|apply PositiveMap.gso; congruence]. Qed.
Lemma mark_spec : forall n p i m j, PositiveMap.find j (mark n p i m) <> None <-> PositiveMap.find j m <> None \/ exists k, 0 <= k < Z.of_nat n /\ Zpos j = Zpos i + k * Zpos p.
Proof.
  induction n as [|n IH]; intros p i m j; cbn [mark].
  - split; [auto|]. intros [H|(k & K & _)]; [exact H|lia].
  - rewrite IH. assert (X : PositiveMap.find j match PositiveMap.find i m with Some _ => m | None => PositiveMap.add i tt m end <> None <-> PositiveMap.find j m <> None \/ j = i).
    { destruct (PositiveMap.find i m) as [u|] eqn:E.
      - split; [auto|]. intros [H| ->]; [exact H|congruence].
      - rewrite find_add. destruct (Pos.eq_dec i j) as [->|N]; [split; [auto|discriminate]|]. split; [auto|]. intros [H|H]; [exact H|congruence]. }
    rewrite X. split.
    + intros [[H|H]|(k & K & E)]; [auto| |].
      * right. exists 0. subst j. split; lia.
      * right. exists (k + 1). split; [lia|]. rewrite E, Pos2Z.inj_add. ring.
    + intros [H|(k & K & E)]; [auto|]. destruct (Z.eq_dec k 0) as [->|N].
      * left. right. assert (Zpos j = Zpos i) by lia. congruence.
      * right. exists (k - 1). split; [lia|]. rewrite E, Pos2Z.inj_add. ring.
Qed.
Lemma marks_spec : forall M ds j, Forall (fun d => 2 <= d <= M) ds ->
  PositiveMap.find j (marks M ds) <> None <-> exists d k, In d ds /\ 2 <= k <= M / d /\ Zpos j = d * k.
Proof.
  intros M ds j. unfold marks.
  assert (G : forall m, Forall (fun d => 2 <= d <= M) ds ->
    PositiveMap.find j (fold_left (fun m d => mark (Z.to_nat (M / d - 1)) (Z.to_pos d) (Z.to_pos (2 * d)) m) ds m) <> None <->
    PositiveMap.find j m <> None \/ exists d k, In d ds /\ 2 <= k <= M / d /\ Zpos j = d * k).
  { induction ds as [|d ds IH]; intros m H; cbn [fold_left].
    - split; [auto|]. intros [X|(d & k & [] & _)]; exact X.
    - inversion H as [|? ? D H']; subst. rewrite IH by exact H'. rewrite mark_spec. rewrite !Z2Pos.id by lia.
      assert (Q : 1 <= M / d) by (apply Z.div_le_lower_bound; lia). split.
      + intros [[X|(k & K & E)]|(d' & k & I & K & E)]; [auto| |].
        * right. exists d, (k + 2). split; [left; reflexivity|]. split; [lia|]. rewrite E. ring.
        * right. exists d', k. split; [right; exact I|auto].
      + intros [X|(d' & k & [<-|I] & K & E)]; [auto| |].
        * left. right. exists (k - 2). split; [lia|]. rewrite E. ring.
        * right. eauto. }
  intros H. rewrite G by exact H. split; [|auto]. intros [X|X]; [|exact X]. rewrite PositiveMap.gempty in X. congruence.
Qed.
Definition covers (ds : list Z) (n : nat) : bool := all_below n (fun d => (d <? 2) || existsb (fun p => d mod p =? 0) ds).
Lemma marks_prime : forall M ds n i, Forall (fun d => 2 <= d <= M) ds -> covers ds n = true -> M < Z.of_nat n * Z.of_nat n ->
  2 <= i <= M -> PositiveMap.find (Z.to_pos i) (marks M ds) = None <-> prime i.
Proof.
  intros M ds n i D C L I. assert (X := marks_spec M ds (Z.to_pos i) D). rewrite Z2Pos.id in X by lia.
  assert (Y : prime i <-> ~ exists d k, In d ds /\ 2 <= k <= M / d /\ i = d * k).
  { split.
    - intros P (d & k & Id & K & E). rewrite Forall_forall in D. specialize (D d Id). assert (Dv : (d | i)) by (exists k; rewrite E; ring). pose proof (prime_divisors i P d Dv). nia.
    - intros N. destruct (prime_dec i) as [P|P]; [exact P|]. exfalso. apply N. destruct (not_prime_small_divisor i ltac:(lia) P) as (d & D2 & DD & Dv).
      assert (B : (d <? 2) || existsb (fun p => d mod p =? 0) ds = true) by (apply (all_below_spec n (fun d => (d <? 2) || existsb (fun p => d mod p =? 0) ds) C); nia).
      rewrite (proj2 (Z.ltb_ge d 2)) in B by lia. cbn [orb] in B. apply existsb_exists in B as (p & Ip & Ep). apply Z.eqb_eq in Ep.
      pose proof (proj1 (Forall_forall _ _) D p Ip) as Bp. cbv beta in Bp. apply Z.mod_divide in Ep; [|lia]. destruct Ep as [x Ex]. destruct Dv as [y Ey].
      exists p, (y * x). split; [exact Ip|]. assert (E : i = p * (y * x)) by (subst d; rewrite Ey; ring). split; [|exact E].
      assert (X1 : 1 <= x) by (destruct (Z_le_gt_dec 1 x); [assumption|nia]). assert (X2 : d <= y) by (apply (Z.mul_le_mono_pos_r _ _ d); lia). split; [nia|]. apply Z.div_le_lower_bound; lia. }
  rewrite Y, <- X. split; [intros H H'; congruence|]. intros H. destruct (PositiveMap.find _ _); [elim H; discriminate|reflexivity].
Qed.

Lemma sum_succ : forall i, 1 <= i -> sum_of_primes i = sum_of_primes (i - 1) + (if prime_dec i then i else 0).
Proof.
  intros i Hi. unfold sum_of_primes. replace (Z.to_nat i) with (S (Z.to_nat (i - 1))) by lia. cbn [prime_sum_upto]. replace (Z.of_nat (S (Z.to_nat (i - 1)))) with i by lia. reflexivity.
Qed.
Lemma count_succ : forall i, 1 <= i -> number_of_primes i = number_of_primes (i - 1) + (if prime_dec i then 1 else 0).
Proof.
  intros i Hi. unfold number_of_primes. replace (Z.to_nat i) with (S (Z.to_nat (i - 1))) by lia. cbn [prime_count_upto]. replace (Z.of_nat (S (Z.to_nat (i - 1)))) with i by lia. reflexivity.
Qed.
Lemma count_nonneg : forall i, 0 <= number_of_primes i.
Proof. intros i. unfold number_of_primes. generalize (Z.to_nat i). intros m. induction m as [|m IH]; [cbn; lia|]. cbn [prime_count_upto]. destruct (prime_dec _); lia. Qed.
Lemma sum_nonneg : forall i, 0 <= sum_of_primes i.
Proof. intros i. unfold sum_of_primes. generalize (Z.to_nat i). intros m. induction m as [|m IH]; [cbn; lia|]. cbn [prime_sum_upto]. destruct (prime_dec _); lia. Qed.

Definition right_to (t : PositiveMap.t (Z * Z)) (n : Z) : Prop := forall j, 1 <= j <= n -> small t j = (sum_of_primes j, number_of_primes j).
Lemma totals_spec : forall m M n i s c t, (forall j, 2 <= j <= M -> PositiveMap.find (Z.to_pos j) m = None <-> prime j) ->
  2 <= i -> i + Z.of_nat n - 1 <= M -> s = sum_of_primes (i - 1) -> c = number_of_primes (i - 1) -> right_to t (i - 1) -> right_to (totals m n i s c t) (i + Z.of_nat n - 1).
Proof.
  intros m M. induction n as [|n IH]; intros i s c t Hm Hi Hn Hs Hc Ht; cbn [totals]; [replace (i + Z.of_nat 0 - 1) with (i - 1) by lia; exact Ht|].
  assert (E : (match PositiveMap.find (Z.to_pos i) m with Some _ => (s, c) | None => (s + i, c + 1) end) = (sum_of_primes i, number_of_primes i)).
  { rewrite sum_succ, count_succ by lia. subst s c. pose proof (Hm i ltac:(lia)) as X. destruct (PositiveMap.find (Z.to_pos i) m), (prime_dec i) as [P|P]; try reflexivity.
    - apply X in P. discriminate.
    - f_equal; ring.
    - elim P. apply X. reflexivity. }
  rewrite E. rewrite (proj2 (Z.ltb_ge _ 0) (sum_nonneg i)), (proj2 (Z.ltb_ge _ 0) (count_nonneg i)), PositiveMap.gss.
  replace (i + Z.of_nat (S n) - 1) with ((i + 1) + Z.of_nat n - 1) by lia. apply IH; try assumption; try lia; [f_equal; lia|f_equal; lia|].
  intros j Hj. unfold small. rewrite find_add. destruct (Pos.eq_dec (Z.to_pos i) (Z.to_pos j)) as [Q|Q].
  - apply Z2Pos.inj in Q; [subst; reflexivity|lia|lia].
  - apply Ht. destruct (Z.eq_dec i j) as [->|]; [congruence|lia].
Qed.

(** *** lists of primes *)
Inductive chain (hi : Z) : Z -> list prime_entry -> Prop :=
| chain_nil : forall lo, (forall j, lo <= j < hi -> ~ prime j) -> chain hi lo []
| chain_cons : forall lo p l, lo <= p < hi -> prime p -> (forall j, lo <= j < p -> ~ prime j) -> chain hi (p + 1) l ->
    chain hi lo (mkEntry p (p * p) (sum_of_primes (p - 1)) (number_of_primes (p - 1)) :: l).
Lemma chain_lower : forall hi lo l, chain hi (lo + 1) l -> ~ prime lo -> chain hi lo l.
Proof.
  intros hi lo l H N. assert (X : forall j, lo <= j -> lo = j \/ lo + 1 <= j) by lia. inversion H as [? A|? p l' A B C D]; subst; constructor; try assumption; try lia;
    intros j Hj; destruct (X j ltac:(lia)) as [<-|]; auto; [apply A|apply C]; lia.
Qed.
Lemma entries_spec : forall t n i, 2 <= i -> right_to t (i + Z.of_nat n - 1) -> chain (i + Z.of_nat n) i (entries t n i).
Proof.
  intros t. induction n as [|n IH]; intros i Hi Ht; cbn [entries]; [constructor; intros; lia|].
  rewrite (Ht (i - 1)), (Ht i) by lia. replace (i + Z.of_nat (S n)) with (i + 1 + Z.of_nat n) in * by lia.
  assert (R : right_to t (i + 1 + Z.of_nat n - 1)) by exact Ht. specialize (IH (i + 1) ltac:(lia) R).
  rewrite (count_succ i) by lia. destruct (prime_dec i) as [P|P].
  - rewrite (proj2 (Z.ltb_lt _ _)) by lia. constructor; [lia|exact P|intros; lia|exact IH].
  - rewrite (proj2 (Z.ltb_ge _ _)) by lia. apply chain_lower; assumption.
Qed.

(** *** the recursion *)
Lemma ssum_const : forall a b v, 1 <= a -> a <= b -> 0 <= v -> (forall j, a < j <= b -> ~ prime j) -> ssum a v = ssum b v /\ csum a v = csum b v.
Proof.
  intros a b v Ha Hab Hv H. replace b with (a + (b - a)) in * by lia. revert H. apply (ssum_ind (fun k => (forall j, a < j <= a + k -> ~ prime j) -> ssum a v = ssum (a + k) v /\ csum a v = csum (a + k) v)); [|intros k Hk IH H|lia].
  - rewrite Z.add_0_r. auto.
  - destruct IH as [-> ->]; [intros; apply H; lia|]. assert (N : ~ prime (a + (k + 1))) by (apply H; lia).
    rewrite (ssum_step_composite (a + (k + 1))), (csum_step_composite (a + (k + 1))) by (assumption || lia). replace (a + (k + 1) - 1) with (a + k) by lia. auto.
Qed.
Lemma csum_nonneg : forall p v, 0 <= csum p v.
Proof. intros p v. unfold csum. generalize (Z.to_nat v). intros m. induction m as [|m IH]; [cbn; lia|]. cbn [csum_nat]. unfold cterm. destruct (surv _ _); lia. Qed.
Definition both (p v : Z) : Z * Z := (ssum p v, csum p v).
Lemma both_final : forall r n, 1 <= r -> 0 <= n < (r + 1) * (r + 1) -> both r n = (sum_of_primes n, number_of_primes n).
Proof. intros r n H1 H2. unfold both. rewrite ssum_final, csum_final by assumption. reflexivity. Qed.


Lemma sieved_spec : forall M t ps hi, right_to t M -> chain hi 11 ps -> 11 <= hi ->
  forall n v q, 11 <= q -> 11 <= v < 11 ^ Z.of_nat n -> v < hi * hi -> sieved M t ps n v q = both (q - 1) v.
Proof.
  intros M t ps hi Ht Hps Hhi. induction n as [|n IH]; intros v q Hq Hv Hh; [cbn in Hv; lia|]. cbn [sieved].
  rewrite wheel_ok by lia. cbn [fst snd].
  assert (E : both 7 v = both (11 - 1) v).
  { unfold both. destruct (ssum_const 7 (11 - 1) v) as [-> ->]; try lia; [|reflexivity]. intros j Hj P.
    assert (j = 8 \/ j = 9 \/ j = 10) as [->|[->| ->]] by lia.
    - destruct (prime_divisors 8 P 2 (ex_intro _ 4 eq_refl)) as [X|[X|[X|X]]]; lia.
    - destruct (prime_divisors 9 P 3 (ex_intro _ 3 eq_refl)) as [X|[X|[X|X]]]; lia.
    - destruct (prime_divisors 10 P 2 (ex_intro _ 5 eq_refl)) as [X|[X|[X|X]]]; lia. }
  unfold both in E. injection E as -> ->.
  match goal with |- ?f ps _ _ = _ => set (loop := f) end.
  assert (L : forall lo l, chain hi lo l -> 11 <= lo <= q -> lo <= hi -> loop l (ssum (lo - 1) v) (csum (lo - 1) v) = both (q - 1) v);
    [|apply (L 11 ps Hps); lia].
  assert (K : forall a b, 1 <= a <= b -> (forall j, a < j <= b -> ~ prime j) -> both a v = both b v).
  { intros a b Hab Hj. unfold both. destruct (ssum_const a b v) as [-> ->]; try lia; auto. }
  intros lo l H. induction H as [lo A|lo p l A B C D IHl]; intros Hlo Hlh.
  - change ((ssum (lo - 1) v, csum (lo - 1) v) = both (q - 1) v). fold (both (lo - 1) v).
    destruct (Z_le_gt_dec q hi).
    + apply K; [lia|]. intros; apply A; lia.
    + rewrite (K (lo - 1) (hi - 1)) by (try lia; intros; apply A; lia). rewrite !both_final by nia. reflexivity.
  - assert (P : both (lo - 1) v = both (p - 1) v) by (apply K; [lia|]; intros; apply C; lia).
    unfold both in P. injection P as -> ->.
    unfold loop; fold loop. cbn [pr sq below_sum below_count].
    destruct (Z.ltb_spec p q) as [Q|Q].
    + destruct (Z.leb_spec (p * p) v) as [S|S].
      * assert (W : p <= v / p) by (apply Z.div_le_lower_bound; lia).
        assert (W' : v / p < 11 ^ Z.of_nat n).
        { apply Z.div_lt_upper_bound; [lia|]. rewrite Nat2Z.inj_succ, Z.pow_succ_r in Hv by lia. assert (0 <= 11 ^ Z.of_nat n) by (apply Z.pow_nonneg; lia). nia. }
        assert (W2 : v / p <= v) by (apply Z.div_le_upper_bound; nia).
        assert (R : (if v / p <? p * p then if v / p <=? M then small t (v / p) else sieved M t ps n (v / p) p else sieved M t ps n (v / p) p) = both (p - 1) (v / p)).
        { assert (Z1 : sieved M t ps n (v / p) p = both (p - 1) (v / p)) by (apply IH; lia).
          destruct (Z.ltb_spec (v / p) (p * p)) as [S1|S1]; [|exact Z1]. destruct (Z.leb_spec (v / p) M) as [S2|S2]; [|exact Z1].
          rewrite Ht by lia. symmetry. apply both_final; nia. }
        rewrite R. unfold both at 1. rewrite <- (ssum_final (p - 1) (p - 1)), <- (csum_final (p - 1) (p - 1)) by nia.
        rewrite <- (ssum_step p v), <- (csum_step p v) by assumption.
        rewrite (proj2 (Z.ltb_ge _ 0)) by (apply ssum_nonneg; lia). rewrite (proj2 (Z.ltb_ge _ 0)) by apply csum_nonneg.
        specialize (IHl ltac:(lia) ltac:(lia)). replace (p + 1 - 1) with p in IHl by lia. exact IHl.
      * fold (both (p - 1) v). rewrite !both_final by nia. reflexivity.
    + fold (both (p - 1) v). symmetry. apply K; [lia|]. intros j Hj. apply C; lia.
Qed.

Definition limit : Z := 100000.
Definition table : PositiveMap.t (Z * Z) := totals (marks limit small_primes) (Z.to_nat (limit - 1)) 2 0 0 (PositiveMap.add 1%positive (0, 0) (PositiveMap.empty _)).

Lemma table_right : right_to table limit.
Proof.
  unfold table. replace limit with (2 + Z.of_nat (Z.to_nat (limit - 1)) - 1) at 3 by (unfold limit; lia).
  apply (totals_spec _ limit).
  - intros j Hj. apply (marks_prime limit small_primes 317 j); [|vm_compute; reflexivity|unfold limit; lia|exact Hj].
    unfold limit. apply Forall_forall. intros d. apply (proj1 (Forall_forall (fun d => 2 <= d <= 100000) small_primes)). unfold small_primes. repeat (constructor; [lia|]). constructor.
  - lia.
  - unfold limit. lia.
  - reflexivity.
  - reflexivity.
  - intros j Hj. assert (j = 1) by lia. subst. reflexivity.
Qed.

(** sum and number of the primes up to each of a list of bounds *)
Definition odd_primes (t : PositiveMap.t (Z * Z)) : list prime_entry := entries t (Z.to_nat 31613) 11.
Definition primes_to_all (ns : list Z) : list (Z * Z) :=
  let t := table in
  let ps := odd_primes t in
  map (fun n => if n <=? limit then small t n else sieved limit t ps 12 n 31624) ns.
Lemma primes_to_right : forall ns, Forall (fun n => 1 <= n <= 1000000000) ns ->
  primes_to_all ns = map (fun n => (sum_of_primes n, number_of_primes n)) ns.
Proof.
  intros ns H. unfold primes_to_all. cbv zeta. apply map_ext_in. intros n Hn. apply (proj1 (Forall_forall _ _) H) in Hn. cbv beta in Hn.
  destruct (Z.leb_spec n limit) as [L|L]; [apply table_right; lia|].
  assert (C : chain 31624 11 (odd_primes table)).
  { change 31624 with (11 + 31613). rewrite <- (Z2Nat.id 31613) by lia. apply entries_spec; [lia|]. intros j Hj. apply table_right. rewrite Z2Nat.id in Hj by lia. unfold limit. lia. }
  unfold limit in L. rewrite (sieved_spec limit table (odd_primes table) 31624 table_right C); try lia.
  - apply both_final; lia.
Qed.
