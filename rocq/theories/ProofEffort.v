(** How much work the number functions do. *)
From Verif Require Import Base NumTypes AlgoBasic AlgoFib AlgoPrime SpecNum ProofFib ProofPrime Effort.
Local Open Scope Z_scope.

(** ** Euclid *)
Lemma rem_half : forall x z, Z.abs z < Z.abs x -> z <> 0 -> 2 * Z.abs (Z.rem x z) < Z.abs x.
Proof.
  intros x z H Hz. rewrite <- Z.rem_abs by exact Hz. pose proof (Z.quot_rem' (Z.abs x) (Z.abs z)) as D.
  pose proof (Z.rem_bound_pos (Z.abs x) (Z.abs z) ltac:(lia) ltac:(lia)) as B.
  assert (1 <= Z.quot (Z.abs x) (Z.abs z)) by (apply Z.quot_le_lower_bound; lia). nia.
Qed.
Lemma egcd_f_rem : forall x y, x <> 0 -> egcd_f (Z.quot y x) (x, y) = (Z.rem y x, x).
Proof. intros x y H. unfold egcd_f. cbn [fst snd]. f_equal. pose proof (Z.quot_rem' y x). lia. Qed.
Lemma divisions_below : forall k fuel x y, Z.abs x < 2 ^ Z.of_nat k -> (egcd_divisions fuel (x, y) <= 2 * k)%nat.
Proof.
  induction k as [|k IH]; intros fuel x y H.
  - change (2 ^ Z.of_nat 0) with 1 in H. destruct fuel; cbn [egcd_divisions]; [lia|]. cbn [fst]. replace (x =? 0) with true by lia. lia.
  - replace (Z.of_nat (S k)) with (Z.succ (Z.of_nat k)) in H by lia. rewrite Z.pow_succ_r in H by lia.
    destruct fuel as [|fuel]; cbn [egcd_divisions]; [lia|]. cbn [fst snd]. destruct (Z.eqb_spec x 0) as [E|E]; [lia|].
    rewrite egcd_f_rem by exact E. destruct fuel as [|fuel]; cbn [egcd_divisions]; [lia|]. cbn [fst snd].
    destruct (Z.eqb_spec (Z.rem y x) 0) as [E2|E2]; [lia|]. rewrite egcd_f_rem by exact E2.
    pose proof (Z.rem_bound_abs y x E) as B. pose proof (rem_half x (Z.rem y x) B E2) as L.
    specialize (IH fuel (Z.rem x (Z.rem y x)) (Z.rem y x) ltac:(lia)). lia.
Qed.
Theorem euclid_below : forall fuel a b, b <> 0 -> Z.of_nat (euclid_divisions fuel a b) <= 2 * Z.log2 (Z.abs b) + 2.
Proof.
  intros fuel a b Hb. unfold euclid_divisions. pose proof (Z.log2_nonneg (Z.abs b)) as L.
  pose proof (Z.log2_spec (Z.abs b) ltac:(lia)) as [_ S].
  pose proof (divisions_below (Z.to_nat (Z.log2 (Z.abs b) + 1)) fuel b a) as D.
  rewrite Z2Nat.id in D by lia. specialize (D S). lia.
Qed.
Theorem euclid_zero : forall fuel a, euclid_divisions fuel a 0 = 0%nat.
Proof. intros [|f] a; reflexivity. Qed.

Theorem euclid_rounds : forall fuel r s t, egcd_loop fuel r s t <> OutOfFuel <-> (egcd_divisions fuel r < fuel)%nat.
Proof.
  induction fuel as [|fuel IH]; intros r s t; cbn [egcd_loop egcd_divisions]; [split; [congruence|lia]|].
  destruct (fst r =? 0); [destruct (0 <=? snd r); split; (lia || discriminate)|]. rewrite IH. lia.
Qed.

Lemma fib_grows : forall k, 0 < fib (S k) /\ fib (S k) <= fib (S (S k)) /\ fib (S (S k)) < fib (S (S (S k))).
Proof.
  induction k as [|k (A & B & C)]; [cbn; lia|]. rewrite (fib_SS (S (S k))) at 1. pose proof (fib_SS (S k)). pose proof (fib_SS (S (S k))). lia.
Qed.
Theorem euclid_worst : forall k fuel, (k + 2 <= fuel)%nat -> euclid_divisions fuel (fib (k + 3)) (fib (k + 2)) = (k + 1)%nat.
Proof.
  unfold euclid_divisions. induction k as [|k IH]; intros fuel H.
  - destruct fuel as [|[|f]]; [lia|lia|]. reflexivity.
  - destruct fuel as [|fuel]; [lia|]. cbn [egcd_divisions]. cbn [fst snd].
    replace (S k + 2)%nat with (S (S (S k))) by lia. replace (S k + 3)%nat with (S (S (S (S k)))) by lia.
    replace (k + 2)%nat with (S (S k)) in IH by lia. replace (k + 3)%nat with (S (S (S k))) in IH by lia.
    pose proof (fib_grows k) as (A & B & C). pose proof (fib_SS (S (S k))) as D. replace (fib (S (S (S k))) =? 0) with false by lia.
    rewrite egcd_f_rem by lia. replace (Z.rem (fib (S (S (S (S k))))) (fib (S (S (S k))))) with (fib (S (S k))).
    + rewrite IH by lia. lia.
    + apply (Z.rem_unique _ _ 1); lia.
Qed.

(** ** Fibonacci *)
Definition level (n k : Z) (j : nat) : Prop := n / 2 ^ Z.of_nat j <= k <= n / 2 ^ Z.of_nat j + 2.
Lemma level_down : forall n k j, 0 <= n -> level n k j -> level n (k / 2) (S j) /\ level n (k / 2 + 1) (S j).
Proof.
  intros n k j Hn [A B]. unfold level. replace (Z.of_nat (S j)) with (Z.of_nat j + 1) by lia. rewrite Z.pow_add_r, Z.pow_1_r by lia.
  rewrite <- Z.div_div by lia. set (q := n / 2 ^ Z.of_nat j) in *.
  pose proof (Z.div_mod q 2). pose proof (Z.mod_pos_bound q 2). pose proof (Z.div_mod k 2). pose proof (Z.mod_pos_bound k 2). lia.
Qed.
Lemma memo_get_in : forall m k, memo_get k m = None <-> ~ In k (map fst m).
Proof.
  induction m as [|[a v] m IH]; intro k; cbn [memo_get map fst In]; [tauto|]. destruct (Z.eqb_spec a k) as [E|E]; [split; [discriminate|tauto]|].
  rewrite IH. tauto.
Qed.
Lemma calls_grow : forall n, 0 <= n -> forall k fuel x m j, 0 <= x -> x - 2 < 2 ^ Z.of_nat k -> (k < fuel)%nat -> memo_ok m -> NoDup (map fst m) -> level n x j ->
  exists new v, memoization fuel x m = Ret (v, new ++ m) /\ fib_calls fuel x m = (1 + 2 * length new)%nat /\
    NoDup (map fst (new ++ m)) /\ Forall (fun p => 3 <= fst p <= x /\ exists i, level n (fst p) i) new.
Proof.
  intros n Hn. induction k as [|k IH]; intros fuel x m j Hx Hlt Hf Hm Nd Lv; (destruct fuel as [|fuel]; [lia|]);
    cbn [memoization fib_calls]; destruct (memo_get x m) as [v|] eqn:E.
  1,3: exists [], v; repeat split; auto.
  { exfalso. change (2 ^ Z.of_nat 0) with 1 in Hlt. apply (proj2 Hm x); auto. lia. }
  assert (H3 : 3 <= x) by (destruct (Z.le_gt_cases 3 x); auto; exfalso; apply (proj2 Hm x); auto; lia).
  replace (Z.of_nat (S k)) with (Z.succ (Z.of_nat k)) in Hlt by lia. rewrite Z.pow_succ_r in Hlt by lia.
  pose proof (Z.div_mod x 2). pose proof (Z.mod_pos_bound x 2).
  destruct (level_down n x j Hn Lv) as [La Lb].
  set (y1 := if Z.even x then x / 2 else x / 2 + 1). set (y2 := if Z.even x then x / 2 + 1 else x / 2).
  assert (Y1 : level n y1 (S j) /\ 0 <= y1 /\ y1 - 2 < 2 ^ Z.of_nat k /\ y1 < x) by (unfold y1; destruct (Z.even x) eqn:Ev; pose proof (Zmod_even x) as Em; rewrite Ev in Em; repeat split; auto; try apply La; try apply Lb; lia).
  assert (Y2 : level n y2 (S j) /\ 0 <= y2 /\ y2 - 2 < 2 ^ Z.of_nat k /\ y2 < x) by (unfold y2; destruct (Z.even x) eqn:Ev; pose proof (Zmod_even x) as Em; rewrite Ev in Em; repeat split; auto; try apply La; try apply Lb; lia).
  destruct Y1 as (L1 & P1 & Q1 & R1), Y2 as (L2 & P2 & Q2 & R2).
  destruct (IH fuel y1 m (S j) P1 Q1 ltac:(lia) Hm Nd L1) as (n1 & v1 & E1 & C1 & N1 & F1).
  destruct (memoization_ok k fuel y1 m P1 Q1 ltac:(lia) Hm) as (m1 & E1' & Hm1).
  rewrite E1 in E1'. injection E1' as V1 <-.
  destruct (IH fuel y2 (n1 ++ m) (S j) P2 Q2 ltac:(lia) Hm1 N1 L2) as (n2 & v2 & E2 & C2 & N2 & F2).
  assert (Fin : forall r, exists v0, Ret (r, memo_insert x r (n2 ++ n1 ++ m)) = Ret (v0, ((x, r) :: n2 ++ n1) ++ m) /\
     S (fib_calls fuel y1 m + match memoization fuel y1 m with Ret (_, m1) => fib_calls fuel y2 m1 | _ => 0%nat end) = (1 + 2 * length ((x, r) :: n2 ++ n1))%nat /\
     NoDup (map fst (((x, r) :: n2 ++ n1) ++ m)) /\ Forall (fun p => 3 <= fst p <= x /\ exists i, level n (fst p) i) ((x, r) :: n2 ++ n1)).
  { intro r. exists r. split; [unfold memo_insert; cbn [app]; rewrite <- app_assoc; reflexivity|]. rewrite E1, C1, C2. cbn [length]. rewrite app_length.
    split; [lia|]. assert (A : Forall (fun p => 3 <= fst p < x /\ exists i, level n (fst p) i) (n2 ++ n1)).
    { apply Forall_app. split; [eapply Forall_impl; [|exact F2]|eapply Forall_impl; [|exact F1]]; cbn; intros p [A1 A2]; (split; [lia|exact A2]). }
    split.
    - cbn [app map fst]. rewrite <- app_assoc. constructor; [|exact N2].
      rewrite app_assoc, map_app, in_app_iff. intros [I|I].
      + apply in_map_iff in I. destruct I as (p & Ep & I). rewrite Forall_forall in A. specialize (A p I). lia.
      + apply memo_get_in in E. exact (E I).
    - constructor; [cbn; split; [lia|eauto]|]. eapply Forall_impl; [|exact A]. cbn. intros p [A1 A2]. split; [lia|exact A2]. }
  unfold y1, y2 in *. destruct (Z.even x) eqn:Ev.
  - rewrite E1 in *. cbn [obind]. rewrite E2. cbn [obind].
    destruct (memoization_ok k fuel _ _ P2 Q2 ltac:(lia) Hm1) as (m2 & E2' & _). rewrite E2 in E2'. injection E2' as V2 _.
    assert (Hle : (v2 * 2 <? v1) = false).
    { subst v1 v2. apply Z.ltb_ge. replace (Z.to_nat (x / 2 + 1)) with (Z.to_nat (x / 2) + 1)%nat by lia.
      destruct (Z.to_nat (x / 2)) as [|i]; [cbn; lia|]. replace (S i + 1)%nat with (S (S i)) by lia. rewrite fib_SS. pose proof (fib_nonneg i). lia. }
    unfold biguint_sub. rewrite Hle. cbn [obind]. destruct (Fin (v1 * (v2 * 2 - v1))) as (v0 & G). exists ((x, v1 * (v2 * 2 - v1)) :: n2 ++ n1), v0. exact G.
  - rewrite E1 in *. cbn [obind]. rewrite E2. cbn [obind]. destruct (Fin (v1 * v1 + v2 * v2)) as (v0 & G). exists ((x, v1 * v1 + v2 * v2) :: n2 ++ n1), v0. exact G.
Qed.

Definition candidates (n : Z) : list Z :=
  flat_map (fun j => [n / 2 ^ Z.of_nat j; n / 2 ^ Z.of_nat j + 1; n / 2 ^ Z.of_nat j + 2]) (seq 0 (Z.to_nat (Z.log2 n) + 1)).
Lemma candidates_length : forall n, length (candidates n) = (3 * (Z.to_nat (Z.log2 n) + 1))%nat.
Proof.
  intro n. unfold candidates. rewrite <- (seq_length (Z.to_nat (Z.log2 n) + 1) 0) at 2. induction (seq 0 _) as [|a l IH]; [reflexivity|].
  cbn [flat_map app length] in *. lia.
Qed.
Lemma level_candidate : forall n k j, 0 < n -> 3 <= k -> level n k j -> In k (candidates n).
Proof.
  intros n k j Hn Hk [A B]. unfold candidates. apply in_flat_map. exists j. split.
  - apply in_seq. split; [lia|]. destruct (le_lt_dec j (Z.to_nat (Z.log2 n))) as [L|L]; [lia|].
    exfalso. pose proof (Z.log2_nonneg n). assert (n < 2 ^ Z.of_nat j) by (apply Z.log2_lt_pow2; lia). rewrite Z.div_small in B by lia. lia.
  - set (q := n / 2 ^ Z.of_nat j) in *. assert (k = q \/ k = q + 1 \/ k = q + 2) as [-> | [-> | ->]] by lia; cbn; tauto.
Qed.
Theorem fibonacci_entries : forall n fuel, 0 < n -> Z.log2 n + 3 <= Z.of_nat fuel -> exists v m,
  memoization fuel n (memo_insert 2 1 (memo_insert 1 1 (memo_insert 0 0 []))) = Ret (v, m) /\ NoDup (map fst m) /\
  Z.of_nat (length m) <= 3 * Z.log2 n + 6 /\ (fibonacci_calls fuel n + 5 = 2 * length m)%nat.
Proof.
  intros n fuel Hn Hf. unfold fibonacci_calls. pose proof (Z.log2_nonneg n) as L. pose proof (Z.log2_spec n Hn) as [_ S].
  destruct (calls_grow n ltac:(lia) (Z.to_nat (Z.log2 n) + 1) fuel n (memo_insert 2 1 (memo_insert 1 1 (memo_insert 0 0 []))) 0) as (new & v & E & C & N & F).
  - lia.
  - rewrite Nat2Z.inj_add, Z2Nat.id by lia. change (Z.of_nat 1) with 1. rewrite <- Z.add_1_r in S. lia.
  - lia.
  - exact memo_init_ok.
  - cbn. repeat constructor; cbn; lia.
  - split; cbn [Z.of_nat]; rewrite Z.pow_0_r, Z.div_1_r; lia.
  - exists v. eexists. split; [exact E|]. split; [exact N|]. rewrite C. rewrite map_app in N. assert (N' : NoDup (map fst new)).
    { clear - N. induction (map fst new) as [|a l IH]; [constructor|]. inversion N as [|? ? H1 H2]; subst. constructor; [|exact (IH H2)]. intro I. apply H1. apply in_or_app. auto. }
    assert (I : incl (map fst new) (candidates n)).
    { intros k I. apply in_map_iff in I. destruct I as (p & <- & I). rewrite Forall_forall in F. destruct (F p I) as [A [i Li]]. apply (level_candidate n _ i Hn); [lia|exact Li]. }
    pose proof (NoDup_incl_length N' I) as B. rewrite map_length, candidates_length in B. rewrite app_length. cbn [length memo_insert]. lia.
Qed.
Theorem fibonacci_cost : forall n fuel, 0 < n -> Z.log2 n + 3 <= Z.of_nat fuel -> Z.of_nat (fibonacci_calls fuel n) <= 6 * Z.log2 n + 7.
Proof. intros n fuel Hn Hf. destruct (fibonacci_entries n fuel Hn Hf) as (v & m & _ & _ & L & C). lia. Qed.

(** ** Sums of primes *)
Theorem inner_stops : forall md p sp p2 v s,
  ps_inner md p sp p2 v s = ps_inner md p sp p2 (firstn (inner_updates p2 v) v) s /\ Forall (fun k => p2 <= k) (firstn (inner_updates p2 v) v).
Proof.
  intros md p sp p2. induction v as [|a v IH]; intro s; cbn [ps_inner inner_updates]; [split; [reflexivity|constructor]|].
  destruct (Z.ltb_spec a p2) as [L|L]; cbn [firstn ps_inner]; [split; [reflexivity|constructor]|].
  destruct (Z.ltb_spec a p2) as [L'|_]; [lia|]. split; [|constructor; [lia|exact (proj2 (IH s))]].
  destruct (s_index s (a / p)); cbn [obind]; try reflexivity. destruct (u64_sub _ _ _); cbn [obind]; try reflexivity.
  destruct (u64_mul _ _ _); cbn [obind]; try reflexivity. destruct (s_index s a); cbn [obind]; try reflexivity.
  destruct (u64_sub _ _ _); cbn [obind]; try reflexivity. apply IH.
Qed.
Definition most (v ps : list Z) : Z := fold_right (fun p t => Z.of_nat (inner_updates (p * p) v) + t) 0 ps.
Lemma outer_most : forall md v ps s, Z.of_nat (outer_updates md v ps s) <= most v ps.
Proof.
  intros md v. induction ps as [|p ps IH]; intro s; cbn [outer_updates most fold_right]; [lia|]. fold (most v ps).
  assert (0 <= most v ps) by (clear; induction ps; cbn; [lia|fold (most v ps); lia]).
  rewrite Nat2Z.inj_add. apply Z.add_le_mono.
  - destruct (s_index s p); [|lia|lia]. destruct (s_index s (p - 1)); [|lia|lia]. destruct (_ <? _); lia.
  - destruct (ps_step md v p s) as [s'| |]; [apply IH|lia|lia].
Qed.
Lemma inner_length : forall p2 v, (inner_updates p2 v <= length v)%nat.
Proof. intros p2. induction v as [|a v IH]; cbn [inner_updates length]; [lia|]. destruct (a <? p2); lia. Qed.
Lemma inner_app : forall p2 v w, (inner_updates p2 (v ++ w) <= inner_updates p2 v + inner_updates p2 w)%nat.
Proof. intros p2 v w. induction v as [|a v IH]; cbn [app inner_updates]; [lia|]. destruct (a <? p2); lia. Qed.
Lemma inner_quotients : forall n p2, 0 < p2 -> 0 <= n -> forall len a, 1 <= a ->
  Z.of_nat (inner_updates p2 (map (fun i => n / i) (zseq a len))) <= Z.max 0 (n / p2 - a + 1).
Proof.
  intros n p2 Hp Hn. induction len as [|len IH]; intros a Ha; cbn [zseq map inner_updates]; [lia|].
  destruct (Z.ltb_spec (n / a) p2) as [L|L]; [lia|].
  assert (a <= n / p2). { apply Z.div_le_lower_bound; [lia|]. pose proof (Z.mul_div_le n a ltac:(lia)). nia. }
  specialize (IH (a + 1) ltac:(lia)). lia.
Qed.
Lemma inner_small : forall p2 len, Z.of_nat (inner_updates p2 (rev (zseq 0 len))) <= Z.max 0 (Z.of_nat len - p2).
Proof.
  intros p2. induction len as [|len IH]; [cbn; lia|].
  assert (E : forall l a, zseq a (S l) = zseq a l ++ [a + Z.of_nat l]).
  { induction l; intros a; [cbn; f_equal; lia|]. cbn [zseq app]. f_equal. specialize (IHl (a + 1)). cbn [zseq] in IHl. rewrite IHl. do 2 f_equal. lia. }
  rewrite E, rev_unit. cbn [inner_updates]. destruct (Z.ltb_spec (0 + Z.of_nat len) p2); lia.
Qed.
Lemma zseq_len : forall n a, length (zseq a n) = n.
Proof. induction n; intro a; cbn; auto. Qed.
Lemma zseq_split : forall m k a, zseq a (m + k) = zseq a m ++ zseq (a + Z.of_nat m) k.
Proof. induction m as [|m IH]; intros k a; cbn [Nat.add zseq app]; [f_equal; lia|]. rewrite IH. do 3 f_equal. lia. Qed.
Lemma most_app : forall v p q, most v (p ++ q) = most v p + most v q.
Proof. intros v p q. induction p as [|a p IH]; cbn [app most fold_right]; [reflexivity|]. fold (most v (p ++ q)). fold (most v p). lia. Qed.
Lemma most_each : forall v c ps, (forall p, In p ps -> Z.of_nat (inner_updates (p * p) v) <= c) -> most v ps <= c * Z.of_nat (length ps).
Proof.
  intros v c ps. induction ps as [|a p IH]; intro H; cbn [most fold_right length]; [lia|]. fold (most v p).
  pose proof (H a (or_introl eq_refl)). specialize (IH (fun p I => H p (or_intror I))). lia.
Qed.
(** 1/p^2 <= 1/(p-1) - 1/p, in whole numbers *)
Lemma quotient_step : forall n p, 0 <= n -> 2 <= p -> n / (p * p) <= n / (p - 1) - n / p.
Proof.
  intros n p Hn Hp. pose proof (Z.mul_div_le n (p * p) ltac:(nia)) as A.
  pose proof (Z.div_mod n (p - 1) ltac:(lia)) as B. pose proof (Z.mod_pos_bound n (p - 1) ltac:(lia)) as B2.
  pose proof (Z.mul_div_le n p ltac:(lia)) as C.
  assert (X : 0 <= n / (p * p)) by (apply Z.div_pos; nia).
  set (x := n / (p * p)) in *. set (y := n / (p - 1)) in *. set (z := n / p) in *.
  assert (D1 : n * p < p * ((p - 1) * (y + 1))) by (rewrite (Z.mul_comm n p); apply (proj1 (Z.mul_lt_mono_pos_l p n ((p - 1) * (y + 1)) ltac:(lia))); lia).
  assert (D2 : (p - 1) * (p * z) <= (p - 1) * n) by (apply Z.mul_le_mono_nonneg_l; lia).
  assert (D3 : x * (p * (p - 1)) <= n) by nia.
  assert (D4 : x * (p * (p - 1)) < (y - z + 1) * (p * (p - 1))) by lia.
  apply Z.mul_lt_mono_pos_r in D4; nia.
Qed.
Lemma most_far : forall n v len a, 0 <= n -> 2 <= a -> (forall p, a <= p -> Z.of_nat (inner_updates (p * p) v) <= n / (p * p) + 1) ->
  most v (zseq a len) <= n / (a - 1) - n / (a - 1 + Z.of_nat len) + Z.of_nat len.
Proof.
  intros n v. induction len as [|len IH]; intros a Hn Ha H; cbn [zseq most fold_right]; [replace (a - 1 + Z.of_nat 0) with (a - 1) by lia; lia|]. fold (most v (zseq (a + 1) len)).
  specialize (IH (a + 1) Hn ltac:(lia) (fun p Hp => H p ltac:(lia))). pose proof (H a ltac:(lia)). pose proof (quotient_step n a Hn Ha).
  replace (a + 1 - 1) with a in IH by lia. replace (a - 1 + Z.of_nat (S len)) with (a + Z.of_nat len) by lia. lia.
Qed.
Section Bound.
  Variable n : Z.
  Hypothesis Hn : 1 <= n.
  Let r := Z.sqrt n.
  Let q := Z.sqrt r.
  Lemma roots : 1 <= r /\ r * r <= n < (r + 1) * (r + 1) /\ 1 <= q /\ q * q <= r < (q + 1) * (q + 1) /\ q <= r /\ r <= n / r <= r + 2.
  Proof.
    pose proof (Z.sqrt_spec n ltac:(lia)) as S1. assert (1 <= r) by (apply Z.sqrt_le_square; lia).
    pose proof (Z.sqrt_spec r ltac:(lia)) as S2. assert (1 <= q) by (apply Z.sqrt_le_square; lia).
    fold r in S1. fold q in S2. cbv zeta in S1, S2.
    assert (r <= n / r) by (apply Z.div_le_lower_bound; lia).
    assert (n / r < r + 3) by (apply Z.div_lt_upper_bound; nia). clearbody r q. repeat split; try lia; nia.
  Qed.
  Lemma keys_are : ps_keys n r = Ret (ps_quotients n r ++ rev (zseq 0 (Z.to_nat (n / r)))).
  Proof. pose proof roots. apply ps_keys_ret; lia. Qed.
  Theorem table_size : forall v, ps_keys n r = Ret v -> Z.of_nat (length v) <= 2 * r + 2.
  Proof.
    intros v E. rewrite keys_are in E. injection E as <-. rewrite app_length, rev_length. unfold ps_quotients. rewrite map_length, !zseq_len. pose proof roots. lia.
  Qed.
  Theorem updates_below : forall md, Z.of_nat (prime_sum_updates md n) < 2 * q * r + n / q.
  Proof.
    intro md. pose proof roots as (R1 & R2 & Q1 & Q2 & QR & LR). assert (NQ : 0 < n / q) by (apply Z.div_str_pos; nia).
    unfold prime_sum_updates. fold r. rewrite keys_are. set (v := ps_quotients n r ++ _).
    destruct (ps_init md v _) as [s| |]; [|change (Z.of_nat 0) with 0; nia|change (Z.of_nat 0) with 0; nia].
    eapply Z.le_lt_trans; [apply outer_most|].
    assert (Near : forall p, Z.of_nat (inner_updates (p * p) v) <= 2 * r + 2).
    { intro p. pose proof (inner_length (p * p) v). pose proof (table_size v keys_are). lia. }
    assert (Far : forall p, q + 1 <= p -> Z.of_nat (inner_updates (p * p) v) <= n / (p * p) + 1).
    { intros p Hp. assert (P : r + 1 <= p * p) by nia. pose proof (inner_app (p * p) (ps_quotients n r) (rev (zseq 0 (Z.to_nat (n / r))))) as A. fold v in A.
      pose proof (inner_quotients n (p * p) ltac:(lia) ltac:(lia) (Z.to_nat r) 1 ltac:(lia)) as B. fold (ps_quotients n r) in B.
      pose proof (inner_small (p * p) (Z.to_nat (n / r))) as C. assert (0 <= n / (p * p)) by (apply Z.div_pos; lia). lia. }
    replace (Z.to_nat (r - 1)) with (Z.to_nat (q - 1) + Z.to_nat (r - q))%nat by lia. rewrite zseq_split, most_app.
    pose proof (most_each v (2 * r + 2) (zseq 2 (Z.to_nat (q - 1))) (fun p _ => Near p)) as A. rewrite zseq_len in A.
    replace (2 + Z.of_nat (Z.to_nat (q - 1))) with (q + 1) by lia.
    pose proof (most_far n v (Z.to_nat (r - q)) (q + 1) ltac:(lia) ltac:(lia) Far) as B.
    replace (q + 1 - 1) with q in B by lia. replace (q + Z.of_nat (Z.to_nat (r - q))) with r in B by lia. rewrite Z2Nat.id in A, B by lia. nia.
  Qed.
End Bound.
Theorem updates_cubed : forall md n, 1 <= n -> exists q, 0 < q /\ q ^ 4 <= n < (q + 1) ^ 4 /\ Z.of_nat (prime_sum_updates md n) < 24 * q ^ 3.
Proof.
  intros md n Hn. pose proof (roots n Hn) as (R1 & R2 & Q1 & Q2 & QR & LR). pose proof (updates_below n Hn md) as U.
  set (r := Z.sqrt n) in *. set (q := Z.sqrt r) in *. exists q.
  replace (q ^ 4) with ((q * q) * (q * q)) by ring. replace (q ^ 3) with (q * (q * q)) by ring. replace ((q + 1) ^ 4) with (((q + 1) * (q + 1)) * ((q + 1) * (q + 1))) by ring.
  set (q2 := q * q) in *. set (q3 := (q + 1) * (q + 1)) in *.
  split; [lia|]. split.
  { split; [apply Z.le_trans with (r * r); [apply Z.mul_le_mono_nonneg; [unfold q2; nia|lia|unfold q2; nia|lia]|lia]|].
    apply Z.lt_le_trans with ((r + 1) * (r + 1)); [lia|]. apply Z.mul_le_mono_nonneg; lia. }
  assert (A : r + 1 <= 4 * q2) by (unfold q2, q3 in *; nia).
  assert (B : n / q <= 16 * (q * q2)). { apply Z.div_le_upper_bound; [lia|]. replace (q * (16 * (q * q2))) with (16 * (q2 * q2)) by (unfold q2; ring).
    assert ((r + 1) * (r + 1) <= (4 * q2) * (4 * q2)) by (apply Z.mul_le_mono_nonneg; lia). lia. }
  assert (C : q * r <= q * (4 * q2)) by (apply Z.mul_le_mono_nonneg_l; lia). lia.
Qed.
