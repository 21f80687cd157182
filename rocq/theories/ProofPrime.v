(** Correctness of [prime_sum_u64]. *)
From Verif Require Import Base AlgoError NumTypes AlgoPrime SpecNum ProofSieve.
From Coq Require Import Znumtheory FMapPositive Sorted.
Local Open Scope Z_scope.

(** ** Maps and machine arithmetic *)

Lemma skey_inj : forall a b, 0 <= a -> 0 <= b -> skey a = skey b -> a = b.
Proof. intros a b Ha Hb H. unfold skey in H. lia. Qed.

Lemma s_get_set_same : forall s k v, s_get (s_set s k v) k = Some v.
Proof. intros. unfold s_get, s_set. apply PositiveMap.gss. Qed.

Lemma s_get_set_other : forall s k k' v, 0 <= k -> 0 <= k' -> k <> k' ->
  s_get (s_set s k v) k' = s_get s k'.
Proof.
  intros. unfold s_get, s_set. apply PositiveMap.gso. intros E. apply skey_inj in E; auto.
Qed.

Lemma u64_wrap_ret : forall md x, md = Wrapping \/ 0 <= x < 2 ^ 64 ->
  u64_wrap md x = Ret (x mod 2 ^ 64).
Proof.
  intros md x H. unfold u64_wrap. change two64 with (2 ^ 64).
  destruct (Z.leb_spec 0 x), (Z.ltb_spec x (2 ^ 64)); cbn [andb];
    try (rewrite Z.mod_small by lia; reflexivity);
    destruct H as [->|H]; try reflexivity; lia.
Qed.

Lemma u64_wrap_overflow : forall x, 2 ^ 64 <= x -> u64_wrap Checked x = Panic POverflow.
Proof.
  intros x H. unfold u64_wrap. change two64 with (2 ^ 64). replace (x <? 2 ^ 64) with false by lia. now rewrite andb_false_r.
Qed.

(** ** The key vector *)

Lemma in_zseq : forall l a x, In x (zseq a l) <-> a <= x < a + Z.of_nat l.
Proof.
  induction l; intros a x; cbn [zseq In].
  - lia.
  - rewrite IHl. lia.
Qed.

Definition keyset (n r k : Z) : Prop := (exists i, 1 <= i <= r /\ k = n / i) \/ 0 <= k <= n / r.

Section Keys.
  Variables n r : Z.
  Hypothesis Hr : 1 <= r.
  Hypothesis Hrr : r * r <= n.
  Hypothesis Hnr : n < (r + 1) * (r + 1).

  Lemma quotients_last : exists v, ps_quotients n r = v ++ [n / r].
  Proof.
    unfold ps_quotients. replace (Z.to_nat r) with (S (Z.to_nat (r - 1))) by lia.
    assert (E : forall l a, zseq a (S l) = zseq a l ++ [a + Z.of_nat l]).
    { induction l; intros a; [cbn; f_equal; lia|]. cbn [zseq app]. f_equal.
      specialize (IHl (a + 1)). cbn [zseq] in IHl. rewrite IHl. do 2 f_equal. lia. }
    rewrite E, map_app. cbn [map]. eexists. do 2 f_equal. f_equal. lia.
  Qed.

  Lemma ps_keys_ret : ps_keys n r = Ret (ps_quotients n r ++ rev (zseq 0 (Z.to_nat (n / r)))).
  Proof.
    unfold ps_keys. destruct quotients_last as [v E]. rewrite E at 1. now rewrite rev_unit.
  Qed.

  Lemma n_div_r : r <= n / r.
  Proof. apply Z.div_le_lower_bound; lia. Qed.

  Lemma in_keys : forall k, In k (ps_quotients n r ++ rev (zseq 0 (Z.to_nat (n / r)))) <-> keyset n r k.
  Proof.
    intros k. rewrite in_app_iff, <- in_rev, in_zseq. unfold ps_quotients. rewrite in_map_iff.
    pose proof n_div_r. unfold keyset. split.
    - intros [[i [E Hi]]|H0]; [left|right; lia]. apply in_zseq in Hi. exists i. split; [lia|auto].
    - intros [[i [Hi E]]|H0].
      + left. exists i. split; auto. apply in_zseq. lia.
      + destruct (Z.eq_dec k (n / r)) as [->|Hne]; [left|right; lia].
        exists r. split; auto. apply in_zseq. lia.
  Qed.

  Lemma keyset_n : keyset n r n.
  Proof. left. exists 1. split; [lia|]. now rewrite Z.div_1_r. Qed.

  Lemma keyset_range : forall k, keyset n r k -> 0 <= k <= n.
  Proof.
    intros k [[i [Hi ->]]|H].
    - split; [apply Z.div_pos; nia|]. apply Z.div_le_upper_bound; nia.
    - assert (n / r <= n) by (apply Z.div_le_upper_bound; nia). lia.
  Qed.

  Lemma keyset_div : forall k p, 1 <= p -> keyset n r k -> keyset n r (k / p).
  Proof.
    intros k p Hp [[i [Hi ->]]|H].
    - rewrite Z.div_div by lia. destruct (Z.le_gt_cases (i * p) r) as [Hle|Hgt].
      + left. exists (i * p). split; [nia|auto].
      + right. split; [apply Z.div_pos; nia|]. apply Z.div_le_compat_l; nia.
    - right. split; [apply Z.div_pos; lia|].
      assert (k / p <= k) by (apply Z.div_le_upper_bound; nia). lia.
  Qed.

  Lemma keyset_small : forall k, 0 <= k <= r -> keyset n r k.
  Proof. intros k Hk. right. pose proof n_div_r. lia. Qed.

  Lemma quot_strict : forall i, 1 <= i -> i + 1 <= r -> n / (i + 1) < n / i.
  Proof.
    intros i Hi Hir. assert (n / (i + 1) + 1 <= n / i); [|lia].
    apply Z.div_le_lower_bound; [lia|].
    pose proof (Z.mul_div_le n (i + 1) ltac:(lia)).
    assert (i <= n / (i + 1)) by (apply Z.div_le_lower_bound; nia). nia.
  Qed.

  Lemma quot_strict_lt : forall i j, 1 <= i -> i < j -> j <= r -> n / j < n / i.
  Proof.
    intros i j Hi Hij Hj. replace j with (i + 1 + (j - i - 1)) in * by lia.
    assert (Hk : 0 <= j - i - 1) by lia. revert Hj. clear Hij. revert Hk.
    generalize (j - i - 1). intros k Hk. revert k Hk.
    apply (natlike_ind (fun k => i + 1 + k <= r -> n / (i + 1 + k) < n / i)).
    - intros. rewrite Z.add_0_r. apply quot_strict; lia.
    - intros k Hk IH Hle. specialize (IH ltac:(lia)).
      pose proof (quot_strict (i + 1 + k) ltac:(lia) ltac:(lia)).
      replace (i + 1 + Z.succ k) with (i + 1 + k + 1) by lia. lia.
  Qed.

  Lemma sorted_app : forall (R : Z -> Z -> Prop) l l',
    StronglySorted R l -> StronglySorted R l' -> (forall x y, In x l -> In y l' -> R x y) ->
    StronglySorted R (l ++ l').
  Proof.
    intros R l l' H1 H2 H. induction H1; cbn; auto. constructor.
    - apply IHStronglySorted. intros x y Hx Hy. apply H; [now right|auto].
    - apply Forall_app. split; auto. apply Forall_forall. intros y Hy. apply H; [now left|auto].
  Qed.

  Lemma keys_sorted :
    StronglySorted Z.gt (ps_quotients n r ++ rev (zseq 0 (Z.to_nat (n / r)))).
  Proof.
    apply sorted_app.
    - unfold ps_quotients.
      assert (H : forall l a, 1 <= a -> a + Z.of_nat l <= r + 1 ->
                StronglySorted Z.gt (map (fun i => n / i) (zseq a l))).
      { induction l; intros a Ha Hl; cbn [zseq map]; constructor.
        - apply IHl; lia.
        - apply Forall_forall. intros x Hx. apply in_map_iff in Hx. destruct Hx as (j & <- & Hj).
          apply in_zseq in Hj. apply Z.lt_gt. apply quot_strict_lt; lia. }
      apply H; lia.
    - generalize (Z.to_nat (n / r)) as l. generalize 0 as a.
      intros a l. revert a. induction l; intros a; cbn [zseq rev]; [constructor|].
      apply sorted_app; auto.
      + constructor; constructor.
      + intros x y Hx [<-|[]]. apply in_rev, in_zseq in Hx. lia.
    - intros x y Hx Hy. apply in_rev, in_zseq in Hy. unfold ps_quotients in Hx.
      apply in_map_iff in Hx. destruct Hx as (j & <- & Hj). apply in_zseq in Hj.
      assert (n / r <= n / j) by (apply Z.div_le_compat_l; lia). lia.
  Qed.
End Keys.

(** ** The invariant *)

Section Sieve.
  Variable md : ovf_mode.
  Variables n r : Z.
  Hypothesis Hr : 1 <= r.
  Hypothesis Hrr : r * r <= n.
  Hypothesis Hnr : n < (r + 1) * (r + 1).
  Hypothesis Hr32 : r < 2 ^ 32 - 1.
  Hypothesis Hmd : md = Wrapping \/ n < 2 ^ 32.

  (** The value stored at key k is the partial sum at level p, up to a
      multiple e of 2^63; e = 0 below 2^32. *)
  Definition entry (p k x : Z) : Prop :=
    exists e, x = (ssum p k + 2 ^ 63 * e) mod 2 ^ 64 /\ (k < 2 ^ 32 -> e = 0) /\
              (n < 2 ^ 33 -> k = n -> e = - (n * (n + 1) / 2 ^ 64)).

  Definition holds (p k : Z) (s : smap) : Prop := exists x, s_get s k = Some x /\ entry p k x.

  Definition inv (p : Z) (s : smap) : Prop :=
    forall k, keyset n r k -> 1 <= k -> holds p k s.

  Lemma ssum_bound : forall p k, 1 <= p -> 0 <= k < 2 ^ 32 -> 0 <= ssum p k < 2 ^ 63.
  Proof.
    intros p k Hp Hk. split; [apply ssum_nonneg; lia|].
    pose proof (ssum_le_1 p k Hp ltac:(lia)).
    destruct (Z.eq_dec k 0) as [->|]; [rewrite ssum_0 in *; lia|].
    pose proof (ssum_1 k ltac:(lia)).
    assert (k * (k + 1) <= 2 ^ 32 * 2 ^ 32) by nia.
    change (2 ^ 63) with 9223372036854775808. change (2 ^ 32 * 2 ^ 32) with (2 * 9223372036854775808) in *. lia.
  Qed.

  Lemma entry_small : forall p k x, 1 <= p -> 0 <= k < 2 ^ 32 -> entry p k x -> x = ssum p k.
  Proof.
    intros p k x Hp Hk (e & -> & He & _). rewrite He by lia.
    rewrite Z.mul_0_r, Z.add_0_r. apply Z.mod_small.
    pose proof (ssum_bound p k Hp Hk). lia.
  Qed.

  Lemma entry_level : forall p q k x, ssum p k = ssum q k -> entry p k x -> entry q k x.
  Proof. intros p q k x E (e & -> & He). exists e. now rewrite E. Qed.

  Lemma init_val : forall k, 1 <= k <= n ->
    exists x, ps_init_val md k = Ret x /\ entry 1 k x.
  Proof.
    intros k Hk. unfold ps_init_val, u64_add, u64_mul.
    assert (Hn64 : n < (2 ^ 32 - 1) * (2 ^ 32 - 1)) by nia.
    assert (Hn64' : n + 1 < 2 ^ 64) by (change (2 ^ 64) with (2 ^ 32 * 2 ^ 32); nia).
    rewrite u64_wrap_ret by (right; lia). rewrite Z.mod_small by lia. cbn [obind].
    rewrite u64_wrap_ret.
    2: { destruct Hmd as [H|H]; [left; auto|right]. change (2 ^ 64) with (2 ^ 32 * 2 ^ 32). nia. }
    cbn [obind]. eexists. split; [reflexivity|].
    unfold u64_wrapping_sub. change two64 with (2 ^ 64). exists (- (k * (k + 1) / 2 ^ 64)). split; [|split].
    - pose proof (ssum_1 k ltac:(lia)) as Hs.
      rewrite (Z.mul_comm (k + 1) k).
      pose proof (Z.div_mod (k * (k + 1)) (2 ^ 64) ltac:(lia)) as Hdm.
      set (q := k * (k + 1) / 2 ^ 64) in *. set (m := (k * (k + 1)) mod 2 ^ 64) in *.
      assert (Em : m = (ssum 1 k + 1 - 2 ^ 63 * q) * 2).
      { change (2 ^ 64) with (2 * 2 ^ 63) in Hdm. lia. }
      rewrite Em, Z.div_mul by lia. f_equal. lia.
    - intros Hk32. rewrite Z.div_small; [lia|]. change (2 ^ 64) with (2 ^ 32 * 2 ^ 32). nia.
    - intros _ ->. reflexivity.
  Qed.

  Lemma init_zero : exists x, ps_init_val md 0 = Ret x.
  Proof.
    unfold ps_init_val, u64_add, u64_mul. rewrite u64_wrap_ret by (right; lia). cbn [obind].
    rewrite u64_wrap_ret by (right; rewrite Z.mul_0_r; lia). cbn [obind]. eauto.
  Qed.

  Lemma ps_init_ok : forall v s, (forall k, In k v -> 0 <= k <= n) ->
    exists s', ps_init md v s = Ret s' /\
      (forall k, 1 <= k -> (In k v \/ holds 1 k s) -> holds 1 k s').
  Proof.
    induction v as [|i v IH]; intros s Hv.
    - exists s. split; auto. intros k Hk [[]|H]; auto.
    - cbn [ps_init].
      assert (Hi : 0 <= i <= n) by (apply Hv; now left).
      assert (Hx : exists x, ps_init_val md i = Ret x /\ (1 <= i -> entry 1 i x)).
      { destruct (Z.eq_dec i 0) as [->|Hne].
        - destruct init_zero as [x E]. exists x. split; auto. lia.
        - destruct (init_val i ltac:(lia)) as (x & E & He). eauto. }
      destruct Hx as (x & E & He). rewrite E. cbn [obind].
      destruct (IH (s_set s i x)) as (s' & E' & H').
      { intros k Hk. apply Hv. now right. }
      exists s'. split; auto. intros k Hk Hor. apply H'; auto.
      destruct (Z.eq_dec i k) as [->|Hne].
      + right. exists x. split; [apply s_get_set_same|auto].
      + destruct Hor as [[->|Hin]|Hh]; [congruence|left; auto|right].
        destruct Hh as (y & Ey & Hy). exists y. split; auto.
        rewrite s_get_set_other; auto; lia.
  Qed.

  Lemma n_lt_64 : n < 2 ^ 64.
  Proof. change (2 ^ 64) with (2 ^ 32 * 2 ^ 32). nia. Qed.

  Lemma mod_sub_l : forall a b m, 0 < m -> (a mod m - b) mod m = (a - b) mod m.
  Proof. intros. apply Zminus_mod_idemp_l. Qed.

  Lemma mod_sub_mul2 : forall a p b c m, 0 < m -> (a - p * (b mod m - c)) mod m = (a - p * (b - c)) mod m.
  Proof.
    intros. pose proof (Z.div_mod b m ltac:(lia)) as E.
    replace (a - p * (b mod m - c)) with (a - p * (b - c) + (p * (b / m)) * m) by nia.
    apply Z.mod_add. lia.
  Qed.

  Lemma mod_sub_mul : forall a p b m, 0 < m -> (a - p * (b mod m)) mod m = (a - p * b) mod m.
  Proof.
    intros a p b m Hm. pose proof (mod_sub_mul2 a p b 0 m Hm) as E. now rewrite !Z.sub_0_r in E.
  Qed.

  (** Updating one entry. *)
  Lemma inner_update : forall p k x y, prime p -> 2 <= p <= r -> p * p <= k <= n ->
    entry (p - 1) (k / p) x -> entry (p - 1) k y ->
    exists d m z,
      u64_sub md x (ssum (p - 1) (p - 1)) = Ret d /\
      u64_mul md p d = Ret m /\
      u64_sub md y m = Ret z /\ entry p k z.
  Proof.
    intros p k x y Hpr Hp Hk (e1 & Ex & He1 & _) (e2 & Ey & He2 & He3).
    pose proof (ssum_step p k Hpr ltac:(lia)) as Hstep.
    assert (Hkp : p <= k / p) by (apply Z.div_le_lower_bound; lia).
    assert (Hkp2 : k / p <= k) by (apply Z.div_le_upper_bound; nia).
    pose proof (ssum_mono (p - 1) (p - 1) (k / p) ltac:(lia)) as Hm1.
    pose proof (ssum_nonneg p k ltac:(nia)) as Hm2.
    set (S0 := ssum (p - 1) k) in *. set (S1 := ssum (p - 1) (k / p)) in *.
    set (Sp := ssum (p - 1) (p - 1)) in *.
    assert (Hexact : md = Wrapping \/
      (e1 = 0 /\ e2 = 0 /\ 0 <= S0 < 2 ^ 64 /\ 0 <= S1 < 2 ^ 64 /\ 0 <= Sp)).
    { destruct Hmd as [H|H]; [left; auto|right].
      pose proof (ssum_bound (p - 1) k ltac:(lia) ltac:(nia)).
      pose proof (ssum_bound (p - 1) (k / p) ltac:(lia) ltac:(nia)).
      pose proof (ssum_bound (p - 1) (p - 1) ltac:(lia) ltac:(nia)).
      fold S0 in H0. fold S1 in H1. fold Sp in H2.
      split; [apply He1; lia|]. split; [apply He2; lia|]. lia. }
    assert (Hx : md = Wrapping \/ x = S1).
    { destruct Hexact as [H|(-> & -> & H)]; [left; auto|right]. rewrite Ex, Z.mul_0_r, Z.add_0_r. apply Z.mod_small; lia. }
    assert (Hy : md = Wrapping \/ y = S0).
    { destruct Hexact as [H|(-> & -> & H)]; [left; auto|right]. rewrite Ey, Z.mul_0_r, Z.add_0_r. apply Z.mod_small; lia. }
    assert (Hsp0 : 0 <= Sp) by (apply ssum_nonneg; lia).
    assert (HD : 0 <= p * (S1 - Sp) <= S0) by (split; [apply Z.mul_nonneg_nonneg; lia|lia]).
    exists ((x - Sp) mod 2 ^ 64), ((p * ((x - Sp) mod 2 ^ 64)) mod 2 ^ 64),
           ((y - (p * ((x - Sp) mod 2 ^ 64)) mod 2 ^ 64) mod 2 ^ 64).
    assert (Hd : md = Wrapping \/ (x - Sp) mod 2 ^ 64 = S1 - Sp).
    { destruct Hexact as [H|(_ & _ & H)]; [left; auto|]. destruct Hx as [H'| ->]; [left; auto|right].
      apply Z.mod_small. lia. }
    assert (Hm : md = Wrapping \/ (p * ((x - Sp) mod 2 ^ 64)) mod 2 ^ 64 = p * (S1 - Sp)).
    { destruct Hd as [H'| ->]; [left; auto|]. destruct Hexact as [H|(_ & _ & H)]; [left; auto|right].
      apply Z.mod_small. lia. }
    repeat split.
    - apply u64_wrap_ret. destruct Hexact as [H|(_ & _ & H)]; [left; auto|]. destruct Hx as [H'| ->]; [left; auto|right]. lia.
    - apply u64_wrap_ret. destruct Hd as [H'| ->]; [left; auto|]. destruct Hexact as [H|(_ & _ & H)]; [left; auto|right]. lia.
    - apply u64_wrap_ret. destruct Hm as [H'| ->]; [left; auto|]. destruct Hy as [H'| ->]; [left; auto|].
      destruct Hexact as [H|(_ & _ & H)]; [left; auto|right]. lia.
    - exists (e2 - p * e1). split; [|split].
      + rewrite Zminus_mod_idemp_r.
        rewrite mod_sub_mul by lia. rewrite Ex, Ey. rewrite mod_sub_mul2 by lia.
        rewrite Zminus_mod_idemp_l.
        f_equal. rewrite Hstep. ring.
      + intros H32. rewrite He1 by lia. rewrite He2 by lia. ring.
      + intros H33 ->. rewrite He3 by auto. rewrite He1; [ring|].
        assert (n / p < 2 ^ 32); [|lia]. apply Z.div_lt_upper_bound; [lia|].
        change (2 ^ 33) with (2 * 2 ^ 32) in H33. nia.
  Qed.

  (** The inner loop: keys of [v] go from level p-1 to level p. *)
  Lemma ps_inner_ok : forall p v s, prime p -> 2 <= p <= r ->
    StronglySorted Z.gt v ->
    (forall k, In k v -> keyset n r k) ->
    (forall k j, In k v -> keyset n r j -> j <= k -> In j v) ->
    (forall k, keyset n r k -> 1 <= k -> ~ In k v -> holds p k s) ->
    (forall k, In k v -> 1 <= k -> holds (p - 1) k s) ->
    exists s', ps_inner md p (ssum (p - 1) (p - 1)) (p * p) v s = Ret s' /\ inv p s'.
  Proof.
    intros p v. induction v as [|ve v IH]; intros s Hpr Hp Hsort Hkeys Hclosed Hdone Htodo.
    - exists s. split; auto. intros k Hk Hk1. apply Hdone; auto.
    - cbn [ps_inner]. destruct (Z.ltb_spec ve (p * p)) as [Hlt|Hge].
      + exists s. split; auto. intros k Hk Hk1.
        destruct (in_dec Z.eq_dec k (ve :: v)) as [Hin|Hnin]; [|auto].
        destruct (Htodo k Hin Hk1) as (x & Ex & He). exists x. split; auto.
        apply entry_level with (p := p - 1); auto. symmetry. apply ssum_step_small; auto.
        split; [lia|]. destruct Hin as [<-|Hin]; auto.
        inversion Hsort as [|? ? _ Hf]; subst. rewrite Forall_forall in Hf.
        specialize (Hf k Hin). lia.
      + assert (Hve : keyset n r ve) by (apply Hkeys; now left).
        pose proof (keyset_range n r Hr Hrr Hnr ve Hve) as Hrange.
        assert (Hkp : p <= ve / p) by (apply Z.div_le_lower_bound; lia).
        assert (Hkp2 : ve / p < ve) by (apply Z.div_lt; nia).
        inversion Hsort as [|? ? Hsort' Hf]; subst. rewrite Forall_forall in Hf.
        assert (Hlow : holds (p - 1) (ve / p) s).
        { apply Htodo; [|lia]. apply Hclosed with (k := ve); [now left| |lia].
          apply keyset_div; auto. lia. }
        destruct Hlow as (x & Ex & Hx).
        destruct (Htodo ve (or_introl eq_refl) ltac:(nia)) as (y & Ey & Hy).
        destruct (inner_update p ve x y Hpr Hp ltac:(lia) Hx Hy) as (d & m & z & E1 & E2 & E3 & Hz).
        unfold s_index. rewrite Ex. cbn [obind]. rewrite E1. cbn [obind].
        rewrite E2. cbn [obind]. rewrite Ey. cbn [obind]. rewrite E3. cbn [obind].
        apply IH; auto.
        * intros k Hk. apply Hkeys. now right.
        * intros k j Hk Hj Hjk. pose proof (Hf k Hk).
          destruct (Hclosed k j (or_intror Hk) Hj Hjk) as [<-|Hin]; [lia|auto].
        * intros k Hk Hk1 Hnin. destruct (Z.eq_dec ve k) as [<-|Hne].
          -- exists z. split; [apply s_get_set_same|auto].
          -- destruct (Hdone k Hk Hk1) as (x' & Ex' & Hx').
             { intros [|]; auto. }
             exists x'. split; auto. rewrite s_get_set_other; auto; lia.
        * intros k Hk Hk1. destruct (Htodo k (or_intror Hk) Hk1) as (x' & Ex' & Hx').
          exists x'. split; auto. pose proof (Hf k Hk). rewrite s_get_set_other; auto; lia.
  Qed.

  Variable v : list Z.
  Hypothesis Hsorted : StronglySorted Z.gt v.
  Hypothesis Hv : forall k, In k v <-> keyset n r k.

  Lemma ps_step_ok : forall p s, 2 <= p <= r -> inv (p - 1) s ->
    exists s', ps_step md v p s = Ret s' /\ inv p s'.
  Proof.
    intros p s Hp Hinv. unfold ps_step, s_index.
    destruct (Hinv p) as (a & Ea & Ha); [apply keyset_small; auto; lia|lia|].
    destruct (Hinv (p - 1)) as (b & Eb & Hb); [apply keyset_small; auto; lia|lia|].
    apply entry_small in Ha; [|lia|lia]. apply entry_small in Hb; [|lia|lia]. subst a b.
    rewrite Ea, Eb. cbn [obind].
    pose proof (ssum_prime_test p ltac:(lia)) as Ht.
    destruct (Z.ltb_spec (ssum (p - 1) (p - 1)) (ssum (p - 1) p)) as [Hlt|Hge].
    - assert (Hpr : prime p) by (apply Ht; auto).
      unfold u64_mul. rewrite u64_wrap_ret.
      2: { right. change (2 ^ 64) with (2 ^ 32 * 2 ^ 32). nia. }
      rewrite Z.mod_small. 2: { change (2 ^ 64) with (2 ^ 32 * 2 ^ 32). nia. }
      cbn [obind]. apply ps_inner_ok; auto.
      + intros k. apply Hv.
      + intros k j _ Hj _. now apply Hv.
      + intros k Hk _ Hn. exfalso. apply Hn, Hv; auto.
      + intros k Hk. apply Hinv. apply Hv; auto.
    - exists s. split; auto. intros k Hk Hk1. destruct (Hinv k Hk Hk1) as (x & Ex & Hx).
      exists x. split; auto. eapply entry_level; [|exact Hx]. symmetry.
      apply ssum_step_composite; try lia. intros Hpr. apply Ht in Hpr. lia.
  Qed.

  Lemma ps_outer_ok : forall l p s, 2 <= p -> p + Z.of_nat l = r + 1 -> inv (p - 1) s ->
    exists s', ps_outer md v (zseq p l) s = Ret s' /\ inv r s'.
  Proof.
    induction l; intros p s Hp Hl Hinv; cbn [zseq ps_outer].
    - exists s. split; auto. now replace r with (p - 1) by lia.
    - destruct (ps_step_ok p s ltac:(lia) Hinv) as (s1 & E1 & H1). rewrite E1. cbn [obind].
      apply IHl; try lia. now replace (p + 1 - 1) with p by lia.
  Qed.
End Sieve.

Lemma ps_assert_ok : forall md n r, 0 <= r < 2 ^ 32 - 1 -> r * r <= n < (r + 1) * (r + 1) ->
  ps_assert md n r = Ret tt.
Proof.
  intros md n r Hr Hn. unfold ps_assert, u64_mul, u64_add.
  assert (H64 : 2 ^ 64 = 2 ^ 32 * 2 ^ 32) by reflexivity.
  rewrite u64_wrap_ret by (right; nia). rewrite Z.mod_small by nia. cbn [obind].
  replace (r * r <=? n) with true by lia.
  rewrite u64_wrap_ret by (right; nia). rewrite Z.mod_small by nia. cbn [obind].
  rewrite u64_wrap_ret by (right; nia). rewrite Z.mod_small by nia. cbn [obind].
  replace (n <? (r + 1) * (r + 1)) with true by lia. reflexivity.
Qed.

Lemma sqrt_bounds : forall n, 1 <= n -> let r := Z.sqrt n in
  1 <= r /\ r * r <= n /\ n < (r + 1) * (r + 1).
Proof.
  intros n Hn r. pose proof (Z.sqrt_spec n ltac:(lia)) as H. fold r in H.
  unfold Z.succ in H. nia.
Qed.

Lemma prime_sum_general : forall md n, 1 <= n < (2 ^ 32 - 1) * (2 ^ 32 - 1) ->
  md = Wrapping \/ n < 2 ^ 32 ->
  exists e, prime_sum_u64 md n = Ret ((sum_of_primes n + 2 ^ 63 * e) mod 2 ^ 64) /\
            (n < 2 ^ 32 -> e = 0) /\ (n < 2 ^ 33 -> e = - (n * (n + 1) / 2 ^ 64)).
Proof.
  intros md n Hn Hmd. unfold prime_sum_u64.
  destruct (sqrt_bounds n ltac:(lia)) as (Hr1 & Hr2 & Hr3). set (r := Z.sqrt n) in *.
  assert (Hr32 : r < 2 ^ 32 - 1) by nia.
  rewrite ps_assert_ok by lia. cbn [obind].
  rewrite (ps_keys_ret n r Hr1). cbn [obind].
  set (v := ps_quotients n r ++ rev (zseq 0 (Z.to_nat (n / r)))).
  destruct (ps_init_ok md n r Hr2 Hr3 Hr32 Hmd v (PositiveMap.empty Z)) as (s0 & E0 & H0).
  { intros k Hk. eapply keyset_range; eauto. apply in_keys; auto. }
  rewrite E0. cbn [obind].
  destruct (ps_outer_ok md n r Hr1 Hr2 Hr3 Hr32 Hmd v) with (l := Z.to_nat (r - 1)) (p := 2) (s := s0)
    as (s1 & E1 & H1); try lia.
  - apply keys_sorted; auto.
  - intros k. apply in_keys; auto.
  - intros k Hk Hk1. apply H0; auto. left. apply in_keys; auto.
  - rewrite E1. cbn [obind].
    destruct (H1 n (keyset_n n r Hr1) ltac:(lia)) as (x & Ex & e & Hx & He1 & He2).
    exists e. unfold s_index. rewrite Ex, Hx. rewrite ssum_final by lia. auto.
Qed.

Lemma sum_of_primes_bound : forall n, 0 <= n < 2 ^ 32 -> 0 <= sum_of_primes n < 2 ^ 63.
Proof.
  intros n Hn. rewrite <- (ssum_final (n + 1)) by nia. apply ssum_bound; lia.
Qed.

Lemma prime_sum_correct : forall md n, 1 <= n < 2 ^ 32 -> prime_sum_u64 md n = Ret (sum_of_primes n).
Proof.
  intros md n Hn. destruct (prime_sum_general md n) as (e & E & He & _); [lia|tauto|].
  rewrite E, He by lia. f_equal. rewrite Z.mul_0_r, Z.add_0_r. apply Z.mod_small.
  pose proof (sum_of_primes_bound n). lia.
Qed.

Lemma prime_sum_zero : forall md, prime_sum_u64 md 0 = Panic PUnwrap.
Proof. destruct md; reflexivity. Qed.

Lemma ps_assert_big : forall n, (2 ^ 32 - 1) * (2 ^ 32 - 1) <= n < 2 ^ 64 ->
  Z.sqrt n = 2 ^ 32 - 1.
Proof.
  intros n Hn. apply Z.sqrt_unique. unfold Z.succ. replace (2 ^ 32 - 1 + 1) with (2 ^ 32) by lia.
  change (2 ^ 32 * 2 ^ 32) with (2 ^ 64). lia.
Qed.

Lemma prime_sum_wrapping_huge : forall n, (2 ^ 32 - 1) * (2 ^ 32 - 1) <= n < 2 ^ 64 ->
  prime_sum_u64 Wrapping n = Panic PAssert.
Proof.
  intros n Hn. unfold prime_sum_u64. rewrite ps_assert_big by auto.
  unfold ps_assert, u64_mul, u64_add.
  rewrite u64_wrap_ret by auto. rewrite Z.mod_small by lia. cbn [obind].
  replace ((2 ^ 32 - 1) * (2 ^ 32 - 1) <=? n) with true by lia.
  rewrite u64_wrap_ret by auto. rewrite Z.mod_small by lia. cbn [obind].
  rewrite u64_wrap_ret by auto. replace (2 ^ 32 - 1 + 1) with (2 ^ 32) by lia.
  change ((2 ^ 32 * 2 ^ 32) mod 2 ^ 64) with 0. cbn [obind].
  replace (n <? 0) with false by lia. reflexivity.
Qed.

Lemma prime_sum_checked_big : forall n, 2 ^ 32 <= n < 2 ^ 64 ->
  prime_sum_u64 Checked n = Panic POverflow.
Proof.
  intros n Hn. unfold prime_sum_u64.
  destruct (Z.le_gt_cases ((2 ^ 32 - 1) * (2 ^ 32 - 1)) n) as [Hbig|Hsm].
  - rewrite ps_assert_big by lia. unfold ps_assert, u64_mul, u64_add.
    rewrite u64_wrap_ret by (right; lia). rewrite Z.mod_small by lia. cbn [obind].
    replace ((2 ^ 32 - 1) * (2 ^ 32 - 1) <=? n) with true by lia.
    rewrite u64_wrap_ret by (right; lia). rewrite Z.mod_small by lia. cbn [obind].
    rewrite u64_wrap_overflow by lia. reflexivity.
  - destruct (sqrt_bounds n ltac:(lia)) as (Hr1 & Hr2 & Hr3). set (r := Z.sqrt n) in *.
    assert (Hr32 : r < 2 ^ 32 - 1) by nia.
    rewrite ps_assert_ok by lia. cbn [obind].
    rewrite (ps_keys_ret n r Hr1). cbn [obind].
    unfold ps_quotients. replace (Z.to_nat r) with (S (Z.to_nat (r - 1))) by lia.
    cbn [zseq map app ps_init]. rewrite Z.div_1_r.
    unfold ps_init_val, u64_add, u64_mul. rewrite u64_wrap_ret.
    2: { right. change (2 ^ 64) with (2 ^ 32 * 2 ^ 32). nia. }
    rewrite Z.mod_small. 2: { change (2 ^ 64) with (2 ^ 32 * 2 ^ 32). nia. }
    cbn [obind]. rewrite u64_wrap_overflow. reflexivity.
    change (2 ^ 64) with (2 ^ 32 * 2 ^ 32). nia.
Qed.

(** Release build: correct modulo 2^63. *)
Lemma prime_sum_wrapping_mod : forall n, 1 <= n < (2 ^ 32 - 1) * (2 ^ 32 - 1) ->
  exists x, prime_sum_u64 Wrapping n = Ret x /\ 0 <= x < 2 ^ 64 /\
            x mod 2 ^ 63 = sum_of_primes n mod 2 ^ 63.
Proof.
  intros n Hn. destruct (prime_sum_general Wrapping n) as (e & E & _ & _); [lia|auto|].
  eexists. split; [exact E|]. split; [apply Z.mod_pos_bound; lia|].
  change (2 ^ 64) with (2 ^ 63 * 2). rewrite Z.rem_mul_r by lia.
  rewrite (Z.mul_comm (2 ^ 63) (_ mod 2)), Z.mod_add by lia.
  rewrite Z.mod_mod by lia. rewrite (Z.mul_comm (2 ^ 63) e), Z.mod_add by lia. reflexivity.
Qed.

(** ... and exactly for n < 2^33. *)
Lemma prime_sum_wrapping_exact : forall n, 1 <= n < 2 ^ 33 ->
  prime_sum_u64 Wrapping n = Ret ((sum_of_primes n - 2 ^ 63 * (n * (n + 1) / 2 ^ 64)) mod 2 ^ 64).
Proof.
  intros n Hn. destruct (prime_sum_general Wrapping n) as (e & E & _ & He); [lia|auto|].
  rewrite E, He by lia. do 2 f_equal. lia.
Qed.

Lemma prime_sum_wrapping_off : forall n, 2 ^ 32 <= n <= 6074000999 ->
  prime_sum_u64 Wrapping n = Ret ((sum_of_primes n + 2 ^ 63) mod 2 ^ 64) /\
  (sum_of_primes n + 2 ^ 63) mod 2 ^ 64 <> sum_of_primes n.
Proof.
  intros n Hn. rewrite prime_sum_wrapping_exact by lia.
  assert (Hq : n * (n + 1) / 2 ^ 64 = 1).
  { symmetry. apply Z.div_unique with (r := n * (n + 1) - 2 ^ 64); [|lia].
    left. change (2 ^ 64) with (2 ^ 32 * 2 ^ 32). split; nia. }
  rewrite Hq. split.
  - f_equal. replace (sum_of_primes n + 2 ^ 63) with (sum_of_primes n - 2 ^ 63 * 1 + 1 * 2 ^ 64) by lia.
    now rewrite Z.mod_add by lia.
  - intros E. pose proof (Z.div_mod (sum_of_primes n + 2 ^ 63) (2 ^ 64) ltac:(lia)) as Hdm.
    rewrite E in Hdm. lia.
Qed.
