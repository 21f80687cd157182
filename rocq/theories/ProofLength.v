(** Proofs about the length of replies. *)
From Verif Require Import Base Ast SmError Internal Peg Grammar Build Display Runner SpecNum SpecAst SpecSyntax SpecSource SpecSession SpecUtf8 SpecSafe SpecPest SpecValue SpecReply SpecAnswer SpecOrigin SpecImage SpecLength.
From Verif Require Import ProofUtf8 ProofAtom ProofFib ProofEval ProofDisplay ProofAst ProofSyntax ProofSource ProofValue ProofOrigin ProofImage ProofProduced ProofReply ProofAnswer ProofSafe ProofSample ProofAgain.
Local Open Scope Z_scope.

(** ** Numerals *)
Lemma numeral_length : forall n w k, numeral_of n w -> 0 < k -> n < 10 ^ k -> Z.of_nat (length w) <= k.
Proof.
  intros n w k (N & D & V & LZ) K H. destruct w as [|c s]; [congruence|]. cbn [length]. rewrite Nat2Z.inj_succ.
  destruct s as [|d s]; [cbn; lia|]. rewrite numeral_value_cons in V. inversion D as [|? ? Dc Ds]; subst. pose proof (numeral_value_bounds _ Ds) as B.
  assert (c <> 48%N) by (intros ->; specialize (LZ eq_refl); discriminate LZ). unfold is_digit in Dc. unfold digit_value in H.
  assert (10 ^ Z.of_nat (length (d :: s)) < 10 ^ k) by nia. apply Z.pow_lt_mono_r_iff in H1; lia.
Qed.
Lemma digits_below : forall w, SpecValue.digits w -> 0 <= numeral_value w < 10 ^ Z.of_nat (length w).
Proof. intros w [_ H]. apply numeral_value_bounds. apply digits_forall. exact H. Qed.
Lemma figure_bound : forall b P c, based b P -> P c = true -> 0 <= figure c <= 15.
Proof.
  intros b P c B Hc. assert (H : (48 <= c <= 57 \/ 97 <= c <= 102 \/ 65 <= c <= 70)%N).
  { destruct B; unfold bin_digit, oct_digit, SpecSyntax.hex_digit in Hc; rewrite ?orb_true_iff, !andb_true_iff, !N.leb_le in Hc; lia. }
  unfold figure, digit. destruct ((48 <=? c) && (c <=? 57))%N eqn:D; [rewrite andb_true_iff, !N.leb_le in D; lia|].
  destruct ((97 <=? c) && (c <=? 102))%N eqn:D'; [rewrite andb_true_iff, !N.leb_le in D'; lia|].
  rewrite andb_false_iff, !N.leb_gt in D, D'. lia.
Qed.
Lemma based_below : forall b P s, based b P -> grouped P s = true -> 0 <= based_value (base_of b) s < 16 ^ Z.of_nat (length s).
Proof.
  intros b P s B G. assert (K : 0 <= base_of b <= 16) by (unfold base_of; repeat match goal with |- context [if ?x then _ else _] => destruct x end; lia).
  assert (T : forall c a m, P c = true -> 0 <= m -> 0 <= a < 16 ^ m -> 0 <= base_of b * a + figure c < 16 ^ (m + 1)).
  { intros c a m Hc Hm Ha. pose proof (figure_bound b P c B Hc). rewrite Z.pow_add_r, Z.pow_1_r by lia. nia. }
  unfold based_value. assert (A : forall n s a m, (length s <= n)%nat -> grouped P s = true -> 0 <= m -> 0 <= a < 16 ^ m -> 0 <= fold_left (fun a c => if (c =? 95)%N then a else base_of b * a + figure c) s a < 16 ^ (m + Z.of_nat (length s))).
  { clear G s. induction n as [|n IH]; intros s a m Hn G Hm Ha; [destruct s; [cbn; rewrite Z.add_0_r; exact Ha|cbn in Hn; lia]|].
    destruct s as [|c s]; [cbn; rewrite Z.add_0_r; exact Ha|]. cbn [length grouped fold_left] in *.
    assert (M : 16 ^ m <= 16 ^ (m + 1)) by (apply Z.pow_le_mono_r; lia).
    destruct (c =? 95)%N.
    - destruct s as [|d s]; [discriminate|]. apply andb_prop in G as [Hd G]. cbn [fold_left length] in *.
      assert (M' : 16 ^ (m + 1) <= 16 ^ (m + 2)) by (apply Z.pow_le_mono_r; lia).
      replace (m + Z.of_nat (S (S (length s)))) with ((m + 2) + Z.of_nat (length s)) by lia. apply IH; [lia|exact G|lia|].
      destruct (d =? 95)%N; [lia|]. pose proof (T d a m Hd Hm Ha). lia.
    - apply andb_prop in G as [Hc G]. replace (m + Z.of_nat (S (length s))) with ((m + 1) + Z.of_nat (length s)) by lia. apply IH; [lia|exact G|lia|]. apply T; assumption. }
  specialize (A (length s) s 0 0 (le_n _) G (Z.le_refl 0)). rewrite Z.add_0_l in A. apply A. cbn. lia.
Qed.

Ltac slia := unfold str, char in *; lia.
Ltac snia := unfold str, char in *; nia.
Section Bounds.
  Variable text : str.
  Notation size := (Z.of_nat (length text)).
  Lemma has_below : forall w, SpecSafe.contains w text -> Z.of_nat (length w) <= size.
  Proof. intros w H. apply has_length in H. lia. Qed.
  Lemma integer_bound : forall n, taken_integer text n -> Z.abs n < 16 ^ (size + 1).
  Proof.
    assert (P : forall k, 0 <= k <= size -> 16 ^ k <= 16 ^ (size + 1)) by (intros k Hk; apply Z.pow_le_mono_r; lia).
    intros n [w Hw Hd|b Q s Hw Hb Hg| |m Hm].
    - apply has_below in Hw. pose proof (digits_below w Hd) as B. unfold str, char in *. rewrite Z.abs_eq by lia.
      assert (M : 10 ^ Z.of_nat (length w) <= 16 ^ Z.of_nat (length w)) by (apply Z.pow_le_mono_l; lia). specialize (P (Z.of_nat (length w)) ltac:(lia)). lia.
    - apply has_below in Hw. pose proof (based_below b Q s Hb Hg) as B. rewrite Z.abs_eq by lia. specialize (P (Z.of_nat (length s))). unfold str, char in *. cbn [length] in Hw. specialize (P ltac:(lia)). lia.
    - change (Z.abs 1) with 1. assert (0 < 16 ^ size) by (apply Z.pow_pos_nonneg; lia). rewrite Z.pow_add_r, Z.pow_1_r by lia. lia.
    - pose proof (Z.pow_gt_lin_r 16 (size + 1) ltac:(lia) ltac:(lia)). lia.
  Qed.
  (** a value below 16^k has at most 2 k digits, below 256^k at most 3 k *)
  Lemma below_16 : forall n w k, shown (Integer n) w -> 0 <= n -> 0 < k -> n < 16 ^ k -> Z.of_nat (length w) <= 2 * k.
  Proof.
    intros n w k S N K H. inversion S as [| |n' v w' V G| | | |]; subst. destruct G as [[_ ->]|[G _]]; [|lia]. rewrite Z.abs_eq in V by lia. apply (numeral_length n); [exact V|lia|].
    replace (10 ^ (2 * k)) with (100 ^ k) by (rewrite Z.pow_mul_r by lia; reflexivity). pose proof (Z.pow_le_mono_l 16 100 k ltac:(lia)). lia.
  Qed.
  Lemma below_256 : forall n w k, shown (Integer n) w -> 0 <= n -> 0 < k -> n < 256 ^ k -> Z.of_nat (length w) <= 3 * k.
  Proof.
    intros n w k S N K H. inversion S as [| |n' v w' V G| | | |]; subst. destruct G as [[_ ->]|[G _]]; [|lia]. rewrite Z.abs_eq in V by lia. apply (numeral_length n); [exact V|lia|].
    replace (10 ^ (3 * k)) with (1000 ^ k) by (rewrite Z.pow_mul_r by lia; reflexivity). pose proof (Z.pow_le_mono_l 256 1000 k ltac:(lia)). lia.
  Qed.
  Lemma decimal_length : forall d w, drawn text (Decimal d) -> shown (Decimal d) w -> Z.of_nat (length w) <= size.
  Proof.
    intros d w D S. inversion D as [| | | |x y Hw Hx Hy| | |]; subst. apply has_below in Hw. rewrite !app_length in Hw. cbn [length lit] in Hw. change (length (lit ".")) with 1%nat in Hw.
    assert (Ly : 0 < Z.of_nat (length y)) by (destruct Hy as [Hy _]; destruct y; [congruence|cbn; lia]).
    assert (Lx : 0 < Z.of_nat (length x)) by (destruct Hx as [Hx' _]; destruct x; [congruence|cbn; lia]).
    pose proof (digits_below x Hx) as Bx. pose proof (digits_below y Hy) as By.
    inversion S as [| | |i k q r x' y' w' Hk E N Dg L V G|i k x' w' Hk| |]; subst; [|lia].
    rewrite numeral_value_app in E, G. pose proof (numeral_value_bounds y' Dg) as By'. rewrite L in By'.
    rewrite Z.abs_eq in E by nia. assert (q < 10 ^ Z.of_nat (length x)) by nia.
    destruct G as [[_ ->]|[G _]]; [|nia]. rewrite !app_length. change (length (lit ".")) with 1%nat. pose proof (numeral_length q x' _ N Lx H). lia.
  Qed.
  Lemma symbol_length : forall s w, taken_symbol text s -> kind s = Normal -> shown (Sym s) w -> Z.of_nat (length w) <= size + 24.
  Proof.
    intros s w T K S. assert (E : w = display_symbol s).
    { apply (shown_once (Sym s)); [exact S|]. destruct s. rewrite symbol_flat. constructor. }
    subst w. destruct T as [v s H N|? ? ? ? _ _|? ? _ _|? ? _ _|]; try discriminate K. apply ProofValue.named_symbol in N. subst s. rewrite display_symbol_from. destruct H as [H|H]; [apply has_below in H; lia|].
    repeat (destruct H as [<-|H]; [cbn; lia|]). destruct H.
  Qed.
  Lemma string_length : forall s, drawn text (Str s) -> Z.of_nat (length s) <= size.
  Proof. intros s H. inversion H; subst. apply has_below. assumption. Qed.
  Lemma utf8_bound : forall s, utf8_len s <= 4 * Z.of_nat (length s).
  Proof. induction s as [|c s IH]; [cbn; lia|]. cbn [utf8_len length]. assert (utf8_width c <= 4) by (unfold utf8_width; repeat destruct (_ <? _)%N; lia). lia. Qed.

  Lemma value_length : forall b w, drawn text b -> fine b -> (forall s, b = Sym s -> kind s = Normal) -> shown b w -> Z.of_nat (length w) <= 2 * size + 24.
  Proof.
    intros b w D F K S. destruct b as [| | |b|n|d|s|s]; try (inversion S; fail).
    - inversion D as [|B|B| | | | |]; subst; inversion S; subst; apply has_below in B; change (Z.of_nat (length (lit "true"))) with 4 in *; change (Z.of_nat (length (lit "false"))) with 5 in *; slia.
    - inversion D as [| | |? T| | | |]; subst. cbn [fine] in F. pose proof (integer_bound n T). pose proof (below_16 n w (size + 1) S F ltac:(lia) ltac:(lia)). slia.
    - pose proof (decimal_length d w D S). slia.
    - inversion D; subst. pose proof (symbol_length s w ltac:(assumption) (K s eq_refl) S). slia.
    - inversion S; subst. pose proof (string_length w D). slia.
  Qed.
  Definition growing (f : str) : Prop := In f [lit "power"; lit "factorial"; lit "fibonacci"].
  Lemma applied_length : forall W f args b w, applied W f args (Ok b) -> Forall (drawn text) args -> Forall fine args -> ~ growing f -> shown b w -> Z.of_nat (length w) <= 3 * size + 24.
  Proof.
    intros W f args b w A D F G S. inversion A; subst; try (exfalso; apply G; unfold growing; cbn; tauto);
      repeat match goal with H : Forall _ (_ :: _) |- _ => inversion H; subst; clear H end; cbn [fine] in *.
    - inversion S; subst. match goal with H : drawn text (Str _) |- _ => apply string_length in H; cbn [length] in * end. slia.
    - inversion S; subst. match goal with H : drawn text (Str _) |- _ => apply string_length in H; rewrite app_length in H; cbn [length] in * end. slia.
    - match goal with H : drawn text (Str _) |- _ => apply string_length in H end. match goal with H : utf8 s bs |- _ => rewrite (text_width s bs H) in S end. pose proof (utf8_bound s). pose proof (utf8_len_ge s).
      enough (Z.of_nat (length w) <= 2 * (size + 1)) by slia. apply (below_16 (utf8_len s)); [exact S|lia|lia|]. rewrite Z.pow_add_r, Z.pow_1_r by slia. pose proof (Z.pow_gt_lin_r 16 size ltac:(lia) ltac:(lia)). slia.
    - repeat match goal with H : drawn text (Integer _) |- _ => inversion H; subst; clear H end. repeat match goal with H : taken_integer text ?n |- _ => apply integer_bound in H; rewrite Z.abs_eq in H by assumption end.
      enough (Z.of_nat (length w) <= 2 * (size + 2)) by slia. apply (below_16 (m + n)); [exact S|lia|lia|]. replace (size + 2) with (size + 1 + 1) by slia. rewrite (Z.pow_add_r 16 (size + 1) 1), Z.pow_1_r by slia. slia.
    - repeat match goal with H : drawn text (Integer _) |- _ => inversion H; subst; clear H end. repeat match goal with H : taken_integer text ?n |- _ => apply integer_bound in H; rewrite Z.abs_eq in H by assumption end.
      enough (Z.of_nat (length w) <= 3 * (size + 1)) by slia. apply (below_256 (m * n)); [exact S|nia|lia|]. replace (256 ^ (size + 1)) with (16 ^ (size + 1) * 16 ^ (size + 1)) by (rewrite <- Z.pow_mul_l; reflexivity). snia.
  Qed.
  Lemma factorial_below : forall W n, 0 < W -> 0 <= n < 2 ^ W -> factorial n <= 16 ^ (W * n).
  Proof.
    intros W n HW [H0 H]. unfold factorial. rewrite <- (Z2Nat.id n H0) in H |- * at 2. generalize dependent (Z.to_nat n). clear n H0. intros k H.
    induction k as [|k IH]; [cbn; rewrite Z.mul_0_r; cbn; lia|]. assert (I : Z.of_nat (fact k) <= 16 ^ (W * Z.of_nat k)) by (apply IH; lia).
    change (fact (S k)) with (S k * fact k)%nat. rewrite Nat2Z.inj_mul. replace (W * Z.of_nat (S k)) with (W + W * Z.of_nat k) by slia. rewrite Z.pow_add_r by slia.
    assert (2 ^ W <= 16 ^ W) by (apply Z.pow_le_mono_l; lia). apply Z.mul_le_mono_nonneg; slia.
  Qed.
  Lemma fib_below : forall n, fib n <= 2 ^ Z.of_nat n /\ fib (S n) <= 2 ^ Z.of_nat (S n).
  Proof.
    induction n as [|n [H1 H2]]; [cbn; lia|]. split; [exact H2|]. change (fib (S (S n))) with (fib (S n) + fib n).
    rewrite !Nat2Z.inj_succ in *. rewrite !Z.pow_succ_r in * by slia. pose proof (Z.pow_nonneg 2 (Z.of_nat n) ltac:(lia)). slia.
  Qed.
  Lemma applied_length_any : forall W f args b w, 0 < W -> applied W f args (Ok b) -> Forall (drawn text) args -> Forall fine args -> shown b w ->
    Z.of_nat (length w) <= 2 * (size + 12) * 2 ^ 64 + 2 * W * 2 ^ W.
  Proof.
    intros W f args b w HW A D F S. assert (P : 1 <= 2 ^ W) by (pose proof (Z.pow_pos_nonneg 2 W ltac:(lia) ltac:(lia)); lia). assert (Q : 2 * W <= 2 * W * 2 ^ W) by snia.
    destruct (in_dec (list_eq_dec N.eq_dec) f [lit "power"; lit "factorial"; lit "fibonacci"]) as [G|G];
      [|pose proof (applied_length W f args b w A D F G S); nia].
    assert (E : 2 ^ (W - 1) <= 2 ^ W) by (apply Z.pow_le_mono_r; lia).
    inversion A; subst; try (exfalso; cbn in G; repeat (destruct G as [G|G]; [discriminate G|]); exact G);
      repeat match goal with H : Forall _ (_ :: _) |- _ => inversion H; subst; clear H end; cbn [fine] in *.
    - assert (B := factorial_below W n HW ltac:(lia)). assert (0 <= factorial n) by (unfold factorial; lia).
      enough (Z.of_nat (length w) <= 2 * (W * n + 1)) by snia. apply (below_16 (factorial n)); [exact S|lia|nia|]. rewrite Z.pow_add_r, Z.pow_1_r by snia. assert (0 < 16 ^ (W * n)) by (apply Z.pow_pos_nonneg; nia). slia.
    - pose proof (decimal_length d w ltac:(assumption) S). snia.
    - assert (B := proj1 (fib_below (Z.to_nat n))). pose proof (proj1 (fib_nonneg (Z.to_nat n))). rewrite Z2Nat.id in B by slia.
      enough (Z.of_nat (length w) <= 2 * (n + 1)) by snia. apply (below_16 (fib (Z.to_nat n))); [exact S|lia|lia|]. rewrite Z.pow_add_r, Z.pow_1_r by slia. pose proof (Z.pow_le_mono_l 2 16 n ltac:(lia)). pose proof (Z.pow_pos_nonneg 16 n ltac:(lia) ltac:(lia)). slia.
    - slia.
    - pose proof (decimal_length d w ltac:(assumption) S). snia.
    - repeat match goal with H : drawn text (Integer _) |- _ => inversion H; subst; clear H end. repeat match goal with H : taken_integer text ?n |- _ => apply integer_bound in H; rewrite Z.abs_eq in H by assumption end.
      enough (Z.of_nat (length w) <= 2 * ((size + 1) * n + 1)) by snia. apply (below_16 (m ^ n)); [exact S|apply Z.pow_nonneg; assumption|nia|].
      rewrite Z.pow_add_r, Z.pow_1_r, Z.pow_mul_r by snia. pose proof (Z.pow_le_mono_l m (16 ^ (size + 1)) n ltac:(lia)). assert (0 < (16 ^ (size + 1)) ^ n) by (apply Z.pow_pos_nonneg; lia). slia.
    - pose proof (value_length (Integer m) w ltac:(eassumption) ltac:(cbn; assumption) ltac:(discriminate) S). snia.
  Qed.

  Lemma last_piece : forall w k, parts w k -> SpecSafe.contains (last k []) w.
  Proof.
    induction 1 as [w _|a b k _ Hk (p & q & IH)]; [exists [], []; rewrite app_nil_r; reflexivity|].
    exists (a ++ lit "::" ++ p), q. rewrite <- !app_assoc. destruct k as [|x k]; [inversion Hk|]. cbn [last]. cbn [last] in IH. congruence.
  Qed.
  Lemma growing_contains : forall s, taken_symbol text s -> growing (name s) -> exists x, In x growing_words /\ SpecSafe.contains x text.
  Proof.
    assert (F : forall (x : str) k (P : Prop), In x k -> (forall y, In y k -> y <> x) -> P) by (intros x k P H N; exfalso; exact (N x H eq_refl)).
    intros s T G. destruct T as [w s H N|o q n p H C|o n H C|o n H C|].
    - destruct H as [H|H].
      + destruct N as [w k P]. cbn [name] in G. pose proof (last_piece w k P) as L. exists (last k []). split; [|exact (has_trans _ _ _ L H)]. unfold growing in G. unfold growing_words. cbn in G |- *. tauto.
      + exfalso. apply ProofValue.named_symbol in N. subst s. repeat (destruct H as [<-|H]; [repeat (destruct G as [G|G]; [discriminate G|]); exact G|]). exact H.
    - apply lookup_in in H. cbn [name] in G. repeat (destruct H as [H|H]; [injection H as <- _ <- _; first [exists (lit "^"); split; [left; reflexivity|exact C] | exfalso; repeat (destruct G as [G|G]; [discriminate G|]); exact G]|]). destruct H.
    - apply lookup_in in H. cbn [name] in G. exfalso. repeat (destruct H as [H|H]; [injection H as <- <-; repeat (destruct G as [G|G]; [discriminate G|]); exact G|]). exact H.
    - apply lookup_in in H. cbn [name] in G. exists (lit "!"). split; [right; left; reflexivity|]. destruct H as [H|[H|H]]; [injection H as <- _; exact C|injection H as <- _|destruct H].
      eapply has_trans; [|exact C]. exists [], (lit "!"). reflexivity.
    - exfalso. repeat (destruct G as [G|G]; [discriminate G|]). exact G.
  Qed.
End Bounds.

(** ** Replies *)
Lemma answer_tree : forall U W calls text w, sane U -> 0 < W -> answer U W calls text = Ret (Ok w) ->
  exists a b, drawn text a /\ produced U a /\ evaluates W a (Ok b) /\ shown b w.
Proof.
  intros U W calls text w HU HW H. apply reply_ok in H as (a & b & P & E & S); [|exact HW]. apply understood_parse in P. exists a, b.
  split; [apply (parse_drawn U _ _ _ P)|]. split; [|split; assumption]. destruct (parse_produced U _ _ _ HU P) as [->|Q]; [|exact Q].
  inversion E; subst. inversion S.
Qed.
Lemma back_no_value : forall W o l p b, ~ evaluates W (Function (input_symbol o) [mkParam l [] p]) (Ok b).
Proof. intros W o l p b H. inversion H as [| |s args opts pos r A|]; subst; [contradiction|]. destruct o; cbn [input_symbol name] in A; inversion A. Qed.
Lemma produced_args : forall U W s args opts pos b, produced U (Function s [mkParam args opts pos]) -> evaluates W (Function s [mkParam args opts pos]) (Ok b) -> Forall fine args.
Proof.
  intros U W s args opts pos b P E. inversion P as [| | | | | |s' ps H1 H2 H3| | |o n l p Hn Hl]; subst.
  - inversion H3 as [|? ? (H & _) _]; subst. exact (produced_forall U _ H).
  - eapply produced_forall; eassumption.
  - apply Forall_app. split; [eapply produced_forall; eassumption|]. eapply Forall_impl; [|eassumption]. intros x. apply simple_fine.
  - contradiction (back_no_value W o _ _ b E).
Qed.
Lemma self_normal : forall U a, produced U a -> forall s, a = Sym s -> kind s = Normal.
Proof. intros U a P s ->. inversion P as [| | | |s' (_ & K & _) _| | | | |]; subst; [reflexivity|exact K]. Qed.
Lemma short_reply : forall U W calls text w, sane U -> 0 < W -> avoids growing_words text -> answer U W calls text = Ret (Ok w) ->
  (length w <= 3 * length text + 24)%nat.
Proof.
  intros U W calls text w HU HW A H. destruct (answer_tree U W calls text w HU HW H) as (a & b & D & P & E & S).
  enough (Z.of_nat (length w) <= 3 * Z.of_nat (length text) + 24) by lia.
  inversion E as [a' N|s|s args opts pos r Ap|]; subst.
  - pose proof (value_length text b w D (produced_fine U b P) (self_normal U b P) S). lia.
  - inversion P; subst. contradiction.
  - pose proof (produced_args _ _ _ _ _ _ _ P E) as F. inversion D as [| | | | | | |s' ps T X]; subst. inversion X as [|? ? (Y & _) _]; subst. cbn [arguments] in Y.
    apply (applied_length text W (name s) args b); try assumption. intros G. destruct (growing_contains text s T G) as (x & I & C). exact (A x I C).
Qed.
Lemma any_reply : forall U W calls text w, sane U -> 0 < W -> answer U W calls text = Ret (Ok w) ->
  Z.of_nat (length w) <= 2 * (Z.of_nat (length text) + 12) * 2 ^ 64 + 2 * W * 2 ^ W.
Proof.
  intros U W calls text w HU HW H. destruct (answer_tree U W calls text w HU HW H) as (a & b & D & P & E & S).
  inversion E as [a' N|s|s args opts pos r Ap|]; subst.
  - pose proof (value_length text b w D (produced_fine U b P) (self_normal U b P) S). assert (1 <= 2 ^ W) by (pose proof (Z.pow_pos_nonneg 2 W ltac:(lia) ltac:(lia)); lia). nia.
  - inversion P; subst. contradiction.
  - pose proof (produced_args _ _ _ _ _ _ _ P E) as F. inversion D as [| | | | | | |s' ps T X]; subst. inversion X as [|? ? (Y & _) _]; subst. cbn [arguments] in Y.
    apply (applied_length_any text W (name s) args b); assumption.
Qed.
(** ** A long one *)
Lemma power_of_ten : forall k, numeral_of (10 ^ Z.of_nat k) (49%N :: repeat 48%N k).
Proof.
  intros k. split; [discriminate|]. split; [constructor; [unfold is_digit; lia|apply zeros_digits]|]. split; [|intros X; discriminate X].
  rewrite numeral_value_cons, zeros_value, repeat_length. change (digit_value 49%N) with 1. lia.
Qed.
Lemma long_reply : forall U, sane U -> forall W calls n x, 0 <= n < 2 ^ 64 -> numeral_of n x ->
  answer U W calls (lit "10^" ++ x) = Ret (Ok (49%N :: repeat 48%N (Z.to_nat n))).
Proof.
  intros U HU W calls n x H X.
  assert (T : numeral_of 10 (lit "10")) by exact (power_of_ten 1).
  destruct (answer_power U HU W calls [] 10 (lit "10") [] [] n x [] eq_refl T eq_refl eq_refl X eq_refl) as (z & Z1 & R).
  cbn [app] in R. rewrite app_nil_r in R. destruct (Z.ltb_spec n (2 ^ 64)); [|lia]. change (lit "10^" ++ x) with (lit "10" ++ lit "^" ++ x). etransitivity; [exact R|]. do 2 f_equal.
  pose proof (power_of_ten (Z.to_nat n)) as P. rewrite Z2Nat.id in P by lia. exact (numeral_of_inj _ _ _ Z1 P).
Qed.
Lemma long_length : forall U, sane U -> forall W calls n x, 0 <= n < 2 ^ 64 -> numeral_of n x ->
  exists w, answer U W calls (lit "10^" ++ x) = Ret (Ok w) /\ Z.of_nat (length w) = n + 1.
Proof.
  intros U HU W calls n x H X. eexists. split; [exact (long_reply U HU W calls n x H X)|]. cbn [length]. rewrite repeat_length, Nat2Z.inj_succ, Z2Nat.id by apply H. reflexivity.
Qed.
Lemma largest_exponent : numeral_of (2 ^ 64 - 1) (lit "18446744073709551615").
Proof. split; [discriminate|]. split; [repeat (constructor; [split; discriminate|]); constructor|]. split; [vm_compute; reflexivity|intros X; discriminate X]. Qed.
Lemma longest_reply : forall U, sane U -> forall W calls, exists text w, length text = 23%nat /\ answer U W calls text = Ret (Ok w) /\ Z.of_nat (length w) = 2 ^ 64.
Proof.
  intros U HU W calls. destruct (long_length U HU W calls (2 ^ 64 - 1) _ ltac:(lia) largest_exponent) as (w & A & L). exists (lit "10^" ++ lit "18446744073709551615"), w.
  split; [reflexivity|]. split; [exact A|]. rewrite L. lia.
Qed.
Lemma length_sample : avoids growing_words (lit "99 * 99999999") /\ answer ascii_only 64 [] (lit "99 * 99999999") = Ret (Ok (lit "9899999901")) /\
  answer ascii_only 64 [] (lit "20!") = Ret (Ok (lit "2432902008176640000")).
Proof. split; [apply avoids_chk; vm_compute; reflexivity|]. split; vm_compute; reflexivity. Qed.
