(** Texts and their meanings, from the reference syntax. *)
From Verif Require Import Base Ast Display SmError Peg Build SpecAst SpecClimb SpecSyntax SpecText.
From Verif Require Import SpecOrder ProofOrder ProofAst ProofDisplay ProofAtom ProofToken ProofText ProofStatement ProofComment ProofSource.
From Verif Require Import SpecSource.
Local Open Scope nat_scope.
Local Open Scope outcome_scope.

Lemma bind_ret : forall V (o : outcome V), (a <- o; Ret a) = o.
Proof. intros V [a| |]; reflexivity. Qed.
Lemma all_ret : forall V (l : list V), all (map Ret l) = Ret l.
Proof. induction l as [|a l IH]; [reflexivity|]. cbn [map all obind]. rewrite IH. reflexivity. Qed.
Lemma numeral_of_numeral : forall n x, numeral_of n x -> numeral x = true /\ numeral_value x = n.
Proof. intros n x H. pose proof (show_nat_unique n x H) as <-. apply show_nat_numeral. destruct H as (_ & H2 & <- & _). apply numeral_value_bounds. exact H2. Qed.

Lemma firstn_length_app : forall (a b : list N), firstn (length a) (a ++ b) = a.
Proof. induction a as [|c a IH]; intros b; [reflexivity|]. cbn [length app firstn]. rewrite IH. reflexivity. Qed.
Lemma skipn_length_app : forall (a b : list N), skipn (length a) (a ++ b) = b.
Proof. induction a as [|c a IH]; intros b; [reflexivity|]. exact (IH b). Qed.

(** ** Starts *)
Definition harmless (c : char) : bool := (digit c || existsb (N.eqb c) [33; 34; 35; 40; 42; 43; 45; 91; 95; 123; 172; 182; 8267]%N)%bool.
Lemma harmless_plain : forall x, head_is harmless x = true -> plain_start x = true.
Proof.
  intros [|c x] H; [discriminate|]. cbn [head_is] in H. unfold plain_start.
  assert (N : forall k, existsb (N.eqb k) [59; 65307; 64; 117; 99; 116; 101; 114; 98; 112; 105; 102; 108; 100]%N = true -> (c =? k)%N = false).
  { intros k Hk. apply N.eqb_neq. intros ->. apply existsb_exists in Hk as (k' & Hk & E). apply N.eqb_eq in E as <-.
    repeat (destruct Hk as [<-|Hk]; [discriminate|]). destruct Hk. }
  cbn [head_is]. rewrite !N by reflexivity. cbn [orb negb andb].
  assert (S : forall d k, existsb (N.eqb d) [59; 65307; 64; 117; 99; 116; 101; 114; 98; 112; 105; 102; 108; 100]%N = true -> starts_with (d :: k) (c :: x) = false).
  { intros d k Hd. unfold starts_with. cbn [strip_prefix]. rewrite N.eqb_sym, N by exact Hd. reflexivity. }
  unfold statement_words. repeat match goal with |- context [lit ?s] => let v := eval vm_compute in (lit s) in change (lit s) with v end.
  cbn [existsb]. rewrite !S by reflexivity. reflexivity.
Qed.
Lemma digit_harmless : forall x, head_is digit x = true -> head_is harmless x = true.
Proof. intros [|c x] H; [discriminate|]. cbn [head_is] in *. unfold harmless. rewrite H. reflexivity. Qed.

Lemma shown_split : forall n (x y : list N), (0 <= n)%Z -> show_nat n = x ++ y -> x <> [] -> y <> [] ->
  show_decimal (mkDecimal n (Z.of_nat (length y))) = x ++ lit "." ++ y.
Proof.
  intros n x y Hn E Nx Ny. unfold show_decimal. cbn [dec_int dec_scale]. unfold str, char in *. rewrite Z.abs_eq, E by exact Hn. rewrite app_length.
  assert (0 < length x) by (destruct x; [congruence|cbn [length]; lia]).
  rewrite Z.geb_leb. destruct (Z.leb_spec (Z.of_nat (length x + length y)) (Z.of_nat (length y))); [lia|].
  rewrite Z.gtb_ltb. destruct (Z.ltb_spec (Z.of_nat (length x + length y)) (Z.of_nat (length x + length y) - Z.of_nat (length y))); [lia|].
  replace (Z.to_nat (Z.of_nat (length x + length y) - Z.of_nat (length y))) with (length x) by lia.
  rewrite firstn_length_app, skipn_length_app. destruct y as [|d y]; [congruence|]. destruct (Z.ltb_spec n 0); [lia|]. reflexivity.
Qed.

Section Syntax.
  Variable U : unicode.
  Notation expr := (SpecSource.expr U).
  Notation node := (SpecSource.node U).
  Notation term := (SpecSource.term U).
  Notation rest := (SpecSource.rest U).

  Lemma term_expr : forall x o, term x o -> expr x o.
  Proof.
    intros x o H. pose proof (e_intro U x o [] [] [] [] (Leaf (Operand o)) H (r_nil U) eq_refl (r_nil U) eq_refl eq_refl (wb_leaf _ _ _)) as X.
    rewrite !app_nil_r in X. exact X.
  Qed.
  Lemma node_term : forall x o, node x o -> term x o.
  Proof.
    intros x o H. pose proof (t_intro U [] x o [] [] eq_refl H (s_nil U)) as X. cbn [app suffix_value prefix_value obind] in X.
    rewrite app_nil_r in X. rewrite bind_ret in X. exact X.
  Qed.
  Lemma node_expr : forall x o, node x o -> expr x o.
  Proof. intros x o H. apply term_expr, node_term, H. Qed.

  Hypothesis HU : sane U.
  Lemma expr_nonempty : forall x o, expr x o -> x <> [].
  Proof. intros x o H ->. destruct (source_expr U HU [] o H) as [_ F]. discriminate F. Qed.
  Lemma node_text : forall g x o ws, spacing g = true -> node x o -> plain_start x = true -> closing ws = true -> denotes U (g ++ x ++ ws) o.
  Proof. intros g x o ws Hg H P Hw. apply source_text; try assumption. apply node_expr, H. Qed.

  (** ** Numbers *)
  Lemma text_integer : forall g n x ws, spacing g = true -> numeral_of n x -> closing ws = true -> denotes U (g ++ x ++ ws) (Ret (Integer n)).
  Proof.
    intros g n x ws Hg H Hw. apply numeral_of_numeral in H as [H <-]. apply node_text; [assumption| |apply harmless_plain, digit_harmless|assumption].
    - apply n_integer. exact H.
    - pose proof (numeral_lead x [] H) as X. rewrite app_nil_r in X. exact X.
  Qed.
  Lemma zeros_product : forall y, numeral y = true -> forall k,
    product U (KInt [48%N]) (repeat 48%N (S k) ++ y) (map Ret (repeat (Integer 0) (S k) ++ [Integer (numeral_value y)])).
  Proof.
    intros y Hy. assert (Z : factor U (KInt [48%N]) [48%N] (Ret (Integer 0))) by (apply (f_integer U [48%N]); reflexivity).
    induction k as [|k IH].
    - apply (p_more U (KInt [48%N]) [48%N] _ [] (KInt y) y); [exact Z|reflexivity|reflexivity|]. apply p_one, f_integer, Hy.
    - apply (p_more U (KInt [48%N]) [48%N] _ [] (KInt [48%N]) (repeat 48%N (S k) ++ y)); [exact Z|reflexivity|reflexivity|exact IH].
  Qed.
  Lemma text_zeros : forall g k n y ws, spacing g = true -> numeral_of n y -> closing ws = true ->
    denotes U (g ++ (repeat 48%N (S k) ++ y) ++ ws) (Ret (times (repeat (Integer 0) (S k) ++ [Integer n]))).
  Proof.
    intros g k n y ws Hg H Hw. apply numeral_of_numeral in H as [H <-]. apply node_text; [assumption| |apply harmless_plain; reflexivity|assumption].
    pose proof (zeros_product y H k) as P.
    assert (E : (vs <- all (map Ret (repeat (Integer 0) (S k) ++ [Integer (numeral_value y)])); Ret (times vs)) = Ret (times (repeat (Integer 0) (S k) ++ [Integer (numeral_value y)]))).
    { rewrite all_ret. reflexivity. }
    rewrite <- E. clear E. destruct k as [|k]; cbn [repeat app map] in *; (eapply n_product; [exact P|reflexivity]).
  Qed.
  Lemma text_based : forall g b P s ws, spacing g = true -> based b P -> s <> [] -> grouped P s = true -> closing ws = true ->
    denotes U (g ++ (48%N :: b :: s) ++ ws) (byte_value b s).
  Proof.
    intros g b P s ws Hg Hb N Hs Hw. apply node_text; [assumption| |apply harmless_plain; reflexivity|assumption].
    exact (n_based U b P s Hb N Hs).
  Qed.
  Lemma numeral_split : forall x, numeral x = true -> x <> [48%N] -> exists c x', x = c :: x' /\ c <> 48%N /\ forallb digit (c :: x') = true.
  Proof.
    intros [|c x] H N; [discriminate|]. cbn [numeral] in H. destruct (N.eqb_spec c 48) as [->|].
    - destruct x; [destruct N; reflexivity|discriminate].
    - exists c, x. auto.
  Qed.
  Lemma numeral_forall : forall x, numeral x = true -> forallb digit x = true.
  Proof.
    intros x H. destruct (list_eq_dec N.eq_dec x [48%N]) as [->|N]; [reflexivity|]. destruct (numeral_split x H N) as (c & x' & -> & _ & D). exact D.
  Qed.
  Lemma digits_spec : forall x, forallb digit x = true -> Forall is_digit x.
  Proof. intros x H. apply Forall_forall. intros c Hc. rewrite forallb_forall in H. specialize (H c Hc). unfold digit in H. apply andb_prop in H as [A B]. apply N.leb_le in A, B. split; assumption. Qed.
  Lemma show_digits : forall c x, c <> 48%N -> forallb digit (c :: x) = true -> show_nat (numeral_value (c :: x)) = c :: x.
  Proof.
    intros c x Hc H. apply show_nat_unique. split; [discriminate|]. split; [apply digits_spec; exact H|]. split; [reflexivity|].
    intros E. injection E as ->. congruence.
  Qed.
  Lemma show_numeral : forall x, numeral x = true -> show_nat (numeral_value x) = x.
  Proof.
    intros x H. destruct (list_eq_dec N.eq_dec x [48%N]) as [->|N]; [reflexivity|]. destruct (numeral_split x H N) as (c & x' & -> & C & D). apply show_digits; assumption.
  Qed.
  Lemma shown_decimal : forall x y, numeral x = true -> numeral y = true ->
    show_decimal (mkDecimal (numeral_value (x ++ y)) (Z.of_nat (length y))) = x ++ lit "." ++ y.
  Proof.
    intros x y Hx Hy. pose proof (numeral_forall x Hx) as Dx. pose proof (numeral_forall y Hy) as Dy.
    assert (NN : (0 <= numeral_value (x ++ y))%Z).
    { apply numeral_value_bounds, digits_spec. rewrite forallb_app, Dx, Dy. reflexivity. }
    assert (Ly : y <> []) by (intros ->; discriminate).
    destruct (list_eq_dec N.eq_dec x [48%N]) as [->|N].
    - assert (E : numeral_value ([48%N] ++ y) = numeral_value y) by (rewrite numeral_value_app; cbn; lia).
      unfold show_decimal. cbn [dec_int dec_scale]. unfold str, char in *. rewrite Z.abs_eq by exact NN. destruct (Z.ltb_spec (numeral_value ([48%N] ++ y)) 0); [lia|].
      rewrite E, show_numeral by exact Hy. rewrite Z.geb_leb. destruct (Z.leb_spec (Z.of_nat (length y)) (Z.of_nat (length y))); [|lia].
      rewrite Z.sub_diag. cbn [Z.to_nat zeros app]. destruct y as [|c y]; [congruence|]. reflexivity.
    - assert (X : x <> []) by (intros ->; discriminate). rewrite <- shown_split with (n := numeral_value (x ++ y)); [reflexivity|exact NN| |exact X|exact Ly].
      destruct (numeral_split x Hx N) as (c & x' & -> & C & D). apply (show_digits c (x' ++ y) C).
      change (c :: x' ++ y) with ((c :: x') ++ y). rewrite forallb_app. apply andb_true_intro. split; assumption.
  Qed.
  Lemma text_decimal : forall g i j x y ws, spacing g = true -> numeral_of i x -> numeral_of j y -> closing ws = true ->
    exists d, denotes U (g ++ (x ++ lit "." ++ y) ++ ws) (Ret (Decimal d)) /\ dec_int d = (i * 10 ^ Z.of_nat (length y) + j)%Z /\ dec_scale d = Z.of_nat (length y) /\
      display (Decimal d) = Ret (x ++ lit "." ++ y).
  Proof.
    intros g i j x y ws Hg Hx Hy Hw. apply numeral_of_numeral in Hx as [Hx <-]. apply numeral_of_numeral in Hy as [Hy <-].
    exists (mkDecimal (numeral_value (x ++ y)) (Z.of_nat (length y))). split; [|split; [apply numeral_value_app|split; [reflexivity|]]].
    - apply node_text; [assumption|apply n_decimal; assumption| |assumption]. apply harmless_plain, digit_harmless, numeral_lead, Hx.
    - cbn [display]. rewrite shown_decimal by assumption. reflexivity.
  Qed.
  Lemma text_decimal_zeros : forall g x k y ws, spacing g = true -> numeral x = true -> numeral y = true -> closing ws = true ->
    denotes U (g ++ (x ++ lit "." ++ repeat 48%N (S k) ++ y) ++ ws) (Panic PUnreachable).
  Proof.
    intros g x k y ws Hg Hx Hy Hw. apply node_text; [assumption| |apply harmless_plain, digit_harmless, numeral_lead, Hx|assumption].
    assert (D : factor U (KDecimal [48%N]) (x ++ lit "." ++ [48%N]) (Panic PUnreachable)) by (apply f_decimal; [exact Hx|reflexivity]).
    assert (P : exists k' o os, product U k' (repeat 48%N k ++ y) (o :: os) /\ touches (KDecimal [48%N]) k').
    { destruct k as [|k].
      - exists (KInt y). eexists. eexists. split; [apply p_one, f_integer, Hy|reflexivity].
      - exists (KInt [48%N]). eexists. eexists. split; [apply zeros_product, Hy|reflexivity]. }
    destruct P as (k' & o & os & P & T). pose proof (p_more U _ _ _ [] _ _ _ D eq_refl (fun _ => T) P) as X.
    pose proof (n_product U _ _ _ _ _ X eq_refl) as Y. cbn [repeat all obind] in *. rewrite <- !app_assoc in Y. exact Y.
  Qed.

  (** ** Strings *)
  Lemma text_string : forall g s ws, spacing g = true -> quotable s = true -> closing ws = true -> denotes U (g ++ quoted s ++ ws) (Ret (Str s)).
  Proof. intros g s ws Hg H Hw. apply node_text; [assumption|apply n_string, l_line; assumption|apply harmless_plain; reflexivity|assumption]. Qed.
  Lemma text_block : forall g n s ws, spacing g = true -> fenceable n s = true -> closing ws = true ->
    denotes U (g ++ fenced n s ++ ws) (Ret (Str s)).
  Proof. intros g n s ws Hg H Hw. apply node_text; [assumption|apply n_string, l_block; assumption|apply harmless_plain; reflexivity|assumption]. Qed.
  Lemma quotable_escape : forall s, quotable (escape s) = true.
  Proof.
    induction s as [|c s IH]; [reflexivity|]. change (escape (c :: s)) with ((if (c =? 34)%N || (c =? 92)%N then [92%N; c] else [c]) ++ escape s).
    destruct (N.eqb_spec c 34) as [->|N1]; [exact IH|]. destruct (N.eqb_spec c 92) as [->|N2]; [exact IH|]. cbn [orb app quotable].
    destruct (N.eqb_spec c 92); [congruence|]. destruct (N.eqb_spec c 34); [congruence|]. exact IH.
  Qed.
  Lemma escape_plain : forall s, ~ In 34%N s -> ~ In 92%N s -> escape s = s.
  Proof.
    induction s as [|c s IH]; intros H1 H2; [reflexivity|]. change (escape (c :: s)) with ((if (c =? 34)%N || (c =? 92)%N then [92%N; c] else [c]) ++ escape s).
    rewrite IH; [|intro X; apply H1; right; exact X|intro X; apply H2; right; exact X]. destruct (N.eqb_spec c 34) as [->|]; [destruct H1; left; reflexivity|].
    destruct (N.eqb_spec c 92) as [->|]; [destruct H2; left; reflexivity|]. reflexivity.
  Qed.
  Lemma escape_longer : forall s, In 34%N s \/ In 92%N s -> length s < length (escape s).
  Proof.
    assert (L : forall s, length s <= length (escape s)).
    { induction s as [|c s IH]; [reflexivity|]. change (escape (c :: s)) with ((if (c =? 34)%N || (c =? 92)%N then [92%N; c] else [c]) ++ escape s).
      rewrite app_length. destruct ((c =? 34)%N || (c =? 92)%N); cbn [length]; unfold str, char in *; lia. }
    induction s as [|c s IH]; intros H; [destruct H as [[]|[]]|]. change (escape (c :: s)) with ((if (c =? 34)%N || (c =? 92)%N then [92%N; c] else [c]) ++ escape s).
    rewrite app_length. specialize (L s). destruct (N.eqb_spec c 34) as [->|N1]; [cbn [orb length]; unfold str, char in *; lia|]. destruct (N.eqb_spec c 92) as [->|N2]; [cbn [orb length]; unfold str, char in *; lia|].
    assert (length s < length (escape s)) by (apply IH; destruct H as [[H|H]|[H|H]]; try congruence; auto). cbn [orb length]. unfold str, char in *. lia.
  Qed.
  Lemma text_escaped : forall g s ws, spacing g = true -> closing ws = true -> denotes U (g ++ quoted (escape s) ++ ws) (Ret (Str (escape s))) /\ (escape s = s <-> ~ In 34%N s /\ ~ In 92%N s).
  Proof.
    intros g s ws Hg Hw. split; [apply text_string; [assumption|apply quotable_escape|assumption]|]. split.
    - intros E. split; intros H; pose proof (escape_longer s) as L; rewrite E in L; [specialize (L (or_introl H))|specialize (L (or_intror H))]; unfold str, char in *; lia.
    - intros [H1 H2]. apply escape_plain; assumption.
  Qed.

  (** ** Names *)
  Lemma word_plain : forall w l, segment U w = true -> existsb (fun k => starts_with k (w ++ path_tail l)) statement_words = false -> plain_start (w ++ path_tail l) = true.
  Proof.
    intros w l Hw H. unfold plain_start. rewrite H. rewrite andb_true_r. apply negb_true_iff. apply (part_inv U HU) in Hw as (y & m & -> & Hw & _).
    rewrite <- app_assoc. destruct y as [|c y]; [discriminate|]. cbn [app head_is].
    apply not_true_iff_false. intros E.
    assert (X : xid_start U c = false /\ (c =? 95)%N = false).
    { apply orb_prop in E as [E|E]; [apply orb_prop in E as [E|E]|]; apply N.eqb_eq in E; subst c; split; try reflexivity. apply HU. reflexivity. }
    destruct X as [X1 X2]. cbn [word] in Hw. rewrite X1, X2 in Hw. discriminate.
  Qed.
  Lemma text_name : forall g w l ws, spacing g = true -> segment U w = true -> forallb (segment U) l = true ->
    existsb (fun k => starts_with k (w ++ path_tail l)) (statement_words ++ constant_words) = false -> closing ws = true ->
    denotes U (g ++ (w ++ path_tail l) ++ ws) (Ret (Sym (named w l))).
  Proof.
    intros g w l ws Hg Hw Hl H Hs. rewrite existsb_app in H. apply orb_false_elim in H as [H1 H2].
    apply node_text; [assumption|apply n_name; assumption|apply word_plain; assumption|assumption].
  Qed.
  Lemma segment_join : forall w v, word U w = true -> word U v = true -> segment U (w ++ 8759%N :: v) = true.
  Proof.
    intros w v Hw Hv. pose proof (word_part U HU w Hw) as A. pose proof (word_part U HU v Hv) as B. unfold segment in *.
    assert (C : forall w, cut_at 8759%N (w ++ 8759%N :: v) = cut_at 8759%N w ++ cut_at 8759%N v).
    { clear. induction w as [|c w IH]; [reflexivity|]. cbn [app cut_at]. rewrite IH. destruct (c =? 8759)%N; [reflexivity|].
      destruct (cut_join 8759%N w) as (y & l & E & _). rewrite E. reflexivity. }
    rewrite C, forallb_app, A, B. reflexivity.
  Qed.
  Lemma text_ratio : forall g w v ws, spacing g = true -> word U w = true -> word U v = true ->
    existsb (fun k => starts_with k (w ++ 8759%N :: v)) (statement_words ++ constant_words) = false -> closing ws = true ->
    denotes U (g ++ (w ++ 8759%N :: v) ++ ws) (Ret (Sym (mkSymbol [] (w ++ 8759%N :: v) Normal 0))).
  Proof.
    intros g w v ws Hg Hw Hv K Hs. pose proof (text_name g (w ++ 8759%N :: v) [] ws Hg (segment_join w v Hw Hv) eq_refl) as T.
    cbn [path_tail] in T. rewrite app_nil_r in T. exact (T K Hs).
  Qed.

  (** ** Lists of arguments *)
  Definition none_of (o : outcome ast) : argument_value := (None, o).
  Lemma join_cons : forall s (x : str) l, l <> [] -> join s (x :: l) = x ++ s ++ join s l.
  Proof. intros s x [|y l] H; [congruence|reflexivity]. Qed.
  Lemma elements_join : forall xs os, Forall2 (SpecSource.expr U) xs os -> xs <> [] -> elements U (join (lit ", ") xs) os.
  Proof.
    induction 1 as [|x o xs os Hx H IH]; intros N; [congruence|]. destruct xs as [|y xs].
    - inversion H. subst. cbn [join]. rewrite <- (app_nil_r x). apply e_one; [exact Hx|reflexivity].
    - rewrite join_cons by discriminate. apply (e_more U x o [] 44%N [32%N] (join (lit ", ") (y :: xs)) os Hx); [reflexivity|reflexivity|reflexivity|]. apply IH. discriminate.
  Qed.
  Lemma indices_join : forall xs os, Forall2 (SpecSource.index U) xs os -> xs <> [] -> indices U (join (lit ", ") xs) os.
  Proof.
    induction 1 as [|x o xs os Hx H IH]; intros N; [congruence|]. destruct xs as [|y xs].
    - inversion H. subst. cbn [join]. rewrite <- (app_nil_r x). apply i_one; [exact Hx|reflexivity].
    - rewrite join_cons by discriminate. apply (i_more U x o [] 44%N [32%N] (join (lit ", ") (y :: xs)) os Hx); [reflexivity|reflexivity|reflexivity|]. apply IH. discriminate.
  Qed.
  Lemma args_join : forall xs rs, Forall2 (SpecSource.argument U) xs rs -> xs <> [] -> args U (join (lit ", ") xs) rs.
  Proof.
    induction 1 as [|x o xs os Hx H IH]; intros N; [congruence|]. destruct xs as [|y xs].
    - inversion H. subst. cbn [join]. rewrite <- (app_nil_r x). apply a_one; [exact Hx|reflexivity].
    - rewrite join_cons by discriminate. apply (a_more U x o [] 44%N [32%N] (join (lit ", ") (y :: xs)) os Hx); [reflexivity|reflexivity|reflexivity|]. apply IH. discriminate.
  Qed.
  Lemma all_length : forall V (l : list (outcome V)) vs, all l = Ret vs -> length vs = length l.
  Proof.
    induction l as [|o l IH]; intros vs E; cbn [all] in E; [injection E as <-; reflexivity|].
    destruct o; cbn [obind] in E; try discriminate. destruct (all l); cbn [obind] in E; try discriminate. injection E as <-. cbn [length]. rewrite (IH _ eq_refl). reflexivity.
  Qed.
  Lemma parameter_plain : forall os, parameter_of (map none_of os) = (vs <- all os; Ret (mkParam vs [] default_position)).
  Proof.
    intros os. unfold parameter_of. rewrite !map_map. cbn [none_of fst snd]. rewrite map_id. destruct (all os) as [vs| |] eqn:E; cbn [obind]; [|reflexivity..].
    pose proof (all_length _ _ _ E) as L. clear E.
    assert (P : positional (combine (map (fun _ : outcome ast => None) os) vs) = vs /\ keyword (combine (map (fun _ : outcome ast => None) os) vs) = []).
    { revert vs L. induction os as [|o os IH]; intros [|v vs] L; cbn [length] in L; try discriminate; [split; reflexivity|].
      destruct (IH vs ltac:(congruence)) as [P K]. unfold positional, keyword in *. cbn [map combine flat_map fst snd app]. rewrite P, K. split; reflexivity. }
    destruct P as [-> ->]. reflexivity.
  Qed.
  Lemma calls_lists : forall ls rss, Forall2 (Forall2 (SpecSource.argument U)) ls rss -> calls U (lists_text ls) (map parameter_of rss).
  Proof.
    induction 1 as [|xs rs ls rss Hx H IH]; [apply c_nil|]. unfold lists_text. cbn [map concat]. destruct xs as [|x xs].
    - inversion Hx. subst. apply (c_empty U [] [] _ _ eq_refl eq_refl IH).
    - pose proof (c_some U [] [] _ _ [] _ _ eq_refl eq_refl (args_join _ _ Hx ltac:(discriminate)) t_none IH) as X. exact X.
  Qed.
  Lemma lists_lower : forall ls, head_is lower (lists_text ls) = false.
  Proof. intros [|xs ls]; reflexivity. Qed.
  Lemma lists_nonempty : forall ls, ls <> [] -> lists_text ls <> [].
  Proof. intros [|xs ls] H; [congruence|discriminate]. Qed.
  Lemma text_call : forall g w l ls rss ws, spacing g = true -> segment U w = true -> forallb (segment U) l = true -> existsb (fun k => starts_with k (w ++ path_tail l)) statement_words = false ->
    ls <> [] -> Forall2 (Forall2 (SpecSource.argument U)) ls rss -> closing ws = true ->
    denotes U (g ++ ((w ++ path_tail l) ++ lists_text ls) ++ ws) (ps <- all (map parameter_of rss); Ret (Function (named w l) ps)).
  Proof.
    intros g w l ls rss ws Hg Hw Hl Hp Nl H Hs. apply node_text; [assumption| | |assumption].
    - pose proof (calls_lists ls rss H) as C. destruct rss as [|rs rss]; [inversion H; subst; congruence|]. rewrite <- app_assoc. cbn [map] in *. exact (n_call U w l _ _ _ Hw Hl C).
    - apply plain_start_app; [intro Z; apply app_eq_nil in Z as [-> _]; discriminate|apply word_plain; assumption|apply lists_lower].
  Qed.
  (** ** Keyword arguments *)
  Lemma entry_argument : forall e, (good_entry U) e -> SpecSource.argument U (entry_text e) (fst e, Ret (snd (snd e))).
  Proof.
    intros [[k|] [x a]] [Hk Hx]; cbn [fst snd] in *; unfold entry_text; cbn [fst snd].
    - apply (a_keyword U k [] 58%N [32%N] x (Ret a)); auto.
    - apply a_plain. exact Hx.
  Qed.
  Lemma entries_parameter : forall es, parameter_of (map (fun e : entry => (fst e, Ret (snd (snd e)))) es) =
    Ret (mkParam (unnamed es) (ordered_map (map (fun kv => (Sym (named (fst kv) []), snd kv)) (written_keys es))) default_position).
  Proof.
    intros es. unfold parameter_of. rewrite !map_map. cbn [fst snd].
    assert (A : all (map (fun e : entry => Ret (snd (snd e))) es) = Ret (map (fun e => snd (snd e)) es)).
    { etransitivity; [|apply all_ret]. rewrite map_map. reflexivity. }
    unfold entry in *. rewrite A. cbn [obind].
    assert (P : positional (combine (map (fun e : entry => fst e) es) (map (fun e : entry => snd (snd e)) es)) = unnamed es /\
                keyword (combine (map (fun e : entry => fst e) es) (map (fun e : entry => snd (snd e)) es)) = map (fun kv => (Sym (named (fst kv) []), snd kv)) (written_keys es)).
    { clear A. induction es as [|[[k|] [x a]] es [IH1 IH2]]; [split; reflexivity| |]; unfold positional, keyword, unnamed, written_keys in *; cbn [map combine flat_map fst snd app];
        rewrite IH1, IH2; split; reflexivity. }
    destruct P as [P K]. transitivity (Ret (mkParam (positional (combine (map (fun e : entry => fst e) es) (map (fun e : entry => snd (snd e)) es)))
      (ordered_map (keyword (combine (map (fun e : entry => fst e) es) (map (fun e : entry => snd (snd e)) es)))) default_position)); [reflexivity|]. rewrite P, K. reflexivity.
  Qed.
  Lemma named_inj : forall k k', named k [] = named k' [] -> k = k'.
  Proof. intros k k' E. injection E as ->. reflexivity. Qed.
  Lemma keys_compare : forall k k', ast_compare (Sym (named k [])) (Sym (named k' [])) = str_compare k k'.
  Proof. intros k k'. cbn. unfold symbol_compare. cbn. destruct (str_compare k k'); reflexivity. Qed.
  Lemma last_write_map : forall k v (ws : list (str * ast)),
    last_write (fun a b => ast_compare a b = Eq) (Sym (named k [])) v (map (fun kv => (Sym (named (fst kv) []), snd kv)) ws) <-> last_write eq k v ws.
  Proof.
    intros k v ws. split; intros H.
    - inversion H as [before k' after Hk Ha E]. apply ast_symbol_compare_eq in Hk. subst k'. symmetry in E. apply map_eq_app in E as (b1 & l & -> & E1 & E2).
      apply map_eq_cons in E2 as ([k2 v2] & a1 & -> & E3 & E4). cbn [fst snd] in E3. injection E3 as -> ->. subst before after.
      apply last_write_intro; [reflexivity|]. intros e He ->. apply (Ha (Sym (named (fst e) []), snd e)).
      + apply (in_map (fun kv : str * ast => (Sym (named (fst kv) []), snd kv))). exact He.
      + cbn [fst]. exact (proj1 (good_ast (Sym (named (fst e) [])))).
    - inversion H as [before k' after Hk Ha E]. subst k'. rewrite map_app. cbn [map fst snd]. apply last_write_intro; [exact (proj1 (good_ast (Sym (named k []))))|].
      intros e He C. apply in_map_iff in He as (e' & <- & He). cbn [fst] in C. apply ast_symbol_compare_eq in C. injection C as C. exact (Ha e' He (eq_sym C)).
  Qed.
  Lemma last_write_in : forall K V same (k : K) (v : V) ws, last_write same k v ws -> exists k', same k k' /\ In (k', v) ws.
  Proof. intros K V same k v ws H. destruct H as [before k' after Hk _]. exists k'. split; [exact Hk|]. apply in_or_app. right. left. reflexivity. Qed.
  Lemma ordered_keys : forall (ws : list (str * ast)), exists m : list (str * ast),
    ordered_map (map (fun kv => (Sym (named (fst kv) []), snd kv)) ws) = map (fun kv => (Sym (named (fst kv) []), snd kv)) m /\
    strictly_increasing text_before (map fst m) /\ forall k v, In (k, v) m <-> last_write eq k v ws.
  Proof.
    intros ws. pose proof (options_spec (map (fun kv => (Sym (named (fst kv) []), snd kv)) ws)) as [S L]. fold (ordered_map (map (fun kv => (Sym (named (fst kv) []), snd kv)) ws)) in *.
    change (insert_all ast_compare) with ordered_map in *. set (o := ordered_map (map (fun kv => (Sym (named (fst kv) []), snd kv)) ws)) in *.
    assert (K : exists m : list (str * ast), o = map (fun kv => (Sym (named (fst kv) []), snd kv)) m).
    { assert (F : Forall (fun e => exists k, fst e = Sym (named k [])) o).
      { apply Forall_forall. intros [a v] H. cbn [fst]. assert (X : last_write (fun a b => ast_compare a b = Eq) a v (map (fun kv => (Sym (named (fst kv) []), snd kv)) ws)).
        { apply L. exists a. split; [exact (proj1 (good_ast a))|exact H]. }
        apply last_write_in in X as (k' & E & X). apply in_map_iff in X as ([k w] & X & _). cbn [fst snd] in X. injection X as <- _.
        exists k. pose proof (proj1 (proj2 (good_ast a)) (Sym (named k []))) as A. rewrite E in A. cbn [CompOpp] in A. apply ast_symbol_compare_eq in A. exact A. }
      clear - F. induction o as [|[a v] o IH]; [exists []; reflexivity|]. inversion F as [|? ? [k E] F']; subst. destruct (IH F') as [m ->]. cbn [fst] in E. subst a.
      exists ((k, v) :: m). reflexivity. }
    destruct K as [m E]. exists m. split; [exact E|]. rewrite E in *. clearbody o. clear E o. split.
    - intros i j a b Hij Ha Hb. specialize (S i j (Sym (named a [])) (Sym (named b [])) Hij). apply text_lt. rewrite <- keys_compare. rewrite map_map in S. cbn [fst] in S.
      rewrite <- (map_map fst (fun k => Sym (named k []))) in S. exact (S (map_nth_error _ i _ Ha) (map_nth_error _ j _ Hb)).
    - intros k v. rewrite <- last_write_map, <- L. split.
      + intros H. exists (Sym (named k [])). split; [exact (proj1 (good_ast (Sym (named k []))))|]. apply (in_map (fun kv : str * ast => (Sym (named (fst kv) []), snd kv)) m (k, v) H).
      + intros (k' & C & H). apply ast_symbol_compare_eq in C. subst k'. apply in_map_iff in H as ([k2 v2] & X & H). cbn [fst snd] in X. injection X as -> ->. exact H.
  Qed.
  Lemma text_keywords : forall g w l es ws, spacing g = true -> segment U w = true -> forallb (segment U) l = true -> existsb (fun k => starts_with k (w ++ path_tail l)) statement_words = false ->
    Forall (good_entry U) es -> closing ws = true ->
    exists m, denotes U (g ++ ((w ++ path_tail l) ++ paren (join (lit ", ") (map entry_text es))) ++ ws)
      (Ret (Function (named w l) [mkParam (unnamed es) (map (fun kv => (Sym (named (fst kv) []), snd kv)) m) default_position])) /\
    strictly_increasing text_before (map fst m) /\ forall k v, In (k, v) m <-> last_write eq k v (written_keys es).
  Proof.
    intros g w l es ws Hg Hw Hl Hp He Hs. destruct (ordered_keys (written_keys es)) as (m & E & S & L). exists m. split; [|split; assumption].
    rewrite <- E. pose proof (text_call g w l [map entry_text es] [map (fun e : entry => (fst e, Ret (snd (snd e)))) es] ws Hg Hw Hl Hp ltac:(discriminate)) as X.
    cbn [map all] in X. rewrite entries_parameter in X. cbn [obind] in X. unfold lists_text in X. cbn [map concat] in X. rewrite app_nil_r in X. apply X; [|exact Hs].
    constructor; [|constructor]. clear - He. induction He as [|e es H _ IH]; cbn [map]; constructor; [apply entry_argument; exact H|exact IH].
  Qed.
  (** ** Slices *)
  Lemma text_slice : forall g x o is os ws, spacing g = true -> SpecSource.node U x o -> plain_start x = true -> is <> [] -> Forall2 (SpecSource.index U) is os -> closing ws = true ->
    denotes U (g ++ (x ++ lit "[" ++ join (lit ", ") is ++ lit "]") ++ ws) (a <- o; vs <- all os; Ret (call (core (lit "Index")) (a :: vs))).
  Proof.
    intros g x o is os ws Hg Hx Hp Ni Hi Hw. apply source_text; try assumption.
    - apply term_expr. pose proof (s_slice U [] [] _ _ [] [] [] eq_refl eq_refl (indices_join _ _ Hi Ni) t_none (s_nil U)) as S.
      pose proof (t_intro U [] x o _ _ eq_refl Hx S) as T. cbn [app suffix_value prefix_value] in T. rewrite !app_nil_r in T.
      replace (a <- o; vs <- all os; Ret (call (core (lit "Index")) (a :: vs))) with (a <- o; b <- (vs <- all os; Ret (call (core (lit "Index")) (a :: vs))); Ret b); [exact T|].
      destruct o; [|reflexivity..]. destruct (all os); reflexivity.
    - apply plain_start_app; [|exact Hp|reflexivity]. apply (expr_nonempty x o), node_expr, Hx.
  Qed.
  Lemma bound_optional : forall d x o, (bound_is U) d x o -> SpecSource.bound U d (optional x) o.
  Proof. intros d [x|] o H; [apply b_some; exact H|]. cbn in H. subst o. apply b_none. Qed.
  Lemma index_range : forall a oa b ob s os, (bound_is U) (Integer 1) a oa -> (bound_is U) all_bound b ob -> (bound_is U) (Integer 1) (match s with Some s => s | None => None end) os ->
    (a <> None -> b = None -> match s with Some (Some s) => head_is (word_head U) s = false | _ => True end) ->
    SpecSource.index U (range_text a b s) (span oa ob os).
  Proof.
    intros a oa b ob s os Ha Hb Hs C. assert (Nb : b <> Some []) by (intros ->; exact (expr_nonempty _ _ Hb eq_refl)). apply bound_optional in Ha, Hb. unfold range_text. destruct s as [s|].
    - apply bound_optional in Hs. apply (i_step U (optional a) oa [] 58%N [] (optional b) ob [] 58%N [] (optional s) os Ha); try reflexivity; try assumption.
      intros Na Eb. cbn [app] in Eb. rewrite app_nil_r in Eb. destruct a as [a|]; [|destruct Na; reflexivity]. destruct b as [b|].
      + exfalso. apply Nb. cbn [optional] in Eb. subst b. reflexivity.
      + specialize (C ltac:(discriminate) eq_refl). destruct s as [s|]; [exact C|reflexivity].
    - cbn in Hs. subst os. rewrite app_nil_r. apply (i_range U (optional a) oa [] 58%N [] (optional b) ob Ha); auto.
  Qed.
  (** ** Products *)
  Lemma plain_factor_factor : forall x a, (plain_factor U) x a -> exists k, factor U k x (Ret a) /\ is_call k = false.
  Proof.
    intros x a [n y H|w l Hw Hl].
    - apply numeral_of_numeral in H as [H <-]. eexists. split; [apply f_integer; exact H|reflexivity].
    - eexists. split; [apply f_name; assumption|reflexivity].
  Qed.
  Lemma odd_number_factor : forall x, odd_number x -> exists k, factor U k x (Panic PUnreachable) /\ is_call k = false.
  Proof.
    intros x [y z H1 H2|b P s H1 H2 H3].
    - eexists. split; [apply f_decimal; assumption|reflexivity].
    - eexists. split; [eapply f_based; eassumption|reflexivity].
  Qed.
  Lemma odd_factor_factor : forall x, (odd_factor U) x -> exists k, factor U k x (Panic PUnreachable).
  Proof.
    intros x [y H|w l ls rss Hw Hl Nl H].
    - destruct (odd_number_factor y H) as (k & F & _). eauto.
    - pose proof (calls_lists ls rss H) as C. destruct rss as [|rs rss]; [inversion H; subst; congruence|]. rewrite <- app_assoc. cbn [map] in C. eexists.
      exact (f_call U w l _ _ _ Hw Hl C).
  Qed.
  Lemma product_join : forall xs os, Forall2 (fun x o => exists k, factor U k x o) xs os -> xs <> [] -> exists k, product U k (join (lit " ") xs) os /\
    (forall x, hd_error xs = Some x -> exists o, factor U k x o).
  Proof.
    induction 1 as [|x o xs os [k Hx] H IH]; intros N; [congruence|]. destruct xs as [|y xs].
    - inversion H. subst. exists k. split; [apply p_one; exact Hx|]. intros z E. injection E as <-. eauto.
    - destruct (IH ltac:(discriminate)) as (k' & P & _). rewrite join_cons by discriminate. exists k. split.
      + apply (p_more U k x o (lit " ") k' _ os Hx eq_refl); [discriminate|exact P].
      + intros z E. injection E as <-. eauto.
  Qed.
  Lemma join_head : forall s (x : str) l, join s (x :: l) = x ++ match l with [] => [] | _ => s ++ join s l end.
  Proof. intros s x [|y l]; cbn [join]; [rewrite app_nil_r|]; reflexivity. Qed.
  Lemma text_factors : forall g k x o xs os ws, spacing g = true -> factor U k x o -> is_call k = false -> plain_start x = true -> xs <> [] ->
    Forall2 (fun x o => exists k, factor U k x o) xs os -> closing ws = true ->
    denotes U (g ++ join (lit " ") (x :: xs) ++ ws) (vs <- all (o :: os); Ret (times vs)).
  Proof.
    intros g k x o xs os ws Hg Hx Hk Hp Nx H Hw. apply node_text; [assumption| | |assumption].
    - destruct os as [|o' os]; [inversion H; subst; congruence|]. destruct (product_join xs (o' :: os) H Nx) as (k' & P & _).
      rewrite join_cons by exact Nx. apply (n_product U k); [|exact Hk]. apply (p_more U k x o (lit " ") k' _ _ Hx eq_refl); [discriminate|exact P].
    - rewrite join_cons by exact Nx. apply plain_start_app; [|exact Hp|reflexivity].
      destruct Hx; try discriminate; try (intros ->; discriminate); intros Z; apply app_eq_nil in Z as [-> _]; discriminate.
  Qed.
  Lemma all_forall2 : forall xs vs, Forall2 (plain_factor U) xs vs -> Forall2 (fun x o => exists k, factor U k x o) xs (map Ret vs).
  Proof. induction 1 as [|x v xs vs Hx H IH]; cbn [map]; constructor; [|exact IH]. destruct (plain_factor_factor x v Hx) as (k & F & _). eauto. Qed.
  Lemma text_product : forall g xs vs ws, spacing g = true -> Forall2 (plain_factor U) xs vs -> 2 <= length xs -> plain_start (join (lit " ") (firstn 1 xs)) = true -> closing ws = true ->
    denotes U (g ++ join (lit " ") xs ++ ws) (Ret (times vs)).
  Proof.
    intros g xs vs ws Hg H L Hp Hw. destruct H as [|x v xs vs Hx H]; [cbn [length] in L; lia|]. destruct (plain_factor_factor x v Hx) as (k & F & C).
    cbn [firstn join] in Hp. assert (N : xs <> []) by (intros ->; cbn [length] in L; lia).
    pose proof (text_factors g k x (Ret v) xs (map Ret vs) ws Hg F C Hp N (all_forall2 _ _ H) Hw) as X. change (Ret v :: map Ret vs) with (map Ret (v :: vs)) in X.
    rewrite all_ret in X. exact X.
  Qed.
  Lemma all_some_panic : forall (os : list (outcome ast)), Forall (fun o => o = Panic PUnreachable \/ exists v, o = Ret v) os -> Exists (fun o => o = Panic PUnreachable) os ->
    all os = Panic PUnreachable.
  Proof.
    induction 1 as [|o os [->|[v ->]] H IH]; intros E; [inversion E|reflexivity|]. cbn [all obind]. inversion E; subst; [discriminate|]. rewrite IH by assumption. reflexivity.
  Qed.
  Lemma odd_outcomes : forall xs, Forall (fun x => (exists v, (plain_factor U) x v) \/ (odd_factor U) x) xs -> exists os, Forall2 (fun x o => exists k, factor U k x o) xs os /\
    Forall (fun o => o = Panic PUnreachable \/ exists v, o = Ret v) os.
  Proof.
    induction 1 as [|x xs Hx H (os & F & G)]; [exists []; split; constructor|]. destruct Hx as [[v Hx]|Hx].
    - destruct (plain_factor_factor x v Hx) as (k & K & _). exists (Ret v :: os). split; constructor; eauto.
    - destruct (odd_factor_factor x Hx) as (k & K). exists (Panic PUnreachable :: os). split; constructor; eauto.
  Qed.
  Lemma text_odd_first : forall g x xs ws, spacing g = true -> odd_number x -> plain_start x = true -> xs <> [] -> Forall (fun y => (exists v, (plain_factor U) y v) \/ (odd_factor U) y) xs -> closing ws = true ->
    denotes U (g ++ join (lit " ") (x :: xs) ++ ws) (Panic PUnreachable).
  Proof.
    intros g x xs ws Hg Hx Hp N H Hw. destruct (odd_number_factor x Hx) as (k & F & C). destruct (odd_outcomes xs H) as (os & O & _).
    exact (text_factors g k x _ xs os ws Hg F C Hp N O Hw).
  Qed.
  Lemma text_odd_later : forall g x v xs y zs ws, spacing g = true -> (plain_factor U) x v -> plain_start x = true -> Forall (fun y => (exists v, (plain_factor U) y v) \/ (odd_factor U) y) (xs ++ zs) -> (odd_factor U) y -> closing ws = true ->
    denotes U (g ++ join (lit " ") (x :: xs ++ y :: zs) ++ ws) (Panic PUnreachable).
  Proof.
    intros g x v xs y zs ws Hg Hx Hp H Hy Hw. apply Forall_app in H as [H1 H2]. destruct (plain_factor_factor x v Hx) as (k & F & C).
    destruct (odd_outcomes xs H1) as (os & O & Q). destruct (odd_outcomes zs H2) as (os' & O' & Q').
    pose proof (text_factors g k x (Ret v) (xs ++ y :: zs) (os ++ Panic PUnreachable :: os') ws Hg F C Hp) as X.
    assert (A : all (os ++ Panic PUnreachable :: os') = Panic PUnreachable).
    { apply all_some_panic; [apply Forall_app; split; [exact Q|constructor; [left; reflexivity|exact Q']]|]. apply Exists_app. right. left. reflexivity. }
    cbn [all obind] in X. rewrite A in X. cbn [obind] in X. apply X; [destruct xs; discriminate| |exact Hw].
    apply Forall2_app; [exact O|]. constructor; [apply odd_factor_factor; exact Hy|exact O'].
  Qed.

  (** ** Operators *)
  Lemma text_operators : forall g x o y l b ws, spacing g = true -> SpecSource.term U x o -> SpecSource.rest U y l -> forallb known l = true -> plain_start (x ++ y) = true ->
    written b = Operand o :: l -> well_bracketed token_strength token_to_right b -> closing ws = true ->
    denotes U (g ++ (x ++ y) ++ ws) (evaluate token_value token_apply b).
  Proof.
    intros g x o y l b ws Hg Hx Hy Kl Hp Wb Bb Hw. apply source_text; try assumption.
    pose proof (e_intro U x o y l [] [] b Hx Hy Kl (r_nil U) eq_refl Wb Bb) as E. rewrite app_nil_r in E. exact E.
  Qed.
  Lemma text_cut : forall g x o y l z s m b ws, spacing g = true -> SpecSource.term U x o -> SpecSource.rest U y l -> forallb known l = true -> plain_start (x ++ y ++ z) = true ->
    written b = Operand o :: l -> well_bracketed token_strength token_to_right b -> SpecSource.rest U z (Sign s :: m) -> In s ignored -> closing ws = true ->
    denotes U (g ++ (x ++ y ++ z) ++ ws) (evaluate token_value token_apply b).
  Proof.
    intros g x o y l z s m b ws Hg Hx Hy Kl Hp Wb Bb Hz Hs Hw. apply source_text; try assumption.
    apply (e_intro U x o y l z (Sign s :: m) b Hx Hy Kl Hz); [|exact Wb|exact Bb].
    cbn [ignored In] in Hs. decompose [or] Hs; subst; try reflexivity; contradiction.
  Qed.
  Lemma text_dot : forall g x o g1 g2 y o' ws, spacing g = true -> SpecSource.term U x o -> plain_start (x ++ g1 ++ lit "." ++ g2 ++ y) = true -> spacing g1 = true -> spacing g2 = true ->
    SpecSource.term U y o' -> (g2 = [] -> head_is digit y = false) -> closing ws = true ->
    denotes U (g ++ (x ++ g1 ++ lit "." ++ g2 ++ y) ++ ws) (a <- o; b <- o'; dotted a b).
  Proof.
    intros g x o g1 g2 y o' ws Hg Hx Hp H1 H2 Hy Hd Hw.
    assert (R : SpecSource.rest U (g1 ++ lit "." ++ g2 ++ y) [Sign (lit "."); Operand o']).
    { pose proof (r_more U g1 (lit ".") g2 y o' [] [] H1 ltac:(cbn; auto 10) H2 Hy (fun _ => Hd) ltac:(discriminate) (r_nil U)) as R. rewrite app_nil_r in R. exact R. }
    apply (text_operators g x o _ _ (Bin (Leaf (Operand o)) (Sign (lit ".")) (Leaf (Operand o'))) ws Hg Hx R); try reflexivity; try assumption.
    apply wb_bin; [apply wb_leaf|apply wb_leaf|discriminate|discriminate].
  Qed.

  (** ** Parentheses *)
  Lemma text_paren : forall g x o ws, spacing g = true -> SpecSource.expr U x o -> closing ws = true -> denotes U (g ++ paren x ++ ws) o.
  Proof. intros g x o ws Hg Hx Hw. apply node_text; [assumption|apply n_paren; exact Hx|apply harmless_plain; reflexivity|assumption]. Qed.
  Lemma omap_ok : forall o o' : outcome ast, omap (fun a => @Ok ast sm_error (forget_positions a)) o = omap (fun a => Ok (forget_positions a)) o' -> omap forget_positions o = omap forget_positions o'.
  Proof. intros [a|k|] [a'|k'|] E; cbn in *; try discriminate; congruence. Qed.
  Lemma unambiguous : forall x o o', SpecSource.expr U x o -> SpecSource.expr U x o' -> omap forget_positions o = omap forget_positions o'.
  Proof.
    intros x o o' H H'. pose proof (text_paren [] x o [] eq_refl H eq_refl []) as E. pose proof (text_paren [] x o' [] eq_refl H' eq_refl []) as E'.
    apply omap_ok. rewrite <- E. exact E'.
  Qed.

  (** ** Statements *)
  Lemma source_first : forall g x o ws c w, spacing g = true -> SpecSource.expr U x o -> plain_start x = true -> spacing ws = true -> semi c = true ->
    denotes_or_refused U (g ++ x ++ ws ++ c :: w) o.
  Proof. intros g x o ws c w Hg Hx Hp Hw Hc. destruct (source_expr U HU x o Hx). apply text_first; assumption. Qed.
  Lemma statements_more : forall w, statements U w -> more_ok U w.
  Proof.
    induction 1 as [ws Hw|g x o ws Hg Hx Hp Hw|g x o ws c w Hg Hx Hp Hw Hc H IH].
    - apply more_white. exact Hw.
    - destruct (source_expr U HU x o Hx). eapply more_last; eassumption.
    - destruct (source_expr U HU x o Hx). replace (g ++ x ++ ws ++ c :: w) with (concat (map line_text [(g, x, o, ws, c)]) ++ w).
      + apply more_lines; [exact HU| |exact IH]. constructor; [|constructor]. cbn. tauto.
      + cbn [map concat line_text]. rewrite app_nil_r, <- !app_assoc. reflexivity.
  Qed.
  Lemma source_lines : forall g x o ws c w, spacing g = true -> SpecSource.expr U x o -> plain_start x = true -> spacing ws = true -> semi c = true -> statements U w ->
    denotes U (g ++ x ++ ws ++ c :: w) o.
  Proof.
    intros g x o ws c w Hg Hx Hp Hw Hc H. destruct (source_expr U HU x o Hx). pose proof (text_lines U HU g x o ws c [] w) as X. cbn [map concat line_text app] in X.
    rewrite <- !app_assoc in X. cbn [app] in X. apply X; [cbn; tauto|constructor|apply statements_more; exact H].
  Qed.
  Lemma source_special_word : forall g x a y o ws, spacing g = true -> special x a -> word U (x ++ y) = true -> SpecSource.expr U y o -> plain_start y = true -> closing ws = true ->
    denotes U (g ++ x ++ y ++ ws) (Ret a).
  Proof. intros g x a y o ws Hg Hx Hw Hy Hp Hs. destruct (source_expr U HU y o Hy). eapply text_special_word; eassumption. Qed.
End Syntax.

Lemma ascii_words : forall U c, (c < 128)%N ->
  (xid_start U c = true <-> In c letters) /\ (xid_continue U c = true <-> In c (letters ++ lit "0123456789_")).
Proof.
  intros U c H. unfold xid_start, xid_continue. apply N.ltb_lt in H. rewrite H. apply N.ltb_lt in H.
  assert (L : ascii_letter c = true <-> In c letters).
  { unfold ascii_letter, letters. cbv [lit String.list_ascii_of_string map]. split; intro X.
    - apply orb_prop in X as [X|X]; apply andb_prop in X as [X1 X2]; apply N.leb_le in X1, X2; cbn; lia.
    - cbn in X. repeat (destruct X as [<-|X]; [reflexivity|]). contradiction. }
  split; [exact L|]. rewrite in_app_iff, <- L. split; intro X.
  - apply orb_prop in X as [X|X]; [apply orb_prop in X as [X|X]; [left; exact X|]|].
    + right. unfold ascii_digit in X. apply andb_prop in X as [X1 X2]. apply N.leb_le in X1, X2. cbn. lia.
    + right. apply N.eqb_eq in X. subst. cbn. auto 12.
  - destruct X as [X|X]; [rewrite X; reflexivity|]. cbn in X. repeat (destruct X as [<-|X]; [rewrite ?orb_true_r; reflexivity|]). contradiction.
Qed.
