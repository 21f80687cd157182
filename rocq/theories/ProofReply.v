(** Replies of a session: the evaluator and the printer follow [SpecReply]. *)
From Verif Require Import Base AlgoError NumTypes AlgoFib AlgoGamma SpecNum Ast Display Internal Eval Runner Peg Build SpecAst SpecSession SpecUtf8 SpecAnswer SpecPest Source SpecValue SpecReply.
From Verif Require Import ProofUtf8 ProofAst ProofBasic ProofFib ProofDisplay ProofEval ProofRunner ProofBuild ProofFollow ProofMeaning.
From Verif Require ProofAnswer.
Local Open Scope Z_scope.
Local Open Scope outcome_scope.

(** ** evaluation *)
Definition range (W n : Z) : { 0 <= n < 2 ^ (W - 1) } + { - 2 ^ (W - 1) <= n < 0 } + { out_of_range W n }.
Proof.
  unfold out_of_range. destruct (Z_lt_le_dec n (- 2 ^ (W - 1))); [right; auto|]. destruct (Z_lt_le_dec n (2 ^ (W - 1))); [|right; auto].
  left. destruct (Z_lt_le_dec n 0); [right|left]; lia.
Defined.

Lemma arithmetic_cases : forall l : list ast, (exists m n, l = [Integer m; Integer n]) \/ forall m n, l <> [Integer m; Integer n].
Proof.
  intros l. destruct l as [|a [|b [|c l]]]; try (right; intros; discriminate).
  destruct a; try (right; intros; discriminate). destruct b; try (right; intros; discriminate). left. eauto.
Qed.
Lemma additive_other : forall l c, (forall m n, l <> [Integer m; Integer n]) -> evaluate_additive l c = Ret (Err unimplemented_function, c).
Proof. intros l c H. destruct l as [|a [|b [|d l]]]; try reflexivity; destruct a; try reflexivity; destruct b; try reflexivity. elim (H _ _ eq_refl). Qed.
Lemma multiplicative_other : forall l c, (forall m n, l <> [Integer m; Integer n]) -> evaluate_multiplicative l c = Ret (Err unimplemented_function, c).
Proof. intros l c H. destruct l as [|a [|b [|d l]]]; try reflexivity; destruct a; try reflexivity; destruct b; try reflexivity. elim (H _ _ eq_refl). Qed.
Lemma power_other : forall l c, (forall m n, l <> [Integer m; Integer n]) -> evaluate_power l c = Ret (Err unimplemented_function, c).
Proof. intros l c H. destruct l as [|a [|b [|d l]]]; try reflexivity; destruct a; try reflexivity; destruct b; try reflexivity. elim (H _ _ eq_refl). Qed.
Lemma u64_some : forall n, 0 <= n < 2 ^ 64 -> to_u64 n = Some n.
Proof. intros n [H1 H2]. unfold to_u64. rewrite (proj2 (Z.leb_le _ _) H1), (proj2 (Z.ltb_lt _ _) H2). reflexivity. Qed.
Lemma u64_none : forall n, n < 0 \/ 2 ^ 64 <= n -> to_u64 n = None.
Proof. intros n H. unfold to_u64. destruct (Z.leb_spec 0 n), (Z.ltb_spec n (2 ^ 64)); try reflexivity. lia. Qed.

Lemma applied_eval : forall W f args opts pos r c, 0 < W -> applied W (name f) args r ->
  evaluate_function W f (mkParam args opts pos) c = Ret (r, c).
Proof.
  intros W [ns n k at_] args opts pos r c HW H. cbn [name] in H. destruct H; try reflexivity.
  - unfold evaluate_function. cbn -[last_fn]. rewrite last_fn_snoc. reflexivity.
  - unfold evaluate_function. cbn. rewrite (text_width s bs) by assumption. reflexivity.
  - unfold evaluate_function. cbn -[factorial_i factorial]. rewrite factorial_i_nonneg by assumption. reflexivity.
  - unfold evaluate_function. cbn -[factorial_i]. rewrite factorial_i_neg by assumption. reflexivity.
  - unfold evaluate_function. cbn -[factorial_i]. rewrite factorial_i_big by assumption. reflexivity.
  - unfold evaluate_function. cbn -[fibonacci_i fib]. rewrite fibonacci_i_nonneg by assumption. reflexivity.
  - unfold evaluate_function. cbn -[fibonacci_i fib Z.pow]. rewrite fibonacci_i_neg by assumption. rewrite H0. reflexivity.
  - unfold evaluate_function. cbn -[fibonacci_i fib]. rewrite fibonacci_i_big by assumption. reflexivity.
  - unfold evaluate_function. cbn -[to_u64]. rewrite u64_some by assumption. reflexivity.
  - unfold evaluate_function. cbn -[to_u64]. rewrite u64_none by assumption. reflexivity.
  - destruct H as [<-|[<-|[<-|[]]]]; unfold evaluate_function; cbn -[evaluate_additive evaluate_multiplicative evaluate_power];
      [apply additive_other|apply multiplicative_other|apply power_other]; assumption.
  - apply eval_unknown. exact H.
Qed.

Lemma eval_applied : forall W f args opts pos r c c', 0 < W ->
  evaluate_function W f (mkParam args opts pos) c = Ret (r, c') -> applied W (name f) args r /\ c' = c.
Proof.
  intros W f args opts pos r c c' HW H. destruct (in_dec (list_eq_dec N.eq_dec) (name f) builtin_names) as [I|N].
  2:{ rewrite eval_unknown in H by exact N. injection H as <- <-. split; [apply unknown_name; exact N|reflexivity]. }
  destruct f as [ns n k at_]. cbn [name] in *.
  assert (A : forall g : list ast -> context -> eval_out, In n [lit "plus"; lit "times"; lit "power"] ->
    (forall l c, (forall i j, l <> [Integer i; Integer j]) -> g l c = Ret (Err unimplemented_function, c)) ->
    (forall i j c, exists v, g [Integer i; Integer j] c = Ret (Ok (Integer v), c) /\ applied W n [Integer i; Integer j] (Ok (Integer v))) ->
    g args c = Ret (r, c') -> applied W n args r /\ c' = c).
  { intros g In_ O T E. destruct (arithmetic_cases args) as [(i & j & ->)|N].
    - destruct (T i j c) as (v & E' & V). rewrite E in E'. injection E' as -> ->. split; [exact V|reflexivity].
    - rewrite (O args c N) in E. injection E as <- <-. split; [apply arithmetic_other; assumption|reflexivity]. }
  cbn [builtin_names In] in I.
  repeat (destruct I as [<-|I]).
  - unfold evaluate_function in H. cbn in H. destruct args as [|a l]; [discriminate|]. destruct a; try discriminate. destruct s; injection H as <- <-; split; try reflexivity; constructor.
  - unfold evaluate_function in H. cbn -[last_fn] in H. destruct args as [|a l]; [discriminate|]. destruct a as [| | | | | | |s]; try discriminate. cbn -[last_fn] in H.
    destruct s as [|x s] using rev_ind; [|rewrite last_fn_snoc in H]; injection H as <- <-; split; try reflexivity; constructor.
  - unfold evaluate_function in H. cbn in H. destruct args as [|a l]; [discriminate|]. destruct a as [| | | | | | |s]; try discriminate. injection H as <- <-. destruct (text_bytes s) as [bs B]. rewrite <- (text_width s bs B). split; [constructor; exact B|reflexivity].
  - unfold evaluate_function in H. cbn -[factorial_i] in H. destruct args as [|a l]; [discriminate|]. destruct a; try discriminate; [|injection H as <- <-; split; [constructor|reflexivity]].
    cbn -[factorial_i] in H. destruct (range W n) as [[R|R]|R]; [rewrite factorial_i_nonneg in H by assumption|rewrite factorial_i_neg in H by assumption|rewrite factorial_i_big in H by exact R];
      injection H as <- <-; split; try reflexivity; constructor; assumption.
  - unfold evaluate_function in H. cbn -[fibonacci_i] in H. destruct args as [|a l]; [discriminate|]. destruct a; try discriminate; [|injection H as <- <-; split; [constructor|reflexivity]].
    cbn -[fibonacci_i] in H. destruct (range W n) as [[R|R]|R]; [rewrite fibonacci_i_nonneg in H by assumption|rewrite fibonacci_i_neg in H by assumption|rewrite fibonacci_i_big in H by exact R].
    2: destruct (Z.even n) eqn:Ev; [discriminate|].
    all: injection H as <- <-; split; try reflexivity; constructor; assumption.
  - apply (A evaluate_additive); [cbn; tauto|apply additive_other|intros; eexists; split; [reflexivity|constructor]|exact H].
  - apply (A evaluate_multiplicative); [cbn; tauto|apply multiplicative_other|intros; eexists; split; [reflexivity|constructor]|exact H].
  - apply (A evaluate_power); [cbn; tauto|apply power_other| |exact H]. intros i j c0.
    assert (D : 0 <= j < 2 ^ 64 \/ (j < 0 \/ 2 ^ 64 <= j)) by lia. destruct D as [D|D].
    + exists (i ^ j). split; [cbn [evaluate_power]; rewrite u64_some by exact D; reflexivity|constructor; exact D].
    + exists i. split; [cbn [evaluate_power]; rewrite u64_none by exact D; reflexivity|apply power_base; exact D].
  - contradiction.
Qed.

Lemma forward_evaluates : forall W a r c, 0 < W -> evaluates W a r -> forward W a c = Ret (r, c).
Proof.
  intros W a r c HW H. destruct H; try reflexivity.
  - destruct a; try reflexivity; contradiction.
  - cbn [forward]. apply applied_eval; assumption.
Qed.
Lemma evaluates_forward : forall W a r c c', 0 < W -> forward W a c = Ret (r, c') -> evaluates W a r /\ c' = c.
Proof.
  intros W a r c c' HW H. destruct a as [|l|s ps|b|n|d|s|s]; cbn [forward] in H; try (injection H as <- <-; split; [constructor; exact I|reflexivity]); [discriminate|].
  destruct ps as [|[args opts pos] [|q ps]]; try (injection H as <- <-; split; [constructor|reflexivity]).
  apply eval_applied in H as [H ->]; [|exact HW]. split; [constructor; exact H|reflexivity].
Qed.
Lemma forward_fuel : forall W a c, 0 < W -> forward W a c <> OutOfFuel.
Proof.
  intros W a c HW H. destruct a as [|l|s ps|b|n|d|s|s]; cbn [forward] in H; try discriminate. destruct ps as [|[args opts pos] [|q ps]]; try discriminate.
  unfold evaluate_function in H. cbn [arguments] in H.
  repeat match type of H with context [str_eqb (name s) ?l] => destruct (str_eqb (name s) l) end; try discriminate.
  - destruct args as [|a l]; [discriminate|]. destruct a as [| | | | | | |w]; try discriminate. destruct w; discriminate.
  - destruct args as [|a l]; [discriminate|]. destruct a as [| | | | | | |w]; try discriminate. unfold arg0, obind, with_ctx, last_fn in H. destruct (rev w); discriminate.
  - destruct args as [|a l]; [discriminate|]. destruct a; discriminate.
  - destruct args as [|a l]; [discriminate|]. destruct a; discriminate.
  - destruct args as [|a l]; [discriminate|]. destruct a; try discriminate. cbn -[fibonacci_i] in H.
    destruct (range W n) as [[R|R]|R]; [rewrite fibonacci_i_nonneg in H by assumption|rewrite fibonacci_i_neg in H by assumption|rewrite fibonacci_i_big in H by exact R]; try discriminate.
    destruct (Z.even n); discriminate.
  - destruct (arithmetic_cases args) as [(i & j & ->)|N]; [discriminate|rewrite additive_other in H by exact N; discriminate].
  - destruct (arithmetic_cases args) as [(i & j & ->)|N]; [discriminate|rewrite multiplicative_other in H by exact N; discriminate].
  - destruct (arithmetic_cases args) as [(i & j & ->)|N]; [|rewrite power_other in H by exact N; discriminate]. cbn [evaluate_power] in H. destruct (to_u64 j); discriminate.
Qed.

(** ** printing *)
Lemma zeros_repeat : forall n, zeros n = repeat 48%N n.
Proof. induction n as [|n IH]; [reflexivity|]. cbn [zeros repeat]. rewrite IH. reflexivity. Qed.
Lemma zeros_digits : forall n, Forall is_digit (repeat 48%N n).
Proof. induction n as [|n IH]; constructor; [unfold is_digit; lia|exact IH]. Qed.
Lemma zeros_value : forall n, numeral_value (repeat 48%N n) = 0.
Proof. induction n as [|n IH]; [reflexivity|]. cbn [repeat]. rewrite numeral_value_cons, IH. change (digit_value 48%N) with 0. lia. Qed.
Lemma split_numeral : forall n s k, numeral_of n s -> (0 < k < length s)%nat ->
  exists q r, n = q * 10 ^ Z.of_nat (length s - k) + r /\ numeral_of q (firstn k s) /\ Forall is_digit (skipn k s) /\ length (skipn k s) = (length s - k)%nat /\ numeral_value (skipn k s) = r.
Proof.
  intros n s k (N & D & V & Z) K. exists (numeral_value (firstn k s)), (numeral_value (skipn k s)).
  rewrite <- (firstn_skipn k s) in V at 1. rewrite numeral_value_app, skipn_length in V. rewrite <- (firstn_skipn k s) in D. apply Forall_app in D as [D1 D2].
  split; [symmetry; exact V|]. split; [|split; [exact D2|split; [apply skipn_length|reflexivity]]].
  split; [|split; [exact D1|split; [reflexivity|]]].
  - destruct s; [congruence|]. destruct k; [lia|]. discriminate.
  - intros H. destruct s as [|c s]; [congruence|]. destruct k; [lia|]. cbn [firstn hd_error] in *. specialize (Z H). injection Z as -> ->. cbn [length] in K. lia.
Qed.
Lemma signed_cases : forall n w, signed n w (if n <? 0 then lit "-" ++ w else w).
Proof. intros n w. unfold signed. destruct (Z.ltb_spec n 0); auto. Qed.
Lemma show_decimal_shown : forall d, shown (Decimal d) (show_decimal d).
Proof.
  intros [i k]. unfold show_decimal. cbn [dec_int dec_scale].
  pose proof (show_nat_spec (Z.abs i) (Z.abs_nonneg i)) as H. set (s := show_nat (Z.abs i)) in *. clearbody s.
  assert (L : (0 < length s)%nat) by (destruct H as (N & _); destruct s; [congruence|cbn [length]; lia]).
  rewrite Z.geb_leb. destruct (Z.leb_spec (Z.of_nat (length s)) k) as [A|A].
  - assert (E : exists y, zeros (Z.to_nat (k - Z.of_nat (length s))) ++ s = y /\ Forall is_digit y /\ Z.of_nat (length y) = k /\ numeral_value y = Z.abs i).
    { eexists. split; [reflexivity|]. destruct H as (N & D & V & _). rewrite zeros_repeat. split; [apply Forall_app; split; [apply zeros_digits|exact D]|].
      split; [rewrite app_length, repeat_length; lia|rewrite numeral_value_app, zeros_value, V; lia]. }
    destruct E as (y & -> & D & Ly & V). destruct y as [|c y]; [cbn [length] in Ly; lia|].
    eapply (shown_fraction i k 0 (Z.abs i) (lit "0") (c :: y)); try eassumption; [lia|lia| |apply signed_cases].
    split; [discriminate|]. split; [apply (zeros_digits 1)|]. split; reflexivity.
  - rewrite Z.gtb_ltb. destruct (Z.ltb_spec (Z.of_nat (length s)) (Z.of_nat (length s) - k)) as [B|B].
    + rewrite zeros_repeat. replace (Z.of_nat (length s) - k - Z.of_nat (length s)) with (- k) by lia. eapply (shown_whole i k s); [lia|exact H|apply signed_cases].
    + set (m := Z.to_nat (Z.of_nat (length s) - k)). destruct (Z.eq_dec k 0) as [->|K].
      * assert (m = length s) as -> by (unfold m; lia). rewrite firstn_all, skipn_all. eapply (shown_whole i 0 s); [lia|exact H|]. cbn [repeat Z.to_nat Z.opp]. rewrite app_nil_r. apply signed_cases.
      * destruct (split_numeral _ s m H) as (q & r & E & Q & D & Ly & V); [unfold m; lia|].
        assert (Lk : Z.of_nat (length s - m) = k) by (unfold m; lia). rewrite Lk in E.
        destruct (skipn m s) as [|c y] eqn:Es; [cbn [length] in Ly; lia|].
        eapply (shown_fraction i k q r (firstn m s) (c :: y)); try eassumption; [lia|lia|apply signed_cases].
Qed.
Lemma join_flat : forall s l n, join s (l ++ [n]) = flat_map (fun m => m ++ s) l ++ n.
Proof.
  intros s l n. induction l as [|m l IH]; [reflexivity|]. cbn [flat_map]. rewrite <- app_assoc, <- app_assoc, <- IH.
  destruct l; reflexivity.
Qed.
Lemma symbol_flat : forall s, display_symbol s = flat_map (fun m => m ++ lit "::") (name_space s) ++ name s.
Proof.
  intros [ns n k a]. unfold display_symbol. cbn [name_space name]. destruct ns as [|m ns]; [reflexivity|].
  rewrite <- join_flat. generalize (m :: ns) as l, (@nil_cons _ m ns). intros l N. 
  induction l as [|x l IH]; [congruence|]. destruct l as [|y l]; [reflexivity|].
  change (join (lit "::") (x :: y :: l)) with (x ++ lit "::" ++ join (lit "::") (y :: l)).
  change (join (lit "::") ((x :: y :: l) ++ [n])) with (x ++ lit "::" ++ join (lit "::") ((y :: l) ++ [n])).
  rewrite <- IH by discriminate. rewrite <- !app_assoc. reflexivity.
Qed.
Lemma shown_once : forall a v w, shown a v -> shown a w -> v = w.
Proof.
  assert (S : forall n w a b, signed n w a -> signed n w b -> a = b) by (intros n w a b [[? ->]|[? ->]] [[? ->]|[? ->]]; try reflexivity; lia).
  intros a v w H1 H2. destruct H1; inversion H2; subst; try reflexivity.
  - match goal with A : numeral_of ?n ?x, B : numeral_of ?n ?y |- _ => pose proof (numeral_of_inj n x y A B); subst; eapply S; eassumption end.
  - match goal with X : numeral_of q x, Y : numeral_of ?q' ?x', D : Forall is_digit y, D' : Forall is_digit ?y', L : Z.of_nat (length ?y') = Z.of_nat (length y), E : Z.abs i = ?q' * _ + _ |- _ =>
      pose proof (numeral_value_bounds y D); pose proof (numeral_value_bounds y' D'); apply Nat2Z.inj in L; rewrite L in *;
      assert (q = q') by nia; subst q'; assert (y = y') by (apply numeral_length_inj; try assumption; [congruence|nia]); subst y';
      pose proof (numeral_of_inj _ _ _ X Y); subst x'; eapply S; eassumption end.
  - lia.
  - lia.
  - match goal with A : numeral_of (Z.abs i) ?x, B : numeral_of (Z.abs i) ?y |- _ => pose proof (numeral_of_inj _ x y A B); subst; eapply S; eassumption end.
Qed.
Definition value (a : ast) : Prop := match a with EmptyStatement | Boolean _ | Integer _ | Decimal _ | Sym _ | Str _ => True | _ => False end.
Lemma evaluates_value : forall W a b, evaluates W a (Ok b) -> value b.
Proof.
  intros W a b H. inversion H as [a' N|s|s args opts pos r A|]; subst; [destruct b; try exact I; contradiction|exact I|].
  inversion A; exact I.
Qed.
Lemma display_shown : forall a w, value a -> display a = Ret w <-> shown a w.
Proof.
  intros a w V. assert (D : forall v, display a = Ret v -> shown a v).
  { intros v H. destruct a as [|l|s ps|b|n|d|s|s]; try contradiction; try discriminate; cbn [display] in H; injection H as <-.
    - destruct b; constructor.
    - apply (shown_integer n (show_nat (Z.abs n))); [apply show_nat_spec, Z.abs_nonneg|]. unfold show_int, signed. destruct (Z.ltb_spec n 0); [right|left]; (split; [lia|]); [rewrite Z.abs_neq by lia|rewrite Z.abs_eq by lia]; reflexivity.
    - apply show_decimal_shown.
    - destruct s as [ns n k at_]. rewrite symbol_flat. constructor.
    - constructor. }
  split; [apply D|]. intros H. destruct (display a) as [v|k|] eqn:E.
  - f_equal. apply (shown_once a); [apply D; reflexivity|exact H].
  - destruct a; try contradiction; try discriminate. inversion H.
  - destruct a; try contradiction; try discriminate.
Qed.

(** ** replies *)
Section Reply.
  Variable U : unicode.
  Variable W : Z.
  Hypothesis HW : 0 < W.
  Notation anonymous := (lit "anonymous").

  Lemma understood_parse : forall text a, parse U anonymous text = Ret (Ok a) <-> understood U text a.
  Proof. intros. apply parse_tree. Qed.
  Lemma refused_parse : forall text, parse U anonymous text = Ret (Err SMParseError) <-> refused U text.
  Proof.
    intros text. unfold refused. rewrite (parse_refuses U anonymous). split; [eauto|]. intros [e E]. rewrite E. f_equal. f_equal.
    unfold parse in E. destruct (run_program U text); try discriminate; [|congruence].
    destruct (parse_pairs anonymous text _); discriminate.
  Qed.
  Lemma parse_error_only : forall text e, parse U anonymous text = Ret (Err e) -> e = SMParseError.
  Proof. intros text e H. assert (R : refused U text) by (apply (parse_refuses U anonymous); eauto). apply refused_parse in R. congruence. Qed.

  Lemma reply_ok : forall calls text w, answer U W calls text = Ret (Ok w) <-> exists a b, understood U text a /\ evaluates W a (Ok b) /\ shown b w.
  Proof.
    intros calls text w. destruct (ProofAnswer.answer_eq U W calls text) as [c ->]. split.
    - destruct (parse U anonymous text) as [[a|e]|k|] eqn:P; try discriminate. apply understood_parse in P.
      destruct (forward W a c) as [[[b|e] c']|k|] eqn:F; try discriminate. apply evaluates_forward in F as [F _]; [|exact HW].
      intros H. destruct (display b) as [v|k|] eqn:E; try discriminate. injection H as ->. exists a, b. repeat split; try assumption. apply display_shown; [eapply evaluates_value; exact F|exact E].
    - intros (a & b & P & F & S). apply understood_parse in P. rewrite P. rewrite (forward_evaluates W a _ c HW F). apply display_shown in S; [|eapply evaluates_value; exact F]. rewrite S. reflexivity.
  Qed.
  Lemma reply_error : forall calls text e, answer U W calls text = Ret (Err e) <-> refused U text /\ e = SMParseError \/ exists a, understood U text a /\ evaluates W a (Err e).
  Proof.
    intros calls text e. destruct (ProofAnswer.answer_eq U W calls text) as [c ->]. split.
    - destruct (parse U anonymous text) as [[a|e']|k|] eqn:P; try discriminate.
      + apply understood_parse in P. destruct (forward W a c) as [[[b|e'] c']|k|] eqn:F; try discriminate.
        * destruct (display b); discriminate.
        * intros H. injection H as ->. right. apply evaluates_forward in F as [F _]; [|exact HW]. eauto.
      + intros H. injection H as ->. left. pose proof (parse_error_only text e P) as ->. split; [apply refused_parse; exact P|reflexivity].
    - intros [[R ->]|(a & P & F)]; [apply refused_parse in R; rewrite R; reflexivity|]. apply understood_parse in P. rewrite P, (forward_evaluates W a _ c HW F). reflexivity.
  Qed.
  Lemma reply_panic : forall calls text, (exists k, answer U W calls text = Panic k) <->
    ~ refused U text /\ forall a r, understood U text a -> evaluates W a r -> exists b, r = Ok b /\ forall w, ~ shown b w.
  Proof.
    intros calls text. split.
    - intros [k E]. split.
      + intros R. assert (X : answer U W calls text = Ret (Err SMParseError)) by (apply reply_error; auto). congruence.
      + intros a r P F. destruct r as [b|e].
        * exists b. split; [reflexivity|]. intros w S. assert (X : answer U W calls text = Ret (Ok w)) by (apply reply_ok; eauto). congruence.
        * assert (X : answer U W calls text = Ret (Err e)) by (apply reply_error; eauto). congruence.
    - intros [R N]. destruct (answer U W calls text) as [[w|e]|k|] eqn:E; [| |eauto|].
      + apply reply_ok in E as (a & b & P & F & S). destruct (N a _ P F) as (b' & Q & D). injection Q as <-. elim (D w S).
      + apply reply_error in E as [[R' _]|(a & P & F)]; [contradiction|]. destruct (N a _ P F) as (b' & Q & D). discriminate.
      + exfalso. destruct (ProofAnswer.answer_eq U W calls text) as [c E']. rewrite E' in E. clear E'.
        destruct (parse U anonymous text) as [[a|e']|k|] eqn:P; try discriminate.
        * destruct (forward W a c) as [[[b|e'] c']|k|] eqn:F; try discriminate; [|apply (forward_fuel W a c HW F)].
          apply evaluates_forward in F as [F _]; [|exact HW]. apply evaluates_value in F. destruct b; discriminate || contradiction.
        * exact (parse_terminates U _ _ P).
  Qed.
End Reply.
