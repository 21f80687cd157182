(** Operands with marks: references, slots, derivatives, dictionaries. *)
From Verif Require Import Base Ast Display SmError Peg Grammar Climber Build SpecAst SpecPeg SpecClimb SpecParse SpecSyntax.
From Verif Require Import ProofAst ProofDisplay ProofPeg ProofPegShift ProofSym ProofGrammar ProofClimber ProofBuild ProofPos ProofSpace ProofLex ProofToken ProofNode ProofAtom ProofString ProofTerm ProofExpr ProofGroup ProofCall ProofArgs.
Local Open Scope nat_scope.
Local Open Scope outcome_scope.

Section Mark.
  Variable U : unicode.
  Notation ev := (ev U grammar skip_body).
  Notation fails := (fails U).
  Notation nstop := (ProofNode.nstop U).
  Notation lstop := (ProofNode.lstop U).
  Notation expr_means := (expr_means U).
  Notation node_means := (node_means U).
  Hypothesis HU : sane U.

  (** ** Positive numerals *)
  Lemma positive_cases : forall x, positive x = true -> numeral x = true /\
    exists c y, x = c :: y /\ ((49 <=? c) && (c <=? 57))%N = true /\ forallb digit y = true.
  Proof.
    intros x H. unfold positive in H. apply andb_prop in H as [H N]. split; [exact H|]. destruct (numeral_cases x H) as [->|X]; [discriminate|exact X].
  Qed.
  Lemma ok_Positive : forall k x p w st, positive x = true -> head_is digit w = false ->
    ev (ECall R_Positive) k false (mkPs p (x ++ w) st) (POk (mkPs (p + length x) w st) (node_of R_Positive k p x [])).
  Proof.
    intros k x p w st Hx Hw. apply ev_call. cbn [grammar]. apply ok_rule. apply ev_atomic, ok_seq.
    destruct (positive_cases x Hx) as (_ & c & y & -> & Hc & Hy). eapply ok_then0.
    - apply ev_call. cbn [app]. apply ev_range. exact Hc.
    - replace (p + length (c :: y)) with (p + 1 + length y) by (cbn [length lit]; unfold str, char in *; lia).
      apply rep_chars with (P := digit); auto.
      + intros. apply ev_call. apply ev_range. assumption.
      + intros. apply er_call, er_range. assumption.
  Qed.
  Lemma er_Positive : forall k q p w st, head_is digit w = false -> fails (ECall R_Positive) k q (mkPs p w st).
  Proof.
    intros k q p w st H. apply er_call, er_rule, er_atomic, er_seq0, er_then, er_call, er_range. destruct w as [|c w]; [reflexivity|].
    cbn in *. unfold digit in H. destruct (49 <=? c)%N eqn:E; [|reflexivity]. apply N.leb_le in E.
    replace (48 <=? c)%N with true in H by (symmetry; apply N.leb_le; lia). exact H.
  Qed.
  Lemma lstop_mark : forall w c, lstop w = true -> clings c = true -> head_is (N.eqb c) w = false.
  Proof.
    intros w c H Hc. apply (lstop_cling U HU) in H. destruct w as [|d w]; [reflexivity|]. cbn [head_is] in *. apply N.eqb_neq. intros <-. congruence.
  Qed.

  (** ** References to inputs and outputs *)
  Definition mark_text (m : char) (k : nat) (x : str) : Prop := x = [] /\ k <> 0 \/ k = 1 /\ positive x = true.
  Lemma ok_marks : forall m k p w st, head_is (N.eqb m) w = false ->
    ev (ERep (EStr [m])) Atomic false (mkPs p (repeat m k ++ w) st) (POk (mkPs (p + k) w st) []).
  Proof.
    induction k as [|k IH]; intros p w st H.
    - rewrite Nat.add_0_r. apply no_rep, er_str. destruct w as [|c w]; [reflexivity|]. apply strip_head. cbn [head_is] in H. apply N.eqb_neq. exact H.
    - cbn [repeat app]. apply (ok_rep U (EStr [m]) Atomic false _ (mkPs (p + 1) (repeat m k ++ w) st) [] _ []).
      + apply (ev_str U grammar skip_body [m]).
      + eapply ok_pos; [apply IH; exact H|lia].
  Qed.
  Lemma ok_REPL_number : forall m x p w st, (m = 182 \/ m = 8267)%N -> positive x = true -> lstop w = true ->
    ev (ECall R_REPL) CompoundAtomic false (mkPs p ((m :: x) ++ w) st) (POk (mkPs (p + length (m :: x)) w st) (node_of R_REPL CompoundAtomic p (m :: x) [])).
  Proof.
    intros m x p w st Hm Hx Hw. apply ev_call. cbn [grammar]. apply (ok_rule U R_REPL _ CompoundAtomic p (m :: x) w st st), ev_atomic.
    pose proof (ok_Positive Atomic x (p + 1) w st Hx (lstop_digit U HU w Hw)) as P. cbn [app].
    destruct Hm as [-> | ->].
    - do 2 apply ev_else_ok. apply ok_seq. eapply ok_then0; [apply (ev_str U grammar skip_body [182%N])|]. eapply ok_pos; [exact P|lens].
    - apply ev_else_err; [apply er_else; apply er_seq0, er_then, er_str; reflexivity|].
      apply ok_seq. eapply ok_then0; [apply (ev_str U grammar skip_body [8267%N])|]. apply ev_else_ok. eapply ok_pos; [exact P|lens].
  Qed.
  Lemma marks_digit : forall m k w, (m = 182 \/ m = 8267)%N -> lstop w = true -> head_is digit (repeat m k ++ w) = false.
  Proof. intros m [|k] w Hm Hw; [apply (lstop_digit U HU); exact Hw|]. destruct Hm as [-> | ->]; reflexivity. Qed.
  Lemma ok_REPL_marks : forall m k p w st, (m = 182 \/ m = 8267)%N -> lstop w = true ->
    ev (ECall R_REPL) CompoundAtomic false (mkPs p (repeat m (S k) ++ w) st) (POk (mkPs (p + length (repeat m (S k))) w st) (node_of R_REPL CompoundAtomic p (repeat m (S k)) [])).
  Proof.
    intros m k p w st Hm Hw. apply ev_call. cbn [grammar]. apply (ok_rule U R_REPL _ CompoundAtomic p (repeat m (S k)) w st st), ev_atomic.
    assert (Q : head_is (N.eqb m) w = false) by (apply lstop_mark; [exact Hw|destruct Hm as [-> | ->]; reflexivity]).
    pose proof (er_Positive Atomic false (p + 1) (repeat m k ++ w) st (marks_digit m k w Hm Hw)) as P.
    pose proof (ok_marks m k (p + 1) w st Q) as R. cbn [repeat app]. destruct Hm as [-> | ->].
    - apply ev_else_ok, ev_else_err.
      + eapply er_seq2; [apply (ev_str U grammar skip_body [182%N])|exact P|reflexivity].
      + apply ok_seq. eapply ok_then0; [apply (ev_str U grammar skip_body [182%N])|]. eapply ok_pos; [exact R|cbn [length]; rewrite repeat_length; lia].
    - apply ev_else_err; [apply er_else; apply er_seq0, er_then, er_str; reflexivity|].
      apply ok_seq. eapply ok_then0; [apply (ev_str U grammar skip_body [8267%N])|]. apply ev_else_err; [exact P|].
      eapply ok_pos; [exact R|cbn [length]; rewrite repeat_length; lia].
  Qed.
  Lemma sign_joins : forall c w, existsb (N.eqb c) [182; 8267; 35; 123]%N = true -> head_is (joins U) (c :: w) = false.
  Proof.
    intros c w H. cbn [existsb] in H. cbn [head_is]. unfold joins.
    repeat (apply orb_prop in H as [H|H]; [apply N.eqb_eq in H; subst c|]); try discriminate; try reflexivity.
    - rewrite (proj2 (sign_quiet U HU 182%N eq_refl)). reflexivity.
    - rewrite (proj2 (sign_quiet U HU 8267%N eq_refl)). reflexivity.
  Qed.
  Lemma mark_no_special : forall c w, existsb (N.eqb c) [182; 8267; 35]%N = true -> no_special (c :: w) = true.
  Proof. intros c w H. cbn [existsb] in H. repeat (apply orb_prop in H as [H|H]; [apply N.eqb_eq in H; subst c; reflexivity|]). discriminate. Qed.
  Lemma node_REPL : forall m x o, existsb (N.eqb m) [182; 8267]%N = true ->
    (forall p w st, lstop w = true -> ev (ECall R_REPL) CompoundAtomic false (mkPs p ((m :: x) ++ w) st) (POk (mkPs (p + length (m :: x)) w st) (node_of R_REPL CompoundAtomic p (m :: x) []))) ->
    (forall f i a b, orel sim (parse_in_out f i (Node R_REPL a b (m :: x) [])) o) -> node_in U lstop (m :: x) o.
  Proof.
    intros m x o Hm E M.
    assert (Hm' : existsb (N.eqb m) [182; 8267; 35]%N = true /\ existsb (N.eqb m) [182; 8267; 35; 123]%N = true).
    { cbn [existsb] in *. apply orb_prop in Hm as [Hm|Hm]; [rewrite Hm; auto|]. rewrite orb_false_r in Hm. rewrite Hm, !orb_true_r. auto. }
    destruct Hm' as [H1 H2].
    assert (N : forall d, existsb (N.eqb d) [123; 91]%N = true -> (d =? m)%N = false).
    { intros d Hd. apply N.eqb_neq. intros ->. cbn [existsb] in Hm, Hd. repeat (apply orb_prop in Hm as [Hm|Hm]; [apply N.eqb_eq in Hm; subst m; discriminate|]). discriminate. }
    apply node_data.
    - apply plain_other. intro w. cbn [app]. apply sign_joins. exact H2.
    - intros p w st Hw. eexists. split; [|split].
      + apply ev_call. cbn [grammar]. apply ev_atomic. apply (ok_rule U R_data _ CompoundAtomic p (m :: x) w st st).
        do 4 apply ev_else_ok. apply ev_else_err; [|apply E; exact Hw]. cbn [app]. apply er_else; [apply er_else|].
        * apply er_dict. apply N. reflexivity.
        * apply er_list. apply N. reflexivity.
        * apply er_Special. apply mark_no_special. exact H1.
      + reflexivity.
      + intros f i. unfold parse_data. cbn [node_of emits t_inner t_rule]. apply M.
  Qed.
  Definition reference (m : char) (n : Z) : ast :=
    Function (symbol_from (if (m =? 182)%N then lit "std::repl::input" else lit "std::repl::output")) [plain_param [Integer n] default_position].
  Definition is_head (c : char) : bool := ((c =? 182) || (c =? 8267))%N.
  Lemma digits_heads : forall x, forallb digit x = true -> filter is_head x = [] /\ filter (fun c => negb (is_head c)) x = x.
  Proof.
    induction x as [|c x IH]; intro H; [split; reflexivity|]. cbn [forallb] in H. apply andb_prop in H as [Hc H]. destruct (IH H) as [E1 E2].
    cbn [filter]. assert (X : is_head c = false).
    { unfold digit in Hc. apply andb_prop in Hc as [_ Hc]. apply N.leb_le in Hc. unfold is_head. apply orb_false_iff. split; apply N.eqb_neq; lia. }
    rewrite X. cbn [negb]. rewrite E1, E2. split; reflexivity.
  Qed.
  Lemma marks_heads : forall m k, existsb (N.eqb m) [182; 8267]%N = true -> filter is_head (repeat m k) = repeat m k /\ filter (fun c => negb (is_head c)) (repeat m k) = [].
  Proof.
    intros m k H. assert (X : is_head m = true) by (cbn [existsb] in H; unfold is_head; destruct (m =? 182)%N, (m =? 8267)%N; auto).
    induction k as [|k [E1 E2]]; [split; reflexivity|]. cbn [repeat filter]. rewrite X. cbn [negb]. rewrite E1, E2. split; reflexivity.
  Qed.
  Lemma mark_either : forall m, existsb (N.eqb m) [182; 8267]%N = true -> (m = 182 \/ m = 8267)%N.
  Proof. intros m H. cbn [existsb] in H. repeat (apply orb_prop in H as [H|H]; [apply N.eqb_eq in H; auto|]). discriminate. Qed.
  Lemma in_out_eq : forall f i a b x, parse_in_out f i (Node R_REPL a b x []) =
    (n <- match filter (fun c => negb (is_head c)) x with [] => Ret (- Z.of_nat (length (filter is_head x)))%Z | _ => unwrap (int_from_str_radix (filter (fun c => negb (is_head c)) x) 10) end;
     s <- match filter is_head x with
          | [] => Panic PIndex
          | 182%N :: _ => Ret (symbol_from (lit "std::repl::input"))
          | 8267%N :: _ => Ret (symbol_from (lit "std::repl::output"))
          | _ => Panic PUnreachable
          end;
     Ret (Function s [plain_param [Integer n] (get_position f i (Node R_REPL a b x []))])).
  Proof. reflexivity. Qed.
  Lemma node_reference : forall m x, existsb (N.eqb m) [182; 8267]%N = true -> positive x = true -> node_in U lstop (m :: x) (Ret (reference m (numeral_value x))).
  Proof.
    intros m x Hm Hx. apply node_REPL; [exact Hm| |].
    - intros p w st Hw. apply ok_REPL_number; [apply mark_either; exact Hm|exact Hx|exact Hw].
    - intros f i a b. destruct (positive_cases x Hx) as (Hn & _). destruct (numeral_digits x Hn) as [N D]. destruct (digits_heads x D) as [E1 E2].
      rewrite in_out_eq.
      assert (X : is_head m = true) by (destruct (mark_either m Hm) as [-> | ->]; reflexivity).
      cbn [filter]. rewrite X. cbn [negb]. rewrite E1, E2. destruct x as [|c x']; [congruence|]. rewrite (numeral_int _ Hn).
      destruct (mark_either m Hm) as [-> | ->]; cbn [unwrap obind]; apply sim_call; constructor; constructor.
  Qed.
  Lemma node_back : forall m k, existsb (N.eqb m) [182; 8267]%N = true -> node_in U lstop (repeat m (S k)) (Ret (reference m (- Z.of_nat (S k)))).
  Proof.
    intros m k Hm. cbn [repeat]. apply node_REPL; [exact Hm| |].
    - intros p w st Hw. apply (ok_REPL_marks m k); [apply mark_either; exact Hm|exact Hw].
    - intros f i a b. destruct (marks_heads m (S k) Hm) as [E1 E2]. cbn [repeat] in E1, E2.
      rewrite in_out_eq.
      rewrite E1, E2. cbn [length]. rewrite repeat_length.
      destruct (mark_either m Hm) as [-> | ->]; cbn [obind]; apply sim_call; constructor; constructor.
  Qed.

  (** ** Slots *)
  Lemma node_Slot : forall x t o, (forall p w st, lstop w = true -> ev (ECall R_Slot) CompoundAtomic false (mkPs p ((35%N :: x) ++ w) st)
      (POk (mkPs (p + length (35%N :: x)) w st) (node_of R_Slot CompoundAtomic p (35%N :: x) (t p)))) ->
    (forall f i p, orel sim (parse_slot f i (Node R_Slot p (p + length (35%N :: x)) (35%N :: x) (t p))) o) -> node_in U lstop (35%N :: x) o.
  Proof.
    intros x t o E M. apply node_data.
    - apply plain_other. intro w. reflexivity.
    - intros p w st Hw. eexists. split; [|split].
      + apply ev_call. cbn [grammar]. apply ev_atomic. apply (ok_rule U R_data _ CompoundAtomic p (35%N :: x) w st st).
        do 3 apply ev_else_ok. apply ev_else_err; [|apply E; exact Hw]. cbn [app]. apply er_else; [apply er_else; [apply er_else|]|].
        * apply er_dict. reflexivity.
        * apply er_list. reflexivity.
        * apply er_Special. reflexivity.
        * apply er_REPL. reflexivity.
      + reflexivity.
      + intros f i. unfold parse_data. cbn [node_of emits t_inner t_rule]. apply M.
  Qed.
  Definition slot (n : str) (vs : list ast) : ast := Function (symbol_from (lit "std::core::" ++ n)) [plain_param vs default_position].
  Lemma sharp_other : forall c w, (35 =? c)%N = false -> strip_prefix (lit "##") (35%N :: c :: w) = None.
  Proof.
    intros c w H. change (lit "##") with [35; 35]%N. cbn [strip_prefix]. rewrite H. reflexivity.
  Qed.
  Lemma node_slot : node_in U lstop (lit "#") (Ret (slot (lit "slot") [])).
  Proof.
    apply (node_Slot [] (fun _ => [])).
    - intros p w st Hw. apply ev_call. cbn [grammar]. apply ev_atomic. apply (ok_rule U R_Slot _ CompoundAtomic p [35%N] w st st). cbn [app].
      pose proof (lstop_mark w 35%N Hw eq_refl) as S. apply ev_else_err.
      + apply er_seq0, er_then, er_str. destruct w as [|c w]; [reflexivity|]. apply sharp_other. exact S.
      + apply ok_seq. eapply ok_then0; [apply (ev_str U grammar skip_body [35%N])|]. eapply ok_pos; [|reflexivity]. apply no_opt, er_else.
        * apply er_SYMBOL, (lstop_word U HU). exact Hw.
        * apply er_Integer, (lstop_digit U HU). exact Hw.
    - intros f i p. cbn. apply sim_call. constructor.
  Qed.
  Lemma word_sharp : forall w v, word U w = true -> strip_prefix (lit "##") (35%N :: w ++ v) = None.
  Proof.
    intros w v H. pose proof (word_word_head U w v H) as W. destruct (w ++ v) as [|c u]; [discriminate|]. apply sharp_other. cbn [head_is] in W.
    apply N.eqb_neq. intros <-. discriminate.
  Qed.
  Lemma numeral_sharp : forall x v, numeral x = true -> strip_prefix (lit "##") (35%N :: x ++ v) = None.
  Proof.
    intros x v H. destruct (numeral_digits x H) as [N D]. destruct x as [|c x]; [congruence|]. cbn [app]. apply sharp_other. cbn [forallb] in D. apply andb_prop in D as [D _].
    apply N.eqb_neq. intros <-. discriminate.
  Qed.
  Lemma node_slot_name : forall w, word U w = true -> node_in U lstop (35%N :: w) (Ret (slot (lit "slot") [Str w])).
  Proof.
    intros x Hx. apply (node_Slot x (fun p => node_of R_SYMBOL CompoundAtomic (p + 1) x [])).
    - intros p w st Hw. apply ev_call. cbn [grammar]. apply ev_atomic. apply (ok_rule U R_Slot _ CompoundAtomic p (35%N :: x) w st st). cbn [app]. apply ev_else_err.
      + apply er_seq0, er_then, er_str, word_sharp. exact Hx.
      + apply ok_seq. eapply ok_then0; [apply (ev_str U grammar skip_body [35%N])|]. apply ok_opt, ev_else_ok.
        eapply ok_pos; [apply ok_SYMBOL; [exact Hx|apply (lstop_xid U HU); exact Hw]|lens].
    - intros f i p. unfold parse_slot. cbn [t_text]. pose proof (word_sharp x [] Hx) as W. rewrite app_nil_r in W. unfold str, char in *. rewrite W.
      cbn. apply sim_call. constructor; constructor.
  Qed.
  Lemma node_slot_number : forall x, numeral x = true -> node_in U lstop (35%N :: x) (Ret (slot (lit "slot") [Integer (numeral_value x)])).
  Proof.
    intros x Hx. apply (node_Slot x (fun p => node_of R_Integer CompoundAtomic (p + 1) x [])).
    - intros p w st Hw. apply ev_call. cbn [grammar]. apply ev_atomic. apply (ok_rule U R_Slot _ CompoundAtomic p (35%N :: x) w st st). cbn [app]. apply ev_else_err.
      + apply er_seq0, er_then, er_str, numeral_sharp. exact Hx.
      + apply ok_seq. eapply ok_then0; [apply (ev_str U grammar skip_body [35%N])|]. apply ok_opt, ev_else_err.
        * apply er_SYMBOL, head_digit_word. destruct (numeral_digits x Hx) as [N D]. destruct x as [|c x]; [congruence|]. cbn [forallb] in D. apply andb_prop in D as [D _]. exact D.
        * eapply ok_pos; [apply ok_Integer; [exact Hx|apply (lstop_int U HU); exact Hw]|lens].
    - intros f i p. unfold parse_slot. cbn [t_text]. pose proof (numeral_sharp x [] Hx) as W. rewrite app_nil_r in W. pose proof (numeral_int x Hx) as R. unfold str, char in *. rewrite W.
      unfold node_of. cbn [emits t_inner omapM t_rule t_text negb]. rewrite R. cbn. apply sim_call. constructor; constructor.
  Qed.
  Lemma node_slots : node_in U lstop (lit "##") (Ret (slot (lit "slot_sequence") [])).
  Proof.
    apply (node_Slot [35%N] (fun _ => [])).
    - intros p w st Hw. apply ev_call. cbn [grammar]. apply ev_atomic. apply (ok_rule U R_Slot _ CompoundAtomic p (lit "##") w st st). apply ev_else_ok, ok_seq.
      eapply ok_then0; [apply (ev_str U grammar skip_body (lit "##"))|]. eapply ok_pos; [|reflexivity]. apply no_opt, er_Positive, (lstop_digit U HU). exact Hw.
    - intros f i p. cbn. apply sim_call. constructor.
  Qed.
  Lemma node_slots_number : forall x, positive x = true -> node_in U lstop (lit "##" ++ x) (Panic PUnreachable).
  Proof.
    intros x Hx. apply (node_Slot (35%N :: x) (fun p => node_of R_Positive CompoundAtomic (p + 2) x [])).
    - intros p w st Hw. apply ev_call. cbn [grammar]. apply ev_atomic. apply (ok_rule U R_Slot _ CompoundAtomic p (lit "##" ++ x) w st st). apply ev_else_ok, ok_seq.
      rewrite <- app_assoc. eapply ok_then0; [apply (ev_str U grammar skip_body (lit "##"))|]. apply ok_opt.
      eapply ok_pos; [apply ok_Positive; [exact Hx|apply (lstop_digit U HU); exact Hw]|lens].
    - intros f i p. cbn. reflexivity.
  Qed.

  (** ** Derivatives *)
  Lemma node_derivative : forall h n a, is_path U h -> good_call U a -> forall F, node_in U F (h ++ repeat 39%N (S n) ++ fst (fst a) ++ snd (fst a)) (Panic PUnreachable).
  Proof.
    intros h n a Hh Ha F p w st _. pose proof Ha as [Hg [[v Hx] _]].
    set (y := fst (fst a) ++ snd (fst a)). set (z := repeat 39%N (S n) ++ y).
    assert (Y : head_is (N.eqb 39) (y ++ w) = false).
    { unfold y. rewrite Hx. destruct (fst (fst a)) as [|c g]; [reflexivity|]. cbn [app head_is]. unfold inline in Hg. cbn [forallb] in Hg. apply andb_prop in Hg as [Hg _].
      unfold inline_space in Hg. do 2 apply andb_prop in Hg as [Hg _]. apply N.eqb_neq. intros <-. discriminate. }
    destruct (ok_Symbol U CompoundAtomic h p (z ++ w) st Hh eq_refl) as [t Et].
    pose proof (ok_Derivative U CompoundAtomic n (p + length h) (y ++ w) st Y) as D.
    assert (Ez : repeat 39%N (S n) ++ y ++ w = z ++ w) by (unfold z; rewrite <- app_assoc; reflexivity).
    unfold str, char in *. rewrite Ez in D.
    assert (X : exists T, ev (ECall R_derivative) CompoundAtomic false (mkPs p ((h ++ z) ++ w) st)
      (POk (mkPs (p + length (h ++ z)) w st) [T]) /\ t_rule T = R_derivative).
    { destruct a as [[g x] o]. destruct Ha as [Hg' [[v' Hx'] H]]. cbn [fst snd] in *. destruct (H (p + length h + S n + length g) w st) as (T & E & R & M).
      eexists. split; [|shelve]. apply ev_call. cbn [grammar]. apply ev_atomic. apply (ok_rule U R_derivative _ CompoundAtomic p (h ++ z) w st st).
      apply ok_seq. rewrite <- app_assoc. eapply ok_then; [eapply ok_then1; [eapply ok_then; [exact Et|exact D]|]|].
      - unfold y. rewrite <- app_assoc. apply inline_rep_ok; [exact Hg'|]. subst x. reflexivity.
      - eapply ok_pos; [exact E|]. unfold z, y. rewrite ?app_length, ?repeat_length. unfold str, char in *. lia.
      Unshelve. reflexivity. }
    destruct X as (T & E & R). eexists. split; [|split].
    - apply ev_call. cbn [grammar]. apply (ok_rule U R_node _ CompoundAtomic p (h ++ z) w st st).
      do 2 apply ev_else_ok. apply ev_else_err; [|apply ok_restore; exact E]. apply er_else.
      + apply er_paren. rewrite <- app_assoc. pose proof (path_head U h (z ++ w) Hh) as P. unfold str, char in *.
        destruct (h ++ z ++ w) as [|d u]; [reflexivity|]. cbn [head_is] in *. apply N.eqb_neq. intros <-. discriminate P.
      + apply er_restore. rewrite <- app_assoc. apply er_apply_call_bare; [exact Hh|reflexivity|reflexivity].
    - reflexivity.
    - intros f i. unfold parse_node. cbn [node_of emits t_inner]. rewrite R. reflexivity.
  Qed.

  (** ** Dictionaries *)
  (** keys: integers, words, string literals *)
  Definition key (x : str) : Prop := numeral x = true \/ word U x = true \/ exists s, body_means U x s.
  Lemma ok_key : forall x p w st, key x -> head_is (xid_continue U) w = false -> head_is (N.eqb 34) w = false -> exists T,
    ev (ECall R_key_valid) NonAtomic false (mkPs p (x ++ w) st) (POk (mkPs (p + length x) w st) [T]).
  Proof.
    intros x p w st Hx Hw Hq. destruct Hx as [Hx|[Hx|[s Hx]]].
    - eexists. apply ev_call. cbn [grammar]. apply ev_atomic. apply (ok_rule U R_key_valid _ NonAtomic p x w st st). do 2 apply ev_else_ok. apply ok_Integer; [exact Hx|].
      unfold int_stop. apply orb_true_intro. right. apply negb_true_iff. destruct w as [|c w]; [reflexivity|]. cbn [head_is] in *.
      destruct (digit c) eqn:Dc; [|reflexivity]. rewrite (digit_xid U c Dc) in Hw. discriminate.
    - eexists. apply ev_call. cbn [grammar]. apply ev_atomic. apply (ok_rule U R_key_valid _ NonAtomic p x w st st). apply ev_else_ok, ev_else_err.
      + apply er_Integer, (head_word_digit U), (word_word_head U). exact Hx.
      + apply ok_SYMBOL; assumption.
    - destruct (ok_String U NonAtomic [] x s p w st (or_introl eq_refl) Hx Hq) as (T & E & _). cbn [app] in E.
      eexists. apply ev_call. cbn [grammar]. apply ev_atomic. apply (ok_rule U R_key_valid _ NonAtomic p x w st st). apply ev_else_err; [|exact E].
      destruct Hx as [Hx _]. destruct x as [|c x]; [discriminate|]. cbn [head_is] in Hx. apply N.eqb_eq in Hx. subst c. apply er_else; [apply er_Integer|apply er_SYMBOL]; reflexivity.
  Qed.
  (** key, colon, expression *)
  Definition entry_means (x : str) (_ : unit) : Prop :=
    exists k g c g' y o, x = k ++ g ++ c :: g' ++ y /\ key k /\ spacing g = true /\ colon_char c = true /\ spacing g' = true /\ front y = true /\ expr_means y o.
  Lemma elem_entry : forall x v, entry_means x v -> elem_means U (ECall R_key_value) x (fun _ => True).
  Proof.
    intros x v (k & g & c & g' & y & o & -> & Hk & Hg & Hc & Hg' & Fy & Hy) p ws d w st Hws Hd. rewrite <- !app_assoc. cbn [app]. rewrite <- !app_assoc.
    destruct (colon_facts U HU c Hc) as (C1 & C2 & C3).
    destruct (ok_key k p (g ++ c :: g' ++ y ++ ws ++ d :: w) st Hk) as (T1 & E1).
    { apply (white_xid U HU); assumption. }
    { destruct g as [|e g]; cbn [app head_is]; [apply N.eqb_neq; intros <-; discriminate|]. destruct (spacing_cons e g Hg) as [[X _]|(-> & _)]; [|reflexivity].
      apply N.eqb_neq. intros <-. discriminate. }
    destruct (expr_lands U y o NonAtomic (p + length k + length g + 1 + length g') ws (d :: w) st Hws Hy (ends_stop U HU ws d w Hws Hd)) as (s & T & E & L & Q).
    assert (X : exists ts, ev (ESeq (EThen (EThen (EThen (EThen (ECall R_key_valid) ESkip) (ECall R_Colon)) ESkip) (ECall R_expr))) NonAtomic false
        (mkPs p (k ++ g ++ c :: g' ++ y ++ ws ++ d :: w) st) (POk s ts)).
    { eexists. apply ok_seq. eapply ok_then; [|exact E]. eapply ok_then1; [|apply skip_spacing; [exact Hg'|apply front_solid; exact Fy]].
      eapply ok_then; [|apply ok_Colon; exact Hc]. eapply ok_then1; [exact E1|]. apply skip_spacing; [exact Hg|apply C3]. }
    destruct X as [ts X]. pose proof (ev_rule U grammar skip_body R_key_value _ _ _ _ _ X) as X2. cbn [rule_res emits] in X2.
    exists s. eexists. split; [apply ev_call; cbn [grammar]; apply ev_atomic; exact X2|]. split; [|exact Logic.I].
    eapply lands_pos; [exact L|]. rewrite !app_length; cbn [length]; rewrite !app_length; unfold str, char in *; lia.
  Qed.
  Lemma key_head : forall k w, key k -> exists c v, k ++ w = c :: v /\ (digit c || word_head U c || (c =? 34)%N) = true.
  Proof.
    intros k w [H|[H|[s [H _]]]].
    - destruct (numeral_digits k H) as [N D]. destruct k as [|c k]; [congruence|]. exists c, (k ++ w). split; [reflexivity|]. cbn [forallb] in D. apply andb_prop in D as [D _]. rewrite D. reflexivity.
    - pose proof (word_word_head U k w H) as W. destruct (k ++ w) as [|c v]; [discriminate|]. exists c, v. cbn [head_is] in W. rewrite W, orb_true_r. auto.
    - destruct k as [|c k]; [discriminate|]. cbn [head_is] in H. exists c, (k ++ w). rewrite N.eqb_sym, H, orb_true_r. auto.
  Qed.
  Lemma key_front : forall k w, key k -> front (k ++ w) = true /\ head_is (N.eqb 125) (k ++ w) = false.
  Proof.
    intros k w Hk. destruct (key_head k w Hk) as (c & v & -> & H).
    assert (N : forall d, digit d = false -> word_head U d = false -> (d =? 34)%N = false -> (c =? d)%N = false).
    { intros d D1 D2 D3. apply N.eqb_neq. intros ->. rewrite D1, D2, D3 in H. discriminate. }
    split; [|cbn [head_is]; rewrite N.eqb_sym; apply N; reflexivity]. cbn [front]. rewrite !N by reflexivity. destruct (white_space c) eqn:W; [|reflexivity].
    exfalso. destruct (white_quiet U HU c W) as (X1 & X2 & _). rewrite X2 in H. destruct (digit c) eqn:D; [rewrite (digit_xid U c D) in X1; discriminate|].
    cbn [orb] in H. apply N.eqb_eq in H. subst c. discriminate.
  Qed.
  Lemma er_key_close : forall p w st, fails (ECall R_key_value) NonAtomic false (mkPs p (125%N :: w) st).
  Proof.
    intros p w st. apply er_call, er_atomic, er_rule, er_seq0. do 4 apply er_then. apply er_call, er_atomic, er_rule. apply er_else; [apply er_else|].
    - apply er_Integer. reflexivity.
    - apply er_SYMBOL. reflexivity.
    - apply er_String_head; reflexivity.
  Qed.
  Definition dict_text (g x s : str) (l : list (arg unit)) (t : trail) : str := lit "{" ++ g ++ x ++ s ++ args_text l ++ trail_text t ++ lit "}".
  Definition entry_arg (a : arg unit) : elem := mkElem (a_comma a) (a_gap a) (a_text a) (a_space a) (fun _ => True).
  Lemma good_entries : forall l, Forall (good_arg entry_means) l -> Forall (good_elem U (ECall R_key_value)) (map entry_arg l).
  Proof.
    induction 1 as [|a l (H1 & H2 & H3 & H4 & H5) _ IH]; constructor; [|exact IH].
    split; [exact H1|]. split; [exact H2|]. split; [exact H3|]. split; [eapply elem_entry; exact H4|exact H5].
  Qed.
  Lemma data_braces : forall x, (forall p w st, exists T, ev (ECall R_dict) CompoundAtomic false (mkPs p ((123%N :: x) ++ w) st) (POk (mkPs (p + length (123%N :: x)) w st) [T]) /\ t_rule T = R_dict) ->
    forall S, node_in U S (123%N :: x) (Panic PUnreachable).
  Proof.
    intros x H S. apply node_data; [apply plain_other; intro w; reflexivity|].
    intros p w st _. destruct (H p w st) as (T & E & R). eexists. split; [|split].
    - apply ev_call. cbn [grammar]. apply ev_atomic. apply (ok_rule U R_data _ CompoundAtomic p (123%N :: x) w st st).
      do 7 apply ev_else_ok. apply ok_restore. exact E.
    - reflexivity.
    - intros f i. unfold parse_data. cbn [node_of emits t_inner]. rewrite R. reflexivity.
  Qed.
  Lemma node_dict_empty : forall g, spacing g = true -> forall S, node_in U S (lit "{" ++ g ++ lit "}") (Panic PUnreachable).
  Proof.
    intros g Hg S. apply (data_braces (g ++ lit "}")). intros p w st. eexists. split; [|shelve].
    apply ev_call. cbn [grammar]. apply ev_atomic. apply (ok_rule U R_dict _ NonAtomic p (lit "{" ++ g ++ lit "}") w st st).
    apply ok_seq. rewrite <- !app_assoc. eapply ok_then0.
    - eapply ok_then0; [apply (ev_str U grammar skip_body (lit "{"))|]. apply skip_spacing; [exact Hg|reflexivity].
    - apply ev_else_ok. eapply ok_pos; [apply (ev_str U grammar skip_body (lit "}"))|lens].
    Unshelve. reflexivity.
  Qed.
  Lemma node_dict : forall g x v s l t, spacing g = true -> front x = true -> head_is (N.eqb 125) x = false -> entry_means x v -> spacing s = true ->
    Forall (good_arg entry_means) l -> good_trail t -> forall S, node_in U S (dict_text g x s l t) (Panic PUnreachable).
  Proof.
    intros g x v s l t Hg Fx Bx Hx Hs Hl Ht S. apply (data_braces (g ++ x ++ s ++ args_text l ++ trail_text t ++ lit "}")).
    intros p w st. pose proof (good_entries l Hl) as Gl.
    destruct (close_head U (ECall R_key_value) 125%N eq_refl t Ht (map entry_arg l) w Gl) as (c & u & Ev & Hc).
    destruct (elem_entry x v Hx (p + 1 + length g) s c u st Hs Hc) as (s1 & T & E & L & _).
    unfold str, char in *. rewrite <- Ev in E, L.
    destruct (ok_enclosed U HU (ECall R_key_value) 125%N eq_refl er_key_close t Ht _ _ s1 [T] _ (map entry_arg l) w st E L Gl) as (Ls & tt & E2 & Q2 & T2).
    rewrite (elems_args _ entry_arg l (fun a => eq_refl)) in *.
    eexists. split; [|shelve].
    apply ev_call. cbn [grammar]. apply ev_atomic. apply (ok_rule U R_dict _ NonAtomic p (dict_text g x s l t) w st st).
    apply ok_seq. unfold dict_text. rewrite <- !app_assoc. eapply ok_then0.
    - eapply ok_then0; [apply (ev_str U grammar skip_body (lit "{"))|]. apply skip_spacing; [exact Hg|]. apply front_solid. exact Fx.
    - apply ev_else_err.
      + apply er_str. destruct x as [|d x]; [discriminate|]. cbn [app]. apply strip_head. cbn [head_is] in Bx. apply N.eqb_neq. exact Bx.
      + apply ok_restore, ok_seq. eapply ok_pos; [exact E2|]. lens.
    Unshelve. reflexivity.
  Qed.
End Mark.
