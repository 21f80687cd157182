(** Slices. *)
From Verif Require Import Base Ast Display SmError Peg Grammar Climber Build SpecAst SpecPeg SpecClimb SpecParse SpecSyntax.
From Verif Require Import ProofAst ProofDisplay ProofPeg ProofPegShift ProofSym ProofGrammar ProofClimber ProofBuild ProofPos ProofSpace ProofLex ProofToken ProofNode ProofAtom ProofTerm ProofExpr ProofGroup ProofCall ProofArgs.
Local Open Scope nat_scope.
Local Open Scope outcome_scope.

Section Slices.
  Variable U : unicode.
  Notation ev := (ev U grammar skip_body).
  Notation fails := (fails U).
  Notation tstop := (tstop U).
  Notation expr_means := (expr_means U).
  Notation expr_stop := (expr_stop U).
  Notation slice_means := (slice_means U).
  Hypothesis HU : sane U.

  Lemma tstop_colon : forall c w, colon_char c = true -> path_more U (c :: w) = false -> tstop (c :: w) = true.
  Proof.
    intros c w H P. apply orb_prop in H as [H|H]; apply N.eqb_eq in H; subst c.
    - unfold tstop, ProofNode.nstop, sym_stop. rewrite P. reflexivity.
    - apply tstop_sign; [exact HU|reflexivity..].
  Qed.
  Lemma tstop_gap : forall d ws w, spacing (d :: ws) = true -> head_is (joins U) (drop_inline w) = false -> head_is (N.eqb 91) (drop_inline w) = false ->
    tstop ((d :: ws) ++ w) = true.
  Proof.
    intros d ws w V J B.
    destruct (spacing_quiet U HU d ws V) as (X1 & X2 & X3 & X4 & X5 & X6 & X7 & X8 & X9).
    unfold tstop, ProofNode.nstop. rewrite (drop_inline_white _ _ _ V eq_refl eq_refl eq_refl B).
    rewrite (drop_inline_white _ _ _ V (proj1 (joins_inline U)) (proj1 (proj2 (joins_inline U))) (proj2 (proj2 (joins_inline U))) J).
    unfold sym_stop, path_more. cbn [app head_is]. change (lit "::") with [58; 58]%N. rewrite !strip_other by assumption.
    cbn [dot_digit]. rewrite X1, X5, X6, X8, no_primes by (apply orb_false_iff in X8; apply X8). reflexivity.
  Qed.
  Lemma colon_stop : forall ws c w, spacing ws = true -> colon_char c = true -> (ws = [] -> path_more U (c :: w) = false) -> expr_stop ws (c :: w).
  Proof.
    intros ws c w Hw Hc P. split; [apply spacing_gone; [exact Hw|apply orb_prop in Hc as [H|H]; apply N.eqb_eq in H; subst c; reflexivity]|]. split; [|apply orb_prop in Hc as [H|H]; apply N.eqb_eq in H; subst c; (split; [reflexivity|apply blocked_head; reflexivity])].
    destruct ws as [|d ws]; [apply tstop_colon; auto|].
    assert (C : joins U c = false /\ (91 =? c)%N = false /\ inline_space c = false).
    { destruct (colon_facts U HU c Hc) as (_ & D & _). unfold dead in D. apply andb_prop in D as [D _]. apply andb_prop in D as [_ D]. apply negb_true_iff in D. split; [exact D|].
      apply orb_prop in Hc as [H|H]; apply N.eqb_eq in H; subst c; split; reflexivity. }
    destruct C as (C1 & C2 & C3). apply tstop_gap; [exact Hw| |]; cbn [drop_inline]; rewrite C3; assumption.
  Qed.

  (** ** Bounds *)
  Definition bound := option (str * outcome ast).
  Definition bound_text (b : bound) : str := match b with Some (x, _) => x | None => [] end.
  Definition good_bound (b : bound) : Prop := match b with Some (x, o) => front x = true /\ expr_means x o | None => True end.
  Definition bound_value (d : ast) (b : bound) : outcome ast := match b with Some (_, o) => o | None => Ret d end.
  Definition part (r : rule) (b : bound) (ts : list (tree rule)) : Prop :=
    match b with
    | Some (_, o) => exists T T', ts = [T'] /\ t_rule T' = r /\ t_inner T' = [T] /\ Qexpr o T
    | None => ts = []
    end.
  Definition bound_rule (r : rule) : Prop := r = R_Start \/ r = R_End \/ r = R_Step.
  Lemma bound_grammar : forall r, bound_rule r -> grammar r = ERule r (ECall R_expr).
  Proof. intros r [->|[->| ->]]; reflexivity. Qed.
  Lemma ok_part : forall r x o p ws w st, spacing ws = true -> bound_rule r -> expr_means x o -> expr_stop ws w -> exists s ts,
    ev (EOpt (ERestore (ECall r))) NonAtomic false (mkPs p (x ++ ws ++ w) st) (POk s ts) /\ lands s (p + length x + length ws) w st /\ part r (Some (x, o)) ts.
  Proof.
    intros r x o p ws w st Hws Hr Hx Hs. destruct (expr_lands U x o NonAtomic p ws w st Hws Hx Hs) as (s & T & E & L & Q).
    pose proof (ev_rule U grammar skip_body r _ _ _ _ _ E) as X. cbn [rule_res emits] in X.
    rewrite <- (bound_grammar r Hr) in X.
    exists s. eexists. split; [|split; [exact L|]].
    - apply ok_opt, ok_restore, ev_call. exact X.
    - eexists. eexists. split; [reflexivity|]. split; [reflexivity|]. split; [reflexivity|exact Q].
  Qed.
  Lemma no_part : forall r p c w st, bound_rule r -> dead U c = true ->
    ev (EOpt (ERestore (ECall r))) NonAtomic false (mkPs p (c :: w) st) (POk (mkPs p (c :: w) st) []).
  Proof.
    intros r p c w st Hr Hc. apply no_opt, er_restore, er_call. rewrite (bound_grammar r Hr). apply er_rule, er_expr_dead. exact Hc.
  Qed.
  (** white space, then an optional bound, up to a character that ends it *)
  Lemma ok_gap_part : forall r b q g ws c w st, bound_rule r -> good_bound b -> spacing g = true -> spacing ws = true ->
    dead U c = true -> solid (c :: w) = true -> (b <> None -> expr_stop ws (c :: w)) -> exists s1 s2 ts,
      ev ESkip NonAtomic false (mkPs q (g ++ bound_text b ++ ws ++ c :: w) st) (POk s1 []) /\
      ev (EOpt (ERestore (ECall r))) NonAtomic false s1 (POk s2 ts) /\
      lands s2 (q + length g + length (bound_text b) + length ws) (c :: w) st /\ part r b ts.
  Proof.
    intros r [[x o]|] q g ws c w st Hr Hb Hg Hws Hc Hs He.
    - cbn [bound_text]. destruct Hb as [F X]. destruct (ok_part r x o (q + length g) ws (c :: w) st Hws Hr X (He ltac:(discriminate))) as (s & ts & E & L & P).
      eexists. exists s, ts. split; [apply skip_spacing; [exact Hg|apply front_solid; exact F]|]. split; [exact E|]. split; [exact L|exact P].
    - cbn [bound_text app length]. exists (mkPs (q + length g + length ws) (c :: w) st), (mkPs (q + length g + length ws) (c :: w) st), [].
      split; [|split; [apply no_part; assumption|split; [|reflexivity]]].
      + rewrite app_assoc. eapply ok_pos; [apply skip_spacing; [|exact Hs]|lens]. apply spacing_app; assumption.
      + eapply lands_pos; [apply lands_here|lia].
  Qed.

  (** ** Indices *)
  Inductive index :=
  | Plain (x : str) (o : outcome ast)
  | Range (start : bound) (g1 : str) (c1 : char) (g2 : str) (stop : bound) (more : option (str * char * str * bound)).
  Definition index_text (i : index) : str :=
    match i with
    | Plain x _ => x
    | Range a g1 c1 g2 b None => bound_text a ++ g1 ++ c1 :: g2 ++ bound_text b
    | Range a g1 c1 g2 b (Some (g3, c2, g4, c)) => bound_text a ++ g1 ++ c1 :: g2 ++ bound_text b ++ g3 ++ c2 :: g4 ++ bound_text c
    end.
  Definition span (a b c : ast) : ast := Function (symbol_from (lit "std::core::Span")) [plain_param [a; b; c] default_position].
  Definition all_bound : ast := ast_symbol (lit "std::core::All").
  Definition index_value (i : index) : outcome ast :=
    match i with
    | Plain _ o => o
    | Range a _ _ _ b more =>
        x <- bound_value (Integer 1) a; y <- bound_value all_bound b;
        z <- match more with Some (_, _, _, c) => bound_value (Integer 1) c | None => Ret (Integer 1) end;
        Ret (span x y z)
    end.
  (** a word directly after `::` would be read as part of a path *)
  Definition good_index (i : index) : Prop :=
    match i with
    | Plain x o => front x = true /\ expr_means x o
    | Range a g1 c1 g2 b more =>
        good_bound a /\ spacing g1 = true /\ (a = None -> g1 = []) /\ colon_char c1 = true /\ spacing g2 = true /\ good_bound b /\
        match more with
        | None => True
        | Some (g3, c2, g4, c) => spacing g3 = true /\ colon_char c2 = true /\ spacing g4 = true /\ good_bound c /\
            (a <> None -> g1 ++ g2 ++ bound_text b ++ g3 ++ g4 = [] -> head_is (word_head U) (bound_text c) = false)
        end
    end.
  Definition Qindex (o : outcome ast) (T : tree rule) : Prop :=
    t_rule T = R_index /\ forall f i, orel sim (parse_index f i (parse_expr f i) T) o.

  Lemma no_colon : forall x o w, front x = true -> expr_means x o -> head_is colon_char (x ++ w) = false.
  Proof.
    intros [|c x] o w F H; [discriminate|]. cbn [app head_is]. destruct (colon_char c) eqn:E; [|reflexivity]. exfalso.
    destruct (H NonAtomic 0 [] [] [] (end_stop U HU [] eq_refl)) as (s & T & X & _).
    pose proof (er_expr_dead U NonAtomic 0 c (x ++ []) [] (proj1 (proj2 (colon_facts U HU c E)))) as Y.
    cbn [app] in X. rewrite app_nil_r in *. pose proof (ev_det U grammar skip_body _ _ _ _ _ _ X Y) as Z. discriminate.
  Qed.
  Lemma path_more_colon : forall c w, colon_char c = true -> head_is (N.eqb 58) w = false -> path_more U (c :: w) = false.
  Proof.
    intros c w Hc Hw. apply orb_prop in Hc as [H|H]; apply N.eqb_eq in H; subst c; [|reflexivity]. unfold path_more.
    destruct w as [|d w]; [reflexivity|]. cbn [head_is] in Hw. change (lit "::") with [58; 58]%N. cbn [strip_prefix]. rewrite N.eqb_refl.
    rewrite Hw. reflexivity.
  Qed.
  Lemma white_not58 : forall g w, spacing g = true -> head_is (N.eqb 58) w = false -> head_is (N.eqb 58) (g ++ w) = false.
  Proof.
    intros [|c g] w H Hw; [exact Hw|]. cbn [app head_is].
    rewrite N.eqb_sym. apply (spacing_quiet U HU c _ H).
  Qed.
  Lemma bound_not58 : forall b w, good_bound b -> (b = None -> head_is (N.eqb 58) w = false) -> head_is (N.eqb 58) (bound_text b ++ w) = false.
  Proof.
    intros [[x o]|] w Hb Hw; [|apply Hw; reflexivity]. destruct Hb as [F X]. cbn [bound_text]. pose proof (no_colon x o w F X) as N.
    destruct (x ++ w) as [|c v]; [reflexivity|]. cbn [head_is] in *. unfold colon_char in N. apply orb_false_iff in N as [N _]. rewrite N.eqb_sym. exact N.
  Qed.
  Lemma ends_58 : forall c w, ends c = true -> head_is (N.eqb 58) (c :: w) = false.
  Proof.
    intros c w H. destruct (ends_facts U HU c H) as (C & _). unfold colon_char in C. apply orb_false_iff in C as [C _]. cbn [head_is]. rewrite N.eqb_sym. exact C.
  Qed.

  (** start, colon *)
  Definition head1 : pexp rule := EThen (EThen (EOpt (ERestore (ECall R_Start))) ESkip) (ECall R_Colon).
  Lemma ok_head1 : forall a p g1 c1 w st, good_bound a -> spacing g1 = true -> (a = None -> g1 = []) -> colon_char c1 = true ->
    (a <> None -> g1 = [] -> path_more U (c1 :: w) = false) -> exists ts C,
    ev head1 NonAtomic false (mkPs p (bound_text a ++ g1 ++ c1 :: w) st)
      (POk (mkPs (p + length (bound_text a) + length g1 + 1) w st) (ts ++ [C])) /\ part R_Start a ts /\ t_rule C = R_Colon.
  Proof.
    intros a p g1 c1 w st Ha Hg HN Hc HP. destruct (colon_facts U HU c1 Hc) as (C1 & C2 & C3).
    assert (X : exists s ts, ev (EOpt (ERestore (ECall R_Start))) NonAtomic false (mkPs p (bound_text a ++ g1 ++ c1 :: w) st) (POk s ts) /\
      lands s (p + length (bound_text a) + length g1) (c1 :: w) st /\ part R_Start a ts).
    { destruct a as [[x o]|].
      - apply ok_part; [exact Hg|left; reflexivity|apply Ha|]. apply colon_stop; [exact Hg|exact Hc|]. apply HP. discriminate.
      - rewrite (HN eq_refl). eexists. exists []. cbn [bound_text app length]. split; [apply no_part; [left; reflexivity|exact C2]|].
        split; [eapply lands_pos; [apply lands_here|lia]|reflexivity]. }
    destruct X as (s & ts & E & L & P). exists ts. eexists. split; [|split; [exact P|]].
    - eapply ok_then; [|apply ok_Colon; exact Hc]. eapply ok_then1; [exact E|]. apply skip_lands; [exact L|apply C3].
    - reflexivity.
  Qed.
  Lemma er_head1 : forall x o p ws c w st, expr_means x o -> spacing ws = true -> ends c = true ->
    exists s t, ev head1 NonAtomic false (mkPs p (x ++ ws ++ c :: w) st) (PErr s t) /\ stk s = st.
  Proof.
    intros x o p ws c w st Hx Hws Hc. destruct (ends_facts U HU c Hc) as (C1 & C2 & C3).
    destruct (ok_part R_Start x o p ws (c :: w) st Hws (or_introl eq_refl) Hx (ends_stop U HU ws c w Hws Hc)) as (s & ts & E & L & P).
    assert (S : solid (c :: w) = true) by (apply (ends_solid U HU); exact Hc).
    pose proof (ok_then1 U _ _ _ _ _ _ _ _ E (skip_lands U s _ _ _ L S)) as E2.
    pose proof (ev_then U grammar skip_body _ _ _ _ _ _ _ _ E2 (er_Colon U NonAtomic false (p + length x + length ws) (c :: w) st C1)) as E3.
    cbn [prepend] in E3. eexists. eexists. split; [exact E3|reflexivity].
  Qed.

  Lemma dead_word : forall c, dead U c = true -> word_head U c = false.
  Proof.
    intros c D. unfold dead in D. apply andb_prop in D as [D _]. apply andb_prop in D as [_ D]. apply negb_true_iff in D. unfold joins in D.
    apply orb_false_iff in D. apply D.
  Qed.
  Lemma loop_start : forall f i t a ts l e p K, part R_Start a ts ->
    (forall x x', sim x x' -> orel sim (parse_index_loop f i (parse_expr f i) t l x e p) (K x')) ->
    orel sim (parse_index_loop f i (parse_expr f i) t (ts ++ l) (Integer 1) e p) (x <- bound_value (Integer 1) a; K x).
  Proof.
    intros f i t [[x o]|] ts l e p K P H; cbn [part bound_value] in *.
    - destruct P as (T & T' & -> & R & I & [R' Q]). cbn [app parse_index_loop]. rewrite R, I. eapply orel_bind; [apply Q|]. exact H.
    - subst ts. cbn [app obind]. apply H. apply sim_refl.
  Qed.
  Lemma loop_stop : forall f i t a ts l s p K, part R_End a ts ->
    (forall x x', sim x x' -> orel sim (parse_index_loop f i (parse_expr f i) t l s x p) (K x')) ->
    orel sim (parse_index_loop f i (parse_expr f i) t (ts ++ l) s all_bound p) (x <- bound_value all_bound a; K x).
  Proof.
    intros f i t [[x o]|] ts l s p K P H; cbn [part bound_value] in *.
    - destruct P as (T & T' & -> & R & I & [R' Q]). cbn [app parse_index_loop]. rewrite R, I. eapply orel_bind; [apply Q|]. exact H.
    - subst ts. cbn [app obind]. apply H. apply sim_refl.
  Qed.
  Lemma loop_step : forall f i t a ts l s e K, part R_Step a ts ->
    (forall x x', sim x x' -> orel sim (parse_index_loop f i (parse_expr f i) t l s e x) (K x')) ->
    orel sim (parse_index_loop f i (parse_expr f i) t (ts ++ l) s e (Integer 1)) (x <- bound_value (Integer 1) a; K x).
  Proof.
    intros f i t [[x o]|] ts l s e K P H; cbn [part bound_value] in *.
    - destruct P as (T & T' & -> & R & I & [R' Q]). cbn [app parse_index_loop]. rewrite R, I. eapply orel_bind; [apply Q|]. exact H.
    - subst ts. cbn [app obind]. apply H. apply sim_refl.
  Qed.
  Lemma loop_colon : forall f i t C l s e p, t_rule C = R_Colon -> parse_index_loop f i (parse_expr f i) t (C :: l) s e p = parse_index_loop f i (parse_expr f i) t l s e p.
  Proof. intros f i t C l s e p R. cbn [parse_index_loop]. rewrite R. reflexivity. Qed.
  Lemma loop_end : forall f i t x y z x' y' z', sim x x' -> sim y y' -> sim z z' ->
    orel sim (parse_index_loop f i (parse_expr f i) t [] x y z) (Ret (span x' y' z')).
  Proof. intros. cbn [parse_index_loop orel]. apply sim_call. repeat (constructor; [assumption|]). constructor. Qed.

  Lemma ok_index : forall i, good_index i -> elem_means U (ECall R_index) (index_text i) (Qindex (index_value i)).
  Proof.
    intros i Hi p ws c w st Hws Hc. destruct (ends_facts U HU c Hc) as (C1 & C2 & C3).
    assert (S : solid (c :: w) = true) by (apply (ends_solid U HU); exact Hc).
    pose proof (ends_stop U HU ws c w Hws Hc) as ES.
    destruct i as [x o|a g1 c1 g2 b more].
    - destruct Hi as [F X]. cbn [index_text index_value]. destruct (expr_lands U x o NonAtomic p ws (c :: w) st Hws X ES) as (s & T & E & L & Q).
      destruct (er_head1 x o p ws c w st X Hws Hc) as (s1 & t1 & E1 & S1).
      assert (FA : forall h, fails (ESeq (EThen (EThen h ESkip) (EOpt (ERestore (ECall R_End))))) NonAtomic false (mkPs p (x ++ ws ++ c :: w) st) ->
        fails (ESeq (EThen (EThen h ESkip) (EOpt (ERestore (ECall R_End))))) NonAtomic false (mkPs p (x ++ ws ++ c :: w) st)) by auto. clear FA.
      assert (E0 : ev (EElse (EElse
          (ESeq (EThen (EThen (EThen (EThen (EThen (EThen head1 ESkip) (EOpt (ERestore (ECall R_End)))) ESkip) (ECall R_Colon)) ESkip) (EOpt (ERestore (ECall R_Step)))))
          (ESeq (EThen (EThen head1 ESkip) (EOpt (ERestore (ECall R_End)))))) (ERestore (ECall R_expr)))
        NonAtomic false (mkPs p (x ++ ws ++ c :: w) st) (POk s [T])).
      { apply ev_else_err; [apply er_else|apply ok_restore; exact E].
        - eapply er_seq with (s1 := s1); [|exact S1]. do 6 apply ev_then_err. exact E1.
        - eapply er_seq with (s1 := s1); [|exact S1]. do 2 apply ev_then_err. exact E1. }
      pose proof (ev_rule U grammar skip_body R_index _ _ _ _ _ E0) as X2. cbn [rule_res emits] in X2.
      exists s. eexists. split; [apply ev_call; exact X2|]. split; [exact L|]. split; [reflexivity|]. intros f i.
      unfold parse_index. cbn [t_inner parse_index_loop]. destruct Q as [R M]. rewrite R. apply M.
    - destruct Hi as (Ha & G1 & N1 & K1 & G2 & Hb & Hm). destruct more as [[[[g3 c2] g4] d]|].
      + destruct Hm as (G3 & K2 & G4 & Hd & Hp). destruct (colon_facts U HU c2 K2) as (D1 & D2 & D3).
        cbn [index_text index_value].
        assert (TE : (bound_text a ++ g1 ++ c1 :: g2 ++ bound_text b ++ g3 ++ c2 :: g4 ++ bound_text d) ++ ws ++ c :: w =
                     bound_text a ++ g1 ++ c1 :: g2 ++ bound_text b ++ g3 ++ c2 :: g4 ++ bound_text d ++ ws ++ c :: w).
        { rewrite <- !app_assoc. do 2 f_equal. cbn [app]. f_equal. rewrite <- !app_assoc. do 3 f_equal. cbn [app]. f_equal. rewrite <- !app_assoc. reflexivity. }
        unfold str, char in *. rewrite TE. clear TE.
        assert (P2 : path_more U (c2 :: g4 ++ bound_text d ++ ws ++ c :: w) = false).
        { apply path_more_colon; [exact K2|]. apply white_not58; [exact G4|]. apply bound_not58; [exact Hd|]. intros _.
          apply white_not58; [exact Hws|]. apply ends_58. exact Hc. }
        destruct (ok_head1 a p g1 c1 (g2 ++ bound_text b ++ g3 ++ c2 :: g4 ++ bound_text d ++ ws ++ c :: w) st Ha G1 N1 K1) as (t1 & T1 & E1 & P1 & R1).
        { intros Na Ng. destruct (head_is (N.eqb 58) (g2 ++ bound_text b ++ g3 ++ c2 :: g4 ++ bound_text d ++ ws ++ c :: w)) eqn:HH; [|apply path_more_colon; assumption].
          assert (E : g2 = [] /\ b = None /\ g3 = [] /\ c2 = 58%N).
          { destruct g2 as [|u g2].
            - destruct b as [[x o]|].
              { exfalso. pose proof (bound_not58 (Some (x, o)) (g3 ++ c2 :: g4 ++ bound_text d ++ ws ++ c :: w) Hb ltac:(discriminate)) as Z.
                cbn [app] in HH. unfold str, char in *. rewrite Z in HH. discriminate. }
              cbn [bound_text app] in HH. destruct g3 as [|u g3].
              + cbn [app head_is] in HH. apply N.eqb_eq in HH. auto.
              + exfalso. cbn [app head_is] in HH. rewrite N.eqb_sym in HH.
                destruct (spacing_quiet U HU u _ G3) as (_ & _ & Z & _). congruence.
            - exfalso. cbn [app head_is] in HH. rewrite N.eqb_sym in HH.
              destruct (spacing_quiet U HU u _ G2) as (_ & _ & Z & _). congruence. }
          destruct E as (-> & -> & -> & ->). cbn [bound_text app] in *. subst g1. cbn [app] in Hp.
          apply orb_prop in K1 as [K1|K1]; apply N.eqb_eq in K1; subst c1; [|reflexivity].
          unfold path_more. change (lit "::") with [58; 58]%N. cbn [strip_prefix]. rewrite N.eqb_refl.
          destruct g4 as [|u g4]; [|cbn [app head_is]; apply (spacing_quiet U HU u _ G4)].
          specialize (Hp Na eq_refl). cbn [app]. destruct d as [[x o]|]; cbn [bound_text] in *.
          - destruct Hd as [F _]. destruct x as [|v x]; [discriminate|exact Hp].
          - cbn [app]. destruct ws as [|v ws].
            + cbn [app head_is]. apply dead_word. exact C3.
            + apply (spacing_quiet U HU v _ Hws). }
        destruct (ok_gap_part R_End b (p + length (bound_text a) + length g1 + 1) g2 g3 c2 (g4 ++ bound_text d ++ ws ++ c :: w) st (or_intror (or_introl eq_refl)) Hb G2 G3 D2 (D3 _)
          (fun _ => colon_stop g3 c2 _ G3 K2 (fun _ => P2))) as (s2 & s3 & t3 & E2 & E3 & L3 & P3).
        destruct (ok_gap_part R_Step d (p + length (bound_text a) + length g1 + 1 + length g2 + length (bound_text b) + length g3 + 1) g4 ws c w st (or_intror (or_intror eq_refl)) Hd G4 Hws C3 S
          (fun _ => ES)) as (s4 & s5 & t5 & E4 & E5 & L5 & P5).
        pose proof (ok_then U _ _ _ _ _ _ _ _ _ (ok_then1 U _ _ _ _ _ _ _ _ E1 E2) E3) as A1.
        pose proof (ok_then1 U _ _ _ _ _ _ _ _ A1 (skip_lands U s3 _ _ _ L3 (D3 _))) as A2.
        pose proof (ok_then U _ _ _ _ _ _ _ _ _ A2 (ok_Colon U c2 _ _ st K2)) as A3.
        pose proof (ok_then U _ _ _ _ _ _ _ _ _ (ok_then1 U _ _ _ _ _ _ _ _ A3 E4) E5) as A4.
        pose proof (ev_else_ok U grammar skip_body _ (ERestore (ECall R_expr)) _ _ _ _ _
          (ev_else_ok U grammar skip_body _ (ESeq (EThen (EThen head1 ESkip) (EOpt (ERestore (ECall R_End))))) _ _ _ _ _ (ok_seq U _ _ _ _ _ _ A4))) as A5.
        pose proof (ev_rule U grammar skip_body R_index _ _ _ _ _ A5) as X2. cbn [rule_res emits] in X2.
        exists s5. eexists. split; [apply ev_call; exact X2|]. split; [eapply lands_pos; [exact L5|unfold str, char in *; repeat (rewrite app_length || cbn [length]); lia]|].
        split; [reflexivity|]. intros f i. unfold parse_index. cbn [t_inner].
        rewrite <- !app_assoc. fold all_bound. apply loop_start; [exact P1|]. intros x x' Sx. cbn [app]. rewrite loop_colon by exact R1.
        apply loop_stop; [exact P3|]. intros y y' Sy. rewrite loop_colon by reflexivity.
        rewrite <- (app_nil_r t5). apply loop_step; [exact P5|]. intros z z' Sz. apply loop_end; assumption.
      + cbn [index_text index_value].
        assert (TE : (bound_text a ++ g1 ++ c1 :: g2 ++ bound_text b) ++ ws ++ c :: w = bound_text a ++ g1 ++ c1 :: g2 ++ bound_text b ++ ws ++ c :: w).
        { rewrite <- !app_assoc. do 2 f_equal. cbn [app]. f_equal. rewrite <- !app_assoc. reflexivity. }
        unfold str, char in *. rewrite TE. clear TE.
        destruct (ok_head1 a p g1 c1 (g2 ++ bound_text b ++ ws ++ c :: w) st Ha G1 N1 K1) as (t1 & T1 & E1 & P1 & R1).
        { intros _ _. apply path_more_colon; [exact K1|]. apply white_not58; [exact G2|]. apply bound_not58; [exact Hb|]. intros _.
          apply white_not58; [exact Hws|]. apply ends_58. exact Hc. }
        destruct (ok_gap_part R_End b (p + length (bound_text a) + length g1 + 1) g2 ws c w st (or_intror (or_introl eq_refl)) Hb G2 Hws C3 S
          (fun _ => ES)) as (s2 & s3 & t3 & E2 & E3 & L3 & P3).
        pose proof (ok_then U _ _ _ _ _ _ _ _ _ (ok_then1 U _ _ _ _ _ _ _ _ E1 E2) E3) as A1.
        pose proof (ok_then1 U _ _ _ _ _ _ _ _ A1 (skip_lands U s3 _ _ _ L3 S)) as A2.
        assert (FA : fails (ESeq (EThen (EThen (EThen (EThen (EThen (EThen head1 ESkip) (EOpt (ERestore (ECall R_End)))) ESkip) (ECall R_Colon)) ESkip) (EOpt (ERestore (ECall R_Step)))))
          NonAtomic false (mkPs p (bound_text a ++ g1 ++ c1 :: g2 ++ bound_text b ++ ws ++ c :: w) st)).
        { pose proof (ev_then U grammar skip_body _ _ _ _ _ _ _ _ A2 (er_Colon U NonAtomic false _ (c :: w) st C1)) as A3. cbn [prepend] in A3.
          eapply er_seq; [|cycle 1]; [do 2 apply ev_then_err; exact A3|reflexivity]. }
        pose proof (ev_else_ok U grammar skip_body _ (ERestore (ECall R_expr)) _ _ _ _ _ (ev_else_err U _ _ _ _ _ _ FA (ok_seq U _ _ _ _ _ _ A1))) as A5.
        pose proof (ev_rule U grammar skip_body R_index _ _ _ _ _ A5) as X2. cbn [rule_res emits] in X2.
        exists s3. eexists. split; [apply ev_call; exact X2|]. split; [eapply lands_pos; [exact L3|unfold str, char in *; repeat (rewrite app_length || cbn [length]); lia]|].
        split; [reflexivity|]. intros f i. unfold parse_index. cbn [t_inner].
        rewrite <- !app_assoc. fold all_bound. apply loop_start; [exact P1|]. intros x x' Sx. cbn [app]. rewrite loop_colon by exact R1.
        rewrite <- (app_nil_r t3). apply loop_stop; [exact P3|]. intros y y' Sy. apply loop_end; [exact Sx|exact Sy|apply sim_refl].
  Qed.

  (** ** Slices *)
  Lemma er_index_close : forall p w st, fails (ECall R_index) NonAtomic false (mkPs p (93%N :: w) st).
  Proof.
    intros p w st. apply er_call, er_rule.
    assert (X : ev (EOpt (ERestore (ECall R_Start))) NonAtomic false (mkPs p (93%N :: w) st) (POk (mkPs p (93%N :: w) st) []))
      by (apply no_part; [left; reflexivity|reflexivity]).
    pose proof (ok_then1 U _ _ _ _ _ _ _ _ X (skip_nothing U p (93%N :: w) st eq_refl)) as X2.
    pose proof (ev_then U grammar skip_body _ _ _ _ _ _ _ _ X2 (er_Colon U NonAtomic false p (93%N :: w) st eq_refl)) as X3. cbn [prepend] in X3.
    apply er_else; [apply er_else|].
    - eapply er_seq; [|cycle 1]; [do 6 apply ev_then_err; exact X3|reflexivity].
    - eapply er_seq; [|cycle 1]; [do 2 apply ev_then_err; exact X3|reflexivity].
    - apply er_restore, er_expr_dead. reflexivity.
  Qed.
  Lemma index_front : forall i, good_index i -> front (index_text i) = true.
  Proof.
    intros [x o|a g1 c1 g2 b more] H; [apply H|]. destruct H as (Ha & G1 & N1 & K1 & _).
    assert (X : forall w, front (bound_text a ++ g1 ++ c1 :: w) = true).
    { intro w. destruct a as [[x o]|].
      - destruct Ha as [F _]. destruct x as [|u x]; [discriminate|exact F].
      - rewrite (N1 eq_refl). apply orb_prop in K1 as [K1|K1]; apply N.eqb_eq in K1; subst c1; reflexivity. }
    destruct more as [[[[g3 c2] g4] d]|]; apply X.
  Qed.
  Definition index_arg (a : arg index) : elem := mkElem (a_comma a) (a_gap a) (a_text a) (a_space a) (Qindex (index_value (a_value a))).
  Definition index_means (x : str) (i : index) : Prop := x = index_text i /\ good_index i.
  Lemma good_index_args : forall l, Forall (good_arg index_means) l -> Forall (good_elem U (ECall R_index)) (map index_arg l).
  Proof.
    induction 1 as [|a l (H1 & H2 & H3 & [H4 H4'] & H5) _ IH]; constructor; [|exact IH].
    split; [exact H1|]. split; [exact H2|]. split; [exact H3|]. split; [|exact H5]. cbn [body about index_arg]. rewrite H4. apply ok_index. exact H4'.
  Qed.
  Lemma spaced_indices : forall l L tt, Forall2 elem_trees (map index_arg l) L -> Forall (fun T => t_rule T = R_Comma) tt ->
    spaced Qindex (trees L ++ tt) (map (fun a => index_value (a_value a)) l).
  Proof.
    intros l L tt H Ht. revert L H. induction l as [|a l IH]; intros L H; inversion H as [|? q ? L' [H1 H2] H3]; subst; cbn [map trees flat_map app].
    - apply spaced_commas. exact Ht.
    - constructor; [exact H1|]. constructor; [exact H2|]. apply IH. exact H3.
  Qed.
  Definition slice_text (g : str) (i : index) (s : str) (l : list (arg index)) (t : trail) : str :=
    lit "[" ++ g ++ index_text i ++ s ++ args_text l ++ trail_text t ++ lit "]".
  Lemma slice_whole : forall g i s l t, spacing g = true -> good_index i -> spacing s = true -> Forall (good_arg index_means) l -> good_trail t ->
    slice_means (slice_text g i s l t) (oall (index_value i :: map (fun a => index_value (a_value a)) l)).
  Proof.
    intros g i s l t Hg Hi Hs Hl Ht. split; [reflexivity|]. intros p w st. pose proof (good_index_args l Hl) as Gl.
    destruct (close_head U (ECall R_index) 93%N eq_refl t Ht (map index_arg l) w Gl) as (c & v & Ev & Hc).
    destruct (ok_index i Hi (p + 1 + length g) s c v st Hs Hc) as (s1 & T & E & L & Q).
    unfold str, char in *. rewrite <- Ev in E, L.
    assert (H : ev (EThen (EThen (EStr (lit "[")) ESkip) (ECall R_index)) NonAtomic false
      (mkPs p (lit "[" ++ g ++ index_text i ++ s ++ elems_text (map index_arg l) ++ trail_text t ++ 93%N :: w) st) (POk s1 [T])).
    { eapply ok_then0; [|exact E]. eapply ok_then0; [apply (ev_str U grammar skip_body (lit "["))|].
      apply skip_spacing; [exact Hg|]. apply front_solid, index_front. exact Hi. }
    destruct (ok_enclosed U HU (ECall R_index) 93%N eq_refl er_index_close t Ht _ _ s1 [T] _ (map index_arg l) w st H L Gl) as (Ls & tt & E2 & Q2 & T2).
    rewrite (elems_args _ index_arg l (fun a => eq_refl)) in *.
    eexists. split; [|split].
    - apply ev_call. cbn [grammar]. apply ev_atomic. apply (ok_rule U R_slice _ NonAtomic p (slice_text g i s l t) w st st).
      apply ok_seq. unfold slice_text. rewrite <- !app_assoc. eapply ok_pos; [exact E2|lens].
    - reflexivity.
    - intros f j. unfold parse_slice. cbn [t_inner node_of emits].
      apply (spaced_collect Qindex).
      + cbn [app map]. constructor; [exact Q|]. apply spaced_indices; assumption.
      + intros T' R. rewrite R. reflexivity.
      + intros T' o [R M]. rewrite R. eapply orel_bind; [apply M|]. intros a b Hab. cbn [orel]. constructor; [exact Hab|constructor].
  Qed.
End Slices.
