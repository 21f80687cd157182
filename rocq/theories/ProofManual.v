(** Where an expression ends. *)
From Verif Require Import Base Ast SmError Peg Grammar Build SpecAst SpecClimb SpecSyntax SpecText SpecManual.
From Verif Require Import ProofAst ProofPeg ProofPegShift ProofSym ProofGrammar ProofBuild ProofPos ProofSpace ProofLex ProofToken ProofNode ProofTerm ProofExpr ProofGroup ProofCall ProofSlice ProofText ProofStatement ProofComment ProofKeyword ProofSource ProofSyntax.
From Verif Require Import SpecSource.
Local Open Scope nat_scope.
Local Open Scope outcome_scope.

Section Manual.
  Variable U : unicode.
  Notation ev := (ev U grammar skip_body).
  Notation fails := (fails U).
  Notation tstop := (tstop U).
  Notation expr_means := (expr_means U).
  Notation expr_stop := (expr_stop U).
  Notation blocked := (blocked U).
  Hypothesis HU : sane U.

  Lemma dead_spec : forall c, operand_start U c = false -> dead U c = true.
  Proof.
    intros c H. unfold operand_start in H. do 3 (apply orb_false_iff in H as [H ?]). unfold dead, joins.
    cbn [existsb] in *. repeat match goal with H : (_ || _)%bool = false |- _ => apply orb_false_iff in H as [? H] end.
    repeat match goal with H : _ = false |- _ => rewrite H; clear H end. reflexivity.
  Qed.

  (** ** Stops *)
  Lemma drop_inline_break : forall ws w, spacing ws = true -> existsb line_end ws = true -> exists c v, drop_inline (ws ++ w) = c :: v /\ (c = 10%N \/ c = 13%N \/ c = 47%N).
  Proof.
    intros ws w H. revert ws H. apply (spacing_ind' (fun ws => existsb line_end ws = true -> exists c v, drop_inline (ws ++ w) = c :: v /\ (c = 10%N \/ c = 13%N \/ c = 47%N))).
    - discriminate.
    - intros c ws W _ IH H. cbn [app drop_inline existsb] in *. unfold inline_space. rewrite W. unfold line_end at 1 in H.
      destruct (N.eqb_spec c 10) as [->|N1]; [cbn; eauto 10|]. destruct (N.eqb_spec c 13) as [->|N2]; [cbn; eauto 10|]. exact (IH H).
    - intros. cbn. eauto 10.
  Qed.
  Lemma tstop_break : forall ws w, broken ws = true -> tstop (ws ++ w) = true.
  Proof.
    intros [|d ws] w H; [discriminate|]. unfold broken in H. apply andb_prop in H as [V H]. destruct (drop_inline_break _ w V H) as (c & v & E & C).
    destruct (spacing_quiet U HU d ws V) as (X1 & X2 & X3 & X4 & X5 & X6 & X7 & X8 & X9).
    unfold tstop, ProofNode.nstop. rewrite E. destruct (joins_inline U) as [J1 [J2 J3]].
    assert (J : head_is (joins U) (c :: v) = false /\ head_is (N.eqb 91) (c :: v) = false) by (destruct C as [-> |[-> | ->]]; cbn [head_is]; auto).
    destruct J as [-> ->]. unfold sym_stop, path_more. cbn [app head_is]. change (lit "::") with [58; 58]%N. rewrite !strip_other by assumption.
    cbn [dot_digit]. rewrite X1, X5, X6, X8, no_primes by (apply orb_false_iff in X8; apply X8). reflexivity.
  Qed.
  Lemma break_stop : forall ws c w, broken ws = true -> white_space c = false -> operator_start c = false -> expr_stop ws (c :: w).
  Proof.
    intros ws c w H W O. assert (S : solid (c :: w) = true).
    { unfold solid. cbn [head_is]. rewrite W. unfold operator_start in O. cbn [existsb] in O.
      repeat match goal with H : (_ || _)%bool = false |- _ => apply orb_false_iff in H as [? H] end.
      change (lit "//") with [47; 47]%N. change (lit "%%%") with [37; 37; 37]%N. rewrite !strip_other by assumption. reflexivity. }
    split; [unfold broken in H; apply andb_prop in H; apply spacing_gone; [apply H|exact S]|]. split; [apply tstop_break; exact H|]. split; [exact S|].
    apply blocked_head. exact O.
  Qed.
  Lemma tstop_foreign : forall c w, In c (64%N :: foreign) -> tstop (c :: w) = true.
  Proof. intros c w H. cbn [foreign In] in H. repeat (destruct H as [<-|H]; [reflexivity|]). contradiction. Qed.
  Lemma foreign_stop : forall ws c w, spacing ws = true -> In c (64%N :: foreign) -> expr_stop ws (c :: w).
  Proof.
    intros ws c w H C. assert (S : solid (c :: w) = true) by (cbn [foreign In] in C; repeat (destruct C as [<-|C]; [reflexivity|]); contradiction).
    split; [apply spacing_gone; assumption|]. split; [apply tstop_white; [exact HU|exact H|apply tstop_foreign; exact C]|].
    split; [exact S|]. cbn [foreign In] in C.
    apply blocked_head. repeat (destruct C as [<-|C]; [reflexivity|]). contradiction.
  Qed.

  (** ** Texts *)
  Lemma stop_lower : forall ws w, expr_stop ws w -> head_is lower (ws ++ w) = false.
  Proof.
    intros ws w (_ & T & _). apply tstop_nstop in T. apply nstop_xid in T. destruct (ws ++ w) as [|c v]; [reflexivity|]. cbn [head_is] in *.
    apply not_true_iff_false. intro L. rewrite letter_xid in T; [discriminate|]. unfold lower in L. unfold ascii_letter. rewrite L, ?orb_true_r. reflexivity.
  Qed.
  Lemma text_stop : forall g x o ws w, spacing g = true -> SpecSource.expr U x o -> plain_start x = true -> expr_stop ws w -> head_is semi w = false ->
    denotes_or_refused U (g ++ x ++ ws ++ w) o.
  Proof.
    intros g x o ws w Hg Hx Hp Hs Hc. destruct (source_expr U HU x o Hx) as [M F]. apply refused_skip; [exact Hg|]. assert (N : x <> []) by (intros ->; discriminate).
    destruct (statement_expr U x o 0 ws w [] (plain_start_app _ _ N Hp (stop_lower _ _ Hs)) M Hs Hc) as (T & E1 & V).
    destruct (program_first U _ _ _ (front_solid _ _ F) E1) as [(s & t & P)|(s & more & P)].
    - left. intros f. unfold parse. rewrite P. reflexivity.
    - right. eapply denotes_pairs; [exact V|exact P].
  Qed.
  Lemma text_then : forall g x o ws w, spacing g = true -> SpecSource.expr U x o -> plain_start x = true -> expr_stop ws w -> head_is semi w = false -> statements U w ->
    denotes U (g ++ x ++ ws ++ w) o.
  Proof.
    intros g x o ws w Hg Hx Hp Hs Hc Hw. destruct (source_expr U HU x o Hx) as [M F]. apply denotes_skip; [exact Hg|]. assert (N : x <> []) by (intros ->; discriminate).
    destruct (statement_expr U x o 0 ws w [] (plain_start_app _ _ N Hp (stop_lower _ _ Hs)) M Hs Hc) as (T & E1 & V).
    destruct (program_more U _ _ _ _ (front_solid _ _ F) (statements_more U HU w Hw) E1) as (s & E & P). eapply denotes_pairs; [exact V|exact P].
  Qed.
  (** nothing can start where the expression ends *)
  Lemma text_stuck : forall g x o ws w, spacing g = true -> SpecSource.expr U x o -> plain_start x = true -> expr_stop ws w -> w <> [] ->
    plain_start w = true -> (forall p, fails (ECall R_expr) NonAtomic false (mkPs p w [])) ->
    forall f, parse U f (g ++ x ++ ws ++ w) = Ret (Err SMParseError).
  Proof.
    intros g x o ws w Hg Hx Hp Hs Hn Pw Fw. apply refused_after; [exact Hg|]. intro f.
    destruct (source_expr U HU x o Hx) as [M F]. assert (N : x <> []) by (intros ->; discriminate).
    assert (Hc : head_is semi w = false).
    { destruct w as [|c w]; [congruence|]. unfold plain_start in Pw. apply andb_prop in Pw as [Pw _]. apply negb_true_iff in Pw. cbn [head_is] in *. apply orb_false_iff in Pw. apply Pw. }
    destruct (statement_expr U x o 0 ws w [] (plain_start_app _ _ N Hp (stop_lower _ _ Hs)) M Hs Hc) as (T & E1 & V).
    assert (Hsw : solid w = true) by apply Hs.
    assert (FS : forall p, fails (ECall R_statement) NonAtomic false (mkPs p w [])).
    { intro p. apply er_call. apply (er_else U before_expression); [apply er_before; exact Pw|]. apply er_restore, er_call, er_rule, er_seq0. do 2 apply er_then. apply Fw. }
    pose proof (skip_nothing U 0 (x ++ ws ++ w) [] (front_solid _ _ F)) as E0.
    set (p := 0 + length x + length ws) in *.
    assert (Hm : ev more_statements NonAtomic false (mkPs p w []) (POk (mkPs p w []) [])).
    { apply ev_rep_stop. eapply er_seq2; [apply (skip_nothing U p w [] Hsw)|apply er_restore, FS|reflexivity]. }
    pose proof (ok_then U _ _ _ _ _ _ _ _ _ (ok_restore U _ _ _ _ _ _ E1) Hm) as E2.
    apply ok_opt in E2. apply ok_seq in E2. unfold more_statements in E2. fold program_body in E2.
    pose proof (ok_then1 U _ _ _ _ _ _ _ _ E2 (skip_nothing U p w [] Hsw)) as E3.
    assert (EO : exists s t, ev (ECall R_EOI) NonAtomic false (mkPs p w []) (PErr s t)).
    { destruct w as [|c w]; [congruence|]. eexists. eexists. apply ev_call. exact (ev_rule U grammar skip_body R_EOI EEoi NonAtomic false _ _ (ev_eoi_err U grammar skip_body _ _ _ _ _ _)). }
    destruct EO as (s5 & t5 & EO).
    pose proof (ev_then U grammar skip_body _ _ _ _ _ _ _ _ E3 EO) as R1. cbn [prepend] in R1. fold program_rest in R1.
    unfold parse. rewrite (program_unfold U _ _ _ _ E0 R1). reflexivity.
  Qed.

  (** ** An operator without its right operand *)
  Definition idle (w : str) : Prop := head_is (operand_start U) w = false.
  Lemma er_term_idle : forall k p w st, idle w -> fails (ECall R_term) k false (mkPs p w st).
  Proof.
    intros k p [|c w] st H.
    - apply (fails_sound U grammar skip_body 60 (ECall R_term) k false [mkLook [] false] p [] st).
      + destruct k; vm_compute; reflexivity.
      + exists (mkLook [] false). split; [left; reflexivity|]. exists []. split; [reflexivity|reflexivity].
    - unfold idle in H. cbn [head_is] in H. apply dead_spec in H.
      apply er_call, er_atomic, er_rule, er_seq0, er_then. eapply ok_then0; [apply no_rep, er_Prefix|apply er_node_dead; exact H].
      unfold dead in H. apply andb_prop in H as [H _]. apply andb_prop in H as [H _]. apply negb_true_iff in H. exact H.
  Qed.
  Lemma sign_op : forall s, In s (map fst operators ++ ignored) -> exists r, infix_op r s.
  Proof. intros s H. cbn [operators ignored map fst app In] in H. decompose [or] H; subst; try contradiction; eexists; constructor. Qed.
  Lemma white_idle : forall g w, spacing g = true -> idle w -> idle (g ++ w).
  Proof.
    intros [|c g] w Hg Hw; [exact Hw|]. unfold idle. cbn [app head_is]. destruct (spacing_head c g Hg) as [Hc| ->]; [|reflexivity].
    pose proof (white_dead U HU c Hc) as D. unfold dead, joins in D. apply andb_prop in D as [D D3]. apply andb_prop in D as [D1 D2].
    apply negb_true_iff in D1, D2, D3. apply orb_false_iff in D2 as [D2 D4]. apply orb_false_iff in D2 as [D2 D5].
    unfold operand_start. cbn [existsb] in *. repeat match goal with H : (_ || _)%bool = false |- _ => apply orb_false_iff in H as [? H] end.
    repeat match goal with H : _ = false |- _ => rewrite H; clear H end. reflexivity.
  Qed.
  Lemma idle_blocked : forall s g w, In s (map fst operators ++ ignored) -> spacing g = true -> idle w -> solid w = true -> blocked (s ++ g ++ w).
  Proof.
    intros s g w Hs Hg Hi Ho p st. destruct (sign_op s Hs) as [r R]. apply er_restore.
    eapply er_seq2; [|apply (er_term_idle NonAtomic (p + 1 + length g) w st Hi)|reflexivity].
    eapply ok_then1; [apply ok_Infix; exact R|]. apply skip_spacing; assumption.
  Qed.
  Lemma idle_sign : forall s g w p, In s (map fst operators ++ ignored) -> spacing g = true -> idle w -> fails (ECall R_expr) NonAtomic false (mkPs p (s ++ g ++ w) []).
  Proof.
    intros s g w p Hs Hg Hi. pose proof (white_idle g w Hg Hi) as Hi'. destruct (sign_op s Hs) as [r R].
    assert (S : (exists c, s = [c] /\ operand_start U c = false) \/ exists c, s = [c] /\ prefix_char c = true).
    { assert (D : forall c, (existsb (N.eqb c) signs && (128 <=? c) && negb (prefix_char c) && negb (c =? 182) && negb (c =? 8267))%N%bool = true -> operand_start U c = false).
      { intros c H. do 4 (apply andb_prop in H as [H ?]). destruct (sign_quiet U HU c H) as [_ X].
        match goal with H : (128 <=? c)%N = true |- _ => apply N.leb_le in H end.
        assert (NE : forall d, (d < 128)%N -> (c =? d)%N = false) by (intros d Hd; apply N.eqb_neq; lia).
        assert (Dg : digit c = false) by (unfold digit; apply andb_false_iff; right; apply N.leb_gt; lia).
        unfold operand_start. rewrite X, Dg. cbn [existsb]. repeat match goal with H : negb _ = true |- _ => apply negb_true_iff in H; rewrite H; clear H end.
        rewrite !NE by reflexivity. reflexivity. }
      destruct R; ((left; eexists; split; [reflexivity|first [reflexivity|apply D; reflexivity]]) || (right; eexists; split; reflexivity)). }
    apply er_call, er_atomic, er_rule, er_seq0. do 2 apply er_then. destruct S as [(c & -> & C)|(c & -> & C)].
    - apply er_term_idle. exact C.
    - apply er_call, er_atomic, er_rule.
      assert (P : head_is prefix_char (g ++ w) = false).
      { unfold idle in Hi'. destruct (g ++ w) as [|d v]; [reflexivity|]. cbn [head_is] in *. unfold operand_start in Hi'. do 3 (apply orb_false_iff in Hi' as [Hi' _]). exact Hi'. }
      destruct (ok_prefixes U [c] p (g ++ w) [] ltac:(cbn; rewrite C; reflexivity) P) as (ts & E & _). cbn [app length] in E.
      assert (NF : fails (ECall R_node) CompoundAtomic false (mkPs (p + 1) (g ++ w) [])).
      { unfold idle in Hi'. destruct (g ++ w) as [|d v].
        - apply (fails_sound U grammar skip_body 60 (ECall R_node) CompoundAtomic false [mkLook [] false] (p + 1) [] []); [vm_compute; reflexivity|].
          exists (mkLook [] false). split; [left; reflexivity|]. exists []. split; reflexivity.
        - apply er_node_dead. apply dead_spec. exact Hi'. }
      pose proof (ev_then U grammar skip_body _ _ _ _ _ _ _ _ E NF) as E1. cbn [prepend] in E1.
      eapply er_seq; [apply ev_then_err; exact E1|reflexivity].
  Qed.
  Lemma sign_plain : forall s w, In s (map fst operators ++ ignored) -> plain_start (s ++ w) = true.
  Proof.
    intros s w H. cbn [operators ignored map fst app In] in H. decompose [or] H; subst; try contradiction; reflexivity.
  Qed.
  Lemma missing_operand : forall g x o g1 s g2 w, spacing g = true -> SpecSource.expr U x o -> plain_start x = true ->
    spacing g1 = true -> In s (map fst operators ++ ignored) -> spacing g2 = true -> head_is (operand_start U) w = false -> head_is white_space w = false ->
    comment_start (s ++ g2 ++ w) = false -> comment_start w = false ->
    forall f, parse U f (g ++ x ++ g1 ++ s ++ g2 ++ w) = Ret (Err SMParseError).
  Proof.
    intros g x o g1 s g2 w Hg Hx Hp H1 Hs H2 Hi Hw C1 C2. destruct (sign_op s Hs) as [r R].
    destruct (infix_op_len r s R) as (c & -> & Wc).
    assert (ST : expr_stop g1 ([c] ++ g2 ++ w)).
    { split; [apply spacing_gone; [exact H1|apply solid_spec; [exact Wc|exact C1]]|]. split; [|split].
      - apply tstop_white; [exact HU|exact H1|]. eapply tstop_op; [exact HU|exact R|]. intros _.
        pose proof (white_idle g2 w H2 Hi) as I. unfold idle in I. destruct (g2 ++ w) as [|d v]; [reflexivity|]. cbn [head_is] in *.
        unfold operand_start in I. apply orb_false_iff in I as [I _]. apply orb_false_iff in I as [I _]. apply orb_false_iff in I as [_ I]. exact I.
      - apply solid_spec; [exact Wc|exact C1].
      - apply idle_blocked; try assumption. apply solid_spec; assumption. }
    apply (text_stuck g x o g1 ([c] ++ g2 ++ w)); try assumption; [discriminate|apply sign_plain; exact Hs|].
    intro p. apply idle_sign; assumption.
  Qed.
  Lemma two_signs : forall g x o g1 s w, spacing g = true -> SpecSource.expr U x o -> plain_start x = true ->
    spacing g1 = true -> In s pairs_of_signs -> comment_start (s ++ w) = false -> comment_start (tl s ++ w) = false ->
    forall f, parse U f (g ++ x ++ g1 ++ s ++ w) = Ret (Err SMParseError).
  Proof.
    intros g x o g1 s w Hg Hx Hp H1 Hs C1 C2.
    assert (S : exists a b, s = [a; b] /\ In [a] (map fst operators ++ ignored) /\ operand_start U b = false /\ white_space b = false).
    { cbn [pairs_of_signs In] in Hs. decompose [or] Hs; subst; try contradiction; do 2 eexists; (split; [reflexivity|]); (split; [cbn; auto 20|]); split; reflexivity. }
    destruct S as (a & b & -> & Ha & Hb & Wb). apply (missing_operand g x o g1 [a] [] (b :: w)); try assumption; reflexivity.
  Qed.
  Lemma foreign_refused : forall g x o ws c w, spacing g = true -> SpecSource.expr U x o -> plain_start x = true -> spacing ws = true -> In c foreign ->
    forall f, parse U f (g ++ x ++ ws ++ c :: w) = Ret (Err SMParseError).
  Proof.
    intros g x o ws c w Hg Hx Hp Hw Hc. apply (text_stuck g x o ws (c :: w)); try assumption.
    - apply foreign_stop; [exact Hw|right; exact Hc].
    - discriminate.
    - cbn [foreign In] in Hc. repeat (destruct Hc as [<-|Hc]; [reflexivity|]). contradiction.
    - intro p. apply er_expr_dead. cbn [foreign In] in Hc. repeat (destruct Hc as [<-|Hc]; [reflexivity|]). contradiction.
  Qed.
  Lemma at_stops : forall g x o ws w, spacing g = true -> SpecSource.expr U x o -> plain_start x = true -> spacing ws = true ->
    denotes_or_refused U (g ++ x ++ ws ++ lit "@" ++ w) o.
  Proof. intros g x o ws w Hg Hx Hp Hw. apply text_stop; try assumption; [|reflexivity]. apply foreign_stop; [exact Hw|left; reflexivity]. Qed.

  (** ** Lines *)
  Lemma new_line : forall g x o ws c w, spacing g = true -> SpecSource.expr U x o -> plain_start x = true -> broken ws = true -> white_space c = false -> operator_start c = false ->
    denotes_or_refused U (g ++ x ++ ws ++ c :: w) o.
  Proof.
    intros g x o ws c w Hg Hx Hp Hb Hc Ho. destruct (semi c) eqn:S.
    - apply source_first; try assumption. unfold broken in Hb. apply andb_prop in Hb. apply Hb.
    - apply text_stop; try assumption. apply break_stop; assumption.
  Qed.
  Lemma new_line_then : forall g x o ws w, spacing g = true -> SpecSource.expr U x o -> plain_start x = true -> broken ws = true ->
    head_is white_space w = false -> head_is operator_start w = false -> head_is semi w = false -> statements U w ->
    denotes U (g ++ x ++ ws ++ w) o.
  Proof.
    intros g x o ws [|c w] Hg Hx Hp Hb Hc Ho Hs Hw.
    - rewrite app_nil_r. apply source_text; try assumption. unfold broken in Hb. apply andb_prop in Hb. apply spacing_closing, Hb.
    - apply text_then; try assumption. apply break_stop; assumption.
  Qed.

  Lemma continued : forall g x o g1 s q n p g2 y o' ws, spacing g = true -> SpecSource.term U x o -> plain_start (x ++ g1 ++ s ++ g2 ++ y) = true -> spacing g1 = true ->
    lookup s operators = Some (q, n, p) -> s <> lit "." -> spacing g2 = true -> (s = lit "/" -> head_is (N.eqb 47) g2 = false) -> SpecSource.term U y o' -> closing ws = true ->
    denotes U (g ++ (x ++ g1 ++ s ++ g2 ++ y) ++ ws) (a <- o; b <- o'; Ret (binary n s p [a; b])).
  Proof.
    intros g x o g1 s q n p g2 y o' ws Hg Hx Hp H1 Ho Nd H2 Hd Hy Hw.
    assert (I : In s (map fst operators ++ ignored)).
    { apply in_or_app. left. clear -Ho. induction operators as [|[k v] l IH]; [discriminate|]. cbn [lookup] in Ho. cbn [map fst]. destruct (str_eqb s k) eqn:E; [left; symmetry; apply str_eqb_eq; exact E|right; auto]. }
    assert (R : SpecSource.rest U (g1 ++ s ++ g2 ++ y) [Sign s; Operand o']).
    { pose proof (r_more U g1 s g2 y o' [] [] H1 I H2 Hy ltac:(intro; congruence) Hd (r_nil U)) as R. rewrite app_nil_r in R. exact R. }
    assert (K : forallb known [Sign s; Operand o'] = true) by (cbn [forallb known]; rewrite Ho; reflexivity).
    assert (B : well_bracketed token_strength token_to_right (Bin (Leaf (Operand o)) (Sign s) (Leaf (Operand o')))).
    { apply wb_bin; [apply wb_leaf|apply wb_leaf|discriminate|discriminate]. }
    pose proof (text_operators U HU g x o _ _ (Bin (Leaf (Operand o)) (Sign s) (Leaf (Operand o'))) ws Hg Hx R K Hp eq_refl B Hw) as D.
    cbn [evaluate token_value token_apply] in D. rewrite Ho in D. destruct (str_eqb s (lit ".")) eqn:E; [elim Nd; apply str_eqb_eq; exact E|].
    destruct o as [a|k|]; cbn [obind] in *; [|exact D|exact D]. destruct o' as [b|k|]; cbn [obind] in *; exact D.
  Qed.

  (** ** Signs that join two others *)
  Lemma prefix_term : forall c y o, prefix_char c = true -> SpecSource.term U y o -> SpecSource.term U (c :: y) (v <- o; prefix_value [c] v).
  Proof.
    intros c y o Hc H. inversion H as [cs x o' z l Hcs Hx Hz]; subst.
    replace (v <- (a <- o'; b <- suffix_value l a; prefix_value cs b); prefix_value [c] v) with (a <- o'; b <- suffix_value l a; prefix_value (c :: cs) b).
    - change (c :: cs ++ x ++ z) with ((c :: cs) ++ x ++ z). apply t_intro; try assumption. cbn [forallb]. rewrite Hc. exact Hcs.
    - destruct o' as [a|k|]; cbn [obind]; [|reflexivity|reflexivity]. destruct (suffix_value l a) as [b|k|]; cbn [obind]; [|reflexivity|reflexivity].
      cbn [prefix_value]. destruct (prefix_value cs b) as [b'|k|]; reflexivity.
  Qed.
  Lemma doubled : forall g x o c q n p m y o' ws, spacing g = true -> SpecSource.term U x o -> plain_start (x ++ c :: c :: y) = true ->
    lookup [c] operators = Some (q, n, p) -> lookup [c] prefix_names = Some m -> SpecSource.term U y o' -> closing ws = true ->
    denotes U (g ++ (x ++ c :: c :: y) ++ ws) (a <- o; b <- o'; Ret (binary n [c] p [a; call (mkSymbol [lit "std"; lit "prefix"] m (Prefix [c]) 0) [b]])).
  Proof.
    intros g x o c q n p m y o' ws Hg Hx Hp Ho Hm Hy Hw.
    assert (C : In c [43; 45; 42; 33]%N).
    { cbn [prefix_names lookup] in Hm. repeat match type of Hm with (if ?b then _ else _) = _ => destruct b eqn:?E end; try discriminate;
        match goal with E : str_eqb _ _ = true |- _ => apply str_eqb_eq in E; injection E as -> end; cbn; auto. }
    assert (PC : prefix_char c = true) by (cbn [In] in C; decompose [or] C; subst; try contradiction; reflexivity).
    pose proof (prefix_term c y o' PC Hy) as Hy'.
    assert (I : In [c] (map fst operators ++ ignored)) by (cbn [In] in C; decompose [or] C; subst; try contradiction; try discriminate; cbn; auto 10).
    assert (ND : [c] <> lit ".") by (cbn [In] in C; decompose [or] C; subst; try contradiction; discriminate).
    assert (R : SpecSource.rest U (c :: c :: y) [Sign [c]; Operand (v <- o'; prefix_value [c] v)]).
    { pose proof (r_more U [] [c] [] (c :: y) _ [] [] eq_refl I eq_refl Hy' ltac:(intro; congruence) ltac:(reflexivity) (r_nil U)) as R. cbn [app] in R. rewrite app_nil_r in R. exact R. }
    assert (K : forallb known [Sign [c]; Operand (v <- o'; prefix_value [c] v)] = true) by (cbn [forallb known]; rewrite Ho; reflexivity).
    assert (B : well_bracketed token_strength token_to_right (Bin (Leaf (Operand o)) (Sign [c]) (Leaf (Operand (v <- o'; prefix_value [c] v))))).
    { apply wb_bin; [apply wb_leaf|apply wb_leaf|discriminate|discriminate]. }
    pose proof (text_operators U HU g x o _ _ (Bin (Leaf (Operand o)) (Sign [c]) (Leaf (Operand (v <- o'; prefix_value [c] v)))) ws Hg Hx R K Hp eq_refl B Hw) as D.
    cbn [evaluate token_value token_apply] in D. replace (str_eqb [c] (lit ".")) with false in D by (cbn [In] in C; decompose [or] C; subst; try contradiction; reflexivity).
    rewrite Ho in D. cbn [prefix_value] in D. rewrite Hm in D.
    destruct o as [a|k|]; cbn [obind] in *; [|exact D|exact D]. destruct o' as [b|k|]; cbn [obind] in *; exact D.
  Qed.
  Lemma not_equal : forall g x o y o' ws, spacing g = true -> SpecSource.node U x o -> plain_start (x ++ lit "!=" ++ y) = true -> SpecSource.term U y o' -> closing ws = true ->
    denotes U (g ++ (x ++ lit "!=" ++ y) ++ ws) (a <- o; Ret (suffix_call (lit "factorial") (lit "!") a)).
  Proof.
    intros g x o y o' ws Hg Hx Hp Hy Hw.
    pose proof (t_intro U [] x o (lit "!") [Bang] eq_refl Hx (s_bang U [] [] (s_nil U) eq_refl)) as T. cbn [app suffix_value prefix_value] in T.
    pose proof (r_more U [] (lit "=") [] y o' [] [] eq_refl ltac:(cbn; auto 20) eq_refl Hy ltac:(discriminate) ltac:(discriminate) (r_nil U)) as R. cbn [app] in R. rewrite app_nil_r in R.
    pose proof (text_cut U HU g (x ++ lit "!") _ [] [] (lit "=" ++ y) (lit "=") [Operand o'] (Leaf (Operand (a <- o; b <- Ret (suffix_call (lit "factorial") (lit "!") a); Ret b))) ws Hg T (r_nil U) eq_refl) as D.
    cbn [app] in D. rewrite <- app_assoc in D. specialize (D Hp eq_refl (wb_leaf _ _ _) R ltac:(cbn; auto) Hw). cbn [evaluate token_value obind] in D. exact D.
  Qed.
  (** ** Line comments *)
  Lemma mark_line : forall d, In d (lit "/?!*") -> line_mark d = true.
  Proof. intros d H. cbn in H. decompose [or] H; subst; try contradiction; reflexivity. Qed.
  Lemma comment_spacing : forall d body e, In d (lit "/?!*") -> one_line body = true -> line_end e = true -> spacing (line_comment d body ++ [e]) = true.
  Proof.
    intros d body e Hd Hb He. apply mark_line in Hd. unfold line_comment. change (lit "//") with [47%N; 47%N]. cbn [app].
    unfold spacing. cbn [spacing_from]. change (white_space 47%N) with false. cbn iota. rewrite (in_comment_app body e [] Hb He).
    unfold line_mark in Hd. change (47 =? 47)%N with true. cbn [andb]. rewrite Hd. reflexivity.
  Qed.
  Lemma comment_closing : forall ws d body, spacing ws = true -> In d (lit "/?!*") -> one_line body = true -> closing (ws ++ line_comment d body) = true.
  Proof. intros ws d body Hw Hd Hb. unfold closing. rewrite <- app_assoc. apply spacing_app; [exact Hw|]. apply comment_spacing; [exact Hd|exact Hb|reflexivity]. Qed.
  Lemma trailing_comment : forall g x o ws d body, spacing g = true -> SpecSource.expr U x o -> plain_start x = true -> spacing ws = true ->
    In d (lit "/?!*") -> one_line body = true -> denotes U (g ++ x ++ ws ++ line_comment d body) o.
  Proof. intros g x o ws d body Hg Hx Hp Hw Hd Hb. apply source_text; try assumption. apply comment_closing; assumption. Qed.
  Lemma swallowed : forall g x o g1 body e c w, spacing g = true -> SpecSource.expr U x o -> plain_start x = true -> spacing g1 = true ->
    one_line body = true -> line_end e = true -> white_space c = false -> operator_start c = false ->
    denotes_or_refused U (g ++ x ++ g1 ++ lit "/" ++ line_comment 47%N body ++ e :: c :: w) o.
  Proof.
    intros g x o g1 body e c w Hg Hx Hp Hw Hb He Hc Ho.
    replace (g1 ++ lit "/" ++ line_comment 47%N body ++ e :: c :: w) with ((g1 ++ line_comment 47%N (47%N :: body) ++ [e]) ++ c :: w).
    - apply new_line; try assumption. unfold broken. apply andb_true_intro. split.
      + apply spacing_app; [exact Hw|]. apply comment_spacing; [left; reflexivity|cbn; exact Hb|exact He].
      + rewrite !existsb_app. cbn [existsb]. rewrite He. cbn. rewrite !orb_true_r. reflexivity.
    - unfold line_comment. change (lit "//") with [47%N; 47%N]. change (lit "/") with [47%N]. rewrite <- !app_assoc. cbn [app]. rewrite <- ?app_assoc. reflexivity.
  Qed.
End Manual.
