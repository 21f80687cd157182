(** Texts that break off inside an expression: where the error points. *)
From Verif Require Import Base Ast Display SmError Internal Peg Grammar Climber Build Track SpecAst SpecPeg SpecClimb SpecParse SpecSyntax SpecText SpecPlace SpecManual SpecFault SpecBracket.
From Verif Require SpecSource SpecUnfinished.
From Verif Require Import ProofAst ProofDisplay ProofPeg ProofPegShift ProofSym ProofGrammar ProofClimber ProofBuild ProofPos ProofPlace ProofSpace ProofLex ProofToken ProofNode ProofAtom ProofTerm ProofExpr ProofGroup ProofCall ProofArgs ProofSlice ProofProduct ProofMark ProofText ProofStatement ProofSource ProofSyntax ProofManual ProofTrack ProofExpect ProofStranger ProofFault ProofBracket.
Local Open Scope nat_scope.
Local Open Scope outcome_scope.

Section Unfinished.
  Variable U : unicode.
  Hypothesis HU : sane U.
  Notation ev := (ev U grammar skip_body).
  Notation fails := (fails U).
  Notation expr_means := (expr_means U).
  Notation expr_stop := (expr_stop U).
  Notation tstop := (tstop U).
  Notation reaches := (reaches U grammar skip_body).

  Lemma reaches_eq : forall e k l s n m, reaches e k l s n -> n = m -> reaches e k l s m.
  Proof. intros. subst. assumption. Qed.

  (** ** What may come after the text: nothing, a stranger, a closing bracket *)
  Definition halt (w : str) : Prop := w = [] \/ exists c v, w = c :: v /\ (stranger U c = true \/ closes c = true).
  Lemma halt_head : forall P w, halt w -> (forall c, stranger U c = true -> P c = false) -> P 41%N = false -> P 93%N = false -> P 125%N = false -> head_is P w = false.
  Proof.
    intros P w [->|(c & v & -> & [H|H])] HP H1 H2 H3; [reflexivity|apply HP; exact H|]. cbn [head_is]. unfold closes in H.
    apply orb_prop in H as [H|H]; [apply orb_prop in H as [H|H]|]; apply N.eqb_eq in H; subst c; assumption.
  Qed.
  Lemma stranger_facts : forall c, stranger U c = true -> white_space c = false /\ digit c = false /\ word_head U c = false /\ xid_continue U c = false /\
    forall d, existsb (N.eqb d) language_signs = true -> (c =? d)%N = false.
  Proof.
    intros c C. unfold stranger in C. apply negb_true_iff in C. apply orb_false_iff in C as [C H5]. apply orb_false_iff in C as [C H4].
    apply orb_false_iff in C as [C H3]. apply orb_false_iff in C as [H1 H2]. repeat split; try assumption.
    intros d Hd. apply N.eqb_neq. intros ->. congruence.
  Qed.
  Lemma halt_sign : forall d w, halt w -> existsb (N.eqb d) language_signs = true -> closes d = false -> head_is (N.eqb d) w = false.
  Proof.
    intros d w H Hd C. unfold closes in C. apply orb_false_iff in C as [C C3]. apply orb_false_iff in C as [C1 C2]. apply halt_head; try assumption.
    intros c Hc. rewrite N.eqb_sym. apply stranger_facts; assumption.
  Qed.
  Lemma halt_stop : forall ws w, halt w -> spacing ws = true -> expr_stop ws w.
  Proof.
    intros ws w [->|(c & v & -> & [H|H])] Hs.
    - apply end_stop; [exact HU|]. apply spacing_closing. exact Hs.
    - apply stranger_stop; assumption.
    - apply ends_stop; [exact HU|exact Hs|]. unfold closes in H. apply orb_prop in H as [H|H]; [apply orb_prop in H as [H|H]|]; apply N.eqb_eq in H; subst c; reflexivity.
  Qed.
  Lemma halt_solid : forall w, halt w -> solid w = true.
  Proof. intros w H. apply (halt_stop [] w H eq_refl). Qed.
  Lemma halt_idle : forall w, halt w -> idle U w.
  Proof.
    intros w H. apply halt_head; try assumption; try reflexivity. intros c C. destruct (stranger_facts c C) as (H1 & H2 & H3 & H4 & X).
    unfold operand_start, prefix_char. cbn [existsb]. rewrite H2, H3, !X by reflexivity. reflexivity.
  Qed.
  Lemma halt_xid : forall w, halt w -> head_is (xid_continue U) w = false.
  Proof. intros w H. apply halt_head; try assumption; try reflexivity. intros c C. apply stranger_facts. exact C. Qed.
  Lemma halt_word : forall w, halt w -> head_is (word_head U) w = false.
  Proof. intros w H. apply halt_head; try assumption; try reflexivity. intros c C. apply stranger_facts. exact C. Qed.
  Lemma halt_digit : forall w, halt w -> head_is digit w = false.
  Proof. intros w H. apply halt_head; try assumption; try reflexivity. intros c C. apply stranger_facts. exact C. Qed.
  Lemma halt_colon : forall w, halt w -> head_is colon_char w = false.
  Proof.
    intros w H. apply halt_head; try assumption; try reflexivity. intros c C. destruct (stranger_facts c C) as (_ & _ & _ & _ & X). unfold colon_char.
    rewrite !X by reflexivity. reflexivity.
  Qed.

  (** no bracket that opens a list or a dictionary is closed right after *)
  Definition shut (y w : str) : Prop :=
    (forall a g, y = a ++ 91%N :: g -> spacing g = true -> head_is (N.eqb 93) w = false) /\
    (forall a g, y = a ++ 123%N :: g -> spacing g = true -> head_is (N.eqb 125) w = false).
  Lemma shut_tail : forall a y w, shut (a ++ y) w -> shut y w.
  Proof. intros a y w [H1 H2]. split; intros b g E; [apply (H1 (a ++ b) g)|apply (H2 (a ++ b) g)]; rewrite E, <- app_assoc; reflexivity. Qed.

  (** ** Chains of operators *)
  Lemma opterm_due : forall w p st, head_is (N.eqb 61) w = false -> reaches opterm NonAtomic LNone (mkPs p w st) p.
  Proof.
    intros w p st H. apply reaches_restore, reaches_seq, reaches_then1, reaches_then1, reaches_call. cbn [grammar]. do 14 apply reaches_else1.
    apply reaches_call. cbn [grammar].
    assert (F : fails (EAtomic Atomic (EStr (lit "="))) NonAtomic false (mkPs p w st)).
    { apply er_atomic, er_str. destruct w as [|c w]; [reflexivity|]. apply strip_head. cbn [head_is] in H. apply N.eqb_neq in H. exact H. }
    eapply (reaches_failure U grammar skip_body R_Set _ NonAtomic LNone (mkPs p w st)); [reflexivity|reflexivity|exact F].
  Qed.
  Lemma items_stop : forall l ws w, Forall (good_item U) l -> tstop (ws ++ w) = true -> tstop (items_text l ++ ws ++ w) = true.
  Proof.
    intros [|i l] ws w Hl Hw; [exact Hw|]. pose proof (Forall_inv Hl) as Hi. unfold items_text. cbn [map concat]. unfold item_text. rewrite <- !app_assoc.
    apply tstop_white; [exact HU|exact (proj1 Hi)|]. apply (op_after U HU). exact Hi.
  Qed.
  Lemma items_reach : forall l ws w d p st, Forall (good_item U) l -> gone U ws w -> tstop (ws ++ w) = true ->
    (forall p st, reaches opterm NonAtomic LNone (mkPs p w st) (p + d)) ->
    reaches more_ops NonAtomic LNone (mkPs p (items_text l ++ ws ++ w) st) (p + length (items_text l ++ ws) + d).
  Proof.
    induction l as [|i l IH]; intros ws w d p st Hl Hg Hw Hd.
    - cbn [items_text map concat app]. apply reaches_rep, reaches_seq. eapply reaches_then2; [apply Hg|]. apply Hd.
    - pose proof (Forall_inv Hl) as Hi. pose proof (Forall_inv_tail Hl) as Hm. change (items_text (i :: l)) with (item_text i ++ items_text l).
      destruct (ok_opterm U i (p + length (before i)) (items_text l ++ ws ++ w) st Hi (items_stop l ws w Hm Hw)) as (T & ET & _).
      unfold item_text in *. rewrite <- !app_assoc in *. eapply reaches_rep2.
      + apply ok_seq. eapply ok_then0; [apply skip_spacing; [exact (proj1 Hi)|apply op_solid with (r := op i); apply Hi]|exact ET].
      + eapply reaches_eq; [apply (IH ws w d); assumption|]. unfold str, char in *. rewrite !app_length. lia.
  Qed.
  Lemma expr_reach_in : forall x o ws w d, SpecSource.expr U x o -> gone U ws w -> tstop (ws ++ w) = true ->
    (forall p st, reaches opterm NonAtomic LNone (mkPs p w st) (p + d)) ->
    forall k p st, reaches (ECall R_expr) k LNone (mkPs p (x ++ ws ++ w) st) (p + length (x ++ ws) + d).
  Proof.
    intros x o ws w d Hx Hg Hw Hd k p st. destruct (expr_items U HU x o Hx) as (x0 & o0 & l & -> & H0 & F0 & Hl).
    destruct (H0 NonAtomic p (items_text l ++ ws ++ w) st (items_stop l ws w Hl Hw)) as (T0 & E0 & _).
    apply reaches_call. cbn [grammar]. apply reaches_atomic, reaches_rule, reaches_seq. rewrite <- app_assoc.
    destruct l as [|i l].
    - cbn [items_text map concat app] in *. rewrite app_nil_r. eapply reaches_then2; [eapply ok_then1; [exact E0|apply Hg]|].
      apply reaches_seq, reaches_opt, reaches_then1. eapply reaches_eq; [apply Hd|]. unfold str, char in *. rewrite app_length. lia.
    - pose proof (Forall_inv Hl) as Hi. pose proof (Forall_inv_tail Hl) as Hm. change (items_text (i :: l)) with (item_text i ++ items_text l) in *.
      destruct (ok_opterm U i (p + length x0 + length (before i)) (items_text l ++ ws ++ w) st Hi (items_stop l ws w Hm Hw)) as (T & ET & _).
      unfold item_text in *. rewrite <- !app_assoc in *.
      eapply reaches_then2; [eapply ok_then1; [exact E0|]; apply skip_spacing; [exact (proj1 Hi)|apply op_solid with (r := op i); apply Hi]|].
      apply reaches_seq, reaches_opt. eapply reaches_then2; [exact ET|].
      eapply reaches_eq; [apply (items_reach l ws w d); assumption|]. unfold str, char in *. rewrite !app_length. lia.
  Qed.

  (** ** Elements with commas between them *)
  Section Seps.
    Variable e : pexp rule.
    Variables (l : list elem) (c : char) (g y w : str).
    Hypothesis Hl : Forall (good_elem U e) l.
    Hypothesis Hc : comma_char c = true.
    Hypothesis Hg : spacing g = true.
    Hypothesis Hs : solid (y ++ w) = true.
    Hypothesis Hy : forall p st, reaches e NonAtomic LNone (mkPs p (y ++ w) st) (p + length y).
    Lemma sep1_due : forall p st, reaches (sep1 e) NonAtomic LNone (mkPs p (c :: g ++ y ++ w) st) (p + 1 + length g + length y).
    Proof.
      intros p st. apply reaches_restore, reaches_seq. eapply reaches_then2; [|apply Hy].
      eapply ok_then1; [apply ok_Comma; exact Hc|]. apply skip_spacing; [exact Hg|exact Hs].
    Qed.
    Lemma elems_head : forall m, Forall (good_elem U e) m -> exists d v, elems_text m ++ c :: g ++ y ++ w = d :: v /\ ends d = true.
    Proof.
      intros [|i m] Hm; [exists c; eexists; split; [reflexivity|apply comma_ends; exact Hc]|]. exists (comma i). eexists. split; [reflexivity|].
      apply comma_ends. exact (proj1 (Forall_inv Hm)).
    Qed.
    Lemma ok_sep1_in : forall i m p st, good_elem U e i -> Forall (good_elem U e) m -> exists s ts,
      ev (sep1 e) NonAtomic false (mkPs p (elem_text i ++ elems_text m ++ c :: g ++ y ++ w) st) (POk s ts) /\
      lands s (p + length (elem_text i)) (elems_text m ++ c :: g ++ y ++ w) st.
    Proof.
      intros i m p st (H1 & H2 & H3 & H4 & H5) Hm. destruct (elems_head m Hm) as (d & v & Ev & Hd).
      destruct (H4 (p + 1 + length (gap i)) (space i) d v st H5 Hd) as (s & T & E & L & Q).
      exists s. eexists. unfold str, char in *. rewrite Ev. split.
      - apply ok_restore, ok_seq. unfold elem_text. rewrite <- app_comm_cons, <- !app_assoc.
        eapply ok_then; [|exact E].
        eapply ok_then1; [apply ok_Comma; exact H1|]. apply skip_spacing; [exact H2|]. apply front_solid. exact H3.
      - eapply lands_pos; [exact L|]. unfold elem_text. lens.
    Qed.
    Lemma rep_due : forall m s q st, Forall (good_elem U e) m -> lands s q (elems_text m ++ c :: g ++ y ++ w) st ->
      reaches (ERep (sep e)) NonAtomic LNone s (q + length (elems_text m) + 1 + length g + length y).
    Proof.
      induction m as [|i m IH]; intros s q st Hm Ls.
      - cbn [elems_text map concat app length] in *. apply reaches_rep, reaches_seq.
        eapply reaches_then2; [apply (skip_lands U s q _ st Ls); apply (ends_solid U HU), comma_ends; exact Hc|].
        eapply reaches_eq; [apply sep1_due|lia].
      - pose proof (Forall_inv Hm) as Hi. pose proof (Forall_inv_tail Hm) as Hm'. change (elems_text (i :: m)) with (elem_text i ++ elems_text m) in *.
        rewrite <- app_assoc in Ls. destruct (ok_sep1_in i m q st Hi Hm') as (s1 & ts & E1 & L1).
        eapply reaches_rep2; [apply ok_seq; eapply ok_then0; [apply (skip_lands U s q _ st Ls)|exact E1]|].
        + apply (ends_solid U HU), comma_ends. apply Hi.
        + eapply reaches_eq; [apply (IH s1 _ st Hm' L1)|]. rewrite app_length. lia.
    Qed.
    Lemma seps_due : forall p st, reaches (seps e) NonAtomic LNone (mkPs p (elems_text l ++ c :: g ++ y ++ w) st) (p + length (elems_text l) + 1 + length g + length y).
    Proof.
      intros p st. apply reaches_seq, reaches_opt. destruct l as [|i m].
      - cbn [elems_text map concat app length]. apply reaches_then1. eapply reaches_eq; [apply sep1_due|lia].
      - pose proof (Forall_inv Hl) as Hi. pose proof (Forall_inv_tail Hl) as Hm. change (elems_text (i :: m)) with (elem_text i ++ elems_text m).
        rewrite <- app_assoc. destruct (ok_sep1_in i m p st Hi Hm) as (s1 & ts & E1 & L1). eapply reaches_then2; [exact E1|].
        eapply reaches_eq; [apply (rep_due m s1 _ st Hm L1)|]. rewrite app_length. lia.
    Qed.
    Lemma enclosed_due : forall close h s0 s1 ts q st, ev h NonAtomic false s0 (POk s1 ts) -> lands s1 q (elems_text l ++ c :: g ++ y ++ w) st ->
      reaches (enclosed e close h) NonAtomic LNone s0 (q + length (elems_text l) + 1 + length g + length y).
    Proof.
      intros close h s0 s1 ts q st Eh Ls. unfold enclosed. do 4 apply reaches_then1. eapply reaches_then2; [|apply seps_due].
      eapply ok_then1; [exact Eh|]. apply skip_lands; [exact Ls|]. destruct (elems_head l Hl) as (d & v & Ev & Hd). unfold str, char in *. rewrite Ev.
      apply (ends_solid U HU). exact Hd.
    Qed.
  End Seps.

  (** ** The pieces of the grammar *)
  Lemma solid_due : forall y w, y = [] \/ front y = true -> halt w -> solid (y ++ w) = true.
  Proof. intros y w [->|H] Hw; [apply halt_solid; exact Hw|apply front_solid; exact H]. Qed.
  Lemma node_of_group : forall y w p st, reaches (ECall R_expr) CompoundAtomic LNone (mkPs (p + 1) (y ++ w) st) (p + 1 + length y) ->
    reaches (ECall R_node) CompoundAtomic LNone (mkPs p ((lit "(" ++ y) ++ w) st) (p + length (lit "(" ++ y)).
  Proof.
    intros y w p st H. rewrite <- app_assoc. apply reaches_call. cbn [grammar]. apply reaches_rule. do 4 apply reaches_else1. apply reaches_restore, reaches_seq, reaches_then1, reaches_then1.
    eapply reaches_then2; [|eapply reaches_eq; [exact H|lens]]. eapply ok_then1; [|apply ev_skip_atomic; discriminate]. apply (ev_str U grammar skip_body (lit "(")).
  Qed.
  (** after the operands that start with no such sign *)
  Lemma node_of_data : forall c x w p st n, In c [91; 123]%N -> reaches (ECall R_data) CompoundAtomic LNone (mkPs p ((c :: x) ++ w) st) n ->
    reaches (ECall R_node) CompoundAtomic LNone (mkPs p ((c :: x) ++ w) st) n.
  Proof.
    intros c x w p st n Hc H. apply reaches_call. cbn [grammar]. apply reaches_rule.
    eapply reaches_else2; [|apply reaches_restore; exact H].
    destruct Hc as [<-|[<-|[]]]; (apply er_else; [apply er_else; [apply er_else|]|]);
      [apply er_paren|apply er_restore, er_apply_call_head|apply er_restore, er_derivative_head|apply er_restore, er_space_call_head
      |apply er_paren|apply er_restore, er_apply_call_head|apply er_restore, er_derivative_head|apply er_restore, er_space_call_head]; reflexivity.
  Qed.
  Lemma node_of_list : forall x w p st n, reaches (ECall R_list) CompoundAtomic LNone (mkPs p ((91%N :: x) ++ w) st) n ->
    reaches (ECall R_node) CompoundAtomic LNone (mkPs p ((91%N :: x) ++ w) st) n.
  Proof.
    intros x w p st n H. apply node_of_data; [cbn; auto|]. apply reaches_call. cbn [grammar]. apply reaches_atomic, reaches_rule. do 6 apply reaches_else1.
    eapply reaches_else2; [|apply reaches_restore; exact H]. apply er_dict. reflexivity.
  Qed.
  Lemma node_of_dict : forall x w p st n, reaches (ECall R_dict) CompoundAtomic LNone (mkPs p ((123%N :: x) ++ w) st) n ->
    reaches (ECall R_node) CompoundAtomic LNone (mkPs p ((123%N :: x) ++ w) st) n.
  Proof.
    intros x w p st n H. apply node_of_data; [cbn; auto|]. apply reaches_call. cbn [grammar]. apply reaches_atomic, reaches_rule. do 7 apply reaches_else1.
    apply reaches_restore. exact H.
  Qed.
  Lemma list_first : forall g y w p st k, spacing g = true -> y = [] \/ front y = true -> halt w -> (y = [] -> head_is (N.eqb 93) w = false) ->
    (forall p st, reaches (ECall R_expr) NonAtomic LNone (mkPs p (y ++ w) st) (p + length y)) ->
    reaches (ECall R_list) k LNone (mkPs p ((lit "[" ++ g ++ y) ++ w) st) (p + length (lit "[" ++ g ++ y)).
  Proof.
    intros g y w p st k Hg Hy Hw Hc H. rewrite <- !app_assoc. apply reaches_call. cbn [grammar]. apply reaches_atomic, reaches_rule, reaches_seq.
    eapply reaches_then2; [eapply ok_then0; [apply (ev_str U grammar skip_body (lit "["))|apply skip_spacing; [exact Hg|apply solid_due; assumption]]|].
    eapply reaches_else2.
    - apply er_str. destruct Hy as [->|Hy]; [|apply front_not_close; exact Hy]. specialize (Hc eq_refl). cbn [app]. destruct w as [|c w]; [reflexivity|].
      apply strip_head. cbn [head_is] in Hc. apply N.eqb_neq in Hc. exact Hc.
    - apply reaches_restore, reaches_seq. do 6 apply reaches_then1. eapply reaches_eq; [apply H|lens].
  Qed.
  Lemma list_more : forall g x os c g' y w p st k, spacing g = true -> SpecSource.elements U x os -> comma_char c = true -> spacing g' = true ->
    y = [] \/ front y = true -> halt w -> (forall p st, reaches (ECall R_expr) NonAtomic LNone (mkPs p (y ++ w) st) (p + length y)) ->
    reaches (ECall R_list) k LNone (mkPs p ((lit "[" ++ g ++ x ++ c :: g' ++ y) ++ w) st) (p + length (lit "[" ++ g ++ x ++ c :: g' ++ y)).
  Proof.
    intros g x os c g' y w p st k Hg Hx Hc Hg' Hy Hw H.
    destruct (source_means U HU) as (_ & _ & _ & _ & _ & _ & ME & _). destruct (ME x os Hx) as (x0 & o0 & s & l & -> & _ & F & X0 & Hs & Hl).
    pose proof (good_expr_args U HU l Hl) as GL. rewrite <- (elems_args _ expr_arg l) by reflexivity.
    destruct (elems_head (ECall R_expr) c g' y w Hc (map expr_arg l) GL) as (d & v & Ev & Hd).
    destruct (expr_lands U x0 o0 NonAtomic (p + 1 + length g) s (d :: v) st Hs X0 (ends_stop U HU s d v Hs Hd)) as (s1 & T & E & L & _). unfold str, char in *. rewrite <- Ev in *.
    pose proof (enclosed_due (ECall R_expr) (map expr_arg l) c g' y w GL Hc Hg' (solid_due y w Hy Hw) H 93%N (ECall R_expr) _ _ _ _ st E L) as R.
    assert (TE : ((lit "[" ++ g ++ (x0 ++ s ++ elems_text (map expr_arg l)) ++ c :: g' ++ y) ++ w) = lit "[" ++ g ++ x0 ++ s ++ elems_text (map expr_arg l) ++ c :: g' ++ y ++ w) by (rewrite <- !app_assoc; cbn [app]; rewrite <- !app_assoc; reflexivity).
    unfold str, char in *. rewrite TE. clear TE.
    apply reaches_call. cbn [grammar]. apply reaches_atomic, reaches_rule, reaches_seq.
    eapply reaches_then2; [eapply ok_then0; [apply (ev_str U grammar skip_body (lit "["))|apply skip_spacing; [exact Hg|apply front_solid; exact F]]|].
    eapply reaches_else2; [apply er_str, front_not_close; exact F|]. apply reaches_restore, reaches_seq.
    eapply reaches_eq; [exact R|]. repeat (rewrite app_length || cbn [length lit]). unfold str, char in *. lia.
  Qed.
  Lemma apply_first : forall g y w p st k, spacing g = true -> y = [] \/ front y = true -> halt w ->
    (forall p st, reaches (ECall R_apply_kv) NonAtomic LNone (mkPs p (y ++ w) st) (p + length y)) ->
    reaches (ECall R_apply) k LNone (mkPs p ((lit "(" ++ g ++ y) ++ w) st) (p + length (lit "(" ++ g ++ y)).
  Proof.
    intros g y w p st k Hg Hy Hw H. rewrite <- !app_assoc. apply reaches_call. cbn [grammar]. apply reaches_atomic, reaches_rule, reaches_seq.
    do 6 apply reaches_then1.
    eapply reaches_then2; [eapply ok_then0; [apply (ev_str U grammar skip_body (lit "("))|apply skip_spacing; [exact Hg|apply solid_due; assumption]]|].
    apply reaches_opt, reaches_restore. eapply reaches_eq; [apply H|lens].
  Qed.
  Lemma apply_more : forall g x rs c g' y w p st k, spacing g = true -> SpecSource.args U x rs -> comma_char c = true -> spacing g' = true ->
    y = [] \/ front y = true -> halt w -> (forall p st, reaches (ECall R_apply_kv) NonAtomic LNone (mkPs p (y ++ w) st) (p + length y)) ->
    reaches (ECall R_apply) k LNone (mkPs p ((lit "(" ++ g ++ x ++ c :: g' ++ y) ++ w) st) (p + length (lit "(" ++ g ++ x ++ c :: g' ++ y)).
  Proof.
    intros g x rs c g' y w p st k Hg Hx Hc Hg' Hy Hw H.
    destruct (source_means U HU) as (_ & _ & _ & _ & MA & _). destruct (MA x rs Hx) as (x0 & r0 & s & l & -> & _ & F & X0 & Hs & Hl & _).
    pose proof (good_kv_args U HU l Hl) as GL. change SpecSource.argument_value with (option str * outcome ast)%type in *. rewrite <- (elems_args _ kv_arg l) by reflexivity.
    destruct (elems_head (ECall R_apply_kv) c g' y w Hc (map kv_arg l) GL) as (d & v & Ev & Hd).
    destruct (elem_kv U HU x0 r0 X0 (p + 1 + length g) s d v st Hs Hd) as (s1 & T & E & L & _). unfold str, char in *. rewrite <- Ev in *.
    assert (TE : ((lit "(" ++ g ++ (x0 ++ s ++ elems_text (map kv_arg l)) ++ c :: g' ++ y) ++ w) = lit "(" ++ g ++ x0 ++ s ++ elems_text (map kv_arg l) ++ c :: g' ++ y ++ w) by (rewrite <- !app_assoc; cbn [app]; rewrite <- !app_assoc; reflexivity).
    unfold str, char in *. rewrite TE. clear TE.
    apply reaches_call. cbn [grammar]. apply reaches_atomic, reaches_rule, reaches_seq.
    eapply reaches_eq; [apply (enclosed_due (ECall R_apply_kv) (map kv_arg l) c g' y w GL Hc Hg' (solid_due y w Hy Hw) H 41%N
      (EThen (EThen (EStr (lit "(")) ESkip) (EOpt (ERestore (ECall R_apply_kv)))) _ s1 [T] (p + 1 + length g + length x0 + length s) st)|].
    - eapply ok_then0; [|apply ok_opt, ok_restore; exact E]. eapply ok_then0; [apply (ev_str U grammar skip_body (lit "("))|apply skip_spacing; [exact Hg|apply front_solid; exact F]].
    - exact L.
    - repeat (rewrite app_length || cbn [length lit]). unfold str, char in *. lia.
  Qed.
  Lemma dict_first : forall g y w p st k, spacing g = true -> y = [] \/ front y = true /\ head_is (N.eqb 125) y = false -> halt w -> (y = [] -> head_is (N.eqb 125) w = false) ->
    (forall p st, reaches (ECall R_key_value) NonAtomic LNone (mkPs p (y ++ w) st) (p + length y)) ->
    reaches (ECall R_dict) k LNone (mkPs p ((lit "{" ++ g ++ y) ++ w) st) (p + length (lit "{" ++ g ++ y)).
  Proof.
    intros g y w p st k Hg Hy Hw Hc H. rewrite <- !app_assoc. apply reaches_call. cbn [grammar]. apply reaches_atomic, reaches_rule, reaches_seq.
    eapply reaches_then2; [eapply ok_then0; [apply (ev_str U grammar skip_body (lit "{"))|apply skip_spacing; [exact Hg|apply solid_due; [tauto|assumption]]]|].
    eapply reaches_else2.
    - apply er_str. assert (N : head_is (N.eqb 125) (y ++ w) = false).
      { destruct Hy as [->|[Fy Hy]]; [apply Hc; reflexivity|]. destruct y; [discriminate|exact Hy]. }
      destruct (y ++ w) as [|c v]; [reflexivity|]. apply strip_head. cbn [head_is] in N. apply N.eqb_neq in N. exact N.
    - apply reaches_restore, reaches_seq. do 6 apply reaches_then1. eapply reaches_eq; [apply H|lens].
  Qed.
  Lemma dict_more : forall g x c g' y w p st k, spacing g = true -> SpecSource.entries U x -> comma_char c = true -> spacing g' = true ->
    y = [] \/ front y = true -> halt w -> (forall p st, reaches (ECall R_key_value) NonAtomic LNone (mkPs p (y ++ w) st) (p + length y)) ->
    reaches (ECall R_dict) k LNone (mkPs p ((lit "{" ++ g ++ x ++ c :: g' ++ y) ++ w) st) (p + length (lit "{" ++ g ++ x ++ c :: g' ++ y)).
  Proof.
    intros g x c g' y w p st k Hg Hx Hc Hg' Hy Hw H.
    destruct (source_means U HU) as (_ & _ & _ & _ & _ & _ & _ & MD & _). destruct (MD x Hx) as (x0 & s & l & -> & F & F2 & X0 & Hs & Hl).
    pose proof (good_entries U HU l Hl) as GL. rewrite <- (elems_args _ entry_arg l) by reflexivity.
    destruct (elems_head (ECall R_key_value) c g' y w Hc (map entry_arg l) GL) as (d & v & Ev & Hd).
    destruct (elem_entry U HU x0 tt X0 (p + 1 + length g) s d v st Hs Hd) as (s1 & T & E & L & _). unfold str, char in *. rewrite <- Ev in *.
    pose proof (enclosed_due (ECall R_key_value) (map entry_arg l) c g' y w GL Hc Hg' (solid_due y w Hy Hw) H 125%N (ECall R_key_value) _ _ _ _ st E L) as R.
    assert (TE : ((lit "{" ++ g ++ (x0 ++ s ++ elems_text (map entry_arg l)) ++ c :: g' ++ y) ++ w) = lit "{" ++ g ++ x0 ++ s ++ elems_text (map entry_arg l) ++ c :: g' ++ y ++ w) by (rewrite <- !app_assoc; cbn [app]; rewrite <- !app_assoc; reflexivity).
    unfold str, char in *. rewrite TE. clear TE.
    apply reaches_call. cbn [grammar]. apply reaches_atomic, reaches_rule, reaches_seq.
    eapply reaches_then2; [eapply ok_then0; [apply (ev_str U grammar skip_body (lit "{"))|apply skip_spacing; [exact Hg|apply front_solid; exact F]]|].
    eapply reaches_else2.
    - apply er_str. destruct x0 as [|e x0]; [discriminate|]. cbn [head_is] in F2. cbn [app]. apply strip_head. apply N.eqb_neq in F2. exact F2.
    - apply reaches_restore, reaches_seq.
      eapply reaches_eq; [exact R|]. repeat (rewrite app_length || cbn [length lit]). unfold str, char in *. lia.
  Qed.
  Lemma slice_first : forall g y w p st k, spacing g = true -> y = [] \/ front y = true -> halt w ->
    (forall p st, reaches (ECall R_index) NonAtomic LNone (mkPs p (y ++ w) st) (p + length y)) ->
    reaches (ECall R_slice) k LNone (mkPs p ((lit "[" ++ g ++ y) ++ w) st) (p + length (lit "[" ++ g ++ y)).
  Proof.
    intros g y w p st k Hg Hy Hw H. rewrite <- !app_assoc. apply reaches_call. cbn [grammar]. apply reaches_atomic, reaches_rule, reaches_seq.
    do 6 apply reaches_then1.
    eapply reaches_then2; [eapply ok_then0; [apply (ev_str U grammar skip_body (lit "["))|apply skip_spacing; [exact Hg|apply solid_due; assumption]]|].
    eapply reaches_eq; [apply H|lens].
  Qed.
  Lemma slice_more : forall g x os c g' y w p st k, spacing g = true -> SpecSource.indices U x os -> comma_char c = true -> spacing g' = true ->
    y = [] \/ front y = true -> halt w -> (forall p st, reaches (ECall R_index) NonAtomic LNone (mkPs p (y ++ w) st) (p + length y)) ->
    reaches (ECall R_slice) k LNone (mkPs p ((lit "[" ++ g ++ x ++ c :: g' ++ y) ++ w) st) (p + length (lit "[" ++ g ++ x ++ c :: g' ++ y)).
  Proof.
    intros g x os c g' y w p st k Hg Hx Hc Hg' Hy Hw H.
    destruct (source_means U HU) as (_ & _ & _ & _ & _ & _ & _ & _ & MI & _). destruct (MI x os Hx) as (i & s & l & -> & _ & Gi & Hs & Hl).
    pose proof (good_index_args U HU l Hl) as GL. rewrite <- (elems_args _ index_arg l) by reflexivity.
    destruct (elems_head (ECall R_index) c g' y w Hc (map index_arg l) GL) as (d & v & Ev & Hd).
    destruct (ok_index U HU i Gi (p + 1 + length g) s d v st Hs Hd) as (s1 & T & E & L & _). unfold str, char in *. rewrite <- Ev in *.
    assert (TE : ((lit "[" ++ g ++ (index_text i ++ s ++ elems_text (map index_arg l)) ++ c :: g' ++ y) ++ w) = lit "[" ++ g ++ index_text i ++ s ++ elems_text (map index_arg l) ++ c :: g' ++ y ++ w) by (rewrite <- !app_assoc; cbn [app]; rewrite <- !app_assoc; reflexivity).
    unfold str, char in *. rewrite TE. clear TE.
    apply reaches_call. cbn [grammar]. apply reaches_atomic, reaches_rule, reaches_seq.
    eapply reaches_eq; [apply (enclosed_due (ECall R_index) (map index_arg l) c g' y w GL Hc Hg' (solid_due y w Hy Hw) H 93%N
      (EThen (EThen (EStr (lit "[")) ESkip) (ECall R_index)) _ s1 [T] (p + 1 + length g + length (index_text i) + length s) st)|].
    - eapply ok_then0; [|exact E]. eapply ok_then0; [apply (ev_str U grammar skip_body (lit "["))|apply skip_spacing; [exact Hg|apply front_solid, (index_front U); exact Gi]].
    - exact L.
    - repeat (rewrite app_length || cbn [length lit]). unfold str, char in *. lia.
  Qed.
  (** ** Operands *)
  Lemma term_of_node : forall cs x p st n, forallb prefix_char cs = true -> head_is prefix_char x = false ->
    reaches (ECall R_node) CompoundAtomic LNone (mkPs (p + length cs) x st) n -> reaches (ECall R_term) NonAtomic LNone (mkPs p (cs ++ x) st) n.
  Proof.
    intros cs x p st n Hc Hx H. destruct (ok_prefixes U cs p x st Hc Hx) as (ts & E & _). apply reaches_call. cbn [grammar].
    apply reaches_atomic, reaches_rule, reaches_seq, reaches_then1. eapply reaches_then2; [exact E|exact H].
  Qed.
  Notation one_call := (ESeq (EThen inline_rep (ECall R_apply))).
  Lemma calls_reach : forall l g y p st n, Forall (good_call U) l -> inline g = true -> head_is inline_space y = false ->
    (forall p st, reaches (ECall R_apply) CompoundAtomic LNone (mkPs p y st) (p + n)) ->
    reaches (ERep (ERestore one_call)) CompoundAtomic LNone (mkPs p (calls_text l ++ g ++ y) st) (p + length (calls_text l ++ g) + n).
  Proof.
    induction l as [|a l IH]; intros g y p st n Hl Hg Hy H.
    - cbn [calls_text map concat app]. apply reaches_rep, reaches_restore, reaches_seq. eapply reaches_then2; [apply inline_rep_ok; [exact Hg|exact Hy]|]. apply H.
    - pose proof (Forall_inv Hl) as Ha. pose proof (Forall_inv_tail Hl) as Hl'. change (calls_text (a :: l)) with ((fst (fst a) ++ snd (fst a)) ++ calls_text l).
      rewrite <- !app_assoc. destruct (ok_call_one U a p (calls_text l ++ g ++ y) st Ha) as (T & E & _).
      eapply reaches_rep2; [apply ok_restore; exact E|]. eapply reaches_eq; [apply (IH g y _ st n); assumption|]. unfold str, char in *. rewrite !app_length. lia.
  Qed.
  Lemma gap_sym_stop : forall g v, inline g = true -> sym_stop U (g ++ 40%N :: v) = true.
  Proof.
    intros [|c g] v Hg; [reflexivity|].
    unfold inline in Hg. cbn [forallb] in Hg. apply andb_prop in Hg as [Hc _]. unfold inline_space in Hc. do 2 apply andb_prop in Hc as [Hc _].
    destruct (white_quiet U HU c Hc) as (X1 & X2 & X3 & X4 & _). unfold sym_stop, path_more. cbn [app head_is].
    change (lit "::") with [58; 58]%N. rewrite !strip_other by assumption. rewrite X1. reflexivity.
  Qed.
  Lemma path_no_paren : forall h z p st, is_path U h -> fails (ERestore (ESeq (EThen (EThen (EThen (EThen (EStr (lit "(")) ESkip) (ECall R_expr)) ESkip) (EStr (lit ")"))))) CompoundAtomic false (mkPs p (h ++ z) st).
  Proof.
    intros h z p st Hh. apply er_paren. pose proof (path_head U h z Hh) as P. destruct (h ++ z) as [|d u]; [reflexivity|]. cbn [head_is] in *. apply N.eqb_neq. intros <-. discriminate P.
  Qed.
  Lemma apply_call_reach : forall h l g v p st n, is_path U h -> Forall (good_call U) l -> inline g = true ->
    (forall p st, reaches (ECall R_apply) CompoundAtomic LNone (mkPs p (40%N :: v) st) (p + n)) ->
    reaches (ECall R_apply_call) CompoundAtomic LNone (mkPs p (h ++ calls_text l ++ g ++ 40%N :: v) st) (p + length (h ++ calls_text l ++ g) + n).
  Proof.
    intros h l g v p st n Hh Hl Hg H. apply reaches_call. cbn [grammar]. apply reaches_atomic, reaches_rule, reaches_seq.
    destruct l as [|a l].
    - cbn [calls_text map concat app]. apply reaches_then1. destruct (ok_Symbol U CompoundAtomic h p (g ++ 40%N :: v) st Hh (gap_sym_stop g v Hg)) as [t Et].
      eapply reaches_then2; [exact Et|]. apply reaches_seq. eapply reaches_then2; [apply inline_rep_ok; [exact Hg|reflexivity]|].
      eapply reaches_eq; [apply H|]. unfold str, char in *. rewrite app_length. lia.
    - pose proof (Forall_inv Hl) as Ha. pose proof (Forall_inv_tail Hl) as Hl'. change (calls_text (a :: l)) with ((fst (fst a) ++ snd (fst a)) ++ calls_text l).
      rewrite <- !app_assoc.
      destruct (ok_Symbol U CompoundAtomic h p (fst (fst a) ++ snd (fst a) ++ calls_text l ++ g ++ 40%N :: v) st Hh (call_sym_stop U HU a _ Ha)) as [t Et].
      destruct (ok_call_one U a (p + length h) (calls_text l ++ g ++ 40%N :: v) st Ha) as (T & E & _).
      eapply reaches_then2; [eapply ok_then; [exact Et|exact E]|]. eapply reaches_eq; [apply (calls_reach l g (40%N :: v) _ st n); [exact Hl'|exact Hg|reflexivity|exact H]|].
      unfold str, char in *. rewrite !app_length. lia.
  Qed.
  Lemma call_reach : forall h l g v p st n, is_path U h -> Forall (good_call U) l -> inline g = true ->
    (forall p st, reaches (ECall R_apply) CompoundAtomic LNone (mkPs p (40%N :: v) st) (p + n)) ->
    reaches (ECall R_node) CompoundAtomic LNone (mkPs p (h ++ calls_text l ++ g ++ 40%N :: v) st) (p + length (h ++ calls_text l ++ g) + n).
  Proof.
    intros h l g v p st n Hh Hl Hg H. apply reaches_call. cbn [grammar]. apply reaches_rule. do 3 apply reaches_else1.
    eapply reaches_else2; [apply path_no_paren; exact Hh|]. apply reaches_restore, apply_call_reach; assumption.
  Qed.
  Lemma derivative_reach : forall h m g v p st n, is_path U h -> inline g = true ->
    (forall p st, reaches (ECall R_apply) CompoundAtomic LNone (mkPs p (40%N :: v) st) (p + n)) ->
    reaches (ECall R_node) CompoundAtomic LNone (mkPs p (h ++ repeat 39%N (S m) ++ g ++ 40%N :: v) st) (p + length (h ++ repeat 39%N (S m) ++ g) + n).
  Proof.
    intros h m g v p st n Hh Hg H. apply reaches_call. cbn [grammar]. apply reaches_rule. do 2 apply reaches_else1.
    assert (Y : head_is (N.eqb 39) (g ++ 40%N :: v) = false).
    { destruct g as [|c g]; [reflexivity|]. cbn [app head_is]. unfold inline in Hg. cbn [forallb] in Hg. apply andb_prop in Hg as [Hg _].
      unfold inline_space in Hg. do 2 apply andb_prop in Hg as [Hg _]. apply N.eqb_neq. intros <-. discriminate. }
    eapply reaches_else2.
    - apply er_else; [apply path_no_paren; exact Hh|]. apply er_restore, er_apply_call_bare; [exact Hh|reflexivity|reflexivity].
    - apply reaches_restore, reaches_call. cbn [grammar]. apply reaches_atomic, reaches_rule, reaches_seq.
      destruct (ok_Symbol U CompoundAtomic h p (repeat 39%N (S m) ++ g ++ 40%N :: v) st Hh eq_refl) as [t Et].
      eapply reaches_then2.
      + eapply ok_then1; [eapply ok_then; [exact Et|apply ok_Derivative; exact Y]|]. apply inline_rep_ok; [exact Hg|reflexivity].
      + eapply reaches_eq; [apply H|]. unfold str, char in *. rewrite !app_length, repeat_length. lia.
  Qed.
  Lemma posts_reach : forall l g v p st n, posts_ok U l -> inline g = true ->
    (forall p st, reaches (ECall R_slice) CompoundAtomic LNone (mkPs p (91%N :: v) st) (p + n)) ->
    reaches (ERep post_item) CompoundAtomic LNone (mkPs p (posts_text l ++ g ++ 91%N :: v) st) (p + length (posts_text l ++ g) + n).
  Proof.
    intros l g v p st n Hl Hg H.
    assert (Y : forall P : char -> bool, P 91%N = false -> (forall c, P c = true -> white_space c = false) -> head_is P (g ++ 91%N :: v) = false).
    { intros P P1 P2. destruct g as [|c g]; [exact P1|]. cbn [app head_is]. unfold inline in Hg. cbn [forallb] in Hg. apply andb_prop in Hg as [Hc _].
      unfold inline_space in Hc. do 2 apply andb_prop in Hc as [Hc _]. destruct (P c) eqn:E; [|reflexivity]. rewrite (P2 c E) in Hc. discriminate. }
    revert p st. induction l as [|a l IH]; intros p st.
    - cbn [posts_text app]. apply reaches_rep. eapply reaches_else2.
      + apply er_Suffix. apply Y; [reflexivity|]. intros c E. repeat (apply orb_prop in E as [E|E]); apply N.eqb_eq in E; subst c; reflexivity.
      + apply reaches_restore, reaches_seq. eapply reaches_then2; [apply inline_rep_ok; [exact Hg|reflexivity]|]. apply H.
    - cbn [posts_text]. rewrite <- app_assoc. destruct (ok_post U a l p (g ++ 91%N :: v) st Hl) as (T & E & _).
      + unfold no_signs. apply negb_true_iff. apply Y; [reflexivity|]. intros c E. repeat (apply orb_prop in E as [E|E]); apply N.eqb_eq in E; subst c; reflexivity.
      + eapply reaches_rep2; [exact E|]. eapply reaches_eq; [apply IH|unfold str, char in *; rewrite !app_length; lia].
        destruct a; cbn [posts_ok] in Hl; tauto.
  Qed.
  Lemma slice_reach : forall cs x o l g v p st n, forallb prefix_char cs = true -> node_means U x o -> (forall w, head_is prefix_char (x ++ w) = false) ->
    posts_ok U l -> inline g = true ->
    (forall p st, reaches (ECall R_slice) CompoundAtomic LNone (mkPs p (91%N :: v) st) (p + n)) ->
    reaches (ECall R_term) NonAtomic LNone (mkPs p (cs ++ x ++ posts_text l ++ g ++ 91%N :: v) st) (p + length (cs ++ x ++ posts_text l ++ g) + n).
  Proof.
    intros cs x o l g v p st n Hc Hx Nx Hl Hg H. apply reaches_call. cbn [grammar]. apply reaches_atomic, reaches_rule, reaches_seq.
    destruct (ok_prefixes U cs p (x ++ posts_text l ++ g ++ 91%N :: v) st Hc (Nx _)) as (ts & E & _).
    destruct (Hx (p + length cs) (posts_text l ++ g ++ 91%N :: v) st (posts_open U HU l g v Hl Hg)) as (T & E2 & _).
    eapply reaches_then2; [eapply ok_then; [exact E|exact E2]|]. eapply reaches_eq; [apply (posts_reach l g v _ st n); assumption|].
    unfold str, char in *. rewrite !app_length. lia.
  Qed.
  (** ** The induction *)
  Definition begins (y : str) : Prop := front y = true /\ head_is colon_char y = false.
  Lemma lead_colon : forall x, head_is (lead U) x = true -> head_is colon_char x = false.
  Proof.
    intros [|c x] H; [reflexivity|]. cbn [head_is] in *. unfold colon_char. apply orb_false_iff. split; apply N.eqb_neq; intros ->; [discriminate|].
    unfold lead in H. rewrite (proj2 (sign_quiet U HU 65306%N eq_refl)) in H. discriminate.
  Qed.
  Lemma due_front : forall y, y = [] \/ begins y -> y = [] \/ front y = true.
  Proof. intros y [H|[H _]]; auto. Qed.
  Lemma colon_due : forall p w st, head_is colon_char w = false -> reaches (ECall R_Colon) NonAtomic LNone (mkPs p w st) p.
  Proof.
    intros p w st H. apply reaches_call. cbn [grammar].
    match goal with |- ProofTrack.reaches _ _ _ (ERule ?r ?x) ?k ?l ?s _ => assert (F : fails x k false s) end.
    { apply er_atomic, er_else; apply er_str; (destruct w as [|c w]; [reflexivity|]; apply strip_head; intros <-; discriminate H). }
    eapply (reaches_failure U grammar skip_body R_Colon _ NonAtomic LNone (mkPs p w st)); [reflexivity|reflexivity|exact F].
  Qed.
  Lemma key_due : forall p w st, halt w -> reaches (ECall R_key_valid) NonAtomic LNone (mkPs p w st) p.
  Proof.
    intros p w st H. apply reaches_call. cbn [grammar]. apply reaches_atomic.
    match goal with |- ProofTrack.reaches _ _ _ (ERule ?r ?x) ?k ?l ?s _ => assert (F : fails x k false s) end.
    { apply er_else; [apply er_else|].
      - apply er_Integer, halt_digit. exact H.
      - apply er_SYMBOL, halt_word. exact H.
      - apply er_String_head; [apply halt_sign; [exact H|reflexivity|reflexivity]|apply halt_word; exact H]. }
    eapply (reaches_failure U grammar skip_body R_key_valid _ NonAtomic LNone (mkPs p w st)); [reflexivity|reflexivity|exact F].
  Qed.
  Lemma key_ready : forall k p g w st, ProofMark.key U k -> spacing g = true -> head_is (xid_continue U) w = false -> head_is (N.eqb 34) w = false -> solid w = true -> exists ts,
    ev (EThen (ECall R_key_valid) ESkip) NonAtomic false (mkPs p (k ++ g ++ w) st) (POk (mkPs (p + length k + length g) w st) ts).
  Proof.
    intros k p g w st Hk Hg H1 H2 H3. destruct (ok_key U k p (g ++ w) st Hk) as (T & E).
    - apply (white_xid U HU); assumption.
    - destruct g as [|e g]; cbn [app head_is]; [exact H2|]. destruct (spacing_cons e g Hg) as [[X _]|(-> & _)]; [|reflexivity]. apply N.eqb_neq. intros <-. discriminate.
    - eexists. eapply ok_then1; [exact E|]. apply skip_spacing; assumption.
  Qed.
  Lemma op_solid_halt : forall r s b w, infix_op r s -> spacing b = true -> (s = lit "/" -> head_is (N.eqb 47) b = false) -> halt w -> solid (s ++ b ++ w) = true.
  Proof.
    intros r s b w H Hb Hs Hw. pose proof (halt_sign 47 w Hw eq_refl eq_refl) as H47. pose proof (halt_sign 37 w Hw eq_refl eq_refl) as H37.
    assert (F : b ++ w = [] \/ exists d v, b ++ w = d :: v /\ (s = lit "/" -> d <> 47%N) /\ d <> 37%N).
    { destruct b as [|d b]; cbn [app].
      - destruct w as [|d w]; [left; reflexivity|]. cbn [head_is] in *. apply N.eqb_neq in H47, H37. right. exists d, w. auto.
      - right. exists d, (b ++ w). split; [reflexivity|]. split.
        + intros Es ->. specialize (Hs Es). discriminate.
        + intros ->. destruct (spacing_cons _ _ Hb) as [[X _]|(X & _)]; discriminate. }
    destruct F as [F|(d & v & F & N1 & N2)]; unfold str, char in *; rewrite F; [destruct H; reflexivity|]. clear F Hb Hs.
    assert (S1 : d <> 47%N -> solid (47%N :: d :: v) = true).
    { intro N. unfold solid. change (lit "//") with [47; 47]%N. change (lit "%%%") with [37; 37; 37]%N. cbn [strip_prefix]. change (47 =? 47)%N with true. change (37 =? 47)%N with false. cbn iota.
      replace (47 =? d)%N with false by (symmetry; apply N.eqb_neq, not_eq_sym; exact N). reflexivity. }
    assert (S2 : solid (37%N :: d :: v) = true).
    { unfold solid. change (lit "//") with [47; 47]%N. change (lit "%%%") with [37; 37; 37]%N. cbn [strip_prefix]. change (37 =? 37)%N with true. change (47 =? 37)%N with false. cbn iota.
      replace (37 =? d)%N with false by (symmetry; apply N.eqb_neq, not_eq_sym; exact N2). reflexivity. }
    destruct H; try reflexivity; auto.
  Qed.
  Lemma keyed_op : forall x o g s v p st, SpecSource.expr U x o -> spacing g = true -> In s (map fst SpecSource.operators ++ SpecSource.ignored) -> solid (s ++ v) = true ->
    fails keyed NonAtomic false (mkPs p (x ++ g ++ s ++ v) st).
  Proof.
    intros x o g s v p st Hx Hg Hs Hv. destruct (sign_op s Hs) as [r R]. destruct (op_xid U HU r s v R) as [X C].
    destruct (source_means U HU) as (_ & _ & _ & _ & _ & _ & _ & _ & _ & _ & _ & _ & _ & _ & ME). destruct (ME x o Hx) as (_ & _ & K).
    apply (er_keyed_in U HU); assumption.
  Qed.
  Lemma keyed_plain : forall x g w p st, kv_free U x -> spacing g = true -> halt w -> fails keyed NonAtomic false (mkPs p (x ++ g ++ w) st).
  Proof. intros x g w p st Hx Hg Hw. apply (er_keyed_in U HU); [exact Hx|exact Hg|apply halt_colon; exact Hw|apply halt_xid; exact Hw|apply halt_solid; exact Hw]. Qed.
  Lemma op_tstop : forall g s v, spacing g = true -> In s (map fst SpecSource.operators ++ SpecSource.ignored) -> (s = lit "." -> head_is digit v = false) -> tstop (g ++ s ++ v) = true.
  Proof. intros g s v Hg Hs D. destruct (sign_op s Hs) as [r R]. apply tstop_white; [exact HU|exact Hg|]. eapply tstop_op; [exact HU|exact R|exact D]. Qed.
  Lemma gap_digit : forall g v, spacing g = true -> (g = [] -> head_is digit v = false) -> head_is digit (g ++ v) = false.
  Proof.
    intros [|c g] v Hg Hv; [apply Hv; reflexivity|]. cbn [app head_is].
    destruct (spacing_quiet U HU c g Hg) as (X & _). destruct (digit c) eqn:D; [|reflexivity]. rewrite (digit_xid U c D) in X. discriminate.
  Qed.
  Definition Pu (y : str) : Prop :=
    (y = [] \/ begins y) /\ (forall w p st, halt w -> fails keyed NonAtomic false (mkPs p (y ++ w) st)) /\
    forall w, halt w -> shut y w -> forall k p st, reaches (ECall R_expr) k LNone (mkPs p (y ++ w) st) (p + length y).
  Definition Po (y : str) : Prop :=
    begins y /\ kv_free U y /\ forall w, halt w -> shut y w -> forall p st, reaches (ECall R_term) NonAtomic LNone (mkPs p (y ++ w) st) (p + length y).
  Definition Pn (z : str) : Prop :=
    starts_well U z /\ forall cs w p st, forallb prefix_char cs = true -> halt w -> shut z w ->
      reaches (ECall R_term) NonAtomic LNone (mkPs p ((cs ++ z) ++ w) st) (p + length (cs ++ z)).
  Definition Pl (y : str) : Prop :=
    (exists v, y = 40%N :: v) /\ forall w, halt w -> shut y w -> forall p st, reaches (ECall R_apply) CompoundAtomic LNone (mkPs p (y ++ w) st) (p + length y).
  Definition Pa (y : str) : Prop :=
    (y = [] \/ front y = true) /\ forall w, halt w -> shut y w -> forall p st, reaches (ECall R_apply_kv) NonAtomic LNone (mkPs p (y ++ w) st) (p + length y).
  Definition Pe (y : str) : Prop :=
    (y = [] \/ front y = true /\ head_is (N.eqb 125) y = false) /\
    forall w, halt w -> shut y w -> forall p st, reaches (ECall R_key_value) NonAtomic LNone (mkPs p (y ++ w) st) (p + length y).
  Definition Pi (y : str) : Prop :=
    (y = [] \/ front y = true) /\ forall w, halt w -> shut y w -> forall p st, reaches (ECall R_index) NonAtomic LNone (mkPs p (y ++ w) st) (p + length y).

  Lemma c_node : forall z, starts_well U z -> (forall w p st, halt w -> shut z w -> reaches (ECall R_node) CompoundAtomic LNone (mkPs p (z ++ w) st) (p + length z)) -> Pn z.
  Proof.
    intros z S H. split; [exact S|]. intros cs w p st Hc Hw Hs. rewrite <- app_assoc. apply term_of_node; [exact Hc|apply (head_front U HU), S|].
    eapply reaches_eq; [apply H; assumption|]. rewrite app_length. lia.
  Qed.
  Lemma c_due : Pu [].
  Proof.
    split; [left; reflexivity|]. split.
    - intros w p st Hw. apply er_restore, er_seq0. do 4 apply er_then. apply er_SYMBOL, halt_word. exact Hw.
    - intros w Hw _ k p st. cbn [app length]. rewrite Nat.add_0_r. apply reaches_call. cbn [grammar]. apply reaches_atomic, reaches_rule, reaches_seq.
      do 2 apply reaches_then1. apply term_reach, halt_idle. exact Hw.
  Qed.
  Lemma c_whole : forall x o g, SpecSource.expr U x o -> spacing g = true -> Pu (x ++ g).
  Proof.
    intros x o g Hx Hg. destruct (source_means U HU) as (_ & _ & _ & _ & _ & _ & _ & _ & _ & _ & _ & _ & _ & _ & ME). destruct (ME x o Hx) as (M & F & K). split; [|split].
    - right. split; [destruct x; [discriminate|exact F]|apply (no_colon U HU x o g F M)].
    - intros w p st Hw. rewrite <- app_assoc. apply keyed_plain; assumption.
    - intros w Hw _ k p st. rewrite <- app_assoc. pose proof (halt_stop g w Hw Hg) as (G & T & _).
      eapply reaches_eq; [apply (expr_reach_in x o g w 0 Hx G T)|lia]. intros q st'. eapply reaches_eq; [apply opterm_due|lia].
      apply halt_sign; [exact Hw|reflexivity|reflexivity].
  Qed.
  Lemma c_open : forall y, Po y -> Pu y.
  Proof.
    intros y (B & K & H). split; [right; exact B|]. split.
    - intros w p st Hw. apply (keyed_plain y [] w p st); [exact K|reflexivity|exact Hw].
    - intros w Hw Hs k p st. apply reaches_call. cbn [grammar]. apply reaches_atomic, reaches_rule, reaches_seq. do 2 apply reaches_then1. apply H; assumption.
  Qed.
  Lemma c_operator : forall x o g s g', SpecSource.expr U x o -> spacing g = true -> In s (map fst SpecSource.operators ++ SpecSource.ignored) -> spacing g' = true ->
    (s = lit "/" -> head_is (N.eqb 47) g' = false) -> Pu (x ++ g ++ s ++ g').
  Proof.
    intros x o g s g' Hx Hg Hs Hg' Hd. destruct (source_expr U HU x o Hx) as (M & F). destruct (sign_op s Hs) as [r R]. split; [|split].
    - right. split; [destruct x; [discriminate|exact F]|apply (no_colon U HU x o _ F M)].
    - intros w p st Hw. rewrite <- !app_assoc. eapply keyed_op; [exact Hx|exact Hg|exact Hs|]. eapply op_solid_halt; eassumption.
    - intros w Hw _ k p st. rewrite <- !app_assoc.
      eapply reaches_eq; [apply (expr_reach_in x o g (s ++ g' ++ w) (1 + length g') Hx)|].
      + apply spacing_gone; [exact Hg|]. eapply op_solid_halt; eassumption.
      + apply op_tstop; [exact Hg|exact Hs|]. intros _. apply gap_digit; [exact Hg'|]. intros _. apply halt_digit. exact Hw.
      + intros q st'. eapply reaches_eq; [apply opterm_reach; [exact Hs|exact Hg'|apply halt_idle; exact Hw|apply halt_solid; exact Hw]|lia].
      + destruct (infix_op_len r s R) as (c & -> & _). unfold str, char in *. rewrite !app_length. cbn [length]. lia.
  Qed.
  Lemma c_operand : forall x o g s g' y, SpecSource.expr U x o -> spacing g = true -> In s (map fst SpecSource.operators ++ SpecSource.ignored) -> spacing g' = true ->
    (s = lit "/" -> head_is (N.eqb 47) g' = false) -> (s = lit "." -> g' = [] -> head_is digit y = false) -> Po y -> Pu (x ++ g ++ s ++ g' ++ y).
  Proof.
    intros x o g s g' y Hx Hg Hs Hg' Hd H9 ((Fy & _) & _ & H). destruct (source_expr U HU x o Hx) as (M & F). destruct (sign_op s Hs) as [r R].
    assert (So : forall w, solid (s ++ g' ++ y ++ w) = true) by (intro w; eapply op_solid; eassumption).
    split; [|split].
    - right. split; [destruct x; [discriminate|exact F]|apply (no_colon U HU x o _ F M)].
    - intros w p st Hw. rewrite <- !app_assoc. eapply keyed_op; [exact Hx|exact Hg|exact Hs|apply So].
    - intros w Hw Hsh k p st. rewrite <- !app_assoc.
      eapply reaches_eq; [apply (expr_reach_in x o g (s ++ g' ++ y ++ w) (1 + length g' + length y) Hx)|].
      + apply spacing_gone; [exact Hg|apply So].
      + apply op_tstop; [exact Hg|exact Hs|]. intro E. apply gap_digit; [exact Hg'|]. intro E'. destruct y; [discriminate|]. apply H9; assumption.
      + intros q st'. apply reaches_restore, reaches_seq. eapply reaches_then2.
        * eapply ok_then1; [apply ok_Infix; exact R|]. apply skip_spacing; [exact Hg'|]. apply front_solid. exact Fy.
        * eapply reaches_eq; [apply H; [exact Hw|]|lia]. rewrite !app_assoc in Hsh. eapply shut_tail. exact Hsh.
      + destruct (infix_op_len r s R) as (c & -> & _). unfold str, char in *. rewrite !app_length. cbn [length]. lia.
  Qed.
  Lemma c_prefix : forall cs y, forallb prefix_char cs = true -> Pn y -> Po (cs ++ y).
  Proof.
    intros cs y Hc ([L K] & H). split; [|split].
    - destruct cs as [|c cs]; [split; [apply (head_front U HU); exact L|apply lead_colon; exact L]|]. cbn [forallb] in Hc. apply andb_prop in Hc as [Hc _].
      destruct (prefix_front U HU c (cs ++ y) Hc) as [F _]. split; [exact F|]. cbn [app head_is]. unfold prefix_char in Hc.
      repeat (apply orb_prop in Hc as [Hc|Hc]); apply N.eqb_eq in Hc; subst c; reflexivity.
    - destruct cs as [|c cs]; [exact K|]. cbn [forallb] in Hc. apply andb_prop in Hc as [Hc _].
      destruct (prefix_front U HU c (cs ++ y) Hc) as [_ F]. apply kv_other; [discriminate|exact F].
    - intros w Hw Hs p st. apply H; [exact Hc|exact Hw|eapply shut_tail; exact Hs].
  Qed.
  Lemma er_node_body : forall k q p c w st x, ProofCall.dead U c = true -> grammar R_node = ERule R_node x -> fails x k q (mkPs p (c :: w) st).
  Proof.
    intros k q p c w st x H E. injection E as <-. unfold dead in H. apply andb_prop in H as [H H3]. apply andb_prop in H as [_ H2].
    apply negb_true_iff in H2. apply negb_true_iff in H3. destruct (joins_off U (c :: w) H2) as (J1 & J2 & J3).
    assert (N : forall d, In d [123; 91; 182; 8267; 35; 34]%N -> (d =? c)%N = false).
    { intros d Hd. apply N.eqb_neq. intros ->. apply not_true_iff_false in H3. apply H3. apply existsb_exists. exists c. split; [exact Hd|apply N.eqb_refl]. }
    repeat apply er_else.
    - apply er_paren. exact J1.
    - apply er_restore, er_apply_call_head. exact J3.
    - apply er_restore, er_derivative_head. exact J3.
    - apply er_restore, er_space_call_head; assumption.
    - apply er_restore, er_call, er_atomic, er_rule. repeat apply er_else.
      + apply er_dict. apply N. cbn; tauto.
      + apply er_list. apply N. cbn; tauto.
      + apply er_Special. unfold no_special.
        assert (X : forall d l, word_head U d = true -> strip_prefix (d :: l) (c :: w) = None).
        { intros d l Hd. apply strip_head. intros ->. cbn [head_is] in J3. congruence. }
        change (lit "null") with (110 :: lit "ull")%N. change (lit "true") with (116 :: lit "rue")%N. change (lit "false") with (102 :: lit "alse")%N.
        rewrite !X by reflexivity. reflexivity.
      + apply er_REPL. cbn [head_is]. rewrite !(N.eqb_sym c), !N by (cbn; tauto). reflexivity.
      + apply er_Slot. apply N. cbn; tauto.
      + apply er_Number. exact J2.
      + apply er_String_head; [apply N; cbn; tauto|exact J3].
      + apply er_Symbol. exact J3.
  Qed.
  Lemma node_due : forall p w st, halt w -> reaches (ECall R_node) CompoundAtomic LNone (mkPs p w st) p.
  Proof.
    intros p w st Hw. pose proof (halt_idle w Hw) as H. apply reaches_call. cbn [grammar].
    match goal with |- ProofTrack.reaches _ _ _ (ERule ?r ?x) ?k ?l ?s _ => assert (F : fails x k false s) end.
    { destruct w as [|c w].
      - match goal with |- fails ?x _ _ _ => apply (fails_sound U grammar skip_body 60 x CompoundAtomic false [mkLook [] false] p [] st) end.
        + vm_compute. reflexivity.
        + exists (mkLook [] false). split; [left; reflexivity|]. exists []. split; [reflexivity|reflexivity].
      - unfold idle in H. cbn [head_is] in H. apply dead_spec in H. apply er_node_body; [exact H|reflexivity]. }
    eapply (reaches_failure U grammar skip_body R_node _ CompoundAtomic LNone (mkPs p w st)); [reflexivity|reflexivity|exact F].
  Qed.
  Lemma c_operand_due : forall cs, cs <> [] -> forallb prefix_char cs = true -> Po cs.
  Proof.
    intros cs N Hc. destruct cs as [|c cs]; [congruence|]. pose proof Hc as Hc'. cbn [forallb] in Hc'. apply andb_prop in Hc' as [Hc' _].
    destruct (prefix_front U HU c cs Hc') as [F1 F2]. split; [|split].
    - split; [exact F1|]. cbn [head_is]. unfold prefix_char in Hc'.
      repeat (apply orb_prop in Hc' as [Hc'|Hc']); apply N.eqb_eq in Hc'; subst c; reflexivity.
    - apply kv_other; [discriminate|exact F2].
    - intros w Hw _ p st. apply term_of_node; [exact Hc| |apply node_due; exact Hw].
      apply halt_head; [exact Hw| |reflexivity|reflexivity|reflexivity]. intros d Hd. destruct (stranger_facts d Hd) as (_ & _ & _ & _ & X).
      unfold prefix_char. rewrite !X by reflexivity. reflexivity.
  Qed.
  Lemma c_group : forall y, Pu y -> Pn (lit "(" ++ y).
  Proof.
    intros y (_ & _ & H). apply c_node; [apply (lead_sign U HU); reflexivity|]. intros w p st Hw Hs. apply node_of_group. apply H; [exact Hw|eapply shut_tail; exact Hs].
  Qed.
  Lemma shut_first : forall c d g y w, In (c, d) [(91, 93); (123, 125)]%N -> spacing g = true -> shut (c :: g ++ y) w -> y = [] -> head_is (N.eqb d) w = false.
  Proof.
    intros c d g y w Hc Hg [S1 S2] ->. rewrite app_nil_r in *. destruct Hc as [E|[E|[]]]; injection E as <- <-; [apply (S1 [] g)|apply (S2 [] g)]; (reflexivity || exact Hg).
  Qed.
  Lemma c_list : forall g y, spacing g = true -> Pu y -> Pn (lit "[" ++ g ++ y).
  Proof.
    intros g y Hg (B & _ & H). apply c_node; [apply (lead_sign U HU); reflexivity|]. intros w p st Hw Hs. apply (node_of_list (g ++ y)).
    apply (list_first g y w p st CompoundAtomic); [exact Hg|apply due_front; exact B|exact Hw| |].
    - eapply (shut_first 91 93); [left; reflexivity|exact Hg|exact Hs].
    - intros q st'. apply H; [exact Hw|]. rewrite app_assoc in Hs. eapply shut_tail. exact Hs.
  Qed.
  Lemma shut_more : forall a x g y w, shut (a :: x ++ g ++ y) w -> shut y w.
  Proof. intros a x g y w H. rewrite app_assoc in H. exact (shut_tail (a :: x ++ g) y w H). Qed.
  Lemma shut_more2 : forall a g x c g' y w, shut (a :: g ++ x ++ c :: g' ++ y) w -> shut y w.
  Proof.
    intros a g x c g' y w H. replace (a :: g ++ x ++ c :: g' ++ y) with ((a :: g ++ x ++ c :: g') ++ y) in H by (cbn [app]; rewrite <- !app_assoc; reflexivity).
    exact (shut_tail _ y w H).
  Qed.
  Lemma c_list_more : forall g x os c g' y, spacing g = true -> SpecSource.elements U x os -> comma_char c = true -> spacing g' = true -> Pu y ->
    Pn (lit "[" ++ g ++ x ++ c :: g' ++ y).
  Proof.
    intros g x os c g' y Hg Hx Hc Hg' (B & _ & H). apply c_node; [apply (lead_sign U HU); reflexivity|]. intros w p st Hw Hs.
    apply (node_of_list (g ++ x ++ c :: g' ++ y)). apply (list_more g x os c g' y w p st CompoundAtomic); try assumption; [apply due_front; exact B|].
    intros q st'. apply H; [exact Hw|]. eapply shut_more2. exact Hs.
  Qed.
  Lemma c_call : forall w l z ps g0 y, segment U w = true -> forallb (segment U) l = true -> SpecSource.calls U z ps -> inline g0 = true -> Pl y ->
    Pn (w ++ path_tail l ++ z ++ g0 ++ y).
  Proof.
    intros w l z ps g0 y Hw Hl Hz Hg ((v & ->) & H).
    destruct (source_means U HU) as (_ & _ & _ & MC & _). destruct (MC z ps Hz) as (k & -> & _ & Gk & Go).
    apply c_node.
    - rewrite app_assoc. apply (starts_app U); [apply (path_starts U HU); exact Hw|]. apply (goes_on_app U); [exact Go|]. apply (open_goes_on U HU); [reflexivity|exact Hg].
    - intros u p st Hu Hs.
      assert (TE : (w ++ path_tail l ++ calls_text k ++ g0 ++ 40%N :: v) ++ u = (w ++ path_tail l) ++ calls_text k ++ g0 ++ 40%N :: v ++ u) by (rewrite <- !app_assoc; reflexivity).
      unfold str, char in *. rewrite TE. clear TE.
      eapply reaches_eq; [apply (call_reach (w ++ path_tail l) k g0 (v ++ u) p st (S (length v))); [apply (is_path_intro U HU); assumption|exact Gk|exact Hg|]|].
      + intros q st'. apply (H u Hu). rewrite !app_assoc in Hs. exact (shut_tail _ (40%N :: v) u Hs).
      + unfold str, char in *. rewrite !app_length. cbn [length]. lia.
  Qed.
  Lemma c_derivative : forall w l n g0 y, segment U w = true -> forallb (segment U) l = true -> inline g0 = true -> Pl y ->
    Pn (w ++ path_tail l ++ repeat 39%N (S n) ++ g0 ++ y).
  Proof.
    intros w l n g0 y Hw Hl Hg ((v & ->) & H). apply c_node.
    - rewrite app_assoc. apply (starts_app U); [apply (path_starts U HU); exact Hw|]. apply (sign_goes_on U). reflexivity.
    - intros u p st Hu Hs.
      assert (TE : (w ++ path_tail l ++ repeat 39%N (S n) ++ g0 ++ 40%N :: v) ++ u = (w ++ path_tail l) ++ repeat 39%N (S n) ++ g0 ++ 40%N :: v ++ u) by (rewrite <- !app_assoc; reflexivity).
      unfold str, char in *. rewrite TE. clear TE.
      eapply reaches_eq; [apply (derivative_reach (w ++ path_tail l) n g0 (v ++ u) p st (S (length v))); [apply (is_path_intro U HU); assumption|exact Hg|]|].
      + intros q st'. apply (H u Hu). rewrite !app_assoc in Hs. exact (shut_tail _ (40%N :: v) u Hs).
      + unfold str, char in *. rewrite !app_length. cbn [length]. lia.
  Qed.
  Lemma c_dict : forall g y, spacing g = true -> Pe y -> Pn (lit "{" ++ g ++ y).
  Proof.
    intros g y Hg (B & H). apply c_node; [apply (lead_sign U HU); reflexivity|]. intros w p st Hw Hs. apply (node_of_dict (g ++ y)).
    apply (dict_first g y w p st CompoundAtomic); [exact Hg|exact B|exact Hw| |].
    - eapply (shut_first 123 125); [right; left; reflexivity|exact Hg|exact Hs].
    - intros q st'. apply H; [exact Hw|]. rewrite app_assoc in Hs. eapply shut_tail. exact Hs.
  Qed.
  Lemma c_dict_more : forall g x c g' y, spacing g = true -> SpecSource.entries U x -> comma_char c = true -> spacing g' = true -> Pe y ->
    Pn (lit "{" ++ g ++ x ++ c :: g' ++ y).
  Proof.
    intros g x c g' y Hg Hx Hc Hg' (B & H). apply c_node; [apply (lead_sign U HU); reflexivity|]. intros w p st Hw Hs.
    apply (node_of_dict (g ++ x ++ c :: g' ++ y)). apply (dict_more g x c g' y w p st CompoundAtomic); try assumption; [tauto|].
    intros q st'. apply H; [exact Hw|]. eapply shut_more2. exact Hs.
  Qed.
  Lemma c_slice_any : forall x o z l g0 v, SpecSource.node U x o -> SpecSource.suffixes U z l -> inline g0 = true ->
    (forall w, halt w -> shut (91%N :: v) w -> forall p st, reaches (ECall R_slice) CompoundAtomic LNone (mkPs p ((91%N :: v) ++ w) st) (p + length (91%N :: v))) ->
    Pn (x ++ z ++ g0 ++ 91%N :: v).
  Proof.
    intros x o z l g0 v Hx Hz Hg H.
    destruct (source_means U HU) as (MN & _ & _ & _ & _ & _ & _ & _ & _ & _ & _ & _ & MS & _). destruct (MN x o Hx) as (Mx & Sx). destruct (MS z l Hz) as (ps & -> & _ & Ok & Go).
    split.
    - apply (starts_app U); [exact Sx|]. apply (goes_on_app U); [exact Go|]. apply (open_goes_on U HU); [reflexivity|exact Hg].
    - intros cs w p st Hc Hw Hs.
      assert (TE : (cs ++ x ++ posts_text ps ++ g0 ++ 91%N :: v) ++ w = cs ++ x ++ posts_text ps ++ g0 ++ 91%N :: v ++ w) by (rewrite <- !app_assoc; reflexivity).
      unfold str, char in *. rewrite TE. clear TE.
      eapply reaches_eq; [apply (slice_reach cs x o ps g0 (v ++ w) p st (S (length v))); [exact Hc|exact Mx|apply (head_front U HU), Sx|exact Ok|exact Hg|]|].
      + intros q st'. apply (H w Hw). rewrite !app_assoc in Hs. exact (shut_tail _ (91%N :: v) w Hs).
      + unfold str, char in *. rewrite !app_length. cbn [length]. lia.
  Qed.
  Lemma c_slice : forall x o z l g0 g y, SpecSource.node U x o -> SpecSource.suffixes U z l -> inline g0 = true -> spacing g = true -> Pi y ->
    Pn (x ++ z ++ g0 ++ lit "[" ++ g ++ y).
  Proof.
    intros x o z l g0 g y Hx Hz Hg0 Hg (B & H). eapply c_slice_any; try eassumption. intros w Hw Hs p st.
    apply (slice_first g y w p st CompoundAtomic); try assumption. intros q st'. apply H; [exact Hw|]. exact (shut_tail (91%N :: g) y w Hs).
  Qed.
  Lemma c_slice_more : forall x o z l g0 g v os c g' y, SpecSource.node U x o -> SpecSource.suffixes U z l -> inline g0 = true -> spacing g = true ->
    SpecSource.indices U v os -> comma_char c = true -> spacing g' = true -> Pi y -> Pn (x ++ z ++ g0 ++ lit "[" ++ g ++ v ++ c :: g' ++ y).
  Proof.
    intros x o z l g0 g v os c g' y Hx Hz Hg0 Hg Hv Hc Hg' (B & H). eapply c_slice_any; try eassumption. intros w Hw Hs p st.
    apply (slice_more g v os c g' y w p st CompoundAtomic); try assumption. intros q st'. apply H; [exact Hw|]. eapply shut_more2. exact Hs.
  Qed.
  Lemma c_args_first : forall g y, spacing g = true -> Pa y -> Pl (lit "(" ++ g ++ y).
  Proof.
    intros g y Hg (B & H). split; [eexists; reflexivity|]. intros w Hw Hs p st. apply (apply_first g y w p st CompoundAtomic); try assumption.
    intros q st'. apply H; [exact Hw|]. exact (shut_tail (40%N :: g) y w Hs).
  Qed.
  Lemma c_args_more : forall g x rs c g' y, spacing g = true -> SpecSource.args U x rs -> comma_char c = true -> spacing g' = true -> Pa y ->
    Pl (lit "(" ++ g ++ x ++ c :: g' ++ y).
  Proof.
    intros g x rs c g' y Hg Hx Hc Hg' (B & H). split; [eexists; reflexivity|]. intros w Hw Hs p st.
    apply (apply_more g x rs c g' y w p st CompoundAtomic); try assumption. intros q st'. apply H; [exact Hw|]. eapply shut_more2. exact Hs.
  Qed.
  Lemma c_value : forall y, Pu y -> Pa y.
  Proof.
    intros y (B & K & H). split; [apply due_front; exact B|]. intros w Hw Hs p st. apply reaches_call. cbn [grammar]. apply reaches_rule.
    eapply (reaches_else2 U grammar skip_body keyed); [apply K; exact Hw|]. apply reaches_restore, H; assumption.
  Qed.
  Lemma due_solid : forall y w, y = [] \/ begins y -> halt w -> solid (y ++ w) = true.
  Proof. intros y w B Hw. apply solid_due; [apply due_front; exact B|exact Hw]. Qed.
  Lemma c_key : forall k g c g' y, word U k = true -> spacing g = true -> colon_char c = true -> spacing g' = true -> Pu y -> Pa (k ++ g ++ c :: g' ++ y).
  Proof.
    intros k g c g' y Hk Hg Hc Hg' (B & _ & H). destruct (colon_facts U HU c Hc) as (D1 & D2 & D3). split.
    - right. apply (head_front U HU), (word_lead U). exact Hk.
    - intros w Hw Hs p st. rewrite <- !app_assoc. cbn [app]. rewrite <- app_assoc. apply reaches_call. cbn [grammar]. apply reaches_rule, reaches_else1, reaches_restore, reaches_seq.
      eapply reaches_then2.
      + eapply ok_then1; [|apply skip_spacing; [exact Hg'|apply due_solid; [exact B|exact Hw]]]. eapply ok_then; [|apply ok_Colon; exact Hc]. eapply ok_then1.
        * apply ok_SYMBOL; [exact Hk|]. apply (white_xid U HU); [exact Hg|exact D1].
        * apply skip_spacing; [exact Hg|apply D3].
      + eapply reaches_eq; [apply H; [exact Hw|]|].
        * replace (k ++ g ++ c :: g' ++ y) with ((k ++ g ++ c :: g') ++ y) in Hs by (rewrite <- !app_assoc; reflexivity). exact (shut_tail _ y w Hs).
        * unfold str, char in *. rewrite !app_length. cbn [length]. rewrite app_length. lia.
  Qed.
  Lemma c_entry_key : Pe [].
  Proof.
    split; [left; reflexivity|]. intros w Hw _ p st. cbn [app length]. rewrite Nat.add_0_r. apply reaches_call. cbn [grammar].
    apply reaches_atomic, reaches_rule, reaches_seq. do 4 apply reaches_then1. apply key_due. exact Hw.
  Qed.
  Lemma c_entry_colon : forall k g, SpecSource.key U k -> spacing g = true -> Pe (k ++ g).
  Proof.
    intros k g Hk Hg. apply (key_means U) in Hk. split; [right; apply (key_front U HU); exact Hk|]. intros w Hw _ p st. rewrite <- app_assoc.
    destruct (key_ready k p g w st Hk Hg (halt_xid w Hw) (halt_sign 34 w Hw eq_refl eq_refl) (halt_solid w Hw)) as (ts & E).
    apply reaches_call. cbn [grammar]. apply reaches_atomic, reaches_rule, reaches_seq. do 2 apply reaches_then1.
    eapply reaches_then2; [exact E|]. eapply reaches_eq; [apply colon_due, halt_colon; exact Hw|]. rewrite app_length. lia.
  Qed.
  Lemma c_entry_value : forall k g c g' y, SpecSource.key U k -> spacing g = true -> colon_char c = true -> spacing g' = true -> Pu y -> Pe (k ++ g ++ c :: g' ++ y).
  Proof.
    intros k g c g' y Hk Hg Hc Hg' (B & _ & H). destruct (colon_facts U HU c Hc) as (D1 & D2 & D3). apply (key_means U) in Hk.
    split; [right; apply (key_front U HU); exact Hk|]. intros w Hw Hs p st. rewrite <- !app_assoc. cbn [app]. rewrite <- app_assoc.
    destruct (key_ready k p g (c :: g' ++ y ++ w) st Hk Hg D1) as (ts & E); [apply N.eqb_neq; intros <-; discriminate|apply D3|].
    apply reaches_call. cbn [grammar]. apply reaches_atomic, reaches_rule, reaches_seq.
    eapply reaches_then2.
    - eapply ok_then1; [|apply skip_spacing; [exact Hg'|apply due_solid; [exact B|exact Hw]]]. eapply ok_then; [exact E|apply ok_Colon; exact Hc].
    - eapply reaches_eq; [apply H; [exact Hw|]|].
      + replace (k ++ g ++ c :: g' ++ y) with ((k ++ g ++ c :: g') ++ y) in Hs by (rewrite <- !app_assoc; reflexivity). exact (shut_tail _ y w Hs).
      + unfold str, char in *. rewrite !app_length. cbn [length]. rewrite app_length. lia.
  Qed.
  Lemma c_index_first : forall y, Pu y -> Pi y.
  Proof.
    intros y (B & _ & H). split; [apply due_front; exact B|]. intros w Hw Hs p st. apply reaches_call. cbn [grammar]. apply reaches_rule, reaches_else1, reaches_else1, reaches_seq.
    do 8 apply reaches_then1. apply reaches_opt, reaches_restore, reaches_call. cbn [grammar]. apply reaches_rule. apply H; assumption.
  Qed.
  Lemma c_index_second : forall d a oa g c g' y, SpecSource.bound U d a oa -> spacing g = true -> (a = [] -> g = []) -> colon_char c = true -> spacing g' = true -> Pu y ->
    Pi (a ++ g ++ c :: g' ++ y).
  Proof.
    intros d a oa g c g' y Ha Hg Hn Hc Hg' (B & _ & H).
    destruct (source_means U HU) as (_ & _ & _ & _ & _ & _ & _ & _ & _ & _ & MB & _). destruct (MB d a oa Ha) as (b & -> & _ & Gb & Eb). split.
    - right. destruct b as [[x o]|]; cbn [bound_text] in *.
      + destruct Gb as [F _]. destruct x; [discriminate|exact F].
      + rewrite (Hn eq_refl). apply orb_prop in Hc as [Hc|Hc]; apply N.eqb_eq in Hc; subst c; reflexivity.
    - intros w Hw Hs p st. rewrite <- !app_assoc. cbn [app]. rewrite <- app_assoc.
      destruct (ok_head1 U HU b p g c (g' ++ y ++ w) st Gb Hg (fun E => Hn (proj2 Eb E)) Hc) as (ts & C & E & _).
      { intros _ _. apply path_more_colon; [exact Hc|]. apply (white_not58 U HU); [exact Hg'|].
        destruct B as [->|[F N]]; [apply halt_sign; [exact Hw|reflexivity|reflexivity]|]. destruct y as [|e y]; [discriminate|]. cbn [app head_is] in *.
        unfold colon_char in N. apply orb_false_iff in N as [N _]. rewrite N.eqb_sym. exact N. }
      apply reaches_call. cbn [grammar]. apply reaches_rule, reaches_else1, reaches_else1, reaches_seq. do 4 apply reaches_then1.
      eapply reaches_then2; [eapply ok_then1; [exact E|apply skip_spacing; [exact Hg'|apply due_solid; [exact B|exact Hw]]]|].
      apply reaches_opt, reaches_restore, reaches_call. cbn [grammar]. apply reaches_rule. eapply reaches_eq; [apply H; [exact Hw|]|].
      + replace (bound_text b ++ g ++ c :: g' ++ y) with ((bound_text b ++ g ++ c :: g') ++ y) in Hs by (rewrite <- !app_assoc; reflexivity). exact (shut_tail _ y w Hs).
      + unfold str, char in *. rewrite !app_length. cbn [length]. rewrite app_length. lia.
  Qed.
  Lemma due_not58 : forall y w, y = [] \/ begins y -> halt w -> head_is (N.eqb 58) (y ++ w) = false.
  Proof.
    intros y w [->|[F N]] Hw; [apply halt_sign; [exact Hw|reflexivity|reflexivity]|]. destruct y as [|e y]; [discriminate|]. cbn [app head_is] in *.
    unfold colon_char in N. apply orb_false_iff in N as [N _]. rewrite N.eqb_sym. exact N.
  Qed.
  Lemma c_index_third : forall d a oa g c g' d' b ob g3 c' g4 y, SpecSource.bound U d a oa -> spacing g = true -> (a = [] -> g = []) -> colon_char c = true -> spacing g' = true ->
    SpecSource.bound U d' b ob -> spacing g3 = true -> colon_char c' = true -> spacing g4 = true -> Pu y ->
    (a <> [] -> g ++ g' ++ b ++ g3 ++ g4 = [] -> head_is (word_head U) y = false) ->
    Pi (a ++ g ++ c :: g' ++ b ++ g3 ++ c' :: g4 ++ y).
  Proof.
    intros d a0 oa g1 c1 g2 d' b0 ob g3 c2 g4 y Ha0 G1 Hn K1 G2 Hb0 G3 K2 G4 (B & _ & H) Hp.
    destruct (source_means U HU) as (_ & _ & _ & _ & _ & _ & _ & _ & _ & _ & MB & _). destruct (MB d a0 oa Ha0) as (a & -> & _ & Ha & Ea).
    destruct (MB d' b0 ob Hb0) as (b & -> & _ & Hb & Eb). clear MB.
    split.
    - right. destruct a as [[x o]|]; cbn [bound_text] in *.
      + destruct Ha as [F _]. destruct x; [discriminate|exact F].
      + rewrite (Hn eq_refl). apply orb_prop in K1 as [K1|K1]; apply N.eqb_eq in K1; subst c1; reflexivity.
    - intros w Hw Hs p st. destruct (colon_facts U HU c2 K2) as (D1 & D2 & D3). pose proof (due_not58 y w B Hw) as Y58.
      assert (TE : (bound_text a ++ g1 ++ c1 :: g2 ++ bound_text b ++ g3 ++ c2 :: g4 ++ y) ++ w = bound_text a ++ g1 ++ c1 :: g2 ++ bound_text b ++ g3 ++ c2 :: g4 ++ y ++ w).
      { rewrite <- !app_assoc. do 2 f_equal. cbn [app]. f_equal. rewrite <- !app_assoc. do 3 f_equal. cbn [app]. f_equal. rewrite <- !app_assoc. reflexivity. }
      unfold str, char in *. rewrite TE. clear TE.
      assert (P2 : path_more U (c2 :: g4 ++ y ++ w) = false) by (apply path_more_colon; [exact K2|]; apply (white_not58 U HU); [exact G4|exact Y58]).
      assert (Na : a <> None -> bound_text a <> []) by (intros X Y; apply X, Ea, Y).
      destruct (ok_head1 U HU a p g1 c1 (g2 ++ bound_text b ++ g3 ++ c2 :: g4 ++ y ++ w) st Ha G1 (fun E => Hn (proj2 Ea E)) K1) as (t1 & T1 & E1 & _ & _).
      { intros Na1 Ng. destruct (head_is (N.eqb 58) (g2 ++ bound_text b ++ g3 ++ c2 :: g4 ++ y ++ w)) eqn:HH; [|apply path_more_colon; assumption].
        assert (E : g2 = [] /\ b = None /\ g3 = [] /\ c2 = 58%N).
        { destruct g2 as [|u g2].
          - destruct b as [[x o]|].
            { exfalso. pose proof (bound_not58 U HU (Some (x, o)) (g3 ++ c2 :: g4 ++ y ++ w) Hb ltac:(discriminate)) as Z.
              cbn [app] in HH. unfold str, char in *. rewrite Z in HH. discriminate. }
            cbn [bound_text app] in HH. destruct g3 as [|u g3].
            + cbn [app head_is] in HH. apply N.eqb_eq in HH. auto.
            + exfalso. cbn [app head_is] in HH. rewrite N.eqb_sym in HH.
              destruct (spacing_quiet U HU u _ G3) as (_ & _ & Z & _). congruence.
          - exfalso. cbn [app head_is] in HH. rewrite N.eqb_sym in HH.
            destruct (spacing_quiet U HU u _ G2) as (_ & _ & Z & _). congruence. }
        destruct E as (-> & -> & -> & ->). cbn [bound_text app] in *. subst g1. cbn [app] in Hp.
        apply orb_prop in K1 as [K1|K1]; apply N.eqb_eq in K1; subst c1; [|reflexivity].
        unfold path_more. change (lit "::") with [58; 58]%N. cbn [strip_prefix]. rewrite N.eqb_refl.
        destruct g4 as [|u g4]; [|cbn [app head_is]; apply (spacing_quiet U HU u _ G4)].
        specialize (Hp (Na Na1) eq_refl). cbn [app]. destruct y as [|v y]; [apply halt_word; exact Hw|exact Hp]. }
      destruct (ok_gap_part U R_End b (p + length (bound_text a) + length g1 + 1) g2 g3 c2 (g4 ++ y ++ w) st (or_intror (or_introl eq_refl)) Hb G2 G3 D2 (D3 _)
        (fun _ => colon_stop U HU g3 c2 _ G3 K2 (fun _ => P2))) as (s2 & s3 & t3 & E2 & E3 & L3 & _).
      pose proof (ok_then U _ _ _ _ _ _ _ _ _ (ok_then1 U _ _ _ _ _ _ _ _ E1 E2) E3) as A1.
      pose proof (ok_then1 U _ _ _ _ _ _ _ _ A1 (skip_lands U s3 _ _ _ L3 (D3 _))) as A2.
      pose proof (ok_then U _ _ _ _ _ _ _ _ _ A2 (ok_Colon U c2 _ _ st K2)) as A3.
      apply reaches_call. cbn [grammar]. apply reaches_rule, reaches_else1, reaches_else1, reaches_seq.
      eapply reaches_then2; [eapply ok_then1; [exact A3|apply skip_spacing; [exact G4|apply due_solid; [exact B|exact Hw]]]|].
      apply reaches_opt, reaches_restore, reaches_call. cbn [grammar]. apply reaches_rule. eapply reaches_eq; [apply H; [exact Hw|]|].
      + assert (TE : bound_text a ++ g1 ++ c1 :: g2 ++ bound_text b ++ g3 ++ c2 :: g4 ++ y = (bound_text a ++ g1 ++ c1 :: g2 ++ bound_text b ++ g3 ++ c2 :: g4) ++ y).
        { rewrite <- !app_assoc. cbn [app]. do 3 f_equal. rewrite <- !app_assoc. reflexivity. }
        unfold str, char in *. rewrite TE in Hs. exact (shut_tail _ y w Hs).
      + unfold str, char in *. repeat (rewrite app_length || cbn [length]). lia.
  Qed.
  Definition Pp (k : SpecSource.factor_kind) (y : str) : Prop :=
    exists f z, y = fac_text f ++ z /\ good_fac U f /\ kind_of f = k /\ starts_well U y /\
      forall w, halt w -> shut z w -> fol U f (z ++ w) = true /\ forall p st,
        reaches more_factor CompoundAtomic LNone (mkPs p (z ++ w) st) (p + length z) \/
        exists s ts, ev more_factor CompoundAtomic false (mkPs p (z ++ w) st) (POk s ts) /\ reaches (ERep more_factor) CompoundAtomic LNone s (p + length z).
  Lemma product_starts : forall f g k v, good_fac U f -> starts_well U (fac_text f) -> inline g = true -> (g = [] -> SpecSource.touches (kind_of f) k) ->
    head_is (lead U) v = true -> starts_well U (fac_text f ++ g ++ v).
  Proof.
    intros f g k v Gf Sf Hg T Hv.
    assert (Hd : head_is digit (fac_text f) = true -> starts_well U (fac_text f ++ g ++ v)).
    { intro D. apply (digit_starts U). rewrite head_nonempty; [exact D|]. intros E. rewrite E in D. discriminate. }
    destruct f as [h|n|n m|b P s|h a c]; cbn [fac_text good_fac kind_of] in *.
    + apply (starts_app U); [exact Sf|]. apply (gap_goes_on U HU); [apply ProofSource.inline_white; exact Hg|exact Hv|].
      destruct g as [|d g].
      * exfalso. specialize (T eq_refl). destruct k; exact T.
      * cbn [app head_is]. apply ProofSource.inline_white in Hg. apply (spacing_quiet U HU d _ Hg).
    + apply Hd. rewrite <- (app_nil_r n). apply numeral_lead. exact Gf.
    + apply Hd. apply numeral_lead. apply Gf.
    + apply Hd. reflexivity.
    + apply (starts_app U); [exact Sf|]. apply (gap_goes_on U HU); [apply ProofSource.inline_white; exact Hg|exact Hv|].
      destruct g as [|d g].
      * exfalso. specialize (T eq_refl). destruct k; exact T.
      * cbn [app head_is]. apply ProofSource.inline_white in Hg. apply (spacing_quiet U HU d _ Hg).
  Qed.
  Lemma c_last : forall k x o g w l z ps g0 y, SpecSource.factor U k x o -> inline g = true -> (g = [] -> SpecSource.touches k (SpecSource.KCall (w ++ path_tail l))) ->
    segment U w = true -> forallb (segment U) l = true -> SpecSource.calls U z ps -> inline g0 = true -> Pl y ->
    Pp k (x ++ g ++ w ++ path_tail l ++ z ++ g0 ++ y).
  Proof.
    intros k x o g w l z ps g0 y Hx Hg T Hw Hl Hz Hg0 ((v & ->) & H).
    destruct (source_means U HU) as (_ & MF & _ & MC & _). destruct (MF k x o Hx) as (f & <- & _ & Gf & <- & Sf). destruct (MC z ps Hz) as (a & -> & _ & Ga & Go). clear MF MC.
    exists f. eexists. split; [reflexivity|]. split; [exact Gf|]. split; [reflexivity|]. split.
    - eapply product_starts; [exact Gf|exact Sf|exact Hg|exact T|]. apply (part_lead U HU). exact Hw.
    - intros u Hu Hs. pose proof (is_path_intro U HU w l Hw Hl) as Hp.
      assert (TE : (g ++ w ++ path_tail l ++ calls_text a ++ g0 ++ 40%N :: v) ++ u = g ++ (w ++ path_tail l) ++ calls_text a ++ g0 ++ 40%N :: v ++ u) by (rewrite <- !app_assoc; reflexivity).
      unfold str, char in *. rewrite TE. clear TE. split.
      + apply (good_list_fol U HU f g (FSym (w ++ path_tail l))); [exact Gf|exact Hg| |exact Hp]. intro E. specialize (T E). clear - T. destruct f; exact T.
      + intros p st. left. apply reaches_seq. eapply reaches_then2; [apply inline_rep_ok; [exact Hg|apply (fac_head U HU (FSym (w ++ path_tail l))); exact Hp]|].
        do 2 apply reaches_else1. apply reaches_restore. eapply reaches_eq; [apply (apply_call_reach (w ++ path_tail l) a g0 (v ++ u) (p + length g) st (S (length v))); [exact Hp|exact Ga|exact Hg0|]|].
        * intros q st'. apply (H u Hu). rewrite !app_assoc in Hs. exact (shut_tail _ (40%N :: v) u Hs).
        * unfold str, char in *. rewrite !app_length. cbn [length]. lia.
  Qed.
  Lemma c_next : forall k x o g k' y, SpecSource.factor U k x o -> inline g = true -> (g = [] -> SpecSource.touches k k') -> Pp k' y -> Pp k (x ++ g ++ y).
  Proof.
    intros k x o g k' y Hx Hg T (f' & z & -> & Gf' & <- & Sy & H).
    destruct (source_means U HU) as (_ & MF & _). destruct (MF k x o Hx) as (f & <- & _ & Gf & <- & Sf). clear MF.
    exists f. eexists. split; [reflexivity|]. split; [exact Gf|]. split; [reflexivity|]. split.
    - eapply product_starts; [exact Gf|exact Sf|exact Hg|exact T|apply Sy].
    - intros w Hw Hs. rewrite <- !app_assoc. split.
      + apply (good_list_fol U HU f g f'); [exact Gf|exact Hg| |exact Gf']. intro E. apply touches_eq, T, E.
      + intros p st. right. rewrite app_assoc in Hs. destruct (H w Hw (shut_tail _ z w Hs)) as [Fo R].
        destruct (ok_factor U HU f' (p + length g) (z ++ w) st Gf' Fo) as (T1 & E1 & _). eexists. exists [T1]. split.
        * apply ok_seq. eapply ok_then0; [apply inline_rep_ok; [exact Hg|apply (fac_head U HU); exact Gf']|exact E1].
        * destruct (R (p + length g + length (fac_text f')) st) as [R1|(s & ts & E2 & R2)].
          -- eapply reaches_eq; [apply reaches_rep; exact R1|]. rewrite !app_length. lia.
          -- eapply reaches_eq; [eapply reaches_rep2; [exact E2|exact R2]|]. rewrite !app_length. lia.
  Qed.
  Lemma c_product : forall k y, Pp k y -> SpecSource.is_call k = false -> Pn y.
  Proof.
    intros k y (f & z & -> & Gf & <- & Sy & H) Nc. apply c_node; [exact Sy|]. intros w p st Hw Hs.
    destruct (H w Hw (shut_tail _ z w Hs)) as [Fo R]. rewrite <- app_assoc.
    assert (N : head_is (N.eqb 40) (fac_text f ++ z ++ w) = false /\ fails (ECall R_apply_call) CompoundAtomic false (mkPs p (fac_text f ++ z ++ w) st) /\
      fails (ECall R_derivative) CompoundAtomic false (mkPs p (fac_text f ++ z ++ w) st)).
    { destruct f as [y|y|y v|b P s|h a k]; cbn [fac_text good_fac fol kind_of SpecSource.is_call] in *; [| | | |discriminate].
      - apply andb_prop in Fo as [F1 A3]. apply andb_prop in F1 as [A1 A2]. split; [|split].
        + apply (not40 U). left. apply path_head. exact Gf.
        + apply er_apply_call_at; assumption.
        + apply (er_derivative_bare U); try assumption. apply negb_true_iff. exact A3.
      - destruct (numeral_digits y Gf) as [N D]. assert (HD : head_is digit (y ++ z ++ w) = true) by (apply digit_head; assumption). split; [|split].
        + apply (not40 U). right. exact HD.
        + apply er_apply_call_head, (head_digit_word U). exact HD.
        + apply er_derivative_head, (head_digit_word U). exact HD.
      - destruct Gf as [Hy Hz]. rewrite <- app_assoc. destruct (numeral_digits y Hy) as [N D].
        assert (HD : forall v, head_is digit (y ++ v) = true) by (intro; apply digit_head; assumption). split; [|split].
        + apply (not40 U). right. apply HD.
        + apply er_apply_call_head, (head_digit_word U). apply HD.
        + apply er_derivative_head, (head_digit_word U). apply HD.
      - split; [reflexivity|]. split; [apply er_apply_call_head|apply er_derivative_head]; reflexivity. }
    destruct N as (N1 & N2 & N3). destruct (ok_factor U HU f p (z ++ w) st Gf Fo) as (T1 & E1 & _).
    apply reaches_call. cbn [grammar]. apply reaches_rule, reaches_else1. eapply reaches_else2.
    { apply er_else; [apply er_else|]; [apply er_paren; exact N1|apply er_restore; exact N2|apply er_restore; exact N3]. }
    apply reaches_restore, reaches_call. cbn [grammar]. apply reaches_atomic, reaches_rule, reaches_seq.
    destruct (R (p + length (fac_text f)) st) as [R1|(s & ts & E2 & R2)].
    - apply reaches_then1. eapply reaches_then2; [exact E1|]. eapply reaches_eq; [exact R1|]. rewrite app_length. lia.
    - eapply reaches_then2; [eapply ok_then; [exact E1|exact E2]|]. eapply reaches_eq; [exact R2|]. rewrite app_length. lia.
  Qed.
  Scheme unfinished_i := Induction for SpecUnfinished.unfinished Sort Prop
  with opened_i := Induction for SpecUnfinished.opened Sort Prop
  with bracket_open_i := Induction for SpecUnfinished.bracket_open Sort Prop
  with product_open_i := Induction for SpecUnfinished.product_open Sort Prop
  with arguments_open_i := Induction for SpecUnfinished.arguments_open Sort Prop
  with argument_due_i := Induction for SpecUnfinished.argument_due Sort Prop
  with entry_due_i := Induction for SpecUnfinished.entry_due Sort Prop
  with index_due_i := Induction for SpecUnfinished.index_due Sort Prop.
  Lemma unfinished_reach : forall y, SpecUnfinished.unfinished U y -> Pu y.
  Proof.
    intros y H. apply (unfinished_i U (fun y _ => Pu y) (fun y _ => Po y) (fun y _ => Pn y) (fun k y _ => Pp k y) (fun y _ => Pl y) (fun y _ => Pa y) (fun y _ => Pe y) (fun y _ => Pi y)); [..|exact H]; clear y H; intros.
    - apply c_due.
    - eapply c_whole; eassumption.
    - apply c_open; assumption.
    - eapply c_operator; eassumption.
    - eapply c_operand; eassumption.
    - apply c_operand_due; assumption.
    - apply c_prefix; assumption.
    - apply c_group; assumption.
    - apply c_list; assumption.
    - eapply c_list_more; eassumption.
    - eapply c_call; eassumption.
    - eapply c_derivative; eassumption.
    - eapply c_product; eassumption.
    - apply c_dict; assumption.
    - eapply c_dict_more; eassumption.
    - eapply c_slice; eassumption.
    - eapply c_slice_more; eassumption.
    - eapply c_last; eassumption.
    - eapply c_next; eassumption.
    - apply c_args_first; assumption.
    - eapply c_args_more; eassumption.
    - apply c_value; assumption.
    - eapply c_key; eassumption.
    - apply c_entry_key.
    - apply c_entry_colon; assumption.
    - eapply c_entry_value; eassumption.
    - apply c_index_first; assumption.
    - eapply c_index_second; eassumption.
    - eapply c_index_third; eassumption.
  Qed.
  (** ** Texts *)
  Lemma unfinished_floor : forall g t y w, spacing g = true -> lines U t -> SpecUnfinished.unfinished U y -> y <> [] -> plain_start y = true ->
    t = [] \/ head_is operator_start y = false -> halt w -> shut y w ->
    length (g ++ t ++ y) <= a_pos (program_attempts U ((g ++ t ++ y) ++ w)).
  Proof.
    intros g t y w Hg Ht Hy N Hp Hh Hw Hs. destruct (unfinished_reach y Hy) as (B & _ & R). destruct B as [->|[F _]]; [congruence|].
    assert (TE : (g ++ t ++ y) ++ w = g ++ t ++ y ++ w) by (rewrite <- !app_assoc; reflexivity). unfold str, char in *. rewrite TE. clear TE.
    assert (P : solid (t ++ y ++ w) = true /\ passes U (length g) (t ++ y ++ w) (length g + length t) (y ++ w)).
    { destruct Hh as [->|O].
      - cbn [app length]. rewrite Nat.add_0_r. split; [apply front_solid; exact F|constructor].
      - destruct (lines_passes U HU t Ht (length g) (y ++ w) (fresh_front y w F Hp O)) as [Fr Pa]. split; [exact (fresh_solid U HU _ Fr)|exact Pa]. }
    destruct P as [So Pa]. eapply (body_reach U); [exact (spacing_first U g _ Hg So)|].
    eapply (passes_body_reach U); [exact Pa|]. apply statement_reach.
    - apply plain_start_app; [exact N|exact Hp|]. apply (stop_lower U [] w). apply halt_stop; [exact Hw|reflexivity].
    - eapply reaches_eq; [apply R; assumption|]. rewrite !app_length. lia.
  Qed.
  Lemma shut_end : forall y, shut y [].
  Proof. intro y. split; reflexivity. Qed.
  Lemma shut_stranger : forall y c w, stranger U c = true -> shut y (c :: w).
  Proof. intros y c w H. destruct (stranger_facts c H) as (_ & _ & _ & _ & X). split; intros; cbn [head_is]; rewrite N.eqb_sym; apply X; reflexivity. Qed.
  (** white space alone, where no comment starts *)
  Lemma bare_tail : forall a v, bare (a ++ v) = true -> bare v = true.
  Proof.
    intros a v H. unfold bare in *. apply negb_true_iff in H. apply negb_true_iff. rewrite <- not_true_iff_false in *. intro X. apply H.
    apply existsb_exists in X as (k & I & X). apply existsb_exists. exists k. split; [exact I|]. destruct (contains k (a ++ v)) eqn:E; [reflexivity|]. rewrite (contains_tail k a v E) in X. discriminate.
  Qed.
  Lemma bare_white : forall g, spacing g = true -> bare g = true -> forallb white_space g = true.
  Proof.
    induction g as [|c g IH]; intros H B; [reflexivity|]. cbn [forallb]. unfold spacing in *. cbn [spacing_from] in H. destruct (white_space c) eqn:W.
    - apply IH; [exact H|]. exact (bare_tail [c] g B).
    - exfalso. destruct g as [|b [|d g]]; [discriminate|discriminate|]. apply andb_prop in H as [H _]. apply andb_prop in H as [H H3]. apply andb_prop in H as [H1 H2].
      apply N.eqb_eq in H1, H2. subst c b. unfold bare in B. apply negb_true_iff in B. apply not_true_iff_false in B. apply B. apply existsb_exists.
      repeat (apply orb_prop in H3 as [H3|H3]); apply N.eqb_eq in H3; subst d.
      + exists (lit "///"). split; [cbn; auto|reflexivity].
      + exists (lit "//?"). split; [cbn; auto|reflexivity].
      + exists (lit "//!"). split; [cbn; auto|reflexivity].
      + exists (lit "//*"). split; [cbn; auto 10|reflexivity].
  Qed.
  Lemma white_balanced : forall g, forallb white_space g = true -> balanced g.
  Proof.
    intros g H. apply walk_balanced, walk_plain. rewrite forallb_forall in *. intros c I. specialize (H c I). apply negb_true_iff. destruct (bracket c) eqn:Bc; [|reflexivity].
    apply bracket_cases in Bc. cbn [In] in Bc. decompose [or] Bc; subst; try discriminate; contradiction.
  Qed.
  Lemma shut_closer : forall u y c w, bare (u ++ y) = true -> closes_nothing (u ++ y) c -> shut y (c :: w).
  Proof.
    intros u y c w B [_ C].
    assert (X : forall o d, In (o, d) brackets -> forall a g, y = a ++ o :: g -> spacing g = true -> head_is (N.eqb d) (c :: w) = false).
    { intros o d Hd a g -> Hg. cbn [head_is]. apply N.eqb_neq. intros ->.
      apply (C (u ++ a) o g); [rewrite <- app_assoc; reflexivity|exact Hd|]. apply white_balanced, bare_white; [exact Hg|].
      apply (bare_tail (u ++ a ++ [o])). rewrite <- !app_assoc. exact B. }
    split; intros a g; apply X; cbn; auto.
  Qed.
  Section Place.
    Variables g t y : str.
    Hypotheses (Hg : spacing g = true) (Ht : lines U t) (Hy : SpecUnfinished.unfinished U y) (N : y <> []) (Hp : plain_start y = true)
      (Hh : t = [] \/ head_is operator_start y = false).
    Lemma unfinished_refused : forall f, parse U f (g ++ t ++ y) = Ret (Err SMParseError) -> blamed U (g ++ t ++ y) (length (g ++ t ++ y)).
    Proof.
      intros f R. pose proof (refused_blamed U f _ R) as Bl. pose proof (attempts_inside U (g ++ t ++ y)) as L.
      pose proof (unfinished_floor g t y [] Hg Ht Hy N Hp Hh (or_introl eq_refl) (shut_end y)) as F. rewrite app_nil_r in F.
      replace (length (g ++ t ++ y)) with (a_pos (program_attempts U (g ++ t ++ y))) by lia. exact Bl.
    Qed.
    Lemma unfinished_end : bare (g ++ t ++ y) = true -> ~ balanced (g ++ t ++ y) ->
      (forall f, parse U f (g ++ t ++ y) = Ret (Err SMParseError)) /\ blamed U (g ++ t ++ y) (length (g ++ t ++ y)).
    Proof.
      intros B NB. pose proof (unbalanced_refused U _ B NB) as R. split; [exact R|]. exact (unfinished_refused [] (R [])).
    Qed.
    Lemma unfinished_stranger : forall c w, bare (g ++ t ++ y) = true -> stranger U c = true ->
      (forall f, parse U f ((g ++ t ++ y) ++ c :: w) = Ret (Err SMParseError)) /\ blamed U ((g ++ t ++ y) ++ c :: w) (length (g ++ t ++ y)).
    Proof.
      intros c w B C. destruct (stranger_bound U _ c w B C) as [R L].
      assert (P : forall f, parse U f ((g ++ t ++ y) ++ c :: w) = Ret (Err SMParseError)) by (intro f; apply parse_refused; exact R). split; [exact P|].
      pose proof (refused_blamed U [] _ (P [])) as Bl.
      pose proof (unfinished_floor g t y (c :: w) Hg Ht Hy N Hp Hh (or_intror (ex_intro _ c (ex_intro _ w (conj eq_refl (or_introl C))))) (shut_stranger y c w C)) as F.
      replace (length (g ++ t ++ y)) with (a_pos (program_attempts U ((g ++ t ++ y) ++ c :: w))) by lia. exact Bl.
    Qed.
    Lemma unfinished_closer : forall c w, bare (g ++ t ++ y) = true -> closes_nothing (g ++ t ++ y) c ->
      (forall f, parse U f ((g ++ t ++ y) ++ c :: w) = Ret (Err SMParseError)) /\ blamed U ((g ++ t ++ y) ++ c :: w) (length (g ++ t ++ y)).
    Proof.
      intros c w B C. destruct (closer_bound U _ c w B C) as [R L].
      assert (P : forall f, parse U f ((g ++ t ++ y) ++ c :: w) = Ret (Err SMParseError)) by (intro f; apply parse_refused; exact R). split; [exact P|].
      pose proof (refused_blamed U [] _ (P [])) as Bl. assert (Cl : closes c = true) by (apply closes_pair; apply C).
      assert (S : shut y (c :: w)) by (apply (shut_closer (g ++ t)); rewrite <- app_assoc; assumption).
      pose proof (unfinished_floor g t y (c :: w) Hg Ht Hy N Hp Hh (or_intror (ex_intro _ c (ex_intro _ w (conj eq_refl (or_intror Cl))))) S) as F.
      replace (length (g ++ t ++ y)) with (a_pos (program_attempts U ((g ++ t ++ y) ++ c :: w))) by lia. exact Bl.
    Qed.
  End Place.
End Unfinished.
