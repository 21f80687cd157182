(** Operands made of expressions: parentheses, lists, calls, slices, products. *)
From Verif Require Import Base Ast Display SmError Peg Grammar Climber Build SpecAst SpecPeg SpecClimb SpecParse SpecSyntax.
From Verif Require Import ProofAst ProofDisplay ProofPeg ProofPegShift ProofSym ProofGrammar ProofClimber ProofBuild ProofPos ProofSpace ProofLex ProofToken ProofNode ProofAtom ProofTerm ProofExpr.
Local Open Scope nat_scope.
Local Open Scope outcome_scope.

Section Group.
  Variable U : unicode.
  Notation ev := (ev U grammar skip_body).
  Notation fails := (fails U).
  Notation tstop := (tstop U).
  Notation term_means := (term_means U).
  Notation expr_means := (expr_means U).
  Notation expr_stop := (expr_stop U).
  Notation node_means := (node_means U).
  Hypothesis HU : sane U.

  (** ** Parentheses *)
  Definition ends (c : char) : bool := existsb (N.eqb c) [44; 93; 41; 125; 59; 65292; 65307]%N.
  Lemma ends_stop : forall ws c w, spacing ws = true -> ends c = true -> expr_stop ws (c :: w).
  Proof.
    intros ws c w Hw Hc.
    assert (S : solid (c :: w) = true).
    { unfold ends in Hc. cbn [existsb] in Hc. repeat (apply orb_prop in Hc as [Hc|Hc]; [apply N.eqb_eq in Hc; subst c; reflexivity|]). discriminate. }
    split; [apply spacing_gone; assumption|]. split; [|split; [exact S|]].
    - apply tstop_white; [exact HU|exact Hw|]. unfold ends in Hc. cbn [existsb] in Hc.
      repeat (apply orb_prop in Hc as [Hc|Hc]; [apply N.eqb_eq in Hc; subst c; try (apply tstop_sign; [exact HU|reflexivity..]); reflexivity|]). discriminate.
    - apply blocked_head. unfold ends in Hc. cbn [existsb] in Hc. repeat (apply orb_prop in Hc as [Hc|Hc]; [apply N.eqb_eq in Hc; subst c; reflexivity|]). discriminate.
  Qed.
  Lemma comment_tstop : forall d l, line_mark d = true -> tstop (47%N :: 47%N :: d :: l) = true.
  Proof. intros d l H. reflexivity. Qed.
  Lemma end_stop : forall ws, closing ws = true -> expr_stop ws [].
  Proof.
    intros ws H. split; [|split; [|split; [reflexivity|apply blocked_head; reflexivity]]].
    - apply closing_gone. exact H.
    - rewrite app_nil_r. destruct (closing_split ws H) as [S|(a & d & l & -> & Ha & Hd & Hl)].
      + rewrite <- (app_nil_r ws). apply tstop_white; [exact HU|exact S|reflexivity].
      + apply tstop_white; [exact HU|exact Ha|]. apply comment_tstop. exact Hd.
  Qed.

  Lemma node_paren : forall x o, expr_means x o -> forall S, node_in U S (paren x) o.
  Proof.
    intros x o H S p w st Hw. destruct (H CompoundAtomic (p + 1) [] (41%N :: w) st (ends_stop [] 41%N w eq_refl eq_refl)) as (s & T & E & Es & R & M).
    cbn [app length] in E, Es. rewrite Nat.add_0_r in Es. assert (s = mkPs (p + 1 + length x) (41%N :: w) st) as -> by (destruct Es; assumption). clear Es.
    eexists. split; [|split].
    - apply ev_call. cbn [grammar]. apply (ok_rule U R_node _ CompoundAtomic p (paren x) w st st).
      do 4 apply ev_else_ok. apply ok_restore, ok_seq. unfold paren. rewrite <- !app_assoc.
      eapply ok_then1.
      + eapply ok_then1; [|apply ev_skip_atomic; discriminate].
        eapply ok_then0; [|exact E]. eapply ok_then1; [|apply ev_skip_atomic; discriminate]. apply (ev_str U grammar skip_body (lit "(")).
      + eapply ok_pos; [apply (ev_str U grammar skip_body (lit ")"))|lens].
    - reflexivity.
    - intros f i. unfold parse_node. cbn [t_inner]. rewrite R. apply M.
  Qed.

  (** ** Separated elements *)
  (** a state at some white space before w, which is at position q *)
  Definition lands (s : pstate) (q : nat) (w : str) (st : list str) : Prop :=
    exists g, spacing g = true /\ rest s = g ++ w /\ stk s = st /\ pos s + length g = q.
  Lemma skip_lands : forall s q w st, lands s q w st -> solid w = true -> ev ESkip NonAtomic false s (POk (mkPs q w st) []).
  Proof.
    intros [p r st'] q w st (g & G1 & G2 & G3 & G4) Hw. cbn [rest stk pos] in *. subst r st' q. apply skip_spacing; assumption.
  Qed.
  Lemma lands_here : forall q w st, lands (mkPs q w st) q w st.
  Proof. intros. exists []. cbn. auto. Qed.

  Lemma lands_pos : forall s q q' w st, lands s q w st -> q = q' -> lands s q' w st.
  Proof. intros. subst. assumption. Qed.

  Lemma ok_Comma : forall c p w st, comma_char c = true ->
    ev (ECall R_Comma) NonAtomic false (mkPs p (c :: w) st) (POk (mkPs (p + 1) w st) [Node R_Comma p (p + 1) [c] []]).
  Proof.
    intros c p w st H. apply ev_call. cbn [grammar]. apply (ok_rule U R_Comma _ NonAtomic p [c] w st st). apply ev_atomic.
    apply orb_prop in H as [H|H]; apply N.eqb_eq in H; subst c.
    - apply ev_else_ok. apply (ev_str U grammar skip_body (lit ",")).
    - apply ev_else_err; [apply er_str; reflexivity|]. apply (ev_str U grammar skip_body [65292%N]).
  Qed.
  Lemma er_Comma : forall k q p w st, head_is comma_char w = false -> fails (ECall R_Comma) k q (mkPs p w st).
  Proof.
    intros k q p w st H. apply er_call, er_rule, er_atomic, er_else; apply er_str;
      (destruct w as [|c w]; [reflexivity|]; apply strip_head; intros <-; discriminate H).
  Qed.
  Lemma comma_ends : forall c, comma_char c = true -> ends c = true.
  Proof. intros c H. apply orb_prop in H as [H|H]; apply N.eqb_eq in H; subst c; reflexivity. Qed.
  Lemma ends_solid : forall c w, ends c = true -> solid (c :: w) = true.
  Proof. intros c w H. exact (proj1 (proj2 (proj2 (ends_stop [] c w eq_refl H)))). Qed.

  Section Seps.
    Variable e : pexp rule.
    Variable close : char.
    Hypothesis Hclose : existsb (N.eqb close) [93; 41; 125]%N = true.
    Hypothesis He : forall p w st, fails e NonAtomic false (mkPs p (close :: w) st).
    Lemma close_cases : close = 93%N \/ close = 41%N \/ close = 125%N.
    Proof. pose proof Hclose as H. cbn [existsb] in H. repeat (apply orb_prop in H as [H|H]; [apply N.eqb_eq in H; auto|]). discriminate. Qed.
    Lemma close_ends : ends close = true.
    Proof. destruct close_cases as [E|[E|E]]; rewrite E; reflexivity. Qed.
    Lemma close_comma : comma_char close = false.
    Proof. destruct close_cases as [E|[E|E]]; rewrite E; reflexivity. Qed.

    Definition elem_means (x : str) (Q : tree rule -> Prop) : Prop :=
      forall p ws c w st, spacing ws = true -> ends c = true -> exists s T,
        ev e NonAtomic false (mkPs p (x ++ ws ++ c :: w) st) (POk s [T]) /\ lands s (p + length x + length ws) (c :: w) st /\ Q T.
    Record elem := mkElem { comma : char; gap : str; body : str; space : str; about : tree rule -> Prop }.
    Definition elem_text (i : elem) : str := comma i :: gap i ++ body i ++ space i.
    Definition elems_text (l : list elem) : str := concat (map elem_text l).
    Definition good_elem (i : elem) : Prop :=
      comma_char (comma i) = true /\ spacing (gap i) = true /\ front (body i) = true /\ elem_means (body i) (about i) /\ spacing (space i) = true.

    Definition sep1 : pexp rule := ERestore (ESeq (EThen (EThen (ECall R_Comma) ESkip) e)).
    Definition sep : pexp rule := ESeq (EThen ESkip sep1).
    Definition seps : pexp rule := ESeq (EOpt (EThen sep1 (ERep sep))).

    Definition trail := option (char * str).
    Definition trail_text (t : trail) : str := match t with Some (c, g) => c :: g | None => [] end.
    Definition good_trail (t : trail) : Prop := match t with Some (c, g) => comma_char c = true /\ spacing g = true | None => True end.
    Definition trees (L : list (tree rule * tree rule)) : list (tree rule) := flat_map (fun q => [fst q; snd q]) L.
    Definition elem_trees (i : elem) (q : tree rule * tree rule) : Prop := t_rule (fst q) = R_Comma /\ about i (snd q).

    Variable t : trail.
    Hypothesis Ht : good_trail t.
    Lemma close_head : forall l w, Forall good_elem l -> exists c v, elems_text l ++ trail_text t ++ close :: w = c :: v /\ ends c = true.
    Proof.
      intros [|i l] w Hl.
      - cbn [elems_text map concat app]. destruct t as [[c g]|]; cbn [trail_text app].
        + exists c, (g ++ close :: w). split; [reflexivity|]. apply comma_ends. apply Ht.
        + exists close, w. split; [reflexivity|]. apply close_ends.
      - exists (comma i). eexists. split; [reflexivity|]. apply comma_ends. exact (proj1 (Forall_inv Hl)).
    Qed.
    Lemma er_sep1_close : forall p w st, fails sep1 NonAtomic false (mkPs p (trail_text t ++ close :: w) st).
    Proof.
      intros p w st. apply er_restore. destruct t as [[c g]|]; cbn [trail_text app].
      - destruct Ht as [H1 H2]. eapply er_seq2; [|apply He|reflexivity]. eapply ok_then1; [apply ok_Comma; exact H1|].
        apply skip_spacing; [exact H2|]. apply ends_solid, close_ends.
      - apply er_seq0. do 2 apply er_then. apply er_Comma. exact close_comma.
    Qed.
    Lemma ok_sep1 : forall i l p w st, good_elem i -> Forall good_elem l -> exists s q,
      ev sep1 NonAtomic false (mkPs p (elem_text i ++ elems_text l ++ trail_text t ++ close :: w) st) (POk s [fst q; snd q]) /\
      lands s (p + length (elem_text i)) (elems_text l ++ trail_text t ++ close :: w) st /\ elem_trees i q.
    Proof.
      intros i l p w st (H1 & H2 & H3 & H4 & H5) Hl. destruct (close_head l w Hl) as (c & v & Ev & Hc).
      destruct (H4 (p + 1 + length (gap i)) (space i) c v st H5 Hc) as (s & T & E & L & Q).
      exists s, (Node R_Comma p (p + 1) [comma i] [], T). unfold str, char in *. rewrite Ev. split; [|split].
      - apply ok_restore, ok_seq. unfold elem_text. rewrite <- app_comm_cons, <- !app_assoc.
        apply (ok_then U _ _ _ _ _ (mkPs (p + 1 + length (gap i)) (body i ++ space i ++ c :: v) st) [_] _ [T]); [|exact E].
        eapply ok_then1; [apply ok_Comma; exact H1|]. apply skip_spacing; [exact H2|]. apply front_solid. exact H3.
      - eapply lands_pos; [exact L|]. unfold elem_text. lens.
      - split; [reflexivity|exact Q].
    Qed.
    Lemma ok_sep_rep : forall l s q w st, Forall good_elem l -> lands s q (elems_text l ++ trail_text t ++ close :: w) st -> exists s' L,
      ev (ERep sep) NonAtomic false s (POk s' (trees L)) /\ lands s' (q + length (elems_text l)) (trail_text t ++ close :: w) st /\
      Forall2 elem_trees l L.
    Proof.
      induction l as [|i l IH]; intros s q w st Hl Hs.
      - exists s, []. cbn [elems_text map concat app length] in *. rewrite Nat.add_0_r. split; [|split; [exact Hs|constructor]].
        apply no_rep. destruct (close_head [] w Hl) as (c & v & Ev & Hc). eapply er_seq2; [apply (skip_lands s q _ st Hs)| |].
        + cbn [elems_text map concat app] in Ev. unfold str, char in *. rewrite Ev. apply ends_solid. exact Hc.
        + apply er_sep1_close.
        + destruct Hs as (g & _ & _ & G & _). symmetry. exact G.
      - pose proof (Forall_inv Hl) as Hi. pose proof (Forall_inv_tail Hl) as Hl'.
        change (elems_text (i :: l)) with (elem_text i ++ elems_text l) in *. rewrite <- app_assoc in Hs.
        destruct (ok_sep1 i l q w st Hi Hl') as (s1 & T & E1 & L1 & Q1).
        destruct (IH s1 (q + length (elem_text i)) w st Hl' L1) as (s2 & L & E2 & L2 & Q2).
        exists s2, (T :: L). split; [|split].
        + apply (ok_rep U sep NonAtomic false s s1 [fst T; snd T]); [|exact E2].
          apply ok_seq. eapply ok_then0; [apply (skip_lands s q _ st Hs)|exact E1]. apply ends_solid. apply comma_ends. apply Hi.
        + rewrite app_length, Nat.add_assoc. exact L2.
        + constructor; assumption.
    Qed.
    Lemma ok_seps : forall l p w st, Forall good_elem l -> exists s L,
      ev seps NonAtomic false (mkPs p (elems_text l ++ trail_text t ++ close :: w) st) (POk s (trees L)) /\
      lands s (p + length (elems_text l)) (trail_text t ++ close :: w) st /\ Forall2 elem_trees l L.
    Proof.
      intros [|i l] p w st Hl.
      - eexists. exists []. split; [|split; [cbn [elems_text map concat app length]; rewrite Nat.add_0_r; apply lands_here|constructor]].
        apply ok_seq, no_opt, er_then, er_sep1_close.
      - pose proof (Forall_inv Hl) as Hi. pose proof (Forall_inv_tail Hl) as Hl'.
        change (elems_text (i :: l)) with (elem_text i ++ elems_text l). rewrite <- app_assoc.
        destruct (ok_sep1 i l p w st Hi Hl') as (s1 & T & E1 & L1 & Q1).
        destruct (ok_sep_rep l s1 (p + length (elem_text i)) w st Hl' L1) as (s2 & L & E2 & L2 & Q2).
        exists s2, (T :: L). split; [|split].
        + apply ok_seq, ok_opt. apply (ok_then U _ _ _ _ _ s1 [fst T; snd T] s2 (trees L)); assumption.
        + rewrite app_length, Nat.add_assoc. exact L2.
        + constructor; assumption.
    Qed.
    Definition enclosed (h : pexp rule) : pexp rule :=
      EThen (EThen (EThen (EThen (EThen (EThen h ESkip) seps) ESkip) (EOpt (ECall R_Comma))) ESkip) (EStr [close]).
    Lemma ok_enclosed : forall h s0 s1 ts q l w st,
      ev h NonAtomic false s0 (POk s1 ts) -> lands s1 q (elems_text l ++ trail_text t ++ close :: w) st -> Forall good_elem l -> exists L tt,
      ev (enclosed h) NonAtomic false s0 (POk (mkPs (q + length (elems_text l) + length (trail_text t) + 1) w st) (ts ++ trees L ++ tt)) /\
      Forall2 elem_trees l L /\ Forall (fun T => t_rule T = R_Comma) tt.
    Proof.
      intros h s0 s1 ts q l w st Hh Hs Hl. destruct (ok_seps l q w st Hl) as (s2 & L & E2 & L2 & Q2).
      assert (X : exists tt, ev (EThen (EThen (EThen h ESkip) seps) ESkip) NonAtomic false s0
          (POk (mkPs (q + length (elems_text l)) (trail_text t ++ close :: w) st) (ts ++ trees L)) /\
        ev (EOpt (ECall R_Comma)) NonAtomic false (mkPs (q + length (elems_text l)) (trail_text t ++ close :: w) st)
          (POk (mkPs (q + length (elems_text l) + (match t with Some _ => 1 | None => 0 end)) (match t with Some (_, g) => g | None => [] end ++ close :: w) st) tt) /\
        Forall (fun T => t_rule T = R_Comma) tt).
      { assert (E3 : ev (EThen (EThen (EThen h ESkip) seps) ESkip) NonAtomic false s0
          (POk (mkPs (q + length (elems_text l)) (trail_text t ++ close :: w) st) (ts ++ trees L))).
        { eapply ok_then1.
          - eapply ok_then; [|exact E2]. eapply ok_then1; [exact Hh|]. apply skip_lands; [exact Hs|].
            destruct (close_head l w Hl) as (c & v & Ev & Hc). unfold str, char in *. rewrite Ev. apply ends_solid. exact Hc.
          - apply skip_lands; [exact L2|]. destruct (close_head [] w (Forall_nil _)) as (c & v & Ev & Hc).
            cbn [elems_text map concat app] in Ev. unfold str, char in *. rewrite Ev. apply ends_solid. exact Hc. }
        destruct t as [[c g]|]; cbn [trail_text app] in *.
        - eexists. split; [exact E3|]. split; [apply ok_opt, ok_Comma; apply Ht|]. repeat constructor.
        - exists []. split; [exact E3|]. split; [|constructor]. rewrite Nat.add_0_r. apply no_opt, er_Comma. exact close_comma. }
      destruct X as (tt & E3 & E4 & T4). exists L, tt. split; [|split; assumption].
      rewrite app_assoc. eapply ok_then1.
      - eapply ok_then1; [eapply ok_then; [exact E3|exact E4]|]. apply skip_spacing.
        + destruct t as [[c g]|]; [apply Ht|reflexivity].
        + apply ends_solid, close_ends.
      - eapply ok_pos; [apply (ev_str U grammar skip_body [close])|]. destruct t as [[c g]|]; cbn [trail_text]; lens.
    Qed.
  End Seps.
End Group.
