(** Operands written side by side. *)
From Verif Require Import Base Ast SmError Peg Grammar Build SpecAst SpecClimb SpecSyntax SpecText.
From Verif Require Import ProofAst ProofPeg ProofPegShift ProofSym ProofGrammar ProofBuild ProofPos ProofSpace ProofLex ProofToken ProofNode ProofAtom ProofTerm ProofExpr ProofGroup ProofCall ProofArgs ProofString ProofMark ProofSlice ProofText ProofStatement ProofComment ProofKeyword ProofSource ProofSyntax ProofManual.
From Verif Require Import SpecSource SpecJuxta.
Local Open Scope nat_scope.
Local Open Scope outcome_scope.

Section Juxta.
  Variable U : unicode.
  Notation ev := (ev U grammar skip_body).
  Hypothesis HU : sane U.

  (** ** Operands *)
  Definition wstop (w : str) : bool := head_is (begins U) (drop_inline w).
  Lemma begins_quiet : forall c, begins U c = true ->
    ((c =? 33) || (c =? 63) || (c =? 39))%N = false /\ (c =? 91)%N = false /\ (c =? 34)%N = false /\ (c =? 40)%N = false /\ white_space c = false /\
    infix_head c = false /\ semi c = false.
  Proof.
    intros c H. assert (N : forall d, digit d = false -> word_head U d = false -> mark d = false -> c <> d).
    { intros d H1 H2 H3 ->. unfold begins in H. rewrite H1, H2, H3 in H. discriminate. }
    assert (Q : forall d, digit d = false -> word_head U d = false -> mark d = false -> (c =? d)%N = false) by (intros; apply N.eqb_neq, N; assumption).
    assert (W : white_space c = false).
    { destruct (white_space c) eqn:W; [|reflexivity]. destruct (white_quiet U HU c W) as (X1 & X2 & _ & _ & _ & X6 & _).
      exfalso. unfold begins, mark in H. cbn [existsb] in H. rewrite X2 in H. assert (D : digit c = false) by (destruct (digit c) eqn:D; [rewrite digit_xid in X1 by exact D; discriminate|reflexivity]).
      rewrite D in H. cbn [orb] in H. repeat (apply orb_prop in H as [H|H]; [apply N.eqb_eq in H; subst c; discriminate|]). discriminate. }
    unfold infix_head, semi. cbn [existsb].
    rewrite !Q by (reflexivity || (apply (sign_quiet U HU); reflexivity)). auto 10.
  Qed.
  Lemma inline_char : forall c, inline_space c = true -> white_space c = true.
  Proof. intros c H. do 2 apply andb_prop in H as [H _]. exact H. Qed.
  Lemma wstop_head : forall w, wstop w = true -> exists c v, w = c :: v /\ (white_space c = true \/ begins U c = true).
  Proof.
    intros [|c v] H; [discriminate|]. exists c, v. split; [reflexivity|]. unfold wstop in H. cbn [drop_inline] in H. destruct (inline_space c) eqn:E; [left; apply inline_char; exact E|right; exact H].
  Qed.
  Lemma wstop_pstop : forall w, wstop w = true -> pstop w = true.
  Proof.
    intros w H. unfold pstop. assert (A : head_is (fun c => (c =? 33) || (c =? 63) || (c =? 39))%N w = false).
    { destruct (wstop_head w H) as (c & v & -> & [W|B]); cbn [head_is]; [apply (white_quiet U HU c W)|apply (begins_quiet c B)]. }
    rewrite A. unfold wstop in H. destruct (drop_inline w) as [|c v]; [reflexivity|]. cbn [head_is] in *. destruct (begins_quiet c H) as (_ & E & _). rewrite N.eqb_sym, E. reflexivity.
  Qed.
  Lemma wstop_called : forall w, wstop w = true -> called w = false.
  Proof. intros w H. unfold wstop, called in *. destruct (drop_inline w) as [|c v]; [reflexivity|]. cbn [head_is] in *. rewrite N.eqb_sym. apply (begins_quiet c H). Qed.
  Lemma wstop_quote : forall w, wstop w = true -> head_is (N.eqb 34) w = false.
  Proof.
    intros w H. destruct (wstop_head w H) as (c & v & -> & [W|B]); cbn [head_is]; rewrite N.eqb_sym; [|apply (begins_quiet c B)].
    apply N.eqb_neq. intros ->. discriminate.
  Qed.
  Lemma called_quote : forall w, called w = true -> head_is (N.eqb 34) w = false.
  Proof.
    intros w H. destruct (lstop_cases U w ltac:(unfold lstop; rewrite H; apply orb_true_r)) as [N|(c & v & -> & [->|W] & _)]; [apply (nstop_no_quote U); exact N|reflexivity|].
    cbn [head_is]. rewrite N.eqb_sym. apply N.eqb_neq. intros ->. discriminate.
  Qed.
  Lemma called_pstop : forall w, called w = true -> pstop w = true.
  Proof.
    intros w H. unfold pstop. rewrite (called_head (N.eqb 91) w eq_refl H).
    destruct (lstop_cases U w ltac:(unfold lstop; rewrite H; apply orb_true_r)) as [N|(c & v & -> & [->|W] & _)]; [|reflexivity|].
    - apply nstop_called in N. congruence.
    - cbn [head_is]. destruct (white_quiet U HU c W) as (_ & _ & _ & _ & _ & _ & _ & X & _). rewrite X. reflexivity.
  Qed.

  Lemma numeral_head : forall x y, numeral x = true -> head_is digit (x ++ y) = true.
  Proof. intros x y H. apply numeral_lead. exact H. Qed.
  Lemma word_not : forall (P : char -> bool) w x, word U w = true -> (forall c, P c = true -> word_head U c = false) -> head_is P (w ++ x) = false.
  Proof.
    intros P w x H K. pose proof (word_word_head U w x H) as W. destruct (w ++ x) as [|c v]; [reflexivity|]. cbn [head_is] in *. apply not_true_iff_false. intro E.
    rewrite (K c E) in W. discriminate.
  Qed.
  Lemma digit_not : forall (P : char -> bool) x, head_is digit x = true -> (forall c, P c = true -> digit c = false) -> head_is P x = false.
  Proof. intros P [|c x] H K; [reflexivity|]. cbn [head_is] in *. apply not_true_iff_false. intro E. rewrite (K c E) in H. discriminate. Qed.
  Lemma product_head : forall k x os, product U k x os -> head_is digit x = true \/ exists w y, word U w = true /\ x = w ++ y.
  Proof.
    assert (F : forall k x o, factor U k x o -> forall y, head_is digit (x ++ y) = true \/ exists w z, word U w = true /\ x ++ y = w ++ z).
    { intros k x o H y. destruct H.
      - right. destruct (part_inv U HU w) as (v & m & -> & Hv & _); [assumption|]. eexists v, _. rewrite <- !app_assoc. auto.
      - left. apply numeral_head. assumption.
      - left. rewrite <- app_assoc. apply numeral_head. assumption.
      - left. reflexivity.
      - right. destruct (part_inv U HU w) as (v & m & -> & Hv & _); [assumption|]. eexists v, _. rewrite <- !app_assoc. auto. }
    intros k x os H. destruct H as [k x o H|k x o g k' y os H].
    - specialize (F k x o H []). rewrite app_nil_r in F. exact F.
    - apply (F k x o H).
  Qed.
  Definition sign_class (P : char -> bool) : Prop := forall c, P c = true -> word_head U c = false /\ digit c = false.
  Lemma class_word : forall P w x, sign_class P -> segment U w = true -> head_is P (w ++ x) = false.
  Proof. intros P w x K H. apply (part_inv U HU) in H as (y & m & -> & H & _). rewrite <- app_assoc. apply word_not; [exact H|]. intros c E. apply (K c E). Qed.
  Lemma class_numeral : forall P x y, sign_class P -> numeral x = true -> head_is P (x ++ y) = false.
  Proof. intros P x y K H. apply digit_not; [apply numeral_head; exact H|]. intros c E. apply (K c E). Qed.
  Lemma class_product : forall P k x os, sign_class P -> product U k x os -> head_is P x = false.
  Proof.
    intros P k x os K H. destruct (product_head k x os H) as [D|(w & y & W & ->)]; [|apply class_word; [exact K|apply (word_part U HU); exact W]].
    apply digit_not; [exact D|]. intros c E. apply (K c E).
  Qed.
  Lemma class_special : forall P x a, sign_class P -> special x a -> head_is P x = false.
  Proof.
    intros P x a K H. assert (L : forall c v, word_head U c = true -> head_is P (c :: v) = false).
    { intros c v L. cbn [head_is]. apply not_true_iff_false. intro E. destruct (K c E) as [S _]. congruence. }
    destruct H; apply L; reflexivity.
  Qed.
  Definition enclosing (c : char) : bool := existsb (N.eqb c) [40; 91; 123; 34]%N.
  Lemma enclosing_class : sign_class enclosing.
  Proof. intros c H. unfold enclosing in H. cbn [existsb] in H. repeat (apply orb_prop in H as [H|H]; [apply N.eqb_eq in H; subst c; (split; [first [reflexivity|apply (sign_quiet U HU); reflexivity]|reflexivity])|]). discriminate. Qed.
  Lemma mark_class : sign_class mark.
  Proof. intros c H. unfold mark in H. cbn [existsb] in H. repeat (apply orb_prop in H as [H|H]; [apply N.eqb_eq in H; subst c; (split; [first [reflexivity|apply (sign_quiet U HU); reflexivity]|reflexivity])|]). discriminate. Qed.

  (** what follows a closed operand does not matter, save a quote after a string *)
  Lemma enclosed_node : forall S x o, (forall w, S w = true -> head_is (N.eqb 34) w = false) -> node U x o -> enclosed x = true -> node_in U S x o.
  Proof.
    intros S x o HS H E. change (head_is enclosing x = true) in E.
    destruct (source_means U HU) as (_ & _ & _ & _ & _ & _ & ME & MD & _ & _ & _ & _ & _ & _ & MX).
    destruct H as [x Hx|x y Hx Hy|b P s Hb Ns Hs|x a Ha|w l Hw Hl Hs|x s Hs|w x s Hw Hc Hs|b x Hx|b k| |w Hw|x Hx| |x Hx|w l n y p Hw Hl Hy|g Hg|g x t Hg Hx Ht|x o Hx|g Hg|g x os t Hg Hx Ht|w l y p ps Hw Hl Hy|k x o o' os Hx Hk].
    - rewrite <- (app_nil_r x) in E. rewrite (class_numeral enclosing) in E by (assumption || apply enclosing_class || (apply (word_part U HU); assumption)). discriminate.
    - rewrite (class_numeral enclosing) in E by (assumption || apply enclosing_class || (apply (word_part U HU); assumption)). discriminate.
    - discriminate.
    - rewrite (class_special enclosing x a) in E by (assumption || apply enclosing_class || (apply (word_part U HU); assumption)). discriminate.
    - rewrite (class_word enclosing) in E by (assumption || apply enclosing_class || (apply (word_part U HU); assumption)). discriminate.
    - destruct (literal_body U x s Hs) as [B _]. apply (node_string U HU [] x s); [left; reflexivity|exact B|exact HS].
    - rewrite (class_word enclosing) in E by (assumption || apply enclosing_class || (apply (word_part U HU); assumption)). discriminate.
    - destruct b; discriminate.
    - destruct b; discriminate.
    - discriminate.
    - discriminate.
    - discriminate.
    - discriminate.
    - discriminate.
    - rewrite (class_word enclosing) in E by (assumption || apply enclosing_class || (apply (word_part U HU); assumption)). discriminate.
    - apply (node_dict_empty U); exact Hg.
    - destruct (MD x Hx) as (x0 & s & l & -> & Fx & Bx & H0 & Hs & Hl). destruct (trailing_trail t Ht) as (t' & Gt & <-).
      pose proof (node_dict U HU g x0 tt s l t' Hg Fx Bx H0 Hs Hl Gt S) as N. unfold dict_text in N. rewrite <- !app_assoc. exact N.
    - destruct (MX x o Hx) as (Mx & _). apply (node_paren U HU); exact Mx.
    - apply (node_empty_list U); exact Hg.
    - destruct (ME x os Hx) as (x0 & o0 & s & l & -> & -> & Fx & H0 & Hs & Hl). destruct (trailing_trail t Ht) as (t' & Gt & <-).
      pose proof (node_list U HU g x0 o0 s l t' Hg Fx H0 Hs Hl Gt S) as N. unfold list_text in N. rewrite <- !app_assoc. rewrite all_oall. exact N.
    - rewrite (class_word enclosing) in E by (assumption || apply enclosing_class || (apply (word_part U HU); assumption)). discriminate.
    - rewrite (class_product enclosing k x _) in E by (eassumption || apply enclosing_class). discriminate.
  Qed.
  Lemma mark_node : forall x o, node U x o -> head_is mark x = true -> node_in U (lstop U) x o.
  Proof.
    intros x o H E.
    destruct H as [x Hx|x y Hx Hy|b P s Hb Ns Hs|x a Ha|w l Hw Hl Hs|x s Hs|w x s Hw Hc Hs|b x Hx|b k| |w Hw|x Hx| |x Hx|w l n y p Hw Hl Hy|g Hg|g x t Hg Hx Ht|x o Hx|g Hg|g x os t Hg Hx Ht|w l y p ps Hw Hl Hy|k x o o' os Hx Hk].
    - rewrite <- (app_nil_r x) in E. rewrite (class_numeral mark) in E by (assumption || apply mark_class || (apply (word_part U HU); assumption)). discriminate.
    - rewrite (class_numeral mark) in E by (assumption || apply mark_class || (apply (word_part U HU); assumption)). discriminate.
    - discriminate.
    - rewrite (class_special mark x a) in E by (assumption || apply mark_class || (apply (word_part U HU); assumption)). discriminate.
    - rewrite (class_word mark) in E by (assumption || apply mark_class || (apply (word_part U HU); assumption)). discriminate.
    - destruct (literal_body U x s Hs) as [_ (v & ->)]. discriminate.
    - rewrite (class_word mark) in E by (assumption || apply mark_class || (apply (word_part U HU); assumption)). discriminate.
    - rewrite reference_eq. apply (node_reference U HU); [destruct b; reflexivity|exact Hx].
    - rewrite reference_eq. apply (node_back U HU). destruct b; reflexivity.
    - apply (node_slot U HU).
    - apply (node_slot_name U HU); exact Hw.
    - apply (node_slot_number U HU); exact Hx.
    - apply (node_slots U HU).
    - apply (node_slots_number U HU); exact Hx.
    - rewrite (class_word mark) in E by (assumption || apply mark_class || (apply (word_part U HU); assumption)). discriminate.
    - discriminate.
    - discriminate.
    - discriminate.
    - discriminate.
    - discriminate.
    - rewrite (class_word mark) in E by (assumption || apply mark_class || (apply (word_part U HU); assumption)). discriminate.
    - rewrite (class_product mark k x _) in E by (eassumption || apply mark_class). discriminate.
  Qed.
  Lemma tagged_node : forall S w x s, (forall w, S w = true -> head_is (N.eqb 34) w = false) -> word U w = true -> constant_like w = false -> literal x s ->
    node_in U S (w ++ x) (Ret (Str s)).
  Proof.
    intros S w x s HS Hw Hc Hs. destruct (literal_body U x s Hs) as [B (v & ->)].
    apply (node_string U HU w _ s); [right; split; [exact Hw|]|exact B|exact HS]. intro z. apply (no_special_app U); [exact Hc|reflexivity].
  Qed.
  Lemma called_lstop : forall w, called w = true -> lstop U w = true.
  Proof. intros w H. unfold lstop. rewrite H. apply orb_true_r. Qed.
  Lemma uncallable_node : forall x o, uncallable U x o -> node_in U called x o /\ node U x o.
  Proof.
    intros x o [x' Hx|x' y Hx Hy|b P s Hb Ns Hs|x' o' H E|w x' s Hw Hc Hs|x' o' H E].
    - split; [|constructor; assumption]. eapply node_weaken; [exact called_lstop|]. apply (integer_in U HU); exact Hx.
    - split; [|constructor; assumption]. eapply node_weaken; [exact called_lstop|]. apply (decimal_in U HU); assumption.
    - split; [|econstructor; eassumption]. eapply node_weaken; [exact called_lstop|]. apply (byte_in U HU b P s); assumption.
    - split; [|exact H]. apply enclosed_node; [exact called_quote|exact H|exact E].
    - split; [|constructor; assumption]. apply tagged_node; [exact called_quote|assumption..].
    - split; [|exact H]. eapply node_weaken; [exact called_lstop|]. apply mark_node; assumption.
  Qed.
  Lemma unfactored_node : forall x o, unfactored U x o -> node_in U wstop x o /\ node U x o.
  Proof.
    destruct (source_means U HU) as (_ & _ & _ & MC & _).
    intros x o [x' o' H E|w x' s Hw Hc Hs|w l y p ps Hw Hl Hy|w l n y p Hw Hl Hy].
    - split; [|exact H]. apply enclosed_node; [exact wstop_quote|exact H|exact E].
    - split; [|constructor; assumption]. apply (tagged_node wstop); [exact wstop_quote|assumption..].
    - split; [|constructor; assumption]. destruct (path_call U HU w l y p ps Hw Hl (MC _ _ Hy)) as (a & k & E1 & E2 & E3 & E4).
      pose proof (node_call U HU (w ++ path_tail l) a k (is_path_intro U HU w l Hw Hl) E3 wstop wstop_called) as N. rewrite E2, E1, app_assoc, all_oall, <- (named_symbol U HU) by assumption. exact N.
    - split; [|econstructor; eassumption]. destruct (MC _ _ Hy) as (k & -> & Ep & Gk & _). destruct k as [|a [|a' k]]; try discriminate. pose proof (Forall_inv Gk) as Ga.
      pose proof (node_derivative U (w ++ path_tail l) n a (is_path_intro U HU w l Hw Hl) Ga) as D. destruct a as [[g x1] q]. cbn [fst snd] in D.
      change (calls_text [((g, x1), q)]) with ((g ++ x1) ++ []). rewrite app_nil_r. rewrite <- app_assoc in D. apply D.
  Qed.

  (** ** The last operand *)
  Section Last.
    Variable L : str -> outcome ast -> Prop.
    Variable Q : str -> Prop.
    Variable S : str -> bool.
    Hypothesis HL : forall x o, L x o -> node_in U S x o /\ node U x o.
    Hypothesis HS : forall w, S w = true -> pstop w = true.
    Hypothesis HQ : forall y w, Q y -> S w = true -> called w = false \/ last_char y <> 39%N.

    Lemma last_term_in : forall x o, last_term U L Q x o -> term_in U S x o /\ front x = true.
    Proof.
      destruct (source_means U HU) as (MN & _ & _ & _ & _ & _ & _ & _ & _ & _ & _ & _ & MS & _ & _).
      intros x o [cs x' o' Hc Hx|cs x' o' y l Hc Hx Hy Ny Hq].
      - destruct (HL x' o' Hx) as [Hn Hx']. destruct (MN x' o' Hx') as [_ [Lx _]]. destruct (head_front U HU x' Lx) as [Fx Px]. split.
        + pose proof (term_whole_in U S S cs x' o' [] Hc Hn Px Logic.I (fun w H => conj H (HS w H))) as T. cbn [posts_text posted] in T. rewrite app_nil_r in T.
          assert (E : (a <- o'; SpecSource.prefix_value cs a) = (b <- o'; c <- Ret b; prefixed cs c)).
          { destruct o'; cbn [obind]; try reflexivity. apply prefix_value_eq. exact Hc. }
          rewrite E. exact T.
        + destruct cs as [|c cs]; cbn [app]; [exact Fx|]. cbn [forallb] in Hc. apply andb_prop in Hc as [Hc _]. apply (prefix_front U HU). exact Hc.
      - destruct (MN x' o' Hx) as [Hn [Lx _]]. destruct (head_front U HU x' Lx) as [Fx Px]. destruct (MS y l Hy) as (ps & -> & F & Ok & _). split.
        + pose proof (term_whole_in U (ProofNode.nstop U) S cs x' o' ps Hc Hn Px Ok) as T.
          assert (E : (a <- o'; b <- SpecSource.suffix_value l a; SpecSource.prefix_value cs b) = (b <- o'; c <- posted ps b; prefixed cs c)).
          { destruct o' as [a|e|]; cbn [obind]; try reflexivity. rewrite (suffix_value_eq l ps F). destruct (posted ps a) as [b|e|]; cbn [obind]; try reflexivity. apply prefix_value_eq. exact Hc. }
          rewrite E. apply T. intros w Hw. split; [|apply HS; exact Hw]. apply (posts_some U HU); [exact Ok| |apply HS; exact Hw|apply HQ; assumption].
          intros ->. apply Ny. reflexivity.
        + destruct cs as [|c cs]; cbn [app]; [apply front_app; exact Fx|]. cbn [forallb] in Hc. apply andb_prop in Hc as [Hc _]. apply (prefix_front U HU). exact Hc.
    Qed.
    Lemma last_rest_in : forall y l, last_rest U L Q y l -> exists is, y = items_text is /\ is <> [] /\ tail_ok U S is /\
      Forall2 is_tok l (flat_map (fun i => [TO (op i) (sign i); TX (ProofExpr.arg i) (value i)]) is).
    Proof.
      destruct (source_means U HU) as (_ & _ & _ & _ & _ & _ & _ & _ & _ & _ & _ & MT & _ & _ & _).
      intros y l H. induction H as [g s g' x o Hg Hs Hg' Hx D D'|g s g' x o y l Hg Hs Hg' Hx D D' H (is & Ey & Ni & Ti & Fi)].
      - destruct (operator_rule s Hs) as [r Hr]. destruct (last_term_in x o Hx) as [Tx Fx]. exists [mkItem g r s g' x o]. split; [|split; [discriminate|split]].
        + change (items_text [mkItem g r s g' x o]) with ((g ++ s ++ g' ++ x) ++ []). rewrite app_nil_r. reflexivity.
        + split; [|exact Logic.I]. unfold last_item. cbn [before op sign after ProofExpr.arg value upto]. auto 12.
        + constructor; [split; [exact Hr|reflexivity]|]. constructor; [reflexivity|constructor].
      - destruct (operator_rule s Hs) as [r Hr]. destruct (MT x o Hx) as (Tx & Fx & _). exists (mkItem g r s g' x o :: is). split; [|split; [discriminate|split]].
        + subst y. change (items_text (mkItem g r s g' x o :: is)) with ((g ++ s ++ g' ++ x) ++ items_text is). rewrite <- !app_assoc. reflexivity.
        + split; [|exact Ti]. destruct is as [|i is]; [congruence|]. unfold last_item. cbn [before op sign after ProofExpr.arg value upto]. auto 12.
        + cbn [flat_map op sign ProofExpr.arg value app]. constructor; [split; [exact Hr|reflexivity]|]. constructor; [reflexivity|exact Fi].
    Qed.
    Lemma tail_app : forall l r, Forall (good_item U) l -> r <> [] -> tail_ok U S r -> tail_ok U S (l ++ r).
    Proof.
      induction l as [|i l IH]; intros r H N T; [exact T|]. inversion H; subst. cbn [app tail_ok]. split; [|apply IH; assumption].
      destruct (l ++ r) eqn:E; [|assumption]. apply app_eq_nil in E as [_ E]. congruence.
    Qed.
    Lemma ends_in_means : forall x o, ends_in U L Q x o -> expr_in U S x o /\ front x = true.
    Proof.
      destruct (source_means U HU) as (_ & _ & _ & _ & _ & _ & _ & _ & _ & _ & _ & MT & _ & MR & _).
      intros x o [x' o' H|x' o' y l b Hx Hy Kl Wb Bb|x' o' y l z m b Hx Hy Kl Hz Cm Wb Bb].
      - destruct (last_term_in x' o' H) as [T F]. split; [|exact F].
        pose proof (expr_chain_in U HU S x' o' [] [] (Leaf (TX x' o')) F T Logic.I (Forall_nil _) Logic.I eq_refl (wb_leaf _ _ _)) as X.
        cbn [app items_text map concat] in X. rewrite app_nil_r in X. exact X.
      - destruct (MT x' o' Hx) as (Tx & Fx & _). split; [|apply front_app; exact Fx]. destruct (last_rest_in y l Hy) as (is & -> & Ni & Ti & Fi).
        destruct (c_bracket x' o' l is b Fi Kl Wb Bb) as (b' & -> & Eb & Bb' & Mi).
        pose proof (expr_chain_in U HU S x' o' is [] b' Fx) as X. rewrite app_nil_r in X. apply X; try assumption; try exact Logic.I. destruct is; [congruence|exact Tx].
      - destruct (MT x' o' Hx) as (Tx & Fx & _). split; [|apply front_app; exact Fx]. destruct (MR y l Hy) as (is & -> & Gi & Fi & _). destruct (last_rest_in z m Hz) as (js & -> & Nj & Tj & Fj).
        destruct (c_bracket x' o' l is b Fi Kl Wb Bb) as (b' & -> & Eb & Bb' & Mi).
        assert (Ei : items_text is ++ items_text js = items_text (is ++ js)) by (unfold items_text; rewrite map_app, concat_app; reflexivity).
        unfold str, char in *. rewrite Ei. apply expr_chain_in with (o0 := o'); try assumption.
        + destruct (is ++ js) eqn:E; [apply app_eq_nil in E as [_ E]; congruence|exact Tx].
        + apply tail_app; assumption.
        + destruct js as [|j js]; [exact Logic.I|]. cbn [flat_map app] in Fj. inversion Fj as [|t k m' ts Ft _]; subst. cbn [SpecSource.cut] in Cm. intro M.
          rewrite (proj2 (is_tok_known _ _ Ft) M) in Cm. discriminate.
    Qed.
  End Last.

  (** ** Texts *)
  Lemma statement_in : forall S x o p ws w st, plain_start (x ++ ws ++ w) = true -> expr_in U S x o -> stop_in U S ws w -> head_is semi w = false ->
    exists T, ev (ECall R_statement) NonAtomic false (mkPs p (x ++ ws ++ w) st) (POk (mkPs (p + length x + length ws) w st) [T]) /\ value_of T o.
  Proof.
    intros S x o p ws w st HP Hx Hw Hs. destruct (expr_skip_in U S _ _ p ws w st Hx Hw) as (T & E & R & M).
    exists (Node R_expression p (p + length (x ++ ws)) (x ++ ws) [T]). split.
    - apply statement_alt; [exact HP|]. apply ok_restore, ev_call. cbn [grammar].
      pose proof (ok_then1 U _ (EOpt (ECall R_eos)) _ _ _ _ _ _ E (no_opt U _ _ _ _ (er_eos U _ _ _ _ _ Hs))) as E1. apply ok_seq in E1.
      replace (x ++ ws ++ w) with ((x ++ ws) ++ w) in * by (rewrite app_assoc; reflexivity).
      assert (L : p + length x + length ws = p + length (x ++ ws)) by (unfold str, char in *; rewrite app_length; lia).
      rewrite L in E1 |- *. apply (ok_rule U R_expression _ NonAtomic p (x ++ ws) w st st [T]) in E1. exact E1.
    - eapply expression_value; [reflexivity|reflexivity|exact R|left; reflexivity|exact M].
  Qed.
  Lemma text_stop_in : forall S g x o ws w, spacing g = true -> expr_in U S x o -> front x = true -> plain_start (x ++ ws ++ w) = true -> stop_in U S ws w -> head_is semi w = false ->
    denotes_or_refused U (g ++ x ++ ws ++ w) o.
  Proof.
    intros S g x o ws w Hg M F Hp Hs Hc. apply refused_skip; [exact Hg|].
    destruct (statement_in S x o 0 ws w [] Hp M Hs Hc) as (T & E1 & V).
    destruct (program_first U _ _ _ (front_solid _ _ F) E1) as [(s & t & P)|(s & more & P)].
    - left. intros f. unfold parse. rewrite P. reflexivity.
    - right. eapply denotes_pairs; [exact V|exact P].
  Qed.
  Lemma text_then_in : forall S g x o ws w, spacing g = true -> expr_in U S x o -> front x = true -> plain_start (x ++ ws ++ w) = true -> stop_in U S ws w -> head_is semi w = false ->
    statements U w -> denotes U (g ++ x ++ ws ++ w) o.
  Proof.
    intros S g x o ws w Hg M F Hp Hs Hc Hw. apply denotes_skip; [exact Hg|].
    destruct (statement_in S x o 0 ws w [] Hp M Hs Hc) as (T & E1 & V).
    destruct (program_more U _ _ _ _ (front_solid _ _ F) (statements_more U HU w Hw) E1) as (s & E & P). eapply denotes_pairs; [exact V|exact P].
  Qed.

  Lemma called_stop : forall h w, inline h = true -> stop_in U called h (40%N :: w).
  Proof.
    intros h w H. split; [apply spacing_gone; [apply ProofSource.inline_white; exact H|reflexivity]|]. split; [|split; [reflexivity|apply blocked_head; reflexivity]].
    unfold called. rewrite drop_inline_app by exact H. reflexivity.
  Qed.
  Lemma begins_stop : forall h c w, inline h = true -> begins U c = true -> stop_in U wstop h (c :: w).
  Proof.
    intros h c w H B. destruct (begins_quiet c B) as (B1 & B2 & B3 & B4 & B5 & B6 & B7).
    assert (Hs : solid (c :: w) = true).
    { unfold solid. cbn [head_is]. rewrite B5. unfold infix_head in B6. cbn [existsb] in B6.
      repeat match goal with H : (_ || _)%bool = false |- _ => apply orb_false_iff in H as [? H] end.
      change (lit "//") with [47; 47]%N. change (lit "%%%") with [37; 37; 37]%N. rewrite !strip_other by assumption. reflexivity. }
    split; [apply spacing_gone; [apply ProofSource.inline_white; exact H|exact Hs]|]. split; [|split; [exact Hs|apply blocked_head; exact B6]].
    unfold wstop. rewrite drop_inline_app by exact H. cbn [drop_inline]. destruct (inline_space c) eqn:E; [apply inline_char in E; congruence|exact B].
  Qed.

  Lemma not_callable_means : forall x o, not_callable U x o -> expr_in U called x o /\ front x = true.
  Proof. intros x o. apply ends_in_means; [exact uncallable_node|exact called_pstop|]. intros y w Hy _. right. exact Hy. Qed.
  Lemma not_a_factor_means : forall x o, not_a_factor U x o -> expr_in U wstop x o /\ front x = true.
  Proof. intros x o. apply ends_in_means; [exact unfactored_node|exact wstop_pstop|]. intros y w _ Hw. left. apply wstop_called. exact Hw. Qed.
  Lemma beside_parenthesis : forall g x o h w, spacing g = true -> not_callable U x o -> inline h = true -> plain_start (x ++ h ++ lit "(" ++ w) = true ->
    denotes_or_refused U (g ++ x ++ h ++ lit "(" ++ w) o /\ (statements U (lit "(" ++ w) -> denotes U (g ++ x ++ h ++ lit "(" ++ w) o).
  Proof.
    intros g x o h w Hg Hx Hh Hp. destruct (not_callable_means x o Hx) as [M F]. split.
    - eapply text_stop_in; try eassumption; [apply called_stop; exact Hh|reflexivity].
    - intro Hw. eapply text_then_in; try eassumption; [apply called_stop; exact Hh|reflexivity].
  Qed.
  Lemma beside_word : forall g x o h c w, spacing g = true -> not_a_factor U x o -> inline h = true -> begins U c = true -> plain_start (x ++ h ++ c :: w) = true ->
    denotes_or_refused U (g ++ x ++ h ++ c :: w) o /\ (statements U (c :: w) -> denotes U (g ++ x ++ h ++ c :: w) o).
  Proof.
    intros g x o h c w Hg Hx Hh B Hp. destruct (not_a_factor_means x o Hx) as [M F]. split.
    - eapply text_stop_in; try eassumption; [apply begins_stop; assumption|apply (begins_quiet c B)].
    - intro Hw. eapply text_then_in; try eassumption; [apply begins_stop; assumption|apply (begins_quiet c B)].
  Qed.

  (** ** After any expression *)
  Lemma tstop_apart : forall d ws c w, spacing (d :: ws) = true -> joins U c = false -> (c =? 91)%N = false -> inline_space c = false -> tstop U ((d :: ws) ++ c :: w) = true.
  Proof.
    intros d ws c w V J B I. destruct (spacing_quiet U HU d ws V) as (X1 & X2 & X3 & X4 & X5 & X6 & X7 & X8 & X9).
    destruct (joins_inline U) as [J1 [J2 J3]].
    assert (A : forall P, P 10%N = false -> P 13%N = false -> P 47%N = false -> P c = false -> head_is P (drop_inline ((d :: ws) ++ c :: w)) = false).
    { intros P P1 P2 P3 P4. apply drop_inline_white; try assumption. cbn [drop_inline]. rewrite I. exact P4. }
    unfold tstop, ProofNode.nstop. rewrite (A (joins U) J1 J2 J3 J), (A (N.eqb 91) eq_refl eq_refl eq_refl) by (rewrite N.eqb_sym; exact B).
    unfold sym_stop, path_more. cbn [app head_is]. change (lit "::") with [58; 58]%N. rewrite !strip_other by assumption.
    cbn [dot_digit]. rewrite X1, X5, X6, X8, no_primes by (apply orb_false_iff in X8; apply X8). reflexivity.
  Qed.
  Lemma sign_stop : forall ws c w, spacing ws = true -> In c [123; 172]%N \/ In c [34; 35; 182; 8267]%N /\ ws <> [] -> expr_stop U ws (c :: w).
  Proof.
    intros ws c w H C. assert (S : solid (c :: w) = true /\ infix_head c = false).
    { cbn [In] in C. decompose [and or] C; try contradiction; subst c; split; reflexivity. }
    destruct S as [S B]. split; [apply spacing_gone; assumption|]. split; [|split; [exact S|apply blocked_head; exact B]].
    destruct C as [C|[C N]].
    - apply (tstop_white U HU); [exact H|]. destruct C as [<-|[<-|[]]]; [reflexivity|apply (tstop_sign U HU); reflexivity].
    - destruct ws as [|d ws]; [congruence|].
      assert (K : joins U c = false /\ (c =? 91)%N = false /\ inline_space c = false).
      { assert (W : word_head U c = false) by (cbn [In] in C; decompose [or] C; try contradiction; subst c; first [reflexivity|apply (sign_quiet U HU); reflexivity]).
        unfold joins. rewrite W. cbn [In] in C. decompose [or] C; try contradiction; subst c; repeat split; reflexivity. }
      apply tstop_apart; tauto.
  Qed.
  Lemma beside_sign : forall g x o h c w, spacing g = true -> expr U x o -> plain_start x = true -> spacing h = true ->
    In c [123; 172]%N \/ In c [34; 35; 182; 8267]%N /\ h <> [] ->
    denotes_or_refused U (g ++ x ++ h ++ c :: w) o /\ (statements U (c :: w) -> denotes U (g ++ x ++ h ++ c :: w) o).
  Proof.
    intros g x o h c w Hg Hx Hp Hh C.
    assert (Sc : semi c = false) by (cbn [In] in C; decompose [and or] C; try contradiction; subst c; reflexivity).
    split; [|intro Hw]; [apply (text_stop U HU)|apply (text_then U HU)]; try assumption; apply sign_stop; assumption.
  Qed.
End Juxta.
