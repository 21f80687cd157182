(** The parser follows the reference syntax. *)
From Verif Require Import Base Ast Display SmError Peg Grammar Climber Build SpecAst SpecPeg SpecClimb SpecParse SpecSyntax SpecText.
From Verif Require Import ProofAst ProofDisplay ProofPeg ProofPegShift ProofSym ProofGrammar ProofClimber ProofBuild ProofPos ProofSpace ProofLex ProofToken ProofNode ProofAtom ProofString ProofTerm ProofExpr ProofGroup ProofCall ProofArgs ProofSlice ProofProduct ProofMark ProofText ProofStatement ProofComment.
From Verif Require SpecSource.
Local Open Scope nat_scope.
Local Open Scope outcome_scope.

(** ** Meanings *)
Lemma all_oall : forall V (l : list (outcome V)), SpecSource.all l = oall l.
Proof. intros V l. induction l as [|o l IH]; [reflexivity|]. cbn [SpecSource.all]. rewrite IH. reflexivity. Qed.
(** the induction principle of the reference syntax *)
Scheme node_mut := Minimality for SpecSource.node Sort Prop
  with factor_mut := Minimality for SpecSource.factor Sort Prop
  with product_mut := Minimality for SpecSource.product Sort Prop
  with calls_mut := Minimality for SpecSource.calls Sort Prop
  with args_mut := Minimality for SpecSource.args Sort Prop
  with argument_mut := Minimality for SpecSource.argument Sort Prop
  with elements_mut := Minimality for SpecSource.elements Sort Prop
  with entries_mut := Minimality for SpecSource.entries Sort Prop
  with indices_mut := Minimality for SpecSource.indices Sort Prop
  with index_mut := Minimality for SpecSource.index Sort Prop
  with bound_mut := Minimality for SpecSource.bound Sort Prop
  with term_mut := Minimality for SpecSource.term Sort Prop
  with suffixes_mut := Minimality for SpecSource.suffixes Sort Prop
  with rest_mut := Minimality for SpecSource.rest Sort Prop
  with expr_mut := Minimality for SpecSource.expr Sort Prop.
Combined Scheme source_mut from node_mut, factor_mut, product_mut, calls_mut, args_mut, argument_mut, elements_mut, entries_mut, indices_mut, index_mut, bound_mut, term_mut, suffixes_mut, rest_mut, expr_mut.

Section Source.
  Variable U : unicode.
  Hypothesis HU : sane U.
  Notation ev := (ev U grammar skip_body).
  Notation expr_means := (expr_means U).
  Notation node_means := (node_means U).
  Notation term_means := (term_means U).
  Notation kv_free := (kv_free U).
  Notation kv_means := (kv_means U).

  (** ** Names *)
  Lemma xid_no_colon : forall x, forallb (xid_continue U) x = true -> ~ In 58%N x.
  Proof. intros x H I. rewrite forallb_forall in H. specialize (H _ I). discriminate. Qed.
  Lemma word_no_colon : forall x, word U x = true -> ~ In 58%N x.
  Proof.
    intros [|c x] H; [discriminate|]. cbn [word] in H. intros [->|I]; [discriminate|].
    apply orb_prop in H as [H|H]; apply andb_prop in H as [_ H]; [|destruct x; [discriminate|]]; revert I; apply xid_no_colon; exact H.
  Qed.
  Lemma cut_join : forall c s, exists y l, cut_at c s = y :: l /\ s = y ++ flat_map (fun x => c :: x) l.
  Proof.
    intros c. induction s as [|d s IH]; [exists [], []; auto|]. destruct IH as (y & l & E & ->). cbn [cut_at]. rewrite E.
    destruct (d =? c)%N eqn:D.
    - apply N.eqb_eq in D. subst d. exists [], (y :: l). auto.
    - exists (d :: y), l. auto.
  Qed.
  Lemma part_inv : forall w, segment U w = true -> exists y m, w = y ++ steps_tail m /\ word U y = true /\ forallb (good_step U) m = true /\ Forall (fun p => fst p = true) m.
  Proof.
    intros w H. unfold segment in H. destruct (cut_join 8759%N w) as (y & l & E & ->). rewrite E in H. cbn [forallb] in H. apply andb_prop in H as [Hy Hl].
    exists y, (map (pair true) l). split; [f_equal|split; [exact Hy|split]].
    - clear. induction l as [|x l IH]; [reflexivity|]. cbn [flat_map map steps_tail]. rewrite IH. reflexivity.
    - rewrite forallb_forall in *. intros p I. apply in_map_iff in I as (x & <- & I). unfold good_step. cbn [fst snd]. rewrite (Hl x I).
      destruct (HU 8759%N eq_refl) as [_ ->]. reflexivity.
    - apply Forall_forall. intros p I. apply in_map_iff in I as (x & <- & _). reflexivity.
  Qed.
  Lemma part_no_colon : forall w, segment U w = true -> ~ In 58%N w.
  Proof.
    intros w H. apply part_inv in H as (y & m & -> & Hy & Hm & Ht). intro I. apply in_app_iff in I as [I|I]; [exact (word_no_colon y Hy I)|].
    revert Hm Ht I. induction m as [|[b x] m IH]; intros Hm Ht I; [exact I|]. inversion Ht as [|? ? Hb Ht']; subst. cbn [fst] in Hb. subst b.
    cbn [forallb] in Hm. apply andb_prop in Hm as [Hx Hm]. apply andb_prop in Hx as [Hx _]. cbn [snd] in Hx.
    cbn [steps_tail app] in I. destruct I as [I|I]; [discriminate|]. apply in_app_iff in I as [I|I]; [exact (word_no_colon x Hx I)|auto].
  Qed.
  Lemma word_part : forall w, word U w = true -> segment U w = true.
  Proof.
    intros w H. unfold segment. assert (E : cut_at 8759%N w = [w]).
    { assert (N : ~ In 8759%N w).
      { destruct (HU 8759%N eq_refl) as [S C]. destruct w as [|c w]; [discriminate|]. cbn [word] in H. intros [->|I]; [rewrite S in H; discriminate|].
        assert (F : forallb (xid_continue U) w = true) by (apply orb_prop in H as [H|H]; apply andb_prop in H as [_ H]; [exact H|destruct w; [discriminate|exact H]]).
        rewrite forallb_forall in F. rewrite (F _ I) in C. discriminate. }
      clear H. induction w as [|c w IH]; [reflexivity|]. cbn [cut_at]. rewrite IH by (intro I; apply N; right; exact I).
      destruct (c =? 8759)%N eqn:D; [|reflexivity]. apply N.eqb_eq in D. subst c. destruct N. left. reflexivity. }
    rewrite E. cbn [forallb]. rewrite H. reflexivity.
  Qed.
  Lemma split_path : forall l w, segment U w = true -> forallb (segment U) l = true -> split_colons (w ++ path_tail l) [] = w :: l.
  Proof.
    induction l as [|x l IH]; intros w Hw Hl; cbn [path_tail].
    - rewrite split_colons_no_colon by (apply part_no_colon; exact Hw). cbn [split_colons]. rewrite app_nil_r, rev_involutive. reflexivity.
    - cbn [forallb] in Hl. apply andb_prop in Hl as [Hx Hl]. rewrite split_colons_no_colon by (apply part_no_colon; exact Hw).
      change (lit "::" ++ x ++ path_tail l) with (58%N :: 58%N :: x ++ path_tail l). cbn [split_colons]. rewrite app_nil_r, rev_involutive, IH by assumption. reflexivity.
  Qed.
  Lemma named_symbol : forall w l, segment U w = true -> forallb (segment U) l = true -> symbol_from (w ++ path_tail l) = SpecSource.named w l.
  Proof. intros w l Hw Hl. unfold symbol_from. rewrite split_path by assumption. reflexivity. Qed.
  Lemma named_ast : forall w l, segment U w = true -> forallb (segment U) l = true -> ast_symbol (w ++ path_tail l) = Sym (SpecSource.named w l).
  Proof. intros. unfold ast_symbol. rewrite named_symbol by assumption. reflexivity. Qed.
  Lemma is_path_intro : forall w l, segment U w = true -> forallb (segment U) l = true -> is_path U (w ++ path_tail l).
  Proof.
    intros w l H1 H2. assert (T : forall l, forallb (segment U) l = true -> exists m, path_tail l = steps_tail m /\ forallb (good_step U) m = true).
    { clear - HU. induction l as [|x l IH]; intros H; [exists []; auto|]. cbn [forallb] in H. apply andb_prop in H as [Hx Hl]. destruct (IH Hl) as (m & E & Hm).
      apply part_inv in Hx as (y & n & -> & Hy & Hn & _). exists ((false, y) :: n ++ m). split.
      - cbn [path_tail steps_tail]. rewrite E. rewrite <- app_assoc. f_equal. f_equal. clear. induction n as [|[b x] n IH]; [reflexivity|]. cbn [app steps_tail]. rewrite <- IH, <- !app_assoc. reflexivity.
      - cbn [forallb]. rewrite forallb_app, Hn, Hm. unfold good_step. cbn [fst snd]. rewrite Hy. reflexivity. }
    apply part_inv in H1 as (y & n & -> & Hy & Hn & _). destruct (T l H2) as (m & E & Hm). exists y, (n ++ m). split; [|split; [exact Hy|rewrite forallb_app, Hn, Hm; reflexivity]].
    rewrite E, <- app_assoc. f_equal. clear. induction n as [|[b x] n IH]; [reflexivity|]. cbn [app steps_tail]. rewrite <- IH, <- !app_assoc. reflexivity.
  Qed.

  Lemma strip_extend : forall k x w, strip_prefix k x = None -> forallb ascii_letter k = true -> head_is (xid_continue U) w = false -> strip_prefix k (x ++ w) = None.
  Proof.
    induction k as [|a k IH]; intros x w H Hk Hw; [discriminate|]. cbn [forallb] in Hk. apply andb_prop in Hk as [Ha Hk].
    destruct x as [|c x]; cbn [app].
    - destruct w as [|d w]; [reflexivity|]. apply strip_head. intros ->. cbn [head_is] in Hw. rewrite letter_xid in Hw by exact Ha. discriminate.
    - cbn [strip_prefix] in *. destruct (a =? c)%N; [|reflexivity]. apply IH; assumption.
  Qed.
  Lemma no_special_app : forall x w, SpecSource.constant_like x = false -> head_is (xid_continue U) w = false -> no_special (x ++ w) = true.
  Proof.
    intros x w H X. unfold SpecSource.constant_like in H. cbn [existsb] in H. apply orb_false_iff in H as [H1 H]. apply orb_false_iff in H as [H2 H]. apply orb_false_iff in H as [H3 _].
    unfold starts_with in *. unfold no_special.
    destruct (strip_prefix (lit "null") x) eqn:E1; [discriminate|]. destruct (strip_prefix (lit "true") x) eqn:E2; [discriminate|]. destruct (strip_prefix (lit "false") x) eqn:E3; [discriminate|].
    rewrite !strip_extend by (try assumption; reflexivity). reflexivity.
  Qed.

  (** ** How texts start and go on *)
  Definition lead (c : char) : bool := digit c || word_head U c || existsb (N.eqb c) [34; 40; 91; 35; 123; 182; 8267]%N.
  Lemma lead_front : forall c x, lead c = true -> front (c :: x) = true /\ prefix_char c = false.
  Proof.
    intros c x H. unfold lead in H. apply orb_prop in H as [H|H]; [apply orb_prop in H as [H|H]|].
    - unfold digit in H. apply andb_prop in H as [H1 H2]. apply N.leb_le in H1, H2.
      assert (N : forall d, (d < 48 \/ 57 < d)%N -> (c =? d)%N = false) by (intros d Hd; apply N.eqb_neq; lia).
      unfold prefix_char, front. rewrite !N by lia. split; [|reflexivity]. destruct (white_space c) eqn:W; [|reflexivity].
      exfalso. destruct (white_quiet U HU c W) as (X & _). rewrite digit_xid in X; [discriminate|]. unfold digit. apply andb_true_intro. split; apply N.leb_le; assumption.
    - assert (N : forall d, word_head U d = false -> (c =? d)%N = false) by (intros d Hd; apply N.eqb_neq; intros ->; congruence).
      assert (W172 : word_head U 172%N = false) by (apply (sign_quiet U HU); reflexivity).
      unfold prefix_char, front. rewrite !N by (first [reflexivity|exact W172]). split; [|reflexivity]. destruct (white_space c) eqn:W; [|reflexivity].
      destruct (white_quiet U HU c W) as (_ & X & _). congruence.
    - cbn [existsb] in H. repeat (apply orb_prop in H as [H|H]; [apply N.eqb_eq in H; subst c; split; reflexivity|]). discriminate.
  Qed.
  Lemma head_front : forall x, head_is lead x = true -> front x = true /\ forall w, head_is prefix_char (x ++ w) = false.
  Proof. intros [|c x] H; [discriminate|]. cbn [head_is] in H. destruct (lead_front c x H) as [F P]. split; [exact F|]. intro w. exact P. Qed.
  Lemma word_lead : forall w x, word U w = true -> head_is lead (w ++ x) = true.
  Proof.
    intros w x H. pose proof (word_word_head U w x H) as W. destruct (w ++ x) as [|c v]; [discriminate|]. cbn [head_is] in *. unfold lead. rewrite W, orb_true_r. reflexivity.
  Qed.
  Lemma numeral_lead : forall x y, numeral x = true -> head_is digit (x ++ y) = true.
  Proof. intros x y H. destruct (numeral_digits x H) as [N D]. apply digit_head; assumption. Qed.
  Lemma digit_lead : forall x, head_is digit x = true -> head_is lead x = true.
  Proof. intros [|c x] H; [discriminate|]. cbn [head_is] in *. unfold lead. rewrite H. reflexivity. Qed.

  (** what may follow an operand, seen from the start of a keyword *)
  Definition goes_on (z : str) : Prop :=
    z = [] \/ exists g v, z = g ++ v /\ spacing g = true /\ v <> [] /\ (forall w, solid (v ++ w) = true) /\ head_is colon_char v = false /\
      head_is (xid_continue U) (g ++ v) = false.
  Lemma head_nonempty : forall P (x y : str), x <> [] -> head_is P (x ++ y) = head_is P x.
  Proof. intros P [|c x] y H; [congruence|reflexivity]. Qed.
  Lemma kv_app : forall x z, kv_free x -> goes_on z -> kv_free (x ++ z).
  Proof.
    intros x z H [->|(g' & v' & -> & Hg' & Nv' & Sv' & Cv' & Xv')]; [rewrite app_nil_r; exact H|].
    destruct H as [[N H]|(y & g & v & -> & Hy & Hg & Hx & Hv)].
    - left. split; [destruct x; discriminate || congruence|]. rewrite head_nonempty by exact N. exact H.
    - right. destruct Hv as [->|[(Nv & Sv & Cv)|(-> & v1 & ->)]].
      + exists y, (g ++ g'), v'. rewrite app_nil_r in *. rewrite <- !app_assoc. split; [reflexivity|]. split; [exact Hy|]. split; [apply spacing_app; assumption|].
        split; [|right; left; auto]. destruct g as [|d g]; [exact Xv'|exact Hx].
      + exists y, g, (v ++ g' ++ v'). rewrite <- !app_assoc. split; [reflexivity|]. split; [exact Hy|]. split; [exact Hg|]. split.
        * rewrite app_assoc. rewrite head_nonempty; [exact Hx|]. destruct g; [exact Nv|discriminate].
        * right. left. split; [destruct v; [congruence|discriminate]|]. split; [intro w; rewrite <- app_assoc; apply Sv|]. rewrite head_nonempty by exact Nv. exact Cv.
      + exists y, [], ((58%N :: 58%N :: v1) ++ g' ++ v'). rewrite <- !app_assoc. split; [reflexivity|]. split; [exact Hy|]. split; [reflexivity|]. split; [reflexivity|].
        right. right. split; [reflexivity|]. eexists. reflexivity.
  Qed.
  Lemma kv_word : forall w, word U w = true -> kv_free w.
  Proof. intros w H. right. exists w, [], []. rewrite !app_nil_r. repeat split; auto. Qed.
  Lemma kv_path : forall w l, segment U w = true -> kv_free (w ++ path_tail l).
  Proof.
    intros w l H. apply part_inv in H as (y & m & -> & Hy & Hm & Ht). destruct m as [|[b x] m].
    - cbn [steps_tail]. rewrite app_nil_r. destruct l as [|x l]; cbn [path_tail]; [rewrite app_nil_r; apply kv_word; exact Hy|]. right. exists y, [], (lit "::" ++ x ++ path_tail l).
      split; [reflexivity|]. split; [exact Hy|]. split; [reflexivity|]. split; [reflexivity|]. right. right. split; [reflexivity|]. eexists. reflexivity.
    - inversion Ht as [|? ? Hb _]; subst. cbn [fst] in Hb. subst b. right. exists y, [], (8759%N :: x ++ steps_tail m ++ path_tail l).
      split; [cbn [steps_tail]; rewrite <- !app_assoc; reflexivity|]. split; [exact Hy|]. split; [reflexivity|].
      split; [cbn [app head_is]; apply (HU 8759%N eq_refl)|]. right. left. split; [discriminate|]. split; [intro w; reflexivity|reflexivity].
  Qed.
  Lemma kv_other : forall x, x <> [] -> head_is (word_head U) x = false -> kv_free x.
  Proof. intros. left. auto. Qed.
  Lemma kv_digit : forall x, head_is digit x = true -> kv_free x.
  Proof. intros x H. apply kv_other; [intros ->; discriminate|]. apply head_digit_word. exact H. Qed.

  (** ** Operators *)
  Lemma operator_rule : forall s, In s (map fst SpecSource.operators ++ SpecSource.ignored) -> exists r, infix_op r s.
  Proof.
    intros s H. cbn in H. repeat (destruct H as [H|H]; [subst s; eexists; constructor|]). contradiction.
  Qed.
  Definition tok_of (k : tok) : SpecSource.token := match k with TX _ o => SpecSource.Operand o | TO _ s => SpecSource.Sign s end.
  Definition is_tok (t : SpecSource.token) (k : tok) : Prop :=
    match k, t with TX _ o, SpecSource.Operand o' => o = o' | TO r s, SpecSource.Sign s' => infix_op r s /\ s = s' | _, _ => False end.
  Lemma is_tok_tables : forall t k, is_tok t k -> SpecSource.token_strength t = tok_strength k /\ SpecSource.token_to_right t = tok_to_right k.
  Proof.
    intros [o|s] [x o'|r s'] H; try contradiction; [split; reflexivity|]. destruct H as [H ->]. destruct H; split; reflexivity.
  Qed.
  Lemma is_tok_known : forall t k, is_tok t k -> SpecSource.known t = true <-> match k with TO r _ => has_meaning r | TX _ _ => True end.
  Proof.
    intros [o|s] [x o'|r s'] H; try contradiction; [tauto|]. destruct H as [H ->]. unfold has_meaning, supported.
    destruct H; vm_compute; intuition discriminate.
  Qed.
  (** the operators of a bracketing are signs, its leaves operands *)
  Fixpoint proper (b : bracketing tok) : Prop :=
    match b with Leaf k => match k with TX _ _ => True | TO _ _ => False end
               | Bin l k r => proper l /\ proper r /\ match k with TO o _ => has_meaning o | TX _ _ => False end end.
  Definition is_sign (k : tok) : bool := match k with TO _ _ => true | TX _ _ => false end.
  Fixpoint alternating (want : bool) (l : list tok) : Prop :=
    match l with [] => True | k :: l' => is_sign k = want /\ alternating (negb want) l' end.
  Lemma written_length : forall (b : bracketing tok), exists n, length (written b) = 2 * n + 1.
  Proof.
    induction b as [k|l [n Hn] k r [m Hm]]; [exists 0; reflexivity|]. exists (n + m + 1). cbn [written]. rewrite app_length. cbn [length]. lia.
  Qed.
  Lemma alternating_app : forall l w m, alternating w (l ++ m) -> alternating w l /\ alternating (if Nat.even (length l) then w else negb w) m.
  Proof.
    induction l as [|k l IH]; intros w m H; [split; [exact Logic.I|exact H]|]. cbn [app alternating] in H. destruct H as [H1 H2].
    destruct (IH _ _ H2) as [H3 H4]. split; [split; assumption|]. cbn [length]. rewrite Nat.even_succ, <- Nat.negb_even.
    destruct (Nat.even (length l)); cbn [negb] in *; [exact H4|]. rewrite negb_involutive in H4. exact H4.
  Qed.
  Lemma even_odd : forall n, Nat.even (2 * n + 1) = false.
  Proof. intro n. rewrite Nat.add_1_r, Nat.even_succ, <- Nat.negb_even. rewrite Nat.even_mul. reflexivity. Qed.
  Lemma proper_written : forall b, alternating false (written b) -> Forall (fun k => match k with TO o _ => has_meaning o | TX _ _ => True end) (written b) -> proper b.
  Proof.
    induction b as [k|l IHl k r IHr]; intros A F; cbn [written proper] in *.
    - destruct A as [A _]. destruct k; [exact Logic.I|discriminate].
    - apply alternating_app in A as [A1 A2]. destruct (written_length l) as [n En]. rewrite En, even_odd in A2. cbn [negb alternating] in A2. destruct A2 as [A2 A3].
      apply Forall_app in F as [F1 F2]. inversion F2 as [|? ? Fk F3]; subst. split; [apply IHl; assumption|]. split; [apply IHr; assumption|].
      destruct k; [discriminate|exact Fk].
  Qed.
  Lemma core_index : symbol_from (lit "std::core::index") = SpecSource.core (lit "index").
  Proof. reflexivity. Qed.
  Lemma is_tok_apply : forall t k a b, is_tok t k -> match k with TO o _ => has_meaning o | TX _ _ => False end ->
    SpecSource.token_apply a t b = tok_apply a k b.
  Proof.
    intros [o|s] [x o'|r s'] a b H M; try contradiction. destruct H as [H ->]. destruct H; try (exfalso; clear - M; vm_compute in M; discriminate); reflexivity.
  Qed.
  Lemma is_tok_evaluate : forall b b', brel is_tok b b' -> proper b' ->
    evaluate SpecSource.token_value SpecSource.token_apply b = evaluate tok_operand tok_apply b'.
  Proof.
    intros b b' H. induction H as [t k H|l l' t k r r' Hl IHl Hk Hr IHr]; intro P; cbn [evaluate proper] in *.
    - destruct k as [x o|]; [|contradiction]. destruct t as [o'|]; [|contradiction]. cbn in H. subst o'. reflexivity.
    - destruct P as (P1 & P2 & P3). rewrite IHl, IHr by assumption. destruct (evaluate tok_operand tok_apply l') as [a|e|]; cbn [obind]; [|reflexivity|reflexivity].
      destruct (evaluate tok_operand tok_apply r') as [c|e|]; cbn [obind]; [|reflexivity|reflexivity]. apply is_tok_apply; assumption.
  Qed.

  (** ** Terms *)
  Lemma prefix_value_eq : forall cs a, forallb prefix_char cs = true -> SpecSource.prefix_value cs a = prefixed cs a.
  Proof.
    induction cs as [|c cs IH]; intros a H; [reflexivity|]. cbn [forallb] in H. apply andb_prop in H as [Hc H].
    cbn [SpecSource.prefix_value prefixed]. rewrite IH by exact H. destruct (prefixed cs a) as [b|e|]; cbn [obind]; [|reflexivity|reflexivity].
    unfold prefix_char in Hc. repeat (apply orb_prop in Hc as [Hc|Hc]); apply N.eqb_eq in Hc; subst c; reflexivity.
  Qed.
  Definition is_suffix (s : SpecSource.suffix) (p : post) : Prop :=
    match s, p with SpecSource.Bang, Fact => True | SpecSource.BangBang, Fact2 => True | SpecSource.At os, Slice _ _ o => o = SpecSource.all os | SpecSource.Unknown, Mark _ => True | _, _ => False end.
  Lemma suffix_value_eq : forall l ps, Forall2 is_suffix l ps -> forall a, SpecSource.suffix_value l a = posted ps a.
  Proof.
    induction 1 as [|s p l ps H _ IH]; intro a; [reflexivity|]. destruct s, p; try contradiction; cbn [SpecSource.suffix_value posted post_text]; try (rewrite IH; reflexivity); try reflexivity.
    cbn in H. subst o. destruct (SpecSource.all os) as [vs|e|]; cbn [obind]; [|reflexivity|reflexivity]. rewrite IH. reflexivity.
  Qed.

  (** ** Argument lists *)
  Lemma trailing_trail : forall t, SpecSource.trailing t -> exists t', good_trail t' /\ trail_text t' = t.
  Proof. intros t [|c g Hc Hg]; [exists None; split; [exact Logic.I|reflexivity]|exists (Some (c, g)); split; [split; assumption|reflexivity]]. Qed.
  Inductive good_keys : list SpecSource.argument_value -> Prop :=
  | gk_nil : good_keys []
  | gk_cons : forall k o l, match k with Some w => word U w = true | None => True end -> good_keys l -> good_keys ((k, o) :: l).
  Lemma gather_eq : forall rs, good_keys rs -> forall args kws,
    gather rs args kws = (vs <- SpecSource.all (map snd rs);
      Ret (args ++ SpecSource.positional (combine (map fst rs) vs),
           fold_left (fun m kv => btree_insert ast_compare (fst kv) (snd kv) m) (SpecSource.keyword (combine (map fst rs) vs)) kws)).
  Proof.
    induction 1 as [|k o l Hk _ IH]; intros args kws; cbn [gather map fst snd SpecSource.all obind combine].
    - unfold SpecSource.positional, SpecSource.keyword. cbn. rewrite app_nil_r. reflexivity.
    - destruct k as [k|], o as [v|e|]; cbn [obind]; try reflexivity; rewrite IH.
      + destruct (SpecSource.all (map snd l)) as [vs|e|]; cbn [obind]; try reflexivity. unfold SpecSource.positional, SpecSource.keyword.
        cbn [combine flat_map fst snd app fold_left]. pose proof (named_ast k [] (word_part k Hk) eq_refl) as E. cbn [path_tail] in E. rewrite app_nil_r in E. rewrite <- E. reflexivity.
      + destruct (SpecSource.all (map snd l)) as [vs|e|]; cbn [obind]; try reflexivity. unfold SpecSource.positional, SpecSource.keyword.
        cbn [combine flat_map fst snd app fold_left]. rewrite <- app_assoc. reflexivity.
  Qed.
  Lemma parameter_eq : forall rs, good_keys rs -> gathered rs = SpecSource.parameter_of rs.
  Proof.
    intros rs H. unfold gathered, SpecSource.parameter_of. rewrite (gather_eq rs H). destruct (SpecSource.all (map snd rs)); reflexivity.
  Qed.

  (** ** Continuations *)
  Lemma op_xid : forall r s w, infix_op r s -> head_is (xid_continue U) (s ++ w) = false /\ head_is colon_char (s ++ w) = false.
  Proof. intros r s w H. destruct H; split; try reflexivity; cbn [app head_is lit]; apply (sign_quiet U HU); reflexivity. Qed.
  Lemma item_goes_on : forall r g s g' x y, spacing g = true -> infix_op r s -> spacing g' = true -> (s = lit "/" -> head_is (N.eqb 47) g' = false) -> front x = true -> goes_on (g ++ s ++ g' ++ x ++ y).
  Proof.
    intros r g s g' x y Hg Hs Hg' Hd Hx. right. exists g, (s ++ g' ++ x ++ y). split; [reflexivity|]. split; [exact Hg|]. destruct (op_xid r s (g' ++ x ++ y) Hs) as [X C].
    split; [destruct (infix_op_len r s Hs) as (c & -> & _); discriminate|]. split.
    - intro w. rewrite <- !app_assoc. apply (op_solid r); assumption.
    - split; [exact C|]. apply (white_xid U HU); assumption.
  Qed.
  Lemma sign_goes_on : forall c z, existsb (N.eqb c) [33; 91; 40; 63; 39; 34]%N = true -> goes_on (c :: z).
  Proof.
    intros c z H. right. exists [], (c :: z). split; [reflexivity|]. split; [reflexivity|]. split; [discriminate|]. cbn [existsb] in H.
    repeat (apply orb_prop in H as [H|H]; [apply N.eqb_eq in H; subst c; repeat split; reflexivity|]). discriminate.
  Qed.
  Lemma goes_on_app : forall x z, goes_on x -> goes_on z -> goes_on (x ++ z).
  Proof.
    intros x z [->|(g & v & -> & Hg & Nv & Sv & Cv & Xv)] Hz; [exact Hz|]. right. exists g, (v ++ z). rewrite <- app_assoc. split; [reflexivity|]. split; [exact Hg|].
    split; [destruct v; [congruence|discriminate]|]. split; [intro w; rewrite <- app_assoc; apply Sv|]. split; [rewrite head_nonempty by exact Nv; exact Cv|].
    rewrite app_assoc, head_nonempty; [exact Xv|]. destruct g; [exact Nv|discriminate].
  Qed.
  (** a word, then white space and a factor or an argument list *)
  Lemma gap_goes_on : forall g v, spacing g = true -> head_is lead v = true -> head_is (xid_continue U) (g ++ v) = false -> goes_on (g ++ v).
  Proof.
    intros g v Hg Hv X. right. exists g, v. split; [reflexivity|]. split; [exact Hg|]. split; [intros ->; discriminate|].
    split; [intro w; apply front_solid, head_front; exact Hv|]. split; [|exact X]. destruct v as [|c v]; [discriminate|]. cbn [head_is] in *.
    unfold colon_char. apply orb_false_iff. split; apply N.eqb_neq; intros ->.
    - discriminate.
    - unfold lead in Hv. rewrite (proj2 (sign_quiet U HU 65306%N eq_refl)) in Hv. discriminate.
  Qed.
  Lemma inline_white : forall g, inline g = true -> spacing g = true.
  Proof.
    intros g H. apply white_spacing. unfold inline, white in *. rewrite forallb_forall in *. intros c Hc. specialize (H c Hc). unfold inline_space in H.
    apply andb_prop in H as [H _]. apply andb_prop in H as [H _]. exact H.
  Qed.

  (** ** The induction *)
  Definition kind_of (f : fac) : SpecSource.factor_kind :=
    match f with
    | FSym x => SpecSource.KName x | FInt x => SpecSource.KInt x | FDec _ y => SpecSource.KDecimal y
    | FByte _ _ _ => SpecSource.KBased | FCall h _ _ => SpecSource.KCall h
    end.
  Lemma touches_eq : forall f f', SpecSource.touches (kind_of f) (kind_of f') -> touch f f'.
  Proof. intros [] [] H; exact H. Qed.

  Definition starts_well (x : str) : Prop := head_is lead x = true /\ kv_free x.
  Definition Pnode (x : str) (o : outcome ast) : Prop := node_means x o /\ starts_well x.
  Definition Pfactor (k : SpecSource.factor_kind) (x : str) (o : outcome ast) : Prop :=
    exists f, fac_text f = x /\ fac_value f = o /\ good_fac U f /\ kind_of f = k /\ starts_well x.
  Definition Pproduct (k : SpecSource.factor_kind) (x : str) (os : list (outcome ast)) : Prop :=
    exists f l, x = fac_text f ++ facs_text l /\ os = map fac_value (f :: map snd l) /\ good_fac U f /\ kind_of f = k /\ good_list U f l /\ starts_well x.
  Definition Pcalls (y : str) (ps : list (outcome parameter)) : Prop :=
    exists l : call_args, y = calls_text l /\ ps = map snd l /\ Forall (good_call U) l /\ goes_on y.
  Definition Pargs (x : str) (rs : list SpecSource.argument_value) : Prop :=
    exists x0 r0 s l, x = x0 ++ s ++ args_text l /\ rs = r0 :: map a_value l /\ front x0 = true /\ kv_means x0 r0 /\ spacing s = true /\ Forall (good_arg kv_means) l /\ good_keys rs.
  Definition Pargument (x : str) (r : SpecSource.argument_value) : Prop :=
    front x = true /\ kv_means x r /\ match fst r with Some w => word U w = true | None => True end.
  Definition Pelements (x : str) (os : list (outcome ast)) : Prop :=
    exists x0 o0 s l, x = x0 ++ s ++ args_text l /\ os = o0 :: map a_value l /\ front x0 = true /\ expr_means x0 o0 /\ spacing s = true /\ Forall (good_arg expr_means) l.
  Definition Pentries (x : str) : Prop :=
    exists x0 s l, x = x0 ++ s ++ args_text l /\ front x0 = true /\ head_is (N.eqb 125) x0 = false /\ entry_means U x0 tt /\ spacing s = true /\ Forall (good_arg (entry_means U)) l.
  Definition Pindices (x : str) (os : list (outcome ast)) : Prop :=
    exists i s l, x = index_text i ++ s ++ args_text l /\ os = index_value i :: map (fun a => index_value (a_value a)) l /\ good_index U i /\ spacing s = true /\ Forall (good_arg (index_means U)) l.
  Definition Pindex (x : str) (o : outcome ast) : Prop := exists i, x = index_text i /\ o = index_value i /\ good_index U i.
  Definition Pbound (d : ast) (x : str) (o : outcome ast) : Prop := exists b, x = bound_text b /\ o = bound_value d b /\ good_bound U b /\ (x = [] <-> b = None).
  Definition Pterm (x : str) (o : outcome ast) : Prop := term_means x o /\ front x = true /\ kv_free x.
  Definition Psuffixes (y : str) (l : list SpecSource.suffix) : Prop := exists ps, y = posts_text ps /\ Forall2 is_suffix l ps /\ posts_ok U ps /\ goes_on y.
  Definition Prest (y : str) (l : list SpecSource.token) : Prop :=
    exists is, y = items_text is /\ Forall (good_item U) is /\ Forall2 is_tok l (flat_map (fun i => [TO (op i) (sign i); TX (ProofExpr.arg i) (value i)]) is) /\ goes_on y.
  Definition Pexpr (x : str) (o : outcome ast) : Prop := expr_means x o /\ front x = true /\ kv_free x.

  Lemma lead_sign : forall c x, existsb (N.eqb c) [34; 40; 91; 35; 123; 182; 8267]%N = true -> starts_well (c :: x).
  Proof.
    intros c x H. split; [cbn [head_is]; unfold lead; rewrite H; apply orb_true_r|]. apply kv_other; [discriminate|]. cbn [head_is existsb] in *.
    repeat (apply orb_prop in H as [H|H]; [apply N.eqb_eq in H; subst c; first [reflexivity|apply (sign_quiet U HU); reflexivity]|]). discriminate.
  Qed.
  Lemma digit_starts : forall x, head_is digit x = true -> starts_well x.
  Proof. intros x H. split; [apply digit_lead; exact H|apply kv_digit; exact H]. Qed.
  Lemma part_lead : forall w z, segment U w = true -> head_is lead (w ++ z) = true.
  Proof. intros w z H. apply part_inv in H as (y & m & -> & Hy & _). rewrite <- app_assoc. apply word_lead. exact Hy. Qed.
  Lemma path_starts : forall w l, segment U w = true -> starts_well (w ++ path_tail l).
  Proof. intros w l H. split; [apply part_lead; exact H|apply kv_path; exact H]. Qed.
  Lemma starts_app : forall x z, starts_well x -> goes_on z -> starts_well (x ++ z).
  Proof.
    intros x z [H1 H2] Hz. split; [|apply kv_app; assumption]. rewrite head_nonempty; [exact H1|]. intros ->. discriminate.
  Qed.
  Lemma path_call : forall w l y p ps, segment U w = true -> forallb (segment U) l = true -> Pcalls y (p :: ps) ->
    exists a k, y = calls_text (a :: k) /\ p :: ps = map snd (a :: k) /\ Forall (good_call U) (a :: k) /\ starts_well (w ++ path_tail l ++ y).
  Proof.
    intros w l y p ps Hw Hl (k & E1 & E2 & E3 & E4). destruct k as [|a k]; [discriminate|]. exists a, k. split; [exact E1|]. split; [exact E2|]. split; [exact E3|].
    rewrite app_assoc. apply starts_app; [apply path_starts; exact Hw|exact E4].
  Qed.
  Lemma c_factor_call : forall w l y p ps, segment U w = true -> forallb (segment U) l = true -> Pcalls y (p :: ps) ->
    Pfactor (SpecSource.KCall (w ++ path_tail l)) (w ++ path_tail l ++ y) (Panic PUnreachable).
  Proof.
    intros w l y p ps Hw Hl H. destruct (path_call w l y p ps Hw Hl H) as (a & k & E1 & E2 & E3 & E4).
    exists (FCall (w ++ path_tail l) a k). split; [cbn [fac_text]; rewrite E1, <- app_assoc; reflexivity|]. split; [reflexivity|].
    split; [split; [apply is_path_intro; assumption|exact E3]|]. split; [reflexivity|exact E4].
  Qed.
  Lemma fac_lead : forall f w, good_fac U f -> head_is lead (fac_text f ++ w) = true.
  Proof.
    intros [x|x|x y|b P s|h a l] w H; cbn [fac_text good_fac] in *; rewrite <- ?app_assoc.
    - destruct H as (y & l & -> & Hy & _). rewrite <- app_assoc. apply word_lead. exact Hy.
    - apply digit_lead, numeral_lead. exact H.
    - apply digit_lead. destruct H as [H _]. apply numeral_lead. exact H.
    - reflexivity.
    - destruct H as [(y & k & -> & Hy & _) _]. rewrite <- !app_assoc. apply word_lead. exact Hy.
  Qed.
  Lemma c_product_more : forall k x o g k' y os, Pfactor k x o -> inline g = true -> (g = [] -> SpecSource.touches k k') -> Pproduct k' y os ->
    Pproduct k (x ++ g ++ y) (o :: os).
  Proof.
    intros k x o g k' y os (f & Ex & Eo & Gf & Ek & Sf) Hg T (f' & l & Ey & Eos & Gf' & Ek' & Gl & Sy). subst.
    exists f, ((g, f') :: l). split; [cbn [facs_text]; rewrite <- ?app_assoc; reflexivity|]. split; [reflexivity|]. split; [exact Gf|]. split; [reflexivity|]. split.
    - cbn [good_list]. split; [exact Hg|]. split; [intro E; apply touches_eq, T, E|]. split; assumption.
    - assert (Hd : head_is digit (fac_text f) = true -> starts_well (fac_text f ++ g ++ fac_text f' ++ facs_text l)).
      { intro D. apply digit_starts. rewrite head_nonempty; [exact D|]. intros E. rewrite E in D. discriminate. }
      destruct f as [h|n|n m|b P s|h a c]; cbn [fac_text good_fac kind_of] in *.
      + apply starts_app; [exact Sf|]. apply gap_goes_on; [apply inline_white; exact Hg|apply Sy|].
        destruct g as [|d g].
        * exfalso. specialize (T eq_refl). destruct f'; exact T.
        * cbn [app head_is]. apply inline_white in Hg. apply (spacing_quiet U HU d _ Hg).
      + apply Hd. rewrite <- (app_nil_r n). apply numeral_lead. exact Gf.
      + apply Hd. apply numeral_lead. apply Gf.
      + apply Hd. reflexivity.
      + apply starts_app; [exact Sf|]. apply gap_goes_on; [apply inline_white; exact Hg|apply Sy|].
        destruct g as [|d g].
        * exfalso. specialize (T eq_refl). destruct f'; exact T.
        * cbn [app head_is]. apply inline_white in Hg. apply (spacing_quiet U HU d _ Hg).
  Qed.
  Lemma open_goes_on : forall c g v, existsb (N.eqb c) [40; 91]%N = true -> inline g = true -> goes_on (g ++ c :: v).
  Proof.
    intros c g v Hc H. cbn [existsb] in Hc. apply gap_goes_on; [apply inline_white; exact H| |apply (white_xid U HU); [apply inline_white; exact H|]];
      repeat (apply orb_prop in Hc as [Hc|Hc]; [apply N.eqb_eq in Hc; subst c; reflexivity|]); discriminate.
  Qed.
  Lemma apply_goes_on : forall g v, inline g = true -> goes_on (g ++ 40%N :: v).
  Proof. intros g v H. apply open_goes_on; [reflexivity|exact H]. Qed.
  Lemma c_calls_more : forall g v x p y ps, inline g = true -> x = 40%N :: v -> apply_means U x p -> Pcalls y ps -> Pcalls (g ++ x ++ y) (p :: ps).
  Proof.
    intros g v x p y ps Hg Ex Hx (l & E1 & E2 & E3 & E4). exists ((g, x, p) :: l). split; [|split; [|split]].
    - rewrite E1. change (calls_text ((g, x, p) :: l)) with ((g ++ x) ++ calls_text l). rewrite <- app_assoc. reflexivity.
    - rewrite E2. reflexivity.
    - constructor; [split; assumption|exact E3].
    - subst x. cbn [app]. apply apply_goes_on. exact Hg.
  Qed.
  Lemma span_eq : forall a g1 c1 g2 b more oa ob oc,
    oa = bound_value (Integer 1) a -> ob = bound_value all_bound b ->
    oc = match more with Some (_, _, _, c) => bound_value (Integer 1) c | None => Ret (Integer 1) end ->
    SpecSource.span oa ob oc = index_value (Range a g1 c1 g2 b more).
  Proof. intros; subst. reflexivity. Qed.
  Lemma slice_posts : forall g0 g i s l t y ps, inline g0 = true -> spacing g = true -> good_index U i -> spacing s = true -> Forall (good_arg (index_means U)) l -> good_trail t ->
    posts_ok U ps -> posts_ok U (Slice g0 (slice_text g i s l t) (oall (index_value i :: map (fun a => index_value (a_value a)) l)) :: ps) /\
      posts_text (Slice g0 (slice_text g i s l t) y :: ps) = (g0 ++ lit "[" ++ g ++ (index_text i ++ s ++ args_text l) ++ trail_text t ++ lit "]") ++ posts_text ps.
  Proof.
    intros g0 g i s l t y ps Hg0 Hg Hi Hs Hl Ht Hp. split; [split; [exact Hg0|split; [apply (slice_whole U HU); assumption|exact Hp]]|].
    cbn [posts_text post_text]. unfold slice_text. rewrite <- !app_assoc. reflexivity.
  Qed.
  Lemma prefix_front : forall c x, prefix_char c = true -> front (c :: x) = true /\ head_is (word_head U) (c :: x) = false.
  Proof.
    intros c x H. unfold prefix_char in H. repeat (apply orb_prop in H as [H|H]); apply N.eqb_eq in H; subst c; split; try reflexivity.
    cbn [head_is]. apply (sign_quiet U HU). reflexivity.
  Qed.
  Lemma c_term : forall cs x o y l, forallb prefix_char cs = true -> Pnode x o -> Psuffixes y l ->
    Pterm (cs ++ x ++ y) (a <- o; b <- SpecSource.suffix_value l a; SpecSource.prefix_value cs b).
  Proof.
    intros cs x o y l Hc [Hx [Lx Kx]] (ps & Ey & F & Ok & G). destruct (head_front x Lx) as [Fx Px]. split; [|split].
    - subst y. pose proof (term_whole U HU cs x o ps Hc Hx Px Ok) as T.
      assert (E : (a <- o; b <- SpecSource.suffix_value l a; SpecSource.prefix_value cs b) = (b <- o; c <- posted ps b; prefixed cs c)).
      { destruct o as [a|e|]; cbn [obind]; try reflexivity. rewrite (suffix_value_eq l ps F). destruct (posted ps a) as [b|e|]; cbn [obind]; try reflexivity. apply prefix_value_eq. exact Hc. }
      rewrite E. exact T.
    - destruct cs as [|c cs]; cbn [app]; [apply front_app; exact Fx|]. cbn [forallb] in Hc. apply andb_prop in Hc as [Hc _]. apply prefix_front. exact Hc.
    - destruct cs as [|c cs]; cbn [app]; [apply kv_app; assumption|]. cbn [forallb] in Hc. apply andb_prop in Hc as [Hc _]. apply kv_other; [discriminate|]. apply prefix_front. exact Hc.
  Qed.
  Lemma c_rest : forall g s g' x o y l, spacing g = true -> In s (map fst SpecSource.operators ++ SpecSource.ignored) -> spacing g' = true -> Pterm x o ->
    (s = lit "." -> g' = [] -> head_is digit x = false) -> (s = lit "/" -> head_is (N.eqb 47) g' = false) -> Prest y l -> Prest (g ++ s ++ g' ++ x ++ y) (SpecSource.Sign s :: SpecSource.Operand o :: l).
  Proof.
    intros g s g' x o y l Hg Hs Hg' (Hx & Fx & Kx) D D' (is & Ey & Gi & Fi & _). destruct (operator_rule s Hs) as [r Hr].
    exists (mkItem g r s g' x o :: is). split; [|split; [|split]].
    - subst y. change (items_text (mkItem g r s g' x o :: is)) with ((g ++ s ++ g' ++ x) ++ items_text is). rewrite <- !app_assoc. reflexivity.
    - constructor; [|exact Gi]. unfold good_item. cbn [before op sign after ProofExpr.arg value]. auto 12.
    - cbn [flat_map op sign ProofExpr.arg value app]. constructor; [split; [exact Hr|reflexivity]|]. constructor; [reflexivity|exact Fi].
    - apply (item_goes_on r); assumption.
  Qed.
  Lemma flat_toks : forall is, flat_map (fun i => [TO (op i) (sign i); TX (ProofExpr.arg i) (value i)]) is = flat_map (fun p => [fst p; snd p]) (map item_toks is).
  Proof. induction is as [|i is IH]; [reflexivity|]. cbn [flat_map map]. rewrite IH. reflexivity. Qed.
  Lemma alternating_items : forall is, alternating true (flat_map (fun i => [TO (op i) (sign i); TX (ProofExpr.arg i) (value i)]) is).
  Proof. induction is as [|i is IH]; [exact Logic.I|]. cbn. auto. Qed.
  Lemma toks_known : forall l ts, Forall2 is_tok l ts -> forallb SpecSource.known l = true -> Forall (fun k => match k with TO o _ => has_meaning o | TX _ _ => True end) ts.
  Proof.
    induction 1 as [|t k l ts H _ IH]; intro K; constructor; cbn [forallb] in K; apply andb_prop in K as [K1 K2]; [|auto]. apply (is_tok_known t k H). exact K1.
  Qed.
  (** a bracketing of tokens, over the items of the text *)
  Lemma c_bracket : forall x o l is b, Forall2 is_tok l (flat_map (fun i => [TO (op i) (sign i); TX (ProofExpr.arg i) (value i)]) is) -> forallb SpecSource.known l = true ->
    written b = SpecSource.Operand o :: l -> well_bracketed SpecSource.token_strength SpecSource.token_to_right b ->
    exists b', evaluate SpecSource.token_value SpecSource.token_apply b = evaluate tok_operand tok_apply b' /\
      written b' = alternate (TX x o) (map item_toks is) /\ well_bracketed tok_strength tok_to_right b' /\ Forall (fun j => has_meaning (op j)) is.
  Proof.
    intros x o l is b Fi Kl Wb Bb.
    assert (F : Forall2 is_tok (written b) (alternate (TX x o) (map item_toks is))).
    { rewrite Wb. unfold alternate. constructor; [reflexivity|]. rewrite <- flat_toks. exact Fi. }
    destruct (transfer is_tok b _ F) as (b' & Eb & Rb).
    assert (Pb : proper b').
    { apply proper_written; rewrite Eb; unfold alternate; rewrite <- flat_toks.
      - cbn [alternating is_sign negb]. split; [reflexivity|]. apply alternating_items.
      - constructor; [exact Logic.I|]. eapply toks_known; [exact Fi|exact Kl]. }
    exists b'. split; [apply (is_tok_evaluate b b' Rb Pb)|]. split; [exact Eb|]. split; [eapply brel_well; [apply is_tok_tables|exact Rb|exact Bb]|].
    pose proof (toks_known _ _ Fi Kl) as K. clear - K. induction is as [|i is IH]; [constructor|]. cbn [flat_map app] in K. inversion K as [|? ? K1 K2]; subst.
    inversion K2; subst. constructor; [exact K1|auto].
  Qed.
  Lemma c_expr : forall x o y l z m b, Pterm x o -> Prest y l -> forallb SpecSource.known l = true -> Prest z m -> SpecSource.cut m = true ->
    written b = SpecSource.Operand o :: l -> well_bracketed SpecSource.token_strength SpecSource.token_to_right b ->
    Pexpr (x ++ y ++ z) (evaluate SpecSource.token_value SpecSource.token_apply b).
  Proof.
    intros x o y l z m b (Hx & Fx & Kx) (is & Ey & Gi & Fi & Oi) Kl (js & Ez & Gj & Fj & Oj) Cm Wb Bb.
    split; [|split; [apply front_app; exact Fx|apply kv_app; [exact Kx|apply goes_on_app; assumption]]].
    destruct (c_bracket x o l is b Fi Kl Wb Bb) as (b' & -> & Eb & Bb' & Mi). subst y z.
    assert (Ei : items_text is ++ items_text js = items_text (is ++ js)) by (unfold items_text; rewrite map_app, concat_app; reflexivity).
    unfold str, char in *. rewrite Ei. apply expr_chain with (o0 := o); try assumption.
    destruct js as [|j js]; [exact Logic.I|]. cbn [flat_map app] in Fj. inversion Fj as [|t k m' ts Ft _]; subst. cbn [SpecSource.cut] in Cm. intro M.
    rewrite (proj2 (is_tok_known _ _ Ft) M) in Cm. discriminate.
  Qed.

  Lemma args_app : forall V (x s : str) (l : list (arg V)) c g, (x ++ s ++ args_text l) = x ++ s ++ args_text l -> forall v,
    args_text (mkArg c g x s v :: l) = c :: g ++ x ++ s ++ args_text l.
  Proof. intros V x s l c g _ v. unfold args_text. cbn [map concat]. unfold arg_text at 1. cbn [a_comma a_gap a_text a_space app]. rewrite <- !app_assoc. reflexivity. Qed.

  Lemma literal_body : forall x s, SpecSource.literal x s -> body_means U x s /\ exists v, x = 34%N :: v.
  Proof. intros x s [s' H|n s' H]; (split; [first [apply (body_quoted U); exact H|apply (body_fenced U); exact H]|eexists; reflexivity]). Qed.
  Lemma key_means : forall k, SpecSource.key U k -> ProofMark.key U k.
  Proof. intros k [x H|w H|x s H]; [left|right; left|right; right; exists s; apply literal_body]; exact H. Qed.
  Lemma reference_eq : forall b n, SpecSource.reference b n = reference (SpecSource.reference_mark b) n.
  Proof. intros [] n; reflexivity. Qed.
  Lemma mark_starts : forall b x, starts_well (SpecSource.reference_mark b :: x).
  Proof. intros [] x; apply lead_sign; reflexivity. Qed.

  Lemma source_means :
    (forall x o, SpecSource.node U x o -> Pnode x o) /\
    (forall k x o, SpecSource.factor U k x o -> Pfactor k x o) /\
    (forall k x os, SpecSource.product U k x os -> Pproduct k x os) /\
    (forall y ps, SpecSource.calls U y ps -> Pcalls y ps) /\
    (forall x rs, SpecSource.args U x rs -> Pargs x rs) /\
    (forall x r, SpecSource.argument U x r -> Pargument x r) /\
    (forall x os, SpecSource.elements U x os -> Pelements x os) /\
    (forall x, SpecSource.entries U x -> Pentries x) /\
    (forall x os, SpecSource.indices U x os -> Pindices x os) /\
    (forall x o, SpecSource.index U x o -> Pindex x o) /\
    (forall d x o, SpecSource.bound U d x o -> Pbound d x o) /\
    (forall x o, SpecSource.term U x o -> Pterm x o) /\
    (forall y l, SpecSource.suffixes U y l -> Psuffixes y l) /\
    (forall y l, SpecSource.rest U y l -> Prest y l) /\
    (forall x o, SpecSource.expr U x o -> Pexpr x o).
  Proof.
    apply source_mut.
    - (* integer *) intros x Hx. split; [apply (node_integer U HU); exact Hx|]. apply digit_starts. rewrite <- (app_nil_r x). apply numeral_lead. exact Hx.
    - intros x y Hx Hy. split; [apply (node_decimal U HU); assumption|]. apply digit_starts, numeral_lead. exact Hx.
    - intros b P s Hb Ns Hs. split; [apply (node_byte U HU b P s); assumption|]. apply digit_starts. reflexivity.
    - intros x a H. split; [apply (node_special U); exact H|]. destruct H; (split; [reflexivity|apply kv_word; reflexivity]).
    - intros w l Hw Hl Hs. split; [|apply path_starts; exact Hw]. rewrite <- named_ast by assumption. apply (node_symbol U HU); [apply is_path_intro; assumption|].
      intros v Hv. apply no_special_app; [assumption|apply nstop_xid; exact Hv].
    - intros x s Hs. destruct (literal_body x s Hs) as [B (v & ->)]. split; [apply (node_string U HU [] _ s); [left; reflexivity|exact B|apply nstop_no_quote]|]. apply lead_sign. reflexivity.
    - intros w x s Hw Hc Hs. destruct (literal_body x s Hs) as [B (v & ->)]. split.
      + apply (node_string U HU w _ s); [right; split; [exact Hw|]|exact B|apply nstop_no_quote]. intro z. apply no_special_app; [exact Hc|reflexivity].
      + apply starts_app; [split; [rewrite <- (app_nil_r w); apply word_lead; exact Hw|apply kv_word; exact Hw]|]. apply sign_goes_on. reflexivity.
    - intros b x Hx. split; [|apply mark_starts]. rewrite reference_eq. apply node_lstop, (node_reference U HU); [destruct b; reflexivity|exact Hx].
    - intros b k. split; [|cbn [repeat]; apply mark_starts]. rewrite reference_eq. apply node_lstop, (node_back U HU). destruct b; reflexivity.
    - split; [apply node_lstop, (node_slot U HU)|apply lead_sign; reflexivity].
    - intros w Hw. split; [apply node_lstop, (node_slot_name U HU); exact Hw|apply lead_sign; reflexivity].
    - intros x Hx. split; [apply node_lstop, (node_slot_number U HU); exact Hx|apply lead_sign; reflexivity].
    - split; [apply node_lstop, (node_slots U HU)|apply lead_sign; reflexivity].
    - intros x Hx. split; [apply node_lstop, (node_slots_number U HU); exact Hx|apply lead_sign; reflexivity].
    - intros w l n y p Hw Hl _ (k & -> & Ep & Gk & _). destruct k as [|a [|a' k]]; try discriminate. pose proof (Forall_inv Gk) as Ga. split.
      + pose proof (node_derivative U (w ++ path_tail l) n a (is_path_intro w l Hw Hl) Ga) as D. destruct a as [[g x] q]. cbn [fst snd] in D.
        change (calls_text [((g, x), q)]) with ((g ++ x) ++ []). rewrite app_nil_r. rewrite <- app_assoc in D. apply D.
      + rewrite app_assoc. apply starts_app; [apply path_starts; exact Hw|]. cbn [repeat app]. apply sign_goes_on. reflexivity.
    - intros g Hg. split; [apply (node_dict_empty U); exact Hg|]. apply lead_sign. reflexivity.
    - intros g x t Hg _ (x0 & s & l & -> & Fx & Bx & Hx & Hs & Hl) Ht. destruct (trailing_trail t Ht) as (t' & Gt & <-). split; [|apply lead_sign; reflexivity].
      pose proof (node_dict U HU g x0 tt s l t' Hg Fx Bx Hx Hs Hl Gt (ProofNode.nstop U)) as N. unfold dict_text in N. rewrite <- !app_assoc. exact N.
    - intros x o _ (Hx & Fx & Kx). split; [apply (node_paren U HU); exact Hx|]. apply lead_sign. reflexivity.
    - intros g Hg. split; [apply (node_empty_list U); exact Hg|]. apply lead_sign. reflexivity.
    - intros g x os t Hg _ (x0 & o0 & s & l & -> & -> & Fx & Hx & Hs & Hl) Ht. destruct (trailing_trail t Ht) as (t' & Gt & <-). split; [|apply lead_sign; reflexivity].
      pose proof (node_list U HU g x0 o0 s l t' Hg Fx Hx Hs Hl Gt (ProofNode.nstop U)) as N. unfold list_text in N. rewrite <- !app_assoc. rewrite all_oall. exact N.
    - intros w l y p ps Hw Hl _ H. destruct (path_call w l y p ps Hw Hl H) as (a & k & E1 & E2 & E3 & E4). split; [|exact E4].
      pose proof (node_call U HU (w ++ path_tail l) a k (is_path_intro w l Hw Hl) E3 (ProofNode.nstop U) (nstop_called U)) as N. rewrite E2, E1, app_assoc, all_oall, <- named_symbol by assumption. exact N.
    - intros k x o o' os _ (f & l & E1 & E2 & E3 & E4 & E5 & E6) Hk. split; [|exact E6]. destruct l as [|[g f'] l]; [discriminate|].
      assert (Nc : not_call f) by (subst k; destruct f; [exact Logic.I..|discriminate]).
      pose proof (node_product U HU f ((g, f') :: l) ltac:(discriminate) Nc E3 E5) as N. rewrite E1, E2, all_oall. exact N.
    - (* factors *) intros w l Hw Hl. exists (FSym (w ++ path_tail l)). split; [reflexivity|]. split; [cbn [fac_value]; rewrite named_ast by assumption; reflexivity|].
      split; [apply is_path_intro; assumption|]. split; [reflexivity|apply path_starts; exact Hw].
    - intros x Hx. exists (FInt x). repeat (split; [first [reflexivity|exact Hx]|]). apply digit_starts. rewrite <- (app_nil_r x). apply numeral_lead. exact Hx.
    - intros x y Hx Hy. exists (FDec x y). split; [reflexivity|]. split; [reflexivity|]. split; [split; assumption|]. split; [reflexivity|]. apply digit_starts, numeral_lead. exact Hx.
    - intros b P s Hb Ns Hs. exists (FByte b P s). split; [reflexivity|]. split; [reflexivity|]. split; [split; [exact Hb|split; assumption]|]. split; [reflexivity|]. apply digit_starts. reflexivity.
    - intros w l y p ps Hw Hl _ H. eapply c_factor_call; eassumption.
    - (* products *) intros k x o _ (f & E1 & E2 & E3 & E4 & E5). exists f, []. cbn [facs_text map]. rewrite app_nil_r, E1, E2. auto 10 using Logic.I.
      split; [reflexivity|]. split; [reflexivity|]. split; [exact E3|]. split; [exact E4|]. split; [exact Logic.I|exact E5].
    - intros k x o g k' y os _ Hx Hg T _ Hy. eapply c_product_more; eassumption.
    - (* calls *) exists []. split; [reflexivity|]. split; [reflexivity|]. split; [constructor|left; reflexivity].
    - intros g g' y ps Hg Hg' _ Hy. eapply c_calls_more; [exact Hg|reflexivity| |exact Hy]. apply (apply_none U HU g' Hg').
    - intros g g' x rs t y ps Hg Hg' _ (x0 & r0 & s & l & -> & Ers & Fx & Hx & Hs & Hl & Gk) Ht _ Hy. destruct (trailing_trail t Ht) as (t' & Gt & <-).
      eapply c_calls_more; [exact Hg|reflexivity| |exact Hy]. rewrite <- parameter_eq by exact Gk. rewrite Ers.
      pose proof (apply_some U HU g' x0 r0 s l t' Hg' Fx Hx Hs Hl Gt) as A. rewrite <- !app_assoc in *. exact A.
    - (* args *) intros x r s _ (Fx & Hx & Kx) Hs. exists x, r, s, []. cbn [args_text map concat]. rewrite app_nil_r. repeat (split; [first [reflexivity|assumption|constructor]|]).
      destruct r. constructor; [exact Kx|constructor].
    - intros x r s c g y rs _ (Fx & Hx & Kx) Hs Hc Hg _ (x0 & r0 & s0 & l & -> & -> & F0 & H0 & Hs0 & Hl & Gk).
      exists x, r, s, (mkArg c g x0 s0 r0 :: l). rewrite args_app by reflexivity. split; [reflexivity|]. split; [reflexivity|]. split; [exact Fx|]. split; [exact Hx|]. split; [exact Hs|].
      split; [constructor; [unfold good_arg; cbn; auto|exact Hl]|]. destruct r. constructor; [exact Kx|exact Gk].
    - intros x o _ (Hx & Fx & Kx). split; [exact Fx|]. split; [|exact Logic.I]. constructor; assumption.
    - intros k g c g' x o Hk Hg Hc Hg' _ (Hx & Fx & Kx). split; [|split; [|exact Hk]].
      + apply front_app. pose proof (word_lead k [] Hk) as L. rewrite app_nil_r in L. apply head_front. exact L.
      + constructor; assumption.
    - (* elements *) intros x o s _ (Hx & Fx & Kx) Hs. exists x, o, s, []. cbn [args_text map concat]. rewrite app_nil_r. repeat (split; [first [reflexivity|assumption]|]). constructor.
    - intros x o s c g y os _ (Hx & Fx & Kx) Hs Hc Hg _ (x0 & r0 & s0 & l & -> & -> & F0 & H0 & Hs0 & Hl).
      exists x, o, s, (mkArg c g x0 s0 r0 :: l). rewrite args_app by reflexivity. split; [reflexivity|]. split; [reflexivity|]. split; [exact Fx|]. split; [exact Hx|]. split; [exact Hs|].
      constructor; [unfold good_arg; cbn; auto|exact Hl].
    - (* entries *) intros k g c g' x o s Hk Hg Hc Hg' _ (Hx & Fx & _) Hs. pose proof (key_means k Hk) as Kk. exists (k ++ g ++ c :: g' ++ x), s, []. destruct (key_front U HU k (g ++ c :: g' ++ x) Kk) as [F B].
      cbn [args_text map concat]. rewrite app_nil_r. split; [reflexivity|]. split; [exact F|]. split; [exact B|]. split; [exists k, g, c, g', x, o; auto 10|]. split; [exact Hs|constructor].
    - intros k g c g' x o s c' h y Hk Hg Hc Hg' _ (Hx & Fx & _) Hs Hc' Hh _ (x0 & s0 & l & -> & F0 & B0 & H0 & Hs0 & Hl). pose proof (key_means k Hk) as Kk.
      destruct (key_front U HU k (g ++ c :: g' ++ x) Kk) as [F B]. exists (k ++ g ++ c :: g' ++ x), s, (mkArg c' h x0 s0 tt :: l). rewrite args_app by reflexivity.
      split; [reflexivity|]. split; [exact F|]. split; [exact B|]. split; [exists k, g, c, g', x, o; auto 10|]. split; [exact Hs|].
      constructor; [unfold good_arg; cbn; auto|exact Hl].
    - (* indices *) intros x o s _ (i & -> & -> & Hi) Hs. exists i, s, []. cbn [args_text map concat]. rewrite app_nil_r. repeat (split; [first [reflexivity|assumption]|]). constructor.
    - intros x o s c g y os _ (i & -> & -> & Hi) Hs Hc Hg _ (j & s0 & l & -> & -> & Hj & Hs0 & Hl).
      exists i, s, (mkArg c g (index_text j) s0 j :: l). rewrite args_app by reflexivity. split; [reflexivity|]. split; [reflexivity|]. split; [exact Hi|]. split; [exact Hs|].
      constructor; [|exact Hl]. unfold good_arg; cbn. split; [exact Hc|]. split; [exact Hg|]. split; [apply (index_front U); exact Hj|]. split; [split; [reflexivity|exact Hj]|exact Hs0].
    - intros x o _ (Hx & Fx & Kx). exists (Plain x o). repeat split; assumption.
    - intros a oa g c g' b ob _ (u & E1 & E2 & E3 & E4) Hg Ha Hc Hg' _ (v & F1 & F2 & F3 & F4). exists (Range u g c g' v None).
      split; [cbn [index_text]; rewrite E1, F1; reflexivity|]. split; [apply span_eq; [exact E2|exact F2|reflexivity]|].
      cbn [good_index]. split; [exact E3|]. split; [exact Hg|]. split; [intro E; apply Ha, E4, E|]. auto.
    - intros a oa g c g' b ob g3 c' g4 s os _ (u & E1 & E2 & E3 & E4) Hg Ha Hc Hg' _ (v & F1 & F2 & F3 & F4) Hg3 Hc' Hg4 _ (z & Z1 & Z2 & Z3 & Z4) Hw.
      exists (Range u g c g' v (Some (g3, c', g4, z))).
      split; [cbn [index_text]; rewrite E1, F1, Z1; reflexivity|]. split; [apply span_eq; [exact E2|exact F2|exact Z2]|].
      cbn [good_index]. split; [exact E3|]. split; [exact Hg|]. split; [intro E; apply Ha, E4, E|]. split; [exact Hc|]. split; [exact Hg'|]. split; [exact F3|].
      split; [exact Hg3|]. split; [exact Hc'|]. split; [exact Hg4|]. split; [exact Z3|]. intros Nu E. rewrite <- Z1. rewrite <- F1 in E. apply Hw; [|exact E]. intro X. apply Nu, E4, X.
    - (* bounds *) intro d. exists None. repeat split.
    - intros d x o _ (Hx & Fx & Kx). exists (Some (x, o)). repeat split; try assumption; [intros ->; discriminate|discriminate].
    - (* terms *) intros cs x o y l Hc _ Hx _ Hy. apply c_term; assumption.
    - exists []. split; [reflexivity|]. split; [constructor|]. split; [exact Logic.I|left; reflexivity].
    - intros y l _ (ps & -> & F & Ok & G) Hh. exists (Fact :: ps). split; [reflexivity|]. split; [constructor; [exact Logic.I|exact F]|]. split; [|apply sign_goes_on; reflexivity].
      cbn [posts_ok]. split; assumption.
    - intros y l _ (ps & -> & F & Ok & G). exists (Fact2 :: ps). split; [reflexivity|]. split; [constructor; [exact Logic.I|exact F]|]. split; [exact Ok|apply sign_goes_on; reflexivity].
    - intros g0 g x os t y l Hg0 Hg _ (i & s & k & -> & -> & Hi & Hs & Hk) Ht _ (ps & -> & F & Ok & G). destruct (trailing_trail t Ht) as (t' & Gt & <-).
      exists (Slice g0 (slice_text g i s k t') (oall (index_value i :: map (fun a => index_value (a_value a)) k)) :: ps).
      destruct (slice_posts g0 g i s k t' (oall (index_value i :: map (fun a => index_value (a_value a)) k)) ps Hg0 Hg Hi Hs Hk Gt Ok) as [S1 S2].
      split; [symmetry; exact S2|]. split; [constructor; [symmetry; apply all_oall|exact F]|]. split; [exact S1|]. rewrite <- !app_assoc. apply (open_goes_on 91%N); [reflexivity|exact Hg0].
    - intros y l _ (ps & -> & F & Ok & G). exists (Mark (lit "?") :: ps). split; [reflexivity|]. split; [constructor; [exact Logic.I|exact F]|].
      split; [split; [left; reflexivity|exact Ok]|apply sign_goes_on; reflexivity].
    - intros n y l _ (ps & -> & F & Ok & G) Hh. exists (Mark (repeat 39%N (S n)) :: ps). split; [reflexivity|]. split; [constructor; [exact Logic.I|exact F]|].
      split; [split; [right; split; [exists n; reflexivity|exact Hh]|exact Ok]|]. cbn [repeat app]. apply sign_goes_on; reflexivity.
    - (* rest *) exists []. split; [reflexivity|]. split; [constructor|]. split; [constructor|left; reflexivity].
    - intros g s g' x o y l Hg Hs Hg' _ Hx D D' _ Hy. apply c_rest; assumption.
    - intros x o y l z m b _ Hx _ Hy Kl _ Hz Cm Wb Bb. eapply c_expr; eassumption.
  Qed.
  Lemma source_expr : forall x o, SpecSource.expr U x o -> expr_means x o /\ front x = true.
  Proof.
    intros x o H. destruct source_means as (_ & _ & _ & _ & _ & _ & _ & _ & _ & _ & _ & _ & _ & _ & S). destruct (S x o H) as (H1 & H2 & _). auto.
  Qed.
  Lemma source_node : forall x o, SpecSource.node U x o -> node_means x o /\ forall w, head_is prefix_char (x ++ w) = false.
  Proof.
    intros x o H. destruct source_means as (S & _). destruct (S x o H) as (H1 & H2 & _). destruct (head_front x H2). auto.
  Qed.

  (** ** Whole texts *)
  Lemma source_text : forall g x o ws, spacing g = true -> SpecSource.expr U x o -> plain_start x = true -> closing ws = true -> denotes U (g ++ x ++ ws) o.
  Proof. intros g x o ws Hg H P Hw. destruct (source_expr x o H). apply text_whole; assumption. Qed.
  (** a block comment between operand and operator ends the expression *)
  Lemma source_broken : forall g x o y l b ws body ws' z t m ws2, spacing g = true -> SpecSource.term U x o -> SpecSource.rest U y l -> forallb SpecSource.known l = true ->
    written b = SpecSource.Operand o :: l -> well_bracketed SpecSource.token_strength SpecSource.token_to_right b -> plain_start (x ++ y) = true ->
    spacing ws = true -> no_percent body = true -> spacing ws' = true -> SpecSource.rest U z (t :: m) -> closing ws2 = true ->
    no_percent (ws' ++ z ++ ws2) = true ->
    denotes U (g ++ (x ++ y) ++ ws ++ comment body ++ ws' ++ z ++ ws2) (evaluate SpecSource.token_value SpecSource.token_apply b).
  Proof.
    intros g x o y l b ws body ws' z t m ws2 Hg Hx Hy Kl Wb Bb Hp Hws Hb Hws' Hz Hw2 Np.
    destruct source_means as (_ & _ & _ & _ & _ & _ & _ & _ & _ & _ & _ & HT & _ & HR & _).
    destruct (HT x o Hx) as (Tx & Fx & _). destruct (HR y l Hy) as (is & -> & Gi & Fi & _). destruct (HR z (t :: m) Hz) as (js & -> & Gj & Fj & _).
    destruct (c_bracket x o l is b Fi Kl Wb Bb) as (b' & -> & Eb & Bb' & Mi).
    destruct js as [|j js]; [inversion Fj|].
    pose proof (Forall_inv Gj) as (Wj & Gj1). pose proof (Forall_inv_tail Gj) as Gj2.
    set (j' := mkItem [] (op j) (sign j) (after j) (ProofExpr.arg j) (ProofExpr.value j)).
    assert (TX : ws' ++ items_text (j :: js) ++ ws2 = (ws' ++ before j) ++ items_text (j' :: js) ++ ws2).
    { unfold items_text. cbn [map concat]. unfold item_text. cbn [before op sign after ProofExpr.arg j' app]. rewrite <- !app_assoc. reflexivity. }
    unfold str, char in *. rewrite TX in Np |- *.
    apply text_broken with (o0 := o); try assumption.
    - apply spacing_app; assumption.
    - reflexivity.
    - constructor; [|exact Gj2]. split; [reflexivity|exact Gj1].
  Qed.
End Source.
