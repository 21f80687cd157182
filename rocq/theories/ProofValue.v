(** The builder gives a pair the tree of [SpecValue]. *)
From Verif Require Import Base Ast SmError Peg Grammar Climber Build SpecAst SpecClimb SpecSyntax SpecPlace SpecParse SpecSafe SpecOrder SpecValue.
From Verif Require Import ProofAst ProofOrder ProofSym ProofBuild ProofPlace ProofAtom.
From Verif Require SpecSource.
Local Open Scope Z_scope.
Local Open Scope outcome_scope.

(** ** Names *)
Lemma contains_cons : forall b c s, contains b s -> contains b (c :: s).
Proof. intros b c s (x & y & ->). exists (c :: x), y. reflexivity. Qed.
Lemma split_plain : forall s cur, ~ contains (lit "::") s -> split_colons s cur = [rev cur ++ s].
Proof.
  intro s. pattern s. apply split_colons_cases; clear s.
  - intros cur _. cbn. rewrite app_nil_r. reflexivity.
  - intros c s Hc IH cur H. rewrite split_colons_step by exact Hc. rewrite IH; [cbn [rev]; rewrite <- app_assoc; reflexivity|].
    intro X. apply H, contains_cons, X.
  - intros s Hs IH cur H. rewrite split_colons_step1 by exact Hs. rewrite IH; [cbn [rev]; rewrite <- app_assoc; reflexivity|].
    intro X. apply H, contains_cons, X.
  - intros s IH cur H. exfalso. apply H. exists [], s. reflexivity.
Qed.
Lemma split_first : forall a b cur, ~ contains (lit "::") (a ++ lit ":") -> split_colons (a ++ lit "::" ++ b) cur = (rev cur ++ a) :: split_colons b [].
Proof.
  induction a as [|c a IH]; intros b cur H.
  - rewrite app_nil_r. reflexivity.
  - assert (H' : ~ contains (lit "::") (a ++ lit ":")) by (intro X; apply H; apply contains_cons, X).
    assert (G : split_colons (a ++ lit "::" ++ b) (c :: cur) = (rev cur ++ c :: a) :: split_colons b []).
    { rewrite IH by exact H'. cbn [rev]. rewrite <- app_assoc. reflexivity. }
    destruct (N.eq_dec c 58) as [->|Hc].
    + assert (Hd : hd_error (a ++ lit "::" ++ b) <> Some 58%N).
      { destruct a as [|d a]; [exfalso; apply H; exists [], []; reflexivity|]. cbn. intro E. injection E as ->.
        apply H. exists [], (a ++ lit ":"). reflexivity. }
      rewrite <- app_comm_cons, split_colons_step1 by exact Hd. exact G.
    + rewrite <- app_comm_cons, split_colons_step by exact Hc. exact G.
Qed.
Lemma first_colons : forall s, ~ contains (lit "::") s \/ exists a b, s = a ++ lit "::" ++ b /\ ~ contains (lit "::") (a ++ lit ":").
Proof.
  intro s. pattern s. apply split_colons_cases; clear s.
  - left. intros (x & y & E). destruct x; discriminate E.
  - intros c s Hc [IH|(a & b & -> & Ha)].
    + left. intros (x & y & E). destruct x as [|d x]; [injection E as -> _; congruence|]. injection E as _ E. apply IH. exists x, y. exact E.
    + right. exists (c :: a), b. split; [reflexivity|]. intros (x & y & E). destruct x as [|d x]; [injection E as -> _; congruence|].
      injection E as _ E. apply Ha. exists x, y. exact E.
  - intros s Hs [IH|(a & b & -> & Ha)].
    + left. intros (x & y & E). destruct x as [|d x]; [injection E as E; subst s; cbn in Hs; congruence|]. injection E as _ E. apply IH. exists x, y. exact E.
    + right. exists (58%N :: a), b. split; [reflexivity|]. intros (x & y & E). destruct x as [|d x].
      * destruct a as [|e a]; cbn in E, Hs; [congruence|]. injection E as -> _. cbn in Hs. congruence.
      * injection E as _ E. apply Ha. exists x, y. exact E.
  - intros s _. right. exists [], s. split; [reflexivity|]. intros (x & y & E). destruct x as [|d x]; [discriminate E|]. injection E as _ E. destruct x; discriminate E.
Qed.
Lemma parts_split : forall w l, parts w l <-> split_colons w [] = l.
Proof.
  intros w l. split.
  - induction 1 as [w H|a b l H _ IH]; [apply split_plain, H|]. rewrite split_first by exact H. cbn. congruence.
  - intros <-. remember (length w) as n eqn:E. assert (Hn : (length w <= n)%nat) by lia. clear E. revert w Hn. induction n as [|n IH]; intros w Hn.
    + destruct w; [|cbn in Hn; lia]. apply parts_one. intros (x & y & E). destruct x; discriminate E.
    + destruct (first_colons w) as [H|(a & b & -> & H)].
      * rewrite split_plain by exact H. apply parts_one, H.
      * rewrite split_first by exact H. apply parts_more; [exact H|]. apply IH. rewrite !app_length in Hn. cbn in Hn. lia.
Qed.
Lemma named_symbol : forall w s, named w s <-> s = symbol_from w.
Proof.
  intros w s. split.
  - intros [x l H]. apply parts_split in H. unfold symbol_from. rewrite H. reflexivity.
  - intros ->. unfold symbol_from. apply named_by. apply parts_split. reflexivity.
Qed.

(** ** Options *)
Lemma increasing_cons : forall K (lt : K -> K -> Prop) a l, strictly_increasing lt (a :: l) -> Forall (lt a) l /\ strictly_increasing lt l.
Proof.
  intros K lt a l H. split.
  - apply Forall_forall. intros b Hb. apply In_nth_error in Hb as [n Hn]. apply (H O (S n)); [lia|reflexivity|exact Hn].
  - intros i j x y Hij Hi Hj. apply (H (S i) (S j)); [lia|exact Hi|exact Hj].
Qed.
Lemma increasing_unique : forall K V (lt : K -> K -> Prop), (forall a, ~ lt a a) -> (forall a b c, lt a b -> lt b c -> lt a c) ->
  forall m m' : list (K * V), strictly_increasing lt (map fst m) -> strictly_increasing lt (map fst m') -> (forall k v, In (k, v) m <-> In (k, v) m') -> m = m'.
Proof.
  intros K V lt Hi Ht. induction m as [|[k v] m IH]; intros m' H H' E.
  - destruct m' as [|[k v] m']; [reflexivity|]. exfalso. apply (E k v). left. reflexivity.
  - destruct m' as [|[k' v'] m']; [exfalso; apply (E k v); left; reflexivity|].
    cbn [map fst] in H, H'. apply increasing_cons in H as [F S]. apply increasing_cons in H' as [F' S'].
    rewrite Forall_forall in F, F'.
    assert (L : forall q w, In (q, w) m -> lt k q) by (intros q w Hq; apply F; apply (in_map fst) in Hq; exact Hq).
    assert (L' : forall q w, In (q, w) m' -> lt k' q) by (intros q w Hq; apply F'; apply (in_map fst) in Hq; exact Hq).
    assert (Ek : (k, v) = (k', v')).
    { destruct (proj1 (E k v)) as [A|A]; [left; reflexivity|congruence|]. destruct (proj2 (E k' v')) as [B|B]; [left; reflexivity|congruence|].
      exfalso. apply (Hi k). eapply Ht; [eapply L; exact B|eapply L'; exact A]. }
    injection Ek as <- <-. f_equal. apply IH; [exact S|exact S'|]. intros q w. split; intro Hq.
    + destruct (proj1 (E q w)) as [A|A]; [right; exact Hq| |exact A]. injection A as <- <-. exfalso. apply (Hi k). eapply L. exact Hq.
    + destruct (proj2 (E q w)) as [A|A]; [right; exact Hq| |exact A]. injection A as <- <-. exfalso. apply (Hi k). eapply L'. exact Hq.
Qed.
Definition symbol_keys (writes : list (ast * ast)) : Prop := Forall (fun kv => exists s, fst kv = Sym s) writes.
Lemma compare_self : forall a, ast_compare a a = Eq.
Proof. intro a. exact (proj1 (good_ast a)). Qed.
Lemma last_write_keys : forall writes k v, symbol_keys writes ->
  (last_write (fun a b => ast_compare a b = Eq) k v writes <-> last_write eq k v writes).
Proof.
  intros writes k v H.
  assert (S : forall e, In e writes -> (ast_compare k (fst e) = Eq <-> k = fst e)).
  { intros e He. unfold symbol_keys in H. rewrite Forall_forall in H. destruct (H e He) as [s Es]. rewrite Es. split.
    - intro C. apply ast_symbol_compare_eq. pose proof (proj1 (proj2 (good_ast (Sym s))) k) as A. rewrite C in A. destruct (ast_compare (Sym s) k); cbn in A; congruence.
    - intros ->. apply compare_self. }
  clear H. split; intros W; revert S; destruct W as [before k' after E N]; intro S; apply last_write_intro.
  - apply (S (k', v)); [|exact E]. apply in_or_app. right. left. reflexivity.
  - intros e He X. apply (N e He). apply S; [|exact X]. apply in_or_app. right. right. exact He.
  - subst k'. apply compare_self.
  - intros e He X. apply (N e He). apply S; [|exact X]. apply in_or_app. right. right. exact He.
Qed.
Lemma collected_inserts : forall writes opts, symbol_keys writes -> (collected writes opts <-> opts = insert_all ast_compare writes).
Proof.
  intros writes opts H. destruct (options_spec writes) as [S M]. cbv zeta in S, M.
  assert (C : collected writes (insert_all ast_compare writes)).
  { split; [apply increasing_compare, S|]. intros k v. rewrite <- (last_write_keys writes k v H), <- M. split.
    - intro Hk. exists k. split; [apply compare_self|exact Hk].
    - intros (k' & Ek & Hk).
      assert (Q : last_write eq k' v writes) by (rewrite <- (last_write_keys writes k' v H), <- M; exists k'; split; [apply compare_self|exact Hk]).
      assert (Z : exists s, k' = Sym s).
      { clear - Q H. revert H. destruct Q as [before k2 after E N]. subst k2. intro H. unfold symbol_keys in H. rewrite Forall_forall in H.
        apply (H (k', v)). apply in_or_app. right. left. reflexivity. }
      destruct Z as [s ->].
      assert (k = Sym s); [|subst; exact Hk]. apply ast_symbol_compare_eq. pose proof (proj1 (proj2 (good_ast (Sym s))) k) as A. rewrite Ek in A.
      destruct (ast_compare (Sym s) k); cbn in A; congruence. }
  split; [|intros ->; exact C]. intros [S' M']. apply (increasing_unique _ _ (fun a b => ast_compare a b = Lt)).
  - intros a X. rewrite compare_self in X. discriminate.
  - exact (cmp_lt_trans ast_compare good_ast).
  - apply increasing_compare, S'.
  - exact S.
  - intros k v. rewrite M'. symmetry. apply C.
Qed.

(** ** Literals *)
Lemma digits_int : forall w, digits w -> int_from_str_radix w 10 = Some (numeral_value w).
Proof. intros w [H1 H2]. apply int_digits; assumption. Qed.
Lemma decimal_digits : forall x y, digits x -> digits y -> decimal_from_str (x ++ lit "." ++ y) = Some (mkDecimal (numeral_value (x ++ y)) (Z.of_nat (length y))).
Proof.
  intros x y [N D] [N' D']. unfold decimal_from_str.
  assert (E : split_dot (x ++ lit "." ++ y) = Some (x, y)).
  { clear N. induction x as [|c x IH]; [reflexivity|]. cbn [forallb] in D. apply andb_prop in D as [Dc D].
    cbn [app split_dot]. destruct (N.eqb_spec c 46) as [->|]; [discriminate|]. rewrite IH by exact D. reflexivity. }
  rewrite E. rewrite int_digits; [reflexivity|destruct x; [congruence|discriminate]|rewrite forallb_app, D, D'; reflexivity].
Qed.
Lemma byte_letter : forall b P, based b P -> (if ((b =? 120) || (b =? 88))%N then Ret 16 else if ((b =? 111) || (b =? 79))%N then Ret 8
  else if ((b =? 98) || (b =? 66))%N then Ret 2 else Panic PUnreachable) = Ret (base_of b).
Proof. intros b P H. destruct H; reflexivity. Qed.
Lemma based_int : forall b P s, based b P -> s <> [] -> grouped P s = true -> hd_error s <> Some 95%N ->
  int_from_str_radix s (base_of b) = Some (based_value (base_of b) s).
Proof.
  intros b P s Hb N Hs N95. pose proof (based_figures b P Hb) as HF. destruct s as [|c s]; [congruence|].
  assert (Nc : c <> 95%N) by (intros ->; apply N95; reflexivity). pose proof Hs as Hs'. cbn [grouped] in Hs. apply N.eqb_neq in Nc. rewrite Nc in Hs. apply andb_prop in Hs as [Hc _].
  destruct (HF c Hc) as [Hh _]. destruct (hex_figure c Hh) as (_ & _ & A1 & A2 & A3). rewrite int_unsigned by assumption.
  exact (radix_grouped (base_of b) P HF (length (c :: s)) (c :: s) 0%Z (le_n _) Hs').
Qed.
Lemma based_underscore : forall b s, int_from_str_radix (95%N :: s) (base_of b) = None.
Proof. reflexivity. Qed.

Section Values.
  Variable f text : str.
  Notation pexpr := (parse_expr f text).
  Notation spot := (spot f text).

  Lemma spot_position : forall t, get_position f text t = spot t.
  Proof. intros [r i j w l]. unfold get_position. cbn [t_start t_stop]. rewrite !line_col_place. reflexivity. Qed.
  Lemma call_made : forall s args t, Function s [plain_param args (get_position f text t)] = call_at f text s args t.
  Proof. intros. rewrite spot_position. reflexivity. Qed.

  Lemma head_filter : forall c, ((c =? 182) || (c =? 8267))%N = true -> forall k, filter (fun x => (x =? 182) || (x =? 8267))%N (repeat c k) = repeat c k /\
    filter (fun x => negb ((x =? 182) || (x =? 8267)))%N (repeat c k) = [].
  Proof. intros c H k. induction k as [|k [IH1 IH2]]; [split; reflexivity|]. cbn [repeat filter]. rewrite H. cbn [negb]. split; [f_equal; exact IH1|exact IH2]. Qed.
  Lemma digit_filter : forall w, forallb digit w = true -> filter (fun x => (x =? 182) || (x =? 8267))%N w = [] /\
    filter (fun x => negb ((x =? 182) || (x =? 8267)))%N w = w.
  Proof.
    induction w as [|c w IH]; intro H; [split; reflexivity|]. cbn [forallb] in H. apply andb_prop in H as [Hc Hw]. destruct (IH Hw) as [E1 E2].
    assert (X : ((c =? 182) || (c =? 8267))%N = false).
    { unfold digit in Hc. apply andb_prop in Hc as [A B]. apply N.leb_le in A. apply N.leb_le in B. apply orb_false_iff. split; apply N.eqb_neq; lia. }
    cbn [filter]. rewrite X. cbn [negb]. split; [exact E1|f_equal; exact E2].
  Qed.
  Lemma register_sign : forall c s, register c s -> ((c =? 182) || (c =? 8267))%N = true.
  Proof. intros c s [[-> _]|[-> _]]; reflexivity. Qed.
  Lemma register_symbol : forall c s h, register c s ->
    match c :: h with [] => Panic PIndex | 182%N :: _ => Ret (symbol_from (lit "std::repl::input")) | 8267%N :: _ => Ret (symbol_from (lit "std::repl::output")) | _ => Panic PUnreachable end = Ret s.
  Proof. intros c s h [[-> ->]|[-> ->]]; reflexivity. Qed.
  Lemma refers_value : forall i j w l s n, refers w s n -> let t := Node R_REPL i j w l in parse_in_out f text t = Ret (call_at f text s [Integer n] t).
  Proof.
    intros i j w l s n H t. unfold parse_in_out. cbn [t t_text]. destruct H as [c s n Hc Hn|c s k Hc].
    - pose proof (register_sign _ _ Hc) as Hs. destruct Hn as [Hn1 Hn2]. destruct (digit_filter n Hn2) as [E1 E2].
      cbn [filter]. rewrite Hs. cbn [negb]. rewrite E1, E2. rewrite (register_symbol c s [] Hc).
      rewrite (digits_int n) by (split; assumption). destruct n as [|d n]; [congruence|]. cbn [unwrap obind]. rewrite call_made. reflexivity.
    - pose proof (register_sign _ _ Hc) as Hs. destruct (head_filter c Hs (S k)) as [E1 E2]. cbv zeta. unfold str, char in *. rewrite E1, E2. cbn [repeat] in E1 |- *.
      rewrite (register_symbol c s (repeat c k) Hc). cbn [obind]. rewrite call_made.
      replace (Z.of_nat (length (c :: repeat c k))) with (Z.of_nat (S k)) by (cbn [length]; rewrite repeat_length; reflexivity). reflexivity.
  Qed.

  (** ** From the values to the builder *)
  Lemma dotted_made : forall t a b c, dotted f text t a b c -> parse_dot_call a b (get_position f text t) = Ret c.
  Proof. intros t a b c H. destruct H; cbn; rewrite ?call_made; reflexivity. Qed.
  Lemma prefix_made : forall g n, SpecSource.lookup g SpecSource.prefix_names = Some n -> prefix_map g = Ret (mkSymbol [lit "std"; lit "prefix"] n (Prefix g) 0).
  Proof.
    intros g n. unfold prefix_map, SpecSource.prefix_names. cbn [SpecSource.lookup].
    repeat (match goal with |- context [str_eqb g ?x] => destruct (str_eqb g x) end); intro H; try discriminate; injection H as <-; reflexivity.
  Qed.
  Lemma suffix_made : forall g n, SpecSource.lookup g suffix_names = Some n -> suffix_map g = Ret (mkSymbol [lit "std"; lit "suffix"] n (Suffix g) 0).
  Proof.
    intros g n. unfold suffix_map, suffix_names. cbn [SpecSource.lookup].
    repeat (match goal with |- context [str_eqb g ?x] => destruct (str_eqb g x) end); intro H; try discriminate; injection H as <-; reflexivity.
  Qed.
  Lemma infix_made : forall g q n p, SpecSource.lookup g SpecSource.operators = Some (q, n, p) -> g <> lit "." -> infix_map g = mkSymbol [lit "std"; lit "infix"] n (Infix g p) 0.
  Proof.
    intros g q n p H Hd. unfold infix_map. unfold SpecSource.operators in H. cbn [SpecSource.lookup] in H.
    repeat match type of H with context [str_eqb g ?x] => let X := fresh in destruct (str_eqb g x) eqn:X; [apply str_eqb_eq in X; subst g; first [congruence | injection H as <- <- <-; reflexivity]|] end.
    discriminate.
  Qed.
  Lemma prefixed_made : forall l a b, prefixed f text l a b ->
    Forall (fun t => t_rule t = R_Prefix) l /\ forall pre, apply_prefixes (rev (map (fun t => (t_text t, get_position f text t)) l) ++ pre) a = apply_prefixes pre b.
  Proof.
    intros l a b H. induction H as [a|t l a b n Hr _ [IH1 IH2] Hn]; [split; [constructor|reflexivity]|].
    split; [constructor; [destruct t; exact Hr|exact IH1]|]. intro pre. cbn [map rev]. rewrite <- app_assoc. rewrite IH2.
    cbn [app apply_prefixes]. replace (t_text t) with (text_of t) by (destruct t; reflexivity). rewrite (prefix_made _ _ Hn). cbn [obind]. rewrite call_made. reflexivity.
  Qed.

  Scheme expr_mut := Induction for expr_value Sort Prop with group_mut := Induction for group_value Sort Prop
    with term_mut := Induction for term_value Sort Prop with suffixed_mut := Induction for suffixed Sort Prop
    with indices_mut := Induction for indices_value Sort Prop with index_mut := Induction for index_value Sort Prop
    with bound_mut := Induction for bound_value Sort Prop with node_mut := Induction for node_value Sort Prop
    with applies_mut := Induction for applies Sort Prop with arguments_mut := Induction for arguments_value Sort Prop
    with data_mut := Induction for data_value Sort Prop with elements_mut := Induction for elements_value Sort Prop.
  Combined Scheme values_all from expr_mut, group_mut, term_mut, suffixed_mut, indices_mut, index_mut, bound_mut, node_mut, applies_mut, arguments_mut, data_mut, elements_mut.

  Definition index_items (c : tree rule) : outcome (list ast) :=
    match t_rule c with R_Comma => Ret [] | R_index => x <- parse_index f text pexpr c; Ret [x] | _ => Panic PUnreachable end.
  Definition list_items (c : tree rule) : outcome (list ast) :=
    match t_rule c with R_Comma => Ret [] | R_expr => x <- pexpr c; Ret [x] | _ => Panic PUnreachable end.
  Definition apply_item (c : tree rule) : outcome parameter := match t_rule c with R_apply => parse_apply f text pexpr c | _ => Panic PUnreachable end.

  Lemma rule_same : forall t, rule_of t = t_rule t.
  Proof. intros [r i j w l]. reflexivity. Qed.
  Lemma text_same : forall t, text_of t = t_text t.
  Proof. intros [r i j w l]. reflexivity. Qed.
  Lemma mapM_cons : forall A B (F : A -> outcome B) a l b bs, F a = Ret b -> omapM F l = Ret bs -> omapM F (a :: l) = Ret (b :: bs).
  Proof. intros A B F a l b bs H1 H2. cbn. rewrite H1. cbn. rewrite H2. reflexivity. Qed.

  Lemma prefix_loop : forall l r base pre, Forall (fun t => t_rule t = R_Prefix) l ->
    parse_term_loop f text pexpr (l ++ r) base pre = parse_term_loop f text pexpr r base (rev (map (fun t => (t_text t, get_position f text t)) l) ++ pre).
  Proof.
    induction l as [|t l IH]; intros r base pre H; [reflexivity|]. inversion H as [|? ? Ht Hl]; subst. cbn [app parse_term_loop]. rewrite Ht.
    rewrite IH by exact Hl. cbn [map rev]. rewrite <- app_assoc. reflexivity.
  Qed.
  Definition factor_items (c : tree rule) : outcome (list ast) :=
    match t_rule c with R_WHITESPACE => Ret [] | R_Symbol => Ret [ast_symbol (t_text c)] | R_Integer => i <- parse_integer c; Ret [i] | _ => Panic PUnreachable end.
  Definition slot_item (c : tree rule) : outcome ast :=
    match t_rule c with R_SYMBOL => Ret (Str (t_text c)) | R_Integer => i <- unwrap (int_from_str_radix (t_text c) 10); Ret (Integer i) | _ => Panic PUnreachable end.
  Lemma factor_made : forall l vs, Forall2 factor_value l vs -> omapM factor_items l = Ret (map (fun v => [v]) vs).
  Proof.
    induction 1 as [|t v l vs H _ IH]; [reflexivity|]. apply mapM_cons; [|exact IH]. destruct H as [i j w l' H|i j w l' s H].
    - unfold factor_items. cbn [t_rule]. unfold parse_integer. cbn [t_text]. rewrite digits_int by exact H. reflexivity.
    - unfold factor_items. cbn [t_rule t_text]. apply named_symbol in H. subst s. reflexivity.
  Qed.
  Lemma concat_single : forall A (vs : list A), concat (map (fun v => [v]) vs) = vs.
  Proof. induction vs as [|v vs IH]; [reflexivity|]. cbn. rewrite IH. reflexivity. Qed.
  Lemma slot_made : forall l vs, Forall2 slot_value l vs -> omapM slot_item l = Ret vs.
  Proof.
    induction 1 as [|t v l vs H _ IH]; [reflexivity|]. apply mapM_cons; [|exact IH]. destruct H as [i j w l'|i j w l' H]; [reflexivity|].
    unfold slot_item. cbn [t_rule t_text]. rewrite digits_int by exact H. reflexivity.
  Qed.
  Lemma block_quotes : forall l s r, Forall (fun q => rule_of q = R_Quotation) l -> parse_string_block (l ++ r) s = parse_string_block r s.
  Proof. induction l as [|q l IH]; intros s r H; [reflexivity|]. inversion H as [|? ? Hq Hl]; subst. cbn [app parse_string_block]. rewrite <- rule_same, Hq. auto. Qed.
  Lemma string_made : forall x s, string_value x s -> forall s0, parse_string_loop [x] s0 = Ret (Str s).
  Proof.
    intros x s H s0. destruct H as [i j s l|i j w l t l' Ht Hq].
    - cbn [parse_string_loop t_rule t_text]. unfold quoted, unquote.
      assert (E : removelast (s ++ [34%N]) = s) by (rewrite removelast_app by discriminate; apply app_nil_r).
      destruct (s ++ [34%N]) as [|c k] eqn:Ec; [destruct s; discriminate|]. cbn [obind]. rewrite E. reflexivity.
    - apply Forall_app in Hq as [H1 H2]. cbn [parse_string_loop t_rule t_inner]. rewrite block_quotes by exact H1. cbn [parse_string_block].
      rewrite <- rule_same, Ht. pose proof (block_quotes l' (t_text t) [] H2) as E. rewrite app_nil_r in E. rewrite E. destruct t; reflexivity.
  Qed.
  Lemma handler_made : forall l r s, Forall (fun h => rule_of h = R_SYMBOL) l -> parse_string_loop (l ++ r) s = parse_string_loop r s.
  Proof. induction l as [|h l IH]; intros r s H; [reflexivity|]. inversion H as [|? ? Hh Hl]; subst. cbn [app parse_string_loop]. rewrite <- rule_same, Hh. auto. Qed.
  Lemma special_made : forall i j w l a, special w a -> parse_special (Node R_Special i j w l) = Ret a.
  Proof. intros i j w l a H. destruct H; reflexivity. Qed.

  Lemma values_made :
    (forall t a, expr_value f text t a -> t_rule t = R_expr /\ pexpr t = Ret a) /\
    (forall t b a, group_value f text t b a -> evaluate (primary f text pexpr) (infix_node (get_position f text t)) b = Ret a) /\
    (forall t a, term_value f text t a -> t_rule t = R_term /\ parse_term f text pexpr t = Ret a) /\
    (forall r a b, suffixed f text r a b -> forall pre, parse_term_loop f text pexpr r a pre = apply_prefixes pre b) /\
    (forall l vs, indices_value f text l vs -> exists ls, omapM index_items l = Ret ls /\ concat ls = vs) /\
    (forall t v, index_value f text t v -> t_rule t = R_index /\ parse_index f text pexpr t = Ret v) /\
    (forall r d l v, bound_value f text r d l v -> l = [] /\ v = d \/ exists i j w x, l = [Node r i j w [x]] /\ pexpr x = Ret v) /\
    (forall t v, node_value f text t v -> t_rule t = R_node /\ parse_node f text pexpr t = Ret v) /\
    (forall l ps, applies f text l ps -> omapM apply_item l = Ret ps) /\
    (forall l args kvs, arguments_value f text l args kvs -> symbol_keys kvs /\ forall args0 kws0, parse_apply_loop pexpr l args0 kws0 =
        Ret (args0 ++ args, fold_left (fun m kv => btree_insert ast_compare (fst kv) (snd kv) m) kvs kws0)) /\
    (forall x v, data_value f text x v -> forall i j w l, parse_data f text pexpr (Node R_data i j w (x :: l)) = Ret v) /\
    (forall l vs, elements_value f text l vs -> exists ls, omapM list_items l = Ret ls /\ concat ls = vs).
  Proof.
    apply values_all.
    - intros i j w x0 l k b a t Hl Hk Hb Hw _ IH. split; [reflexivity|].
      destruct (expression_bracketing f text R_expr i j w x0 l k Hl Hk) as (b' & _ & _ & E & Q). cbv zeta in E. unfold t. rewrite E.
      rewrite <- (Q b Hb Hw). exact IH.
    - intros t x a _ [Hr IH]. cbn [evaluate]. unfold primary. rewrite Hr. exact IH.
    - intros t l o r a b c Ho _ IHl _ IHr Hd. cbn [evaluate]. rewrite IHl, IHr. cbn [obind]. unfold infix_node. rewrite <- rule_same, Ho. apply dotted_made, Hd.
    - intros t l o r a b q n p Ho Hd _ IHl _ IHr Hs. cbn [evaluate]. rewrite IHl, IHr. cbn [obind]. unfold infix_node. rewrite <- rule_same.
      rewrite <- text_same, (infix_made _ _ _ _ Hs Hd). rewrite call_made. destruct (rule_of o); try reflexivity. congruence.
    - intros i j w l x r a b c _ [Hn IHn] _ IHs Hp. split; [reflexivity|]. unfold parse_term. cbn [t_inner]. destruct (prefixed_made _ _ _ Hp) as [H1 H2].
      rewrite prefix_loop by exact H1. cbn [parse_term_loop]. rewrite Hn, IHn. cbn [obind]. rewrite IHs. rewrite H2. reflexivity.
    - intros a pre. reflexivity.
    - intros t r a b n Ht Hn _ IH pre. cbn [parse_term_loop]. rewrite <- rule_same, Ht. rewrite <- text_same, (suffix_made _ _ Hn). cbn [obind].
      rewrite call_made. apply IH.
    - intros i j w l r a b vs _ (ls & E & <-) _ IH pre. cbn [parse_term_loop t_rule]. unfold parse_slice. cbn [t_inner].
      change (omapM _ l) with (omapM index_items l). rewrite E. cbn [obind]. rewrite call_made. apply IH.
    - exists []. split; reflexivity.
    - intros c l vs Hc _ (ls & E & <-). exists ([] :: ls). split; [|reflexivity]. apply mapM_cons; [|exact E]. unfold index_items. rewrite <- rule_same, Hc. reflexivity.
    - intros x l v vs _ [Hx Ex] _ (ls & E & <-). exists ([v] :: ls). split; [|reflexivity]. apply mapM_cons; [|exact E]. unfold index_items. rewrite Hx, Ex. reflexivity.
    - intros i j w x v _ [Hx Ex]. split; [reflexivity|]. unfold parse_index. cbn [t_inner parse_index_loop]. rewrite Hx. exact Ex.
    - intros i j w a c b va vb t _ Ha Hc _ Hb. split; [reflexivity|]. rewrite rule_same in Hc. unfold parse_index.
      destruct Ha as [[-> ->]|(ia & ja & wa & xa & -> & Ea)]; destruct Hb as [[-> ->]|(ib & jb & wb & xb & -> & Eb)];
        cbn [t t_inner app parse_index_loop t_rule]; rewrite ?Ea; cbn [obind]; rewrite Hc; rewrite ?Eb; cbn [obind]; rewrite call_made; reflexivity.
    - intros i j w a c b d e va vb ve t _ Ha Hc _ Hb Hd _ He. split; [reflexivity|]. rewrite rule_same in Hc, Hd. unfold parse_index.
      destruct Ha as [[-> ->]|(ia & ja & wa & xa & -> & Ea)]; destruct Hb as [[-> ->]|(ib & jb & wb & xb & -> & Eb)];
      destruct He as [[-> ->]|(ie & je & we & xe & -> & Ee)];
        cbn [t t_inner app parse_index_loop t_rule]; rewrite ?Ea; cbn [obind]; rewrite Hc; rewrite ?Eb; cbn [obind]; rewrite Hd; rewrite ?Ee; cbn [obind]; rewrite call_made; reflexivity.
    - intros r d. left. split; reflexivity.
    - intros r d i j w x v _ [_ E]. right. exists i, j, w, x. split; [reflexivity|exact E].
    - intros i j w x l v _ [Hx E]. split; [reflexivity|]. unfold parse_node. cbn [t_inner]. rewrite Hx. exact E.
    - intros i j w i' j' w' h l l' s ps Hh Hs _ E. split; [reflexivity|]. unfold parse_node. cbn [t_inner t_rule]. unfold parse_apply_call. cbn [t_inner].
      change (omapM _ l) with (omapM apply_item l). rewrite E. cbn [obind]. apply named_symbol in Hs. subst s. destruct h; reflexivity.
    - intros i j w i' j' w' l l' vs t H. split; [reflexivity|]. unfold parse_node. cbn [t_inner]. replace (t_rule t) with R_space_call by reflexivity. unfold parse_space_call. replace (t_inner t) with l by reflexivity.
      change (omapM _ l) with (omapM factor_items l). rewrite (factor_made _ _ H). cbn [obind]. rewrite concat_single, call_made. reflexivity.
    - intros i j w i' j' w' x l l' v _ E. split; [reflexivity|]. unfold parse_node. cbn [t_inner t_rule]. apply E.
    - reflexivity.
    - intros i j w l r args writes opts ps t _ [Hk Ha] Hc _ E. apply mapM_cons; [|exact E]. unfold apply_item. cbn [t t_rule]. unfold parse_apply. cbn [t_inner].
      rewrite Ha. cbn [obind app]. rewrite (proj1 (collected_inserts _ _ Hk) Hc). rewrite spot_position. reflexivity.
    - split; [constructor|]. intros. rewrite app_nil_r. reflexivity.
    - intros c l args kvs Hc _ [Hk IH]. split; [exact Hk|]. intros. cbn [parse_apply_loop]. rewrite <- rule_same, Hc. apply IH.
    - intros i j w x l v args kvs _ [Hx Ex] _ [Hk IH]. split; [exact Hk|]. intros. cbn [parse_apply_loop t_rule]. unfold parse_apply_kv. cbn [t_inner parse_apply_kv_loop].
      rewrite Hx, Ex. cbn [obind]. rewrite IH. rewrite <- app_assoc. reflexivity.
    - intros i j w k s c x l v args kvs Hk Hs Hc _ [Hx Ex] _ [Hks IH]. split; [constructor; [exists s; reflexivity|exact Hks]|]. intros.
      cbn [parse_apply_loop t_rule]. unfold parse_apply_kv. cbn [t_inner parse_apply_kv_loop].
      rewrite <- rule_same, Hk. rewrite <- rule_same, Hc. rewrite Hx, Ex. cbn [obind]. unfold ast_symbol. rewrite <- text_same. apply named_symbol in Hs. rewrite <- Hs. apply IH.
    - intros i j w l H i' j' w' l'. unfold parse_data. cbn [t_inner t_rule]. unfold parse_integer. cbn [t_text]. rewrite digits_int by exact H. reflexivity.
    - intros i j x y l Hx Hy i' j' w' l'. unfold parse_data. cbn [t_inner t_rule]. unfold parse_decimal. cbn [t_text]. rewrite decimal_digits by assumption. reflexivity.
    - intros i j b P s l Hb Hn Hg H95 i' j' w' l'. unfold parse_data. cbn [t_inner t_rule]. unfold parse_byte. cbn [t_text].
      rewrite (byte_letter b P Hb). cbn [obind]. rewrite (based_int b P s) by assumption. reflexivity.
    - intros i j w l a H i' j' w' l'. unfold parse_data. cbn [t_inner t_rule]. apply special_made, H.
    - intros i j w l s H i' j' w' l'. apply named_symbol in H. subst s. reflexivity.
    - intros i j w l x s Hl Hx i' j' w' l'. unfold parse_data. cbn [t_inner t_rule]. unfold parse_string. cbn [t_inner]. rewrite handler_made by exact Hl. apply string_made, Hx.
    - intros i j w l s n t H i' j' w' l'. unfold parse_data. cbn [t t_inner t_rule]. apply refers_value, H.
    - intros i j w l vs t H i' j' w' l'. unfold parse_data. cbn [t_inner]. replace (t_rule t) with R_Slot by reflexivity. unfold parse_slot. replace (t_inner t) with l by reflexivity. replace (t_text t) with w by reflexivity. change (omapM _ l) with (omapM slot_item l). rewrite (slot_made _ _ H). cbn [obind].
      rewrite call_made. unfold starts_with. destruct (strip_prefix _ w); reflexivity.
    - intros i j w l vs t _ (ls & E & <-) i' j' w' l'. unfold parse_data. cbn [t_inner]. replace (t_rule t) with R_list by reflexivity. unfold parse_list. replace (t_inner t) with l by reflexivity.
      change (omapM _ l) with (omapM list_items l). rewrite E. cbn [obind]. rewrite call_made. reflexivity.
    - exists []. split; reflexivity.
    - intros c l vs Hc _ (ls & E & <-). exists ([] :: ls). split; [|reflexivity]. apply mapM_cons; [|exact E]. unfold list_items. rewrite <- rule_same, Hc. reflexivity.
    - intros x l v vs _ [Hx Ex] _ (ls & E & <-). exists ([v] :: ls). split; [|reflexivity]. apply mapM_cons; [|exact E]. unfold list_items. rewrite Hx, Ex. reflexivity.
  Qed.
  Lemma program_made : forall ts a, program_value f text ts a -> parse_pairs f text ts = Ret a.
  Proof.
    intros ts a H. destruct H as [t Ht|i j w x l l' a He Hx].
    - cbn [parse_pairs]. rewrite <- rule_same, Ht. reflexivity.
    - cbn [parse_pairs t_rule]. unfold parse_expression. cbn [t_inner parse_expression_loop]. destruct (proj1 values_made x a Hx) as [Hr E]. rewrite Hr, E. cbn [obind].
      assert (G : forall b e, exists e', parse_expression_loop f text l b e = Ret (b, e')).
      { clear - He. induction He as [|q l Hq _ IH]; intros b e; [exists e; reflexivity|]. cbn [parse_expression_loop]. rewrite <- rule_same, Hq. apply IH. }
      destruct (G a false) as [e' Ee]. rewrite Ee. reflexivity.
  Qed.
End Values.
