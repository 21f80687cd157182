(** Every tree of [SpecImage] is the tree of a text. *)
From Verif Require Import Base Ast SmError Peg Grammar Build Display SpecAst SpecClimb SpecSyntax SpecSource SpecText SpecOrigin SpecOrder SpecImage.
From Verif Require ProofPeg.
From Verif Require Import ProofDisplay ProofAst ProofOrder ProofAtom ProofSource ProofSyntax ProofValue ProofSample ProofOrigin.
Local Open Scope Z_scope.
Local Open Scope outcome_scope.

(** ** Numerals *)
Lemma show_length : forall m k, has_digits k m -> Z.of_nat (length (show_nat m)) = k.
Proof.
  intros m k H. assert (M : 0 <= m) by (destruct H as [[_ H]|[H1 [H2 _]]]; [lia|]; pose proof (Z.pow_nonneg 10 (k - 1)); lia).
  destruct (show_nat_spec m M) as (N & D & V & LZ). pose proof (numeral_value_bounds _ D) as B. rewrite V in B.
  remember (show_nat m) as t eqn:E. clear E. destruct t as [|c s]; [congruence|]. cbn [length] in *. rewrite Nat2Z.inj_succ in *.
  assert (C : s <> [] -> 10 ^ Z.of_nat (length s) <= m).
  { intro S. rewrite numeral_value_cons in V. inversion D as [|? ? Dc Ds]; subst. pose proof (numeral_value_bounds _ Ds) as Bs.
    assert (c <> 48%N) by (intros ->; specialize (LZ eq_refl); injection LZ as LZ; exact (S LZ)). unfold is_digit in Dc. unfold digit_value.
    assert (1 <= Z.of_N c - 48) by lia. nia. }
  destruct H as [[-> H]|[K H]].
  - destruct s as [|d s]; [reflexivity|]. exfalso. specialize (C ltac:(discriminate)). cbn [length] in C. rewrite Nat2Z.inj_succ, Z.pow_succ_r in C by lia.
    pose proof (Z.pow_pos_nonneg 10 (Z.of_nat (length s))). lia.
  - assert (L1 : k - 1 < Z.succ (Z.of_nat (length s))) by (apply (Z.pow_lt_mono_r_iff 10); lia).
    destruct s as [|d s]; [cbn [length] in *; lia|]. specialize (C ltac:(discriminate)).
    assert (L2 : Z.of_nat (length (d :: s)) < k) by (apply (Z.pow_lt_mono_r_iff 10); lia). lia.
Qed.

(** ** Options that are in order already *)
Lemma ordered_same : forall writes, symbol_keys writes -> strictly_increasing tree_before (map fst writes) -> ordered_map writes = writes.
Proof.
  intros writes K S. symmetry. apply (collected_inserts writes writes K). split; [exact S|]. intros k v. split.
  - intro H. apply in_split in H as (l & m & E). rewrite E. apply last_write_intro; [reflexivity|]. intros [k' v'] He Q. cbn [fst] in Q. subst k'.
    apply In_nth_error in He as [n Hn].
    assert (X : tree_before k k).
    { apply (S (length l) (length l + Datatypes.S n)%nat); [lia| |].
      - rewrite E, map_app, nth_error_app2 by (rewrite map_length; lia). rewrite map_length, Nat.sub_diag. reflexivity.
      - rewrite E, map_app, nth_error_app2 by (rewrite map_length; lia). rewrite map_length. replace (length l + Datatypes.S n - length l)%nat with (Datatypes.S n) by lia.
        cbn [map nth_error]. erewrite map_nth_error by exact Hn. reflexivity. }
    apply order_lt in X. rewrite compare_self in X. discriminate.
  - intro H. destruct H as [before k' after <- _]. apply in_app_iff. right. left. reflexivity.
Qed.

Section Texts.
  Variable U : unicode.
  Hypothesis HU : sane U.
  Definition written_as (x : str) (a : ast) : Prop := expr U x (Ret a).
  Definition has_text (a : ast) : Prop := exists x, written_as x (forget_positions a).

  (** ** Small steps *)
  Lemma term_written : forall x a, term U x (Ret a) -> written_as x a.
  Proof.
    intros x a T. pose proof (e_intro U _ _ [] [] [] [] (Leaf _) T (r_nil U) eq_refl (r_nil U) eq_refl eq_refl (wb_leaf _ _ _)) as X.
    cbn [evaluate token_value app] in X. rewrite app_nil_r in X. exact X.
  Qed.
  Lemma node_term : forall x a, node U x (Ret a) -> term U x (Ret a).
  Proof. intros x a N. pose proof (t_intro U [] x _ [] [] eq_refl N (s_nil U)) as X. cbn [app obind suffix_value prefix_value] in X. rewrite app_nil_r in X. exact X. Qed.
  Lemma node_written : forall x a, node U x (Ret a) -> written_as x a.
  Proof. intros x a N. apply term_written, node_term, N. Qed.
  Lemma paren_term : forall x a, written_as x a -> term U (paren x) (Ret a).
  Proof. intros x a H. apply node_term. exact (n_paren U _ _ H). Qed.
  Lemma paren_written : forall x a, written_as x a -> written_as (paren x) a.
  Proof. intros x a H. apply term_written, paren_term, H. Qed.
  Lemma sign_written : forall s x a y b c, In s (map fst operators) -> written_as x a -> written_as y b -> token_apply a (Sign s) b = Ret c ->
    exists z, written_as z c.
  Proof.
    intros s x a y b c Hs Hx Hy Hc. apply paren_term in Hx. apply paren_term in Hy.
    assert (K : known (Sign s) = true) by (cbn in Hs; repeat (destruct Hs as [<-|Hs]; [reflexivity|]); destruct Hs).
    assert (R : rest U ([] ++ s ++ [] ++ paren y ++ []) [Sign s; Operand (Ret b)]).
    { apply r_more; [reflexivity|apply in_app_iff; left; exact Hs|reflexivity|exact Hy|reflexivity|reflexivity|constructor]. }
    pose proof (e_intro U _ _ _ _ [] [] (Bin (Leaf (Operand (Ret a))) (Sign s) (Leaf (Operand (Ret b)))) Hx R) as X.
    eexists. unfold written_as. rewrite <- Hc. apply X; [|constructor|reflexivity|reflexivity|].
    - cbn [forallb]. rewrite K. reflexivity.
    - constructor; [constructor|constructor|discriminate|discriminate].
  Qed.
  Lemma dot_written : forall x a y b c, written_as x a -> written_as y b -> dotted a b = Ret c -> exists z, written_as z c.
  Proof. intros x a y b c Hx Hy Hc. apply (sign_written (lit ".") x a y b c); [cbn; tauto|exact Hx|exact Hy|exact Hc]. Qed.
  Lemma prepended : forall pre s args opts ps x, Forall has_text pre -> written_as x (Function s (mkParam args opts default_position :: ps)) ->
    exists y, written_as y (Function s (mkParam (map forget_positions pre ++ args) opts default_position :: ps)).
  Proof.
    induction 1 as [|a pre [xa Ha] _ IH]; intro H; [exists x; exact H|]. destruct (IH H) as [y Hy].
    destruct (dot_written _ _ _ _ _ Ha Hy eq_refl) as [z Hz]. exists z. exact Hz.
  Qed.

  (** ** Argument lists *)
  Lemma all_ret : forall A (l : list A), all (map Ret l) = Ret l.
  Proof. intros A. induction l as [|a l IH]; [reflexivity|]. cbn [map all]. rewrite IH. reflexivity. Qed.
  Definition item_text (r : option str * ast) (x : str) : Prop := argument U x (fst r, Ret (snd r)).
  Lemma items_args : forall l, Forall (fun r => exists x, item_text r x) l -> l <> [] -> exists y, args U y (map (fun r => (fst r, Ret (snd r))) l).
  Proof.
    induction 1 as [|r l [x Hx] Hl IH]; intro N; [congruence|]. destruct l as [|r' l].
    - exists (x ++ []). exact (a_one U x _ [] Hx eq_refl).
    - destruct (IH ltac:(discriminate)) as [y Hy]. exists (x ++ [] ++ 44%N :: [] ++ y). exact (a_more U x _ [] 44%N [] y _ Hx eq_refl eq_refl eq_refl Hy).
  Qed.
  Definition plain_item (a : ast) : option str * ast := (None, a).
  Definition key_item (o : ast * ast) : option str * ast := (Some (match fst o with Sym s => name s | _ => [] end), snd o).
  Definition items (p : parameter) : list (option str * ast) :=
    map plain_item (arguments p) ++ map key_item (options p).
  Definition good_option (o : ast * ast) : Prop := (exists k, fst o = Sym (mkSymbol [] k Normal 0) /\ word U k = true) /\ has_text (snd o).
  Definition good_param (p : parameter) : Prop :=
    Forall has_text (arguments p) /\ strictly_increasing earlier_key (map fst (options p)) /\ Forall good_option (options p).
  Definition forget_param (p : parameter) : parameter :=
    mkParam (map forget_positions (arguments p)) (map (fun e => (forget_positions (fst e), forget_positions (snd e))) (options p)) default_position.
  Lemma positional_items : forall l m, positional (map plain_item l ++ map key_item m) = l.
  Proof.
    intros l m. induction l as [|a l IH]; [|unfold positional in *; cbn [map plain_item app flat_map fst snd]; rewrite IH; reflexivity].
    induction m as [|o m IH]; [reflexivity|exact IH].
  Qed.
  Lemma keyword_items : forall l m, Forall (fun o : ast * ast => exists k, fst o = Sym (mkSymbol [] k Normal 0)) m ->
    keyword (map plain_item l ++ map key_item m) = m.
  Proof.
    intros l m H. induction l as [|a l IH]; [|exact IH]. unfold keyword. cbn [map app].
    induction H as [|[k v] m [n Hn] _ IH]; [reflexivity|]. cbn [fst] in Hn. subst k. cbn [map flat_map key_item fst snd app name]. rewrite IH. reflexivity.
  Qed.
  Lemma combine_items : forall (l : list (option str * ast)), combine (map fst l) (map snd l) = l.
  Proof. induction l as [|[k v] l IH]; [reflexivity|]. cbn [map combine fst snd]. rewrite IH. reflexivity. Qed.
  Lemma good_keys : forall p, good_param p -> Forall (fun o : ast * ast => exists k, fst o = Sym (mkSymbol [] k Normal 0)) (options (forget_param p)).
  Proof.
    intros p (_ & _ & H). cbn [forget_param options]. apply Forall_map. eapply Forall_impl; [|exact H]. intros [k v] [(n & E & _) _]. cbn [fst snd] in *. subst k. exists n. reflexivity.
  Qed.
  Lemma param_value : forall p, good_param p -> parameter_of (map (fun r => (fst r, Ret (snd r))) (items (forget_param p))) = Ret (forget_param p).
  Proof.
    intros p G. pose proof (good_keys p G) as K. unfold parameter_of. rewrite !map_map. cbn [fst snd]. rewrite <- (map_map snd Ret), all_ret. cbn [obind].
    change (fun x : option str * ast => fst x) with (@fst (option str) ast). rewrite combine_items. unfold items. rewrite positional_items, keyword_items by exact K.
    rewrite ordered_same; [reflexivity| |].
    - eapply Forall_impl; [|exact K]. intros o [k E]. eexists. exact E.
    - destruct G as (_ & S & H). intros i j a b Hij Ha Hb. cbn [forget_param options] in Ha, Hb. rewrite map_map in Ha, Hb. cbn [fst] in Ha, Hb.
      rewrite nth_error_map in Ha, Hb. destruct (nth_error (options p) i) as [o|] eqn:Ei; [|discriminate]. destruct (nth_error (options p) j) as [o'|] eqn:Ej; [|discriminate].
      cbn in Ha, Hb. injection Ha as <-. injection Hb as <-. specialize (S i j (fst o) (fst o') Hij). rewrite !nth_error_map, Ei, Ej in S. specialize (S eq_refl eq_refl).
      rewrite Forall_forall in H. destruct (H _ (nth_error_In _ _ Ei)) as [(k & Ek & _) _]. destruct (H _ (nth_error_In _ _ Ej)) as [(k' & Ek' & _) _].
      rewrite Ek, Ek' in *. cbn [forget_positions]. apply key_before. exact S.
  Qed.
  Lemma items_text : forall p, good_param p -> Forall (fun r => exists x, item_text r x) (items (forget_param p)).
  Proof.
    intros p (A & _ & O). unfold items. apply Forall_app. split.
    - cbn [forget_param arguments]. rewrite map_map. apply Forall_map. eapply Forall_impl; [|exact A]. intros a [x Hx]. exists x. apply a_plain. exact Hx.
    - cbn [forget_param options]. rewrite map_map. apply Forall_map. eapply Forall_impl; [|exact O]. intros [k v] [(n & E & Hw) [x Hx]]. cbn [fst snd] in *. subst k. cbn [forget_positions name].
      exists (n ++ [] ++ 58%N :: [] ++ x). apply a_keyword; [exact Hw|reflexivity|reflexivity|reflexivity|exact Hx].
  Qed.
  Lemma items_none : forall p, items p = [] -> arguments p = [] /\ options p = [].
  Proof. intros p E. unfold items in E. apply app_eq_nil in E as [E1 E2]. split; eapply map_eq_nil; eassumption. Qed.
  Lemma param_calls : forall ps, Forall good_param ps -> exists y os, calls U y os /\ os = map (fun p => Ret (forget_param p)) ps.
  Proof.
    induction 1 as [|p ps G _ (y & os & Hy & ->)]; [exists [], []; split; [constructor|reflexivity]|].
    pose proof (items_text p G) as T. pose proof (param_value p G) as V. destruct (items (forget_param p)) as [|r l] eqn:E.
    - apply items_none in E as [E1 E2]. destruct (forget_param p) as [args opts q] eqn:F. cbn [arguments options] in E1, E2. subst args opts.
      assert (Q : q = default_position) by (unfold forget_param in F; congruence). subst q. eexists _, _. split; [exact (c_empty U [] [] y _ eq_refl eq_refl Hy)|]. cbn [map]. rewrite F. reflexivity.
    - destruct (items_args _ T) as [z Hz]; [discriminate|]. rewrite <- E in *. eexists _, _. split; [exact (c_some U [] [] z _ [] y _ eq_refl eq_refl Hz t_none Hy)|]. cbn [map]. rewrite V. reflexivity.
  Qed.
  Lemma writable_named : forall s, writable U s -> exists w l, s = named w l /\ segment U w = true /\ forallb (segment U) l = true /\ hd [] (name_parts s) = w.
  Proof.
    intros [ns n k a] (H & Hk & Ha). cbn [kind attributes] in Hk, Ha. subst k a. unfold name_parts in *. cbn [name_space name] in *. destruct ns as [|w l]; cbn [app] in H |- *.
    - inversion H as [|? ? H1 _]; subst. exists n, []. auto.
    - inversion H as [|? ? H1 H2]; subst. exists w, (l ++ [n]). split; [|split; [exact H1|split; [|reflexivity]]].
      + unfold named. rewrite app_comm_cons, removelast_last, last_last. reflexivity.
      + apply forallb_forall. rewrite Forall_forall in H2. exact H2.
  Qed.
  Lemma call_written : forall s ps, writable U s -> ps <> [] -> Forall good_param ps -> has_text (Function s ps).
  Proof.
    intros s ps W N G. destruct (writable_named s W) as (w & l & -> & Hw & Hl & _). destruct ps as [|p ps]; [congruence|]. destruct (param_calls _ G) as (y & os & Hy & E). subst os. cbn [map] in Hy.
    pose proof (n_call U w l y _ _ Hw Hl Hy) as X. exists (w ++ path_tail l ++ y). apply node_written.
    assert (A : all (map (fun p => Ret (forget_param p)) (p :: ps)) = Ret (map forget_param (p :: ps))) by (rewrite <- (map_map forget_param Ret); apply all_ret).
    cbn [map] in A. rewrite A in X. exact X.
  Qed.
  Lemma constant_tail : forall w l, constant_like (w ++ path_tail l) = constant_like w.
  Proof.
    intros w l. unfold constant_like. cbn [existsb].
    assert (K : forall k, forallb (fun c => negb (c =? 58)%N) k = true -> k <> [] -> starts_with k (w ++ path_tail l) = starts_with k w).
    { intros k. unfold starts_with. revert w. induction k as [|c k IH]; intros w Hk N; [congruence|]. cbn [forallb] in Hk. apply andb_prop in Hk as [Hc Hk].
      destruct w as [|d w]; cbn [app strip_prefix].
      - destruct l as [|x l]; [reflexivity|]. cbn. apply negb_true_iff in Hc. rewrite Hc. reflexivity.
      - destruct (c =? d)%N; [|reflexivity]. destruct k as [|c' k]; [reflexivity|]. apply IH; [exact Hk|discriminate]. }
    rewrite !K by (reflexivity || discriminate). reflexivity.
  Qed.
  Lemma name_written : forall s, writable U s -> ordinary s -> has_text (Sym s).
  Proof.
    intros s W O. destruct (writable_named s W) as (w & l & -> & Hw & Hl & E). unfold ordinary in O. rewrite E in O. exists (w ++ path_tail l). apply node_written.
    apply n_name; [exact Hw|exact Hl|]. rewrite constant_tail. exact O.
  Qed.
  Lemma number_written : forall n, 0 <= n -> has_text (Integer n).
  Proof. intros n H. destruct (show_nat_numeral n H) as [N V]. exists (show_nat n). apply node_written. pose proof (n_integer U _ N) as X. rewrite V in X. exact X. Qed.
  Lemma decimal_written : forall n m k, 0 <= n -> has_digits k m -> has_text (Decimal (mkDecimal (n * 10 ^ k + m) k)).
  Proof.
    intros n m k Hn Hm. assert (M : 0 <= m) by (destruct Hm as [[_ H]|[H1 [H2 _]]]; [lia|]; pose proof (Z.pow_nonneg 10 (k - 1)); lia).
    destruct (show_nat_numeral n Hn) as [N V]. destruct (show_nat_numeral m M) as [N' V']. eexists. apply node_written. pose proof (n_decimal U _ _ N N') as X.
    rewrite numeral_value_app, V, V', (show_length _ _ Hm) in X. exact X.
  Qed.

  (** ** Strings *)
  Lemma fence_free : forall n a c b, c <> 34%N -> (length a <= n)%nat -> (length b <= 2 + n)%nat -> SpecSyntax.contains (fence n) (a ++ c :: b) = false.
  Proof.
    intros n a c b Hc Ha Hb.
    assert (B : forall b, (length b <= 2 + n)%nat -> SpecSyntax.contains (fence n) b = false).
    { assert (K : forall s, (length s <= 2 + n)%nat -> strip_prefix (fence n) s = None).
      { unfold fence. intros s H. destruct (strip_prefix _ s) as [k|] eqn:E; [|reflexivity]. apply ProofPeg.strip_prefix_app in E. subst s. rewrite app_length, repeat_length in H. lia. }
      clear b Hb. induction b as [|d b IH]; intro H; cbn [SpecSyntax.contains]; rewrite K by exact H; [reflexivity|]. apply IH. cbn [length] in H. lia. }
    assert (P : forall k a, (length a < k)%nat -> strip_prefix (repeat 34%N k) (a ++ c :: b) = None).
    { clear a Ha. induction k as [|k IH]; intros a Ha; [lia|]. cbn [repeat]. destruct a as [|d a]; cbn [app strip_prefix].
      - destruct (34 =? c)%N eqn:E; [apply N.eqb_eq in E; congruence|reflexivity].
      - destruct (34 =? d)%N; [|reflexivity]. apply IH. cbn [length] in Ha. lia. }
    induction a as [|d a IH]; cbn [app SpecSyntax.contains].
    - pose proof (P (3 + n)%nat [] ltac:(cbn; lia)) as Q. cbn [app] in Q. unfold fence at 1. rewrite Q. apply B, Hb.
    - pose proof (P (3 + n)%nat (d :: a) ltac:(lia)) as Q. cbn [app] in Q. unfold fence at 1. rewrite Q. apply IH. cbn [length] in Ha. lia.
  Qed.
  Lemma string_written : forall s, writable_string s -> has_text (Str s).
  Proof.
    intros s [Q|(N & H & L)].
    - exists (quoted s). apply node_written. apply n_string, l_line, Q.
    - exists (fenced (length s) s). apply node_written. apply n_string, l_block. unfold fenceable. apply andb_true_intro. split.
      + destruct s as [|c s]; [congruence|]. apply negb_true_iff, N.eqb_neq. intros ->. apply H. reflexivity.
      + apply negb_true_iff. rewrite (app_removelast_last 0%N N) at 2. rewrite <- app_assoc. cbn [app]. apply fence_free; [exact L| |rewrite repeat_length; lia].
        rewrite (app_removelast_last 0%N N) at 2. rewrite app_length. lia.
  Qed.

  (** ** Operators *)
  Lemma last_two : forall A (l : list A), (2 <= length l)%nat -> exists m a b, l = m ++ [a; b].
  Proof.
    intros A l H. destruct l as [|b l _] using rev_ind; [cbn in H; lia|]. destruct l as [|a l _] using rev_ind; [cbn in H; lia|]. exists l, a, b. rewrite <- app_assoc. reflexivity.
  Qed.
  Lemma last_one : forall A (l : list A), (1 <= length l)%nat -> exists m a, l = m ++ [a].
  Proof. intros A l H. destruct l as [|b l _] using rev_ind; [cbn in H; lia|]. exists l, b. reflexivity. Qed.
  Lemma forget_single : forall s args p, forget_positions (Function s [mkParam args [] p]) = Function s [mkParam (map forget_positions args) [] default_position].
  Proof. reflexivity. Qed.
  Lemma operator_written : forall s n args p, operator_symbol s n -> (n <= length args)%nat -> Forall has_text args -> has_text (Function s [mkParam args [] p]).
  Proof.
    intros s n args p O L T.
    assert (K : forall m vs x, args = m ++ vs -> written_as x (Function s [mkParam (map forget_positions vs) [] default_position]) -> has_text (Function s [mkParam args [] p])).
    { intros m vs x -> H. apply Forall_app in T as [T _]. destruct (prepended m s _ _ _ x T H) as [y Hy]. exists y. rewrite forget_single, map_app. exact Hy. }
    assert (O1 : n = 1%nat -> exists m a x, args = m ++ [a] /\ written_as x (forget_positions a)).
    { intros ->. destruct (last_one _ args L) as (m & a & ->). apply Forall_app in T as [_ T]. inversion T as [|? ? [x Hx] _]; subst. exists m, a, x. auto. }
    destruct O as [g q nm pr I D|g nm I|g nm I|].
    - destruct (last_two _ args L) as (m & a & b & ->). pose proof T as T'. apply Forall_app in T' as [_ T']. inversion T' as [|? ? [x Hx] T2]; subst. inversion T2 as [|? ? [y Hy] _]; subst.
      assert (G : exists z, written_as z (binary nm g pr [forget_positions a; forget_positions b])).
      { apply (sign_written g x (forget_positions a) y (forget_positions b)); [apply in_map_iff; exists (g, (q, nm, pr)); auto|exact Hx|exact Hy|].
        cbn in I. repeat (destruct I as [I|I]; [injection I as <- <- <- <-; first [reflexivity|contradiction D; reflexivity]|]). destruct I. }
      destruct G as [z Hz]. apply (K m [a; b] z eq_refl). exact Hz.
    - destruct (O1 eq_refl) as (m & a & x & -> & Hx).
      assert (G : exists z, written_as z (call (mkSymbol [lit "std"; lit "prefix"] nm (Prefix g) 0) [forget_positions a])).
      { pose proof (n_paren U _ _ Hx) as P. unfold prefix_names in I. cbn [In] in I. repeat (destruct I as [I|I]; [injection I as <- <-;
          match goal with |- context [Prefix ?c] => pose proof (t_intro U c _ _ [] [] eq_refl P (s_nil U)) as X end; eexists; apply term_written; exact X|]). destruct I. }
      destruct G as [z Hz]. apply (K m [a] z eq_refl). exact Hz.
    - destruct (O1 eq_refl) as (m & a & x & -> & Hx).
      assert (G : exists z, written_as z (suffix_call nm g (forget_positions a))).
      { pose proof (n_paren U _ _ Hx) as P. destruct I as [I|[I|I]]; [| |destruct I]; injection I as <- <-; eexists; apply term_written.
        - exact (t_intro U [] _ _ _ [Bang] eq_refl P (s_bang U [] [] (s_nil U) eq_refl)).
        - exact (t_intro U [] _ _ _ [BangBang] eq_refl P (s_bangbang U [] [] (s_nil U))). }
      destruct G as [z Hz]. apply (K m [a] z eq_refl). exact Hz.
    - destruct (O1 eq_refl) as (m & a & x & -> & Hx).
      assert (G : exists z, written_as z (call null_symbol [forget_positions a])).
      { apply (dot_written x (forget_positions a) (lit "null") (Sym null_symbol)); [exact Hx| |reflexivity]. apply node_written. exact (n_constant U _ _ sp_null). }
      destruct G as [z Hz]. apply (K m [a] z eq_refl). exact Hz.
  Qed.
  Lemma factor_text : forall v, simple_factor U v -> exists k x, factor U k x (Ret (forget_positions v)) /\ is_call k = false.
  Proof.
    intros v [n H|s W].
    - destruct (show_nat_numeral n H) as [N V]. pose proof (f_integer U _ N) as X. rewrite V in X. eexists _, _. split; [exact X|reflexivity].
    - destruct (writable_named s W) as (w & l & -> & Hw & Hl & _). eexists _, _. split; [exact (f_name U w l Hw Hl)|reflexivity].
  Qed.
  Lemma factors_text : forall vs, Forall (simple_factor U) vs -> vs <> [] -> exists k x, product U k x (map (fun v => Ret (forget_positions v)) vs) /\ is_call k = false.
  Proof.
    induction 1 as [|v vs Hv _ IH]; intro N; [congruence|]. destruct (factor_text v Hv) as (k & x & Hx & Hk). destruct vs as [|v' vs].
    - exists k, x. split; [apply p_one, Hx|exact Hk].
    - destruct (IH ltac:(discriminate)) as (k' & y & Hy & _). exists k, (x ++ lit " " ++ y). split; [|exact Hk]. exact (p_more U k x _ (lit " ") k' y _ Hx eq_refl ltac:(discriminate) Hy).
  Qed.
  Lemma product_written : forall l vs p, Forall has_text l -> (2 <= length vs)%nat -> Forall (simple_factor U) vs -> has_text (Function times_symbol [mkParam (l ++ vs) [] p]).
  Proof.
    intros l vs p T L F. destruct vs as [|a [|b vs]]; try (cbn in L; lia). destruct (factors_text _ F) as (k & x & Hx & Hk); [discriminate|]. cbn [map] in Hx.
    pose proof (n_product U k x _ _ _ Hx Hk) as X. change (Ret (forget_positions a) :: Ret (forget_positions b) :: map (fun v => Ret (forget_positions v)) vs) with (map (fun v => Ret (forget_positions v)) (a :: b :: vs)) in X.
    rewrite <- (map_map forget_positions Ret), all_ret in X. cbn [obind] in X. apply node_written in X.
    destruct (prepended l _ _ _ _ x T X) as [y Hy]. exists y. rewrite forget_single, map_app. exact Hy.
  Qed.
  Lemma back_written : forall o n l p, n < 0 -> Forall has_text l -> has_text (Function (input_symbol o) [mkParam (l ++ [Integer n]) [] p]).
  Proof.
    intros o n l p Hn T. pose proof (n_back U o (Nat.pred (Z.to_nat (- n)))) as X. replace (- Z.of_nat (S (Nat.pred (Z.to_nat (- n))))) with n in X by lia.
    apply node_written in X. destruct (prepended l _ _ _ _ _ T X) as [y Hy]. exists y. rewrite forget_single, map_app. exact Hy.
  Qed.

  Lemma in_nodes : forall s ps p a, In p ps -> In a (arguments p) -> (nodes a < nodes (Function s ps))%nat.
  Proof.
    intros s ps p a Hp Ha. rewrite nodes_call. apply in_split in Hp as (l & m & ->). apply in_split in Ha as (l' & m' & E). rewrite map_app, list_sum_app. cbn [map list_sum fold_right].
    unfold param_size at 2. rewrite E. unfold sizes. rewrite map_app, list_sum_app. cbn [map list_sum fold_right]. lia.
  Qed.
  Lemma in_nodes_option : forall s ps p o, In p ps -> In o (options p) -> (nodes (snd o) < nodes (Function s ps))%nat.
  Proof.
    intros s ps p a Hp Ha. rewrite nodes_call. apply in_split in Hp as (l & m & ->). apply in_split in Ha as (l' & m' & E). rewrite map_app, list_sum_app. cbn [map list_sum fold_right].
    unfold param_size at 2. rewrite E. unfold pair_sizes. rewrite map_app, list_sum_app. cbn [map list_sum fold_right]. lia.
  Qed.
  Lemma produced_text : forall n a, (nodes a <= n)%nat -> produced U a -> has_text a.
  Proof.
    induction n as [|n IH]; intros a Hn P; [destruct a; cbn in Hn; lia|].
    assert (ALL : forall s ps p l, a = Function s ps -> In p ps -> incl l (arguments p) -> Forall (produced U) l -> Forall has_text l).
    { intros s ps p l -> Hp I F. apply Forall_forall. rewrite Forall_forall in F. intros x Hx. apply IH; [|apply F, Hx]. pose proof (in_nodes s ps p x Hp (I x Hx)). lia. }
    destruct P as [z H|z m k H1 H2|b| |s H1 H2|s H|s ps H1 H2 H3|s k args p H1 H2 H3|l vs p H1 H2 H3|o z l p H1 H2].
    - apply number_written, H.
    - apply decimal_written; assumption.
    - destruct b; [exists (lit "true")|exists (lit "false")]; apply node_written, n_constant; constructor.
    - exists (lit "null"). apply node_written, n_constant; constructor.
    - apply name_written; assumption.
    - apply string_written, H.
    - apply call_written; [exact H1|exact H2|]. apply Forall_forall. rewrite Forall_forall in H3. intros p Hp. destruct (H3 p Hp) as (A & S & O). split; [|split; [exact S|]].
      + apply (ALL s ps p _ eq_refl Hp); [apply incl_refl|exact A].
      + apply Forall_forall. rewrite Forall_forall in O. intros o Ho. destruct (O o Ho) as [K V]. split; [exact K|]. apply IH; [|exact V]. pose proof (in_nodes_option s ps p o Hp Ho). lia.
    - apply (operator_written s k); [exact H1|exact H2|]. apply (ALL s _ (mkParam args [] p) _ eq_refl); [left; reflexivity|apply incl_refl|exact H3].
    - apply product_written; [|exact H2|exact H3]. apply (ALL _ _ (mkParam (l ++ vs) [] p) _ eq_refl); [left; reflexivity|apply incl_appl, incl_refl|exact H1].
    - apply back_written; [exact H1|]. apply (ALL _ _ (mkParam (l ++ [Integer z]) [] p) _ eq_refl); [left; reflexivity|apply incl_appl, incl_refl|exact H2].
  Qed.
  Lemma forget_twice : forall a, forget_positions (forget_positions a) = forget_positions a.
  Proof.
    induction a as [|l H|s ps H|b|n|d|s|s] using ast_ind'; try reflexivity.
    - cbn [forget_positions]. f_equal. rewrite map_map. apply map_ext_in. rewrite Forall_forall in H. exact H.
    - cbn [forget_positions]. f_equal. rewrite map_map. apply map_ext_in. rewrite Forall_forall in H. intros [args opts p] Hp. cbn [arguments options].
      destruct (H _ Hp) as [H1 H2]. rewrite !map_map. cbn [fst snd]. cbn [arguments options] in H1, H2. rewrite Forall_forall in H1, H2. f_equal; apply map_ext_in.
      + exact H1.
      + intros o Ho. destruct (H2 o Ho) as [-> ->]. reflexivity.
  Qed.
  Lemma produced_parse : forall a f, produced U a -> exists text a', parse U f text = Ret (Ok a') /\ forget_positions a' = forget_positions a.
  Proof.
    intros a f P. destruct (produced_text _ a (le_n _) P) as [x X]. apply paren_written in X.
    assert (D := source_text U HU [] (paren x) (Ret (forget_positions a)) [] eq_refl X eq_refl eq_refl f). cbn [app] in D. rewrite app_nil_r in D.
    exists (paren x). destruct (parse U f (paren x)) as [[b|e]|k|]; cbn [omap obind forget_result] in D; try discriminate D. injection D as D.
    exists b. split; [reflexivity|]. rewrite D. apply forget_twice.
  Qed.
End Texts.
