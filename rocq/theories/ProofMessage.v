(** The message of a refused text. *)
From Coq Require Import Sorted.
From Verif Require Import Base Ast SmError Peg Grammar Build Display Track Message SpecAst SpecPlace SpecFault SpecMessage.
From Verif Require Import ProofAst ProofDisplay ProofPlace ProofExpect ProofFault ProofSample.
Local Open Scope nat_scope.

(** ** Lists of rules *)
Lemma names_listed : rules_named = rule_names. Proof. reflexivity. Qed.
Lemma where_listed : forall p, names_where p = map snd (filter (fun x => p (fst x)) rule_names). Proof. intros p. unfold names_where. rewrite names_listed. reflexivity. Qed.
Definition variants : list rule := map fst rule_names.
Definition variant (r : rule) : bool := existsb (fun a => if rule_dec a r then true else false) variants.
Lemma variant_in : forall r, variant r = true <-> In r variants.
Proof.
  intros r. unfold variant. rewrite existsb_exists. split.
  - intros (x & Hx & E). destruct (rule_dec x r); [subst; exact Hx|discriminate].
  - intros H. exists r. split; [exact H|]. destruct (rule_dec r r); congruence.
Qed.
Fixpoint only_variants (e : pexp rule) : bool :=
  match e with
  | ERule r a => variant r && only_variants a
  | EThen a b | EElse a b => only_variants a && only_variants b
  | ESeq a | EOpt a | ERep a | ERestore a | ENot a | EAtomic _ a | EPush a => only_variants a
  | _ => true
  end.
Lemma grammar_variants : forall r, only_variants (grammar r) = true.
Proof. intros r. destruct r; vm_compute; reflexivity. Qed.
Lemma skip_variants : only_variants skip_body = true.
Proof. vm_compute. reflexivity. Qed.
Lemma track_variants : forall l k r p yi ni prev a, variant r = true -> Forall (fun r => variant r = true) (a_yes a) -> Forall (fun r => variant r = true) (a_yes (track l k r p yi ni prev a)).
Proof.
  intros l k r p yi ni prev a Hr H. unfold track. destruct (atomic k); [exact H|]. destruct ((prev <? attempts_at a p) && (attempts_at a p - prev =? 1)); [exact H|]. cbn zeta.
  match goal with |- context [if a_pos ?x <? p then _ else ?x] => assert (H1 : Forall (fun r => variant r = true) (a_yes x)) end.
  { destruct (p =? a_pos a); [cbn [a_yes]; apply Forall_forall; rewrite Forall_forall in H; intros x Hx; apply H; exact (in_firstn _ _ _ _ Hx)|exact H]. }
  match goal with |- context [if a_pos ?x <? p then _ else ?x] => destruct (a_pos x <? p) end.
  - cbn [a_pos a_yes a_no]. destruct (p =? p); [|constructor]. destruct (negative l); cbn [a_yes]; [constructor|]. constructor; [exact Hr|constructor].
  - match goal with |- context [if p =? ?q then _ else _] => destruct (p =? q) end; [|exact H1]. destruct (negative l); cbn [a_yes]; [exact H1|]. apply Forall_app. split; [exact H1|]. constructor; [exact Hr|constructor].
Qed.
Lemma tracked_variants : forall l k r p ok b a, variant r = true -> Forall (fun r => variant r = true) (a_yes a) -> Forall (fun r => variant r = true) (a_yes (tracked l k r p ok b a)).
Proof. intros. unfold tracked. destruct (Bool.eqb ok (negative l)); [apply track_variants; assumption|assumption]. Qed.
Lemma trace_variants : forall U f e k l s a, only_variants e = true -> Forall (fun r => variant r = true) (a_yes a) ->
  Forall (fun r => variant r = true) (a_yes (trace U grammar skip_body f e k l s a)).
Proof.
  intros U. induction f as [|f IH]; intros e k l s a E H; [exact H|].
  destruct e; cbn [trace]; cbn [only_variants] in E; try exact H; try (apply IH; assumption).
  - apply andb_true_iff in E as [E1 E2]. destruct (run U grammar skip_body f e1 k (quiet_of l) s); try (apply IH; [assumption|]; try (apply IH; assumption)); assumption.
  - apply andb_true_iff in E as [E1 E2]. destruct (run U grammar skip_body f e1 k (quiet_of l) s); try (apply IH; [assumption|]; try (apply IH; assumption)); assumption.
  - destruct (run U grammar skip_body f e k (quiet_of l) s); try (apply IH; [assumption|]; try (apply IH; assumption)); assumption.
  - apply andb_true_iff in E as [E1 E2]. destruct (run U grammar skip_body f e k (quiet_of l) s); try (apply tracked_variants; [assumption|]); apply IH; assumption.
  - apply IH; [apply grammar_variants|exact H].
  - destruct k; try exact H. apply IH; [apply skip_variants|exact H].
Qed.
Lemma error_variants : forall U text i yes no, parse_error U text = Some (i, yes, no) -> Forall (fun r => variant r = true) yes.
Proof.
  intros U text i yes no H. unfold parse_error in H. destruct (run_program U text); try discriminate. injection H as _ <- _.
  unfold program_attempts. apply trace_variants; [reflexivity|constructor].
Qed.

(** ** Sorting *)
Definition before (a b : rule) : Prop := rank a < rank b.
Definition not_behind (a b : rule) : Prop := rank a <= rank b.
Lemma insert_in : forall r l x, In x (insert_rule r l) <-> x = r \/ In x l.
Proof.
  intros r l x. induction l as [|a l IH]; cbn [insert_rule].
  - cbn. intuition congruence.
  - destruct (rank r <=? rank a); cbn; [intuition congruence|]. rewrite IH. cbn. intuition congruence.
Qed.
Lemma sort_in : forall l x, In x (sort_rules l) <-> In x l.
Proof. induction l as [|a l IH]; intros x; [tauto|]. unfold sort_rules. cbn [fold_right]. rewrite insert_in. fold (sort_rules l). rewrite IH. cbn. intuition congruence. Qed.
Lemma insert_sorted : forall r l, StronglySorted not_behind l -> StronglySorted not_behind (insert_rule r l).
Proof.
  intros r l H. induction H as [|a l H IH F]; cbn [insert_rule]; [constructor; constructor|].
  destruct (rank r <=? rank a) eqn:E.
  - apply Nat.leb_le in E. constructor; [constructor; assumption|]. constructor; [exact E|]. rewrite Forall_forall in *. intros x Hx. specialize (F x Hx). unfold not_behind in *. lia.
  - apply Nat.leb_gt in E. constructor; [exact IH|]. rewrite Forall_forall in *. intros x Hx. apply insert_in in Hx as [->|Hx]; [unfold not_behind; lia|apply F, Hx].
Qed.
Lemma sort_sorted : forall l, StronglySorted not_behind (sort_rules l).
Proof. induction l as [|a l IH]; [constructor|]. apply insert_sorted, IH. Qed.
Lemma dedup_in : forall l x, In x (dedup l) <-> In x l.
Proof.
  induction l as [|a l IH]; intros x; [tauto|]. cbn [dedup]. destruct l as [|b l]; [tauto|]. destruct (rule_dec a b) as [->|N].
  - rewrite IH. cbn. intuition congruence.
  - cbn [In]. rewrite IH. cbn. tauto.
Qed.
Lemma rank_inj : forall a b, In a variants -> rank a = rank b -> a = b.
Proof.
  intros a b. unfold rank, variants. generalize rule_names. induction l as [|[x n] l IH]; intros H E; [contradiction|]. cbn in *.
  destruct (rule_dec x a) as [Ea|Na], (rule_dec x b) as [Eb|Nb]; try congruence; try discriminate. apply IH; [destruct H; congruence|lia].
Qed.
Lemma dedup_sorted : forall l, Forall (fun r => In r variants) l -> StronglySorted not_behind l -> StronglySorted before (dedup l).
Proof.
  induction l as [|a l IH]; intros V H; [constructor|]. cbn [dedup]. inversion H as [|? ? H1 H2]; subst. inversion V as [|? ? V1 V2]; subst.
  destruct l as [|b l]; [constructor; constructor|]. destruct (rule_dec a b) as [->|N]; [apply IH; assumption|].
  constructor; [apply IH; assumption|]. apply Forall_forall. intros x Hx. apply (proj1 (dedup_in _ _)) in Hx.
  assert (B : before a b). { inversion H2 as [|? ? L _]; subst. unfold before, not_behind in *. assert (rank a <> rank b) by (intros E; apply N, rank_inj; assumption). lia. }
  inversion H1 as [|? ? _ L]; subst. destruct Hx as [<-|Hx]; [exact B|]. rewrite Forall_forall in L. specialize (L x Hx). unfold before, not_behind in *. lia.
Qed.
Lemma sorted_same : forall l m, StronglySorted before l -> StronglySorted before m -> (forall x, In x l <-> In x m) -> l = m.
Proof.
  induction l as [|a l IH]; intros m Hl Hm E.
  - destruct m as [|b m]; [reflexivity|]. exfalso. apply (proj2 (E b)). left. reflexivity.
  - destruct m as [|b m]; [exfalso; apply (proj1 (E a)); left; reflexivity|].
    inversion Hl as [|? ? Hl1 Hl2]; subst. inversion Hm as [|? ? Hm1 Hm2]; subst. rewrite Forall_forall in Hl2, Hm2.
    assert (a = b).
    { destruct (proj1 (E a) (or_introl eq_refl)) as [->|A]; [reflexivity|]. destruct (proj2 (E b) (or_introl eq_refl)) as [->|B]; [reflexivity|].
      specialize (Hl2 b B). specialize (Hm2 a A). unfold before in *. lia. }
    subst b. f_equal. apply IH; try assumption. intros x. specialize (E x). cbn [In] in E. split; intros Hx.
    + destruct (proj1 E (or_intror Hx)) as [<-|]; [|assumption]. specialize (Hl2 a Hx). unfold before in Hl2. lia.
    + destruct (proj2 E (or_intror Hx)) as [<-|]; [|assumption]. specialize (Hm2 a Hx). unfold before in Hm2. lia.
Qed.
Lemma ranks_sorted : forall l k n, map rank l = seq k n -> Sorted before l.
Proof.
  induction l as [|a l IH]; intros k n E; [constructor|]. destruct n as [|n]; [discriminate E|]. cbn [map seq] in E. injection E as E1 E2.
  constructor; [exact (IH _ _ E2)|]. destruct l as [|b l]; [constructor|]. constructor. destruct n as [|n]; [discriminate E2|]. cbn [map seq] in E2. injection E2 as E2 _. unfold before. lia.
Qed.
Lemma variants_sorted : StronglySorted before variants.
Proof.
  apply Sorted_StronglySorted; [intros x y z; unfold before; lia|]. apply (ranks_sorted _ 0 (length rule_names)). vm_compute. reflexivity.
Qed.
Lemma filter_sorted : forall p l, StronglySorted before l -> StronglySorted before (filter p l).
Proof.
  intros p l H. induction H as [|a l H IH F]; [constructor|]. cbn [filter]. destruct (p a); [|exact IH]. constructor; [exact IH|]. rewrite Forall_forall in *. intros x Hx. apply filter_In in Hx. apply F, Hx.
Qed.
Lemma filter_keys : forall (p : rule -> bool) (l : list (rule * str)), filter p (map fst l) = map fst (filter (fun x => p (fst x)) l).
Proof. intros p l. induction l as [|[a n] l IH]; [reflexivity|]. cbn. destruct (p a); cbn; rewrite IH; reflexivity. Qed.
Lemma name_in_table : forall x, In x rule_names -> rule_name (fst x) = snd x.
Proof.
  assert (F : forallb (fun x => if list_eq_dec N.eq_dec (rule_name (fst x)) (snd x) then true else false) rule_names = true) by (vm_compute; reflexivity).
  rewrite forallb_forall in F. intros x Hx. specialize (F x Hx). cbv beta in F. match type of F with (if ?b then _ else _) = _ => destruct b as [E|E] end; [exact E|discriminate F].
Qed.
Lemma sorted_names : forall l (p : rule -> bool), Forall (fun r => variant r = true) l -> (forall r, p r = true <-> In r l) ->
  map rule_name (dedup (sort_rules l)) = names_where p.
Proof.
  intros l p V P. assert (V' : Forall (fun r => In r variants) l) by (eapply Forall_impl; [|exact V]; intros r; apply variant_in).
  assert (E : dedup (sort_rules l) = filter p variants).
  { apply sorted_same.
    - apply dedup_sorted; [|apply sort_sorted]. rewrite Forall_forall in *. intros x Hx. apply (proj1 (sort_in _ _)) in Hx. apply V', Hx.
    - apply filter_sorted, variants_sorted.
    - intros x. rewrite dedup_in, sort_in, filter_In, P. rewrite Forall_forall in V'. split; [|tauto]. intros Hx. split; [apply V', Hx|exact Hx]. }
  rewrite E. rewrite where_listed. unfold variants. rewrite filter_keys, map_map. apply map_ext_in. intros x Hx. apply filter_In in Hx. apply name_in_table, Hx.
Qed.

(** ** Lines *)
Definition feedless (s : str) : bool := forallb (fun c => negb (is_feed c)) s.
Lemma lines_one : forall a, feedless a = true -> lines_of a = [a].
Proof. induction a as [|c a IH]; intros H; [reflexivity|]. cbn in H. apply andb_true_iff in H as [H1 H2]. cbn. apply negb_true_iff in H1. rewrite H1, (IH H2). reflexivity. Qed.
Lemma lines_cut : forall a b, feedless a = true -> lines_of (a ++ 10%N :: b) = a :: lines_of b.
Proof. induction a as [|c a IH]; intros b H; [reflexivity|]. cbn in H. apply andb_true_iff in H as [H1 H2]. cbn. apply negb_true_iff in H1. rewrite H1, (IH b H2). reflexivity. Qed.
Lemma feedless_app : forall a b, feedless (a ++ b) = feedless a && feedless b.
Proof. intros. apply forallb_app. Qed.
Lemma lines_some : forall s, lines_of s <> [].
Proof. intros [|c s]; [discriminate|]. cbn. destruct (is_feed c); [discriminate|]. destruct (lines_of s); discriminate. Qed.
Lemma lines_count : forall s, length (lines_of s) = S (length (filter is_feed s)).
Proof.
  induction s as [|c s IH]; [reflexivity|]. cbn. destruct (is_feed c); cbn; [rewrite IH; reflexivity|]. pose proof (lines_some s). destruct (lines_of s); [congruence|]. exact IH.
Qed.
Lemma lines_feedless : forall s, Forall (fun l => feedless l = true) (lines_of s).
Proof.
  induction s as [|c s IH]; [repeat constructor|]. cbn. destruct (is_feed c) eqn:E; [constructor; [reflexivity|exact IH]|]. destruct (lines_of s) as [|l r]; [constructor; [cbn; rewrite E; reflexivity|constructor]|].
  inversion IH; subst. constructor; [cbn; rewrite E; assumption|assumption].
Qed.
Lemma lines_first : forall a b, feedless a = true -> lines_of (a ++ b) = (a ++ hd [] (lines_of b)) :: tl (lines_of b).
Proof.
  induction a as [|c a IH]; intros b H; cbn [app].
  - pose proof (lines_some b). destruct (lines_of b); [congruence|reflexivity].
  - cbn in H. apply andb_true_iff in H as [H1 H2]. apply negb_true_iff in H1. cbn [lines_of]. rewrite H1, (IH b H2). reflexivity.
Qed.
Lemma line_at : forall a b, nth (length (filter is_feed a)) (lines_of (a ++ b)) [] = last_line a ++ hd [] (lines_of b).
Proof.
  induction a as [|c a IH]; intros b.
  - pose proof (lines_some b). cbn. destruct (lines_of b); [congruence|reflexivity].
  - cbn [app lines_of filter last_line existsb]. destruct (is_feed c) eqn:E; cbn [orb].
    + cbn [length nth]. apply IH.
    + specialize (IH b). destruct (existsb is_feed a) eqn:F.
      * assert (N : (length (filter is_feed a) <> 0)%nat). { intros N. apply length_zero_iff_nil in N. apply existsb_exists in F as (x & Hx & Fx). assert (In x (filter is_feed a)) by (apply filter_In; auto). rewrite N in *. contradiction. }
        destruct (length (filter is_feed a)) as [|n]; [congruence|]. pose proof (lines_some (a ++ b)). destruct (lines_of (a ++ b)); [congruence|]. exact IH.
      * assert (L : feedless a = true). { unfold feedless. rewrite forallb_forall. intros x Hx. destruct (is_feed x) eqn:Fx; [|reflexivity]. exfalso. assert (T : existsb is_feed a = true) by (apply existsb_exists; eauto). congruence. }
        assert (Z0 : filter is_feed a = []). { clear -L. induction a as [|x a IHa]; [reflexivity|]. cbn in *. apply andb_true_iff in L as [L1 L2]. apply negb_true_iff in L1. rewrite L1. auto. }
        rewrite Z0. rewrite (lines_first a b L). cbn. reflexivity.
Qed.
Lemma until_feed_app : forall a c, until_feed (a ++ [c]) = if existsb is_feed a then until_feed a else if is_feed c then a else a ++ [c].
Proof.
  induction a as [|x a IH]; intros c; [reflexivity|]. cbn [app until_feed existsb]. unfold is_feed at 1. destruct (x =? 10)%N; cbn [orb]; [reflexivity|]. rewrite IH. destruct (existsb is_feed a); [reflexivity|]. destruct (is_feed c); reflexivity.
Qed.
Lemma existsb_rev : forall (p : char -> bool) s, existsb p (rev s) = existsb p s.
Proof. intros p s. induction s as [|c s IH]; [reflexivity|]. cbn [rev]. rewrite existsb_app, IH. cbn. destruct (p c), (existsb p s); reflexivity. Qed.
Lemma back_line : forall s, rev (until_feed (rev s)) = last_line s.
Proof.
  induction s as [|c s IH]; [reflexivity|]. cbn [rev last_line existsb]. rewrite until_feed_app, existsb_rev. destruct (existsb is_feed s) eqn:F.
  - rewrite orb_true_r. exact IH.
  - rewrite orb_false_r. destruct (is_feed c).
    + rewrite rev_involutive. assert (E : last_line s = s); [|congruence]. destruct s as [|x s]; [reflexivity|]. cbn [last_line]. rewrite F. reflexivity.
    + rewrite rev_app_distr, rev_involutive. reflexivity.
Qed.
Lemma to_feed_line : forall s, to_feed s = hd [] (lines_of s) ++ (if existsb is_feed s then [10%N] else []).
Proof.
  induction s as [|c s IH]; [reflexivity|]. cbn [to_feed lines_of existsb]. unfold is_feed at 1 2. destruct (c =? 10)%N eqn:E; cbn [orb]; [apply N.eqb_eq in E; subst; reflexivity|].
  rewrite IH. pose proof (lines_some s). destruct (lines_of s); [congruence|reflexivity].
Qed.
Lemma line_of_text : forall text i, i <= length text ->
  line_of text i = text_line text (fst (place text i)) ++ (if goes_on text (fst (place text i)) then [10%N] else []).
Proof.
  intros text i Hi. unfold line_of, text_line, goes_on, place. cbn [fst]. unfold line_after. rewrite back_line, to_feed_line, app_assoc.
  replace (Z.to_nat (1 + Z.of_nat (length (filter is_feed (firstn i text))) - 1)) with (length (filter is_feed (firstn i text))) by lia.
  pose proof (line_at (firstn i text) (skipn i text)) as L. rewrite firstn_skipn in L. rewrite L. f_equal.
  rewrite lines_count. assert (C : length (filter is_feed text) = length (filter is_feed (firstn i text)) + length (filter is_feed (skipn i text))) by (rewrite <- app_length, <- filter_app, firstn_skipn; reflexivity). rewrite C.
  replace (Z.to_nat (1 + Z.of_nat (length (filter is_feed (firstn i text))))) with (S (length (filter is_feed (firstn i text)))) by lia.
  destruct (existsb is_feed (skipn i text)) eqn:F.
  - apply existsb_exists in F as (x & Hx & Fx). assert (I : In x (filter is_feed (skipn i text))) by (apply filter_In; auto). destruct (filter is_feed (skipn i text)); [contradiction|]. cbn [length].
    match goal with |- context [if ?b then _ else _] => replace b with true; [reflexivity|] end. symmetry. apply Nat.ltb_lt. lia.
  - replace (filter is_feed (skipn i text)) with (@nil char).
    + cbn [length]. match goal with |- context [if ?b then _ else _] => replace b with false; [reflexivity|] end. symmetry. apply Nat.ltb_ge. lia.
    + symmetry. clear L C. revert F. generalize (skipn i text) as t. intros t F. induction t as [|x t IH]; [reflexivity|]. cbn in *. apply orb_false_iff in F as [F1 F2]. rewrite F1. auto.
Qed.
Lemma text_line_feedless : forall text l, feedless (text_line text l) = true.
Proof.
  intros text l. unfold text_line. pose proof (lines_feedless text) as F. destruct (Nat.lt_ge_cases (Z.to_nat (l - 1)) (length (lines_of text))).
  - rewrite Forall_forall in F. apply F, nth_In. assumption.
  - rewrite nth_overflow by assumption. reflexivity.
Qed.
Lemma nth_skipn_hd : forall (text : str) i, nth_error text i = hd_error (skipn i text).
Proof. induction text as [|c t IH]; intros [|i]; try reflexivity. apply IH. Qed.
Lemma drop_breaks : forall s t, feedless s = true -> feedless t = true \/ t = [10%N] -> 
  filter (fun c => negb ((c =? 13) || (c =? 10))%N) (s ++ t) = filter (fun c => negb (is_return c)) (s ++ filter (fun c => negb (is_feed c)) t).
Proof.
  assert (G : forall s, feedless s = true -> filter (fun c => negb ((c =? 13) || (c =? 10))%N) s = filter (fun c => negb (is_return c)) s).
  { induction s as [|c s IH]; intros H; [reflexivity|]. cbn in H. apply andb_true_iff in H as [H1 H2]. unfold is_feed in H1. apply negb_true_iff in H1. cbn [filter]. rewrite H1, (IH H2), orb_false_r. reflexivity. }
  intros s t Hs [Ht| ->].
  - rewrite <- (G (s ++ filter (fun c => negb (is_feed c)) t)).
    + f_equal. f_equal. clear -Ht. induction t as [|c t IH]; [reflexivity|]. cbn in *. apply andb_true_iff in Ht as [H1 H2]. rewrite H1. f_equal. auto.
    + rewrite feedless_app, Hs. cbn. apply forallb_forall. intros x Hx. apply filter_In in Hx. tauto.
  - etransitivity; [apply filter_app|]. etransitivity; [apply (f_equal (fun x => x ++ _)), (G s Hs)|]. cbn. rewrite !app_nil_r. reflexivity.
Qed.
Lemma visualized : forall s, feedless s = true -> map visualize s = sign_returns s.
Proof.
  induction s as [|c s IH]; intros H; [reflexivity|]. cbn in H. apply andb_true_iff in H as [H1 H2]. cbn [map sign_returns]. rewrite (IH H2). f_equal. unfold visualize, is_return. unfold is_feed in H1. apply negb_true_iff in H1. rewrite H1. reflexivity.
Qed.
Lemma quoted_is : forall text i, i <= length text -> quoted_line text i = line_shown text i.
Proof.
  intros text i Hi. unfold quoted_line, line_shown. rewrite nth_skipn_hd, (line_of_text text i Hi). set (l := fst (place text i)). pose proof (text_line_feedless text l) as F.
  assert (D : filter (fun c => negb ((c =? 13) || (c =? 10))%N) (text_line text l ++ (if goes_on text l then [10%N] else [])) = filter (fun c => negb (is_return c)) (text_line text l)).
  { rewrite drop_breaks; [|exact F|destruct (goes_on text l); [right|left]; reflexivity]. destruct (goes_on text l); cbn [filter]; rewrite app_nil_r; reflexivity. }
  destruct (skipn i text) as [|c t]; cbn [hd_error]; [exact D|]. unfold is_feed at 1, is_return at 1.
  destruct ((c =? 10) || (c =? 13))%N; [|exact D]. rewrite map_app, (visualized _ F). destruct (goes_on text l); reflexivity.
Qed.

(** ** The whole message *)
Lemma listing_join : forall l, (2 <= length l) -> listing_more l = join (lit ", ") (removelast l) ++ lit ", or " ++ last l [].
Proof.
  induction l as [|a l IH]; intros H; [cbn in H; lia|]. destruct l as [|b l]; [cbn in H; lia|]. destruct l as [|c l]; [reflexivity|].
  change (listing_more (a :: b :: c :: l)) with (a ++ lit ", " ++ listing_more (b :: c :: l)). rewrite IH by (cbn; lia). change (removelast (a :: b :: c :: l)) with (a :: removelast (b :: c :: l)).
  change (last (a :: b :: c :: l) []) with (last (b :: c :: l) []). change (removelast (b :: c :: l)) with (b :: removelast (c :: l)).
  change (join (lit ", ") (a :: b :: removelast (c :: l))) with (a ++ lit ", " ++ join (lit ", ") (b :: removelast (c :: l))). rewrite <- !app_assoc. reflexivity.
Qed.
Lemma enumerate_listing : forall rules, rules <> [] -> enumerate rules = Ret (listing (map rule_name rules)).
Proof.
  intros rules H. unfold enumerate, listing. destruct rules as [|a [|b [|c l]]]; try reflexivity; [congruence|]. cbn [map]. generalize (rule_name a) (rule_name b) (rule_name c) (map rule_name l). clear. intros a b c l. rewrite (listing_join (a :: b :: c :: l)) by (cbn; lia). reflexivity.
Qed.
Lemma names_feedless : forall p, feedless (listing (names_where p)) = true.
Proof.
  intros p. assert (F : Forall (fun l => feedless l = true) (names_where p)).
  { rewrite where_listed. apply Forall_forall. intros x Hx. apply in_map_iff in Hx as (y & <- & Hy). apply filter_In in Hy as [Hy _]. revert y Hy. apply Forall_forall.
    assert (E : forallb (fun x => feedless (snd x)) rule_names = true) by (vm_compute; reflexivity). rewrite forallb_forall in E. apply Forall_forall. exact E. }
  assert (M : forall l, Forall (fun l => feedless l = true) l -> feedless (listing_more l) = true).
  { induction l as [|a l IH]; intros G; [reflexivity|]. inversion G as [|? ? G1 G2]; subst. specialize (IH G2). destruct l as [|b [|c l]].
    - cbn [listing_more]. rewrite !feedless_app, G1. reflexivity.
    - inversion G2; subst. cbn [listing_more]. rewrite !feedless_app, G1. cbn [andb]. assumption.
    - change (listing_more (a :: b :: c :: l)) with (a ++ lit ", " ++ listing_more (b :: c :: l)). rewrite !feedless_app, G1, IH. reflexivity. }
  unfold listing. destruct (names_where p) as [|a [|b [|c l]]]; try (apply M, F); inversion F as [|? ? F1 F2]; subst; [exact F1|]. inversion F2; subst. rewrite !feedless_app, F1. cbn [andb]. assumption.
Qed.
Lemma digits_feedless : forall s, Forall is_digit s -> feedless s = true.
Proof. intros s H. unfold feedless. apply forallb_forall. rewrite Forall_forall in H. intros x Hx. specialize (H x Hx). unfold is_digit in H. unfold is_feed. apply negb_true_iff, N.eqb_neq. lia. Qed.
Lemma blanks_feedless : forall n, feedless (repeat 32%N n) = true.
Proof. induction n; [reflexivity|exact IHn]. Qed.
Lemma shown_feedless : forall text i, feedless (line_shown text i) = true.
Proof.
  intros text i. unfold line_shown. pose proof (text_line_feedless text (fst (place text i))) as F.
  assert (G : feedless (filter (fun c => negb (is_return c)) (text_line text (fst (place text i)))) = true).
  { unfold feedless in *. rewrite forallb_forall in *. intros x Hx. apply filter_In in Hx. apply F, Hx. }
  destruct (nth_error text i) as [c|]; [|exact G]. destruct (is_feed c || is_return c); [|exact G]. rewrite feedless_app.
  assert (S : feedless (sign_returns (text_line text (fst (place text i)))) = true).
  { unfold feedless, sign_returns in *. rewrite forallb_forall in *. intros x Hx. apply in_map_iff in Hx as (y & <- & Hy). destruct (is_return y); [reflexivity|apply F, Hy]. }
  rewrite S. destruct (goes_on text (fst (place text i))); reflexivity.
Qed.
Lemma underline_feedless : forall line c, feedless (underline line c) = true.
Proof.
  intros line c. unfold underline. rewrite feedless_app. cbn [andb]. rewrite andb_true_r. unfold feedless. apply forallb_forall. intros x Hx. apply in_map_iff in Hx as (y & <- & _). destruct (y =? 9)%N; reflexivity.
Qed.
Lemma place_positive : forall text i, (1 <= fst (place text i) /\ 1 <= snd (place text i))%Z.
Proof. intros. unfold place, line_after, column_after. cbn [fst snd]. lia. Qed.
Lemma six_lines : forall s1 s2 s3 s4 s5 s6 : str, feedless s1 = true -> feedless s2 = true -> feedless s3 = true -> feedless s4 = true -> feedless s5 = true -> feedless s6 = true ->
  lines_of (s1 ++ 10%N :: s2 ++ 10%N :: s3 ++ 10%N :: s4 ++ 10%N :: s5 ++ 10%N :: s6) = [s1; s2; s3; s4; s5; s6].
Proof.
  intros s1 s2 s3 s4 s5 s6 H1 H2 H3 H4 H5 H6.
  etransitivity; [apply (lines_cut s1 _ H1)|]. f_equal. etransitivity; [apply (lines_cut s2 _ H2)|]. f_equal. etransitivity; [apply (lines_cut s3 _ H3)|]. f_equal.
  etransitivity; [apply (lines_cut s4 _ H4)|]. f_equal. etransitivity; [apply (lines_cut s5 _ H5)|]. f_equal. apply (lines_one s6 H6).
Qed.
Lemma gather : forall b p1 dl p2 dc p3 p4 line mark p5 p6 what nl : str,
  b ++ p1 ++ dl ++ p2 ++ dc ++ nl ++ b ++ p3 ++ nl ++ dl ++ p4 ++ line ++ nl ++ b ++ p4 ++ mark ++ nl ++ b ++ p3 ++ nl ++ b ++ p5 ++ p6 ++ what =
  (b ++ p1 ++ dl ++ p2 ++ dc) ++ nl ++ (b ++ p3) ++ nl ++ (dl ++ p4 ++ line) ++ nl ++ (b ++ p4 ++ mark) ++ nl ++ (b ++ p3) ++ nl ++ (b ++ (p5 ++ p6) ++ what).
Proof. intros. rewrite <- !app_assoc. reflexivity. Qed.
Lemma format_lines : forall l c line what, (0 <= l)%Z -> (0 <= c)%Z -> feedless line = true -> feedless what = true ->
  laid_out (format_error l c line (lit "expected " ++ what)) l c line (underline line c) what.
Proof.
  intros l c line what Hl Hc Fl Fw. exists (show_nat l), (show_nat c). pose proof (show_nat_spec l Hl) as Nl. pose proof (show_nat_spec c Hc) as Nc. split; [exact Nl|]. split; [exact Nc|].
  destruct Nl as (_ & Dl & _), Nc as (_ & Dc & _). apply digits_feedless in Dl, Dc. cbv zeta. unfold format_error. cbv zeta.
  generalize dependent (show_nat l). intros dl Dl. generalize dependent (show_nat c). intros dc Dc. pose proof (underline_feedless line c) as Fu. generalize dependent (underline line c). intros mark Fu.
  pose proof (blanks_feedless (length dl)) as Fb. generalize dependent (repeat 32%N (length dl)). intros b Fb.
  rewrite gather. apply six_lines; rewrite !feedless_app, ?Fb, ?Dl, ?Dc, ?Fl, ?Fu, ?Fw; reflexivity.
Qed.
Lemma refused_names : forall U f text, parse U f text = Ret (Err SMParseError) -> exists i yes, parse_error U text = Some (i, yes, []) /\ yes <> [] /\ i <= length text /\ error_place U text = Some (place text i).
Proof.
  intros U f text H. pose proof (refused_error U f text H) as E. destruct (error_names U text _ _ _ E) as (Y & _ & N). rewrite N in E. eexists _, _. split; [exact E|]. split; [exact Y|].
  destruct (refused_blamed U f text H) as [B1 B2]. split; assumption.
Qed.
Definition within (l : list rule) (r : rule) : bool := if in_dec rule_dec r l then true else false.
Lemma within_in : forall l r, within l r = true <-> In r l.
Proof. intros l r. unfold within. destruct (in_dec rule_dec r l); split; intros; try assumption; try reflexivity; try contradiction; discriminate. Qed.
Lemma message_is : forall U text i yes, parse_error U text = Some (i, yes, []) -> yes <> [] -> i <= length text ->
  message U text = Some (Ret (format_error (fst (place text i)) (snd (place text i)) (line_shown text i) (lit "expected " ++ listing (names_where (within yes))))).
Proof.
  intros U text i yes E Y Hi. unfold message. rewrite E, line_col_place, (quoted_is text i Hi). destruct (place text i) as [l c]. cbn [fst snd]. f_equal.
  pose proof (sorted_names yes (within yes) (error_variants _ _ _ _ _ E) (within_in yes)) as N.
  assert (D : dedup (sort_rules yes) <> []). { intros D. destruct yes as [|r yes]; [congruence|]. assert (I : In r (dedup (sort_rules (r :: yes)))) by (apply dedup_in, sort_in; left; reflexivity). rewrite D in I. contradiction. }
  unfold expectation. cbn [sort_rules fold_right dedup]. rewrite (enumerate_listing _ D), N. destruct (dedup (sort_rules yes)); [congruence|]. reflexivity.
Qed.
Lemma refused_message : forall U f text, parse U f text = Ret (Err SMParseError) -> exists i yes m mark p,
  parse_error U text = Some (i, yes, []) /\ blamed U text i /\ message U text = Some (Ret m) /\
  laid_out m (fst (place text i)) (snd (place text i)) (line_shown text i) mark (listing (names_where p)) /\
  yes <> [] /\ forall r, p r = true <-> In r yes.
Proof.
  intros U f text H. destruct (refused_names U f text H) as (i & yes & E & Y & Hi & B). eexists i, yes, _, _, (within yes). split; [exact E|]. split; [split; assumption|].
  split; [exact (message_is U text i yes E Y Hi)|]. split; [|split; [exact Y|apply within_in]].
  pose proof (place_positive text i). apply format_lines; [lia|lia|apply shown_feedless|apply names_feedless].
Qed.
Lemma accepted_message : forall U f text, parse U f text <> Ret (Err SMParseError) -> message U text = None.
Proof. intros U f text H. unfold message. pose proof (no_error U f text H) as N. unfold error_place in N. destruct (parse_error U text) as [[[i y] n]|]; [discriminate|reflexivity]. Qed.

(** ** Reading the message *)
Lemma blanks_same : forall n m a b, hd_error a = Some 45%N -> hd_error b = Some 45%N -> repeat 32%N n ++ a = repeat 32%N m ++ b -> n = m.
Proof.
  induction n as [|n IH]; intros [|m] a b Ha Hb E; try reflexivity; cbn in E.
  - rewrite E in Ha. discriminate.
  - rewrite <- E in Hb. discriminate.
  - f_equal. injection E as E. exact (IH m a b Ha Hb E).
Qed.
Lemma same_start : forall (A : Type) (a b c d : list A), length a = length c -> a ++ b = c ++ d -> a = c /\ b = d.
Proof. intros A. induction a as [|x a IH]; intros b [|y c] d L E; try discriminate; [split; [reflexivity|exact E]|]. cbn in *. injection E as -> E. injection L as L. destruct (IH b c d L E) as [-> ->]. split; reflexivity. Qed.
Lemma layout_read : forall m l c line mark what l' c' line' mark' what', laid_out m l c line mark what -> laid_out m l' c' line' mark' what' ->
  l = l' /\ c = c' /\ line = line' /\ mark = mark' /\ what = what'.
Proof.
  intros m l c line mark what l' c' line' mark' what' (dl & dc & Nl & Nc & E) (dl' & dc' & Nl' & Nc' & E'). cbn zeta in E, E'. rewrite E in E'. clear E. injection E' as E1 E2 E3 E4 E5 E6.
  assert (L : length dl = length dl') by (refine (blanks_same _ _ _ _ _ _ E1); reflexivity). rewrite L in *. apply app_inv_head in E1. injection E1 as E1. destruct (same_start _ _ _ _ _ L E1) as [-> E]. injection E as ->.
  apply app_inv_head in E3, E4, E6. injection E3 as ->. injection E4 as ->. injection E6 as ->. destruct Nl as (_ & _ & <- & _), Nl' as (_ & _ & <- & _), Nc as (_ & _ & <- & _), Nc' as (_ & _ & <- & _). auto.
Qed.
Lemma messages_differ : forall U f g s t, parse U f s = Ret (Err SMParseError) -> parse U g t = Ret (Err SMParseError) -> message U s = message U t ->
  error_place U s = error_place U t.
Proof.
  intros U f g s t Hs Ht E. destruct (refused_message U f s Hs) as (i & y & m & k & p & _ & [_ B] & M & L & _). destruct (refused_message U g t Ht) as (i' & y' & m' & k' & p' & _ & [_ B'] & M' & L' & _).
  assert (m' = m) by congruence. subst m'. destruct (layout_read _ _ _ _ _ _ _ _ _ _ _ L L') as (E1 & E2 & _). rewrite B, B'. f_equal. destruct (place s i), (place t i'). cbn [fst snd] in E1, E2. rewrite E1, E2. reflexivity.
Qed.

(** ** The mark *)
Lemma last_line_length : forall s, (snd (line_after s, column_after s) - 1 = Z.of_nat (length (last_line s)))%Z.
Proof. intros s. unfold column_after. cbn [snd]. lia. Qed.
Lemma last_line_feedless : forall s, feedless (last_line s) = true.
Proof.
  induction s as [|c s IH]; [reflexivity|]. cbn [last_line]. destruct (existsb is_feed (c :: s)) eqn:E; [exact IH|]. unfold feedless. apply forallb_forall. intros x Hx. destruct (is_feed x) eqn:F; [|reflexivity].
  exfalso. assert (T : existsb is_feed (c :: s) = true) by (apply existsb_exists; eauto). congruence.
Qed.
Lemma keep_all : forall (p : char -> bool) s, existsb p s = false -> filter (fun c => negb (p c)) s = s.
Proof. intros p s. induction s as [|c s IH]; intros H; [reflexivity|]. cbn in *. apply orb_false_iff in H as [H1 H2]. rewrite H1. cbn. rewrite (IH H2). reflexivity. Qed.
Lemma sign_none : forall s, existsb is_return s = false -> sign_returns s = s.
Proof. unfold sign_returns. induction s as [|c s IH]; intros H; [reflexivity|]. cbn [existsb map] in *. apply orb_false_iff in H as [H1 H2]. rewrite H1, (IH H2). reflexivity. Qed.
Lemma shown_split : forall text i, i <= length text -> existsb is_return (last_line (firstn i text)) = false ->
  exists rest, line_shown text i = last_line (firstn i text) ++ rest /\ hd_error rest = option_map sign_of (nth_error text i).
Proof.
  intros text i Hi R. unfold line_shown.
  assert (L : text_line text (fst (place text i)) = last_line (firstn i text) ++ hd [] (lines_of (skipn i text))).
  { unfold text_line, place, line_after. cbn [fst]. replace (Z.to_nat (1 + Z.of_nat (length (filter is_feed (firstn i text))) - 1)) with (length (filter is_feed (firstn i text))) by lia.
    rewrite <- line_at, firstn_skipn. reflexivity. }
  assert (G : goes_on text (fst (place text i)) = existsb is_feed (skipn i text)).
  { pose proof (line_of_text text i Hi) as T. unfold line_of in T. rewrite back_line, to_feed_line, L, app_assoc in T. apply app_inv_head in T. destruct (existsb is_feed (skipn i text)), (goes_on text (fst (place text i))); try reflexivity; discriminate. }
  rewrite G, L, nth_skipn_hd. set (b := last_line (firstn i text)) in *. destruct (skipn i text) as [|c t]; cbn [hd_error option_map lines_of hd].
  - exists []. rewrite filter_app, (keep_all _ _ R). split; reflexivity.
  - destruct (is_feed c) eqn:F; cbn [orb existsb].
    + exists [9226%N]. rewrite F. cbn [orb hd]. rewrite app_nil_r, (sign_none _ R). split; [reflexivity|]. unfold sign_of. unfold is_feed in F. apply N.eqb_eq in F. subst c. reflexivity.
    + destruct (is_return c) eqn:C.
      * eexists. unfold sign_returns. rewrite map_app. fold (sign_returns b). rewrite (sign_none _ R), <- app_assoc. split; [reflexivity|].
        pose proof (lines_some t). destruct (lines_of t); [congruence|]. cbn. unfold sign_of. rewrite C. reflexivity.
      * eexists. rewrite filter_app, (keep_all _ _ R). split; [reflexivity|]. pose proof (lines_some t). destruct (lines_of t); [congruence|]. cbn. rewrite C. cbn. unfold sign_of. rewrite C, F. reflexivity.
Qed.
Lemma mark_below : forall U f text i yes no m l c line mark what, parse U f text = Ret (Err SMParseError) -> parse_error U text = Some (i, yes, no) -> message U text = Some (Ret m) ->
  laid_out m l c line mark what -> existsb is_return (last_line (firstn i text)) = false ->
  exists rest, line = last_line (firstn i text) ++ rest /\ mark = blanked (last_line (firstn i text)) ++ lit "^---" /\ hd_error rest = option_map sign_of (nth_error text i).
Proof.
  intros U f text i yes no m l c line mark what H E M L R. destruct (refused_names U f text H) as (i' & yes' & E' & Y & Hi & _). rewrite E in E'. injection E' as <- <- ->.
  rewrite (message_is U text i yes E Y Hi) in M. injection M as <-. pose proof (place_positive text i).
  pose proof (format_lines (fst (place text i)) (snd (place text i)) (line_shown text i) (listing (names_where (within yes))) ltac:(lia) ltac:(lia) (shown_feedless _ _) (names_feedless _)) as L'.
  destruct (layout_read _ _ _ _ _ _ _ _ _ _ _ L L') as (_ & _ & -> & -> & _). destruct (shown_split text i Hi R) as (rest & S & Hr). exists rest. split; [exact S|]. split; [|exact Hr].
  unfold underline, blanked. do 2 f_equal. rewrite S. unfold place. rewrite last_line_length, Nat2Z.id. rewrite firstn_app, Nat.sub_diag, firstn_all. cbn [firstn]. apply app_nil_r.
Qed.

(** ** Samples *)
Lemma format_laid : forall l c line what, (0 <= l)%Z -> (0 <= c)%Z -> feedless line = true -> feedless what = true -> forall m,
  m = format_error l c line (lit "expected " ++ what) -> laid_out m l c line (underline line c) what.
Proof. intros l c line what Hl Hc F1 F2 m ->. exact (format_lines l c line what Hl Hc F1 F2). Qed.
Definition split_text : str := lit "a" ++ [13%N] ++ lit "&".
Lemma mark_off : parse ascii_only [] split_text = Ret (Err SMParseError) /\
  exists yes m what, parse_error ascii_only split_text = Some (2, yes, []) /\ message ascii_only split_text = Some (Ret m) /\
    nth_error split_text 2 = Some 38%N /\ laid_out m 1 3 (lit "a&") (lit "  ^---") what.
Proof.
  split; [vm_compute; reflexivity|].
  assert (E : exists yes, parse_error ascii_only split_text = Some (2, yes, [])) by (eexists; vm_compute; reflexivity).
  destruct E as [yes E]. assert (Y : yes <> []) by (eapply error_names; exact E). eexists yes, _, _. split; [exact E|]. split; [exact (message_is _ _ _ _ E Y ltac:(cbn; lia))|]. split; [reflexivity|].
  change (lit "  ^---") with (underline (lit "a&") 3). refine (format_laid 1 3 (lit "a&") (listing (names_where (within yes))) _ _ _ _ _ _); try lia; try reflexivity. apply names_feedless.
Qed.
Definition break_text : str := lit "1 + " ++ [10%N] ++ lit " &".
Lemma message_sample : parse ascii_only [] break_text = Ret (Err SMParseError) /\
  message ascii_only break_text = Some (Ret (lit " --> 2:2" ++ [10%N] ++ lit "  |" ++ [10%N] ++ lit "2 |  &" ++ [10%N] ++ lit "  |  ^---" ++ [10%N] ++ lit "  |" ++ [10%N] ++ lit "  = expected term or MultiLineComment")) /\
  existsb is_return (last_line (firstn 6 break_text)) = false /\ blanked (last_line (firstn 6 break_text)) = lit " ".
Proof. repeat split; vm_compute; reflexivity. Qed.

(** ** Reading the names *)
Definition gap (c : char) : bool := (c =? 32)%N || (c =? 44)%N.
Fixpoint pieces (s : str) : list str :=
  match s with
  | [] => [[]]
  | c :: s' => if gap c then [] :: pieces s' else match pieces s' with l :: r => (c :: l) :: r | [] => [[c]] end
  end.
Definition gapless (s : str) : bool := forallb (fun c => negb (gap c)) s.
Definition worded (s : str) : bool := match s with [] | [111%N; 114%N] => false | _ => true end.
Definition words (s : str) : list str := filter worded (pieces s).
Definition named_well (s : str) : Prop := gapless s = true /\ worded s = true.
Lemma pieces_one : forall a, gapless a = true -> pieces a = [a].
Proof. induction a as [|c a IH]; intros H; [reflexivity|]. cbn in *. apply andb_true_iff in H as [H1 H2]. apply negb_true_iff in H1. rewrite H1, (IH H2). reflexivity. Qed.
Lemma pieces_cut : forall a c t, gapless a = true -> gap c = true -> pieces (a ++ c :: t) = a :: pieces t.
Proof. induction a as [|x a IH]; intros c t H G; [cbn; rewrite G; reflexivity|]. cbn in *. apply andb_true_iff in H as [H1 H2]. apply negb_true_iff in H1. rewrite H1, (IH c t H2 G). reflexivity. Qed.
Lemma words_one : forall a, named_well a -> words a = [a].
Proof. intros a [H1 H2]. unfold words. rewrite (pieces_one a H1). cbn [filter]. rewrite H2. reflexivity. Qed.
Lemma words_comma : forall a t, named_well a -> words (a ++ lit ", " ++ t) = a :: words t.
Proof. intros a t [H1 H2]. unfold words. change (lit ", " ++ t) with (44%N :: 32%N :: t). rewrite (pieces_cut a 44%N _ H1 eq_refl). change (pieces (32%N :: t)) with ([] :: pieces t). cbn [filter]. rewrite H2. reflexivity. Qed.
Lemma words_final : forall b, named_well b -> words (lit "or " ++ b) = [b].
Proof. intros b Hb. unfold words. change (pieces (lit "or " ++ b)) with ([111%N; 114%N] :: pieces b). cbn [filter worded]. exact (words_one b Hb). Qed.
Lemma words_or : forall a b, named_well a -> named_well b -> words (a ++ lit " or " ++ b) = [a; b].
Proof.
  intros a b [H1 H2] Hb. unfold words. change (lit " or " ++ b) with (32%N :: lit "or " ++ b). rewrite (pieces_cut a 32%N _ H1 eq_refl). cbn [filter]. rewrite H2.
  f_equal. exact (words_final b Hb).
Qed.
Lemma words_listing : forall l, Forall named_well l -> words (listing l) = l.
Proof.
  assert (M : forall l a b, Forall named_well (a :: b :: l) -> words (listing_more (a :: b :: l)) = a :: b :: l).
  { induction l as [|c l IH]; intros a b H; inversion H as [|? ? Ha H']; subst.
    - inversion H' as [|? ? Hb _]; subst. change (listing_more [a; b]) with (a ++ lit ", " ++ (lit "or " ++ b)). rewrite (words_comma a _ Ha). f_equal. exact (words_final b Hb).
    - change (listing_more (a :: b :: c :: l)) with (a ++ lit ", " ++ listing_more (b :: c :: l)). rewrite (words_comma a _ Ha). f_equal. apply IH. exact H'. }
  intros [|a [|b [|c l]]] H; [reflexivity|inversion H; subst; cbn [listing]; apply words_one; assumption| |apply M, H].
  inversion H as [|? ? Ha H']; subst. inversion H'; subst. cbn [listing]. apply words_or; assumption.
Qed.
Lemma names_well : Forall (fun x => named_well (snd x)) rule_names.
Proof.
  assert (E : forallb (fun x => gapless (snd x) && worded (snd x)) rule_names = true) by (vm_compute; reflexivity). rewrite forallb_forall in E.
  apply Forall_forall. intros x Hx. specialize (E x Hx). apply andb_true_iff in E. exact E.
Qed.
Fixpoint apart (l : list str) : bool := match l with [] => true | a :: r => negb (existsb (str_eqb a) r) && apart r end.
Lemma apart_nodup : forall l, apart l = true -> NoDup l.
Proof.
  induction l as [|a l IH]; intros H; [constructor|]. cbn in H. apply andb_true_iff in H as [H1 H2]. constructor; [|auto]. intros I. apply negb_true_iff in H1.
  assert (T : existsb (str_eqb a) l = true) by (apply existsb_exists; exists a; split; [exact I|apply str_eqb_eq; reflexivity]). congruence.
Qed.
Lemma names_apart : NoDup (map snd rule_names).
Proof. apply apart_nodup. vm_compute. reflexivity. Qed.
Lemma where_in : forall p l, NoDup (map snd l) -> forall (r : rule) (n : str), In (r, n) l -> In n (map snd (filter (fun x => p (fst x)) l)) <-> p r = true.
Proof.
  intros p l N r n I. rewrite in_map_iff. split.
  - intros ([r' n'] & E & F). cbn in E. subst n'. apply filter_In in F as [F1 F2]. cbn in F2. assert (X : (r', n) = (r, n)); [|injection X as ->; exact F2].
    clear F2. induction l as [|[a b] l IH]; [contradiction|]. cbn in N. inversion N as [|? ? N1 N2]; subst. destruct I as [I|I], F1 as [F|F]; try congruence.
    + injection I as -> ->. exfalso. apply N1. apply in_map_iff. exists (r', n). auto.
    + injection F as -> ->. exfalso. apply N1. apply in_map_iff. exists (r, n). auto.
    + auto.
  - intros P. exists (r, n). split; [reflexivity|]. apply filter_In. split; [exact I|exact P].
Qed.
Lemma listing_read_in : forall (l : list (rule * str)) p q, Forall (fun x => named_well (snd x)) l -> NoDup (map snd l) ->
  listing (map snd (filter (fun x => p (fst x)) l)) = listing (map snd (filter (fun x => q (fst x)) l)) -> forall r n, In (r, n) l -> p r = q r.
Proof.
  intros l p q F N E r n I.
  assert (W : forall p : rule -> bool, Forall named_well (map snd (filter (fun x => p (fst x)) l))).
  { intros p0. apply Forall_forall. intros x Hx. apply in_map_iff in Hx as (y & <- & Hy). apply filter_In in Hy as [Hy _]. exact (proj1 (Forall_forall _ _) F y Hy). }
  pose proof (words_listing _ (W p)) as Wp. rewrite E, (words_listing _ (W q)) in Wp. pose proof (where_in p _ N r n I) as Hp. pose proof (where_in q _ N r n I) as Hq.
  rewrite <- Wp in Hp. destruct (p r), (q r); try reflexivity; exfalso.
  - pose proof (proj1 Hq (proj2 Hp eq_refl)) as X. discriminate X.
  - pose proof (proj1 Hp (proj2 Hq eq_refl)) as X. discriminate X.
Qed.
Lemma names_where_eq : forall p, names_where p = map snd (filter (fun x => p (fst x)) rule_names).
Proof. reflexivity. Qed.
Lemma listing_read : forall p q, listing (names_where p) = listing (names_where q) -> forall r n, In (r, n) rule_names -> p r = q r.
Proof. intros p q E. rewrite !names_where_eq in E. revert E. generalize names_well names_apart. generalize rule_names. intros l F N E. exact (listing_read_in l p q F N E). Qed.
Lemma messages_expect : forall U f g s t i yes no j yes' no', parse U f s = Ret (Err SMParseError) -> parse U g t = Ret (Err SMParseError) -> message U s = message U t ->
  parse_error U s = Some (i, yes, no) -> parse_error U t = Some (j, yes', no') -> forall r, In r yes <-> In r yes'.
Proof.
  intros U f g s t i yes no j yes' no' Hs Ht E Ps Pt r. destruct (refused_message U f s Hs) as (i1 & y1 & m & k & p & P1 & _ & M & L & _ & Y). destruct (refused_message U g t Ht) as (i2 & y2 & m' & k' & p' & P2 & _ & M' & L' & _ & Y').
  rewrite Ps in P1. injection P1 as <- <- ->. rewrite Pt in P2. injection P2 as <- <- ->. rewrite E, M' in M. injection M as ->. destruct (layout_read _ _ _ _ _ _ _ _ _ _ _ L L') as (_ & _ & _ & _ & W).
  rewrite <- Y, <- Y'. destruct (variant r) eqn:V.
  - apply variant_in in V. unfold variants in V. apply in_map_iff in V as ([r' n] & <- & I). cbn [fst]. rewrite (listing_read p p' W r' n I). reflexivity.
  - pose proof (error_variants _ _ _ _ _ Ps) as F1. pose proof (error_variants _ _ _ _ _ Pt) as F2. rewrite Forall_forall in F1, F2. split; intros H.
    + apply Y, F1 in H. congruence.
    + apply Y', F2 in H. congruence.
Qed.
