(** Positions of a parsed tree point into the text. *)
From Verif Require Import Base Ast SmError Peg Grammar Climber Build SpecPeg SpecPlace.
From Verif Require Import ProofPeg ProofGrammar ProofClimber ProofBuild.
Local Open Scope Z_scope.
Local Open Scope outcome_scope.

(** ** Lines and columns *)
Lemma last_line_eq : forall c s, last_line (c :: s) = if existsb is_feed (c :: s) then last_line s else c :: s.
Proof. reflexivity. Qed.
Lemma last_line_plain : forall s, existsb is_feed s = false -> last_line s = s.
Proof. intros [|c s] H; [reflexivity|]. rewrite last_line_eq, H. reflexivity. Qed.

Definition feeds (s : str) : Z := Z.of_nat (length (filter is_feed s)).
Lemma feeds_cons : forall c s, feeds (c :: s) = (if is_feed c then 1 else 0) + feeds s.
Proof. intros c s. unfold feeds. cbn [filter]. destruct (is_feed c); cbn [length]; lia. Qed.
Lemma existsb_cons : forall c (s : str), existsb is_feed (c :: s) = (is_feed c || existsb is_feed s)%bool.
Proof. reflexivity. Qed.

Lemma line_col_step : forall c s l k, is_feed c = false -> (c =? 13)%N = false -> line_col_loop (c :: s) l k = line_col_loop s l (k + 1).
Proof.
  intros c s l k H1 H2. unfold is_feed in H1. apply N.eqb_neq in H1. apply N.eqb_neq in H2. cbn [line_col_loop].
  destruct c as [|p]; [reflexivity|]. do 4 (destruct p as [p|p|]; try reflexivity; try (exfalso; lia)).
Qed.
Lemma line_col_feed : forall s l k, line_col_loop (10%N :: s) l k = line_col_loop s (l + 1) 1.
Proof. reflexivity. Qed.
Lemma line_col_return : forall s l k, line_col_loop (13%N :: s) l k =
  match s with 10%N :: s' => line_col_loop s' (l + 1) 1 | _ => line_col_loop s l (k + 1) end.
Proof. reflexivity. Qed.

Lemma line_col_spec : forall n s l k, (length s <= n)%nat -> line_col_loop s l k =
  (l + feeds s, if existsb is_feed s then 1 + Z.of_nat (length (last_line s)) else k + Z.of_nat (length s)).
Proof.
  induction n as [|n IH]; intros s l k Hn.
  - destruct s; [|cbn in Hn; lia]. cbn. f_equal; lia.
  - destruct s as [|c s]; [cbn; f_equal; lia|]. cbn [length] in Hn.
    destruct (is_feed c) eqn:E10.
    + apply N.eqb_eq in E10. subst c. rewrite line_col_feed, IH by lia. rewrite feeds_cons, existsb_cons, last_line_eq, existsb_cons.
      cbn [is_feed N.eqb Pos.eqb orb]. f_equal; [lia|]. destruct (existsb _ s) eqn:E; [reflexivity|]. rewrite last_line_plain by exact E. reflexivity.
    + assert (G : line_col_loop s l (k + 1) = (l + feeds (c :: s),
        if existsb is_feed (c :: s) then 1 + Z.of_nat (length (last_line (c :: s))) else k + Z.of_nat (length (c :: s)))).
      { rewrite IH by lia. rewrite feeds_cons, existsb_cons, last_line_eq, existsb_cons, E10. cbn [orb length].
        f_equal. destruct (existsb _ s) eqn:E; [reflexivity|]. lia. }
      destruct (c =? 13)%N eqn:E13; [|rewrite line_col_step by assumption; exact G].
      apply N.eqb_eq in E13. subst c. rewrite line_col_return. destruct s as [|d s']; [exact G|].
      destruct (d =? 10)%N eqn:Ed.
      * apply N.eqb_eq in Ed. subst d. rewrite line_col_feed in G. exact G.
      * assert (Q : forall X Y : Z * Z, match d with 10%N => X | _ => Y end = Y).
        { intros X Y. apply N.eqb_neq in Ed. destruct d as [|p]; [reflexivity|]. do 4 (destruct p as [p|p|]; try reflexivity; try (exfalso; lia)). }
        rewrite Q. exact G.
Qed.
Lemma line_col_place : forall text i, line_col (firstn i text) = place text i.
Proof.
  intros text i. unfold line_col, place, line_after, column_after. rewrite (line_col_spec _ _ _ _ (le_n _)). fold (feeds (firstn i text)).
  f_equal. destruct (existsb _ _) eqn:E; [reflexivity|]. rewrite last_line_plain by exact E. reflexivity.
Qed.

(** places are ordered like offsets *)
Lemma feeds_app : forall a b, feeds (a ++ b) = feeds a + feeds b.
Proof. intros a b. unfold feeds. rewrite filter_app, app_length. lia. Qed.
Lemma feeds_none : forall s, existsb is_feed s = false <-> feeds s = 0.
Proof.
  induction s as [|c s IH]; [split; reflexivity|]. rewrite existsb_cons, feeds_cons. unfold feeds in *.
  destruct (is_feed c); cbn [orb]; [split; [discriminate|lia]|]. rewrite IH. lia.
Qed.
Lemma last_line_app : forall a b, existsb is_feed b = false -> last_line (a ++ b) = last_line a ++ b.
Proof.
  intros a b H. induction a as [|c a IH]; [apply last_line_plain; exact H|].
  rewrite <- app_comm_cons, !last_line_eq, app_comm_cons, existsb_app, H, orb_false_r.
  destruct (existsb _ (c :: a)); [exact IH|reflexivity].
Qed.
Lemma place_order : forall text i j, (i <= j)%nat -> not_after (place text i) (place text j).
Proof.
  intros text i j H. unfold not_after, place, line_after, column_after. cbn [fst snd].
  assert (E : firstn j text = firstn i text ++ firstn (j - i) (skipn i text)).
  { rewrite firstn_skipn_comm. replace (i + (j - i))%nat with j by lia. rewrite <- (firstn_skipn i (firstn j text)) at 1.
    rewrite firstn_firstn, Nat.min_l by exact H. reflexivity. }
  rewrite E. fold (feeds (firstn i text)). fold (feeds (firstn i text ++ firstn (j - i) (skipn i text))). rewrite feeds_app.
  destruct (existsb is_feed (firstn (j - i) (skipn i text))) eqn:X.
  - left. assert (feeds (firstn (j - i) (skipn i text)) <> 0) by (intro Z; apply feeds_none in Z; congruence).
    unfold feeds in *. lia.
  - right. rewrite last_line_app, app_length by exact X. apply feeds_none in X. lia.
Qed.

(** ** Outcomes whose value satisfies a predicate *)
Definition oall {A} (Q : A -> Prop) (x : outcome A) : Prop := match x with Ret a => Q a | _ => True end.
Lemma oall_bind : forall A B (P : A -> Prop) (Q : B -> Prop) x f, oall P x -> (forall a, P a -> oall Q (f a)) -> oall Q (obind x f).
Proof. intros A B P Q [a|k|] f H HF; cbn in *; auto. Qed.
Lemma oall_weak : forall A (Q : A -> Prop) x, (forall a, Q a) -> oall Q x.
Proof. intros A Q [a|k|] H; cbn; auto. Qed.
Lemma oall_mapM : forall A B (Q : B -> Prop) (f : A -> outcome B) l, Forall (fun a => oall Q (f a)) l -> oall (Forall Q) (omapM f l).
Proof.
  induction 1 as [|a l Ha Hl IH]; cbn; [constructor|]. apply (oall_bind _ _ Q); [exact Ha|]. intros b Hb.
  apply (oall_bind _ _ (Forall Q)); [exact IH|]. intros bs Hbs. cbn. constructor; assumption.
Qed.

Lemma Forall_concat : forall A (P : A -> Prop) l, Forall (Forall P) l -> Forall P (concat l).
Proof. induction 1; cbn; [constructor|]. apply Forall_app. auto. Qed.

(** the climber only combines *)
Section Climb.
  Context {I T : Type}.
  Variable get : I -> option (Z * assoc).
  Variable infix : T -> I -> T -> outcome T.
  Variable P : T -> Prop.
  Hypothesis Hin : forall a o b, P a -> P b -> oall P (infix a o b).
  Notation fine := (Forall (fun p : I * outcome T => oall P (snd p))).
  Lemma climb_all_aux : forall f,
    (forall lhs m ps, P lhs -> fine ps -> oall (fun x => P (fst x) /\ fine (snd x)) (climb_outer get infix f lhs m ps)) /\
    (forall m rhs ps, P rhs -> fine ps -> oall (fun x => P (fst x) /\ fine (snd x)) (climb_inner get infix f m rhs ps)).
  Proof.
    induction f as [|f [IHo IHi]]; [split; intros; exact Logic.I|]. split.
    - intros lhs m ps Hl Hp. rewrite climb_outer_S. destruct ps as [|[op x] ps1]; [cbn; auto|].
      destruct (get op) as [[pr a]|]; [|cbn; auto]. destruct (pr >=? m); [|cbn; auto].
      inversion Hp as [|? ? _ Hp1]; subst. destruct ps1 as [|[c y] ps2]; [exact Logic.I|]. inversion Hp1 as [|? ? Hy Hp2]; subst. cbn [snd] in Hy.
      apply (oall_bind _ _ P); [exact Hy|]. intros r0 Hr0.
      eapply oall_bind; [apply IHi; [exact Hr0|exact Hp2]|]. intros [r ps3] [Hr H3]. cbn [fst snd] in *.
      apply (oall_bind _ _ P); [apply Hin; assumption|]. intros l Hl'. apply IHo; assumption.
    - intros m rhs ps Hr Hp. rewrite climb_inner_S. destruct ps as [|[op x] ps1]; [cbn; auto|].
      destruct (get op) as [[pr a]|]; [|cbn; auto]. destruct (_ || _)%bool; [|cbn; auto].
      eapply oall_bind; [apply IHo; [exact Hr|exact Hp]|]. intros [r ps3] [Hr' H3]. cbn [fst snd] in *. apply IHi; assumption.
  Qed.
  Lemma climb_all : forall ps, fine ps -> oall P (climb get infix ps).
  Proof.
    intros [|[c x] ps] H; [exact Logic.I|]. inversion H as [|? ? Hx Hp]; subst. unfold climb.
    apply (oall_bind _ _ P); [exact Hx|]. intros l Hl. eapply oall_bind; [apply (proj1 (climb_all_aux _)); [exact Hl|exact Hp]|].
    intros [r ps'] [Hr _]. exact Hr.
  Qed.
End Climb.

Section Located.
  Variable f text : str.
  Notation loc := (located f text).
  Notation spanned := (well_spanned text).

  Lemma spanned_inner : forall t, spanned t -> Forall spanned (t_inner t).
  Proof. intros t H. destruct H. assumption. Qed.
  Lemma spanned_marks : forall t, spanned t -> marks f text (get_position f text t) (t_text t).
  Proof.
    intros t H. destruct H as [r a b l Hab Ho Hl]. exists a, b. split; [exact Hab|]. split; [reflexivity|].
    unfold get_position. cbn [t_start t_stop]. rewrite !line_col_place. reflexivity.
  Qed.
  Lemma normal_kind : forall s, kind (symbol_from s) = Normal.
  Proof. reflexivity. Qed.
  Lemma loc_symbol : forall s, loc (ast_symbol s).
  Proof. intro s. apply located_symbol. apply normal_kind. Qed.
  Lemma loc_call : forall s args t, spanned t -> Forall loc args -> sign (kind s) = None ->
    loc (Function s [plain_param args (get_position f text t)]).
  Proof.
    intros s args t Ht Ha Hs. apply located_function. constructor; [|constructor]. cbn [ppos arguments options plain_param].
    split; [|split; [exact Ha|constructor]]. exists (t_text t). split; [apply spanned_marks; exact Ht|]. intros g Hg. congruence.
  Qed.
  Lemma infix_sign : forall s, sign (kind (infix_map s)) = None.
  Proof. intro s. unfold infix_map. repeat (match goal with |- context [if ?b then _ else _] => destruct b end); reflexivity. Qed.

  Lemma loc_infix : forall t, spanned t -> forall a o b, loc a -> loc b -> oall loc (infix_node (get_position f text t) a o b).
  Proof.
    intros t Ht a o b Ha Hb. unfold infix_node.
    assert (D : oall loc (parse_dot_call a b (get_position f text t))).
    { unfold parse_dot_call. destruct Hb as [|i|d|x|s|s Hs|s ps Hps]; try exact I.
      - apply loc_call; [exact Ht| |reflexivity]. constructor; [exact Ha|]. constructor; [apply located_integer|constructor].
      - apply loc_call; [exact Ht| |rewrite Hs; reflexivity]. auto.
      - destruct ps as [|q ps]; [exact I|]. inversion Hps as [|? ? (H1 & H2 & H3) Hps']; subst. cbn. apply located_function.
        constructor; [|exact Hps']. cbn. auto. }
    destruct (t_rule o); try exact D; cbn [oall]; apply loc_call; auto using infix_sign.
  Qed.

  Section Rec.
    Variable rec : tree rule -> outcome ast.
    (** well spanned, and [rec] is fine on it and on everything below *)
    Inductive good : tree rule -> Prop :=
    | good_node : forall r a b x l, spanned (Node r a b x l) -> oall loc (rec (Node r a b x l)) -> Forall good l -> good (Node r a b x l).
    Lemma good_sp : forall t, good t -> spanned t.
    Proof. intros t H. destruct H. assumption. Qed.
    Lemma good_rec : forall t, good t -> oall loc (rec t).
    Proof. intros t H. destruct H. assumption. Qed.
    Lemma good_inner : forall t, good t -> Forall good (t_inner t).
    Proof. intros t H. destruct H. assumption. Qed.

    Lemma loc_integer : forall t, oall loc (parse_integer t).
    Proof. intro t. unfold parse_integer. eapply oall_bind; [apply (oall_weak _ (fun _ => True)); auto|]. intros; apply located_integer. Qed.

    Lemma loc_space_call : forall t, good t -> oall loc (parse_space_call f text t).
    Proof.
      intros t Ht. unfold parse_space_call. apply (oall_bind _ _ (Forall (Forall loc))).
      - apply oall_mapM. apply Forall_forall. intros c _. destruct (t_rule c); try exact I; cbn.
        + apply (oall_bind _ _ loc); [apply loc_integer|]. intros i Hi. cbn. auto.
        + constructor; [apply loc_symbol|constructor].
        + constructor.
      - intros st Hs. cbn. apply loc_call; auto using Forall_concat, infix_sign, good_sp.
    Qed.

    Lemma loc_string : forall t, oall loc (parse_string t).
    Proof.
      intro t. unfold parse_string. generalize (@nil char) as s. induction (t_inner t) as [|c l IH]; intro s; cbn; [apply located_string|].
      destruct (t_rule c); try exact I; auto; (apply (oall_bind _ _ (fun _ => True)); [apply oall_weak; auto|auto]).
    Qed.

    Lemma loc_list : forall t, good t -> oall loc (parse_list f text rec t).
    Proof.
      intros t Ht. unfold parse_list. apply (oall_bind _ _ (Forall (Forall loc))).
      - apply oall_mapM. eapply Forall_impl; [|apply good_inner, Ht]. intros c Hc. destruct (t_rule c); try exact I; cbn; [|constructor].
        apply (oall_bind _ _ loc); [apply good_rec, Hc|]. intros x Hx. cbn. auto.
      - intros v Hv. cbn. apply loc_call; auto using Forall_concat, good_sp.
    Qed.

    Lemma loc_data : forall t, good t -> oall loc (parse_data f text rec t).
    Proof.
      intros t Ht. unfold parse_data. pose proof (good_inner t Ht) as Hi. destruct (t_inner t) as [|c l]; [exact I|].
      inversion Hi as [|? ? Hc _]; subst.
      assert (W : forall A (x : outcome A), oall (fun _ => True) x) by (intros; apply oall_weak; auto).
      destruct (t_rule c); try exact I.
      - apply loc_list, Hc.
      - unfold parse_decimal. apply (oall_bind _ _ (fun _ => True)); [apply W|]. intros; apply located_decimal.
      - apply loc_integer.
      - unfold parse_byte. destruct (t_text c) as [|? [|b ds]]; try exact I. apply (oall_bind _ _ (fun _ => True)); [apply W|].
        intros ba _. apply (oall_bind _ _ (fun _ => True)); [apply W|]. intros; apply located_integer.
      - apply loc_string.
      - apply loc_symbol.
      - unfold parse_special. repeat (match goal with |- context [if ?b then _ else _] => destruct b end); cbn;
          [apply loc_symbol|apply located_boolean|apply located_boolean|exact I].
      - unfold parse_slot. apply (oall_bind _ _ (Forall loc)).
        + apply oall_mapM. apply Forall_forall. intros d _. destruct (t_rule d); try exact I; cbn; [|apply located_string].
          apply (oall_bind _ _ (fun _ => True)); [apply W|]. intros; apply located_integer.
        + intros sl Hs. apply loc_call; [apply good_sp, Hc|exact Hs|]. destruct (strip_prefix _ _); reflexivity.
      - unfold parse_in_out. apply (oall_bind _ _ (fun _ => True)); [apply W|]. intros i _.
        apply (oall_bind _ _ (fun s => kind s = Normal)).
        + match goal with |- oall _ (match ?x with _ => _ end) => destruct x as [|h hs] end; [exact I|].
          destruct h as [|p]; [exact I|]. repeat (destruct p as [p|p|]; try exact I; try reflexivity).
        + intros s Hs. apply loc_call; [apply good_sp, Hc| |rewrite Hs; reflexivity]. constructor; [apply located_integer|constructor].
    Qed.

    Lemma loc_insert : forall k v m, loc k -> loc v -> Forall (fun kv => loc (fst kv) /\ loc (snd kv)) m ->
      Forall (fun kv => loc (fst kv) /\ loc (snd kv)) (btree_insert ast_compare k v m).
    Proof.
      intros k v m Hk Hv. induction 1 as [|[k' v'] m [H1 H2] H IH]; cbn [btree_insert]; [constructor; [split|constructor]; assumption|].
      destruct (ast_compare k k'); constructor; cbn in *; auto.
    Qed.
    Lemma loc_kv : forall t, good t -> oall (fun kv => loc (fst kv) /\ loc (snd kv)) (parse_apply_kv rec t).
    Proof.
      intros t Ht. unfold parse_apply_kv.
      assert (G : forall l, Forall good l -> forall k v, loc k -> loc v -> oall (fun kv => loc (fst kv) /\ loc (snd kv)) (parse_apply_kv_loop rec l k v)).
      { induction 1 as [|c l Hc Hl IH]; intros k v Hk Hv; cbn; [auto|]. destruct (t_rule c); try exact I; auto.
        - apply (oall_bind _ _ loc); [apply good_rec, Hc|]. auto.
        - apply IH; [apply loc_symbol|exact Hv]. }
      apply G; [apply good_inner, Ht|apply located_empty|apply located_empty].
    Qed.
    Lemma loc_apply : forall t, good t -> oall (fun q => marks f text (ppos q) (t_text t) /\ Forall loc (arguments q) /\
      Forall (fun kv => loc (fst kv) /\ loc (snd kv)) (options q)) (parse_apply f text rec t).
    Proof.
      intros t Ht. unfold parse_apply.
      assert (G : forall l, Forall good l -> forall args kws, Forall loc args -> Forall (fun kv => loc (fst kv) /\ loc (snd kv)) kws ->
        oall (fun x => Forall loc (fst x) /\ Forall (fun kv => loc (fst kv) /\ loc (snd kv)) (snd x)) (parse_apply_loop rec l args kws)).
      { induction 1 as [|c l Hc Hl IH]; intros args kws Ha Hk; cbn [parse_apply_loop]; [cbn; auto|]. destruct (t_rule c); try exact I; auto.
        eapply oall_bind; [apply loc_kv, Hc|]. intros [k v] [H1 H2]. cbn [fst snd] in *.
        destruct k; apply IH; auto using loc_insert; apply Forall_app; auto. }
      eapply oall_bind; [apply G; [apply good_inner, Ht|constructor|constructor]|]. intros [args kws] [H1 H2]. cbn [oall fst snd ppos arguments options] in *.
      split; [apply spanned_marks, good_sp, Ht|auto].
    Qed.
    Lemma loc_apply_call : forall t, good t -> oall loc (parse_apply_call f text rec t).
    Proof.
      intros t Ht. unfold parse_apply_call. pose proof (good_inner t Ht) as Hi. destruct (t_inner t) as [|h l]; [exact I|].
      inversion Hi as [|? ? _ Hl]; subst.
      apply (oall_bind _ _ (Forall (fun q => (exists part, marks f text (ppos q) part) /\ Forall loc (arguments q) /\
        Forall (fun kv => loc (fst kv) /\ loc (snd kv)) (options q)))).
      - apply oall_mapM. eapply Forall_impl; [|exact Hl]. intros c Hc. destruct (t_rule c); try exact I.
        pose proof (loc_apply c Hc) as G. destruct (parse_apply f text rec c); cbn in *; auto. destruct G as (G1 & G2 & G3). eauto.
      - intros st Hs. apply located_function. eapply Forall_impl; [|exact Hs]. intros q ((part & H1) & H2 & H3). split; [|auto].
        exists part. split; [exact H1|]. discriminate.
    Qed.

    Lemma loc_index : forall t, good t -> oall loc (parse_index f text rec t).
    Proof.
      intros t Ht. unfold parse_index.
      assert (G : forall l, Forall good l -> forall a b c, loc a -> loc b -> loc c -> oall loc (parse_index_loop f text rec t l a b c)).
      { induction 1 as [|d l Hd Hl IH]; intros a b c Ha Hb Hc; cbn [parse_index_loop].
        - apply loc_call; [apply good_sp, Ht| |reflexivity]. auto.
        - destruct (t_rule d); try exact I; auto; try (apply good_rec; exact Hd);
            pose proof (good_inner d Hd) as Hi; destruct (t_inner d) as [|e m]; try exact I; inversion Hi; subst;
            (apply (oall_bind _ _ loc); [apply good_rec; assumption|auto]). }
      apply G; [apply good_inner, Ht|apply located_integer|apply loc_symbol|apply located_integer].
    Qed.
    Lemma loc_slice : forall t, good t -> oall (Forall loc) (parse_slice f text rec t).
    Proof.
      intros t Ht. unfold parse_slice. apply (oall_bind _ _ (Forall (Forall loc))).
      - apply oall_mapM. eapply Forall_impl; [|apply good_inner, Ht]. intros c Hc. destruct (t_rule c); try exact I; cbn; [|constructor].
        apply (oall_bind _ _ loc); [apply loc_index, Hc|]. intros x Hx. cbn. auto.
      - intros l Hl. apply Forall_concat, Hl.
    Qed.
    Lemma loc_node : forall t, good t -> oall loc (parse_node f text rec t).
    Proof.
      intros t Ht. unfold parse_node. pose proof (good_inner t Ht) as Hi. destruct (t_inner t) as [|c l]; [exact I|].
      inversion Hi as [|? ? Hc _]; subst. destruct (t_rule c); try exact I;
        [apply good_rec, Hc|apply loc_apply_call, Hc|apply loc_space_call, Hc|apply loc_data, Hc].
    Qed.
    Lemma prefix_kind : forall g, oall (fun s => kind s = Prefix g) (prefix_map g).
    Proof. intro g. unfold prefix_map. apply (oall_bind _ _ (fun _ => True)); [apply oall_weak; auto|]. reflexivity. Qed.
    Lemma suffix_kind : forall g, oall (fun s => kind s = Suffix g) (suffix_map g).
    Proof. intro g. unfold suffix_map. apply (oall_bind _ _ (fun _ => True)); [apply oall_weak; auto|]. reflexivity. Qed.
    Lemma loc_sign : forall s g p a, marks f text p g -> sign (kind s) = Some g -> loc a -> loc (Function s [plain_param [a] p]).
    Proof.
      intros s g p a Hm Hs Ha. apply located_function. constructor; [|constructor]. cbn. split; [|auto].
      exists g. split; [exact Hm|]. intros g' Hg. congruence.
    Qed.
    Lemma loc_term : forall t, good t -> oall loc (parse_term f text rec t).
    Proof.
      intros t Ht. unfold parse_term.
      assert (Pre : forall l, Forall (fun x => marks f text (snd x) (fst x)) l -> forall base, loc base -> oall loc (apply_prefixes l base)).
      { induction 1 as [|[g p] l Hm Hl IH]; intros base Hb; cbn [apply_prefixes]; [exact Hb|].
        apply (oall_bind _ _ (fun s => kind s = Prefix g)); [apply prefix_kind|]. intros s Hs. apply IH.
        apply (loc_sign s g); [exact Hm|rewrite Hs; reflexivity|exact Hb]. }
      assert (G : forall l, Forall good l -> forall base pre, loc base -> Forall (fun x => marks f text (snd x) (fst x)) pre ->
        oall loc (parse_term_loop f text rec l base pre)).
      { induction 1 as [|c l Hc Hl IH]; intros base pre Hb Hp; cbn [parse_term_loop]; [apply Pre; assumption|].
        destruct (t_rule c); try exact I.
        - apply (oall_bind _ _ loc); [apply loc_node, Hc|]. auto.
        - apply (oall_bind _ _ (Forall loc)); [apply loc_slice, Hc|]. intros new Hn. apply IH; [|exact Hp].
          apply loc_call; [apply good_sp, Hc| |reflexivity]. auto.
        - apply IH; [exact Hb|]. constructor; [|exact Hp]. apply spanned_marks, good_sp, Hc.
        - apply (oall_bind _ _ (fun s => kind s = Suffix (t_text c))); [apply suffix_kind|]. intros s Hs. apply IH; [|exact Hp].
          apply (loc_sign s (t_text c)); [apply spanned_marks, good_sp, Hc|rewrite Hs; reflexivity|exact Hb]. }
      apply G; [apply good_inner, Ht|apply located_empty|constructor].
    Qed.
  End Rec.

  Lemma expr_good : forall t, spanned t -> good (parse_expr f text) t.
  Proof.
    intro t. induction t as [r a b x l IH] using tree_ind'. intro Ht.
    assert (Hl : Forall (good (parse_expr f text)) l).
    { pose proof (spanned_inner _ Ht) as Hi. cbn [t_inner] in Hi. rewrite Forall_forall in *. auto. }
    constructor; [exact Ht| |exact Hl]. cbn [parse_expr]. apply climb_all.
    - intros. apply loc_infix; assumption.
    - apply Forall_map. eapply Forall_impl; [|exact Hl]. intros c Hc. cbn [snd]. unfold primary. destruct (t_rule c); try exact I.
      + apply good_rec, Hc.
      + apply loc_term, Hc.
  Qed.
  Lemma pairs_located : forall l, Forall spanned l -> oall loc (parse_pairs f text l).
  Proof.
    induction 1 as [|c l Hc Hl IH]; cbn [parse_pairs]; [apply located_empty|]. destruct (t_rule c); try exact I; auto.
    apply (oall_bind _ _ (fun x => loc (fst x))); [|intros [a e] Ha; exact Ha]. unfold parse_expression.
    assert (G : forall l, Forall spanned l -> forall base eos, loc base -> oall (fun x => loc (fst x)) (parse_expression_loop f text l base eos)).
    { induction 1 as [|d m Hd Hm IHm]; intros base eos Hb; cbn [parse_expression_loop]; [exact Hb|]. destruct (t_rule d); try exact I; auto.
      apply (oall_bind _ _ loc); [apply (good_rec _ d), expr_good, Hd|]. auto. }
    apply G; [apply spanned_inner, Hc|apply located_empty].
  Qed.
End Located.

Lemma parse_located : forall U f text a, parse U f text = Ret (Ok a) -> located f text a.
Proof.
  intros U f text a H. unfold parse in H. destruct (run_program U text) as [s ts|s ts| |] eqn:E; try discriminate.
  destruct (accepted_text U text s ts E) as (_ & _ & _ & Hs).
  pose proof (pairs_located f text ts Hs) as G. destruct (parse_pairs f text ts); try discriminate. cbn in *. congruence.
Qed.
Lemma marks_order : forall f text p part, marks f text p part -> file p = f /\ not_after (pstart p) (pend p).
Proof. intros f text p part (i & j & Hij & _ & ->). split; [reflexivity|]. cbn. apply place_order. lia. Qed.

