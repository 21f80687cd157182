(** Lists, calls and slices. *)
From Verif Require Import Base Ast Display SmError Peg Grammar Climber Build SpecAst SpecPeg SpecClimb SpecParse SpecSyntax.
From Verif Require Import ProofAst ProofDisplay ProofPeg ProofPegShift ProofSym ProofGrammar ProofClimber ProofBuild ProofPos ProofSpace ProofLex ProofToken ProofNode ProofAtom ProofTerm ProofExpr ProofGroup.
Local Open Scope nat_scope.
Local Open Scope outcome_scope.

Record arg (V : Type) := mkArg { a_comma : char; a_gap : str; a_text : str; a_space : str; a_value : V }.
Arguments mkArg {V}. Arguments a_comma {V}. Arguments a_gap {V}. Arguments a_text {V}. Arguments a_space {V}. Arguments a_value {V}.
Definition arg_text {V} (a : arg V) : str := a_comma a :: a_gap a ++ a_text a ++ a_space a.
Definition args_text {V} (l : list (arg V)) : str := concat (map arg_text l).

Section Call.
  Variable U : unicode.
  Notation ev := (ev U grammar skip_body).
  Notation fails := (fails U).
  Notation tstop := (tstop U).
  Notation term_means := (term_means U).
  Notation expr_means := (expr_means U).
  Notation expr_stop := (expr_stop U).
  Notation node_means := (node_means U).
  Hypothesis HU : sane U.

  (** ** Where no expression starts *)
  Definition dead (c : char) : bool :=
    negb (prefix_char c) && negb (joins U c) && negb (existsb (N.eqb c) [123; 91; 182; 8267; 35; 34]%N).
  Lemma er_node_dead : forall k q p c w st, dead c = true -> fails (ECall R_node) k q (mkPs p (c :: w) st).
  Proof.
    intros k q p c w st H. unfold dead in H. apply andb_prop in H as [H H3]. apply andb_prop in H as [_ H2].
    apply negb_true_iff in H2. apply negb_true_iff in H3. destruct (joins_off U (c :: w) H2) as (J1 & J2 & J3).
    assert (N : forall d, In d [123; 91; 182; 8267; 35; 34]%N -> (d =? c)%N = false).
    { intros d Hd. apply N.eqb_neq. intros ->. apply not_true_iff_false in H3. apply H3. apply existsb_exists. exists c. split; [exact Hd|apply N.eqb_refl]. }
    apply er_call, er_rule. repeat apply er_else.
    - apply er_paren. exact J1.
    - apply er_restore, er_apply_call_head. exact J3.
    - apply er_restore, er_derivative_head. exact J3.
    - apply er_restore, er_space_call_head; assumption.
    - apply er_restore, er_call, er_atomic, er_rule. repeat apply er_else.
      + apply er_dict. apply N. cbn; tauto.
      + apply er_list. apply N. cbn; tauto.
      + apply er_Special. unfold no_special.
        assert (X : forall d l, word_head U d = true -> strip_prefix (d :: l) (c :: w) = None).
        { intros d l Hd. apply strip_head. intros ->. cbn [head_is] in J3. congruence. }
        change (lit "null") with (110 :: lit "ull")%N. change (lit "true") with (116 :: lit "rue")%N. change (lit "false") with (102 :: lit "alse")%N.
        rewrite !X by reflexivity. reflexivity.
      + apply er_REPL. cbn [head_is]. rewrite !(N.eqb_sym c), !N by (cbn; tauto). reflexivity.
      + apply er_Slot. apply N. cbn; tauto.
      + apply er_Number. exact J2.
      + apply er_String_head; [apply N; cbn; tauto|exact J3].
      + apply er_Symbol. exact J3.
  Qed.
  Lemma er_expr_dead : forall k p c w st, dead c = true -> fails (ECall R_expr) k false (mkPs p (c :: w) st).
  Proof.
    intros k p c w st H. apply er_call, er_atomic, er_rule, er_seq0. do 2 apply er_then.
    apply er_call, er_atomic, er_rule, er_seq0, er_then. eapply ok_then0; [apply no_rep, er_Prefix|apply er_node_dead; exact H].
    unfold dead in H. apply andb_prop in H as [H _]. apply andb_prop in H as [H _]. apply negb_true_iff in H. exact H.
  Qed.
  Lemma dead_sign : forall c, existsb (N.eqb c) signs = true -> (128 <=? c)%N = true -> prefix_char c = false -> (c =? 182)%N = false -> (c =? 8267)%N = false -> dead c = true.
  Proof.
    intros c H L P A B. destruct (sign_quiet U HU c H) as [_ X]. apply N.leb_le in L. unfold dead. rewrite P. unfold joins. rewrite X.
    assert (NE : forall d, (d < 128)%N -> (c =? d)%N = false) by (intros d Hd; apply N.eqb_neq; lia).
    assert (D : digit c = false) by (unfold digit; apply andb_false_iff; right; apply N.leb_gt; lia).
    rewrite D, NE by reflexivity. cbn [existsb]. rewrite A, B, !NE by reflexivity. reflexivity.
  Qed.

  (** ** Lists *)
  Definition Qexpr (o : outcome ast) (T : tree rule) : Prop := t_rule T = R_expr /\ forall f i, orel sim (parse_expr f i T) o.
  Lemma expr_lands : forall x o k p ws w st, spacing ws = true -> expr_means x o -> expr_stop ws w -> exists s T,
    ev (ECall R_expr) k false (mkPs p (x ++ ws ++ w) st) (POk s [T]) /\ lands s (p + length x + length ws) w st /\ Qexpr o T.
  Proof.
    intros x o k p ws w st Hws H Hw. destruct (H k p ws w st Hw) as (s & T & E & Es & R & M). exists s, T. split; [exact E|]. split; [|split; assumption].
    destruct Es as [-> | ->]; [apply lands_here|]. exists ws. cbn. split; [exact Hws|]. auto.
  Qed.
  Lemma elem_expr : forall x o, expr_means x o -> elem_means U (ECall R_expr) x (Qexpr o).
  Proof. intros x o H p ws c w st Hw Hc. apply expr_lands; [exact Hw|exact H|]. apply ends_stop; assumption. Qed.

  Definition expr_arg (a : arg (outcome ast)) : elem := mkElem (a_comma a) (a_gap a) (a_text a) (a_space a) (Qexpr (a_value a)).
  Definition good_arg {V} (means : str -> V -> Prop) (a : arg V) : Prop :=
    comma_char (a_comma a) = true /\ spacing (a_gap a) = true /\ front (a_text a) = true /\ means (a_text a) (a_value a) /\ spacing (a_space a) = true.

  (** pairs with commas between them *)
  Inductive spaced (Q : outcome ast -> tree rule -> Prop) : list (tree rule) -> list (outcome ast) -> Prop :=
  | sp_nil : spaced Q [] []
  | sp_comma : forall T ts os, t_rule T = R_Comma -> spaced Q ts os -> spaced Q (T :: ts) os
  | sp_item : forall T o ts os, Q o T -> spaced Q ts os -> spaced Q (T :: ts) (o :: os).
  Lemma spaced_commas : forall Q tt, Forall (fun T => t_rule T = R_Comma) tt -> spaced Q tt [].
  Proof. induction 1; constructor; auto. Qed.
  Lemma spaced_trees : forall Q (f : arg (outcome ast) -> elem) l L tt, (forall a, about (f a) = Q (a_value a)) ->
    Forall2 elem_trees (map f l) L -> Forall (fun T => t_rule T = R_Comma) tt -> spaced Q (trees L ++ tt) (map a_value l).
  Proof.
    intros Q f l L tt Hf H Ht. revert L H. induction l as [|a l IH]; intros L H; inversion H as [|? q ? L' [H1 H2] H3]; subst; cbn [map trees flat_map app].
    - apply spaced_commas. exact Ht.
    - apply sp_comma; [exact H1|]. apply sp_item; [rewrite <- Hf; exact H2|]. apply IH. exact H3.
  Qed.
  Definition oall {V} (l : list (outcome V)) : outcome (list V) := omapM (fun o => o) l.
  Lemma spaced_collect : forall Q (g : tree rule -> outcome (list ast)) ts os, spaced Q ts os ->
    (forall T, t_rule T = R_Comma -> g T = Ret []) -> (forall T o, Q o T -> orel (Forall2 sim) (g T) (x <- o; Ret [x])) ->
    orel (Forall2 sim) (l <- omapM g ts; Ret (concat l)) (oall os).
  Proof.
    intros Q g ts os H Hc Hi. induction H as [|T ts os HT H IH|T o ts os HT H IH]; unfold oall in *; cbn [omapM]; [constructor| |].
    - rewrite Hc by exact HT. cbn [obind]. destruct (omapM g ts); cbn [obind concat app] in *; exact IH.
    - specialize (Hi T o HT). destruct (g T) as [y|k|], o as [x|k'|]; cbn [orel obind] in Hi |- *; try contradiction; try exact Hi.
      destruct (omapM g ts) as [ys|k|], (omapM (fun o => o) os) as [xs|k'|]; cbn [orel obind concat] in *; try contradiction; try exact IH.
      inversion Hi as [|? ? ? ? Hx Hn]; subst. inversion Hn; subst. cbn [app]. constructor; assumption.
  Qed.

  Definition list_node (vs : list ast) : ast := Function (symbol_from (lit "std::containers::List")) [plain_param vs default_position].
  Definition list_text (g x s : str) (l : list (arg (outcome ast))) (t : trail) : str :=
    lit "[" ++ g ++ x ++ s ++ args_text l ++ trail_text t ++ lit "]".
  Lemma elems_args : forall V (f : arg V -> elem) l, (forall a, elem_text (f a) = arg_text a) -> elems_text (map f l) = args_text l.
  Proof. intros V f l H. unfold elems_text, args_text. rewrite map_map. f_equal. apply map_ext. exact H. Qed.
  Lemma good_expr_args : forall l, Forall (good_arg expr_means) l -> Forall (good_elem U (ECall R_expr)) (map expr_arg l).
  Proof.
    induction 1 as [|a l (H1 & H2 & H3 & H4 & H5) _ IH]; constructor; [|exact IH].
    split; [exact H1|]. split; [exact H2|]. split; [exact H3|]. split; [apply elem_expr; exact H4|exact H5].
  Qed.
  Lemma data_brackets : forall x o, (forall w, exists v, x ++ w = 91%N :: v) ->
    (forall p w st, exists T, ev (ECall R_list) CompoundAtomic false (mkPs p (x ++ w) st) (POk (mkPs (p + length x) w st) [T]) /\
      t_rule T = R_list /\ forall f i, orel sim (parse_list f i (parse_expr f i) T) o) -> forall S, node_in U S x o.
  Proof.
    intros x o Hx H S. apply node_data; [apply plain_other; intro w; destruct (Hx w) as (v & Ev); unfold str, char in *; rewrite Ev; reflexivity|].
    intros p w st _. destruct (H p w st) as (T & E & R & M). eexists. split; [|split].
    - apply ev_call. cbn [grammar]. apply ev_atomic. apply (ok_rule U R_data _ CompoundAtomic p x w st st).
      do 6 apply ev_else_ok. apply ev_else_err; [|apply ok_restore; exact E].
      apply er_dict. destruct (Hx w) as (v & Ev). unfold str, char in *. rewrite Ev. reflexivity.
    - reflexivity.
    - intros f i. unfold parse_data. cbn [t_inner]. rewrite R. apply M.
  Qed.
  Lemma node_empty_list : forall g, spacing g = true -> forall S, node_in U S (lit "[" ++ g ++ lit "]") (Ret (list_node [])).
  Proof.
    intros g Hg S. apply data_brackets.
    - intro w. eexists. reflexivity.
    - intros p w st. eexists. split; [|split].
      + apply ev_call. cbn [grammar]. apply ev_atomic. apply (ok_rule U R_list _ NonAtomic p (lit "[" ++ g ++ lit "]") w st st).
        apply ok_seq. rewrite <- !app_assoc. eapply ok_then0.
        * eapply ok_then0; [apply (ev_str U grammar skip_body (lit "["))|]. apply skip_spacing; [exact Hg|reflexivity].
        * apply ev_else_ok. eapply ok_pos; [apply (ev_str U grammar skip_body (lit "]"))|lens].
      + reflexivity.
      + intros f i. reflexivity.
  Qed.
  Lemma er_expr_close : forall p w st, fails (ECall R_expr) NonAtomic false (mkPs p (93%N :: w) st).
  Proof. intros. apply er_expr_dead. reflexivity. Qed.
  Lemma front_not_close : forall x w, front x = true -> strip_prefix (lit "]") (x ++ w) = None.
  Proof.
    intros [|c x] w H; [discriminate|]. cbn [front] in H. apply andb_prop in H as [_ H]. apply negb_true_iff, N.eqb_neq in H.
    cbn [app]. apply strip_head. apply not_eq_sym. exact H.
  Qed.
  Lemma node_list : forall g x o s l t, spacing g = true -> front x = true -> expr_means x o -> spacing s = true ->
    Forall (good_arg expr_means) l -> good_trail t ->
    forall F, node_in U F (list_text g x s l t) (vs <- oall (o :: map a_value l); Ret (list_node vs)).
  Proof.
    intros g x o s l t Hg Fx Hx Hs Hl Ht F. apply data_brackets; [intro w; eexists; reflexivity|].
    intros p w st. pose proof (good_expr_args l Hl) as Gl.
    destruct (close_head U (ECall R_expr) 93%N eq_refl t Ht (map expr_arg l) w Gl) as (c & v & Ev & Hc).
    destruct (expr_lands x o NonAtomic (p + 1 + length g) s (c :: v) st Hs Hx (ends_stop U HU s c v Hs Hc)) as (s1 & T & E & L & Q).
    unfold str, char in *. rewrite <- Ev in E, L.
    destruct (ok_enclosed U HU (ECall R_expr) 93%N eq_refl er_expr_close t Ht _ _ s1 [T] _ (map expr_arg l) w st E L Gl) as (Ls & tt & E2 & Q2 & T2).
    rewrite (elems_args _ expr_arg l (fun a => eq_refl)) in *.
    eexists. split; [|split].
    - apply ev_call. cbn [grammar]. apply ev_atomic. apply (ok_rule U R_list _ NonAtomic p (list_text g x s l t) w st st).
      apply ok_seq. unfold list_text. rewrite <- !app_assoc. eapply ok_then0.
      + eapply ok_then0; [apply (ev_str U grammar skip_body (lit "["))|]. apply skip_spacing; [exact Hg|]. apply front_solid. exact Fx.
      + apply ev_else_err; [apply er_str, front_not_close; exact Fx|]. apply ok_restore, ok_seq.
        eapply ok_pos; [exact E2|]. lens.
    - reflexivity.
    - intros f i. unfold parse_list. cbn [t_inner]. cbn [node_of emits]. cbn [t_inner app].
      assert (S : spaced Qexpr (T :: trees Ls ++ tt) (o :: map a_value l)).
      { apply sp_item; [exact Q|]. apply (spaced_trees Qexpr expr_arg); [reflexivity|exact Q2|exact T2]. }
      pose proof (spaced_collect Qexpr (fun c => match t_rule c with R_Comma => Ret [] | R_expr => x <- parse_expr f i c; Ret [x] | _ => Panic PUnreachable end) _ _ S) as X.
      match type of X with ?A -> ?B -> _ => assert (XA : A); [intros T0 H0; rewrite H0; reflexivity|]; assert (XB : B) end.
      { intros T0 o0 [H0 M0]. rewrite H0. eapply orel_bind; [apply M0|]. intros a b Hab. cbn. constructor; [exact Hab|constructor]. }
      specialize (X XA XB). 
      match type of X with orel _ (obind ?A _) ?B => set (ma := A) in *; set (mb := B) in * end.
      destruct ma as [vs|k|], mb as [us|k'|]; cbn [orel obind] in X |- *; try contradiction; try exact X. apply sim_call. exact X.
  Qed.
End Call.
