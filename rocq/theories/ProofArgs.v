(** Argument lists and calls. *)
From Verif Require Import Base Ast Display SmError Peg Grammar Climber Build SpecAst SpecPeg SpecClimb SpecParse SpecSyntax.
From Verif Require Import ProofAst ProofDisplay ProofPeg ProofPegShift ProofSym ProofGrammar ProofClimber ProofBuild ProofPos ProofSpace ProofLex ProofToken ProofNode ProofAtom ProofTerm ProofExpr ProofGroup ProofCall.
Local Open Scope nat_scope.
Local Open Scope outcome_scope.

Section Args.
  Variable U : unicode.
  Notation ev := (ev U grammar skip_body).
  Notation fails := (fails U).
  Notation tstop := (tstop U).
  Notation expr_means := (expr_means U).
  Notation expr_stop := (expr_stop U).
  Notation node_means := (node_means U).
  Hypothesis HU : sane U.

  Lemma ok_Colon : forall c p w st, colon_char c = true ->
    ev (ECall R_Colon) NonAtomic false (mkPs p (c :: w) st) (POk (mkPs (p + 1) w st) [Node R_Colon p (p + 1) [c] []]).
  Proof.
    intros c p w st H. apply ev_call. cbn [grammar]. apply (ok_rule U R_Colon _ NonAtomic p [c] w st st). apply ev_atomic.
    apply orb_prop in H as [H|H]; apply N.eqb_eq in H; subst c.
    - apply ev_else_ok. apply (ev_str U grammar skip_body (lit ":")).
    - apply ev_else_err; [apply er_str; reflexivity|]. apply (ev_str U grammar skip_body [65306%N]).
  Qed.
  Lemma er_Colon : forall k q p w st, head_is colon_char w = false -> fails (ECall R_Colon) k q (mkPs p w st).
  Proof.
    intros k q p w st H. apply er_call, er_rule, er_atomic, er_else; apply er_str;
      (destruct w as [|c w]; [reflexivity|]; apply strip_head; intros <-; discriminate H).
  Qed.
  Lemma ends_facts : forall c, ends c = true -> colon_char c = false /\ xid_continue U c = false /\ dead U c = true.
  Proof.
    intros c H. unfold ends in H. cbn [existsb] in H.
    repeat (apply orb_prop in H as [H|H]; [apply N.eqb_eq in H; subst c|]); [repeat split| | | | | | |discriminate].
    1-4: repeat split.
    - split; [reflexivity|]. split; [apply (sign_quiet U HU); reflexivity|]. apply dead_sign; [exact HU|reflexivity..].
    - split; [reflexivity|]. split; [apply (sign_quiet U HU); reflexivity|]. apply dead_sign; [exact HU|reflexivity..].
  Qed.
  Lemma white_xid : forall ws w, spacing ws = true -> head_is (xid_continue U) w = false -> head_is (xid_continue U) (ws ++ w) = false.
  Proof.
    intros [|c ws] w H Hw; [exact Hw|]. cbn [app head_is].
    apply (spacing_quiet U HU c _ H).
  Qed.
  Lemma colon_facts : forall c, colon_char c = true -> xid_continue U c = false /\ dead U c = true /\ forall w, solid (c :: w) = true.
  Proof.
    intros c H. apply orb_prop in H as [H|H]; apply N.eqb_eq in H; subst c; [repeat split|].
    split; [apply (sign_quiet U HU); reflexivity|]. split; [|reflexivity]. apply dead_sign; [exact HU|reflexivity..].
  Qed.

  (** ** Arguments without a keyword *)
  Definition keyed : pexp rule :=
    ERestore (ESeq (EThen (EThen (EThen (EThen (ECall R_SYMBOL) ESkip) (ECall R_Colon)) ESkip) (ECall R_expr))).
  (** the text does not start with a word and a colon *)
  Definition kv_free (x : str) : Prop :=
    x <> [] /\ head_is (word_head U) x = false \/
    exists y g v, x = y ++ g ++ v /\ word U y = true /\ spacing g = true /\ head_is (xid_continue U) (g ++ v) = false /\
      (v = [] \/ v <> [] /\ (forall w, solid (v ++ w) = true) /\ head_is colon_char v = false \/ g = [] /\ exists v', v = 58%N :: 58%N :: v').
  Lemma er_keyed_in : forall x p ws v0 st, kv_free x -> spacing ws = true -> head_is colon_char v0 = false -> head_is (xid_continue U) v0 = false -> solid v0 = true ->
    fails keyed NonAtomic false (mkPs p (x ++ ws ++ v0) st).
  Proof.
    intros x p ws v0 st H Hws C1 C2 C3. apply er_restore.
    destruct H as [[H0 H]|(y & g & v & -> & Hy & Hg & Hx & Hv)].
    - apply er_seq0. do 4 apply er_then. apply er_SYMBOL. destruct x; [congruence|exact H].
    - rewrite <- !app_assoc.
      assert (E1 : ev (ECall R_SYMBOL) NonAtomic false (mkPs p (y ++ g ++ v ++ ws ++ v0) st)
        (POk (mkPs (p + length y) (g ++ v ++ ws ++ v0) st) (node_of R_SYMBOL NonAtomic p y []))).
      { apply ok_SYMBOL; [exact Hy|]. rewrite app_assoc. destruct (g ++ v) as [|d u] eqn:E; [|exact Hx].
        cbn [app]. apply white_xid; [exact Hws|exact C2]. }
      assert (Q : forall s1, ev ESkip NonAtomic false (mkPs (p + length y) (g ++ v ++ ws ++ v0) st) (POk s1 []) -> stk s1 = st ->
        fails (ECall R_Colon) NonAtomic false s1 ->
        fails (ESeq (EThen (EThen (EThen (EThen (ECall R_SYMBOL) ESkip) (ECall R_Colon)) ESkip) (ECall R_expr))) NonAtomic false
          (mkPs p (y ++ g ++ v ++ ws ++ v0) st)).
      { intros s1 Hs St Hf. pose proof (ok_then1 U _ _ _ _ _ _ _ _ E1 Hs) as E2.
        pose proof (ev_then U grammar skip_body _ _ _ _ _ _ _ _ E2 Hf) as E3. cbn [prepend] in E3.
        eapply er_seq with (s1 := s1); [|exact St].
        do 2 (apply ev_then_err). exact E3. }
      destruct Hv as [-> |[(N & S & Hv)|(-> & v' & ->)]].
      + apply (Q (mkPs (p + length y + length (g ++ ws)) (v0) st)); [|reflexivity|apply er_Colon; exact C1].
        cbn [app]. rewrite app_assoc. apply skip_spacing; [|exact C3]. apply spacing_app; assumption.
      + apply (Q (mkPs (p + length y + length g) (v ++ ws ++ v0) st)); [|reflexivity|apply er_Colon].
        * apply skip_spacing; [exact Hg|apply S].
        * destruct v; [congruence|exact Hv].
      + cbn [app] in *. eapply er_seq2; [|apply er_expr_dead with (c := 58%N) (w := v' ++ ws ++ v0); reflexivity|reflexivity].
        pose proof (skip_nothing U (p + length y) (58%N :: 58%N :: v' ++ ws ++ v0) st eq_refl) as K1.
        pose proof (ok_then1 U _ _ _ _ _ _ _ _ E1 K1) as E2.
        pose proof (ok_then U _ _ _ _ _ _ _ _ _ E2 (ok_Colon 58%N _ (58%N :: v' ++ ws ++ v0) st eq_refl)) as E3.
        exact (ok_then1 U _ _ _ _ _ _ _ _ E3 (skip_nothing U _ (58%N :: v' ++ ws ++ v0) st eq_refl)).
  Qed.
  Lemma er_keyed : forall x p ws c w st, kv_free x -> spacing ws = true -> ends c = true ->
    fails keyed NonAtomic false (mkPs p (x ++ ws ++ c :: w) st).
  Proof.
    intros x p ws c w st H Hws Hc. destruct (ends_facts c Hc) as (C1 & C2 & C3). apply er_keyed_in; [exact H|exact Hws|exact C1|exact C2|apply (ends_solid U HU); exact Hc].
  Qed.

  Definition Qkv (r : option str * outcome ast) (T : tree rule) : Prop :=
    t_rule T = R_apply_kv /\ forall f i, orel sim_kv (parse_apply_kv (parse_expr f i) T)
      (v <- snd r; Ret (match fst r with None => EmptyStatement | Some k => ast_symbol k end, v)).
  Inductive kv_means : str -> option str * outcome ast -> Prop :=
  | kv_plain : forall x o, expr_means x o -> kv_free x -> kv_means x (None, o)
  | kv_keyed : forall k g1 c g2 y o, word U k = true -> spacing g1 = true -> colon_char c = true -> spacing g2 = true ->
      front y = true -> expr_means y o -> kv_means (k ++ g1 ++ c :: g2 ++ y) (Some k, o).

  Lemma elem_kv : forall x r, kv_means x r -> elem_means U (ECall R_apply_kv) x (Qkv r).
  Proof.
    intros x r H p ws c w st Hws Hc. destruct (ends_facts c Hc) as (C1 & C2 & C3). pose proof (ends_stop U HU ws c w Hws Hc) as S.
    destruct H as [x o Hx Hf|k g1 d g2 y o Hk H1 Hd H2 Fy Hy].
    - destruct (expr_lands U x o NonAtomic p ws (c :: w) st Hws Hx S) as (s & T & E & L & Q).
      pose proof (ev_else_err U _ _ _ _ _ _ (er_keyed x p ws c w st Hf Hws Hc) (ok_restore U _ _ _ _ _ _ E)) as X.
      pose proof (ev_rule U grammar skip_body R_apply_kv _ _ _ _ _ X) as X2. cbn [rule_res emits] in X2.
      exists s. eexists. split; [apply ev_call; exact X2|]. split; [exact L|]. split; [reflexivity|]. intros f i.
      unfold parse_apply_kv. cbn [t_inner parse_apply_kv_loop]. destruct Q as [R M]. rewrite R. cbn [fst snd].
      eapply orel_bind; [apply M|]. intros a b Hab. split; [reflexivity|exact Hab].
    - destruct (expr_lands U y o NonAtomic (p + length k + length g1 + 1 + length g2) ws (c :: w) st Hws Hy S) as (s & T & E & L & Q).
      destruct (colon_facts d Hd) as (D1 & D2 & D3).
      assert (X : ev keyed NonAtomic false (mkPs p ((k ++ g1 ++ d :: g2 ++ y) ++ ws ++ c :: w) st)
        (POk s ((node_of R_SYMBOL NonAtomic p k [] ++ [Node R_Colon (p + length k + length g1) (p + length k + length g1 + 1) [d] []]) ++ [T]))).
      { replace ((k ++ g1 ++ d :: g2 ++ y) ++ ws ++ c :: w) with (k ++ g1 ++ d :: g2 ++ y ++ ws ++ c :: w)
          by (rewrite <- !app_assoc; cbn [app]; rewrite <- app_assoc; reflexivity). apply ok_restore, ok_seq.
        eapply ok_then; [|exact E].
        eapply ok_then1; [|apply skip_spacing; [exact H2|apply front_solid; exact Fy]].
        eapply ok_then; [|apply ok_Colon; exact Hd]. eapply ok_then1.
        - apply ok_SYMBOL; [exact Hk|]. apply white_xid; [exact H1|exact D1].
        - apply skip_spacing; [exact H1|apply D3]. }
      pose proof (ev_else_ok U grammar skip_body _ (ERestore (ECall R_expr)) _ _ _ _ _ X) as X1.
      pose proof (ev_rule U grammar skip_body R_apply_kv _ _ _ _ _ X1) as X2. cbn [rule_res emits] in X2.
      exists s. eexists. split; [apply ev_call; exact X2|]. split; [eapply lands_pos; [exact L|rewrite !app_length; cbn [length]; rewrite !app_length; unfold str, char in *; lia]|]. split; [reflexivity|]. intros f i.
      unfold parse_apply_kv. unfold node_of; cbn [t_inner emits negb app parse_apply_kv_loop t_rule t_text]. destruct Q as [R M]. rewrite R. cbn [fst snd].
      eapply orel_bind; [apply M|]. intros a b Hab. split; [reflexivity|exact Hab].
  Qed.

  (** ** Argument lists *)
  Fixpoint gather (l : list (option str * outcome ast)) (args : list ast) (kws : list (ast * ast)) : outcome (list ast * list (ast * ast)) :=
    match l with
    | [] => Ret (args, kws)
    | (None, o) :: l' => v <- o; gather l' (args ++ [v]) kws
    | (Some k, o) :: l' => v <- o; gather l' args (btree_insert ast_compare (ast_symbol k) v kws)
    end.
  Definition apply_means (x : str) (o : outcome parameter) : Prop :=
    (exists v, x = 40%N :: v) /\
    forall p w st, exists T,
      ev (ECall R_apply) CompoundAtomic false (mkPs p (x ++ w) st) (POk (mkPs (p + length x) w st) [T]) /\
      t_rule T = R_apply /\ forall f i, orel sim_param (parse_apply f i (parse_expr f i) T) o.
  Definition gathered (l : list (option str * outcome ast)) : outcome parameter :=
    '(args, kws) <- gather l [] []; Ret (mkParam args kws default_position).

  Lemma er_kv_close : forall p w st, fails (ECall R_apply_kv) NonAtomic false (mkPs p (41%N :: w) st).
  Proof.
    intros. apply er_call, er_rule, er_else; apply er_restore.
    - apply er_seq0. do 4 apply er_then. apply er_SYMBOL. reflexivity.
    - apply er_expr_dead. reflexivity.
  Qed.
  Inductive kv_list : list (tree rule) -> list (option str * outcome ast) -> Prop :=
  | kl_nil : kv_list [] []
  | kl_comma : forall T ts l, t_rule T = R_Comma -> kv_list ts l -> kv_list (T :: ts) l
  | kl_item : forall T r ts l, Qkv r T -> kv_list ts l -> kv_list (T :: ts) (r :: l).
  Lemma kv_list_loop : forall f i ts l, kv_list ts l -> forall a a' m m', Forall2 sim a a' -> Forall2 sim_kv m m' ->
    orel (fun x y => Forall2 sim (fst x) (fst y) /\ Forall2 sim_kv (snd x) (snd y)) (parse_apply_loop (parse_expr f i) ts a m) (gather l a' m').
  Proof.
    intros f i ts l H. induction H as [|T ts l HT H IH|T [k o] ts l [R M] H IH]; intros a a' m m' Ha Hm.
    - split; assumption.
    - cbn [parse_apply_loop]. rewrite HT. apply IH; assumption.
    - cbn [parse_apply_loop]. rewrite R. specialize (M f i). cbn [fst snd] in M.
      destruct (parse_apply_kv (parse_expr f i) T) as [[k1 v1]|e|], o as [v|e'|]; cbn [orel obind] in M; try contradiction;
        destruct k as [k|]; cbn [obind orel gather fst]; try exact M; try exact Logic.I.
      + destruct M as [M1 M2]. cbn [fst snd] in M1, M2. subst k1. apply IH; [exact Ha|]. apply btree_insert_sim; assumption.
      + destruct M as [M1 M2]. cbn [fst snd] in M1, M2. subst k1. apply IH; [|exact Hm]. apply Forall2_app; [exact Ha|]. constructor; [exact M2|constructor].
  Qed.
  Definition kv_arg (a : arg (option str * outcome ast)) : elem := mkElem (a_comma a) (a_gap a) (a_text a) (a_space a) (Qkv (a_value a)).
  Lemma good_kv_args : forall l, Forall (good_arg kv_means) l -> Forall (good_elem U (ECall R_apply_kv)) (map kv_arg l).
  Proof.
    induction 1 as [|a l (H1 & H2 & H3 & H4 & H5) _ IH]; constructor; [|exact IH].
    split; [exact H1|]. split; [exact H2|]. split; [exact H3|]. split; [apply elem_kv; exact H4|exact H5].
  Qed.
  Lemma kv_list_trees : forall l L tt, Forall2 elem_trees (map kv_arg l) L -> Forall (fun T => t_rule T = R_Comma) tt ->
    kv_list (trees L ++ tt) (map a_value l).
  Proof.
    intros l L tt H Ht. revert L H. induction l as [|a l IH]; intros L H; inversion H as [|? q ? L' [H1 H2] H3]; subst; cbn [map trees flat_map app].
    - induction Ht; constructor; auto.
    - apply kl_comma; [exact H1|]. apply kl_item; [exact H2|]. apply IH. exact H3.
  Qed.
  Lemma parse_apply_list : forall f i r a b x ts l, kv_list ts l ->
    orel sim_param (parse_apply f i (parse_expr f i) (Node r a b x ts)) (gathered l).
  Proof.
    intros f i r a b x ts l H. unfold parse_apply, gathered. cbn [t_inner].
    pose proof (kv_list_loop f i ts l H [] [] [] [] (Forall2_nil _) (Forall2_nil _)) as X. eapply orel_bind; [exact X|].
    intros [u1 u2] [v1 v2] [H1 H2]. cbn. split; assumption.
  Qed.

  Lemma apply_none : forall g, spacing g = true -> apply_means (lit "(" ++ g ++ lit ")") (gathered []).
  Proof.
    intros g Hg. split; [eexists; reflexivity|]. intros p w st.
    assert (H : ev (EThen (EThen (EStr (lit "(")) ESkip) (EOpt (ERestore (ECall R_apply_kv)))) NonAtomic false
      (mkPs p (lit "(" ++ g ++ 41%N :: w) st) (POk (mkPs (p + 1 + length g) (41%N :: w) st) [])).
    { eapply ok_then0; [|apply no_opt, er_restore, er_kv_close]. eapply ok_then0; [apply (ev_str U grammar skip_body (lit "("))|]. apply skip_spacing; [exact Hg|reflexivity]. }
    destruct (ok_enclosed U HU (ECall R_apply_kv) 41%N eq_refl er_kv_close None Logic.I _ _ _ _ (p + 1 + length g) [] w st H (lands_here _ _ _) (Forall_nil _))
      as (Ls & tt & E2 & Q2 & T2).
    cbn [elems_text map concat trail_text length] in E2. rewrite !Nat.add_0_r in E2. inversion Q2; subst.
    eexists. split; [|split].
    - apply ev_call. cbn [grammar]. apply ev_atomic. apply (ok_rule U R_apply _ NonAtomic p (lit "(" ++ g ++ lit ")") w st st).
      apply ok_seq. rewrite <- !app_assoc. eapply ok_pos; [exact E2|lens].
    - reflexivity.
    - intros f i. apply parse_apply_list. cbn [app trees flat_map]. clear - T2. induction T2; constructor; auto.
  Qed.
  Lemma apply_some : forall g x r s l t, spacing g = true -> front x = true -> kv_means x r -> spacing s = true -> Forall (good_arg kv_means) l -> good_trail t ->
    apply_means (lit "(" ++ g ++ x ++ s ++ args_text l ++ trail_text t ++ lit ")") (gathered (r :: map a_value l)).
  Proof.
    intros g x r s l t Hg Fx Hx Hs Hl Ht. split; [eexists; reflexivity|]. intros p w st. pose proof (good_kv_args l Hl) as Gl.
    destruct (close_head U (ECall R_apply_kv) 41%N eq_refl t Ht (map kv_arg l) w Gl) as (c & v & Ev & Hc).
    destruct (elem_kv x r Hx (p + 1 + length g) s c v st Hs Hc) as (s1 & T & E & L & Q).
    unfold str, char in *. rewrite <- Ev in E, L.
    assert (H : ev (EThen (EThen (EStr (lit "(")) ESkip) (EOpt (ERestore (ECall R_apply_kv)))) NonAtomic false
      (mkPs p (lit "(" ++ g ++ x ++ s ++ elems_text (map kv_arg l) ++ trail_text t ++ 41%N :: w) st) (POk s1 [T])).
    { eapply ok_then0; [|apply ok_opt, ok_restore; exact E]. eapply ok_then0; [apply (ev_str U grammar skip_body (lit "("))|].
      apply skip_spacing; [exact Hg|]. apply front_solid. exact Fx. }
    destruct (ok_enclosed U HU (ECall R_apply_kv) 41%N eq_refl er_kv_close t Ht _ _ s1 [T] _ (map kv_arg l) w st H L Gl) as (Ls & tt & E2 & Q2 & T2).
    rewrite (elems_args _ kv_arg l (fun a => eq_refl)) in *.
    eexists. split; [|split].
    - apply ev_call. cbn [grammar]. apply ev_atomic. apply (ok_rule U R_apply _ NonAtomic p (lit "(" ++ g ++ x ++ s ++ args_text l ++ trail_text t ++ lit ")") w st st).
      apply ok_seq. rewrite <- !app_assoc. eapply ok_pos; [exact E2|lens].
    - reflexivity.
    - intros f i. apply parse_apply_list. cbn [app]. apply kl_item; [exact Q|]. apply kv_list_trees; assumption.
  Qed.

  (** ** Calls *)
  Definition call_args := list (str * str * outcome parameter).
  Definition calls_text (l : call_args) : str := concat (map (fun a => fst (fst a) ++ snd (fst a)) l).
  Definition good_call (a : str * str * outcome parameter) : Prop := inline (fst (fst a)) = true /\ apply_means (snd (fst a)) (snd a).
  Definition Qapply (o : outcome parameter) (T : tree rule) : Prop :=
    t_rule T = R_apply /\ forall f i, orel sim_param (parse_apply f i (parse_expr f i) T) o.
  Lemma ok_call_one : forall a p w st, good_call a -> exists T,
    ev (ESeq (EThen inline_rep (ECall R_apply))) CompoundAtomic false (mkPs p (fst (fst a) ++ snd (fst a) ++ w) st)
      (POk (mkPs (p + length (fst (fst a) ++ snd (fst a))) w st) [T]) /\ Qapply (snd a) T.
  Proof.
    intros [[g x] o] p w st [Hg [[v Hx] H]]. cbn [fst snd] in *. destruct (H (p + length g) w st) as (T & E & R & M).
    exists T. split; [|split; assumption]. apply ok_seq. eapply ok_then0.
    - apply inline_rep_ok; [exact Hg|]. subst x. reflexivity.
    - eapply ok_pos; [exact E|lens].
  Qed.
  Lemma ok_calls : forall l p w st, Forall good_call l -> called w = false -> exists ts,
    ev (ERep (ERestore (ESeq (EThen inline_rep (ECall R_apply))))) CompoundAtomic false (mkPs p (calls_text l ++ w) st)
      (POk (mkPs (p + length (calls_text l)) w st) ts) /\ Forall2 (fun a => Qapply (snd a)) l ts.
  Proof.
    induction l as [|a l IH]; intros p w st Hl Hw.
    - exists []. split; [|constructor]. cbn [calls_text map concat app length]. rewrite Nat.add_0_r. apply no_rep, er_restore, er_more_apply_head. exact Hw.
    - pose proof (Forall_inv Hl) as Ha. pose proof (Forall_inv_tail Hl) as Hl'.
      change (calls_text (a :: l)) with ((fst (fst a) ++ snd (fst a)) ++ calls_text l). rewrite <- !app_assoc.
      destruct (ok_call_one a p (calls_text l ++ w) st Ha) as (T & E & Q).
      destruct (IH (p + length (fst (fst a) ++ snd (fst a))) w st Hl' Hw) as (ts & E2 & Q2).
      exists (T :: ts). split; [|constructor; assumption].
      apply (ok_rep U _ CompoundAtomic false _ (mkPs (p + length (fst (fst a) ++ snd (fst a))) (calls_text l ++ w) st) [T]); [apply ok_restore; exact E|].
      eapply ok_pos; [exact E2|lens].
  Qed.
  Lemma call_sym_stop : forall a w, good_call a -> sym_stop U (fst (fst a) ++ snd (fst a) ++ w) = true.
  Proof.
    intros [[g x] o] w [Hg [[v ->] _]]. cbn [fst snd] in *. destruct g as [|c g]; [reflexivity|].
    unfold inline in Hg. cbn [forallb] in Hg. apply andb_prop in Hg as [Hc _]. unfold inline_space in Hc. do 2 apply andb_prop in Hc as [Hc _].
    destruct (white_quiet U HU c Hc) as (X1 & X2 & X3 & X4 & _). unfold sym_stop, path_more. cbn [app head_is].
    change (lit "::") with [58; 58]%N. rewrite !strip_other by assumption. rewrite X1. reflexivity.
  Qed.
  Lemma node_call : forall h a l, is_path U h -> Forall good_call (a :: l) -> forall S, (forall w, S w = true -> called w = false) ->
    node_in U S (h ++ calls_text (a :: l)) (ps <- oall (map snd (a :: l)); Ret (Function (symbol_from h) ps)).
  Proof.
    intros h a l Hh Hl S HS p w st Hw. apply HS in Hw. pose proof (Forall_inv Hl) as Ha. pose proof (Forall_inv_tail Hl) as Hl'.
    change (calls_text (a :: l)) with ((fst (fst a) ++ snd (fst a)) ++ calls_text l).
    destruct (ok_Symbol U CompoundAtomic h p (fst (fst a) ++ snd (fst a) ++ calls_text l ++ w) st Hh (call_sym_stop a _ Ha)) as [t Et].
    destruct (ok_call_one a (p + length h) (calls_text l ++ w) st Ha) as (T & E & Q).
    destruct (ok_calls l (p + length h + length (fst (fst a) ++ snd (fst a))) w st Hl' Hw) as (ts & E2 & Q2).
    assert (X : ev (ECall R_apply_call) CompoundAtomic false (mkPs p ((h ++ (fst (fst a) ++ snd (fst a)) ++ calls_text l) ++ w) st)
      (POk (mkPs (p + length (h ++ (fst (fst a) ++ snd (fst a)) ++ calls_text l)) w st)
        (node_of R_apply_call CompoundAtomic p (h ++ (fst (fst a) ++ snd (fst a)) ++ calls_text l) (Node R_Symbol p (p + length h) h t :: T :: ts)))).
    { apply ev_call. cbn [grammar]. apply ev_atomic. apply (ok_rule U R_apply_call _ CompoundAtomic p _ w st st).
      apply ok_seq. rewrite <- !app_assoc.
      apply (ok_then U _ _ _ _ _ (mkPs (p + length h + length (fst (fst a) ++ snd (fst a))) (calls_text l ++ w) st) [_; T]).
      - apply (ok_then U _ _ _ _ _ (mkPs (p + length h) (fst (fst a) ++ snd (fst a) ++ calls_text l ++ w) st) [_] _ [T]); [exact Et|exact E].
      - eapply ok_pos; [exact E2|lens]. }
    eexists. split; [|split].
    - apply ev_call. cbn [grammar]. apply (ok_rule U R_node _ CompoundAtomic p _ w st st).
      do 3 apply ev_else_ok. apply ev_else_err; [|apply ok_restore; exact X].
      apply er_paren. rewrite <- app_assoc. pose proof (path_head U h (((fst (fst a) ++ snd (fst a)) ++ calls_text l) ++ w) Hh) as P.
      unfold str, char in *. destruct (h ++ ((fst (fst a) ++ snd (fst a)) ++ calls_text l) ++ w) as [|d u]; [reflexivity|]. cbn [head_is] in *.
      apply N.eqb_neq. intros <-. discriminate P.
    - reflexivity.
    - intros f i. unfold parse_node. cbn [t_inner node_of emits t_rule]. unfold parse_apply_call. cbn [t_inner t_text].
      eapply orel_bind with (R := Forall2 sim_param).
      + assert (F : Forall2 (fun T o => Qapply o T) (T :: ts) (map snd (a :: l))).
        { cbn [map]. constructor; [exact Q|]. clear - Q2. induction Q2; constructor; auto. }
        eapply orel_omapM; [exact F|]. intros c o _ [R M]. rewrite R. apply M.
      + intros ps qs Hp. apply sim_params. exact Hp.
  Qed.
End Args.
