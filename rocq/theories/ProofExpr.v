(** Expressions: operands separated by infix operators. *)
From Verif Require Import Base Ast Display SmError Peg Grammar Climber Build SpecAst SpecPeg SpecClimb SpecParse SpecSyntax.
From Verif Require Import ProofAst ProofDisplay ProofPeg ProofPegShift ProofSym ProofGrammar ProofClimber ProofBuild ProofPos ProofSpace ProofLex ProofToken ProofNode ProofAtom ProofTerm.
Local Open Scope nat_scope.
Local Open Scope outcome_scope.

(** ** Bracketings of related items *)
Section Related.
  Context {A B : Type}.
  Variable R : A -> B -> Prop.
  Inductive brel : bracketing A -> bracketing B -> Prop :=
  | br_leaf : forall x y, R x y -> brel (Leaf x) (Leaf y)
  | br_bin : forall l l' o o' r r', brel l l' -> R o o' -> brel r r' -> brel (Bin l o r) (Bin l' o' r').
  Lemma transfer : forall b ys, Forall2 R (written b) ys -> exists b', written b' = ys /\ brel b b'.
  Proof.
    induction b as [x|l IHl o r IHr]; intros ys H; cbn [written] in H.
    - inversion H as [|? y ? ? Hxy HN]; subst. inversion HN; subst. exists (Leaf y). split; [reflexivity|]. constructor. exact Hxy.
    - apply Forall2_app_inv_l in H as (y1 & y2 & H1 & H2 & ->). inversion H2 as [|? o' ? y3 Ho H3]; subst.
      destruct (IHl _ H1) as (l' & <- & Hl). destruct (IHr _ H3) as (r' & <- & Hr). exists (Bin l' o' r'). split; [reflexivity|]. constructor; assumption.
  Qed.
  Lemma brel_root : forall b b', brel b b' -> forall q, root_op b' = Some q -> exists p, root_op b = Some p /\ R p q.
  Proof. intros b b' [x y H|l l' o o' r r' Hl Ho Hr] q E; [discriminate|]. cbn in *. injection E as <-. eauto. Qed.
  Lemma brel_well : forall sA rA sB rB, (forall a b, R a b -> sA a = sB b /\ rA a = rB b) ->
    forall b b', brel b b' -> well_bracketed sA rA b -> well_bracketed sB rB b'.
  Proof.
    intros sA rA sB rB HR b b' H. induction H as [x y H|l l' o o' r r' Hl IHl Ho Hr IHr]; intro W; [constructor|].
    inversion W as [|? ? ? W1 W2 C1 C2]; subst. destruct (HR _ _ Ho) as [E1 E2]. constructor; auto.
    - intros q E. destruct (brel_root _ _ Hl q E) as (p & Ep & Hp). destruct (HR _ _ Hp) as [E3 E4]. rewrite <- E1, <- E2, <- E3. apply C1. exact Ep.
    - intros q E. destruct (brel_root _ _ Hr q E) as (p & Ep & Hp). destruct (HR _ _ Hp) as [E3 E4]. rewrite <- E1, <- E2, <- E3. apply C2. exact Ep.
  Qed.
End Related.

Section Expr.
  Variable U : unicode.
  Notation ev := (ev U grammar skip_body).
  Notation fails := (fails U).
  Notation tstop := (tstop U).
  Notation term_means := (term_means U).

  (** ** What may follow *)
  Hypothesis HU : sane U.
  Lemma spacing_head : forall c g, spacing (c :: g) = true -> white_space c = true \/ c = 47%N.
  Proof. intros c g H. destruct (spacing_cons c g H) as [[W _]|[W _]]; auto. Qed.
  Lemma spacing_quiet : forall c g, spacing (c :: g) = true ->
    xid_continue U c = false /\ word_head U c = false /\ (c =? 58)%N = false /\ (c =? 8759)%N = false /\ (c =? 46)%N = false /\
    clings c = false /\ joins U c = false /\ ((c =? 33) || (c =? 63) || (c =? 39))%N = false /\ (c =? 91)%N = false.
  Proof. intros c g H. destruct (spacing_head c g H) as [W| ->]; [apply (white_quiet U HU); exact W|]. repeat split; reflexivity. Qed.
  Lemma drop_inline_white : forall P ws w, spacing ws = true -> P 10%N = false -> P 13%N = false -> P 47%N = false ->
    head_is P (drop_inline w) = false -> head_is P (drop_inline (ws ++ w)) = false.
  Proof.
    intros P ws w Hw H1 H2 H3 H. revert ws Hw. apply spacing_ind'; [exact H|intros c s Hc _ IH|intros; exact H3].
    cbn [app drop_inline]. destruct (inline_space c) eqn:E; [exact IH|]. cbn [head_is].
    unfold inline_space in E. rewrite Hc in E. cbn [andb] in E. apply andb_false_iff in E as [E|E]; apply negb_false_iff in E; apply N.eqb_eq in E; subst c; assumption.
  Qed.
  Lemma joins_inline : joins U 10%N = false /\ joins U 13%N = false /\ joins U 47%N = false.
  Proof. repeat split; reflexivity. Qed.
  Lemma tstop_white : forall ws w, spacing ws = true -> tstop w = true -> tstop (ws ++ w) = true.
  Proof.
    intros [|c ws] w Hw H; [exact H|]. pose proof Hw as Hw'.
    destruct (spacing_quiet c ws Hw) as (X1 & X2 & X3 & X4 & X5 & X6 & X7 & X8 & X9).
    pose proof (nstop_join U _ (tstop_nstop U _ H)) as J.
    unfold tstop in H |- *. apply andb_prop in H as [_ H]. apply negb_true_iff in H.
    rewrite (drop_inline_white _ _ _ Hw' eq_refl eq_refl eq_refl H).
    unfold ProofNode.nstop. rewrite (drop_inline_white _ _ _ Hw' (proj1 joins_inline) (proj1 (proj2 joins_inline)) (proj2 (proj2 joins_inline)) J).
    unfold sym_stop, path_more. cbn [app head_is]. change (lit "::") with [58; 58]%N. rewrite !strip_other by assumption.
    cbn [dot_digit]. rewrite X1, X5, X6, X8, no_primes by (apply orb_false_iff in X8; apply X8). reflexivity.
  Qed.

  Lemma front_solid : forall x w, front x = true -> solid (x ++ w) = true.
  Proof.
    intros [|c x] w H; [discriminate|]. cbn [front] in H. apply andb_prop in H as [H _]. apply andb_prop in H as [H H3]. apply andb_prop in H as [H1 H2].
    apply negb_true_iff in H2. apply negb_true_iff in H3. unfold solid. cbn [app head_is]. rewrite H1.
    change (lit "//") with [47; 47]%N. change (lit "%%%") with [37; 37; 37]%N. rewrite !strip_other by assumption. reflexivity.
  Qed.

  (** ** Operators *)
  Inductive infix_op : rule -> str -> Prop :=
  | op_add : infix_op R_Plus (lit "+") | op_sub : infix_op R_Minus (lit "-")
  | op_mul : infix_op R_Multiply (lit "*") | op_cross : infix_op R_Multiply [215%N]
  | op_div : infix_op R_Divide (lit "/") | op_obelus : infix_op R_Divide [247%N]
  | op_pow : infix_op R_Power (lit "^") | op_dot : infix_op R_Dot (lit ".")
  | op_set : infix_op R_Set (lit "=") | op_mod : infix_op R_Modulo (lit "%") | op_gt : infix_op R_Grater (lit ">")
  | op_center : infix_op R_CenterDot [8901%N] | op_kron : infix_op R_Kronecker [8855%N] | op_tensor : infix_op R_TensorProduct [8857%N].

  Ltac kfail := match goal with |- ProofSym.ev _ _ _ ?e ?k ?q (mkPs ?p (?c :: ?w) ?st) _ =>
    apply (fails_sound U grammar skip_body 20 e k q [mkLook [c] true] p (c :: w) st);
    [vm_compute; reflexivity|exists (mkLook [c] true); split; [left; reflexivity|]; exists w; split; [reflexivity|discriminate]] end.
  Lemma ok_Infix : forall r s p w st, infix_op r s ->
    ev (ECall R_Infix) NonAtomic false (mkPs p (s ++ w) st) (POk (mkPs (p + 1) w st) [Node r p (p + 1) s []]).
  Proof.
    intros r s p w st H. apply ev_call. cbn [grammar].
    assert (L : forall r c, grammar r = ERule r (EAtomic Atomic (EStr [c])) ->
      ev (ECall r) NonAtomic false (mkPs p ([c] ++ w) st) (POk (mkPs (p + 1) w st) [Node r p (p + 1) [c] []])).
    { intros r0 c E. apply ev_call. rewrite E. apply (ok_rule U r0 _ NonAtomic p [c] w st st). apply ev_atomic. apply (ev_str U grammar skip_body [c]). }
    destruct H; cbn [app lit] in *; do 15 (first [apply ev_else_err; [solve [kfail]|] | apply ev_else_ok | idtac]).
    all: try (apply L; reflexivity).
    all: apply ev_call; cbn [grammar app].
    1,2: apply (ok_rule U R_Multiply _ NonAtomic p [_] w st st). 3,4: apply (ok_rule U R_Divide _ NonAtomic p [_] w st st).
    all: apply ev_atomic.
    1: apply ev_else_ok; apply ev_call; apply (ok_rule U R_Star _ Atomic p [_] w st st); apply ev_atomic; apply (ev_str U grammar skip_body [_]).
    1: apply ev_else_err; [cbn [app]; kfail|apply (ev_str U grammar skip_body [_])].
    1: apply ev_else_ok; apply ev_call; apply (ok_rule U R_Slash _ Atomic p [_] w st st); apply ev_atomic; apply (ev_str U grammar skip_body [_]).
    1: apply ev_else_err; [cbn [app]; kfail|apply (ev_str U grammar skip_body [_])].
  Qed.
  Definition infix_head (c : char) : bool := existsb (N.eqb c) [61; 43; 45; 42; 215; 8901; 8855; 8857; 47; 247; 37; 94; 62; 46]%N.
  Lemma er_Infix : forall k q p w st, head_is infix_head w = false -> fails (ECall R_Infix) k q (mkPs p w st).
  Proof.
    intros k q p w st H. apply er_call.
    repeat apply er_else; apply er_call, er_rule, er_atomic; try apply er_else; try (apply er_call, er_rule, er_atomic); apply er_str;
      (destruct w as [|c w]; [reflexivity|]; apply strip_head; intros <-; discriminate H).
  Qed.
  Lemma infix_op_len : forall r s, infix_op r s -> exists c, s = [c] /\ white_space c = false.
  Proof. intros r s H. destruct H; eexists; split; reflexivity. Qed.
  Lemma sign_quiet : forall c, existsb (N.eqb c) signs = true -> xid_continue U c = false /\ word_head U c = false.
  Proof.
    intros c H. destruct (HU c) as [X1 X2]; [rewrite H; reflexivity|]. split; [exact X2|]. unfold word_head. rewrite X1.
    apply N.eqb_neq. intros ->. discriminate H.
  Qed.
  Lemma tstop_sign : forall c w, existsb (N.eqb c) signs = true -> (128 <=? c)%N = true -> (c =? 8759)%N = false -> (c =? 182)%N = false -> (c =? 8267)%N = false -> white_space c = false ->
    tstop (c :: w) = true.
  Proof.
    intros c w H L P M1 M2 W. destruct (sign_quiet c H) as [X1 X2]. apply N.leb_le in L.
    assert (NE : forall d, (d < 128)%N -> (c =? d)%N = false) by (intros d Hd; apply N.eqb_neq; lia).
    assert (D : digit c = false) by (unfold digit; apply andb_false_iff; right; apply N.leb_gt; lia).
    unfold tstop, ProofNode.nstop, sym_stop, path_more. change (lit "::") with [58; 58]%N. rewrite (strip_other 58) by (apply NE; reflexivity). rewrite (strip_other 8759) by exact P.
    cbn [head_is dot_digit drop_inline]. unfold inline_space. rewrite W. cbn [andb head_is]. unfold clings, joins. cbn [existsb]. rewrite no_primes by (apply NE; reflexivity). rewrite M1, M2, !NE by reflexivity.
    rewrite X1, X2, D, (N.eqb_sym 91 c), NE by reflexivity. reflexivity.
  Qed.
  Lemma tstop_op : forall r s w, infix_op r s -> (s = lit "." -> head_is digit w = false) -> tstop (s ++ w) = true.
  Proof.
    intros r s w H D. destruct H; cbn [app]; try (apply tstop_sign; reflexivity); try reflexivity.
    specialize (D eq_refl). change (lit "." ++ w) with (46%N :: w). unfold tstop, ProofNode.nstop. cbn [dot_digit]. rewrite D. reflexivity.
  Qed.
  Lemma op_solid : forall r s b x w, infix_op r s -> spacing b = true -> (s = lit "/" -> head_is (N.eqb 47) b = false) -> front x = true -> solid (s ++ b ++ x ++ w) = true.
  Proof.
    intros r s b x w H Hb Hs Hx.
    assert (F : exists d v, b ++ x ++ w = d :: v /\ (s = lit "/" -> d <> 47%N) /\ d <> 37%N).
    { destruct b as [|d b]; cbn [app].
      - destruct x as [|d x]; [discriminate|]. cbn [front] in Hx. apply andb_prop in Hx as [Hx _]. apply andb_prop in Hx as [Hx H3]. apply andb_prop in Hx as [_ H2].
        apply negb_true_iff in H2, H3. apply N.eqb_neq in H2, H3. exists d, (x ++ w). auto.
      - exists d, (b ++ x ++ w). split; [reflexivity|]. split.
        + intros E. specialize (Hs E). cbn [head_is] in Hs. apply N.eqb_neq in Hs. congruence.
        + destruct (spacing_head d b Hb) as [Hd| ->]; [|discriminate]. intros ->. discriminate Hd. }
    destruct F as (d & v & E & N1 & N2). unfold str, char in *. rewrite E. clear E Hb Hs Hx.
    assert (S1 : d <> 47%N -> solid (47%N :: d :: v) = true).
    { intro N. unfold solid. change (lit "//") with [47; 47]%N. change (lit "%%%") with [37; 37; 37]%N. cbn [strip_prefix]. change (47 =? 47)%N with true. change (37 =? 47)%N with false. cbn iota.
      replace (47 =? d)%N with false by (symmetry; apply N.eqb_neq, not_eq_sym; exact N). reflexivity. }
    assert (S2 : solid (37%N :: d :: v) = true).
    { unfold solid. change (lit "//") with [47; 47]%N. change (lit "%%%") with [37; 37; 37]%N. cbn [strip_prefix]. change (37 =? 37)%N with true. change (47 =? 37)%N with false. cbn iota.
      replace (37 =? d)%N with false by (symmetry; apply N.eqb_neq, not_eq_sym; exact N2). reflexivity. }
    destruct H; try reflexivity; auto.
  Qed.

  (** ** Chains *)
  Inductive tok := TX (x : str) (o : outcome ast) | TO (r : rule) (s : str).
  Record item := mkItem { before : str; op : rule; sign : str; after : str; arg : str; value : outcome ast }.
  Definition item_text (i : item) : str := before i ++ sign i ++ after i ++ arg i.
  Definition good_item (i : item) : Prop :=
    spacing (before i) = true /\ infix_op (op i) (sign i) /\ spacing (after i) = true /\ term_means (arg i) (value i) /\ front (arg i) = true /\
    (sign i = lit "." -> after i = [] -> head_is digit (arg i) = false) /\ (sign i = lit "/" -> head_is (N.eqb 47) (after i) = false).
  Definition items_text (l : list item) : str := concat (map item_text l).
  Definition item_toks (i : item) : tok * tok := (TO (op i) (sign i), TX (arg i) (value i)).
  Definition tok_tree (k : tok) (T : tree rule) : Prop :=
    match k with
    | TX x o => t_rule T = R_term /\ t_text T = x /\ forall f i, orel sim (parse_term f i (parse_expr f i) T) o
    | TO r s => infix_op r s /\ t_rule T = r /\ t_text T = s
    end.
  Definition pair_tree (k : tok * tok) (T : tree rule * tree rule) : Prop := tok_tree (fst k) (fst T) /\ tok_tree (snd k) (snd T).

  Definition opterm : pexp rule := ERestore (ESeq (EThen (EThen (ECall R_Infix) ESkip) (ECall R_term))).
  Definition more_ops : pexp rule := ERep (ESeq (EThen ESkip opterm)).
  (** the last operand may be followed by other texts *)
  Definition last_item (S : str -> bool) (i : item) : Prop :=
    spacing (before i) = true /\ infix_op (op i) (sign i) /\ spacing (after i) = true /\ term_in U S (arg i) (value i) /\ front (arg i) = true /\
    (sign i = lit "." -> after i = [] -> head_is digit (arg i) = false) /\ (sign i = lit "/" -> head_is (N.eqb 47) (after i) = false).
  Lemma op_after_in : forall S i w, last_item S i -> tstop (sign i ++ after i ++ arg i ++ w) = true.
  Proof.
    intros S i w (H1 & H2 & H3 & H4 & H5 & H6 & H7). apply (tstop_op (op i)); [exact H2|]. intro E. specialize (H6 E).
    destruct (after i) as [|c a] eqn:Ea.
    - specialize (H6 eq_refl). destruct (arg i); [discriminate|exact H6].
    - cbn [app head_is].
      destruct (spacing_quiet c a H3) as (X & _). destruct (digit c) eqn:D; [|reflexivity]. rewrite digit_xid in X by exact D. discriminate.
  Qed.
  Lemma ok_opterm_in : forall S i p w st, last_item S i -> S w = true -> exists T,
    ev opterm NonAtomic false (mkPs p (sign i ++ after i ++ arg i ++ w) st)
      (POk (mkPs (p + length (sign i ++ after i ++ arg i)) w st) [fst T; snd T]) /\ pair_tree (item_toks i) T.
  Proof.
    intros S i p w st (H1 & H2 & H3 & H4 & H5 & H6 & H7) Hw.
    destruct (infix_op_len _ _ H2) as (c & Ec & _).
    destruct (H4 NonAtomic (p + 1 + length (after i)) w st Hw) as (T & E & R & X & M).
    exists (Node (op i) p (p + 1) (sign i) [], T). split.
    - apply ok_restore, ok_seq. apply (ok_then U _ _ _ _ _ (mkPs (p + 1 + length (after i)) (arg i ++ w) st) [_] _ [T]).
      + eapply ok_then1; [apply ok_Infix; exact H2|]. apply skip_spacing; [exact H3|]. apply front_solid. exact H5.
      + eapply ok_pos; [exact E|]. rewrite Ec. lens.
    - split; cbn; auto.
  Qed.
  (** no operator with an operand follows *)
  Definition blocked (w : str) : Prop := forall p st, fails opterm NonAtomic false (mkPs p w st).
  Lemma blocked_head : forall w, head_is infix_head w = false -> blocked w.
  Proof. intros w H p st. apply er_restore, er_seq0. do 2 apply er_then. apply er_Infix. exact H. Qed.
  Definition gone (ws w : str) : Prop := forall p st, ev ESkip NonAtomic false (mkPs p (ws ++ w) st) (POk (mkPs (p + length ws) w st) []).
  Lemma spacing_gone : forall ws w, spacing ws = true -> solid w = true -> gone ws w.
  Proof. intros ws w H1 H2 p st. apply skip_spacing; assumption. Qed.
  Lemma closing_gone : forall ws, closing ws = true -> gone ws [].
  Proof. intros ws H p st. rewrite app_nil_r. apply skip_closing. exact H. Qed.
  Definition stop_in (S : str -> bool) (ws w : str) : Prop :=
    gone ws w /\ S (ws ++ w) = true /\ solid w = true /\ blocked w.
  Definition expr_stop : str -> str -> Prop := stop_in tstop.
  Definition upto (S : str -> bool) (l : list item) : str -> bool := match l with [] => S | _ => tstop end.
  Fixpoint tail_ok (S : str -> bool) (l : list item) : Prop :=
    match l with [] => True | i :: l' => last_item (upto S l') i /\ tail_ok S l' end.
  Lemma tail_good : forall l, Forall good_item l -> tail_ok tstop l.
  Proof. induction 1 as [|i l Hi Hl IH]; [exact Logic.I|]. split; [|exact IH]. destruct l; exact Hi. Qed.
  Lemma items_start_in : forall S l ws w, tail_ok S l -> stop_in S ws w -> upto S l (items_text l ++ ws ++ w) = true.
  Proof.
    intros S [|i l] ws w Hl Hw; [exact (proj1 (proj2 Hw))|]. destruct Hl as (Hi & _).
    unfold items_text. cbn [map concat]. unfold item_text. rewrite <- !app_assoc. apply tstop_white; [exact (proj1 Hi)|]. eapply op_after_in. exact Hi.
  Qed.
  Lemma ok_items_in : forall S l p ws w st, tail_ok S l -> stop_in S ws w -> exists L,
    ev more_ops NonAtomic false (mkPs p (items_text l ++ ws ++ w) st)
      (POk (mkPs (p + length (items_text l)) (ws ++ w) st) (flat_map (fun q => [fst q; snd q]) L)) /\
    Forall2 (fun i => pair_tree (item_toks i)) l L.
  Proof.
    induction l as [|i l IH]; intros p ws w st Hl Hw.
    - exists []. split; [|constructor]. destruct Hw as (W1 & W2 & W3 & W4). cbn [items_text map concat app length].
      eapply ok_pos; [|symmetry; apply Nat.add_0_r]. apply no_rep.
      eapply er_seq2; [apply W1| |reflexivity]. apply W4.
    - destruct Hl as (Hi & Hl'). destruct (IH (p + length (item_text i)) ws w st Hl' Hw) as (L & E & F).
      destruct (ok_opterm_in _ i (p + length (before i)) (items_text l ++ ws ++ w) st Hi (items_start_in S l ws w Hl' Hw)) as (T & ET & FT).
      exists (T :: L). split; [|constructor; assumption].
      change (items_text (i :: l)) with (item_text i ++ items_text l). rewrite <- app_assoc.
      apply (ok_rep U _ NonAtomic false _ (mkPs (p + length (item_text i)) (items_text l ++ ws ++ w) st) [fst T; snd T]).
      + apply ok_seq. unfold item_text. rewrite <- !app_assoc. eapply ok_then0.
        * apply skip_spacing; [exact (proj1 Hi)|]. apply op_solid with (r := op i); apply Hi.
        * eapply ok_pos; [exact ET|lens].
      + eapply ok_pos; [exact E|lens].
  Qed.
  Lemma op_after : forall i w, good_item i -> tstop (sign i ++ after i ++ arg i ++ w) = true.
  Proof. intros i w. apply (op_after_in tstop). Qed.
  Lemma ok_opterm : forall i p w st, good_item i -> tstop w = true -> exists T,
    ev opterm NonAtomic false (mkPs p (sign i ++ after i ++ arg i ++ w) st)
      (POk (mkPs (p + length (sign i ++ after i ++ arg i)) w st) [fst T; snd T]) /\ pair_tree (item_toks i) T.
  Proof. intros i p w st. apply (ok_opterm_in tstop). Qed.
  Lemma items_start : forall l ws w, Forall good_item l -> expr_stop ws w -> tstop (items_text l ++ ws ++ w) = true.
  Proof. intros l ws w Hl Hw. pose proof (items_start_in tstop l ws w (tail_good l Hl) Hw) as X. destruct l; exact X. Qed.
  Lemma ok_items : forall l p ws w st, Forall good_item l -> expr_stop ws w -> exists L,
    ev more_ops NonAtomic false (mkPs p (items_text l ++ ws ++ w) st)
      (POk (mkPs (p + length (items_text l)) (ws ++ w) st) (flat_map (fun q => [fst q; snd q]) L)) /\
    Forall2 (fun i => pair_tree (item_toks i)) l L.
  Proof. intros l p ws w st Hl. apply ok_items_in, tail_good. exact Hl. Qed.

  Definition expr_in (S : str -> bool) (x : str) (o : outcome ast) : Prop :=
    forall k p ws w st, stop_in S ws w -> exists s T,
      ev (ECall R_expr) k false (mkPs p (x ++ ws ++ w) st) (POk s [T]) /\
      (s = mkPs (p + length x + length ws) w st \/ s = mkPs (p + length x) (ws ++ w) st) /\
      t_rule T = R_expr /\ forall f i, orel sim (parse_expr f i T) o.
  Definition expr_means : str -> outcome ast -> Prop := expr_in tstop.

  Definition tok_strength (k : tok) : Z := match k with TO r _ => op_strength (Node r 0 0 [] []) | TX _ _ => 0%Z end.
  Definition tok_to_right (k : tok) : bool := match k with TO r _ => op_to_right (Node r 0 0 [] []) | TX _ _ => false end.
  Definition tok_operand (k : tok) : outcome ast := match k with TX _ o => o | TO _ _ => Panic PUnreachable end.
  Definition tok_apply (a : ast) (k : tok) (b : ast) : outcome ast :=
    match k with
    | TO r s => infix_node default_position a (Node r 0 0 s []) b
    | TX x _ => infix_node default_position a (Node R_term 0 0 x []) b
    end.
  Lemma tok_tables : forall k T, tok_tree k T -> tok_strength k = op_strength T /\ tok_to_right k = op_to_right T.
  Proof.
    intros [x o|r s] [r' a b x' l] H; cbn in H.
    - destruct H as (-> & _). split; reflexivity.
    - destruct H as (_ & -> & _). split; reflexivity.
  Qed.
  Lemma brel_evaluate : forall f i p b b', brel tok_tree b b' ->
    orel sim (evaluate (primary f i (parse_expr f i)) (infix_node p) b') (evaluate tok_operand tok_apply b).
  Proof.
    intros f i p b b' H. induction H as [k T H|l l' o o' r r' Hl IHl Ho Hr IHr]; cbn [evaluate].
    - destruct k as [x o|r s]; cbn in H; unfold primary.
      + destruct H as (-> & _ & H). apply H.
      + destruct H as (H & -> & _). destruct H; reflexivity.
    - eapply orel_bind; [exact IHl|]. intros a a' Ha. eapply orel_bind; [exact IHr|]. intros c c' Hc.
      assert (E : forall q a o b, infix_node q a o b = infix_node q a (Node (t_rule o) 0 0 (t_text o) []) b) by reflexivity.
      rewrite E. destruct o as [x o|r0 s]; cbn in Ho; cbn [tok_apply].
      + destruct Ho as (-> & -> & _). apply infix_node_sim; [exact Ha|reflexivity|reflexivity|exact Hc].
      + destruct Ho as (_ & -> & ->). apply infix_node_sim; [exact Ha|reflexivity|reflexivity|exact Hc].
  Qed.

  (** operands and operators with a meaning, then nothing or an operator without
      one *)
  Definition has_meaning (r : rule) : Prop := supported (Node r 0 0 [] []).
  Lemma supported_rule : forall T r, t_rule T = r -> (supported T <-> has_meaning r).
  Proof. intros [r0 ? ? ? ?] r <-. reflexivity. Qed.
  Lemma expr_chain_in : forall S x0 o0 l r b,
    front x0 = true -> term_in U (upto S (l ++ r)) x0 o0 -> tail_ok S (l ++ r) ->
    Forall (fun i => has_meaning (op i)) l -> match r with [] => True | i :: _ => ~ has_meaning (op i) end ->
    written b = alternate (TX x0 o0) (map item_toks l) -> well_bracketed tok_strength tok_to_right b ->
    expr_in S (x0 ++ items_text (l ++ r)) (evaluate tok_operand tok_apply b).
  Proof.
    intros S x0 o0 l r b F0 H0 Hlr Ml Mr Wb Bb k p ws w st Hw.
    destruct (H0 NonAtomic p (items_text (l ++ r) ++ ws ++ w) st (items_start_in S _ _ _ Hlr Hw)) as (T0 & E0 & R0 & X0 & M0).
    (* the pairs *)
    assert (P : exists s L, ev (ESeq (EThen (EThen (ECall R_term) ESkip) (ESeq (EOpt (EThen opterm more_ops))))) NonAtomic false
        (mkPs p (x0 ++ items_text (l ++ r) ++ ws ++ w) st) (POk s (T0 :: flat_map (fun q => [fst q; snd q]) L)) /\
        (s = mkPs (p + length (x0 ++ items_text (l ++ r)) + length ws) w st \/ s = mkPs (p + length (x0 ++ items_text (l ++ r))) (ws ++ w) st) /\
        Forall2 (fun i => pair_tree (item_toks i)) (l ++ r) L).
    { clear H0. destruct (l ++ r) as [|i m] eqn:Em.
      - exists (mkPs (p + length x0 + length ws) w st), []. cbn [items_text map concat app flat_map] in *. rewrite app_nil_r.
        split; [|split; [left; reflexivity|constructor]]. destruct Hw as (W1 & W2 & W3 & W4). apply ok_seq. eapply ok_then1.
        + eapply ok_then1; [exact E0|]. apply W1.
        + apply ok_seq, no_opt, er_then, W4.
      - destruct Hlr as (Hi & Hm). change (items_text (i :: m)) with (item_text i ++ items_text m) in *.
        destruct (ok_opterm_in _ i (p + length x0 + length (before i)) (items_text m ++ ws ++ w) st Hi (items_start_in S m ws w Hm Hw)) as (T & ET & FT).
        destruct (ok_items_in S m (p + length x0 + length (item_text i)) ws w st Hm Hw) as (L & EL & FL).
        exists (mkPs (p + length (x0 ++ item_text i ++ items_text m)) (ws ++ w) st), (T :: L).
        split; [|split; [right; reflexivity|constructor; assumption]]. apply ok_seq.
        apply (ok_then U _ _ _ _ _ (mkPs (p + length x0 + length (before i)) (sign i ++ after i ++ arg i ++ items_text m ++ ws ++ w) st) [T0]).
        + eapply ok_then1; [exact E0|]. unfold item_text. rewrite <- !app_assoc. apply skip_spacing; [exact (proj1 Hi)|]. apply op_solid with (r := op i); apply Hi.
        + apply ok_seq, ok_opt. cbn [flat_map].
          apply (ok_then U _ _ _ _ _ (mkPs (p + length x0 + length (item_text i)) (items_text m ++ ws ++ w) st) [fst T; snd T]).
          * eapply ok_pos; [exact ET|unfold item_text; lens].
          * eapply ok_pos; [exact EL|lens]. }
    destruct P as (s & L & E & Es & F). apply Forall2_app_inv_l in F as (L1 & L2 & F1 & F2 & ->).
    exists s.
    pose proof (ev_rule U grammar skip_body R_expr _ _ _ _ _ E) as X. cbn [rule_res emits] in X.
    eexists. split; [apply ev_call; cbn [grammar]; apply ev_atomic; rewrite <- app_assoc; exact X|]. split; [exact Es|].
    split; [reflexivity|]. intros f i. rewrite flat_map_app.
    assert (S1 : Forall (fun q => supported (fst q)) L1).
    { clear - F1 Ml. induction F1 as [|j q l' L Hq _ IH]; [constructor|]. inversion Ml; subst. constructor; [|auto].
      destruct Hq as [(_ & Hq & _) _]. apply (supported_rule _ _ Hq). assumption. }
    assert (S2 : match flat_map (fun q => [fst q; snd q]) L2 with [] => True | o :: _ => ~ supported o end).
    { clear - F2 Mr. destruct F2 as [|j q r' L Hq _]; [exact Logic.I|]. cbn [flat_map app]. destruct Hq as [(_ & Hq & _) _].
      intro S. apply Mr. apply (supported_rule _ _ Hq). exact S. }
    destruct (expression_precedence f i R_expr p (pos s) (firstn (pos s - p) (x0 ++ items_text (l ++ r) ++ ws ++ w)) T0 L1 S1) as (t & Wt & Et & Ut & Pt).
    destruct (transfer tok_tree b (alternate T0 L1)) as (b' & Eb & Rb).
    { rewrite Wb. unfold alternate. constructor; [cbn; auto|]. clear - F1. induction F1 as [|j q l' L [H1 H2] _ IH]; [constructor|].
      cbn [map flat_map]. constructor; [exact H1|]. constructor; [exact H2|]. exact IH. }
    assert (Et' : b' = t) by (apply Ut; [eapply brel_well; [apply tok_tables|exact Rb|exact Bb]|exact Eb]). subst b'.
    pose proof (brel_evaluate f i (get_position f i (Node R_expr p (pos s) (firstn (pos s - p) (x0 ++ items_text (l ++ r) ++ ws ++ w)) (alternate T0 L1))) b t Rb) as Q.
    rewrite <- Pt in Q. destruct (flat_map (fun q => [fst q; snd q]) L2) as [|o2 k2] eqn:EL2.
    - rewrite app_nil_r. exact Q.
    - rewrite <- (unsupported_truncates f i _ _ _ _ T0 L1 o2 k2 S1 S2) in Q. exact Q.
  Qed.
  Lemma expr_chain : forall x0 o0 l r b,
    term_means x0 o0 -> front x0 = true -> Forall good_item l -> Forall good_item r ->
    Forall (fun i => has_meaning (op i)) l -> match r with [] => True | i :: _ => ~ has_meaning (op i) end ->
    written b = alternate (TX x0 o0) (map item_toks l) -> well_bracketed tok_strength tok_to_right b ->
    expr_means (x0 ++ items_text (l ++ r)) (evaluate tok_operand tok_apply b).
  Proof.
    intros x0 o0 l r b H0 F0 Hl Hr Ml Mr Wb Bb. apply (expr_chain_in tstop x0 o0 l r b); try assumption.
    - destruct (l ++ r); exact H0.
    - apply tail_good, Forall_app. auto.
  Qed.
  Lemma expr_term : forall x o, term_means x o -> front x = true -> expr_means x o.
  Proof.
    intros x o H F. pose proof (expr_chain x o [] [] (Leaf (TX x o)) H F (Forall_nil _) (Forall_nil _) (Forall_nil _) Logic.I eq_refl (wb_leaf _ _ _)) as X.
    cbn [app items_text map concat] in X. rewrite app_nil_r in X. exact X.
  Qed.
  (** an expression and the white space after it *)
  Lemma expr_skip_in : forall S x o p ws w st, expr_in S x o -> stop_in S ws w -> exists T,
    ev (EThen (ECall R_expr) ESkip) NonAtomic false (mkPs p (x ++ ws ++ w) st) (POk (mkPs (p + length x + length ws) w st) [T]) /\
    t_rule T = R_expr /\ forall f i, orel sim (parse_expr f i T) o.
  Proof.
    intros S x o p ws w st H Hw. destruct (H NonAtomic p ws w st Hw) as (s & T & E & [-> | ->] & R & M); exists T; (split; [|split; assumption]);
      destruct Hw as (W1 & W2 & W3 & W4); eapply ok_then1; try exact E.
    - apply skip_nothing. exact W3.
    - apply W1.
  Qed.
  Lemma expr_skip : forall x o p ws w st, expr_means x o -> expr_stop ws w -> exists T,
    ev (EThen (ECall R_expr) ESkip) NonAtomic false (mkPs p (x ++ ws ++ w) st) (POk (mkPs (p + length x + length ws) w st) [T]) /\
    t_rule T = R_expr /\ forall f i, orel sim (parse_expr f i T) o.
  Proof. intros x o p ws w st. apply expr_skip_in. Qed.
End Expr.
