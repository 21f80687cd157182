(** Texts of the same pieces have the same meaning. *)
From Verif Require Import Base Ast SmError Peg Grammar Climber Build SpecAst SpecPeg SpecSyntax SpecPest SpecLayout SpecOutside SpecPieces Source.
From Verif Require Import ProofAst ProofPeg ProofGrammar ProofBuild ProofPos ProofPest ProofFollow ProofOutside.
From Verif Require ProofLayout ProofStranger.
Local Open Scope nat_scope.

Local Ltac nlia := unfold str, char in *; lia.
(** ** Pieces *)
Lemma pieces_fuel : forall f f' s g, length s < f -> length s < f' -> pieces_from f g s = pieces_from f' g s.
Proof.
  induction f as [|f IH]; intros f' s g L L'; [nlia|]. destruct f' as [|f']; [nlia|]. destruct s as [|c s]; [reflexivity|]. cbn [length] in L, L'.
  change (pieces_from (S f) g (c :: s)) with
    (let before := match g with Some b => [Gap b] | None => [] end in
     if white_space c then pieces_from f (Some (line_break c || match g with Some b => b | None => false end)) s
     else before ++ if (c =? 34)%N
        then match after_string (c :: s) with Some r => Literal (firstn (length (c :: s) - length r) (c :: s)) :: pieces_from f None r | None => [Literal (c :: s)] end
        else match after_comment (c :: s) with Some r => Remark (c =? 37)%N :: pieces_from f None r | None => Mark c :: pieces_from f None s end).
  change (pieces_from (S f') g (c :: s)) with
    (let before := match g with Some b => [Gap b] | None => [] end in
     if white_space c then pieces_from f' (Some (line_break c || match g with Some b => b | None => false end)) s
     else before ++ if (c =? 34)%N
        then match after_string (c :: s) with Some r => Literal (firstn (length (c :: s) - length r) (c :: s)) :: pieces_from f' None r | None => [Literal (c :: s)] end
        else match after_comment (c :: s) with Some r => Remark (c =? 37)%N :: pieces_from f' None r | None => Mark c :: pieces_from f' None s end).
  cbv zeta. destruct (white_space c); [apply IH; nlia|]. f_equal. destruct (N.eqb_spec c 34) as [->|C].
  - unfold str, char in *. destruct (after_string (34%N :: s)) as [r|] eqn:E; [|reflexivity]. apply after_string_shorter in E. f_equal. apply IH; nlia.
  - unfold str, char in *. destruct (after_comment (c :: s)) as [r|] eqn:E; f_equal.
    + apply after_comment_shorter in E. cbn [length] in E. apply IH; nlia.
    + apply IH; nlia.
Qed.
Definition pieces_after (g : option bool) (s : str) : list piece := pieces_from (S (length s)) g s.
Lemma pieces_start : forall s, pieces s = pieces_after None s. Proof. reflexivity. Qed.
Lemma pieces_any : forall f s g, length s < f -> pieces_from f g s = pieces_after g s.
Proof. intros f s g L. unfold pieces_after. apply pieces_fuel; nlia. Qed.
Definition before (g : option bool) : list piece := match g with Some b => [Gap b] | None => [] end.
Lemma after_nil : forall g, pieces_after g [] = before g. Proof. reflexivity. Qed.
Lemma after_white : forall g c s, white_space c = true -> pieces_after g (c :: s) = pieces_after (Some (line_break c || match g with Some b => b | None => false end)) s.
Proof. intros g c s W. unfold pieces_after at 1. cbn [length]. remember (S (length s)) as f. cbn [pieces_from]. rewrite W. apply pieces_any. nlia. Qed.
Lemma after_gap : forall g s, head_is white_space s = false -> pieces_after g s = before g ++ pieces s.
Proof.
  intros g [|c s] W; [cbn; rewrite app_nil_r; reflexivity|]. cbn [head_is] in W. unfold pieces, pieces_after. cbn [length]. remember (S (length s)) as f. cbn [pieces_from]. rewrite W. reflexivity.
Qed.
Lemma after_gaps : forall l g s, forallb white_space l = true -> head_is white_space s = false ->
  pieces_after g (l ++ s) = (match l, g with [], None => [] | _, _ => [Gap (existsb line_break l || match g with Some b => b | None => false end)] end) ++ pieces s.
Proof.
  induction l as [|c l IH]; intros g s W H; cbn [app].
  - rewrite after_gap by exact H. destruct g; reflexivity.
  - cbn [forallb] in W. apply andb_prop in W as [W1 W2]. rewrite after_white by exact W1. rewrite IH by assumption. cbn [existsb].
    destruct l; cbn [existsb orb app]; f_equal; f_equal; destruct (line_break c), g as [[]|]; cbn; try reflexivity; rewrite ?orb_true_r, ?orb_false_r; reflexivity.
Qed.
Lemma pieces_gap : forall g s, g <> [] -> forallb white_space g = true -> head_is white_space s = false -> pieces (g ++ s) = Gap (existsb line_break g) :: pieces s.
Proof. intros g s N W H. rewrite pieces_start, after_gaps by assumption. destruct g; [congruence|]. rewrite orb_false_r. reflexivity. Qed.
Lemma pieces_mark : forall c s, white_space c = false -> (c =? 34)%N = false -> after_comment (c :: s) = None -> pieces (c :: s) = Mark c :: pieces s.
Proof.
  intros c s W Q C. unfold pieces at 1. cbn [length]. remember (S (length s)) as f. cbn [pieces_from]. rewrite W, Q, C. cbn [app]. f_equal. rewrite pieces_start. apply pieces_any. nlia.
Qed.
Lemma pieces_remark : forall s r, after_comment s = Some r -> exists b, pieces s = Remark b :: pieces r /\ b = starts_with (lit "%%%") s.
Proof.
  intros s r C. pose proof (after_comment_shorter _ _ C) as L. destruct s as [|c s]; [discriminate C|]. unfold pieces at 1. cbn [length] in *. remember (S (length s)) as f. cbn [pieces_from].
  assert (D : (c = 37 \/ c = 47)%N /\ (c =? 37)%N = starts_with (lit "%%%") (c :: s)).
  { assert (St : forall a w, starts_with (a :: w) (c :: s) = if (a =? c)%N then starts_with w s else false) by (intros; unfold starts_with; cbn [strip_prefix]; destruct (a =? c)%N; reflexivity).
    unfold after_comment, comment_start in C. cbn [existsb] in C.
    change (lit "%%%") with (37 :: [37; 37])%N in *. change (lit "///") with (47 :: [47; 47])%N in *. change (lit "//?") with (47 :: [47; 63])%N in *.
    change (lit "//!") with (47 :: [47; 33])%N in *. change (lit "//*") with (47 :: [47; 42])%N in *. rewrite !St in *. rewrite (N.eqb_sym 37 c), (N.eqb_sym 47 c) in *.
    destruct (N.eqb_spec c 37) as [->|P]; [split; [auto|]|].
    - change (37 =? 47)%N with false in C. cbn [orb] in C. destruct (starts_with [37; 37]%N s); [reflexivity|discriminate C].
    - split; [|reflexivity]. destruct (N.eqb_spec c 47) as [->|Q]; [auto|]. discriminate C. }
  destruct D as [D1 D2]. assert (W : white_space c = false) by (destruct D1 as [-> | ->]; reflexivity). assert (Q : (c =? 34)%N = false) by (destruct D1 as [-> | ->]; reflexivity).
  rewrite W, Q, C. exists (c =? 37)%N. split; [|exact D2]. cbn [app]. f_equal. rewrite pieces_start. apply pieces_any. nlia.
Qed.
Lemma pieces_quote : forall s, pieces (34%N :: s) = match after_string (34%N :: s) with Some r => Literal (firstn (S (length s) - length r) (34%N :: s)) :: pieces r | None => [Literal (34%N :: s)] end.
Proof.
  intros s. change (pieces (34%N :: s)) with
    (match after_string (34%N :: s) with Some r => Literal (firstn (S (length s) - length r) (34%N :: s)) :: pieces_from (S (length s)) None r | None => [Literal (34%N :: s)] end).
  destruct (after_string (34%N :: s)) as [r|] eqn:A; [|reflexivity]. apply after_string_shorter in A. rewrite (pieces_start r), (pieces_any (S (length s))) by nlia. reflexivity.
Qed.
Lemma pieces_literal : forall s w r, after_string (34%N :: s) = Some r -> 34%N :: s = w ++ r -> pieces (34%N :: s) = Literal w :: pieces r.
Proof.
  intros s w r A E. rewrite pieces_quote, A. f_equal. f_equal. change (S (length s)) with (length (34%N :: s)). unfold str, char in *.
  rewrite E, app_length. replace (length w + length r - length r) with (length w) by lia. rewrite firstn_app, Nat.sub_diag, firstn_all, firstn_O. apply app_nil_r.
Qed.
Lemma pieces_open : forall s, after_string (34%N :: s) = None -> pieces (34%N :: s) = [Literal (34%N :: s)].
Proof. intros s A. rewrite pieces_quote, A. reflexivity. Qed.
Lemma after_quote_suffix : forall n s r, length s < n -> after_quote s = Some r -> exists w, s = w ++ r.
Proof.
  induction n as [|n IH]; intros s r L H; [lia|]. destruct s as [|c s]; [discriminate|]. cbn [length after_quote] in *. destruct (c =? 34)%N; [injection H as <-; exists [c]; reflexivity|].
  assert (One : after_quote s = Some r -> exists w, c :: s = w ++ r) by (intros X; destruct (IH s r ltac:(lia) X) as (w & ->); exists (c :: w); reflexivity).
  destruct (c =? 92)%N; [|auto]. destruct s as [|d s]; [discriminate|]. destruct ((d =? 34) || (d =? 92))%N; [|auto].
  cbn [length] in L. destruct (IH s r ltac:(lia) H) as (w & ->). exists (c :: d :: w). reflexivity.
Qed.
Lemma after_quotes_suffix : forall n s r, after_quotes n s = Some r -> exists w, s = w ++ r.
Proof.
  intros n. induction s as [|c s IH]; intros r H; cbn [after_quotes] in H; destruct (starts_with _ _); try discriminate.
  1,2: injection H as <-; eexists; symmetry; apply firstn_skipn.
  destruct (IH r H) as (w & ->). exists (c :: w). reflexivity.
Qed.
Lemma after_string_suffix : forall k r, after_string (34%N :: k) = Some r -> exists w, 34%N :: k = w ++ r.
Proof.
  intros k r. unfold after_string. set (n := quotes (34%N :: k)). cbn [tl].
  match goal with |- match ?x with _ => _ end = _ -> _ => destruct x as [r'|] eqn:E end; intros H.
  - injection H as <-. destruct (3 <=? n); [|discriminate]. destruct (after_quotes_suffix _ _ _ E) as (w & W). exists (firstn n (34%N :: k) ++ w). transitivity (firstn n (34%N :: k) ++ skipn n (34%N :: k)); [symmetry; apply firstn_skipn|]. transitivity (firstn n (34%N :: k) ++ (w ++ r')); [f_equal; exact W|apply app_assoc].
  - destruct (after_quote_suffix _ _ _ (Nat.lt_succ_diag_r _) H) as (w & ->). exists (34%N :: w). reflexivity.
Qed.

(** two texts of the same pieces, seen from their beginning *)
Inductive like (s s' : str) : Prop :=
| like_end : s = [] -> s' = [] -> like s s'
| like_gap : forall g v g' v', s = g ++ v -> s' = g' ++ v' -> g <> [] -> g' <> [] -> forallb white_space g = true -> forallb white_space g' = true ->
    existsb line_break g = existsb line_break g' -> head_is white_space v = false -> head_is white_space v' = false -> pieces v = pieces v' -> like s s'
| like_remark : forall r r', after_comment s = Some r -> after_comment s' = Some r' -> starts_with (lit "%%%") s = starts_with (lit "%%%") s' -> pieces r = pieces r' -> like s s'
| like_literal : forall k k' w r r', s = 34%N :: k -> s' = 34%N :: k' -> s = w ++ r -> s' = w ++ r' -> after_string s = Some r -> after_string s' = Some r' -> pieces r = pieces r' -> like s s'
| like_open : forall k, s = 34%N :: k -> s' = s -> after_string s = None -> like s s'
| like_mark : forall c k k', s = c :: k -> s' = c :: k' -> white_space c = false -> (c =? 34)%N = false -> after_comment s = None -> after_comment s' = None -> pieces k = pieces k' -> like s s'.

Inductive view (s : str) : Prop :=
| v_end : s = [] -> pieces s = [] -> view s
| v_gap : forall g v, s = g ++ v -> g <> [] -> forallb white_space g = true -> head_is white_space v = false -> pieces s = Gap (existsb line_break g) :: pieces v -> view s
| v_remark : forall r, after_comment s = Some r -> pieces s = Remark (starts_with (lit "%%%") s) :: pieces r -> view s
| v_literal : forall k w r, s = 34%N :: k -> s = w ++ r -> after_string s = Some r -> pieces s = Literal w :: pieces r -> view s
| v_open : forall k, s = 34%N :: k -> after_string s = None -> pieces s = [Literal s] -> view s
| v_mark : forall c k, s = c :: k -> white_space c = false -> (c =? 34)%N = false -> after_comment s = None -> pieces s = Mark c :: pieces k -> view s.
Lemma view_of : forall s, view s.
Proof.
  intros s. destruct (ProofLayout.white_split s) as (g & v & E & G & V). destruct g as [|a g].
  - cbn [app] in E. subst v. destruct s as [|c s]; [apply v_end; reflexivity|]. cbn [head_is] in V. destruct (N.eqb_spec c 34) as [->|Q].
    + destruct (after_string (34%N :: s)) as [r|] eqn:A; [|eapply v_open; [reflexivity|exact A|apply pieces_open; exact A]].
      destruct (after_string_suffix _ _ A) as (w & W). eapply v_literal; [reflexivity|exact W|exact A|apply pieces_literal; assumption].
    + apply N.eqb_neq in Q. destruct (after_comment (c :: s)) as [r|] eqn:A.
      * destruct (pieces_remark _ _ A) as (b & P & ->). eapply v_remark; eassumption.
      * eapply v_mark; [reflexivity|exact V|exact Q|exact A|apply pieces_mark; assumption].
  - eapply (v_gap _ (a :: g) v); [exact E|discriminate|exact G|exact V|]. rewrite E. apply pieces_gap; [discriminate|exact G|exact V].
Qed.
Lemma pieces_none : forall s, pieces s = [] -> s = [].
Proof. intros s H. destruct (view_of s) as [? ?|? ? ? ? ? ? P|? ? P|? ? ? ? ? ? P|? ? ? P|? ? ? ? ? ? P]; [assumption|rewrite P in H; discriminate H..]. Qed.
Lemma like_of : forall s s', pieces s = pieces s' -> like s s'.
Proof.
  intros s s' H. destruct (view_of s) as [E P|g v E N G V P|r A P|k w r E W A P|k E A P|c k E W Q A P], (view_of s') as [E' P'|g' v' E' N' G' V' P'|r' A' P'|k' w' r' E' W' A' P'|k' E' A' P'|c' k' E' W' Q' A' P'];
    rewrite P, P' in H; try discriminate H.
  - apply like_end; assumption.
  - injection H as H1 H2. eapply like_gap; eassumption.
  - injection H as H1 H2. eapply like_remark; eassumption.
  - injection H as H1 H2. subst w'. eapply like_literal; eassumption.
  - injection H as H1 H2. exfalso. apply pieces_none in H2. subst w r. rewrite app_nil_r in W. subst s'. congruence.
  - injection H as H1 H2. exfalso. symmetry in H2. apply pieces_none in H2. subst w' r'. rewrite app_nil_r in W'. subst s'. congruence.
  - injection H as H1. eapply like_open; [exact E|congruence|exact A].
  - injection H as H1 H2. subst c'. eapply like_mark; eassumption.
Qed.

(** ** Readings *)
Section Same.
  Variable U : unicode.
  Notation reads := (SpecPest.reads U source).
  Notation again := (SpecPest.again U source).
  Notation skips := (SpecPest.skips U source).

  (** expressions that make no pairs in atomic rules and leave the stack *)
  Fixpoint quiet (e : gexp) : bool :=
    match e with
    | Text _ | AnyCase _ => true
    | Name r => match r with R_Quotation | R_Escape | R_ANY | R_NEWLINE | R_PEEK | R_WHITESPACE | R_WHITE_SPACE => true | _ => false end
    | Then a b | Or a b => quiet a && quiet b
    | Maybe a | Many a | Several a | Times _ a | Not a => quiet a
    | Push _ => false
    end.
  Lemma quiet_times : forall n a, quiet a = true -> quiet (times n a) = true.
  Proof. intros n a H. induction n as [|[|n] IH]; try exact H. cbn [times quiet]. rewrite H. exact IH. Qed.
  Lemma quiet_rule : forall r k e, source r = Rule k e -> quiet (Name r) = true -> quiet e = true /\ body_mode r k Atomic = Atomic /\ makes_pair k Atomic = false.
  Proof. intros r k e S Q. destruct r; try discriminate Q; cbn in S; inversion S; subst; repeat split. Qed.
  Lemma reads_quiet :
    (forall m e s o, reads m e s o -> m = Atomic -> quiet e = true -> forall s1 t, o = Some (s1, t) -> t = [] /\ stk s1 = stk s) /\
    (forall m e s s1 t, again m e s s1 t -> m = Atomic -> quiet e = true -> t = [] /\ stk s1 = stk s) /\
    (forall m s s1 t, skips m s s1 t -> m = Atomic -> t = [] /\ stk s1 = stk s).
  Proof.
    apply (reads_all U source
      (fun m e s o _ => m = Atomic -> quiet e = true -> forall s1 t, o = Some (s1, t) -> t = [] /\ stk s1 = stk s)
      (fun m e s s1 t _ => m = Atomic -> quiet e = true -> t = [] /\ stk s1 = stk s)
      (fun m s s1 t _ => m = Atomic -> t = [] /\ stk s1 = stk s)).
    all: try (intros; discriminate).
    - intros m w s s' (_ & _ & P) _ _ s1 t E. injection E as <- <-. auto.
    - intros m v w s s' _ (_ & _ & P) _ _ s1 t E. injection E as <- <-. auto.
    - intros m a b s s1 t1 s2 t2 s3 t3 _ I1 _ I2 _ I3 M Q s4 t E. injection E as <- <-. cbn [quiet] in Q. apply andb_prop in Q as [Q1 Q2].
      destruct (I1 M Q1 _ _ eq_refl) as [-> X1], (I2 M) as [-> X2], (I3 M Q2 _ _ eq_refl) as [-> X3]. split; [reflexivity|congruence].
    - intros m a b s o _ I1 M Q s1 t E. injection E as ->. cbn [quiet] in Q. apply andb_prop in Q as [Q1 Q2]. apply (I1 M Q1 _ _ eq_refl).
    - intros m a b s o _ _ _ I1 M Q s1 t ->. cbn [quiet] in Q. apply andb_prop in Q as [Q1 Q2]. apply (I1 M Q2 _ _ eq_refl).
    - intros m a s o _ I1 M Q s1 t E. injection E as ->. apply (I1 M Q _ _ eq_refl).
    - intros m a s _ _ M Q s1 t E. injection E as <- <-. auto.
    - intros m a s s1 t1 s2 t2 _ I1 _ I2 M Q s3 t E. injection E as <- <-. destruct (I1 M Q _ _ eq_refl) as [-> X1], (I2 M Q) as [-> X2]. split; [reflexivity|congruence].
    - intros m a s _ _ M Q s1 t E. injection E as <- <-. auto.
    - intros m a s o _ I1 M Q s1 t E. apply (I1 M); [|exact E]. cbn [quiet] in *. rewrite Q. reflexivity.
    - intros m n a s o _ I1 M Q s1 t E. apply (I1 M); [|exact E]. apply quiet_times. exact Q.
    - intros m a s _ _ M Q s1 t E. injection E as <- <-. auto.
    - intros m r k e s s1 t1 w S _ I1 _ M Q s2 t E. injection E as <- <-. subst m. destruct (quiet_rule r k e S Q) as (Q1 & Q2 & ->). apply (I1 Q2 Q1 _ _ eq_refl).
    - intros m r b P c s s' _ _ _ (_ & _ & X) M Q s1 t E. injection E as <- <-. auto.
    - intros m r s _ _ M Q s1 t E. injection E as <- <-. auto.
    - intros m r s S _ M Q s1 t E. destruct r; discriminate.
    - intros m r t0 st s o _ X _ I1 M Q s1 t E. apply (I1 M eq_refl _ _ E).
    - intros m r t0 st s o S _ _ _ M Q s1 t E. destruct r; discriminate.
    - intros m a s s1 t1 _ _ _ _ M Q. auto.
    - intros m a s s1 t1 s2 t2 s3 t3 _ I1 _ I2 _ I3 M Q. destruct (I1 M) as [-> X1], (I2 M Q _ _ eq_refl) as [-> X2], (I3 M Q) as [-> X3]. split; [reflexivity|congruence].
    - intros m s N M. auto.
  Qed.
  Lemma quiet_reads : forall e s s1 t, reads Atomic e s (Some (s1, t)) -> quiet e = true -> t = [] /\ stk s1 = stk s.
  Proof. intros e s s1 t H Q. exact (proj1 reads_quiet _ _ _ _ H eq_refl Q _ _ eq_refl). Qed.
  Lemma skips_none : forall m s s1 t, skips m s s1 t -> m <> NonAtomic -> s1 = s /\ t = [].
  Proof. intros m s s1 t H N. inversion H; subst; [auto|congruence]. Qed.

  (** *** Strings *)
  Notation choice := (Or (Name R_StringBlock) (Name R_StringNormal)).
  Lemma literal_decides : forall m s k, rest s = 34%N :: k -> match after_string (rest s) with
    | Some r => ok U m choice s r (stk s)
    | None => reads m choice s None
    end.
  Proof.
    intros m s k E. pose proof (fence_reads U m s) as F. cbv zeta in F. unfold after_string. pose proof (normal_decides U m s) as N.
    match goal with |- match match ?x with _ => _ end with _ => _ end => destruct x as [r|] end; [apply ok_or1; exact F|].
    rewrite E in N. cbn [after_normal] in N. change (34 =? 34)%N with true in N. cbv iota in N. rewrite E. cbn [tl]. destruct (after_quote k) as [r|].
    - apply ok_or2; assumption.
    - apply no_or; assumption.
  Qed.
  Definition qn : tree rule := Node R_Quotation 0 0 [] [].
  Lemma quote_tree : forall s s1 t, reads CompoundAtomic (Name R_Quotation) s (Some (s1, t)) -> rest s = 34%N :: rest s1 /\ stk s1 = stk s /\ map shade t = [qn].
  Proof.
    intros s s1 t H. inversion H as [| | | | | | | | | | | | | | | | | | |m0 r0 k0 e0 s0 s2 t1 w S R W| |? ? ? ? ? ? ? S| |? ? ? S| |? ? ? S| |? ? ? ? ? ? S|? ? ? ? ? ? S]; subst; try discriminate S.
    cbn in S. inversion S; subst. inversion R as [? ? ? ? (P1 & P2 & P3)| | | | | | | | | | | | | | | | | | | | | | | | | | | |]; subst. repeat split; assumption.
  Qed.
  Lemma quotes_tree : forall m e s s1 t, again m e s s1 t -> m = CompoundAtomic -> e = Name R_Quotation ->
    exists j, rest s = repeat 34%N j ++ rest s1 /\ stk s1 = stk s /\ map shade t = repeat qn j.
  Proof.
    fix IH 6. intros m e s s1 t H M E. destruct H as [m a s s1 t1 _ _|m a s s1 t1 s2 t2 s3 t3 K R A].
    - exists 0. repeat split.
    - subst m a. destruct (skips_none _ _ _ _ K ltac:(discriminate)) as [-> ->]. destruct (quote_tree _ _ _ R) as (R1 & R2 & R3).
      destruct (IH _ _ _ _ _ A eq_refl eq_refl) as (j & A1 & A2 & A3). exists (S j). cbn [repeat app]. rewrite map_app. cbn [app]. rewrite R1, A1, R3, A3. repeat split; congruence.
  Qed.
  Lemma many_quotes : forall s s1 t, reads CompoundAtomic (Many (Name R_Quotation)) s (Some (s1, t)) ->
    exists j, rest s = repeat 34%N j ++ rest s1 /\ stk s1 = stk s /\ map shade t = repeat qn j /\ match rest s1 with c :: _ => (c =? 34)%N = false | [] => True end.
  Proof.
    intros s s1 t H. pose proof (many_end U _ _ _ _ _ H ltac:(discriminate)) as N.
    assert (C : match rest s1 with c :: _ => (c =? 34)%N = false | [] => True end).
    { destruct (rest s1) as [|c k] eqn:E; [exact I|]. destruct (N.eqb_spec c 34) as [->|]; [|reflexivity]. exfalso. eapply ok_no; [eapply ok_quote; exact E|exact N]. }
    inversion H as [| | | | | | | | | | |m0 a0 s0 s2 t1 s3 t2 R A|m0 a0 s0 R| | | | | | | | | | | | | | | |]; subst.
    - destruct (quote_tree _ _ _ R) as (R1 & R2 & R3). destruct (quotes_tree _ _ _ _ _ A eq_refl eq_refl) as (j & A1 & A2 & A3).
      exists (S j). cbn [repeat app]. rewrite map_app, R1, A1, R3, A3. repeat split; [congruence|exact C].
    - exists 0. repeat split; try exact C.
  Qed.
  Lemma three_tree : forall s s1 t, reads CompoundAtomic (Times 3 (Name R_Quotation)) s (Some (s1, t)) -> rest s = repeat 34%N 3 ++ rest s1 /\ stk s1 = stk s /\ map shade t = repeat qn 3.
  Proof.
    intros s s1 t H. inversion H as [| | | | | | | | | | | | | |m0 n0 a0 s0 o0 R| | | | | | | | | | | | | |]; subst. cbn [times] in R.
    inversion R as [| | | |m0 a0 b0 s0 s2 t2 s3 t3 s4 t4 R1 K1 R2| | | | | | | | | | | | | | | | | | | | | | | |]; subst.
    inversion R2 as [| | | |m0 a0 b0 s0 s5 t5 s6 t6 s7 t7 R3 K2 R4| | | | | | | | | | | | | | | | | | | | | | | |]; subst.
    destruct (skips_none _ _ _ _ K1 ltac:(discriminate)) as [-> ->], (skips_none _ _ _ _ K2 ltac:(discriminate)) as [-> ->].
    apply quote_tree in R1 as (A1 & A2 & A3), R3 as (B1 & B2 & B3), R4 as (C1 & C2 & C3). cbn [app]. rewrite !map_app, A3, B3, C3. cbn [repeat app]. rewrite A1, B1, C1. repeat split. congruence.
  Qed.
  Lemma fence_tree : forall m s s1 t, reads m (Name R_StringBlock) s (Some (s1, t)) -> exists j x,
    rest s = repeat 34%N (3 + j) ++ x ++ repeat 34%N (3 + j) ++ rest s1 /\ match x with c :: _ => (c =? 34)%N = false | [] => False end /\
    map shade t = [Node R_StringBlock 0 0 [] (repeat qn (3 + j) ++ [Node R_StringText 0 0 x []] ++ repeat qn 3)].
  Proof.
    intros m s s1 t H. inversion H as [| | | | | | | | | | | | | | | | | | |m0 r0 k0 e0 s0 s2 t1 w S R W| |? ? ? ? ? ? ? S| |? ? ? S| |? ? ? S| |? ? ? ? ? ? S|? ? ? ? ? ? S]; subst; try discriminate S.
    cbn in S. inversion S; subst. cbn [body_mode implicit makes_pair] in *.
    inversion R as [| | | |m0 a0 b0 s0 s4 t4 s5 t5 s6 t6 R1 K1 Rz| | | | | | | | | | | | | | | | | | | | | | | |]; subst.
    inversion R1 as [| | | |m0 a0 b0 s0 s7 t7 s8 t8 s9 t9 R2 K2 Rp| | | | | | | | | | | | | | | | | | | | | | | |]; subst.
    inversion R2 as [| | | |m0 a0 b0 s0 s10 t10 s11 t11 s12 t12 R3 K3 Rt| | | | | | | | | | | | | | | | | | | | | | | |]; subst.
    inversion R3 as [| | | |m0 a0 b0 s0 s13 t13 s14 t14 s15 t15 R4 K4 Rq| | | | | | | | | | | | | | | | | | | | | | | |]; subst.
    apply skips_none in K1 as [-> ->]; [|discriminate]. apply skips_none in K2 as [-> ->]; [|discriminate]. apply skips_none in K3 as [-> ->]; [|discriminate]. apply skips_none in K4 as [-> ->]; [|discriminate].
    apply three_tree in R4 as (A1 & A2 & A3), Rz as (Z1 & Z2 & Z3).
    inversion Rq as [| | | | | | | | | | | | | | | | |m0 a0 s0 s16 t16 w0 Rm Wm| | | | | | | | | | |]; subst. apply many_quotes in Rm as (j & B1 & B2 & B3 & B4). cbn [with_stack rest stk] in *.
    assert (w0 = repeat 34%N j) by (rewrite Wm in B1; apply app_inv_tail in B1; exact B1). subst w0.
    inversion Rt as [| | | | | | | | | | | | | | | | | | |m0 r0 k0 e0 s0 s17 t17 x ST RT WT| |? ? ? ? ? ? ? ST| |? ? ? ST| |? ? ? ST| |? ? ? ? ? ? ST|? ? ? ? ? ? ST]; subst; try discriminate ST.
    cbn in ST. inversion ST; subst. cbn [body_mode implicit makes_pair] in *. pose proof (quiet_reads _ _ _ _ RT eq_refl) as [-> C2]. cbn [with_stack rest stk] in *.
    inversion Rp as [| | | | | | | | | | | | | | | | | | |? ? ? ? ? ? ? ? SP| |? ? ? ? ? ? ? SP| |? ? ? SP| |? ? ? SP| |? ? ? ? ? ? SP|m0 r0 w1 st1 s0 o0 SP KP RP]; subst; try discriminate SP; try (cbn in SP; inversion SP; subst; discriminate).
    rewrite C2 in KP. injection KP as <- <-. inversion RP as [? ? ? ? (P1 & P2 & P3)| | | | | | | | | | | | | | | | | | | | | | | | | | | |]; subst. cbn [with_stack rest] in P1.
    exists j, x. split; [|split].
    - rewrite A1, B1, WT, P1, Z1. rewrite !repeat_app, <- !app_assoc. f_equal. f_equal. f_equal. rewrite !app_assoc. f_equal. rewrite <- !repeat_app, (Nat.add_comm j 3). reflexivity.
    - rewrite WT in B4. destruct x as [|c x]; [|exact B4]. exfalso.
      inversion RT as [| | | | | | | | | | | | |m0 a0 s0 o0 RS| | | | | | | | | | | | | | |]; subst.
      destruct (reads_suffix U _ _ _ _ _ RS) as [z Ez]. cbn [with_stack rest] in Ez, WT. cbn [app] in WT.
      inversion RS as [| | | |m0 a0 b0 s0 s18 t18 s19 t19 s20 t20 RA KA RB| | | | | | | | | | | | | | | | | | | | | | | |]; subst.
      match type of WT with _ = rest ?z => rename z into s17 end.
      assert (Lt : length (rest s18) < length (rest s17)).
      { inversion RA as [| | | |m0 a0 b0 s0 s21 t21 s22 t22 s23 t23 RC KC RD| | | | | | | | | | | | | | | | | | | | | | | |]; subst. apply skips_none in KC as [-> ->]; [|discriminate].
        inversion RC; subst. inversion RD as [| | | | | | | | | | | | | | | | | | |? ? ? ? ? ? ? ? SP0| |? ? b ? c ? ? SP0 ? ? (PP & _)| |? ? ? SP0| |? ? ? SP0| |? ? ? ? ? ? SP0|? ? ? ? ? ? SP0]; subst; try discriminate SP0.
        cbn [with_stack rest] in PP. rewrite WT in PP. rewrite PP. cbn. lia. }
      apply skips_none in KA as [-> ->]; [|discriminate]. destruct (reads_suffix U _ _ _ _ _ RB) as [y Ey]. rewrite Ey, app_length in Lt. lia.
    - cbn [map shade word_of worded]. f_equal. f_equal. rewrite !map_app, A3, B3, Z3. cbn [map shade word_of worded app]. rewrite repeat_app, <- !app_assoc. reflexivity.
  Qed.
  Lemma normal_tree : forall m s s1 t w, reads m (Name R_StringNormal) s (Some (s1, t)) -> rest s = w ++ rest s1 ->
    map shade t = if makes_pair AtomicRule m then [Node R_StringNormal 0 0 w []] else [].
  Proof.
    intros m s s1 t w H E. inversion H as [| | | | | | | | | | | | | | | | | | |m0 r0 k0 e0 s0 s2 t1 w0 S R W| |? ? ? ? ? ? ? S| |? ? ? S| |? ? ? S| |? ? ? ? ? ? S|? ? ? ? ? ? S]; subst; try discriminate S.
    cbn in S. inversion S; subst. cbn [body_mode implicit] in R. pose proof (quiet_reads _ _ _ _ R eq_refl) as [-> _].
    assert (w0 = w) by (rewrite W in E; apply app_inv_tail in E; exact E). subst w0. destruct (makes_pair AtomicRule m); reflexivity.
  Qed.
  Lemma normal_long : forall m s s1 t k r, reads m (Name R_StringNormal) s (Some (s1, t)) -> rest s = 34%N :: 34%N :: 34%N :: k ++ r -> rest s1 = r -> False.
  Proof.
    intros m s s1 t k r H E1 E2. apply normal_reads in H as (v & V & A). rewrite V in E1. injection E1 as ->. cbn [after_quote] in A. change (34 =? 34)%N with true in A. cbv iota in A. injection A as A.
    rewrite E2 in A. apply (f_equal (@length N)) in A. cbn [length] in A. rewrite app_length in A. nlia.
  Qed.
  Lemma fence_unique : forall i j (x y : str), repeat 34%N i ++ x ++ repeat 34%N i = repeat 34%N j ++ y ++ repeat 34%N j ->
    match x with c :: _ => (c =? 34)%N = false | [] => False end -> match y with c :: _ => (c =? 34)%N = false | [] => False end -> i = j /\ x = y.
  Proof.
    intros i j x y H X Y. assert (E : i = j).
    { destruct x as [|a x]; [destruct X|]. destruct y as [|b y]; [destruct Y|]. cbn [app] in H. revert H. generalize (x ++ repeat 34%N i) (y ++ repeat 34%N j). clear x y. intros x y. revert j.
      induction i as [|i IH]; intros [|j] H; cbn [repeat app] in H; [reflexivity|injection H as -> _; discriminate X|injection H as <- _; discriminate Y|]. injection H as H. f_equal. apply IH. exact H. }
    subst j. split; [reflexivity|]. apply app_inv_head in H. apply app_inv_tail in H. exact H.
  Qed.
  Lemma literal_same : forall m s s' s1 t w k k' r', reads m choice s (Some (s1, t)) -> rest s = 34%N :: k -> rest s' = 34%N :: k' -> rest s = w ++ rest s1 -> rest s' = w ++ r' -> after_string (rest s') = Some r' ->
    exists s1' t', reads m choice s' (Some (s1', t')) /\ rest s1' = r' /\ map shade t = map shade t'.
  Proof.
    intros m s s' s1 t w k k' r' R E E' W W' A. pose proof (literal_decides m s' k' E') as D. rewrite A in D. destruct D as (s1' & t' & R' & D & _). exists s1', t'. split; [exact R'|]. split; [exact D|]. subst r'. clear A.
    assert (Three : forall j x z (v : str), (repeat 34%N (3 + j) ++ x ++ z ++ v)%N = 34%N :: 34%N :: 34%N :: (repeat 34%N j ++ x ++ z) ++ v) by (intros; cbn [repeat Nat.add app]; rewrite <- !app_assoc; reflexivity).
    inversion R as [| | | | | | |? ? ? ? ? R1|? ? ? ? ? R1 R2| | | | | | | | | | | | | | | | | | | |]; subst; inversion R' as [| | | | | | |? ? ? ? ? R1'|? ? ? ? ? R1' R2'| | | | | | | | | | | | | | | | | | | |]; subst.
    - destruct (fence_tree _ _ _ _ R1) as (j & x & B1 & B2 & B3), (fence_tree _ _ _ _ R1') as (i & y & C1 & C2 & C3). rewrite B3, C3.
      assert (Q : repeat 34%N (3 + j) ++ x ++ repeat 34%N (3 + j) = repeat 34%N (3 + i) ++ y ++ repeat 34%N (3 + i)).
      { rewrite W in B1. rewrite W' in C1. rewrite !app_assoc in B1, C1. apply app_inv_tail in B1, C1. rewrite <- !app_assoc in B1, C1. congruence. }
      destruct (fence_unique _ _ _ _ Q B2 C2) as [J ->]. assert (j = i) by lia. subst i. reflexivity.
    - exfalso. destruct (fence_tree _ _ _ _ R1) as (j & x & B1 & B2 & B3). rewrite W in B1. rewrite !app_assoc in B1. apply app_inv_tail in B1. rewrite <- app_assoc in B1. subst w.
      rewrite <- !app_assoc in W'. rewrite Three in W'. exact (normal_long _ _ _ _ _ _ R2' W' eq_refl).
    - exfalso. destruct (fence_tree _ _ _ _ R1') as (j & x & B1 & B2 & B3). rewrite W' in B1. rewrite !app_assoc in B1. apply app_inv_tail in B1. rewrite <- app_assoc in B1. subst w.
      rewrite <- !app_assoc in W. rewrite Three in W. exact (normal_long _ _ _ _ _ _ R2 W eq_refl).
    - rewrite (normal_tree _ _ _ _ _ R2 W), (normal_tree _ _ _ _ _ R2' W'). reflexivity.
  Qed.

  (** *** Comments *)
  Definition remark_tree (b : bool) : list (tree rule) := if b then [Node R_MultiLineComment 0 0 [] []] else [].
  Lemma block_quiet : forall n s, length (rest s) < n -> Nat.odd (markers (rest s)) = true -> exists s1, again CompoundAtomic in_block s s1 [].
  Proof.
    induction n as [|n IH]; intros s L O; [lia|]. assert (M : CompoundAtomic <> NonAtomic) by discriminate. pose proof (block_comment U CompoundAtomic s) as B. unfold starts_with in B.
    destruct (strip_prefix (lit "%%%") (rest s)) as [k|] eqn:E.
    - apply strip_skip in E as [E F]. change (length (lit "%%%")) with 3 in F. rewrite F, block_is in B. rewrite E, markers_open, Nat.odd_succ, <- Nat.negb_odd in O. apply negb_true_iff in O. rewrite O in B.
      exists s. eapply again_stop; [apply skips_nothing; exact M|]. apply no_or; [exact B|]. apply r_then_no1. eapply no_not. apply ok_text. exact E.
    - destruct (rest s) as [|c k] eqn:R; [discriminate O|]. rewrite (markers_skip _ _ E) in O. cbn [length] in L.
      destruct (IH (mkPs (pos s + 1) k (stk s)) ltac:(cbn [rest]; lia) O) as (s1 & A). exists s1. change (@nil (tree rule)) with (@nil (tree rule) ++ ([] ++ []) ++ []).
      eapply again_more; [apply skips_nothing; exact M| |exact A]. apply r_or2; [exact B|]. change (@nil (tree rule) ++ []) with (@nil (tree rule) ++ [] ++ []).
      eapply r_then; [apply r_not, no_text; rewrite R; exact E|apply skips_nothing; exact M|]. eapply (r_char _ _ _ _ AnyChar _ c); [reflexivity|reflexivity|exact I|]. split; [exact R|split; reflexivity].
  Qed.
  Lemma again_many : forall m e s s1 t, m <> NonAtomic -> again m e s s1 t -> reads m (Many e) s (Some (s1, t)).
  Proof.
    intros m e s s1 t M A. inversion A as [? ? ? s2 t2 K R|? ? ? s2 t2 s3 t3 s4 t4 K R A2]; subst; apply skips_none in K as [-> ->]; try exact M.
    - apply r_many_no. exact R.
    - cbn [app]. eapply r_many; eassumption.
  Qed.
  Lemma block_tree : forall m s s1 t, reads m (Name R_MultiLineComment) s (Some (s1, t)) -> map shade t = remark_tree true.
  Proof.
    intros m s s1 t H. pose proof (block_comment U m s) as B. unfold starts_with in B. destruct (strip_prefix (lit "%%%") (rest s)) as [k|] eqn:E; [|pose proof (reads_once U _ _ _ _ _ H B); discriminate].
    apply strip_skip in E as [E F]. change (length (lit "%%%")) with 3 in F. rewrite F, block_is in B. destruct (Nat.odd (markers k)) eqn:O; [|pose proof (reads_once U _ _ _ _ _ H B); discriminate].
    inversion H as [| | | | | | | | | | | | | | | | | | |m0 r0 k0 e0 s0 s2 t1 w S R W| |? ? ? ? ? ? ? S| |? ? ? S| |? ? ? S| |? ? ? ? ? ? S|? ? ? ? ? ? S]; subst; try discriminate S.
    cbn in S. inversion S; subst. cbn [body_mode implicit makes_pair] in *.
    inversion R as [| | | |m0 a0 b0 s0 s4 t4 s5 t5 s6 t6 R1 K1 R2| | | | | | | | | | | | | | | | | | | | | | | |]; subst.
    inversion R1 as [| | | |m0 a0 b0 s0 s7 t7 s8 t8 s9 t9 R3 K2 R4| | | | | | | | | | | | | | | | | | | | | | | |]; subst.
    apply skips_none in K1 as [-> ->]; [|discriminate]. apply skips_none in K2 as [-> ->]; [|discriminate].
    inversion R3 as [? ? ? ? (P1 & P2 & P3)| | | | | | | | | | | | | | | | | | | | | | | | | | | |]; subst. rewrite E in P1. apply app_inv_head in P1. rewrite P1 in O.
    destruct (block_quiet _ _ (Nat.lt_succ_diag_r _) O) as (s10 & A). apply again_many in A; [|discriminate]. pose proof (reads_once U _ _ _ _ _ A R4) as X. injection X as -> <-.
    inversion R2; subst. reflexivity.
  Qed.
  Lemma comment_tree : forall m s s1 t, reads m (Name R_COMMENT) s (Some (s1, t)) -> map shade t = remark_tree (starts_with (lit "%%%") (rest s)).
  Proof.
    intros m s s1 t H. inversion H as [| | | | | | | | | | | | | | | | | | |m0 r0 k0 e0 s0 s2 t1 w S R W| |? ? ? ? ? ? ? S| |? ? ? S| |? ? ? S| |? ? ? ? ? ? S|? ? ? ? ? ? S]; subst; try discriminate S.
    cbn in S. inversion S; subst. cbn [body_mode implicit makes_pair] in *.
    assert (L : forall w, In w [lit "///"; lit "//?"; lit "//!"; lit "//*"] -> reads Atomic (Then (Text w) (Many in_line)) s (Some (s1, t1)) -> map shade t1 = remark_tree (starts_with (lit "%%%") (rest s))).
    { intros v I X. pose proof (quiet_reads _ _ _ _ X eq_refl) as [-> _].
      inversion X as [| | | |m0 a0 b0 s0 s4 t4 s5 t5 s6 t6 X1 K1 X2| | | | | | | | | | | | | | | | | | | | | | | |]; subst. inversion X1 as [? ? ? ? (P1 & _)| | | | | | | | | | | | | | | | | | | | | | | | | | | |]; subst.
      rewrite P1. match goal with Z : _ = [] |- map shade _ = _ => rewrite Z end. repeat (destruct I as [<-|I]; [reflexivity|]). destruct I. }
    inversion R as [| | | | | | |? ? ? ? ? R1|? ? ? ? ? _ R1| | | | | | | | | | | | | | | | | | | |]; subst; [|eapply L; [|exact R1]; cbn; auto].
    inversion R1 as [| | | | | | |? ? ? ? ? R2|? ? ? ? ? _ R2| | | | | | | | | | | | | | | | | | | |]; subst; [|eapply L; [|exact R2]; cbn; auto].
    inversion R2 as [| | | | | | |? ? ? ? ? R3|? ? ? ? ? _ R3| | | | | | | | | | | | | | | | | | | |]; subst; [|eapply L; [|exact R3]; cbn; auto].
    inversion R3 as [| | | | | | |? ? ? ? ? R4|? ? ? ? ? _ R4| | | | | | | | | | | | | | | | | | | |]; subst; [|eapply L; [|exact R4]; cbn; auto].
    rewrite (block_tree _ _ _ _ R4). pose proof (block_comment U Atomic s) as B. destruct (starts_with (lit "%%%") (rest s)); [reflexivity|]. pose proof (reads_once U _ _ _ _ _ R4 B). discriminate.
  Qed.

  (** *** Gaps *)
  Definition near (s s' : pstate) : Prop := pieces (rest s) = pieces (rest s').
  Notation item := (Or (Name R_WHITESPACE) (Name R_COMMENT)).
  Notation inl := (Then (Not (Name R_NEWLINE)) (Name R_WHITESPACE)).
  Lemma newline_rest : forall m s, head_is line_break (rest s) = false -> reads m (Name R_NEWLINE) s None.
  Proof. intros m s H. apply newline_no. destruct (rest s); [exact I|exact H]. Qed.
  Lemma white_no : forall m s, head_is white_space (rest s) = false -> reads m (Name R_WHITESPACE) s None.
  Proof.
    intros m s H. eapply no_rule; [reflexivity|]. apply no_or.
    - apply newline_rest. destruct (rest s) as [|c k]; [reflexivity|]. cbn [head_is] in *. destruct (line_break c) eqn:E; [|reflexivity]. apply ProofLayout.line_break_white in E. congruence.
    - eapply (r_char_no _ _ _ _ White); [reflexivity|reflexivity|]. intros (c & k & E & W). rewrite E in H. cbn in H. congruence.
  Qed.
  Lemma white_ok : forall m s c k, rest s = c :: k -> white_space c = true ->
    exists s1, reads m (Name R_WHITESPACE) s (Some (s1, [])) /\ (rest s1 = k \/ exists k', c = 13%N /\ k = 10%N :: k' /\ rest s1 = k').
  Proof.
    intros m s c k E W.
    assert (T : forall w v, rest s = w ++ v -> past w s (mkPs (pos s + length w) v (stk s))) by (intros w v X; split; [exact X|split; reflexivity]).
    assert (G : forall s1 w, rest s = w ++ rest s1 -> reads Atomic (Or (Name R_NEWLINE) (Name R_WHITE_SPACE)) s (Some (s1, [])) -> reads m (Name R_WHITESPACE) s (Some (s1, []))).
    { intros s1 w V R. change (@nil (tree rule)) with (if makes_pair Silent m then [Node R_WHITESPACE (pos s) (pos s1) w []] else []). eapply r_rule; [reflexivity|exact R|exact V]. }
    assert (N : forall s1 w, rest s = w ++ rest s1 -> reads Atomic (Or (Or (Text [10]%N) (Text [13; 10]%N)) (Text [13]%N)) s (Some (s1, [])) -> reads Atomic (Name R_NEWLINE) s (Some (s1, []))).
    { intros s1 w V R. change (@nil (tree rule)) with (if makes_pair Silent Atomic then [Node R_NEWLINE (pos s) (pos s1) w []] else []). eapply r_rule; [reflexivity|exact R|exact V]. }
    assert (One : forall a, c = a -> past [a] s (mkPs (pos s + 1) k (stk s))) by (intros a <-; apply (T [c] k); exact E).
    destruct (N.eqb_spec c 10) as [C|C].
    - exists (mkPs (pos s + 1) k (stk s)). split; [|left; reflexivity]. apply (G _ [c]); [exact E|]. apply r_or1. apply (N _ [c]); [exact E|]. apply r_or1, r_or1, r_text, One, C.
    - assert (N10 : reads Atomic (Text [10]%N) s None) by (constructor; intros (v & X); rewrite E in X; injection X as X _; congruence).
      destruct (N.eqb_spec c 13) as [D|D].
      + destruct k as [|d k]; [|destruct (N.eqb_spec d 10) as [F|F]].
        * exists (mkPs (pos s + 1) [] (stk s)). split; [|left; reflexivity]. apply (G _ [c]); [exact E|]. apply r_or1. apply (N _ [c]); [exact E|]. apply r_or2; [|apply r_text, One, D].
          apply no_or; [exact N10|]. constructor. intros (v & X). rewrite E in X. discriminate X.
        * subst c d. exists (mkPs (pos s + 2) k (stk s)). split; [|right; exists k; auto]. apply (G _ [13; 10]%N); [exact E|]. apply r_or1. apply (N _ [13; 10]%N); [exact E|]. apply r_or1, r_or2; [exact N10|]. apply r_text. apply (T [13; 10]%N k). exact E.
        * exists (mkPs (pos s + 1) (d :: k) (stk s)). split; [|left; reflexivity]. apply (G _ [c]); [exact E|]. apply r_or1. apply (N _ [c]); [exact E|]. apply r_or2; [|apply r_text, One, D].
          apply no_or; [exact N10|]. constructor. intros (v & X). rewrite E in X. injection X as _ X _. congruence.
      + exists (mkPs (pos s + 1) k (stk s)). split; [|left; reflexivity]. apply (G _ [c]); [exact E|]. apply r_or2.
        * apply newline_rest. rewrite E. cbn [head_is]. unfold line_break. rewrite (proj2 (N.eqb_neq _ _) C), (proj2 (N.eqb_neq _ _) D). reflexivity.
        * eapply (r_char _ _ _ _ White _ c); [reflexivity|reflexivity|exact W|apply One; reflexivity].
  Qed.
  Lemma white_run : forall n g s v, length g < n -> rest s = g ++ v -> forallb white_space g = true -> head_is white_space v = false ->
    exists s1, rest s1 = v /\ forall s2 t, again Atomic item s1 s2 t -> again Atomic item s s2 t.
  Proof.
    induction n as [|n IH]; intros g s v L E G V; [lia|]. destruct g as [|c g]; [exists s; auto|]. cbn [length forallb app] in *. apply andb_prop in G as [G1 G2].
    destruct (white_ok Atomic s c (g ++ v) E G1) as (s1 & R & D).
    assert (X : exists g', length g' < n /\ rest s1 = g' ++ v /\ forallb white_space g' = true).
    { destruct D as [D|(k' & _ & D1 & D2)]; [exists g; repeat split; [lia|exact D|exact G2]|]. destruct g as [|d g].
      - cbn [app] in D1. subst v. discriminate V.
      - injection D1 as -> D1. exists g. cbn [length forallb] in *. repeat split; [lia|congruence|]. apply andb_prop in G2 as [_ G2]. exact G2. }
    destruct X as (g' & L' & E' & G'). destruct (IH g' s1 v L' E' G' V) as (s2 & E2 & K). exists s2. split; [exact E2|]. intros s3 t A.
    change t with (@nil (tree rule) ++ [] ++ t). eapply again_more; [apply skips_nothing; discriminate|apply r_or1; exact R|apply K; exact A].
  Qed.
  Lemma comment_white : forall s r, after_comment s = Some r -> head_is white_space s = false.
  Proof.
    intros s r A. destruct (view_of s) as [E P|g v E N G V P|? A' P|k w r' E W A' P|k E A' P|c k E W Q A' P].
    - subst s. reflexivity.
    - destruct (pieces_remark _ _ A) as (b & P' & _). rewrite P in P'. discriminate.
    - destruct s as [|c s]; [reflexivity|]. cbn [head_is]. destruct (white_space c) eqn:W; [|reflexivity]. exfalso.
      rewrite pieces_start, after_white in P by exact W. destruct (ProofLayout.white_split s) as (g & v & -> & G & V). rewrite after_gaps in P by assumption. destruct g; discriminate P.
    - subst s. reflexivity.
    - subst s. reflexivity.
    - subst s. exact W.
  Qed.
  Lemma skip_loop : forall n s s', length (rest s) < n -> near s s' ->
    exists s1 t s1' t', again Atomic item s s1 t /\ again Atomic item s' s1' t' /\ near s1 s1' /\ map shade t = map shade t' /\ fresh s1.
  Proof.
    induction n as [|n IH]; intros s s' L H; [lia|].
    assert (Stop : head_is white_space (rest s) = false -> head_is white_space (rest s') = false -> after_comment (rest s) = None -> after_comment (rest s') = None ->
      exists s1 t s1' t', again Atomic item s s1 t /\ again Atomic item s' s1' t' /\ near s1 s1' /\ map shade t = map shade t' /\ fresh s1).
    { intros W W' C C'. exists s, [], s', []. pose proof (comment_reads U Atomic s) as R. rewrite C in R. pose proof (comment_reads U Atomic s') as R'. rewrite C' in R'.
      split; [eapply again_stop; [apply skips_nothing; discriminate|apply no_or; [apply white_no; exact W|exact R]]|].
      split; [eapply again_stop; [apply skips_nothing; discriminate|apply no_or; [apply white_no; exact W'|exact R']]|]. repeat split; [exact H|exact C]. }
    destruct (like_of _ _ H) as [E E'|g v g' v' E E' N N' G G' B V V' P|r r' A A' B P|k k' w r r' E E' W W' A A' P|k E E' A|c k k' E E' W Q A A' P].
    - apply Stop; rewrite ?E, ?E'; reflexivity.
    - destruct (white_run _ g s v (Nat.lt_succ_diag_r _) E G V) as (s1 & E1 & K). destruct (white_run _ g' s' v' (Nat.lt_succ_diag_r _) E' G' V') as (s1' & E1' & K').
      destruct (IH s1 s1') as (s2 & t & s2' & t' & A1 & A2 & A3).
      { rewrite E, app_length in L. destruct g; [congruence|]. cbn [length] in L. rewrite E1. nlia. }
      { unfold near. rewrite E1, E1'. exact P. }
      exists s2, t, s2', t'. split; [apply K; exact A1|]. split; [apply K'; exact A2|exact A3].
    - pose proof (comment_reads U Atomic s) as R. rewrite A in R. pose proof (comment_reads U Atomic s') as R'. rewrite A' in R'.
      destruct R as (s1 & t1 & R & E1 & _), R' as (s1' & t1' & R' & E1' & _).
      destruct (IH s1 s1') as (s2 & t & s2' & t' & A1 & A2 & A3 & A4 & A5).
      { rewrite E1. pose proof (after_comment_shorter _ _ A). nlia. }
      { unfold near. rewrite E1, E1'. exact P. }
      exists s2, (t1 ++ t), s2', (t1' ++ t').
      split; [change (t1 ++ t) with ([] ++ t1 ++ t); eapply again_more; [apply skips_nothing; discriminate|apply r_or2; [apply white_no, (comment_white _ _ A)|exact R]|exact A1]|].
      split; [change (t1' ++ t') with ([] ++ t1' ++ t'); eapply again_more; [apply skips_nothing; discriminate|apply r_or2; [apply white_no, (comment_white _ _ A')|exact R']|exact A2]|].
      split; [exact A3|]. split; [|exact A5]. rewrite !map_app, A4, (comment_tree _ _ _ _ R), (comment_tree _ _ _ _ R'), B. reflexivity.
    - apply Stop; rewrite ?E, ?E'; reflexivity.
    - apply Stop; rewrite ?E', ?E; reflexivity.
    - apply Stop; [rewrite E; exact W|rewrite E'; exact W|exact A|exact A'].
  Qed.
  Lemma fresh_near : forall s s', near s s' -> fresh s -> fresh s'.
  Proof.
    intros s s' H F. unfold fresh in *. destruct (after_comment (rest s')) as [r|] eqn:E; [|reflexivity]. exfalso. destruct (pieces_remark _ _ E) as (b & P & _). unfold near in H. rewrite P in H.
    destruct (view_of (rest s)) as [E0 P0|g v E0 N G V P0|? A' P0|k w r' E0 W A' P0|k E0 A' P0|c k E0 W Q A' P0]; rewrite P0 in H; try discriminate H. congruence.
  Qed.
  Lemma skip_same : forall m s s1 t s', skips m s s1 t -> near s s' -> exists s1' t', skips m s' s1' t' /\ near s1 s1' /\ map shade t = map shade t' /\ (m = NonAtomic -> fresh s1) /\ (m <> NonAtomic -> s1 = s /\ s1' = s').
  Proof.
    intros m s s1 t s' K H. destruct m.
    - inversion K as [|? ? ? R]; subst; [congruence|]. destruct (skip_loop _ s s' (Nat.lt_succ_diag_r _) H) as (s2 & u & s2' & u' & A1 & A2 & A3 & A4 & A5).
      apply again_many in A1; [|discriminate]. apply again_many in A2; [|discriminate]. pose proof (reads_once U _ _ _ _ _ A1 R) as X. injection X as -> ->.
      exists s2', u'. split; [apply skips_implicit; exact A2|]. split; [exact A3|]. split; [exact A4|]. split; [auto|congruence].
    - apply skips_none in K as [-> ->]; [|discriminate]. exists s', []. split; [apply skips_nothing; discriminate|]. repeat split; [exact H|discriminate].
    - apply skips_none in K as [-> ->]; [|discriminate]. exists s', []. split; [apply skips_nothing; discriminate|]. repeat split; [exact H|discriminate].
  Qed.

  (** gaps within a line *)
  Lemma inline_run : forall m a s u, m <> NonAtomic -> rest s = a ++ u -> forallb inline_space a = true -> head_is inline_space u = false -> exists s1, again m inl s s1 [] /\ rest s1 = u.
  Proof.
    intros m a. induction a as [|c a IH]; intros s u M E A H; cbn [app forallb] in *.
    - exists s. split; [|exact E]. eapply again_stop; [apply skips_nothing; exact M|]. destruct (head_is line_break u) eqn:B.
      + apply r_then_no1. destruct u as [|c u]; [discriminate|]. cbn [head_is] in B. destruct (newline_ok U m s c u E B) as (k' & st & X). eapply no_not. exact X.
      + eapply no_then; [exact M|apply ok_not, newline_rest; rewrite E; exact B|]. intros s1 E1 _. apply white_no. rewrite E1, E. destruct u as [|c u]; [reflexivity|]. cbn [head_is] in *. unfold inline_space in H. unfold line_break in B.
        destruct (white_space c); [|reflexivity]. destruct (c =? 10)%N; [discriminate|]. destruct (c =? 13)%N; [discriminate|]. discriminate H.
    - apply andb_prop in A as [A1 A2]. assert (W : white_space c = true /\ line_break c = false).
      { unfold inline_space in A1. unfold line_break. destruct (white_space c); [|discriminate]. destruct (c =? 10)%N; [discriminate|]. destruct (c =? 13)%N; [discriminate|]. auto. }
      destruct W as [W B]. destruct (white_ok m s c (a ++ u) E W) as (s1 & R & D).
      assert (E1 : rest s1 = a ++ u) by (destruct D as [D|(k' & -> & _)]; [exact D|discriminate B]).
      destruct (IH s1 u M E1 A2 H) as (s2 & K & E2). exists s2. split; [|exact E2]. change (@nil (tree rule)) with (@nil (tree rule) ++ ([] ++ [] ++ []) ++ []).
      eapply again_more; [apply skips_nothing; exact M| |exact K]. eapply r_then; [apply r_not, newline_rest; rewrite E; exact B|apply skips_nothing; exact M|exact R].
  Qed.
  Lemma head_inline : forall v, head_is white_space v = false -> head_is inline_space v = false.
  Proof. intros [|c v] H; [reflexivity|]. cbn in *. apply ProofLayout.inline_ink. exact H. Qed.
  Lemma inline_same : forall m s s' o, m <> NonAtomic -> reads m (Many inl) s o -> near s s' -> exists s1 s1', o = Some (s1, []) /\ reads m (Many inl) s' (Some (s1', [])) /\ near s1 s1'.
  Proof.
    intros m s s' o M R H.
    assert (G : exists a u a' u', rest s = a ++ u /\ rest s' = a' ++ u' /\ forallb inline_space a = true /\ forallb inline_space a' = true /\ head_is inline_space u = false /\ head_is inline_space u' = false /\ pieces u = pieces u').
    { assert (Z : head_is inline_space (rest s) = false -> head_is inline_space (rest s') = false -> exists a u a' u', rest s = a ++ u /\ rest s' = a' ++ u' /\ forallb inline_space a = true /\ forallb inline_space a' = true /\ head_is inline_space u = false /\ head_is inline_space u' = false /\ pieces u = pieces u').
      { intros X X'. exists [], (rest s), [], (rest s'). repeat split; assumption. }
      destruct (like_of _ _ H) as [E E'|g v g' v' E E' N N' G G' B V V' P|r r' A A' B P|k k' w r r' E E' W W' A A' P|k E E' A|c k k' E E' W Q A A' P].
      - apply Z; rewrite ?E, ?E'; reflexivity.
      - destruct (ProofLayout.break_split g G) as (a & b & -> & Ha & Hb & B1 & B2). destruct (ProofLayout.break_split g' G') as (a' & b' & -> & Ha' & Hb' & B1' & B2').
        exists a, (b ++ v), a', (b' ++ v'). rewrite E, E', <- !app_assoc. do 4 (split; [first [reflexivity|assumption]|]). destruct (existsb line_break (a ++ b)) eqn:K.
        + destruct (B1 eq_refl) as (x & c & -> & Hx). destruct (B1' (eq_sym B)) as (x' & c' & -> & Hx').
          split; [cbn; apply ProofLayout.inline_break; exact Hx|]. split; [cbn; apply ProofLayout.inline_break; exact Hx'|].
          rewrite !pieces_gap by (try discriminate; assumption). cbn [existsb]. rewrite Hx, Hx', P. reflexivity.
        + rewrite (B2 eq_refl), (B2' (eq_sym B)). cbn [app]. split; [apply head_inline; exact V|]. split; [apply head_inline; exact V'|exact P].
      - apply Z; apply head_inline; eapply comment_white; eassumption.
      - apply Z; rewrite ?E, ?E'; reflexivity.
      - apply Z; rewrite ?E', ?E; reflexivity.
      - apply Z; rewrite ?E, ?E'; cbn; apply ProofLayout.inline_ink; exact W. }
    destruct G as (a & u & a' & u' & E & E' & A & A' & X & X' & P). destruct (inline_run m a s u M E A X) as (s1 & K & E1), (inline_run m a' s' u' M E' A' X') as (s1' & K' & E1').
    apply again_many in K; [|exact M]. apply again_many in K'; [|exact M]. exists s1, s1'. split; [exact (reads_once U _ _ _ _ _ R K)|]. split; [exact K'|]. unfold near. rewrite E1, E1'. exact P.
  Qed.

  (** ** Static analysis *)
  Definition inked (c : char) : bool := negb (white_space c).
  Definition needs' (r : rule) : need := match r with R_program | R_SOI | R_WHITESPACE | R_NEWLINE | R_WHITE_SPACE => Never | _ => needs r end.
  (** what is read by these rules is one word *)
  Definition solid (r : rule) : bool :=
    worded r || match r with
    | R_Bang | R_DoubleBang | R_Not | R_Question | R_Derivative | R_Positive | R_Dot | R_Proportion | R_Star | R_Slash | R_Underline | R_ASCII_DIGIT | R_ASCII_NONZERO_DIGIT | R_ASCII_BIN_DIGIT | R_ASCII_OCT_DIGIT | R_ASCII_HEX_DIGIT | R_XID_START | R_XID_CONTINUE => true
    | _ => false
    end.
  Definition compact (m : atomicity) : bool := match m with NonAtomic => false | _ => true end.
  Definition special (m : atomicity) (e : gexp) : option bool :=
    match e with
    | Or (Name R_StringBlock) (Name R_StringNormal) => Some true
    | Many (Then (Not (Name R_NEWLINE)) (Name R_WHITESPACE)) => if compact m then Some false else None
    | _ => None
    end.
  Definition printed (w : str) (fr : bool) : bool :=
    forallb inked w && (forallb ordinary w || fr && (str_eqb w (lit "/") || str_eqb w (lit "//") || str_eqb w (lit "%"))).
  (** is the next place known to be no comment, and is what is read one word? *)
  Fixpoint shape (m : atomicity) (e : gexp) (fr : bool) : option (bool * bool) :=
    match special m e with
    | Some q => Some (false, q)
    | None =>
      match e with
      | Text w => if printed w fr then Some (false, true) else None
      | AnyCase w => if forallb ProofStranger.alnum w then Some (false, true) else None
      | Name r => match needs' r with Free => Some (false, solid r) | Fresh => if fr then Some (false, solid r) else None | Never => None end
      | Then a b =>
          match shape m a fr with
          | Some (f1, q1) => match shape m b (skipped m f1) with Some (f2, q2) => Some (f2, q1 && q2 && compact m) | None => None end
          | None => None
          end
      | Or a b => match shape m a fr, shape m b fr with Some (f1, q1), Some (f2, q2) => Some (f1 && f2, q1 && q2) | _, _ => None end
      | Maybe a => match shape m a fr with Some (f1, q1) => Some (fr && f1, q1) | None => None end
      | Many a => match shape m a fr, shape m a (skipped m false) with Some (_, q1), Some (_, q2) => Some (false, q1 && q2 && compact m) | _, _ => None end
      | Several a =>
          match shape m a fr with
          | Some (f1, q1) =>
              match shape m a (skipped m f1), shape m a (skipped m false) with Some (_, q2), Some (_, q3) => Some (false, q1 && (q2 && q3 && compact m) && compact m) | _, _ => None end
          | None => None
          end
      | Not _ | Times _ _ | Push _ => None
      end
    end.
  Definition needed' (r : rule) : bool := match needs' r with Fresh => true | _ => false end.
  Definition shaped (r : rule) : bool :=
    match source r with
    | Rule k e => forallb (fun m => match shape (body_mode r k m) e (needed' r) with Some (_, q) => implb (solid r) q | None => false end) [NonAtomic; CompoundAtomic; Atomic]
    | Built b => match b with AnyChar | Peek | Pop | White | StartOfInput => false | EndOfInput => negb (solid r) | _ => true end
    end.
  Lemma all_shaped : forall r, needs' r <> Never -> shaped r = true.
  Proof. intros r H. destruct r; try (exfalso; apply H; reflexivity); vm_compute; reflexivity. Qed.
  Lemma rule_shape : forall r k e m, source r = Rule k e -> needs' r <> Never -> exists f q, shape (body_mode r k m) e (needed' r) = Some (f, q) /\ (solid r = true -> q = true).
  Proof.
    intros r k e m S N. apply all_shaped in N. unfold shaped in N. rewrite S in N. rewrite forallb_forall in N. specialize (N m ltac:(destruct m; cbn; auto)). cbv beta in N.
    destruct (shape (body_mode r k m) e (needed' r)) as [[f q]|]; [|discriminate]. exists f, q. split; [reflexivity|]. intros X. rewrite X in N. exact N.
  Qed.
  Lemma name_shape : forall m r fr f q, shape m (Name r) fr = Some (f, q) -> f = false /\ q = solid r /\ needs' r <> Never /\ (needed' r = true -> fr = true).
  Proof.
    intros m r fr f q H. cbn [shape special] in H. unfold needed'. destruct (needs' r); [injection H as <- <-|destruct fr; [injection H as <- <-|discriminate]|discriminate]; repeat split; auto; try discriminate.
  Qed.
  Lemma built_shape : forall r b, source r = Built b -> needs' r <> Never -> b <> AnyChar /\ b <> Peek /\ b <> Pop /\ b <> White /\ b <> StartOfInput /\ (b = EndOfInput -> solid r = false).
  Proof. intros r b S N. apply all_shaped in N. unfold shaped in N. rewrite S in N. destruct b; try discriminate N; repeat split; try discriminate. intros _. apply negb_true_iff. exact N. Qed.

  (** ** Marks *)
  Lemma marks : forall w k, forallb inked w = true -> forallb ordinary w = true -> pieces (w ++ k) = map Mark w ++ pieces k.
  Proof.
    induction w as [|c w IH]; intros k I O; [reflexivity|]. cbn [forallb] in *. apply andb_prop in I as [I1 I2], O as [O1 O2]. destruct (ordinary_none c (w ++ k) O1) as [Q C].
    cbn [app map]. rewrite (pieces_mark c (w ++ k)) by first [exact Q|exact C|apply negb_true_iff; exact I1]. rewrite IH by assumption. reflexivity.
  Qed.
  Lemma marks_back : forall w s P, pieces s = map Mark w ++ P -> exists k, s = w ++ k /\ pieces k = P.
  Proof.
    induction w as [|c w IH]; intros s P H; [exists s; auto|]. cbn [map app] in H. destruct (view_of s) as [E P0|g v E N G V P0|? A' P0|k w' r' E W A' P0|k E A' P0|c' k E W Q A' P0]; rewrite P0 in H; try discriminate H.
    injection H as -> H. destruct (IH k P H) as (k' & -> & E'). exists k'. rewrite E. auto.
  Qed.
  Definition marked (w : str) (s : pstate) : Prop := forall k, rest s = w ++ k -> pieces (rest s) = map Mark w ++ pieces k.
  Lemma printed_marked : forall w fr s, printed w fr = true -> (fr = true -> fresh s) -> marked w s.
  Proof.
    intros w fr s H F k E. unfold printed in H. apply andb_prop in H as [H1 H2]. apply orb_prop in H2 as [H2|H2]; [rewrite E; apply marks; assumption|].
    apply andb_prop in H2 as [-> H2]. specialize (F eq_refl). unfold fresh in F. rewrite E in *. apply orb_prop in H2 as [H2|H2]; [apply orb_prop in H2 as [H2|H2]|]; apply str_eqb_eq in H2; subst w; cbn [lit app map] in *.
    - apply (pieces_mark 47%N); [reflexivity|reflexivity|exact F].
    - change (pieces (47%N :: 47%N :: k) = Mark 47%N :: Mark 47%N :: pieces k). rewrite pieces_mark by (try reflexivity; exact F). f_equal. apply pieces_mark; [reflexivity|reflexivity|].
      destruct k as [|c k]; [reflexivity|]. destruct (N.eqb_spec 47 c) as [<-|N]; [discriminate F|]. unfold after_comment, comment_start, starts_with. cbn [existsb].
      change (lit "%%%") with [37; 37; 37]%N. change (lit "///") with [47; 47; 47]%N. change (lit "//?") with [47; 47; 63]%N. change (lit "//!") with [47; 47; 33]%N. change (lit "//*") with [47; 47; 42]%N.
      cbn [strip_prefix]. destruct (N.eqb_spec 47 c); [contradiction|]. reflexivity.
    - apply (pieces_mark 37%N); [reflexivity|reflexivity|exact F].
  Qed.
  Lemma near_sym : forall s s', near s s' -> near s' s. Proof. intros s s' H. symmetry. exact H. Qed.
  Lemma marked_past : forall w s s' s1, marked w s -> past w s s1 -> near s s' -> exists s1', past w s' s1' /\ near s1 s1' /\ rest s = w ++ rest s1 /\ rest s' = w ++ rest s1'.
  Proof.
    intros w s s' s1 M (E & _) H. pose proof (M _ E) as P. unfold near in H. rewrite H in P. destruct (marks_back w _ _ P) as (k & E' & Q).
    exists (mkPs (pos s' + length w) k (stk s')). repeat split; [exact E'|exact (eq_sym Q)|exact E|exact E'].
  Qed.
  Lemma marked_no : forall w s s', marked w s' -> near s s' -> ~ (exists k, rest s = w ++ k) -> ~ (exists k, rest s' = w ++ k).
  Proof.
    intros w s s' M H N (k & E). apply N. pose proof (M _ E) as P. unfold near in H. rewrite <- H in P. destruct (marks_back w _ _ P) as (k' & E' & _). eauto.
  Qed.
  Lemma plain_marked : forall w s, forallb inked w = true -> forallb plain_char w = true -> marked w s.
  Proof.
    intros w s I P k E. rewrite E. apply marks; [exact I|]. rewrite forallb_forall in *. intros c C. specialize (P c C). unfold plain_char in P. apply andb_prop in P as [P _]. exact P.
  Qed.
  Lemma alnum_inked : forall c, ProofStranger.alnum c = true -> inked c = true.
  Proof.
    intros c H. unfold inked. apply negb_true_iff. unfold ProofStranger.alnum, ascii_letter, ascii_digit in H. destruct (white_space c) eqn:W; [|reflexivity]. exfalso.
    unfold white_space in W. repeat rewrite ?orb_true_iff, ?andb_true_iff, ?N.leb_le, ?N.eqb_eq in *. lia.
  Qed.
  Lemma case_marked : forall v w s, same_but_case v w -> forallb ProofStranger.alnum w = true -> marked v s.
  Proof.
    intros v w s C A. apply plain_marked; [|apply (case_plain v w C A)]. clear s. revert A. induction C as [|a b v w E _ IH]; intros A; [reflexivity|]. apply letter_lower in E. cbn [forallb] in *. apply andb_prop in A as [A1 A2].
    rewrite (alnum_inked a (lower_alnum a b E A1)). apply IH. exact A2.
  Qed.

  (** ** The simulation *)
  Hypothesis HU : sane U.
  Lemma char_inked : forall b P c, is_char U b = Some P -> b <> AnyChar -> b <> White -> P c -> inked c = true.
  Proof.
    intros b P c H N W K. unfold inked. apply negb_true_iff. destruct (white_space c) eqn:X; [|reflexivity]. exfalso.
    assert (Y : forall c, between 48%N 57%N c \/ between 97%N 102%N c \/ between 65%N 70%N c -> white_space c = true -> False).
    { clear. intros c K X. unfold between in K. unfold white_space in X. repeat rewrite ?orb_true_iff, ?andb_true_iff, ?N.leb_le, ?N.eqb_eq in *. lia. }
    destruct (HU c) as [S C]; [rewrite X; apply orb_true_r|].
    destruct b; try discriminate H; try congruence; injection H as <-; try congruence; apply (Y c); try exact X; unfold between in *; lia.
  Qed.
  Lemma char_marked : forall b P c s, is_char U b = Some P -> b <> AnyChar -> b <> White -> P c -> marked [c] s.
  Proof.
    intros b P c s H N W K. apply plain_marked; cbn [forallb]; [rewrite (char_inked b P c H N W K)|rewrite (char_plain U b P c H N K)]; reflexivity.
  Qed.
  Definition joined (s s1 s' s1' : pstate) : Prop := exists x, rest s = x ++ rest s1 /\ rest s' = x ++ rest s1'.
  Definition follows (m : atomicity) (e : gexp) (s : pstate) (o : option (pstate * list (tree rule))) (f q : bool) (s' : pstate) : Prop :=
    match o with
    | None => reads m e s' None
    | Some (s1, t) => exists s1' t', reads m e s' (Some (s1', t')) /\ near s1 s1' /\ map shade t = map shade t' /\ (f = true -> fresh s1) /\ (q = true -> joined s s1 s' s1')
    end.
  Lemma joined_here : forall s s', joined s s s' s'. Proof. intros s s'. exists []. auto. Qed.
  Lemma joined_trans : forall s s1 s2 s' s1' s2', joined s s1 s' s1' -> joined s1 s2 s1' s2' -> joined s s2 s' s2'.
  Proof. intros s s1 s2 s' s1' s2' (x & A & B) (y & C & D). exists (x ++ y). rewrite A, B, C, D, <- !app_assoc. auto. Qed.
  Lemma special_follows : forall m e s o q s', reads m e s o -> special m e = Some q -> near s s' -> follows m e s o false q s'.
  Proof.
    intros m e s o q s' R S H. destruct e as [| | | |a b| |a| | | |]; try discriminate S.
    - destruct a as [| |ra| | | | | | | |]; try discriminate S. destruct ra; try discriminate S. destruct b as [| |rb| | | | | | | |]; try discriminate S. destruct rb; try discriminate S. injection S as <-.
      assert (No : forall z, match rest z with c :: _ => (c =? 34)%N = false | [] => True end -> reads m (Or (Name R_StringBlock) (Name R_StringNormal)) z None).
      { intros z Z. pose proof (fence_reads U m z) as F. cbv zeta in F. pose proof (normal_decides U m z) as N. unfold after_normal in N. destruct (rest z) as [|c k]; [|rewrite Z in N; cbn [quotes] in F; rewrite Z in F]; apply no_or; assumption. }
      assert (Both : match rest s with c :: _ => (c =? 34)%N = false | [] => True end -> match rest s' with c :: _ => (c =? 34)%N = false | [] => True end ->
        follows m (Or (Name R_StringBlock) (Name R_StringNormal)) s o false true s').
      { intros Z Z'. rewrite (reads_once U _ _ _ _ _ R (No s Z)). cbn. apply No. exact Z'. }
      assert (White : forall z, head_is white_space z = true -> match z with c :: _ => (c =? 34)%N = false | [] => True end).
      { intros [|c z] W; [exact I|]. cbn [head_is] in W. destruct (N.eqb_spec c 34) as [->|]; [discriminate W|reflexivity]. }
      assert (Gap : forall g v, g <> [] -> forallb white_space g = true -> head_is white_space (g ++ v) = true).
      { intros [|c g] v N G; [congruence|]. cbn in *. apply andb_prop in G as [G _]. exact G. }
      assert (Com : forall z r, after_comment z = Some r -> match z with c :: _ => (c =? 34)%N = false | [] => True end).
      { intros [|c z] r A; [exact I|]. eapply comment_head. exact A. }
      destruct (like_of _ _ H) as [E E'|g v g' v' E E' N N' G G' B V V' P|r r' A A' B P|k k' w r r' E E' W W' A A' P|k E E' A|c k k' E E' W Q A A' P].
      + apply Both; rewrite ?E, ?E'; exact I.
      + apply Both; apply White; rewrite ?E, ?E'; apply Gap; assumption.
      + apply Both; eapply Com; eassumption.
      + pose proof (literal_decides m s k E) as D. rewrite A in D. destruct D as (s1 & t & R1 & E1 & _). rewrite (reads_once U _ _ _ _ _ R R1). cbn [follows].
        destruct (literal_same m s s' s1 t w k k' r' R1 E E' ltac:(rewrite E1; exact W) W' A') as (s1' & t' & R1' & E1' & T). exists s1', t'. split; [exact R1'|].
        split; [unfold near; rewrite E1, E1'; exact P|]. split; [exact T|]. split; [discriminate|]. intros _. exists w. rewrite E1, E1'. auto.
      + pose proof (literal_decides m s k E) as D. rewrite A in D. rewrite (reads_once U _ _ _ _ _ R D). cbn [follows].
        assert (Ek : rest s' = 34%N :: k) by congruence. pose proof (literal_decides m s' k Ek) as D'. rewrite E', A in D'. exact D'.
      + apply Both; rewrite ?E, ?E'; exact Q.
    - destruct a as [| | |a b| | | | | | |]; try discriminate S. destruct a as [| | | | | | | | |a|]; try discriminate S. destruct a as [| |ra| | | | | | | |]; try discriminate S. destruct ra; try discriminate S.
      destruct b as [| |rb| | | | | | | |]; try discriminate S. destruct rb; try discriminate S. cbn [special] in S. destruct (compact m) eqn:C; [|discriminate]. injection S as <-.
      destruct (inline_same m s s' o ltac:(destruct m; [discriminate C|discriminate|discriminate]) R H) as (s1 & s1' & -> & R' & Hn). exists s1', []. repeat split; [exact R'|exact Hn|discriminate|discriminate].
  Qed.
  Lemma call_head : forall s s1 t, reads CompoundAtomic (Then (Name R_Symbol) (Several (Then (Many (Then (Not (Name R_NEWLINE)) (Name R_WHITESPACE))) (Name R_apply)))) s (Some (s1, t)) ->
    exists h l, t = h :: l /\ t_rule h = R_Symbol.
  Proof.
    intros s s1 t R. inversion R as [| | | |m0 a0 b0 s0 s4 t4 s5 t5 s6 t6 R1 K1 R2| | | | | | | | | | | | | | | | | | | | | | | |]; subst.
    inversion R1 as [| | | | | | | | | | | | | | | | | | |m0 r0 k0 e0 s0 s2 t1 w S R3 W| |? ? ? ? ? ? ? S| |? ? ? S| |? ? ? S| |? ? ? ? ? ? S|? ? ? ? ? ? S]; subst; try discriminate S.
    cbn in S. inversion S; subst. cbn [makes_pair app]. eexists. eexists. split; reflexivity.
  Qed.
  Lemma rule_word : forall r k e m s s1 t s' s1' t' w w', source r = Rule k e -> reads (body_mode r k m) e s (Some (s1, t)) -> map shade t = map shade t' -> rest s = w ++ rest s1 -> rest s' = w' ++ rest s1' ->
    (solid r = true -> joined s s1 s' s1') -> word_of r w t = word_of r w' t'.
  Proof.
    intros r k e m s s1 t s' s1' t' w w' S R T W W' J. unfold word_of. destruct (worded r) eqn:Q.
    - assert (X : solid r = true) by (unfold solid; rewrite Q; reflexivity). destruct (J X) as (x & A & B). rewrite W in A. rewrite W' in B. apply app_inv_tail in A, B. congruence.
    - destruct r; try reflexivity. cbn in S. injection S as <- <-. destruct (call_head _ _ _ R) as (h & l & -> & Hh). destruct t' as [|h' l']; [discriminate T|]. cbn [map] in T. injection T as T _.
      apply (same_text h h' T). rewrite Hh. reflexivity.
  Qed.
  Lemma reads_follows :
    (forall m e s o, reads m e s o -> forall fr f q, shape m e fr = Some (f, q) -> (fr = true -> fresh s) -> forall s', near s s' -> follows m e s o f q s') /\
    (forall m e s s1 t, again m e s s1 t -> forall f q, shape m e (skipped m false) = Some (f, q) -> forall s', near s s' ->
       exists s1' t', again m e s' s1' t' /\ near s1 s1' /\ map shade t = map shade t' /\ (q && compact m = true -> joined s s1 s' s1')) /\
    (forall m s s1 t, skips m s s1 t -> True).
  Proof.
    assert (CM : forall m, compact m = true -> m <> NonAtomic) by (intros []; discriminate).
    apply (reads_all U source
      (fun m e s o _ => forall fr f q, shape m e fr = Some (f, q) -> (fr = true -> fresh s) -> forall s', near s s' -> follows m e s o f q s')
      (fun m e s s1 t _ => forall f q, shape m e (skipped m false) = Some (f, q) -> forall s', near s s' ->
         exists s1' t', again m e s' s1' t' /\ near s1 s1' /\ map shade t = map shade t' /\ (q && compact m = true -> joined s s1 s' s1'))
      (fun m s s1 t _ => True)); try (intros; exact I).
    - (* text *) intros m w s s1 P fr f q H F s' N. cbn [shape special] in H. destruct (printed w fr) eqn:Pr; [|discriminate]. injection H as <- <-.
      destruct (marked_past w s s' s1 (printed_marked w fr s Pr F) P N) as (s1' & P' & N' & A & B). exists s1', []. repeat split; [apply r_text; exact P'|exact N'|discriminate|]. intros _. exists w. auto.
    - intros m w s X fr f q H F s' N. cbn [shape special] in H. destruct (printed w fr) eqn:Pr; [|discriminate]. cbn [follows]. apply r_text_no.
      apply (marked_no w s s'); [|exact N|exact X]. apply (printed_marked w fr s' Pr). intros K. apply (fresh_near s s' N (F K)).
    - (* any case *) intros m v w s s1 C P fr f q H F s' N. cbn [shape special] in H. destruct (forallb ProofStranger.alnum w) eqn:A; [|discriminate]. injection H as <- <-.
      destruct (marked_past v s s' s1 (case_marked v w s C A) P N) as (s1' & P' & N' & B1 & B2). exists s1', []. repeat split; [eapply r_any_case; eassumption|exact N'|discriminate|]. intros _. exists v. auto.
    - intros m w s X fr f q H F s' N. cbn [shape special] in H. destruct (forallb ProofStranger.alnum w) eqn:A; [|discriminate]. cbn [follows]. apply r_any_case_no. intros (v & k & C & E).
      assert (Y : exists k', rest s' = v ++ k') by eauto. revert Y. apply (marked_no v s s'); [exact (case_marked v w s' C A)|exact N|]. intros (k' & E'). apply X. eauto.
    - (* then *) intros m a b s s1 t1 s2 t2 s3 t3 _ IHa K _ _ IHb fr f q H F s' N. cbn [shape special] in H.
      destruct (shape m a fr) as [[f1 q1]|] eqn:Ea; [|discriminate]. destruct (shape m b (skipped m f1)) as [[f2 q2]|] eqn:Eb; [|discriminate]. injection H as <- <-.
      destruct (IHa _ _ _ Ea F s' N) as (s1' & t1' & R1 & N1 & T1 & F1 & J1). destruct (skip_same m s1 s2 t2 s1' K N1) as (s2' & t2' & K' & N2 & T2 & F2 & J2).
      assert (Fr : skipped m f1 = true -> fresh s2) by (intros X; destruct m; [apply F2; reflexivity|destruct (J2 ltac:(discriminate)) as [-> _]; apply F1; exact X..]).
      destruct (IHb _ _ _ Eb Fr s2' N2) as (s3' & t3' & R3 & N3 & T3 & F3 & J3). exists s3', (t1' ++ t2' ++ t3').
      split; [eapply r_then; eassumption|]. split; [exact N3|]. split; [rewrite !map_app, T1, T2, T3; reflexivity|]. split; [exact F3|].
      intros Q. apply andb_prop in Q as [Q C]. apply andb_prop in Q as [Q1 Q2]. destruct (J2 (CM m C)) as [E E']. subst s2 s2'. eapply joined_trans; [apply J1; exact Q1|apply J3; exact Q2].
    - intros m a b s _ IHa fr f q H F s' N. cbn [shape special] in H. destruct (shape m a fr) as [[f1 q1]|] eqn:Ea; [|discriminate]. cbn [follows]. apply r_then_no1. apply (IHa _ _ _ Ea F s' N).
    - intros m a b s s1 t1 s2 t2 _ IHa K _ _ IHb fr f q H F s' N. cbn [shape special] in H.
      destruct (shape m a fr) as [[f1 q1]|] eqn:Ea; [|discriminate]. destruct (shape m b (skipped m f1)) as [[f2 q2]|] eqn:Eb; [|discriminate].
      destruct (IHa _ _ _ Ea F s' N) as (s1' & t1' & R1 & N1 & T1 & F1 & J1). destruct (skip_same m s1 s2 t2 s1' K N1) as (s2' & t2' & K' & N2 & T2 & F2 & J2).
      assert (Fr : skipped m f1 = true -> fresh s2) by (intros X; destruct m; [apply F2; reflexivity|destruct (J2 ltac:(discriminate)) as [-> _]; apply F1; exact X..]).
      cbn [follows]. eapply r_then_no2; [exact R1|exact K'|]. exact (IHb _ _ _ Eb Fr s2' N2).
    - (* or *) intros m a b s o R IH fr f q H F s' N. destruct (special m (Or a b)) as [q'|] eqn:Sp.
      + assert (X : f = false /\ q = q') by (cbn [shape] in H; rewrite Sp in H; injection H as <- <-; auto). destruct X as [-> ->]. apply special_follows; [apply r_or1; exact R|exact Sp|exact N].
      + cbn [shape] in H. rewrite Sp in H. destruct (shape m a fr) as [[f1 q1]|] eqn:Ea; [|discriminate]. destruct (shape m b fr) as [[f2 q2]|] eqn:Eb; [|discriminate]. injection H as <- <-.
        destruct o as [s1 t]. destruct (IH _ _ _ Ea F s' N) as (s1' & t' & R1 & N1 & T1 & F1 & J1). exists s1', t'. split; [apply r_or1; exact R1|]. split; [exact N1|]. split; [exact T1|].
        split; intros X; apply andb_prop in X as [X _]; auto.
    - intros m a b s o R IH R2 IH2 fr f q H F s' N. destruct (special m (Or a b)) as [q'|] eqn:Sp.
      + assert (X : f = false /\ q = q') by (cbn [shape] in H; rewrite Sp in H; injection H as <- <-; auto). destruct X as [-> ->]. apply special_follows; [apply r_or2; assumption|exact Sp|exact N].
      + cbn [shape] in H. rewrite Sp in H. destruct (shape m a fr) as [[f1 q1]|] eqn:Ea; [|discriminate]. destruct (shape m b fr) as [[f2 q2]|] eqn:Eb; [|discriminate]. injection H as <- <-.
        pose proof (IH _ _ _ Ea F s' N) as No. cbn [follows] in No. pose proof (IH2 _ _ _ Eb F s' N) as G. destruct o as [[s1 t]|]; cbn [follows] in *; [|apply no_or; assumption].
        destruct G as (s1' & t' & R1 & N1 & T1 & F1 & J1). exists s1', t'. split; [apply r_or2; assumption|]. split; [exact N1|]. split; [exact T1|]. split; intros X; apply andb_prop in X as [_ X]; auto.
    - (* maybe *) intros m a s o _ IH fr f q H F s' N. cbn [shape special] in H. destruct (shape m a fr) as [[f1 q1]|] eqn:Ea; [|discriminate]. injection H as <- <-. destruct o as [s1 t].
      destruct (IH _ _ _ Ea F s' N) as (s1' & t' & R1 & N1 & T1 & F1 & J1). exists s1', t'. split; [apply r_maybe; exact R1|]. split; [exact N1|]. split; [exact T1|]. split; [|exact J1]. intros X. apply andb_prop in X as [_ X]. auto.
    - intros m a s _ IH fr f q H F s' N. cbn [shape special] in H. destruct (shape m a fr) as [[f1 q1]|] eqn:Ea; [|discriminate]. injection H as <- <-. exists s', [].
      split; [apply r_maybe_no; apply (IH _ _ _ Ea F s' N)|]. split; [exact N|]. split; [reflexivity|]. split; [intros X; apply andb_prop in X as [X _]; auto|intros _; apply joined_here].
    - (* many *) intros m a s s1 t1 s2 t2 R IH A IHa fr f q H F s' N. destruct (special m (Many a)) as [q'|] eqn:Sp.
      + assert (X : f = false /\ q = q') by (cbn [shape] in H; rewrite Sp in H; injection H as <- <-; auto). destruct X as [-> ->]. apply special_follows; [eapply r_many; eassumption|exact Sp|exact N].
      + cbn [shape] in H. rewrite Sp in H. destruct (shape m a fr) as [[f1 q1]|] eqn:Ea; [|discriminate]. destruct (shape m a (skipped m false)) as [[f2 q2]|] eqn:Eb; [|discriminate]. injection H as <- <-.
        destruct (IH _ _ _ Ea F s' N) as (s1' & t1' & R1 & N1 & T1 & F1 & J1). destruct (IHa _ _ eq_refl s1' N1) as (s2' & t2' & R2 & N2 & T2 & J2). exists s2', (t1' ++ t2').
        split; [eapply r_many; eassumption|]. split; [exact N2|]. split; [rewrite !map_app, T1, T2; reflexivity|]. split; [discriminate|].
        intros Q. apply andb_prop in Q as [Q C]. apply andb_prop in Q as [Q1 Q2]. eapply joined_trans; [apply J1; exact Q1|apply J2; rewrite Q2, C; reflexivity].
    - intros m a s R IH fr f q H F s' N. destruct (special m (Many a)) as [q'|] eqn:Sp.
      + assert (X : f = false /\ q = q') by (cbn [shape] in H; rewrite Sp in H; injection H as <- <-; auto). destruct X as [-> ->]. apply special_follows; [apply r_many_no; assumption|exact Sp|exact N].
      + cbn [shape] in H. rewrite Sp in H. destruct (shape m a fr) as [[f1 q1]|] eqn:Ea; [|discriminate]. destruct (shape m a (skipped m false)) as [[f2 q2]|] eqn:Eb; [|discriminate]. injection H as <- <-.
        exists s', []. split; [apply r_many_no; apply (IH _ _ _ Ea F s' N)|]. split; [exact N|]. split; [reflexivity|]. split; [discriminate|intros _; apply joined_here].
    - (* several *) intros m a s o R IH fr f q H F s' N. cbn [shape special] in H. destruct (shape m a fr) as [[f1 q1]|] eqn:Ea; [|discriminate].
      destruct (shape m a (skipped m f1)) as [[f2 q2]|] eqn:Eb; [|discriminate]. destruct (shape m a (skipped m false)) as [[f3 q3]|] eqn:Ec; [|discriminate]. injection H as <- <-.
      assert (X : exists q4, shape m (Then a (Many a)) fr = Some (false, q1 && q4 && compact m) /\ (q2 && q3 && compact m = true -> q4 = true)).
      { cbn [shape special]. rewrite Ea. destruct (special m (Many a)) as [q5|] eqn:Sp.
        - exfalso. destruct a as [| | |a b| | | | | | |]; try discriminate Sp. destruct a as [| | | | | | | | |a|]; try discriminate Sp. discriminate Ea.
        - cbn [special] in Sp. rewrite Sp, Eb, Ec. exists (q2 && q3 && compact m). auto. }
      destruct X as (q4 & X1 & X2). pose proof (IH _ _ _ X1 F s' N) as G. destruct o as [[s1 t]|]; cbn [follows] in *; [|apply r_several; exact G].
      destruct G as (s1' & t' & R1 & N1 & T1 & F1 & J1). exists s1', t'. split; [apply r_several; exact R1|]. split; [exact N1|]. split; [exact T1|]. split; [discriminate|].
      intros Q. apply J1. apply andb_prop in Q as [Q C]. apply andb_prop in Q as [Q1 Q2]. rewrite Q1, C, (X2 Q2). reflexivity.
    - intros m n a s o _ _ fr f q H. discriminate H.
    - intros m a s _ _ fr f q H. discriminate H.
    - intros m a s o _ _ fr f q H. discriminate H.
    - intros m a s s1 t1 w _ _ _ fr f q H. discriminate H.
    - intros m a s _ _ fr f q H. discriminate H.
    - (* rule *) intros m r k e s s1 t1 w S R IH W fr f q H F s' N. apply name_shape in H as (-> & -> & Nv & Q). destruct (rule_shape r k e m S Nv) as (f2 & q2 & X & Y).
      destruct (IH _ _ _ X (fun h => F (Q h)) s' N) as (s1' & t1' & R1 & N1 & T1 & F1 & J1). destruct (reads_suffix U _ _ _ _ _ R1) as [w' W'].
      exists s1', (if makes_pair k m then [Node r (pos s') (pos s1') w' t1'] else t1'). split; [eapply r_rule; eassumption|]. split; [exact N1|].
      split; [|split; [discriminate|intros Z; apply J1, Y, Z]]. destruct (makes_pair k m); [|exact T1]. cbn [map shade]. rewrite T1.
      rewrite (rule_word r k e m s s1 t1 s' s1' t1' w w' S R T1 W W' (fun Z => J1 (Y Z))). reflexivity.
    - intros m r k e s S R IH fr f q H F s' N. apply name_shape in H as (-> & -> & Nv & Q). destruct (rule_shape r k e m S Nv) as (f2 & q2 & X & Y).
      cbn [follows]. eapply r_rule_no; [exact S|]. exact (IH _ _ _ X (fun h => F (Q h)) s' N).
    - (* char *) intros m r b P c s s1 S C Pc Ps fr f q H F s' N. apply name_shape in H as (-> & -> & Nv & Q). destruct (built_shape r b S Nv) as (B1 & _ & _ & B2 & _).
      destruct (marked_past [c] s s' s1 (char_marked b P c s C B1 B2 Pc) Ps N) as (s1' & P' & N' & X1 & X2). exists s1', []. repeat split; [eapply r_char; eassumption|exact N'|discriminate|]. intros _. exists [c]. auto.
    - intros m r b P s S C X fr f q H F s' N. apply name_shape in H as (-> & -> & Nv & Q). destruct (built_shape r b S Nv) as (B1 & _ & _ & B2 & _). cbn [follows]. eapply r_char_no; [exact S|exact C|].
      intros (c & k & E & Pc). assert (Y : exists k', rest s' = [c] ++ k') by (exists k; exact E). revert Y. apply (marked_no [c] s s'); [exact (char_marked b P c s' C B1 B2 Pc)|exact N|]. intros (k' & E'). apply X. exists c, k'. split; [exact E'|exact Pc].
    - intros m r s S _ fr f q H. apply name_shape in H as (_ & _ & Nv & _). destruct (built_shape _ _ S Nv) as (_ & _ & _ & _ & B & _). congruence.
    - intros m r s S _ fr f q H. apply name_shape in H as (_ & _ & Nv & _). destruct (built_shape _ _ S Nv) as (_ & _ & _ & _ & B & _). congruence.
    - (* end *) intros m r s S E fr f q H F s' N. apply name_shape in H as (-> & -> & Nv & Q). destruct (built_shape _ _ S Nv) as (_ & _ & _ & _ & _ & B).
      assert (E' : rest s' = []) by (apply pieces_none; unfold near in N; rewrite <- N, E; reflexivity).
      exists s', (if makes_pair Plain m then [Node r (pos s') (pos s') [] []] else []). split; [apply r_end; assumption|]. split; [exact N|]. split; [destruct (makes_pair Plain m); [cbn [map shade]; reflexivity|reflexivity]|].
      split; [discriminate|]. intros X. rewrite B in X by reflexivity. discriminate X.
    - intros m r s S E fr f q H F s' N. cbn [follows]. apply r_end_no; [exact S|]. intros E'. apply E. apply pieces_none. unfold near in N. rewrite N, E'. reflexivity.
    - intros m r t l s o S _ _ _ fr f q H. apply name_shape in H as (_ & _ & Nv & _). destruct (built_shape _ _ S Nv) as (_ & B & _). congruence.
    - intros m r t l s o S _ _ _ fr f q H. apply name_shape in H as (_ & _ & Nv & _). destruct (built_shape _ _ S Nv) as (_ & _ & B & _). congruence.
    - (* again *) intros m a s s1 t1 K _ _ IH f q H s' N. destruct (skip_same m s s1 t1 s' K N) as (s1' & t1' & K' & N1 & T1 & F1 & J1).
      assert (Fr : skipped m false = true -> fresh s1) by (intros X; destruct m; [apply F1; reflexivity|discriminate X|discriminate X]).
      exists s', []. split; [eapply again_stop; [exact K'|exact (IH _ _ _ H Fr s1' N1)]|]. split; [exact N|]. split; [reflexivity|intros _; apply joined_here].
    - intros m a s s1 t1 s2 t2 s3 t3 K _ _ IH _ IHa f q H s' N. destruct (skip_same m s s1 t1 s' K N) as (s1' & t1' & K' & N1 & T1 & F1 & J1).
      assert (Fr : skipped m false = true -> fresh s1) by (intros X; destruct m; [apply F1; reflexivity|discriminate X|discriminate X]).
      destruct (IH _ _ _ H Fr s1' N1) as (s2' & t2' & R2 & N2 & T2 & F2 & J2). destruct (IHa _ _ H s2' N2) as (s3' & t3' & R3 & N3 & T3 & J3). exists s3', (t1' ++ t2' ++ t3').
      split; [eapply again_more; eassumption|]. split; [exact N3|]. split; [rewrite !map_app, T1, T2, T3; reflexivity|].
      intros Q. pose proof Q as Q0. apply andb_prop in Q as [Q1 C]. destruct (J1 (CM m C)) as [E E']. subst s1 s1'. eapply joined_trans; [apply J2; exact Q1|apply J3; exact Q0].
  Qed.

  (** ** Texts *)
  Lemma soi_reads : forall m s o, pos s = 0 -> reads m (Name R_SOI) s o -> o = Some (s, []).
  Proof. intros m s o P R. exact (reads_once U _ _ _ _ _ R (r_start _ _ _ R_SOI _ eq_refl P)). Qed.
  Definition program_tail : gexp := Then (Many (Name R_statement)) (Name R_EOI).
  Lemma program_follows : forall text text' o, pieces text = pieces text' -> reads NonAtomic (Name R_program) (mkPs 0 text []) o ->
    match o with
    | None => reads NonAtomic (Name R_program) (mkPs 0 text' []) None
    | Some (s, t) => exists s' t', reads NonAtomic (Name R_program) (mkPs 0 text' []) (Some (s', t')) /\ map shade t = map shade t'
    end.
  Proof.
    intros text text' o P R. set (s := mkPs 0 text []) in *. set (s' := mkPs 0 text' []). assert (N : near s s') by exact P.
    assert (B : reads NonAtomic (Then (Then (Name R_SOI) (Many (Name R_statement))) (Name R_EOI)) s o).
    { inversion R as [| | | | | | | | | | | | | | | | | | |m0 r0 k0 e0 s0 s2 t1 w S R1 W|m0 r0 k0 e0 s0 S R1|? ? ? ? ? ? ? S|? ? ? ? ? S|? ? ? S|? ? ? S|? ? ? S|? ? ? S|? ? ? ? ? ? S|? ? ? ? ? ? S]; subst; try discriminate S; cbn in S; injection S as <- <-; exact R1. }
    assert (Z : forall o', reads NonAtomic (Then (Then (Name R_SOI) (Many (Name R_statement))) (Name R_EOI)) s' o' -> reads NonAtomic (Name R_program) s' o').
    { intros [[s1 t]|] X; [|eapply r_rule_no; [reflexivity|exact X]]. destruct (reads_suffix U _ _ _ _ _ X) as [w W]. exact (r_rule U source NonAtomic R_program Silent _ s' s1 t w eq_refl X W). }
    assert (Start : reads NonAtomic (Name R_SOI) s' (Some (s', []))) by (apply r_start; reflexivity).
    destruct reads_follows as (Follows & _).
    assert (First : forall o1, reads NonAtomic (Then (Name R_SOI) (Many (Name R_statement))) s o1 ->
      match o1 with
      | None => reads NonAtomic (Then (Name R_SOI) (Many (Name R_statement))) s' None
      | Some (s1, t1) => exists s1' t1', reads NonAtomic (Then (Name R_SOI) (Many (Name R_statement))) s' (Some (s1', t1')) /\ near s1 s1' /\ map shade t1 = map shade t1'
      end).
    { intros o1 X. inversion X as [| | | |m0 a b s0 s1 t1 s2 t2 s3 t3 X1 K X2|m0 a b s0 X1|m0 a b s0 s1 t1 s2 t2 X1 K X2| | | | | | | | | | | | | | | | | | | | | |]; subst; (apply soi_reads in X1; [|reflexivity]); try discriminate X1; injection X1 as -> ->;
        destruct (skip_same _ _ _ _ _ K N) as (s2' & t2' & K' & N2 & T2 & F2 & _); pose proof (Follows _ _ _ _ X2 true _ _ eq_refl (fun _ => F2 eq_refl) s2' N2) as G; cbn [follows] in G.
      - destruct G as (s3' & t3' & R3 & N3 & T3 & _). exists s3', ([] ++ t2' ++ t3'). split; [eapply r_then; eassumption|]. split; [exact N3|]. rewrite !map_app, T2, T3. reflexivity.
      - eapply r_then_no2; eassumption. }
    inversion B as [| | | |m0 a b s0 s1 t1 s2 t2 s3 t3 X1 K X2|m0 a b s0 X1|m0 a b s0 s1 t1 s2 t2 X1 K X2| | | | | | | | | | | | | | | | | | | | | |]; subst.
    - destruct (First _ X1) as (s1' & t1' & R1 & N1 & T1). destruct (skip_same _ _ _ _ _ K N1) as (s2' & t2' & K' & N2 & T2 & F2 & _).
      destruct (Follows _ _ _ _ X2 false _ _ eq_refl ltac:(discriminate) s2' N2) as (s3' & t3' & R3 & N3 & T3 & _). exists s3', (t1' ++ t2' ++ t3'). split; [apply Z; eapply r_then; eassumption|].
      rewrite !map_app, T1, T2, T3. reflexivity.
    - apply Z. apply r_then_no1. exact (First _ X1).
    - destruct (First _ X1) as (s1' & t1' & R1 & N1 & T1). destruct (skip_same _ _ _ _ _ K N1) as (s2' & t2' & K' & N2 & T2 & F2 & _).
      apply Z. eapply r_then_no2; [exact R1|exact K'|]. exact (Follows _ _ _ _ X2 false _ _ eq_refl ltac:(discriminate) s2' N2).
  Qed.
  Theorem same_pieces : forall f text text', pieces text = pieces text' -> omap forget_result (parse U f text) = omap forget_result (parse U f text').
  Proof.
    intros f text text' P. pose proof (program_no_panic U text) as NP. pose proof (program_terminates U text) as NF. unfold parse. destruct (run_program U text) as [s t|s t| |] eqn:E; try congruence.
    - apply program_accepts in E. destruct (program_follows _ _ _ P E) as (s' & t' & E' & M). apply program_accepts in E'. rewrite E'.
      pose proof (parse_pairs_sim f text f text' _ _ (same_list _ _ M)) as HP.
      destruct (parse_pairs f text t) as [a|k|], (parse_pairs f text' t') as [b|k'|]; cbn in HP; try contradiction; try reflexivity.
      + cbn. unfold sim in HP. rewrite HP. reflexivity.
      + cbn. subst k'. reflexivity.
    - assert (E0 : reads NonAtomic (Name R_program) (mkPs 0 text []) None) by (apply program_rejects; eauto). pose proof (program_follows _ _ _ P E0) as E'. cbn in E'. apply program_rejects in E' as (s' & t' & E'). rewrite E'. reflexivity.
  Qed.
End Same.
