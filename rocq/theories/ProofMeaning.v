(** A text that the project parses has the tree of [SpecValue]. *)
From Verif Require Import Base Ast SmError Peg Grammar Climber Build SpecAst SpecClimb SpecSyntax SpecPlace SpecParse SpecSafe SpecPest Source SpecValue.
From Verif Require Import ProofAst ProofSym ProofBuild ProofPlace ProofAtom ProofPest ProofFollow ProofInside ProofValue.
From Verif Require SpecSource.
Local Open Scope Z_scope.
Local Open Scope outcome_scope.

(** ** Outcomes *)
Lemma bind_ret : forall A B (x : outcome A) (g : A -> outcome B) v, obind x g = Ret v -> exists a, x = Ret a /\ g a = Ret v.
Proof. intros A B [a|k|] g v H; try discriminate. exists a. split; [reflexivity|exact H]. Qed.
Lemma mapM_ret : forall A B (F : A -> outcome B) l bs, omapM F l = Ret bs -> Forall2 (fun a b => F a = Ret b) l bs.
Proof.
  intros A B F. induction l as [|a l IH]; intros bs H; cbn in H; [injection H as <-; constructor|].
  apply bind_ret in H as (b & Hb & H). apply bind_ret in H as (bs' & Hbs & H). injection H as <-. constructor; [exact Hb|apply IH, Hbs].
Qed.

(** ** Shapes *)
Lemma star_forall : forall (P : list (tree rule) -> Prop) (Q : tree rule -> Prop) ts, (forall a, P a -> Forall Q a) -> (forall t, noise t -> Q t) -> star P ts -> Forall Q ts.
Proof.
  intros P Q ts H N. induction 1 as [|a b c Ha Hb _ IH]; [constructor|]. apply Forall_app. split; [apply H, Ha|]. apply Forall_app. split; [|exact IH].
  eapply Forall_impl; [exact N|exact Hb].
Qed.
Lemma joined_forall : forall (P P' : list (tree rule) -> Prop) (Q : tree rule -> Prop) ts, (forall a, P a -> Forall Q a) -> (forall a, P' a -> Forall Q a) ->
  (forall t, noise t -> Q t) -> joined P P' ts -> Forall Q ts.
Proof.
  intros P P' Q ts H H' N (a & b & c & -> & Ha & Hb & Hc). apply Forall_app. split; [apply H, Ha|]. apply Forall_app. split; [|apply H', Hc].
  eapply Forall_impl; [exact N|exact Hb].
Qed.
Lemma single_forall : forall (Q : tree rule -> Prop) r ts, (forall t, rule_of t = r -> Q t) -> single r ts -> Forall Q ts.
Proof. intros Q r ts H (t & -> & Ht). constructor; [apply H, Ht|constructor]. Qed.
Lemma nil_forall : forall (Q : tree rule -> Prop) ts, ts = [] -> Forall Q ts.
Proof. intros Q ts ->. constructor. Qed.
(** the pairs of a list have rules from rs *)
Definition among (rs : list rule) (ts : list (tree rule)) : Prop := Forall (fun t => In (rule_of t) rs) ts.
Ltac inside :=
  match goal with
  | |- among _ _ => unfold among; inside
  | H : joined _ _ ?ts |- Forall _ ?ts => revert H; apply joined_forall; [intros ? ?; inside|intros ? ?; inside|intros ? ?; inside]
  | H : star _ ?ts |- Forall _ ?ts => revert H; apply star_forall; [intros ? ?; inside|intros ? ?; inside]
  | H : single _ ?ts |- Forall _ ?ts => revert H; apply single_forall; intros ? ?; inside
  | H : ?ts = [] |- Forall _ ?ts => revert H; apply nil_forall
  | H : _ \/ _ |- _ => destruct H; inside
  | H : noise ?t |- _ => unfold noise in H; rewrite H; cbn; tauto
  | H : rule_of ?t = _ |- _ => rewrite H; cbn; tauto
  end.

Definition clean (ts : list (tree rule)) : Prop := Forall (fun t => ~ noise t) ts.
Lemma joined_clean : forall (P Q : list (tree rule) -> Prop) ts, clean ts -> joined P Q ts -> exists a c, ts = a ++ c /\ P a /\ Q c /\ clean a /\ clean c.
Proof.
  intros P Q ts H (a & b & c & -> & Ha & Hb & Hc). apply Forall_app in H as [H1 H]. apply Forall_app in H as [H2 H3].
  destruct b as [|x b]; [exists a, c; auto|]. exfalso. inversion Hb; inversion H2; subst. contradiction.
Qed.

Section Meaning.
  Variable U : unicode.
  Variable f text : str.
  Notation pexpr := (parse_expr f text).
  Notation grown := (grown U).

  Inductive fine : tree rule -> Prop :=
  | fine_node : forall r i j w l, grown (Node r i j w l) -> (r = R_expr -> forall v, pexpr (Node r i j w l) = Ret v -> expr_value f text (Node r i j w l) v) ->
      Forall fine l -> fine (Node r i j w l).
  Lemma fine_grown : forall t, fine t -> grown t.
  Proof. intros t H. destruct H. assumption. Qed.
  Lemma fine_inner : forall r i j w l, fine (Node r i j w l) -> Forall fine l.
  Proof. intros r i j w l H. inversion H. assumption. Qed.
  Lemma fine_expr : forall t v, fine t -> t_rule t = R_expr -> pexpr t = Ret v -> expr_value f text t v.
  Proof. intros t v H. destruct H as [r i j w l _ H _]. intros E. exact (H E v). Qed.

  (** the pairs inside *)
  Ltac shaped_by H r :=
    let G := fresh "G" in
    pose proof H as G; apply (grown_shape U) with (k := match source r with Rule k _ => k | _ => Plain end) (e := match source r with Rule _ e => e | _ => Text [] end) in G;
      [|reflexivity|discriminate]; destruct G as [G|G]; specialize (G 4%nat); cbn in G.
  Ltac shaped H r := let X := fresh in pose proof (fine_grown _ H) as X; shaped_by X r.
  Ltac spelled H r :=
    let G := fresh "G" in
    pose proof (fine_grown _ H) as G; apply (grown_spells U) with (n := 4%nat) (k := match source r with Rule k _ => k | _ => Plain end) (e := match source r with Rule _ e => e | _ => Text [] end) in G;
      [|reflexivity|first [left; reflexivity|right; reflexivity]]; cbn in G.
  Definition infixes : list rule := [R_Set; R_Plus; R_Minus; R_Multiply; R_CenterDot; R_Kronecker; R_TensorProduct; R_Divide; R_Quotient; R_Modulo; R_Power; R_Grater; R_GraterEqual; R_Equal; R_Dot].
  Lemma inside_expr : forall i j w l, grown (Node R_expr i j w l) -> among (R_term :: R_MultiLineComment :: infixes) l.
  Proof. intros i j w l H. shaped_by H R_expr; inside. Qed.
  Lemma star_end : forall (P : list (tree rule) -> Prop) (Q : tree rule -> Prop), (forall a, P a -> exists b t, a = b ++ [t] /\ Q t) -> (forall t, noise t -> Q t) ->
    forall ts, star P ts -> ts = [] \/ exists b t, ts = b ++ [t] /\ Q t.
  Proof.
    intros P Q H N ts. induction 1 as [|a b c Ha Hb _ [->|(d & t & -> & Ht)]]; [left; reflexivity| |].
    - right. destruct b as [|x b _] using rev_ind; [rewrite !app_nil_r; apply H, Ha|]. exists (a ++ b), x. rewrite app_nil_r, app_assoc. split; [reflexivity|].
      apply N. apply Forall_app in Hb as [_ Hb]. inversion Hb; assumption.
    - right. exists (a ++ b ++ d), t. rewrite !app_assoc. auto.
  Qed.
  Lemma expr_end : forall i j w l, grown (Node R_expr i j w l) -> exists b t, l = b ++ [t] /\ (rule_of t = R_term \/ noise t).
  Proof.
    intros i j w l H.
    assert (K : forall P : list (tree rule) -> Prop, (forall a, P a -> exists b t, a = b ++ [t] /\ (rule_of t = R_term \/ noise t)) ->
      joined (single R_term) (star P) l -> exists b t, l = b ++ [t] /\ (rule_of t = R_term \/ noise t)).
    { intros P HP (a & b & c & -> & (t & -> & Ht) & Hb & Hc). destruct (star_end P (fun t => rule_of t = R_term \/ noise t) HP (fun t N => or_intror N) c Hc) as [->|(d & x & -> & Hx)].
      - rewrite app_nil_r. destruct b as [|x b _] using rev_ind; [exists [], t; auto|]. exists ([t] ++ b), x. rewrite app_assoc. split; [reflexivity|right].
        apply Forall_app in Hb as [_ Hb]. inversion Hb; assumption.
      - exists ([t] ++ b ++ d), x. rewrite !app_assoc. auto. }
    shaped_by H R_expr; (revert G; apply K; intros a (x & y & z & -> & _ & _ & (t & -> & Ht)); exists (x ++ y), t; rewrite app_assoc; auto).
  Qed.

  (** texts *)
  Lemma wstar_digits : forall (P : str -> Prop) w, (forall a, P a -> forallb digit a = true) -> wstar P w -> forallb digit w = true.
  Proof. intros P w H. induction 1 as [|a b Ha _ IH]; [reflexivity|]. rewrite forallb_app, IH, (H a Ha). reflexivity. Qed.
  Lemma digit_between : forall a, (exists c, a = [c] /\ between 48%N 57%N c) -> forallb digit a = true.
  Proof. intros a (c & -> & H). unfold between in H. cbn. unfold digit. rewrite andb_true_r. apply andb_true_intro. split; apply N.leb_le; lia. Qed.
  Lemma positive_digits : forall w, wjoined (fun w => exists c, w = [c] /\ between 49%N 57%N c) (wstar (fun w => exists c, w = [c] /\ between 48%N 57%N c)) w -> digits w.
  Proof.
    intros w (a & b & -> & (c & -> & Hc) & Hb). split; [discriminate|]. cbn [app forallb]. rewrite (wstar_digits _ _ digit_between Hb). rewrite andb_true_r.
    unfold between in Hc. unfold digit. apply andb_true_intro. split; apply N.leb_le; lia.
  Qed.
  Lemma integer_digits : forall i j w l, fine (Node R_Integer i j w l) -> digits w.
  Proof. intros i j w l H. spelled H R_Integer. destruct G as [->|G]; [split; [discriminate|reflexivity]|apply positive_digits, G]. Qed.
  Lemma decimal_shape : forall i j w l, fine (Node R_Decimal i j w l) -> exists x y, w = x ++ lit "." ++ y /\ digits x /\ digits y.
  Proof.
    assert (K : forall w, w = lit "0" \/ wjoined (fun w => exists c, w = [c] /\ between 49%N 57%N c) (wstar (fun w => exists c, w = [c] /\ between 48%N 57%N c)) w -> digits w).
    { intros w [->|G]; [split; [discriminate|reflexivity]|apply positive_digits, G]. }
    intros i j w l H. spelled H R_Decimal. destruct G as (a & y & -> & (x & d & -> & Hx & ->) & Hy). exists x, y. rewrite <- app_assoc. split; [reflexivity|]. split; apply K; assumption.
  Qed.
  Lemma grouped_star : forall (P : char -> bool) (Q : char -> Prop) w, (forall c, Q c -> P c = true /\ c <> 95%N) ->
    wstar (wjoined (fun w => w = [] \/ w = [95%N]) (fun w => exists c, w = [c] /\ Q c)) w -> grouped P w = true.
  Proof.
    intros P Q w H. induction 1 as [|a b (x & y & -> & Hx & (c & -> & Hc)) _ IH]; [reflexivity|]. destruct (H c Hc) as [H1 H2].
    destruct Hx as [->| ->]; cbn [app grouped].
    - destruct (c =? 95)%N eqn:E; [apply N.eqb_eq in E; contradiction|]. rewrite H1, IH. reflexivity.
    - rewrite N.eqb_refl, H1, IH. reflexivity.
  Qed.
  Lemma several_star : forall (P : str -> Prop) w, wjoined P (wstar P) w -> wstar P w.
  Proof. intros P w (a & b & -> & Ha & Hb). apply wstar_more; assumption. Qed.
  Lemma grouped_some : forall (Q : char -> Prop) w, wjoined (wjoined (fun w => w = [] \/ w = [95%N]) (fun w => exists c, w = [c] /\ Q c)) (wstar (wjoined (fun w => w = [] \/ w = [95%N]) (fun w => exists c, w = [c] /\ Q c))) w -> w <> [].
  Proof. intros Q w (a & b & -> & (x & y & -> & _ & (c & -> & _)) & _) E. apply app_eq_nil in E as [E _]. apply app_eq_nil in E as [_ E]. discriminate. Qed.
  Lemma lower_letter : forall a c, ascii_lower a = c -> a = c \/ (65 <= a /\ a + 32 = c)%N.
  Proof. intros a c H. unfold ascii_lower in H. destruct (_ && _)%bool eqn:E; [|auto]. apply andb_prop in E as [E _]. apply N.leb_le in E. right. split; [exact E|exact H]. Qed.
  Lemma byte_shape : forall i j w l, fine (Node R_Byte i j w l) -> exists z b P s, w = z :: b :: s /\ z = 48%N /\ based b P /\ s <> [] /\ grouped P s = true.
  Proof.
    assert (K : forall v c, same_but_case v [48%N; c] -> ascii_lower c = c -> exists b, v = [48%N; b] /\ (b = c \/ (65 <= b /\ b + 32 = c)%N)).
    { intros v c H Hc. inversion H as [|a x v' w' H1 H2]; subst. inversion H2 as [|b x v'' w'' H3 H4]; subst. inversion H4; subst.
      apply letter_lower in H1, H3. rewrite Hc in H3. apply lower_letter in H3. exists b. split; [|exact H3]. apply lower_letter in H1. cbn in H1. f_equal. lia. }
    intros i j w l H. spelled H R_Byte. destruct G as [[G|G]|G]; destruct G as (v & s & -> & Hv & Hs); apply K in Hv; try reflexivity; destruct Hv as (b & -> & Hb);
      pose proof (grouped_some _ _ Hs) as Hn; apply several_star in Hs; exists 48%N, b.
    - exists bin_digit, s. split; [reflexivity|]. split; [reflexivity|]. split; [|split; [exact Hn|]].
      + destruct Hb as [-> |Hb]; [constructor|]. replace b with 66%N by lia. constructor.
      + revert Hs. apply grouped_star. unfold between, bin_digit. intros c Hc. split; [|lia]. apply andb_true_intro. split; apply N.leb_le; lia.
    - exists oct_digit, s. split; [reflexivity|]. split; [reflexivity|]. split; [|split; [exact Hn|]].
      + destruct Hb as [-> |Hb]; [constructor|]. replace b with 79%N by lia. constructor.
      + revert Hs. apply grouped_star. unfold between, oct_digit. intros c Hc. split; [|lia]. apply andb_true_intro. split; apply N.leb_le; lia.
    - exists hex_digit, s. split; [reflexivity|]. split; [reflexivity|]. split; [|split; [exact Hn|]].
      + destruct Hb as [-> |Hb]; [constructor|]. replace b with 88%N by lia. constructor.
      + revert Hs. apply grouped_star. unfold between, hex_digit. intros c Hc. split; [|lia]. rewrite !orb_true_iff, !andb_true_iff, !N.leb_le. lia.
  Qed.
  Lemma special_shape : forall i j w l, fine (Node R_Special i j w l) -> exists a, special w a.
  Proof. intros i j w l H. spelled H R_Special. destruct G as [[->| ->]| ->]; eexists; constructor. Qed.
  Lemma wstar_repeat : forall c w, wstar (fun w => w = [c]) w -> exists k, w = repeat c k.
  Proof. intros c w. induction 1 as [|a b -> _ [k ->]]; [exists O; reflexivity|exists (S k); reflexivity]. Qed.
  Lemma repl_shape : forall i j w l, fine (Node R_REPL i j w l) -> exists s n, refers w s n.
  Proof.
    intros i j w l H. spelled H R_REPL. destruct G as [[[G|G]|G]|G]; destruct G as (a & b & -> & -> & Hb).
    - eexists _, _. apply (refers_number 182%N); [left; split; reflexivity|apply positive_digits, Hb].
    - apply wstar_repeat in Hb as [k ->]. eexists _, _. apply (refers_back 182%N _ k). left. split; reflexivity.
    - eexists _, _. apply (refers_number 8267%N); [right; split; reflexivity|apply positive_digits, Hb].
    - apply wstar_repeat in Hb as [k ->]. eexists _, _. apply (refers_back 8267%N _ k). right. split; reflexivity.
  Qed.
  Lemma normal_shape : forall i j w l, fine (Node R_StringNormal i j w l) -> exists s, w = quoted s.
  Proof. intros i j w l H. spelled H R_StringNormal. destruct G as (a & b & -> & (x & y & -> & -> & _) & ->). exists y. reflexivity. Qed.
  Lemma operator_shape : forall i j w l r, fine (Node r i j w l) -> In r infixes -> supported (Node r i j w l) ->
    r = R_Dot \/ r <> R_Dot /\ w <> lit "." /\ exists q n p, SpecSource.lookup w SpecSource.operators = Some (q, n, p).
  Proof.
    intros i j w l r H Hr Hs.
    repeat (destruct Hr as [<-|Hr]; [try (exfalso; revert Hs; unfold supported, op_strength; cbn; lia)|]);
      [spelled H R_Plus|spelled H R_Minus|spelled H R_Multiply|spelled H R_Divide|spelled H R_Power|left; reflexivity|destruct Hr].
    all: repeat match goal with G : _ \/ _ |- _ => destruct G as [G|G] end; subst w; right; refine (conj _ (conj _ (ex_intro _ _ (ex_intro _ _ (ex_intro _ _ _))))); first [discriminate|reflexivity].
  Qed.

  (** ** Operators *)
  Fixpoint signs (b : bracketing (tree rule)) : list (tree rule) := match b with Leaf _ => [] | Bin l o r => signs l ++ o :: signs r end.
  Lemma written_signs : forall b, exists x ps, written b = alternate x ps /\ map fst ps = signs b.
  Proof.
    induction b as [x|l (x & ps & E & S) o r (y & qs & E' & S')]; [exists x, []; split; reflexivity|].
    exists x, (ps ++ (o, y) :: qs). cbn [written signs]. rewrite E, E', map_app, S. cbn [map fst]. rewrite S'. split; [|reflexivity].
    unfold alternate. cbn [app]. rewrite flat_map_app. reflexivity.
  Qed.
  Lemma alternate_inj : forall A (ps qs : list (A * A)), flat_map (fun p => [fst p; snd p]) ps = flat_map (fun p => [fst p; snd p]) qs -> ps = qs.
  Proof.
    induction ps as [|[a b] ps IH]; intros [|[c d] qs] E; try discriminate; [reflexivity|]. cbn in E. injection E as -> -> E. f_equal. apply IH, E.
  Qed.
  Lemma chain_split : forall n (l : list (tree rule)), (length l <= n)%nat -> exists ps k, l = flat_map (fun p => [fst p; snd p]) ps ++ k /\ Forall (fun p => supported (fst p)) ps /\
    (match k with [] => True | o :: _ => ~ supported o end \/ exists o, k = [o] /\ supported o).
  Proof.
    induction n as [|n IH]; intros l Hn.
    - destruct l; [|cbn in Hn; lia]. exists [], []. split; [reflexivity|]. split; [constructor|left; exact I].
    - destruct l as [|o l]; [exists [], []; split; [reflexivity|]; split; [constructor|left; exact I]|].
      destruct (Z_gt_dec (op_strength o) 0) as [Ho|Ho].
      + destruct l as [|x l]; [exists [], [o]; split; [reflexivity|]; split; [constructor|right; exists o; split; [reflexivity|exact Ho]]|].
        destruct (IH l) as (ps & k & -> & H1 & H2); [cbn in Hn; lia|]. exists ((o, x) :: ps), k. split; [reflexivity|]. split; [constructor; assumption|exact H2].
      + exists [], (o :: l). split; [reflexivity|]. split; [constructor|left; exact Ho].
  Qed.

  Definition member (c : tree rule) : Prop := fine c /\ In (rule_of c) (R_term :: R_MultiLineComment :: infixes).

  (** ** One function after another *)
  Ltac ruled x H := destruct x as [?r ?i ?j ?w ?l]; cbn [t_rule t_inner t_text] in H; match type of H with context [match ?r with _ => _ end] => destruct r; try discriminate H end.
  Lemma elements_some : forall l, Forall fine l -> forall ls, omapM (list_items f text) l = Ret ls -> exists vs, elements_value f text l vs.
  Proof.
    induction 1 as [|x l Hx _ IH]; intros ls H; [exists []; constructor|]. cbn [omapM] in H. apply bind_ret in H as (v & Hv & H). apply bind_ret in H as (ls' & Hl & _).
    destruct (IH _ Hl) as [vs Hvs]. unfold list_items in Hv. destruct (t_rule x) eqn:Er; try discriminate.
    - apply bind_ret in Hv as (a & Ha & _). exists (a :: vs). apply elements_more; [apply (fine_expr _ _ Hx Er Ha)|exact Hvs].
    - exists vs. apply elements_comma; [destruct x; exact Er|exact Hvs].
  Qed.
  Lemma string_clean : forall l s v, parse_string_loop l s = Ret v -> clean l.
  Proof.
    induction l as [|x l IH]; intros s v H; [constructor|]. cbn [parse_string_loop] in H. ruled x H.
    - apply bind_ret in H as (s' & _ & H). constructor; [discriminate|apply (IH _ _ H)].
    - apply bind_ret in H as (s' & _ & H). constructor; [discriminate|apply (IH _ _ H)].
    - constructor; [discriminate|apply (IH _ _ H)].
  Qed.
  Lemma block_clean : forall l s v, parse_string_block l s = Ret v -> clean l.
  Proof.
    induction l as [|x l IH]; intros s v H; [constructor|]. cbn [parse_string_block] in H. ruled x H; constructor; first [discriminate|apply (IH _ _ H)].
  Qed.
  Lemma star_single : forall r ts, star (single r) ts -> clean ts -> Forall (fun t => rule_of t = r) ts.
  Proof.
    intros r ts. induction 1 as [|a b c (t & -> & Ht) Hb _ IH]; intro H; [constructor|]. cbn [app] in *. inversion H as [|? ? _ H']; subst. constructor; [reflexivity|].
    apply Forall_app in H' as [H1 H2]. apply Forall_app. split; [|apply IH, H2]. destruct b as [|x b]; [constructor|]. inversion H1; inversion Hb; subst. contradiction.
  Qed.
  Lemma string_some : forall i j w l v, fine (Node R_String i j w l) -> parse_string (Node R_String i j w l) = Ret v -> exists v', data_value f text (Node R_String i j w l) v'.
  Proof.
    intros i j w l v H E. unfold parse_string in E. cbn [t_inner] in E. pose proof (string_clean _ _ _ E) as C. pose proof (fine_inner _ _ _ _ _ H) as Hl.
    assert (K : joined (fun ts => ts = [] \/ single R_SYMBOL ts) (fun ts => single R_StringBlock ts \/ single R_StringNormal ts) l) by (shaped H R_String; exact G).
    destruct (joined_clean _ _ _ C K) as (a & c & -> & Ha & Hc & _ & _).
    assert (Hs : Forall (fun h => rule_of h = R_SYMBOL) a).
    { destruct Ha as [->|(h & -> & Hh)]; [constructor|constructor; [exact Hh|constructor]]. }
    rewrite handler_made in E by exact Hs. apply Forall_app in Hl as [_ Hl].
    assert (X : exists x s, c = [x] /\ string_value x s).
    { destruct Hc as [(x & -> & Hx)|(x & -> & Hx)]; inversion Hl as [|? ? Fx _]; subst; destruct x as [r ix jx wx lx]; cbn [rule_of] in Hx; subst r.
      - cbn [parse_string_loop t_rule t_inner] in E. apply bind_ret in E as (s' & Es & _). apply block_clean in Es.
        assert (J : joined (joined (joined (joined (star (single R_Quotation)) (star (single R_Quotation))) (single R_StringText)) (fun ts => ts = [])) (star (single R_Quotation)) lx)
          by (shaped Fx R_StringBlock; exact G).
        apply (joined_clean _ _ _ Es) in J as (x1 & q3 & -> & J & Q3 & C1 & C3). apply (joined_clean _ _ _ C1) in J as (x2 & e & -> & J & -> & C2 & _).
        apply (joined_clean _ _ _ C2) in J as (x3 & t & -> & J & (t' & -> & Ht) & C4 & _). apply (joined_clean _ _ _ C4) in J as (q1 & q2 & -> & Q1 & Q2 & C5 & C6).
        eexists _, _. split; [reflexivity|]. rewrite app_nil_r. rewrite <- (app_assoc (q1 ++ q2)). apply string_block; [exact Ht|].
        apply Forall_app. split; [apply Forall_app; split|]; apply star_single; assumption.
      - destruct (normal_shape _ _ _ _ Fx) as [s ->]. eexists _, _. split; [reflexivity|constructor]. }
    destruct X as (x & s & -> & Hx). eexists. apply SpecValue.data_string; eassumption.
  Qed.
  Lemma slot_some : forall l, Forall fine l -> forall vs, omapM slot_item l = Ret vs -> exists vs', Forall2 slot_value l vs'.
  Proof.
    induction 1 as [|x l Hx _ IH]; intros ls H; [exists []; constructor|]. cbn [omapM] in H. apply bind_ret in H as (v & Hv & H). apply bind_ret in H as (ls' & Hl & _).
    destruct (IH _ Hl) as [vs Hvs]. unfold slot_item in Hv. ruled x Hv.
    - eexists (_ :: vs). constructor; [apply slot_number, (integer_digits _ _ _ _ Hx)|exact Hvs].
    - eexists (_ :: vs). constructor; [apply slot_name|exact Hvs].
  Qed.
  Lemma named_some : forall w, exists s, named w s.
  Proof. intro w. exists (symbol_from w). apply named_symbol. reflexivity. Qed.
  Lemma data_some : forall x l i j w v, fine x -> parse_data f text pexpr (Node R_data i j w (x :: l)) = Ret v -> exists v', data_value f text x v'.
  Proof.
    intros x l i j w v Hx H. unfold parse_data in H. cbn [t_inner] in H. ruled x H.
    - unfold parse_list in H. cbn [t_inner] in H. apply bind_ret in H as (ls & H & _). destruct (elements_some _ (fine_inner _ _ _ _ _ Hx) ls H) as [vs Hvs].
      eexists. apply SpecValue.data_list, Hvs.
    - destruct (decimal_shape _ _ _ _ Hx) as (a & b & -> & Ha & Hb). eexists. apply SpecValue.data_decimal; assumption.
    - eexists. apply SpecValue.data_integer, (integer_digits _ _ _ _ Hx).
    - destruct (byte_shape _ _ _ _ Hx) as (z & b & P & s & -> & -> & Hb & Hn & Hg). eexists. eapply SpecValue.data_based; try eassumption. intro E.
      destruct s as [|c s]; [discriminate|]. injection E as ->. unfold parse_byte in H. cbn [t_text] in H. rewrite (byte_letter b P Hb) in H. cbn [obind] in H.
      rewrite based_underscore in H. discriminate.
    - apply (string_some _ _ _ _ _ Hx H).
    - destruct (named_some w0) as [s Hs]. eexists. apply SpecValue.data_name, Hs.
    - destruct (special_shape _ _ _ _ Hx) as [a Ha]. eexists. apply SpecValue.data_special, Ha.
    - unfold parse_slot in H. cbn [t_inner] in H. apply bind_ret in H as (ls & H & _). destruct (slot_some _ (fine_inner _ _ _ _ _ Hx) ls H) as [vs Hvs].
      eexists. apply SpecValue.data_slot, Hvs.
    - destruct (repl_shape _ _ _ _ Hx) as (s & n & Hn). eexists. apply SpecValue.data_register, Hn.
  Qed.

  Lemma inside_product : forall i j w l, fine (Node R_space_call i j w l) -> among [R_apply_call; R_Byte; R_Decimal; R_Integer; R_Symbol; R_MultiLineComment] l.
  Proof. intros i j w l H. shaped H R_space_call; inside. Qed.
  Lemma factors_some : forall l, Forall fine l -> among [R_apply_call; R_Byte; R_Decimal; R_Integer; R_Symbol; R_MultiLineComment] l ->
    forall vs, omapM factor_items l = Ret vs -> exists vs', Forall2 factor_value l vs'.
  Proof.
    induction 1 as [|x l Hx _ IH]; intros A ls H; [exists []; constructor|]. inversion A as [|? ? A1 A2]; subst.
    cbn [omapM] in H. apply bind_ret in H as (v & Hv & H). apply bind_ret in H as (ls' & Hl & _).
    destruct (IH A2 _ Hl) as [vs Hvs]. unfold factor_items in Hv. ruled x Hv.
    - eexists (_ :: vs). constructor; [apply factor_integer, (integer_digits _ _ _ _ Hx)|exact Hvs].
    - destruct (named_some w) as [s Hs]. eexists (_ :: vs). constructor; [apply factor_name, Hs|exact Hvs].
    - exfalso. cbn in A1. intuition discriminate.
  Qed.

  (** calls *)
  Lemma kv_clean : forall l k v p, parse_apply_kv_loop pexpr l k v = Ret p -> clean l.
  Proof.
    induction l as [|x l IH]; intros k v p H; [constructor|]. cbn [parse_apply_kv_loop] in H. ruled x H.
    - apply bind_ret in H as (a & _ & H). constructor; [discriminate|apply (IH _ _ _ H)].
    - constructor; [discriminate|apply (IH _ _ _ H)].
    - constructor; [discriminate|apply (IH _ _ _ H)].
  Qed.
  Lemma kv_some : forall i j w l k v, fine (Node R_apply_kv i j w l) -> parse_apply_kv pexpr (Node R_apply_kv i j w l) = Ret (k, v) ->
    (exists x, l = [x] /\ expr_value f text x v /\ k = EmptyStatement) \/
    (exists n c x s, l = [n; c; x] /\ rule_of n = R_SYMBOL /\ named (text_of n) s /\ rule_of c = R_Colon /\ expr_value f text x v /\ k = Sym s).
  Proof.
    intros i j w l k v H E. unfold parse_apply_kv in E. cbn [t_inner] in E. pose proof (kv_clean _ _ _ _ E) as C. pose proof (fine_inner _ _ _ _ _ H) as Hl.
    assert (K : joined (joined (single R_SYMBOL) (single R_Colon)) (single R_expr) l \/ single R_expr l) by (shaped H R_apply_kv; exact G).
    destruct K as [K|(x & -> & Hx)].
    - right. apply (joined_clean _ _ _ C) in K as (y & xs & -> & K & (x & -> & Hx) & C1 & _). apply (joined_clean _ _ _ C1) in K as (ns & cs & -> & (n & -> & Hn) & (c & -> & Hc) & _ & _).
      cbn [app] in *. inversion Hl as [|? ? Fn Hl1]; subst. inversion Hl1 as [|? ? Fc Hl2]; subst. inversion Hl2 as [|? ? Fx _]; subst.
      cbn [parse_apply_kv_loop] in E. rewrite <- rule_same, Hn in E. rewrite <- rule_same, Hc in E. rewrite <- rule_same, Hx in E. apply bind_ret in E as (a & Ea & E).
      injection E as <- <-. exists n, c, x, (symbol_from (text_of n)). split; [reflexivity|]. split; [exact Hn|]. split; [apply named_symbol; reflexivity|]. split; [exact Hc|]. split; [|destruct n; reflexivity].
      apply (fine_expr _ _ Fx); [destruct x; exact Hx|exact Ea].
    - left. inversion Hl as [|? ? Fx _]; subst. cbn [parse_apply_kv_loop] in E. rewrite <- rule_same, Hx in E. apply bind_ret in E as (a & Ea & E). injection E as <- <-.
      exists x. split; [reflexivity|]. split; [|reflexivity]. apply (fine_expr _ _ Fx); [destruct x; exact Hx|exact Ea].
  Qed.
  Lemma inside_apply : forall i j w l, fine (Node R_apply i j w l) -> among [R_apply_kv; R_Comma; R_MultiLineComment] l.
  Proof. intros i j w l H. shaped H R_apply; inside. Qed.
  Lemma arguments_some : forall l, Forall fine l -> among [R_apply_kv; R_Comma; R_MultiLineComment] l ->
    forall a k p, parse_apply_loop pexpr l a k = Ret p -> exists args kvs, arguments_value f text l args kvs.
  Proof.
    induction 1 as [|x l Hx _ IH]; intros A a k p H; [exists [], []; constructor|]. inversion A as [|? ? A1 A2]; subst. cbn [parse_apply_loop] in H.
    destruct (t_rule x) eqn:Er; try discriminate.
    - apply bind_ret in H as ([k' v] & E & H). destruct x as [r i j w l']. cbn [t_rule] in Er. subst r.
      destruct (kv_some _ _ _ _ _ _ Hx E) as [(x & -> & Hv & ->)|(n & c & x & s & -> & Hn & Hs & Hc & Hv & ->)].
      + destruct (IH A2 _ _ _ H) as (args & kvs & Ha). exists (v :: args), kvs. apply arguments_plain; assumption.
      + destruct (IH A2 _ _ _ H) as (args & kvs & Ha). exists args, ((Sym s, v) :: kvs). apply arguments_keyword; assumption.
    - exfalso. rewrite rule_same, Er in A1. cbn in A1. intuition discriminate.
    - destruct (IH A2 _ _ _ H) as (args & kvs & Ha). exists args, kvs. apply arguments_comma; [destruct x; exact Er|exact Ha].
  Qed.
  Lemma applies_some : forall l, Forall fine l -> forall ps, omapM (apply_item f text) l = Ret ps -> exists ps', applies f text l ps'.
  Proof.
    induction 1 as [|x l Hx _ IH]; intros ls H; [exists []; constructor|]. cbn [omapM] in H. apply bind_ret in H as (v & Hv & H). apply bind_ret in H as (ls' & Hl & _).
    destruct (IH _ Hl) as [ps Hps]. unfold apply_item in Hv. ruled x Hv. unfold parse_apply in Hv. cbn [t_inner] in Hv. apply bind_ret in Hv as ([a k] & E & _).
    destruct (arguments_some _ (fine_inner _ _ _ _ _ Hx) (inside_apply _ _ _ _ Hx) _ _ _ E) as (args & kvs & Ha).
    eexists (_ :: ps). eapply applies_more; [exact Ha| |exact Hps]. apply collected_inserts; [|reflexivity].
    destruct (values_made f text) as (_ & _ & _ & _ & _ & _ & _ & _ & _ & M & _). apply (proj1 (M _ _ _ Ha)).
  Qed.
  Lemma call_head : forall i j w l, fine (Node R_apply_call i j w l) -> exists h l', l = h :: l' /\ rule_of h = R_Symbol.
  Proof. intros i j w l H. shaped H R_apply_call; destruct G as (a & b & c & -> & (h & -> & Hh) & _); exists h, (b ++ c); split; [reflexivity|exact Hh|reflexivity|exact Hh]. Qed.

  (** slices *)
  Lemma only_expr : forall r i j w l, fine (Node r i j w l) -> In r [R_Start; R_End; R_Step] -> exists x, l = [x] /\ rule_of x = R_expr.
  Proof. intros r i j w l H [<-|[<-|[<-|[]]]]; [shaped H R_Start|shaped H R_End|shaped H R_Step]; exact G. Qed.
  Lemma range_clean : forall t l a b c v, Forall (fun x => rule_of x <> R_expr) l -> parse_index_loop f text pexpr t l a b c = Ret v -> clean l.
  Proof.
    induction l as [|x l IH]; intros a b c v N H; [constructor|]. inversion N as [|? ? N1 N2]; subst. cbn [parse_index_loop] in H. ruled x H.
    - contradiction N1. reflexivity.
    - destruct l0 as [|e l0]; [discriminate|]. apply bind_ret in H as (y & _ & H). constructor; [discriminate|apply (IH _ _ _ _ N2 H)].
    - destruct l0 as [|e l0]; [discriminate|]. apply bind_ret in H as (y & _ & H). constructor; [discriminate|apply (IH _ _ _ _ N2 H)].
    - destruct l0 as [|e l0]; [discriminate|]. apply bind_ret in H as (y & _ & H). constructor; [discriminate|apply (IH _ _ _ _ N2 H)].
    - constructor; [discriminate|apply (IH _ _ _ _ N2 H)].
  Qed.
  Lemma bound_reached : forall t l r d a b c k v, Forall fine l -> In r [R_Start; R_End; R_Step] -> l = [] \/ single r l -> parse_index_loop f text pexpr t (l ++ k) a b c = Ret v ->
    (exists v', bound_value f text r d l v') /\ exists a' b' c', parse_index_loop f text pexpr t k a' b' c' = Ret v.
  Proof.
    intros t l r d a b c k v Fl Hr [->|(x & -> & Hx)] H; [split; [exists d; constructor|exists a, b, c; exact H]|].
    inversion Fl as [|? ? Fx _]; subst. destruct x as [r i j w l']. cbn [rule_of] in *. destruct (only_expr _ _ _ _ _ Fx Hr) as (e & -> & He).
    pose proof (fine_inner _ _ _ _ _ Fx) as Fe. inversion Fe as [|? ? Fe' _]; subst. cbn [app parse_index_loop t_rule t_inner] in H.
    assert (He' : t_rule e = R_expr) by (destruct e; exact He).
    destruct Hr as [<-|[<-|[<-|[]]]]; apply bind_ret in H as (y & Hy & H); (split; [exists y; constructor; apply (fine_expr _ _ Fe' He' Hy)|eexists _, _, _; exact H]).
  Qed.
  Lemma index_some : forall i j w l v, fine (Node R_index i j w l) -> parse_index f text pexpr (Node R_index i j w l) = Ret v -> exists v', index_value f text (Node R_index i j w l) v'.
  Proof.
    intros i j w l v H E. unfold parse_index in E. cbn [t_inner] in E. pose proof (fine_inner _ _ _ _ _ H) as Fl.
    set (t := Node R_index i j w l) in E at 1.
    set (m := fun r (ts : list (tree rule)) => ts = [] \/ single r ts).
    assert (K : (joined (joined (joined (joined (m R_Start) (single R_Colon)) (m R_End)) (single R_Colon)) (m R_Step) l \/ joined (joined (m R_Start) (single R_Colon)) (m R_End) l) \/ single R_expr l)
      by (shaped H R_index; exact G).
    destruct K as [[K|K]|(x & -> & Hx)].
    - assert (N : Forall (fun x => rule_of x <> R_expr) l).
      { revert K. unfold m. clear. intro K. assert (A : among [R_Start; R_Colon; R_End; R_Step; R_MultiLineComment] l) by inside. eapply Forall_impl; [|exact A].
        intros x Hx E. cbn in Hx. rewrite E in Hx. intuition discriminate. }
      pose proof (range_clean _ _ _ _ _ _ N E) as C. apply (joined_clean _ _ _ C) in K as (x1 & e & -> & K & He & C1 & _).
      apply (joined_clean _ _ _ C1) in K as (x2 & d & -> & K & (d' & -> & Hd) & C2 & _). apply (joined_clean _ _ _ C2) in K as (x3 & b & -> & K & Hb & C3 & _).
      apply (joined_clean _ _ _ C3) in K as (a & c & -> & Ha & (c' & -> & Hc) & _ & _).
      rewrite <- !app_assoc in *. apply Forall_app in Fl as [Fa Fl]. apply Forall_app in Fl as [_ Fl]. apply Forall_app in Fl as [Fb Fl]. apply Forall_app in Fl as [_ Fe].
      destruct (bound_reached _ _ _ (Integer 1) _ _ _ _ _ Fa (or_introl eq_refl) Ha E) as ([va Va] & ? & ? & ? & E1). cbn [app parse_index_loop] in E1. rewrite <- rule_same, Hc in E1.
      destruct (bound_reached _ _ _ (Sym (standard (lit "core") (lit "All"))) _ _ _ _ _ Fb (or_intror (or_introl eq_refl)) Hb E1) as ([vb Vb] & ? & ? & ? & E2).
      cbn [app parse_index_loop] in E2. rewrite <- rule_same, Hd in E2. rewrite <- (app_nil_r e) in E2.
      destruct (bound_reached _ _ _ (Integer 1) _ _ _ _ _ Fe (or_intror (or_intror (or_introl eq_refl))) He E2) as ([ve Ve] & _).
      eexists. cbn [app]. eapply index_step; eassumption.
    - assert (N : Forall (fun x => rule_of x <> R_expr) l).
      { revert K. unfold m. clear. intro K. assert (A : among [R_Start; R_Colon; R_End; R_Step; R_MultiLineComment] l) by inside. eapply Forall_impl; [|exact A].
        intros x Hx E. cbn in Hx. rewrite E in Hx. intuition discriminate. }
      pose proof (range_clean _ _ _ _ _ _ N E) as C. apply (joined_clean _ _ _ C) in K as (x3 & b & -> & K & Hb & C3 & _).
      apply (joined_clean _ _ _ C3) in K as (a & c & -> & Ha & (c' & -> & Hc) & _ & _).
      rewrite <- !app_assoc in *. apply Forall_app in Fl as [Fa Fl]. apply Forall_app in Fl as [_ Fb].
      destruct (bound_reached _ _ _ (Integer 1) _ _ _ _ _ Fa (or_introl eq_refl) Ha E) as ([va Va] & ? & ? & ? & E1). cbn [app parse_index_loop] in E1. rewrite <- rule_same, Hc in E1.
      rewrite <- (app_nil_r b) in E1.
      destruct (bound_reached _ _ _ (Sym (standard (lit "core") (lit "All"))) _ _ _ _ _ Fb (or_intror (or_introl eq_refl)) Hb E1) as ([vb Vb] & _).
      eexists. cbn [app]. eapply index_range; eassumption.
    - inversion Fl as [|? ? Fx _]; subst. cbn [parse_index_loop] in E. rewrite <- rule_same, Hx in E. exists v. apply index_plain. apply (fine_expr _ _ Fx); [destruct x; exact Hx|exact E].
  Qed.
  Lemma indices_some : forall l, Forall fine l -> forall ls, omapM (index_items f text) l = Ret ls -> exists vs, indices_value f text l vs.
  Proof.
    induction 1 as [|x l Hx _ IH]; intros ls H; [exists []; constructor|]. cbn [omapM] in H. apply bind_ret in H as (v & Hv & H). apply bind_ret in H as (ls' & Hl & _).
    destruct (IH _ Hl) as [vs Hvs]. unfold index_items in Hv. ruled x Hv.
    - apply bind_ret in Hv as (a & Ha & _). destruct (index_some _ _ _ _ _ Hx Ha) as [v' Hv']. exists (v' :: vs). apply indices_more; assumption.
    - exists vs. apply indices_comma; [reflexivity|exact Hvs].
  Qed.

  (** terms *)
  Lemma node_some : forall i j w l v, fine (Node R_node i j w l) -> parse_node f text pexpr (Node R_node i j w l) = Ret v -> exists v', node_value f text (Node R_node i j w l) v'.
  Proof.
    intros i j w l v H E. unfold parse_node in E. cbn [t_inner] in E. destruct l as [|x l]; [discriminate|]. pose proof (fine_inner _ _ _ _ _ H) as Fl. inversion Fl as [|? ? Fx _]; subst.
    ruled x E.
    - exists v. apply node_expr. apply (fine_expr _ _ Fx eq_refl E).
    - destruct (call_head _ _ _ _ Fx) as (h & l' & -> & Hh). unfold parse_apply_call in E. cbn [t_inner] in E. apply bind_ret in E as (ps & E & _).
      pose proof (fine_inner _ _ _ _ _ Fx) as Fl'. inversion Fl' as [|? ? _ Fl'']; subst. destruct (applies_some _ Fl'' _ E) as [ps' Hps]. destruct (named_some (text_of h)) as [s Hs].
      eexists. eapply node_call; eassumption.
    - unfold parse_space_call in E. cbn [t_inner] in E. apply bind_ret in E as (ls & E & _).
      destruct (factors_some _ (fine_inner _ _ _ _ _ Fx) (inside_product _ _ _ _ Fx) _ E) as [vs Hvs]. eexists. apply node_product, Hvs.
    - destruct l0 as [|x l0]; [discriminate|]. pose proof (fine_inner _ _ _ _ _ Fx) as Fl'. inversion Fl' as [|? ? Fx' _]; subst.
      destruct (data_some _ _ _ _ _ _ Fx' E) as [v' Hv']. exists v'. apply node_data, Hv'.
  Qed.
  Lemma term_clean : forall l a pre v, parse_term_loop f text pexpr l a pre = Ret v -> clean l.
  Proof.
    induction l as [|x l IH]; intros a pre v H; [constructor|]. cbn [parse_term_loop] in H. ruled x H.
    - apply bind_ret in H as (b & _ & H). constructor; [discriminate|apply (IH _ _ _ H)].
    - apply bind_ret in H as (b & _ & H). constructor; [discriminate|apply (IH _ _ _ H)].
    - constructor; [discriminate|apply (IH _ _ _ H)].
    - apply bind_ret in H as (b & _ & H). constructor; [discriminate|apply (IH _ _ _ H)].
  Qed.
  Lemma suffix_found : forall g s, suffix_map g = Ret s -> exists n, SpecSource.lookup g suffix_names = Some n.
  Proof.
    intros g s. unfold suffix_map, suffix_names. cbn [SpecSource.lookup].
    repeat (match goal with |- context [str_eqb g ?x] => destruct (str_eqb g x) end); intro H; try discriminate; eexists; reflexivity.
  Qed.
  Lemma prefix_found : forall g s, prefix_map g = Ret s -> exists n, SpecSource.lookup g SpecSource.prefix_names = Some n.
  Proof.
    intros g s. unfold prefix_map, SpecSource.prefix_names. cbn [SpecSource.lookup].
    repeat (match goal with |- context [str_eqb g ?x] => destruct (str_eqb g x) end); intro H; try discriminate; eexists; reflexivity.
  Qed.
  Lemma suffixed_some : forall l, Forall fine l -> among [R_Suffix; R_slice; R_MultiLineComment] l -> forall a pre v, parse_term_loop f text pexpr l a pre = Ret v ->
    (forall b, exists c, suffixed f text l b c) /\ exists c, apply_prefixes pre c = Ret v.
  Proof.
    induction 1 as [|x l Hx _ IH]; intros A a pre v H; [split; [intro b; exists b; constructor|exists a; exact H]|]. inversion A as [|? ? A1 A2]; subst.
    cbn [parse_term_loop] in H. destruct x as [r i j w l']. cbn [t_rule t_text] in H. cbn [rule_of] in A1. destruct A1 as [<-|[<-|[<-|[]]]]; [| |discriminate].
    - apply bind_ret in H as (s & Hs & H). destruct (suffix_found _ _ Hs) as [n Hn]. destruct (IH A2 _ _ _ H) as [S P]. split; [|exact P]. intro b.
      destruct (S (call_at f text (mkSymbol [lit "std"; lit "suffix"] n (Suffix w) 0) [b] (Node R_Suffix i j w l'))) as [c Hc]. exists c. eapply suffixed_by; [reflexivity|exact Hn|exact Hc].
    - apply bind_ret in H as (new & Hs & H). unfold parse_slice in Hs. cbn [t_inner] in Hs. apply bind_ret in Hs as (ls & Hs & _).
      destruct (indices_some _ (fine_inner _ _ _ _ _ Hx) ls Hs) as [vs Hvs]. destruct (IH A2 _ _ _ H) as [S P]. split; [|exact P]. intro b.
      destruct (S (call_at f text (standard (lit "core") (lit "Index")) (b :: vs) (Node R_slice i j w l'))) as [c Hc]. exists c. eapply suffixed_slice; eassumption.
  Qed.
  Lemma prefixes_found : forall l a v, apply_prefixes l a = Ret v -> Forall (fun p => exists s, prefix_map (fst p) = Ret s) l.
  Proof.
    induction l as [|[g p] l IH]; intros a v H; [constructor|]. cbn [apply_prefixes] in H. apply bind_ret in H as (s & Hs & H). constructor; [exists s; exact Hs|apply (IH _ _ H)].
  Qed.
  Lemma prefixed_some : forall l a, Forall (fun t => rule_of t = R_Prefix) l -> Forall (fun t => exists s, prefix_map (text_of t) = Ret s) l -> exists b, prefixed f text l a b.
  Proof.
    intros l a. induction 1 as [|t l Ht _ IH]; intro H; [exists a; constructor|]. inversion H as [|? ? [s Hs] H']; subst. destruct (IH H') as [b Hb].
    destruct (prefix_found _ _ Hs) as [n Hn]. eexists. eapply prefixed_by; eassumption.
  Qed.
  Lemma term_some : forall i j w l v, fine (Node R_term i j w l) -> parse_term f text pexpr (Node R_term i j w l) = Ret v -> exists v', term_value f text (Node R_term i j w l) v'.
  Proof.
    intros i j w l v H E. unfold parse_term in E. cbn [t_inner] in E. pose proof (term_clean _ _ _ _ E) as C. pose proof (fine_inner _ _ _ _ _ H) as Fl.
    assert (K : exists Q : list (tree rule) -> Prop, joined (joined (star (single R_Prefix)) (single R_node)) Q l /\ forall ts, Q ts -> among [R_Suffix; R_slice; R_MultiLineComment] ts).
    { shaped H R_term; (eexists; split; [exact G|]; clear; intros ts G; cbn beta in G; inside). }
    destruct K as (Q & K & HQ). apply (joined_clean _ _ _ C) in K as (y & rs & -> & K & Hrs & C1 & _). apply (joined_clean _ _ _ C1) in K as (ps & xs & -> & Hps & (x & -> & Hx) & C2 & _).
    rewrite <- app_assoc in *. cbn [app] in *. apply (star_single _ _ ) in Hps; [|exact C2]. apply Forall_app in Fl as [Fp Fl]. inversion Fl as [|? ? Fx Fr]; subst.
    rewrite prefix_loop in E; [|eapply Forall_impl; [|exact Hps]; intros [? ? ? ? ?] X; exact X]. cbn [parse_term_loop] in E. rewrite <- rule_same, Hx in E. apply bind_ret in E as (b & Hb & E).
    destruct x as [r ix jx wx lx]. cbn [rule_of] in Hx. subst r. destruct (node_some _ _ _ _ _ Fx Hb) as [a Ha]. destruct (suffixed_some _ Fr (HQ _ Hrs) _ _ _ E) as [S [c P]].
    destruct (S a) as [d Hd]. apply prefixes_found in P. apply Forall_app in P as [P _].
    destruct (prefixed_some ps d Hps) as [z Hz].
    { apply Forall_forall. intros t Ht. rewrite Forall_forall in P. destruct (P (t_text t, get_position f text t)) as [s Hs].
      - apply -> in_rev. apply (in_map (fun t => (t_text t, get_position f text t))), Ht.
      - exists s. destruct t; exact Hs. }
    exists z. eapply term_parts; eassumption.
  Qed.
  Lemma dotted_some : forall t a b c, parse_dot_call a b (get_position f text t) = Ret c -> exists c', dotted f text t a b c'.
  Proof.
    intros t a b c H. destruct b; try discriminate H; try (eexists; constructor).
    match goal with H : parse_dot_call _ (Function _ ?l) _ = _ |- _ => destruct l as [|[x o p] ps]; [discriminate H|] end. eexists. constructor.
  Qed.
  Lemma group_some : forall t b v, evaluate (primary f text pexpr) (infix_node (get_position f text t)) b = Ret v -> Forall member (written b) -> Forall supported (signs b) ->
    exists v', group_value f text t b v'.
  Proof.
    intros t b. induction b as [x|l IHl o r IHr]; intros v E M S.
    - cbn [evaluate] in E. cbn [written] in M. inversion M as [|? ? [Fx Hx] _]; subst. unfold primary in E. destruct x as [r i j w l]. cbn [t_rule rule_of] in *.
      assert (Hr : r = R_term). { cbn in Hx. repeat (destruct Hx as [<-|Hx]; [try discriminate E; try reflexivity|]). destruct Hx. }
      subst r. destruct (term_some _ _ _ _ _ Fx E) as [v' Hv']. exists v'. constructor. exact Hv'.
    - cbn [evaluate written signs] in *. apply Forall_app in M as [M1 M]. inversion M as [|? ? [Fo Ho] M2]; subst. apply Forall_app in S as [S1 S]. inversion S as [|? ? So S2]; subst.
      apply bind_ret in E as (a & Ea & E). apply bind_ret in E as (c & Ec & E). destruct (IHl _ Ea M1 S1) as [a' Ga]. destruct (IHr _ Ec M2 S2) as [c' Gc].
      destruct (values_made f text) as (_ & MG & _). pose proof (MG _ _ _ Ga) as Ea'. pose proof (MG _ _ _ Gc) as Ec'. rewrite Ea in Ea'. injection Ea' as <-. rewrite Ec in Ec'. injection Ec' as <-.
      destruct o as [ro i j w lo]. cbn [rule_of] in Ho.
      assert (Hi : In ro infixes). { destruct Ho as [<-|[<-|Ho]]; [| |exact Ho]; exfalso; revert So; unfold supported, op_strength; cbn; lia. }
      destruct (operator_shape _ _ _ _ _ Fo Hi So) as [->|(N & Nd & q & n & p & L)].
      + unfold infix_node in E. cbn [t_rule] in E. destruct (dotted_some _ _ _ _ E) as [d Hd]. exists d. eapply group_dot; [reflexivity|exact Ga|exact Gc|exact Hd].
      + eexists. eapply group_operator; [exact N|exact Nd|exact Ga|exact Gc|exact L].
  Qed.
  Lemma expr_some : forall i j w l v, grown (Node R_expr i j w l) -> Forall fine l -> pexpr (Node R_expr i j w l) = Ret v -> exists v', expr_value f text (Node R_expr i j w l) v'.
  Proof.
    intros i j w l v G Fl E. pose proof (inside_expr _ _ _ _ G) as A. destruct (expr_end _ _ _ _ G) as (e & t & El & Ht).
    destruct l as [|x0 l]; [destruct e; discriminate|]. destruct (chain_split (length l) l (le_n _)) as (ps & k & -> & Hps & Hk).
    assert (Hk' : match k with [] => True | o :: _ => ~ supported o end).
    { destruct Hk as [Hk|(o & -> & Ho)]; [exact Hk|]. rewrite app_comm_cons in El. apply app_inj_tail in El as [_ ->].
      exfalso. revert Ho. unfold supported, op_strength. destruct t as [r ? ? ? ?]. unfold noise in Ht. cbn in *. destruct Ht as [->| ->]; lia. }
    change (x0 :: flat_map (fun p => [fst p; snd p]) ps ++ k) with (alternate x0 ps ++ k) in *.
    destruct (expression_bracketing f text R_expr i j w x0 ps k Hps Hk') as (b & Hb & Hw & Eb & _). cbv zeta in Eb. rewrite Eb in E.
    destruct (written_signs b) as (y & qs & W & S). rewrite Hw in W. unfold alternate in W. injection W as <- W. apply alternate_inj in W. subst qs.
    destruct (group_some _ _ _ E) as [v' Hv'].
    - rewrite Hw. apply Forall_forall. intros c Hc. unfold among in A. rewrite Forall_forall in A, Fl. split; [apply Fl|apply A]; apply in_or_app; left; exact Hc.
    - rewrite <- S. apply Forall_map. exact Hps.
    - exists v'. eapply expr_chain; eassumption.
  Qed.
  Lemma grown_fine : forall t, grown t -> fine t.
  Proof.
    intro t. induction t as [r i j w l IH] using tree_ind'. intro G.
    assert (Fl : Forall fine l).
    { pose proof (grown_inner U _ _ _ _ _ G) as Gl. rewrite Forall_forall in *. intros x Hx. apply IH; [exact Hx|apply Gl, Hx]. }
    constructor; [exact G| |exact Fl]. intros -> v E. destruct (expr_some _ _ _ _ _ G Fl E) as [v' Hv']. destruct (values_made f text) as [M _].
    destruct (M _ _ Hv') as [_ E']. rewrite E in E'. injection E' as <-. exact Hv'.
  Qed.

  Definition ordinary (t : tree rule) : Prop := rule_of t <> R_EOI /\ rule_of t <> R_COMMENT.
  Ltac inside2 :=
    match goal with
    | H : joined _ _ ?ts |- Forall _ ?ts => revert H; apply joined_forall; [intros ? ?; inside2|intros ? ?; inside2|intros ? ?; inside2]
    | H : star _ ?ts |- Forall _ ?ts => revert H; apply star_forall; [intros ? ?; inside2|intros ? ?; inside2]
    | H : single _ ?ts |- Forall _ ?ts => revert H; apply single_forall; intros ? ?; inside2
    | H : ?ts = [] |- Forall _ ?ts => revert H; apply nil_forall
    | H : _ \/ _ |- _ => destruct H; inside2
    | H : noise ?t |- _ => unfold ordinary; unfold noise in H; rewrite H; split; discriminate
    | H : rule_of ?t = _ |- _ => unfold ordinary; rewrite H; split; discriminate
    end.
  Lemma program_some : forall s0 s ts a, reads U source NonAtomic (Name R_program) s0 (Some (s, ts)) -> parse_pairs f text ts = Ret a -> program_value f text ts a.
  Proof.
    intros s0 s ts a R E. pose proof (proj1 (reads_grown U) _ _ _ _ R _ _ eq_refl) as Gt. pose proof (proj1 (reads_shape U) _ _ _ _ R _ _ eq_refl 4%nat) as Sh.
    assert (K : exists b e, ts = b ++ [e] /\ rule_of e = R_EOI /\ Forall ordinary b).
    { cbn in Sh. destruct Sh as (x & b & c & -> & Hx & Hb & (e & -> & He)). exists (x ++ b), e. rewrite app_assoc. split; [reflexivity|]. split; [exact He|]. apply Forall_app. split.
      - inside2.
      - eapply Forall_impl; [|exact Hb]. intros t H. inside2. }
    destruct K as (b & e & -> & He & Hb). destruct b as [|t b]; cbn [app] in *.
    - cbn [parse_pairs] in E. rewrite <- rule_same, He in E. injection E as <-. apply program_empty, He.
    - inversion Hb as [|? ? [N1 N2] _]; subst. inversion Gt as [|? ? Gx _]; subst. apply grown_fine in Gx. destruct t as [r i j w l]. cbn [rule_of] in *. cbn [parse_pairs t_rule] in E.
      destruct r; try discriminate E; try contradiction. apply bind_ret in E as ([v eos] & E & Ev). injection Ev as <-. unfold parse_expression in E. cbn [t_inner] in E.
      assert (K : joined (single R_expr) (fun ts => ts = [] \/ single R_eos ts) l) by (shaped Gx R_expression; exact G).
      destruct K as (xs & n & c & -> & (x & -> & Hx) & Hn & Hc). pose proof (fine_inner _ _ _ _ _ Gx) as Fl. cbn [app] in *. inversion Fl as [|? ? Fx _]; subst.
      cbn [parse_expression_loop] in E. rewrite <- rule_same, Hx in E. apply bind_ret in E as (u & Hu & E).
      assert (Hn' : n = []). { destruct n as [|y n]; [reflexivity|]. inversion Hn as [|? ? Hy _]; subst. cbn [app parse_expression_loop] in E. unfold noise in Hy. rewrite <- rule_same, Hy in E. discriminate. }
      subst n. cbn [app] in *.
      assert (Hc' : Forall (fun e => rule_of e = R_eos) c). { destruct Hc as [->|(y & -> & Hy)]; [constructor|constructor; [exact Hy|constructor]]. }
      assert (u = v).
      { destruct Hc as [->|(y & -> & Hy)]; cbn [parse_expression_loop] in E; [injection E as ->; reflexivity|]. rewrite <- rule_same, Hy in E. injection E as ->. reflexivity. }
      subst u. apply program_first; [exact Hc'|]. apply (fine_expr _ _ Fx); [destruct x; exact Hx|exact Hu].
  Qed.
End Meaning.

(** ** Texts *)
Lemma parse_tree : forall U f text a, parse U f text = Ret (Ok a) <->
  exists s ts, reads U source NonAtomic (Name R_program) (mkPs 0 text []) (Some (s, ts)) /\ program_value f text ts a.
Proof.
  intros U f text a. split.
  - intro H. unfold parse in H. destruct (run_program U text) as [s ts|s ts| |] eqn:E; try discriminate. apply bind_ret in H as (b & Hb & H). injection H as ->.
    apply program_accepts in E. exists s, ts. split; [exact E|]. apply (program_some _ _ _ _ _ _ _ E Hb).
  - intros (s & ts & R & V). apply program_accepts in R. unfold parse. rewrite R. rewrite (program_made _ _ _ _ V). reflexivity.
Qed.
Lemma program_unique : forall f text ts a b, program_value f text ts a -> program_value f text ts b -> a = b.
Proof. intros f text ts a b A B. apply program_made in A, B. congruence. Qed.
Lemma parse_panics : forall U f text, (exists k, parse U f text = Panic k) <->
  exists s ts, reads U source NonAtomic (Name R_program) (mkPs 0 text []) (Some (s, ts)) /\ forall a, ~ program_value f text ts a.
Proof.
  intros U f text. split.
  - intros [k H]. destruct (program_total U text) as [[[s ts]|] R].
    + exists s, ts. split; [exact R|]. intros a V. assert (E : parse U f text = Ret (Ok a)) by (apply parse_tree; eauto). congruence.
    + apply parse_refuses with (f := f) in R as [e E]. congruence.
  - intros (s & ts & R & N). destruct (parse U f text) as [[a|e]|k|] eqn:E.
    + apply parse_tree in E as (s' & ts' & R' & V). pose proof (reads_once _ _ _ _ _ _ R R') as Q. injection Q as <- <-. contradiction (N a V).
    + assert (R' : reads U source NonAtomic (Name R_program) (mkPs 0 text []) None) by (apply (parse_refuses U f); eauto).
      pose proof (reads_once _ _ _ _ _ _ R R'). discriminate.
    + exists k. reflexivity.
    + exfalso. revert E. apply parse_terminates.
Qed.
