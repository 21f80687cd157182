(** Texts of the same layout have the same meaning. *)
From Verif Require Import Base Ast SmError Peg Grammar Climber Build SpecAst SpecPeg SpecClimb SpecSyntax SpecLayout.
From Verif Require Import ProofPeg ProofPegShift ProofShape ProofSym ProofGrammar ProofBuild ProofPos ProofSpace ProofLex.
Local Open Scope nat_scope.

(** ** Layouts *)
Definition inked (c : char) : bool := negb (white_space c).
Lemma line_break_white : forall c, line_break c = true -> white_space c = true.
Proof.
  intros c H. unfold line_break in H. apply orb_prop in H as [H|H]; apply N.eqb_eq in H; subst c; reflexivity.
Qed.
Lemma reduced_white : forall b, white_space (reduced b) = true.
Proof. intros []; reflexivity. Qed.
Lemma reduced_inj : forall a b, reduced a = reduced b -> a = b.
Proof. intros [] []; try reflexivity; intro H; discriminate H. Qed.
Lemma layout_nil : layout [] = []. Proof. reflexivity. Qed.
Lemma layout_ink : forall c w, white_space c = false -> layout (c :: w) = c :: layout w.
Proof. intros c w H. unfold layout. cbn. rewrite H. reflexivity. Qed.
Lemma layout_inks : forall x w, forallb inked x = true -> layout (x ++ w) = x ++ layout w.
Proof.
  induction x as [|c x IH]; intros w H; [reflexivity|]. cbn [forallb] in H. apply andb_prop in H as [H1 H2]. cbn [app].
  rewrite layout_ink by (apply negb_true_iff, H1). rewrite IH by exact H2. reflexivity.
Qed.
Lemma layout_some : forall g b w, forallb white_space g = true -> head_is white_space w = false ->
  layout_after (Some b) (g ++ w) = reduced (existsb line_break g || b) :: layout w.
Proof.
  induction g as [|c g IH]; intros b w Hg Hw.
  - cbn [app existsb orb]. unfold layout. destruct w as [|c w]; [reflexivity|]. cbn [head_is] in Hw. cbn. rewrite Hw. reflexivity.
  - cbn [forallb] in Hg. apply andb_prop in Hg as [Hc Hg]. cbn [app layout_after]. rewrite Hc. rewrite IH by assumption. cbn [existsb].
    f_equal. f_equal. destruct (line_break c), (existsb line_break g), b; reflexivity.
Qed.
Lemma layout_gap : forall g w, g <> [] -> forallb white_space g = true -> head_is white_space w = false ->
  layout (g ++ w) = reduced (existsb line_break g) :: layout w.
Proof.
  intros [|c g] w N Hg Hw; [congruence|]. cbn [forallb] in Hg. apply andb_prop in Hg as [Hc Hg]. unfold layout at 1. cbn [app layout_after]. rewrite Hc.
  rewrite layout_some by assumption. cbn [existsb]. f_equal. f_equal. destruct (line_break c), (existsb line_break g); reflexivity.
Qed.
Lemma white_split : forall w, exists g v, w = g ++ v /\ forallb white_space g = true /\ head_is white_space v = false.
Proof.
  induction w as [|c w (g & v & -> & Hg & Hv)]; [exists [], []; repeat split|]. destruct (white_space c) eqn:E.
  - exists (c :: g), v. cbn [app forallb]. rewrite E. auto.
  - exists [], (c :: g ++ v). auto.
Qed.

(** two texts of the same layout, seen from their beginning *)
Inductive paired : str -> str -> Prop :=
| paired_nil : paired [] []
| paired_ink : forall c v v', white_space c = false -> layout v = layout v' -> paired (c :: v) (c :: v')
| paired_gap : forall g g' v v', g <> [] -> g' <> [] -> forallb white_space g = true -> forallb white_space g' = true ->
    existsb line_break g = existsb line_break g' -> head_is white_space v = false -> head_is white_space v' = false ->
    layout v = layout v' -> paired (g ++ v) (g' ++ v').
Lemma layout_head : forall v, head_is white_space v = false -> v = [] \/ exists c k, v = c :: k /\ white_space c = false /\ layout v = c :: layout k.
Proof.
  intros [|c k] H; [auto|]. right. exists c, k. cbn in H. split; [reflexivity|]. split; [exact H|apply layout_ink, H].
Qed.
Lemma layout_paired : forall w w', layout w = layout w' -> paired w w'.
Proof.
  intros w w' H. destruct (white_split w) as (g & v & -> & Hg & Hv). destruct (white_split w') as (g' & v' & -> & Hg' & Hv').
  destruct g as [|a g], g' as [|a' g'].
  - cbn [app] in *. destruct (layout_head v Hv) as [->|(c & k & -> & Hc & E)], (layout_head v' Hv') as [->|(c' & k' & -> & Hc' & E')].
    + constructor.
    + rewrite E' in H. discriminate.
    + rewrite E in H. discriminate.
    + rewrite E, E' in H. injection H as <- H. constructor; assumption.
  - change ([] ++ v) with v in *. rewrite (layout_gap (a' :: g') v') in H by (try discriminate; assumption).
    destruct (layout_head v Hv) as [->|(c & k & -> & Hc & E)]; [discriminate|]. rewrite E in H. injection H as H _. exfalso.
    rewrite H, reduced_white in Hc. discriminate.
  - change ([] ++ v') with v' in *. rewrite (layout_gap (a :: g) v) in H by (try discriminate; assumption).
    destruct (layout_head v' Hv') as [->|(c & k & -> & Hc & E)]; [discriminate|]. rewrite E in H. injection H as H _. exfalso.
    rewrite <- H, reduced_white in Hc. discriminate.
  - rewrite (layout_gap (a' :: g') v'), (layout_gap (a :: g) v) in H by (try discriminate; assumption). injection H as H1 H2.
    apply paired_gap; try discriminate; try assumption.
    apply reduced_inj. exact H1.
Qed.
Lemma layout_prefix : forall x w z, forallb inked x = true -> layout w = x ++ z -> exists v, w = x ++ v /\ layout v = z.
Proof.
  induction x as [|c x IH]; intros w z Hx H; [exists w; auto|]. cbn [forallb] in Hx. apply andb_prop in Hx as [Hc Hx]. cbn [app] in H.
  destruct (white_split w) as (g & v & -> & Hg & Hv). destruct g as [|a g].
  - cbn [app] in *. destruct (layout_head v Hv) as [->|(d & k & -> & Hd & E)]; [discriminate|]. rewrite E in H. injection H as -> H.
    destruct (IH _ _ Hx H) as (u & -> & Hu). exists u. auto.
  - rewrite layout_gap in H by (try discriminate; assumption). injection H as H _. exfalso. unfold inked in Hc. rewrite <- H, reduced_white in Hc. discriminate.
Qed.
Lemma layout_same_prefix : forall x w w', forallb inked x = true -> layout (x ++ w) = layout w' -> exists v', w' = x ++ v' /\ layout w = layout v'.
Proof.
  intros x w w' Hx H. rewrite layout_inks in H by exact Hx. destruct (layout_prefix x w' (layout w) Hx (eq_sym H)) as (v & -> & E). exists v. auto.
Qed.
Lemma layout_in : forall c w, white_space c = false -> In c w -> In c (layout w).
Proof.
  intros c w Hc. assert (G : forall w b, In c w -> In c (layout_after b w)).
  { clear w. induction w as [|d w IH]; intros b H; [destruct H|]. cbn [layout_after]. destruct (white_space d) eqn:E.
    - apply IH. destruct H as [->|H]; [congruence|exact H].
    - apply in_or_app. right. destruct H as [->|H]; [left; reflexivity|right; apply IH, H]. }
  apply G.
Qed.
Lemma layout_out : forall c w, white_space c = false -> In c (layout w) -> In c w.
Proof.
  intros c w Hc. assert (G : forall w b, In c (layout_after b w) -> In c w).
  { clear w. induction w as [|d w IH]; intros b H.
    - destruct b as [b|]; [|exact H]. cbn in H. destruct H as [H|[]]. subst c. rewrite reduced_white in Hc. discriminate.
    - cbn [layout_after] in H. destruct (white_space d) eqn:E; [right; apply (IH _ H)|]. apply in_app_or in H. destruct H as [H|[H|H]].
      + destruct b as [b|]; [|destruct H]. destruct H as [H|[]]. subst c. rewrite reduced_white in Hc. discriminate.
      + left. exact H.
      + right. apply (IH _ H). }
  apply G.
Qed.

(** ** Repetitions of characters *)
(** both texts cut after white space, at a line break, at the end of the line *)
Lemma white_cut : forall w w', layout w = layout w' -> exists l v l' v',
  w = l ++ v /\ w' = l' ++ v' /\ forallb white_space l = true /\ forallb white_space l' = true /\ head_is white_space v = false /\ head_is white_space v' = false /\
  layout v = layout v'.
Proof.
  intros w w' H. destruct (layout_paired _ _ H) as [|c v v' Hc Hv|g g' v v' N N' Hg Hg' Hb Hv Hv' E].
  - exists [], [], [], []. repeat split.
  - exists [], (c :: v), [], (c :: v'). cbn. repeat split; auto.
  - exists g, v, g', v'. repeat split; auto.
Qed.
Lemma break_split : forall g, forallb white_space g = true -> exists a b, g = a ++ b /\ forallb inline_space a = true /\ forallb white_space b = true /\
  (existsb line_break g = true -> exists n b', b = n :: b' /\ line_break n = true) /\ (existsb line_break g = false -> b = []).
Proof.
  induction g as [|c g IH]; intro H; [exists [], []; repeat split; discriminate|]. cbn [forallb] in H. apply andb_prop in H as [Hc H].
  cbn [existsb]. destruct (line_break c) eqn:E.
  - exists [], (c :: g). cbn [app forallb]. rewrite Hc, H. repeat split; [|discriminate]. intros _. exists c, g. auto.
  - destruct (IH H) as (a & b & -> & Ha & Hb & H1 & H2). exists (c :: a), b. cbn [app forallb orb]. repeat split; try assumption.
    unfold inline_space at 1. unfold line_break in E. rewrite Hc, Ha. destruct (c =? 10)%N, (c =? 13)%N; try discriminate; reflexivity.
Qed.
Lemma head_app : forall P (a b : str), a <> [] -> head_is P (a ++ b) = head_is P a.
Proof. intros P [|c a] b N; [congruence|reflexivity]. Qed.
Lemma inline_break : forall n, line_break n = true -> inline_space n = false.
Proof. intros n H. unfold line_break in H. unfold inline_space. destruct (n =? 10)%N, (n =? 13)%N; try discriminate; rewrite ?andb_false_r; reflexivity. Qed.
Lemma inline_ink : forall c, white_space c = false -> inline_space c = false.
Proof. intros c H. unfold inline_space. rewrite H. reflexivity. Qed.
Lemma in_line_ink : forall c, white_space c = false -> in_line c = true.
Proof.
  intros c H. unfold in_line, line_end. destruct (N.eqb_spec c 10) as [->|]; [discriminate|]. destruct (N.eqb_spec c 13) as [->|]; [discriminate|reflexivity].
Qed.
Lemma in_line_inline : forall c, inline_space c = true -> in_line c = true.
Proof. intros c H. unfold inline_space in H. unfold in_line, line_end. destruct (c =? 10)%N, (c =? 13)%N; try reflexivity; rewrite ?andb_false_r in H; discriminate. Qed.
Lemma in_line_break : forall c, line_break c = true -> in_line c = false.
Proof. intros c H. unfold in_line, line_end, line_break in *. rewrite H. reflexivity. Qed.
Lemma inlines : forall a, forallb inline_space a = true -> forallb in_line a = true.
Proof. intros a H. rewrite forallb_forall in *. intros c Hc. apply in_line_inline, H, Hc. Qed.
(** a gap cut at its first line break *)
Lemma gap_cut : forall g g' v v', g <> [] -> g' <> [] -> forallb white_space g = true -> forallb white_space g' = true ->
  existsb line_break g = existsb line_break g' -> head_is white_space v = false -> head_is white_space v' = false -> layout v = layout v' ->
  exists a b a' b', g = a ++ b /\ g' = a' ++ b' /\ forallb inline_space a = true /\ forallb inline_space a' = true /\ layout (b ++ v) = layout (b' ++ v') /\
    ((b = [] /\ b' = []) \/ exists n c n' c', b = n :: c /\ b' = n' :: c' /\ line_break n = true /\ line_break n' = true).
Proof.
  intros g g' v v' N N' Hg Hg' E Hv Hv' L. destruct (break_split g Hg) as (a & b & -> & Ha & Hb & B1 & B2). destruct (break_split g' Hg') as (a' & b' & -> & Ha' & Hb' & B1' & B2').
  exists a, b, a', b'. do 4 (split; [first [reflexivity|assumption]|]). destruct (existsb line_break (a ++ b)) eqn:K.
  - destruct (B1 eq_refl) as (n & c & -> & Hn). destruct (B1' (eq_sym E)) as (n' & c' & -> & Hn'). split.
    + rewrite !layout_gap by (try discriminate; assumption). cbn [existsb]. rewrite Hn, Hn', L. reflexivity.
    + right. exists n, c, n', c'. auto.
  - rewrite (B2 eq_refl), (B2' (eq_sym E)). auto.
Qed.
Lemma inline_cut : forall w w', layout w = layout w' -> exists l v l' v',
  w = l ++ v /\ w' = l' ++ v' /\ forallb inline_space l = true /\ forallb inline_space l' = true /\ head_is inline_space v = false /\ head_is inline_space v' = false /\
  layout v = layout v'.
Proof.
  intros w w' H. destruct (layout_paired _ _ H) as [|c v v' Hc Hv|g g' v v' N N' Hg Hg' Hb Hv Hv' E].
  - exists [], [], [], []. repeat split.
  - exists [], (c :: v), [], (c :: v'). cbn. rewrite inline_ink by exact Hc. repeat split; auto.
  - destruct (gap_cut g g' v v' N N' Hg Hg' Hb Hv Hv' E) as (a & b & a' & b' & -> & -> & Ha & Ha' & L & D).
    exists a, (b ++ v), a', (b' ++ v'). rewrite <- !app_assoc. do 2 (split; [reflexivity|]). do 2 (split; [assumption|]).
    destruct D as [[-> ->]|(n & c & n' & c' & -> & -> & Hn & Hn')].
    + cbn [app]. repeat split; try assumption.
      * destruct v as [|c v]; [reflexivity|]. cbn in *. apply inline_ink, Hv.
      * destruct v' as [|c v']; [reflexivity|]. cbn in *. apply inline_ink, Hv'.
    + cbn [app head_is]. rewrite !inline_break by assumption. auto.
Qed.
Lemma line_cut : forall n w w', length w <= n -> layout w = layout w' -> exists l v l' v',
  w = l ++ v /\ w' = l' ++ v' /\ forallb in_line l = true /\ forallb in_line l' = true /\ head_is in_line v = false /\ head_is in_line v' = false /\
  layout v = layout v'.
Proof.
  induction n as [|n IH]; intros w w' Hn H; destruct (layout_paired _ _ H) as [|c v v' Hc Hv|g g' v v' N N' Hg Hg' Hb Hv Hv' E].
  1,4: exists [], [], [], []; repeat split.
  - cbn in Hn. lia.
  - destruct g; [congruence|cbn in Hn; lia].
  - destruct (IH v v') as (l & u & l' & u' & -> & -> & Hl & Hl' & Hu & Hu' & L); [cbn in Hn; lia|exact Hv|].
    exists (c :: l), u, (c :: l'), u'. cbn [app forallb]. rewrite in_line_ink by exact Hc. rewrite Hl, Hl'. repeat split; auto.
  - destruct (gap_cut g g' v v' N N' Hg Hg' Hb Hv Hv' E) as (a & b & a' & b' & -> & -> & Ha & Ha' & L & D).
    destruct D as [[-> ->]|(m & c & m' & c' & -> & -> & Hm & Hm')].
    + rewrite !app_nil_r in *. destruct (IH v v') as (l & u & l' & u' & -> & -> & Hl & Hl' & Hu & Hu' & Lu); [destruct a; [congruence|]; rewrite app_length in Hn; cbn in Hn; unfold str, char in *; lia|exact E|].
      exists (a ++ l), u, (a' ++ l'), u'. rewrite !forallb_app, (inlines a Ha), (inlines a' Ha'), Hl, Hl'.
      do 2 (split; [apply app_assoc|]). do 2 (split; [reflexivity|]). auto.
    + exists a, ((m :: c) ++ v), a', ((m' :: c') ++ v'). rewrite <- !app_assoc. cbn [app head_is]. rewrite !in_line_break by assumption.
      repeat split; try apply inlines; try assumption; try reflexivity.
Qed.

(** ** Runs *)
Section Layout.
  Variable U : unicode.
  Hypothesis HU : sane U.
  Notation run := (run U grammar skip_body).
  Notation ev := (ev U grammar skip_body).
  Notation fails := (fails U).

  Definition near (s s' : pstate) : Prop :=
    layout (rest s) = layout (rest s') /\ ~ In 34%N (rest s) /\ ~ In 34%N (rest s') /\ stk s = [] /\ stk s' = [].
  Definition near_res (r r' : pres rule) : Prop :=
    match r, r' with
    | POk s t, POk s' t' | PErr s t, PErr s' t' => near s s' /\ map shade t = map shade t'
    | PPanic, PPanic => True
    | _, _ => False
    end.
  Lemma near_here : forall s s', near s s' -> near_res (POk s []) (POk s' []).
  Proof. intros s s' H. split; [exact H|reflexivity]. Qed.
  Lemma near_not_here : forall s s', near s s' -> near_res (PErr s []) (PErr s' []).
  Proof. intros s s' H. split; [exact H|reflexivity]. Qed.
  Lemma near_prepend : forall t t' r r', map shade t = map shade t' -> near_res r r' -> near_res (prepend t r) (prepend t' r').
  Proof.
    intros t t' r r' Ht H. destruct r as [s u|s u| |], r' as [s' u'|s' u'| |]; cbn in *; try contradiction; try exact I;
      (destruct H as [H1 H2]; split; [exact H1|]; rewrite !map_app, Ht, H2; reflexivity).
  Qed.
  Lemma near_fuel : forall r r', near_res r r' -> r' <> PFuel.
  Proof. intros [s t|s t| |] [s' t'|s' t'| |] H; cbn in H; try contradiction; discriminate. Qed.
  Lemma near_move : forall s s' p p' x v x' v', near s s' -> rest s = x ++ v -> rest s' = x' ++ v' -> layout v = layout v' -> near (mkPs p v (stk s)) (mkPs p' v' (stk s')).
  Proof.
    intros s s' p p' x v x' v' (H1 & H2 & H3 & H4 & H5) E E' L. unfold near. cbn [rest stk]. rewrite E in H2. rewrite E' in H3.
    repeat split; try assumption; intro I; [apply H2|apply H3]; apply in_or_app; right; exact I.
  Qed.

  (** what is read one character after another *)
  Definition reads_ink (m : str -> option str) : Prop :=
    forall w k, m w = Some k -> exists x, w = x ++ k /\ forallb inked x = true /\ forall v, m (x ++ v) = Some v.
  Lemma near_take : forall m s s', reads_ink m -> near s s' -> near_res (take s (m (rest s))) (take s' (m (rest s'))).
  Proof.
    intros m s s' Hm H. pose proof H as (L & _). unfold take. destruct (m (rest s)) as [k|] eqn:E.
    - destruct (Hm _ _ E) as (x & Ex & Hx & Hv). rewrite Ex in L. destruct (layout_same_prefix x k (rest s') Hx L) as (v' & Ev & Lv).
      rewrite Ev, Hv. split; [|reflexivity]. unfold advance. eapply near_move; [exact H|exact Ex|exact Ev|exact Lv].
    - destruct (m (rest s')) as [k'|] eqn:E'; [|apply near_not_here, H]. exfalso.
      destruct (Hm _ _ E') as (x & Ex & Hx & Hv). rewrite Ex in L. destruct (layout_same_prefix x k' (rest s) Hx (eq_sym L)) as (v & Ev & _).
      rewrite Ev, Hv in E. discriminate.
  Qed.
  Definition one (p : char -> bool) (w : str) : option str := match w with c :: k => if p c then Some k else None | [] => None end.
  Lemma take_one : forall p s, take_char (R := rule) p s = take s (one p (rest s)).
  Proof. intros p s. unfold take_char, one. destruct (rest s) as [|c k]; [reflexivity|]. destruct (p c); reflexivity. Qed.
  Lemma reads_one : forall p, (forall c, p c = true -> white_space c = false) -> reads_ink (one p).
  Proof.
    intros p Hp [|c w] k H; [discriminate|]. cbn in H. destruct (p c) eqn:E; [|discriminate]. injection H as <-. exists [c]. split; [reflexivity|].
    cbn. unfold inked. rewrite (Hp c E), E. split; reflexivity.
  Qed.
  Lemma reads_str : forall l, forallb inked l = true -> reads_ink (strip_prefix l).
  Proof.
    intros l Hl w k H. apply strip_prefix_app in H. exists l. split; [exact H|]. split; [exact Hl|]. intro v. apply strip_prefix_app. reflexivity.
  Qed.
  Lemma white_lower : forall c, white_space c = true -> ascii_lower c = c.
  Proof.
    intros c H. unfold ascii_lower. destruct (_ && _)%bool eqn:E; [|reflexivity]. exfalso. apply andb_prop in E as [E1 E2]. apply N.leb_le in E1, E2.
    apply white_blanks in H. unfold blanks in H. cbn [In] in H. lia.
  Qed.
  Lemma reads_insens : forall l, forallb (fun a => inked (ascii_lower a)) l = true -> reads_ink (strip_prefix_insensitive l).
  Proof.
    induction l as [|a l IH]; intros Hl w k H.
    - cbn in H. injection H as <-. exists []. split; [reflexivity|]. split; [reflexivity|]. intro v. destruct v; reflexivity.
    - destruct w as [|b w]; [discriminate|]. cbn [strip_prefix_insensitive forallb] in *. apply andb_prop in Hl as [Ha Hl].
      destruct (N.eqb_spec (ascii_lower a) (ascii_lower b)) as [E|]; [|discriminate]. destruct (IH Hl w k H) as (x & -> & Hx & Hv).
      exists (b :: x). split; [reflexivity|]. split.
      + cbn [forallb]. rewrite Hx, andb_true_r. unfold inked in *. apply negb_true_iff. destruct (white_space b) eqn:W; [|reflexivity].
        rewrite E, (white_lower b W), W in Ha. discriminate.
      + intro v. cbn [app strip_prefix_insensitive]. rewrite E, N.eqb_refl. apply Hv.
  Qed.

  (** ** Expressions that read white space only in whole gaps *)
  Definition ordinary (r : rule) : bool :=
    match r with
    | R_WHITESPACE | R_ANY | R_NEWLINE | R_WHITE_SPACE | R_PEEK | R_POP | R_SOI | R_StringNormal | R_StringBlock | R_StringText | R_program => false
    | _ => true
    end.
  Definition wordy (a : pexp rule) : Prop :=
    forall f k q s s1 t, run f a k q s = POk s1 t -> exists x, rest s = x ++ rest s1 /\ forallb inked x = true.
  Definition headed (a : pexp rule) : Prop :=
    forall f k s s1 t, emits k false = true -> run f a k false s = POk s1 t -> exists h l, t = h :: l /\ t_rule h = R_Symbol.
  Definition inside_comment : pexp rule :=
    ERep (EElse (ECall R_MultiLineComment) (ESeq (EThen (ENot (EStr (lit "%%%"))) (ECall R_ANY)))).
  Inductive tame : pexp rule -> Prop :=
  | tame_str : forall l, forallb inked l = true -> tame (EStr l)
  | tame_insens : forall l, forallb (fun a => inked (ascii_lower a)) l = true -> tame (EInsens l)
  | tame_range : forall a b, forallb inked (range a b) = true -> tame (ERange a b)
  | tame_class : forall k, k <> WhiteSpace -> tame (EClass k)
  | tame_eoi : tame EEoi
  | tame_then : forall a b, tame a -> tame b -> tame (EThen a b)
  | tame_else : forall a b, tame a -> tame b -> tame (EElse a b)
  | tame_seq : forall a, tame a -> tame (ESeq a)
  | tame_opt : forall a, tame a -> tame (EOpt a)
  | tame_rep : forall a, tame a -> tame (ERep a)
  | tame_restore : forall a, tame a -> tame (ERestore a)
  | tame_not : forall a, tame a -> tame (ENot a)
  | tame_rule : forall r a, tame a -> (worded r = true -> wordy a) -> (r = R_apply_call -> headed a) -> tame (ERule r a)
  | tame_atomic : forall k a, tame a -> tame (EAtomic k a)
  | tame_call : forall r, ordinary r = true -> tame (ECall r)
  | tame_skip : tame ESkip
  | tame_string : forall r, r = R_StringNormal \/ r = R_StringBlock -> tame (ECall r)
  | tame_white : tame (ERep (ECall R_WHITESPACE))
  | tame_inline : tame inline_rep
  | tame_line : tame comment_rest
  | tame_comment : tame inside_comment.

  (** ** The gaps *)
  Lemma ev_out : forall e k q s r r' f, ev e k q s r -> run f e k q s = r' -> r' <> PFuel -> r' = r.
  Proof. intros e k q s r r' f H E N. rewrite <- E. apply (ev_run U grammar skip_body); [exact H|congruence]. Qed.
  Lemma ev_in : forall e k q s r, ev e k q s r -> exists f, run f e k q s = r.
  Proof. intros e k q s r [_ H]. exact H. Qed.
  Lemma gap_sim : forall e f k q s s' r (P : char -> bool),
    (forall l p w st, forallb P l = true -> head_is P w = false -> ev e k q (mkPs p (l ++ w) st) (POk (mkPs (p + length l) w st) [])) ->
    (exists l v l' v', rest s = l ++ v /\ rest s' = l' ++ v' /\ forallb P l = true /\ forallb P l' = true /\ head_is P v = false /\ head_is P v' = false /\ layout v = layout v') ->
    near s s' -> run f e k q s = r -> r <> PFuel -> exists f' r', run f' e k q s' = r' /\ near_res r r'.
  Proof.
    intros e f k q s s' r P He (l & v & l' & v' & E & E' & Hl & Hl' & Hv & Hv' & L) H Er N.
    pose proof (He l (pos s) v (stk s) Hl Hv) as X. pose proof (He l' (pos s') v' (stk s') Hl' Hv') as X'.
    rewrite <- E in X. rewrite <- E' in X'. destruct s as [p w st], s' as [p' w' st']. cbn [pos rest stk] in *.
    pose proof (ev_out _ _ _ _ _ _ _ X Er N) as ->. destruct (ev_in _ _ _ _ _ X') as [f' Ef]. exists f'. eexists. split; [exact Ef|].
    apply near_here. apply (near_move (mkPs p w st) (mkPs p' w' st') _ _ l v l' v' H E E' L).
  Qed.
  Lemma white_reps : forall k q l p w st, forallb white_space l = true -> head_is white_space w = false ->
    ev (ERep (ECall R_WHITESPACE)) k q (mkPs p (l ++ w) st) (POk (mkPs (p + length l) w st) []).
  Proof.
    intros k q l p w st Hl Hw. pose proof (white_rep U k q _ (l ++ w) p st (Nat.le_refl _)) as X.
    assert (D : drop_white (l ++ w) = w).
    { rewrite drop_white_app; [|apply white_Forall, Hl]. apply drop_white_stop. destruct w; [exact I|exact Hw]. }
    rewrite D in X. eapply ok_pos; [exact X|]. rewrite app_length. lia.
  Qed.
  Lemma no_quote : forall w k, ~ In 34%N w -> strip_prefix [34%N] w = Some k -> False.
  Proof. intros w k H E. apply strip_prefix_app in E. apply H. rewrite E. left. reflexivity. Qed.
  Lemma er_quote : forall k q p w st, ~ In 34%N w -> fails (ECall R_Quotation) k q (mkPs p w st).
  Proof.
    intros k q p w st H. apply er_call, er_rule, er_atomic, er_str. destruct (strip_prefix [34%N] w) as [x|] eqn:E; [|reflexivity].
    exfalso. apply (no_quote _ _ H E).
  Qed.
  Lemma er_strings : forall r k q s, r = R_StringNormal \/ r = R_StringBlock -> ~ In 34%N (rest s) -> fails (ECall r) k q s.
  Proof.
    intros r k q [p w st] [->| ->] H; cbn [rest] in H; apply er_call.
    - apply er_rule, er_atomic, er_seq0. do 2 apply er_then. apply er_quote, H.
    - apply er_atomic, er_rule, er_seq0. do 6 apply er_then. apply er_seq0. do 2 apply er_then. apply er_quote, H.
  Qed.

  (** inside a comment, white space is passed one character after another *)
  Notation in_comment_item := (EElse (ECall R_MultiLineComment) (ESeq (EThen (ENot (EStr (lit "%%%"))) (ECall R_ANY)))).
  Lemma item_white : forall k q p c w st, strip_prefix (lit "%%%") (c :: w) = None -> ev in_comment_item k q (mkPs p (c :: w) st) (POk (mkPs (p + 1) w st) []).
  Proof.
    intros k q p c w st H. apply ev_else_err.
    - apply er_call, er_atomic, er_rule, er_seq0. do 2 apply er_then. apply er_str, H.
    - apply ok_seq. eapply ok_then0; [eapply ok_not, er_str, H|]. apply ev_call, ev_any.
  Qed.
  Lemma no_mark : forall c w, white_space c = true -> strip_prefix (lit "%%%") (c :: w) = None.
  Proof. intros c w H. apply strip_head. intros <-. discriminate. Qed.
  Lemma comment_gap : forall k q g f p v st r, forallb white_space g = true -> run f inside_comment k q (mkPs p (g ++ v) st) = r -> r <> PFuel ->
    exists f', f' <= f /\ (g <> [] -> f' < f) /\ run f' inside_comment k q (mkPs (p + length g) v st) = r.
  Proof.
    induction g as [|c g IH]; intros f p v st r Hg E N.
    - exists f. cbn [length]. rewrite Nat.add_0_r. repeat split; [lia|congruence|exact E].
    - cbn [forallb] in Hg. apply andb_prop in Hg as [Hc Hg]. destruct f as [|f]; [cbn in E; congruence|]. unfold inside_comment in E. cbn [Peg.run] in E.
      fold run in E. cbn [app] in E.
      pose proof (item_white k q p c (g ++ v) st (no_mark c _ Hc)) as X.
      destruct (run f in_comment_item k q (mkPs p (c :: g ++ v) st)) as [s1 t1|s1 t1| |] eqn:E1; try (pose proof (ev_out _ _ _ _ _ _ _ X E1 ltac:(discriminate)) as D; discriminate D).
      + pose proof (ev_out _ _ _ _ _ _ _ X E1 ltac:(discriminate)) as D. injection D as -> ->.
        assert (E2 : run f inside_comment k q (mkPs (p + 1) (g ++ v) st) = r).
        { rewrite <- E. unfold inside_comment. destruct (run f _ k q (mkPs (p + 1) (g ++ v) st)); reflexivity. }
        destruct (IH f (p + 1) v st r Hg E2 N) as (f' & L & _ & E3). exists f'. split; [lia|]. split; [lia|].
        cbn [length]. replace (p + S (length g)) with (p + 1 + length g) by lia. exact E3.
      + congruence.
  Qed.
  Lemma comment_gap_back : forall k q g p v st r, forallb white_space g = true -> ev inside_comment k q (mkPs (p + length g) v st) r ->
    ev inside_comment k q (mkPs p (g ++ v) st) r.
  Proof.
    induction g as [|c g IH]; intros p v st r Hg E.
    - cbn [length app] in *. rewrite Nat.add_0_r in E. exact E.
    - cbn [forallb] in Hg. apply andb_prop in Hg as [Hc Hg]. cbn [app].
      assert (E2 : ev inside_comment k q (mkPs (p + 1) (g ++ v) st) r).
      { apply IH; [exact Hg|]. cbn [length] in E. replace (p + S (length g)) with (p + 1 + length g) in E by lia. exact E. }
      pose proof (item_white k q p c (g ++ v) st (no_mark c _ Hc)) as X. destruct X as [_ [f1 X]]. destruct E2 as [N [f2 E2]].
      split; [exact N|]. exists (S (Nat.max f1 f2)). unfold inside_comment. cbn [Peg.run]. fold run.
      rewrite (run_mono U grammar skip_body f1 (Nat.max f1 f2) _ _ _ _ _ X) by (try discriminate; lia).
      fold inside_comment. rewrite (run_mono U grammar skip_body f2 (Nat.max f1 f2) _ _ _ _ _ E2) by (try assumption; lia). destruct r; reflexivity.
  Qed.

  (** ** The simulation *)
  Definition follows (f : nat) : Prop := forall e k q s s' r, tame e -> near s s' -> run f e k q s = r -> r <> PFuel ->
    exists f' r', run f' e k q s' = r' /\ near_res r r'.

  Lemma range_ink : forall a b c, forallb inked (range a b) = true -> ((a <=? c) && (c <=? b))%N = true -> white_space c = false.
  Proof.
    intros a b c H E. apply andb_prop in E as [E1 E2]. apply N.leb_le in E1, E2. rewrite forallb_forall in H.
    apply negb_true_iff. apply H. apply range_in; assumption.
  Qed.
  Lemma class_ink : forall k c, k <> WhiteSpace -> in_class U k c = true -> white_space c = false.
  Proof.
    intros k c Hk H. destruct (white_space c) eqn:W; [|reflexivity]. exfalso. destruct (HU c) as [X Y]; [rewrite W; apply orb_true_r|].
    destruct k; cbn in H; congruence.
  Qed.
  Lemma word_node : forall r a f k q s s' s1 t1 s1' t1' f',
    (worded r = true -> wordy a) -> (r = R_apply_call -> headed a) -> run f a k q s = POk s1 t1 -> run f' a k q s' = POk s1' t1' -> emits k q = true ->
    near s s' -> near s1 s1' -> map shade t1 = map shade t1' ->
    word_of r (consumed (rest s) (rest s1)) t1 = word_of r (consumed (rest s') (rest s1')) t1'.
  Proof.
    intros r a f k q s s' s1 t1 s1' t1' f' Hw Hh E E' K (L & _) (L1 & _) M. unfold word_of. destruct (worded r) eqn:W.
    - destruct (Hw eq_refl _ _ _ _ _ _ E) as (x & Ex & Hx). destruct (Hw eq_refl _ _ _ _ _ _ E') as (x' & Ex' & Hx').
      rewrite Ex, Ex', !consumed_app. rewrite Ex, Ex', !layout_inks in L by assumption. rewrite L1 in L. apply app_inv_tail in L. exact L.
    - destruct r; try reflexivity. assert (Q : q = false) by (destruct k, q; cbn in K; congruence). subst q.
      destruct (Hh eq_refl _ _ _ _ _ K E) as (h & l & -> & Eh). destruct (Hh eq_refl _ _ _ _ _ K E') as (h' & l' & -> & Eh').
      cbn [map] in M. injection M as M _. apply same_text; [exact M|rewrite Eh; reflexivity].
  Qed.

  (** ** The grammar *)
  Definition ink_class (k : uclass) : bool := match k with WhiteSpace => false | _ => true end.
  Lemma ink_class_sound : forall k c, ink_class k = true -> in_class U k c = true -> inked c = true.
  Proof. intros k c H Hc. unfold inked. apply negb_true_iff. apply (class_ink k); [intros ->; discriminate|exact Hc]. Qed.
  Lemma wordy_chars : forall d a, chars grammar inked ink_class d a = true -> wordy a.
  Proof.
    intros d a H f k q s s1 t E. pose proof (chars_sound U grammar skip_body inked ink_class ink_class_sound f d a k q s H) as X. rewrite E in X. exact X.
  Qed.
  Lemma wordy_insens : forall l, forallb (fun a => inked (ascii_lower a)) l = true -> wordy (EInsens l).
  Proof.
    intros l Hl f k q s s1 t E. destruct f as [|f]; [discriminate E|]. cbn [Peg.run] in E. unfold take in E.
    destruct (strip_prefix_insensitive l (rest s)) as [w|] eqn:X; [|discriminate E]. injection E as <- _.
    destruct (reads_insens l Hl _ _ X) as (x & Ex & Hx & _). exists x. split; [exact Ex|exact Hx].
  Qed.
  Lemma wordy_then : forall a b, wordy a -> wordy b -> wordy (EThen a b).
  Proof.
    intros a b Ha Hb f k q s s1 t E. destruct f as [|f]; [discriminate E|]. cbn [Peg.run] in E. fold run in E.
    destruct (run f a k q s) as [s2 t2| | |] eqn:E1; try discriminate E. destruct (run f b k q s2) as [s3 t3| | |] eqn:E2; try discriminate E. injection E as <- _.
    destruct (Ha _ _ _ _ _ _ E1) as (x & Ex & Hx). destruct (Hb _ _ _ _ _ _ E2) as (y & Ey & Hy). exists (x ++ y). rewrite Ex, Ey, app_assoc, forallb_app, Hx, Hy.
    split; reflexivity.
  Qed.
  (** what is read after a failed sequence is read from the same place *)
  Lemma wordy_seq : forall a, wordy a -> wordy (ESeq a).
  Proof.
    intros a Ha f k q s s1 t E. destruct f as [|f]; [discriminate E|]. cbn [Peg.run] in E. fold run in E.
    destruct (run f a k q s) as [s2 t2| | |] eqn:E1; try discriminate E. injection E as <- _. apply (Ha _ _ _ _ _ _ E1).
  Qed.
  Definition backs (a : pexp rule) : Prop := forall f k q s s1 t, run f a k q s = PErr s1 t -> rest s1 = rest s.
  Lemma backs_seq : forall a, backs (ESeq a).
  Proof.
    intros a f k q s s1 t E. destruct f as [|f]; [discriminate E|]. cbn [Peg.run] in E. fold run in E.
    destruct (run f a k q s) as [s2 t2|s2 t2| |] eqn:E1; try discriminate E. injection E as <- _. reflexivity.
  Qed.
  Lemma backs_else : forall a b, backs a -> backs b -> backs (EElse a b).
  Proof.
    intros a b Ha Hb f k q s s1 t E. destruct f as [|f]; [discriminate E|]. cbn [Peg.run] in E. fold run in E.
    destruct (run f a k q s) as [s2 t2|s2 t2| |] eqn:E1; try discriminate E. destruct (run f b k q s2) as [s3 t3|s3 t3| |] eqn:E2; try discriminate E. injection E as <- _.
    rewrite (Hb _ _ _ _ _ _ E2). apply (Ha _ _ _ _ _ _ E1).
  Qed.
  Lemma wordy_else : forall a b, backs a -> wordy a -> wordy b -> wordy (EElse a b).
  Proof.
    intros a b B Ha Hb f k q s s1 t E. destruct f as [|f]; [discriminate E|]. cbn [Peg.run] in E. fold run in E.
    destruct (run f a k q s) as [s2 t2|s2 t2| |] eqn:E1; try discriminate E.
    - injection E as <- _. apply (Ha _ _ _ _ _ _ E1).
    - destruct (run f b k q s2) as [s3 t3|s3 t3| |] eqn:E2; try discriminate E. injection E as <- _. rewrite <- (B _ _ _ _ _ _ E1). apply (Hb _ _ _ _ _ _ E2).
  Qed.
  Lemma wordy_byte : wordy (match grammar R_Byte with EAtomic _ (ERule _ a) => a | e => e end).
  Proof.
    cbn [grammar]. apply wordy_else; [apply backs_else; apply backs_seq|apply wordy_else; [apply backs_seq| |]|].
    all: apply wordy_seq, wordy_then; [apply wordy_then; [apply wordy_insens; reflexivity|]|]; apply (wordy_chars 3); vm_compute; reflexivity.
  Qed.
  Lemma headed_call : headed (match grammar R_apply_call with EAtomic _ (ERule _ a) => a | e => e end).
  Proof.
    intros f k s s1 t K E. cbn [grammar] in E. do 5 (destruct f as [|f]; [discriminate E|]).
    remember (ERep (ERestore (ESeq (EThen (ERep (ESeq (EThen (ENot (ECall R_NEWLINE)) (ECall R_WHITESPACE)))) (ECall R_apply))))) as tl eqn:Et.
    remember (ESeq (EThen (ERep (ESeq (EThen (ENot (ECall R_NEWLINE)) (ECall R_WHITESPACE)))) (ECall R_apply))) as md eqn:Em.
    assert (X : exists s2 t2, run (S (S f)) (ECall R_Symbol) k false s = POk s2 t2 /\ exists u, t = t2 ++ u).
    { change (run (S (S (S (S (S f))))) (ESeq (EThen (EThen (ECall R_Symbol) md) tl)) k false s) with
        (match match match run (S (S f)) (ECall R_Symbol) k false s with POk s1 t1 => prepend t1 (run (S (S f)) md k false s1) | r => r end with
               | POk s1 t1 => prepend t1 (run (S (S (S f))) tl k false s1) | r => r end with PErr s1 _ => PErr (mkPs (pos s) (rest s) (stk s1)) [] | r => r end) in E.
      destruct (run (S (S f)) (ECall R_Symbol) k false s) as [s2 t2| | |]; try discriminate E.
      destruct (run (S (S f)) md k false s2) as [s3 t3| | |]; try discriminate E. cbn [prepend] in E.
      destruct (run (S (S (S f))) tl k false s3) as [s4 t4| | |]; try discriminate E. injection E as _ <-.
      exists s2, t2. split; [reflexivity|]. exists (t3 ++ t4). symmetry. apply app_assoc. }
    destruct X as (s2 & t2 & X & u & ->). destruct f as [|f]; [discriminate X|].
    change (run (S (S (S f))) (ECall R_Symbol) k false s) with
      (match run f (match grammar R_Symbol with EAtomic _ (ERule _ a) => a | e => e end) CompoundAtomic false s with
       | POk s1 t1 => POk s1 [Node R_Symbol (pos s) (pos s1) (consumed (rest s) (rest s1)) t1] | PErr s1 t1 => PErr s1 [] | x => x end) in X.
    destruct (run f _ CompoundAtomic false s) as [s3 t3| | |]; try discriminate X. injection X as _ <-. eexists. eexists. split; reflexivity.
  Qed.
  Ltac tame_go :=
    first [apply tame_white|apply tame_inline|apply tame_line|apply tame_comment
          |apply tame_call; reflexivity|apply tame_string; first [left; reflexivity|right; reflexivity]
          |apply tame_str; reflexivity|apply tame_insens; reflexivity|apply tame_range; reflexivity|apply tame_class; discriminate
          |apply tame_eoi|apply tame_skip
          |apply tame_then; tame_go|apply tame_else; tame_go|apply tame_seq; tame_go|apply tame_opt; tame_go|apply tame_rep; tame_go|apply tame_restore; tame_go
          |apply tame_not; tame_go|apply tame_atomic; tame_go
          |apply tame_rule; [tame_go|intro; first [discriminate|apply wordy_byte|apply (wordy_chars 5); vm_compute; reflexivity]
                            |intro; first [discriminate|apply headed_call]]].
  Lemma grammar_tame : forall r, ordinary r = true -> tame (grammar r).
  Proof. intros r H. destruct r; try discriminate H; clear H; cbn [grammar]; tame_go. Qed.
  Lemma skip_tame : tame skip_body.
  Proof. unfold skip_body. tame_go. Qed.

  Lemma near_stk : forall s s', near s s' -> stk s = [] /\ stk s' = [].
  Proof. intros s s' (_ & _ & _ & H1 & H2). auto. Qed.
  Lemma near_same_stk : forall s s' p p' k k', near s s' -> k = [] -> k' = [] -> near (mkPs p (rest s) k) (mkPs p' (rest s') k').
  Proof. intros s s' p p' k k' (H1 & H2 & H3 & _) -> ->. repeat split; assumption. Qed.
  Ltac up f f' := rewrite (run_mono U grammar skip_body f f') by (try eassumption; try discriminate; lia).

  Notation comment_tail := (ESeq (EThen (ENot (EStr (lit "%%%"))) (ECall R_ANY))).
  Lemma rep_step : forall f k q s, run (S f) inside_comment k q s =
    match run f in_comment_item k q s with POk s1 t1 => prepend t1 (run f inside_comment k q s1) | PErr s1 t1 => POk s1 t1 | r => r end.
  Proof. reflexivity. Qed.
  Lemma item_step : forall f k q s, run (S f) in_comment_item k q s =
    match run f (ECall R_MultiLineComment) k q s with PErr s1 t1 => prepend t1 (run f comment_tail k q s1) | r => r end.
  Proof. reflexivity. Qed.
  Lemma mlc_err : forall f k q p w s t, run f (ECall R_MultiLineComment) k q (mkPs p w []) = PErr s t -> rest s = w /\ t = [].
  Proof.
    intros f k q p w s t X. do 4 (destruct f as [|f]; [discriminate X|]).
    assert (Y : run (S (S (S (S f)))) (ECall R_MultiLineComment) k q (mkPs p w []) =
      match match run f (match grammar R_MultiLineComment with EAtomic _ (ERule _ (ESeq a)) => a | e => e end) CompoundAtomic q (mkPs p w []) with
            | PErr s1 _ => PErr (mkPs p w (stk s1)) [] | r => r end with
      | POk s1 t1 => POk s1 (if emits CompoundAtomic q then [Node R_MultiLineComment p (pos s1) (consumed w (rest s1)) t1] else t1)
      | PErr s1 t1 => PErr s1 (if emits CompoundAtomic q then [] else t1)
      | x => x end) by reflexivity.
    rewrite Y in X. destruct (run f _ CompoundAtomic q (mkPs p w [])) as [s9 t9|s9 t9| |]; try discriminate X.
    injection X as <- <-. split; [reflexivity|]. destruct q; reflexivity.
  Qed.

  Lemma comment_sim : forall n, (forall m, m < n -> follows m) -> forall f k q s s' r, f <= n -> near s s' -> run f inside_comment k q s = r -> r <> PFuel ->
    exists f' r', run f' inside_comment k q s' = r' /\ near_res r r'.
  Proof.
    intros n IH f k q s s' r Hf H E N. pose proof H as (L & Q & Q' & K & K').
    destruct s as [p w st], s' as [p' w' st']. cbn [rest stk] in *. subst st st'.
    destruct (layout_paired _ _ L) as [|c v v' Hc Hv|g g' v v' Ng Ng' Hgw Hgw' Hb Hv Hv' Lv].
    - destruct f as [|f]; [cbn in E; congruence|]. unfold inside_comment in *. 
      assert (X : forall p, ev inside_comment k q (mkPs p [] []) (POk (mkPs p [] []) [])).
      { intro p0. apply no_rep, er_else.
        - apply er_call, er_atomic, er_rule, er_seq0. do 2 apply er_then. apply er_str. reflexivity.
        - apply er_seq0. apply ok_then0 with (s1 := mkPs p0 [] []); [eapply ok_not, er_str; reflexivity|]. apply er_call.
          apply (ev_char_err U grammar skip_body EAny (fun _ => true)); [reflexivity|]. discriminate. }
      pose proof (ev_out _ _ _ _ _ _ _ (X p) E N) as ->. destruct (ev_in _ _ _ _ _ (X p')) as [f' E']. exists f'. eexists. split; [exact E'|apply near_here, H].
    - destruct f as [|f]; [cbn in E; congruence|]. pose proof (IH f ltac:(lia)) as IHf.
      destruct (strip_prefix (lit "%%%") (c :: v)) as [z|] eqn:Z.
      + (* a comment opens, or the comment ends *)
        rewrite rep_step in E. destruct f as [|f]; [cbn in E; congruence|]. rewrite item_step in E.
        destruct (run f (ECall R_MultiLineComment) k q (mkPs p (c :: v) [])) as [s1 t1|s1 t1| |] eqn:E1.
        * destruct (IH f ltac:(lia) _ k q _ _ _ (tame_call R_MultiLineComment eq_refl) H E1 ltac:(discriminate)) as (f1 & r1 & F1 & R1).
          destruct r1 as [s1' t1'|s1' t1'| |]; cbn in R1; try contradiction. destruct R1 as [R1 M1].
          destruct (run (S f) inside_comment k q s1) as [s2 t2|s2 t2| |] eqn:E2; try (cbn in E; congruence).
          all: destruct (IHf _ k q _ _ _ tame_comment R1 E2 ltac:(discriminate)) as (f2 & r2 & F2 & R2).
          all: exists (S (S (Nat.max f1 f2))), (prepend t1' r2); (split; [|subst r; exact (near_prepend t1 t1' _ r2 M1 R2)]).
          all: rewrite rep_step, item_step, (run_mono U grammar skip_body f1 (Nat.max f1 f2) _ _ _ _ _ F1) by (try discriminate; lia).
          all: rewrite (run_mono U grammar skip_body f2 (S (Nat.max f1 f2)) _ _ _ _ _ F2) by (try (apply (near_fuel _ _ R2)); lia); reflexivity.
        * destruct (IH f ltac:(lia) _ k q _ _ _ (tame_call R_MultiLineComment eq_refl) H E1 ltac:(discriminate)) as (f1 & r1 & F1 & R1).
          destruct r1 as [s1' t1'|s1' t1'| |]; cbn in R1; try contradiction. destruct R1 as [R1 M1].
          (* the comment failed without moving *)
          destruct (mlc_err _ _ _ _ _ _ _ E1) as [W1 ->]. destruct (mlc_err _ _ _ _ _ _ _ F1) as [W1' ->].
          assert (Y : forall s0 w0, rest s0 = w0 -> (exists z0, strip_prefix (lit "%%%") w0 = Some z0) -> fails comment_tail k q s0).
          { intros [p0 w1 st0] w0 Ew [z0 Hz]. cbn in Ew. subst w1. apply er_seq0, er_then. apply strip_prefix_app in Hz. subst w0. eapply er_not. apply ev_str. }
          assert (Z' : exists z0, strip_prefix (lit "%%%") (c :: v') = Some z0).
          { apply strip_prefix_app in Z. destruct (layout_same_prefix (lit "%%%") z (c :: v') eq_refl) as (u & -> & _); [rewrite <- Z; exact L|].
            exists u. apply strip_prefix_app. reflexivity. }
          pose proof (Y s1 (c :: v) W1 (ex_intro _ z Z)) as Y1. pose proof (Y s1' (c :: v') W1' Z') as Y1'.
          destruct (run f comment_tail k q s1) as [s2 t2|s2 t2| |] eqn:E2; try (cbn in E; congruence);
            pose proof (ev_out _ _ _ _ _ _ _ Y1 E2 ltac:(discriminate)) as D; try discriminate D. injection D as -> ->. cbn [prepend app] in E. subst r.
          destruct (ev_in _ _ _ _ _ Y1') as [f2 F2]. exists (S (S (Nat.max f1 f2))), (POk s1' []). split; [|apply near_here, R1].
          rewrite rep_step, item_step, (run_mono U grammar skip_body f1 (Nat.max f1 f2) _ _ _ _ _ F1) by (try discriminate; lia).
          cbn [prepend]. rewrite (run_mono U grammar skip_body f2 (Nat.max f1 f2) _ _ _ _ _ F2) by (try discriminate; lia). reflexivity.
        * destruct (IH f ltac:(lia) _ k q _ _ _ (tame_call R_MultiLineComment eq_refl) H E1 ltac:(discriminate)) as (f1 & r1 & F1 & R1).
          destruct r1; cbn in R1; try contradiction. exists (S (S f1)), PPanic. subst r. split; [|exact I]. rewrite rep_step, item_step, F1. reflexivity.
        * congruence.
      + (* one character *)
        assert (Z' : strip_prefix (lit "%%%") (c :: v') = None).
        { destruct (strip_prefix (lit "%%%") (c :: v')) as [z'|] eqn:Z'; [|reflexivity]. exfalso. apply strip_prefix_app in Z'.
          destruct (layout_same_prefix (lit "%%%") z' (c :: v) eq_refl) as (u & Eu & _); [rewrite <- Z'; symmetry; exact L|].
          apply strip_prefix_app in Eu. congruence. }
        pose proof (item_white k q p c v [] Z) as X. pose proof (item_white k q p' c v' [] Z') as X'.
        rewrite rep_step in E.
        destruct (run f in_comment_item k q (mkPs p (c :: v) [])) as [s1 t1|s1 t1| |] eqn:E1; try (cbn in E; congruence);
          pose proof (ev_out _ _ _ _ _ _ _ X E1 ltac:(discriminate)) as D; try discriminate D. injection D as -> ->.
        assert (H1 : near (mkPs (p + 1) v []) (mkPs (p' + 1) v' [])).
        { apply (near_move (mkPs p (c :: v) []) (mkPs p' (c :: v') []) _ _ [c] v [c] v' H eq_refl eq_refl Hv). }
        assert (E2 : run f inside_comment k q (mkPs (p + 1) v []) = r).
        { rewrite <- E. destruct (run f inside_comment k q (mkPs (p + 1) v [])); reflexivity. }
        destruct (IHf _ k q _ _ _ tame_comment H1 E2 N) as (f2 & r2 & F2 & R2).
        destruct X' as [_ [f1 F1]]. exists (S (Nat.max f1 f2)), r2. split; [|exact R2].
        rewrite rep_step.
        rewrite (run_mono U grammar skip_body f1 (Nat.max f1 f2) _ _ _ _ _ F1) by (try discriminate; lia).
        rewrite (run_mono U grammar skip_body f2 (Nat.max f1 f2) _ _ _ _ _ F2) by (try (apply (near_fuel _ _ R2)); lia). destruct r2; reflexivity.
    - destruct (comment_gap k q g f p v [] r Hgw E N) as (f1 & L1 & L2 & E1). specialize (L2 Ng).
      assert (H1 : near (mkPs (p + length g) v []) (mkPs (p' + length g') v' [])).
      { apply (near_move (mkPs p (g ++ v) []) (mkPs p' (g' ++ v') []) _ _ g v g' v' H eq_refl eq_refl Lv). }
      destruct (IH f1 ltac:(lia) _ k q _ _ _ tame_comment H1 E1 N) as (f2 & r2 & F2 & R2).
      assert (X : ev inside_comment k q (mkPs p' (g' ++ v') []) r2).
      { apply comment_gap_back; [exact Hgw'|]. apply (ev_base U grammar skip_body _ _ _ _ _ _ F2). apply (near_fuel _ _ R2). }
      destruct (ev_in _ _ _ _ _ X) as [f3 F3]. exists f3, r2. split; [exact F3|exact R2].
  Qed.

  Theorem run_follows : forall f, follows f.
  Proof.
    induction f as [f IH] using lt_wf_ind. intros e k q s s' r He H E N.
    destruct He as [l Hl|l Hl|a b Hl|c Hc| |a b Ha Hb|a b Ha Hb|a Ha|a Ha|a Ha|a Ha|a Ha|x a Ha Hw Hh|k' a Ha|x Hx| |x Hx| | | |].
    all: try (destruct f as [|f]; [cbn in E; congruence|]; cbn [Peg.run] in E; fold run in E; assert (Lf : f < S f) by lia; pose proof (IH f Lf) as IHf).
    - exists 1. eexists. split; [reflexivity|]. subst r. cbn [Peg.run]. apply near_take; [apply reads_str, Hl|exact H].
    - exists 1. eexists. split; [reflexivity|]. subst r. cbn [Peg.run]. apply near_take; [apply reads_insens, Hl|exact H].
    - exists 1. eexists. split; [reflexivity|]. subst r. cbn [Peg.run]. rewrite !take_one. apply near_take; [|exact H]. apply reads_one.
      intro c. apply range_ink, Hl.
    - exists 1. eexists. split; [reflexivity|]. subst r. cbn [Peg.run]. rewrite !take_one. apply near_take; [|exact H]. apply reads_one.
      intro d. apply class_ink, Hc.
    - exists 1. eexists. split; [reflexivity|]. subst r. cbn [Peg.run]. pose proof H as (L & _).
      destruct (layout_paired _ _ L) as [|c v v' _ _|g g' v v' Ng Ng' _ _ _ _ _ _]; [apply near_here, H|apply near_not_here, H|].
      destruct g; [congruence|]. destruct g'; [congruence|]. apply near_not_here, H.
    - (* EThen *)
      destruct (run f a k q s) as [s1 t1|s1 t1| |] eqn:E1; try congruence; destruct (IHf _ _ _ _ _ _ Ha H E1 ltac:(discriminate)) as (f1 & r1 & F1 & R1);
        destruct r1 as [s1' t1'|s1' t1'| |]; cbn in R1; try contradiction.
      + destruct R1 as [R1 M1]. destruct (run f b k q s1) as [s2 t2|s2 t2| |] eqn:E2; try (cbn in E; congruence);
          destruct (IHf _ _ _ _ _ _ Hb R1 E2 ltac:(discriminate)) as (f2 & r2 & F2 & R2);
          exists (S (Nat.max f1 f2)), (prepend t1' r2); (split; [|subst r; exact (near_prepend t1 t1' _ r2 M1 R2)]); cbn [Peg.run]; fold run;
          rewrite (run_mono U grammar skip_body f1 (Nat.max f1 f2) _ _ _ _ _ F1) by (try discriminate; lia);
          rewrite (run_mono U grammar skip_body f2 (Nat.max f1 f2) _ _ _ _ _ F2) by (try (apply (near_fuel _ _ R2)); lia); reflexivity.
      + exists (S f1), (PErr s1' t1'). cbn [Peg.run]. rewrite F1. split; [reflexivity|]. subst r. exact R1.
      + exists (S f1), PPanic. cbn [Peg.run]. rewrite F1. split; [reflexivity|]. subst r. exact I.
    - (* EElse *)
      destruct (run f a k q s) as [s1 t1|s1 t1| |] eqn:E1; try congruence; destruct (IHf _ _ _ _ _ _ Ha H E1 ltac:(discriminate)) as (f1 & r1 & F1 & R1);
        destruct r1 as [s1' t1'|s1' t1'| |]; cbn in R1; try contradiction.
      + exists (S f1), (POk s1' t1'). cbn [Peg.run]. rewrite F1. split; [reflexivity|]. subst r. exact R1.
      + destruct R1 as [R1 M1]. destruct (run f b k q s1) as [s2 t2|s2 t2| |] eqn:E2; try (cbn in E; congruence);
          destruct (IHf _ _ _ _ _ _ Hb R1 E2 ltac:(discriminate)) as (f2 & r2 & F2 & R2);
          exists (S (Nat.max f1 f2)), (prepend t1' r2); (split; [|subst r; exact (near_prepend t1 t1' _ r2 M1 R2)]); cbn [Peg.run]; fold run;
          rewrite (run_mono U grammar skip_body f1 (Nat.max f1 f2) _ _ _ _ _ F1) by (try discriminate; lia);
          rewrite (run_mono U grammar skip_body f2 (Nat.max f1 f2) _ _ _ _ _ F2) by (try (apply (near_fuel _ _ R2)); lia); reflexivity.
      + exists (S f1), PPanic. cbn [Peg.run]. rewrite F1. split; [reflexivity|]. subst r. exact I.
    - (* ESeq *)
      destruct (run f a k q s) as [s1 t1|s1 t1| |] eqn:E1; try congruence; destruct (IHf _ _ _ _ _ _ Ha H E1 ltac:(discriminate)) as (f1 & r1 & F1 & R1);
        destruct r1 as [s1' t1'|s1' t1'| |]; cbn in R1; try contradiction; exists (S f1); eexists; cbn [Peg.run]; rewrite F1; (split; [reflexivity|]); subst r.
      + exact R1.
      + destruct R1 as [R1 _]. destruct (near_stk _ _ R1) as [K K']. split; [|reflexivity]. apply near_same_stk; assumption.
      + exact I.
    - (* EOpt *)
      destruct (run f a k q s) as [s1 t1|s1 t1| |] eqn:E1; try congruence; destruct (IHf _ _ _ _ _ _ Ha H E1 ltac:(discriminate)) as (f1 & r1 & F1 & R1);
        destruct r1 as [s1' t1'|s1' t1'| |]; cbn in R1; try contradiction; exists (S f1); eexists; cbn [Peg.run]; rewrite F1; (split; [reflexivity|]); subst r; exact R1.
    - (* ERep *)
      destruct (run f a k q s) as [s1 t1|s1 t1| |] eqn:E1; try congruence; destruct (IHf _ _ _ _ _ _ Ha H E1 ltac:(discriminate)) as (f1 & r1 & F1 & R1);
        destruct r1 as [s1' t1'|s1' t1'| |]; cbn in R1; try contradiction.
      + destruct R1 as [R1 M1]. destruct (run f (ERep a) k q s1) as [s2 t2|s2 t2| |] eqn:E2; try (cbn in E; congruence);
          destruct (IHf _ _ _ _ _ _ (tame_rep a Ha) R1 E2 ltac:(discriminate)) as (f2 & r2 & F2 & R2);
          exists (S (Nat.max f1 f2)), (prepend t1' r2); (split; [|subst r; exact (near_prepend t1 t1' _ r2 M1 R2)]); cbn [Peg.run]; fold run;
          rewrite (run_mono U grammar skip_body f1 (Nat.max f1 f2) _ _ _ _ _ F1) by (try discriminate; lia);
          rewrite (run_mono U grammar skip_body f2 (Nat.max f1 f2) _ _ _ _ _ F2) by (try (apply (near_fuel _ _ R2)); lia); reflexivity.
      + exists (S f1), (POk s1' t1'). cbn [Peg.run]. rewrite F1. split; [reflexivity|]. subst r. exact R1.
      + exists (S f1), PPanic. cbn [Peg.run]. rewrite F1. split; [reflexivity|]. subst r. exact I.
    - (* ERestore *)
      destruct (run f a k q s) as [s1 t1|s1 t1| |] eqn:E1; try congruence; destruct (IHf _ _ _ _ _ _ Ha H E1 ltac:(discriminate)) as (f1 & r1 & F1 & R1);
        destruct r1 as [s1' t1'|s1' t1'| |]; cbn in R1; try contradiction; exists (S f1); eexists; cbn [Peg.run]; rewrite F1; (split; [reflexivity|]); subst r.
      + exact R1.
      + destruct R1 as [R1 M1]. destruct (near_stk _ _ H) as [K K']. split; [|exact M1]. apply near_same_stk; assumption.
      + exact I.
    - (* ENot *)
      destruct (run f a k true s) as [s1 t1|s1 t1| |] eqn:E1; try congruence; destruct (IHf _ _ _ _ _ _ Ha H E1 ltac:(discriminate)) as (f1 & r1 & F1 & R1);
        destruct r1 as [s1' t1'|s1' t1'| |]; cbn in R1; try contradiction; exists (S f1); eexists; cbn [Peg.run]; rewrite F1; (split; [reflexivity|]); subst r;
        first [apply near_here, H|apply near_not_here, H|exact I].
    - (* ERule *)
      destruct (run f a k q s) as [s1 t1|s1 t1| |] eqn:E1; try congruence; destruct (IHf _ _ _ _ _ _ Ha H E1 ltac:(discriminate)) as (f1 & r1 & F1 & R1);
        destruct r1 as [s1' t1'|s1' t1'| |]; cbn in R1; try contradiction; exists (S f1); eexists; cbn [Peg.run]; rewrite F1; (split; [reflexivity|]); subst r.
      + destruct R1 as [R1 M1]. split; [exact R1|]. destruct (emits k q) eqn:K; [|exact M1]. cbn [map shade]. rewrite M1. do 2 f_equal.
        eapply word_node; eassumption.
      + destruct R1 as [R1 M1]. split; [exact R1|]. destruct (emits k q); [reflexivity|exact M1].
      + exact I.
    - (* EAtomic *)
      destruct (IHf _ _ _ _ _ _ Ha H E N) as (f1 & r1 & F1 & R1). exists (S f1), r1. split; [exact F1|exact R1].
    - (* ECall *)
      destruct (IHf _ _ _ _ _ _ (grammar_tame x Hx) H E N) as (f1 & r1 & F1 & R1). exists (S f1), r1. split; [exact F1|exact R1].
    - (* ESkip *)
      destruct k.
      + destruct (IHf _ _ _ _ _ _ skip_tame H E N) as (f1 & r1 & F1 & R1). exists (S f1), r1. split; [exact F1|exact R1].
      + exists 1. eexists. split; [reflexivity|]. subst r. apply near_here, H.
      + exists 1. eexists. split; [reflexivity|]. subst r. apply near_here, H.
    - (* strings *)
      pose proof H as (_ & Q & Q' & _). pose proof (er_strings x k q s Hx Q) as X. pose proof (er_strings x k q s' Hx Q') as X'.
      assert (E0 : run (S f) (ECall x) k q s = r) by exact E. pose proof (ev_out _ _ _ _ _ _ _ X E0 N) as ->. destruct (ev_in _ _ _ _ _ X') as [f' F'].
      exists f'. eexists. split; [exact F'|apply near_not_here, H].
    - (* white space *)
      eapply (gap_sim _ (S f) k q s s' r white_space); [intros; apply white_reps; assumption|apply white_cut, H|exact H|exact E|exact N].
    - eapply (gap_sim _ (S f) k q s s' r inline_space); [intros; apply inline_rep_ok; assumption|apply inline_cut, H|exact H|exact E|exact N].
    - eapply (gap_sim _ (S f) k q s s' r in_line); [intros; apply comment_rest_ok; assumption|apply (line_cut _ _ _ (Nat.le_refl _)), H|exact H|exact E|exact N].
    - eapply (comment_sim (S f) IH (S f)); [lia|exact H|exact E|exact N].
  Qed.

  (** ** Texts *)
  Lemma rest_tame : tame program_rest.
  Proof. unfold program_rest, program_body. tame_go. Qed.
  Lemma ev_follows : forall e k q s s' r, tame e -> near s s' -> ev e k q s r -> exists r', ev e k q s' r' /\ near_res r r'.
  Proof.
    intros e k q s s' r He H [N [f E]]. destruct (run_follows f _ _ _ _ _ _ He H E N) as (f' & r' & E' & R). exists r'. split; [|exact R].
    split; [apply (near_fuel _ _ R)|]. exists f'. exact E'.
  Qed.
  Lemma layout_quote : forall w w', layout w = layout w' -> ~ In 34%N w -> ~ In 34%N w'.
  Proof. intros w w' L H I. apply H. apply layout_out; [reflexivity|]. rewrite L. apply layout_in; [reflexivity|exact I]. Qed.
  Theorem same_layout : forall f text text', layout text = layout text' -> ~ In 34%N text ->
    omap forget_result (parse U f text) = omap forget_result (parse U f text').
  Proof.
    intros f text text' L Q. assert (H : near (mkPs 0 text []) (mkPs 0 text' [])) by (repeat split; [exact L|exact Q|apply (layout_quote _ _ L Q)]).
    destruct (skip_ok U false (mkPs 0 text [])) as (s1 & t1 & E1). destruct (ev_follows _ _ _ _ _ _ tame_skip H E1) as (r1' & E1' & R1).
    destruct r1' as [s1' t1'|s1' t1'| |]; cbn in R1; try contradiction. destruct R1 as [R1 M1].
    destruct (body_terminates U false s1) as [r2 E2]. destruct (ev_follows _ _ _ _ _ _ rest_tame R1 E2) as (r2' & E2' & R2).
    unfold parse. rewrite (program_unfold U _ _ _ _ E1 E2), (program_unfold U _ _ _ _ E1' E2').
    destruct r2 as [s2 t2|s2 t2| |], r2' as [s2' t2'|s2' t2'| |]; cbn in R2; try contradiction; cbn [prepend seq_res]; try reflexivity.
    destruct R2 as [_ M2]. assert (M : map shade (t1 ++ t2) = map shade (t1' ++ t2')) by (rewrite !map_app, M1, M2; reflexivity).
    pose proof (parse_pairs_sim f text f text' _ _ (same_list _ _ M)) as HP.
    destruct (parse_pairs f text (t1 ++ t2)) as [a|k|], (parse_pairs f text' (t1' ++ t2')) as [b|k'|]; cbn in HP; try contradiction; try reflexivity.
    - cbn. unfold sim in HP. rewrite HP. reflexivity.
    - cbn. subst k'. reflexivity.
  Qed.
End Layout.

(** ** Changes that keep the layout *)
Lemma unix_after : forall n w b, length w <= n -> layout_after b (unix w) = layout_after b w.
Proof.
  induction n as [|n IH]; intros [|c w] b Hn; try reflexivity; [cbn in Hn; lia|].
  assert (C : c <> 13%N -> unix (c :: w) = c :: unix w).
  { intro N. cbn [unix]. destruct c as [|p]; [reflexivity|]. repeat (destruct p; try reflexivity). congruence. }
  destruct (N.eq_dec c 13) as [->|N].
  - cbn in Hn. destruct w as [|d w]; [reflexivity|]. destruct (N.eq_dec d 10) as [->|Nd].
    + change (unix (13%N :: 10%N :: w)) with (10%N :: unix w). cbn [layout_after]. cbn. rewrite IH by (cbn in Hn; lia). reflexivity.
    + assert (D : unix (13%N :: d :: w) = 10%N :: unix (d :: w)).
      { cbn [unix]. destruct d as [|p]; [reflexivity|]. do 4 (destruct p; try reflexivity). congruence. }
      transitivity (layout_after b (10%N :: unix (d :: w))); [f_equal; exact D|].
      cbn [layout_after]. change (white_space 10%N) with true. change (white_space 13%N) with true. cbv iota.
      rewrite IH by (cbn in *; lia). reflexivity.
  - transitivity (layout_after b (c :: unix w)); [f_equal; exact (C N)|]. cbn [layout_after]. rewrite !IH by (cbn in Hn; lia). reflexivity.
Qed.
Lemma layout_unix : forall w, layout (unix w) = layout w.
Proof. intro w. apply (unix_after (length w)). lia. Qed.
Lemma layout_untabbed : forall w, layout (untabbed w) = layout w.
Proof.
  intro w. unfold layout. generalize (@None bool). induction w as [|c w IH]; intro b; [reflexivity|]. cbn [untabbed map]. fold (untabbed w).
  destruct (N.eqb_spec c 9) as [->|N]; cbn [layout_after]; [cbn|]; rewrite !IH; reflexivity.
Qed.
Lemma layout_trimmed : forall w, layout (trimmed w) = layout w.
Proof.
  intro w. unfold layout. generalize (@None bool). induction w as [|c w IH]; intro b; [reflexivity|]. cbn [trimmed].
  destruct ((c =? 32) || (c =? 9))%N eqn:E.
  - assert (W : white_space c = true /\ line_break c = false) by (apply orb_prop in E as [E|E]; apply N.eqb_eq in E; subst c; split; reflexivity). destruct W as [W B].
    destruct (trimmed w) as [|d r] eqn:T.
    + cbn [layout_after]. rewrite W, B. cbn [orb]. rewrite <- IH. reflexivity.
    + destruct (line_break d) eqn:D.
      * cbn [layout_after]. rewrite W, B. cbn [orb]. rewrite <- (IH (Some _)). cbn [layout_after]. rewrite (line_break_white d D), D. reflexivity.
      * cbn [layout_after] in *. rewrite W, B. cbn [orb]. rewrite <- (IH (Some _)). reflexivity.
  - cbn [layout_after]. rewrite !IH. reflexivity.
Qed.
Lemma layout_again : forall w, layout (layout w) = layout w.
Proof.
  intro w. remember (length w) as n eqn:E. revert w E. induction n as [n IH] using lt_wf_ind; intros w ->.
  destruct (white_split w) as (g & v & -> & Hg & Hv). destruct g as [|c g].
  - cbn [app]. destruct (layout_head v Hv) as [->|(c & k & -> & Hc & E)]; [reflexivity|]. rewrite E, layout_ink by exact Hc. f_equal.
    apply (IH (length k)); [cbn; lia|reflexivity].
  - rewrite layout_gap by (try discriminate; assumption).
    assert (N : layout (layout v) = layout v) by (apply (IH (length v)); [rewrite app_length; cbn; lia|reflexivity]).
    assert (H : head_is white_space (layout v) = false).
    { destruct (layout_head v Hv) as [->|(d & k & -> & Hd & E)]; [reflexivity|]. rewrite E. exact Hd. }
    change (reduced (existsb line_break (c :: g)) :: layout v) with ([reduced (existsb line_break (c :: g))] ++ layout v).
    rewrite layout_gap; [|discriminate|cbn; rewrite reduced_white; reflexivity|exact H]. rewrite N. cbn [app existsb].
    destruct (line_break c || existsb line_break g)%bool; reflexivity.
Qed.

Section Alike.
  Variable U : unicode.
  Hypothesis HU : sane U.
  Lemma unix_alike : forall f text, ~ In 34%N text -> omap forget_result (parse U f text) = omap forget_result (parse U f (unix text)).
  Proof. intros f text H. apply same_layout; [exact HU|symmetry; apply layout_unix|exact H]. Qed.
  Lemma untabbed_alike : forall f text, ~ In 34%N text -> omap forget_result (parse U f text) = omap forget_result (parse U f (untabbed text)).
  Proof. intros f text H. apply same_layout; [exact HU|symmetry; apply layout_untabbed|exact H]. Qed.
  Lemma trimmed_alike : forall f text, ~ In 34%N text -> omap forget_result (parse U f text) = omap forget_result (parse U f (trimmed text)).
  Proof. intros f text H. apply same_layout; [exact HU|symmetry; apply layout_trimmed|exact H]. Qed.
  Lemma layout_alike : forall f text, ~ In 34%N text -> omap forget_result (parse U f text) = omap forget_result (parse U f (layout text)).
  Proof. intros f text H. apply same_layout; [exact HU|symmetry; apply layout_again|exact H]. Qed.
End Alike.
Lemma layout_limits : forall xs xc f, let p t := omap forget_result (parse (mkUnicode xs xc) f t) in
  p (lit "a b") <> p (lit "ab") /\ p (lit "a (b)") <> p ([97; 10]%N ++ lit "(b)") /\
  p ([34%N] ++ lit "a  b" ++ [34%N]) <> p ([34%N] ++ lit "a b" ++ [34%N]).
Proof. intros xs xc f p. repeat split; vm_compute; discriminate. Qed.
