(** A session answers every text of [harmless] that has no loud word. *)
From Verif Require Import Base NumTypes Ast SmError Display Internal Eval Peg Grammar Climber Build Runner SpecAst SpecSyntax SpecText SpecSession SpecAnswer SpecSafe.
From Verif Require Import ProofAst ProofPeg ProofGrammar ProofClimber ProofBuild ProofSym ProofSpace ProofAtom ProofLex ProofText ProofKeyword ProofStatement.
From Verif Require Import ProofRunner ProofPlace ProofAnswer ProofShape ProofSafe.
Local Open Scope nat_scope.
Local Open Scope outcome_scope.

Definition loud_names : list str := [lit "first"; lit "last"; lit "length"; lit "factorial"; lit "fibonacci"].
(** trees that [forward] and [display] take without a panic *)
Definition tame (a : ast) : Prop :=
  match a with
  | EmptyStatement | Program _ => False
  | Function s [_] => ~ In (name s) loud_names
  | _ => True
  end.
Definition quiet_fit (r : rule) (x : str) (l : list (tree rule)) : Prop := fit r x l /\ avoids loud_words x.
Notation quiet := (fine quiet_fit).
Lemma quiet_inv : forall t, quiet t -> fit (t_rule t) (t_text t) (t_inner t) /\ avoids loud_words (t_text t) /\ Forall quiet (t_inner t).
Proof. intros t H. destruct H as [r a b x l [H1 H2] H3]. auto. Qed.
Lemma loud_in : forall w, In w loud_names -> In w loud_words. Proof. intros w H. right. exact H. Qed.
Lemma contains_self : forall w, contains w w. Proof. intro w. exists [], []. rewrite app_nil_r. reflexivity. Qed.
Lemma not_loud : forall x, avoids loud_words x -> ~ In x loud_names.
Proof. intros x H I. exact (H x (loud_in x I) (contains_self x)). Qed.
Lemma contains_trans : forall a b c, contains a b -> contains b c -> contains a c.
Proof. intros a b c (x & y & ->) (z & w & ->). exists (z ++ x), (y ++ w). rewrite <- !app_assoc. reflexivity. Qed.

(** the name of a symbol is part of its text *)
Lemma split_last : forall n s cur, length s <= n -> contains (last (split_colons s cur) []) (rev cur ++ s) /\ split_colons s cur <> [].
Proof.
  induction n as [|n IH]; intros s cur L.
  - destruct s; [|cbn in L; lia]. cbn. rewrite app_nil_r. split; [apply contains_self|discriminate].
  - destruct s as [|c s]; [cbn; rewrite app_nil_r; split; [apply contains_self|discriminate]|]. cbn [length] in L.
    assert (Step : contains (last (split_colons s (c :: cur)) []) (rev cur ++ c :: s) /\ split_colons s (c :: cur) <> []).
    { destruct (IH s (c :: cur)) as [H1 H2]; [lia|]. split; [|exact H2]. cbn [rev] in H1. rewrite <- app_assoc in H1. exact H1. }
    destruct (N.eq_dec c 58) as [->|Nc].
    + destruct s as [|d s]; [exact Step|]. destruct (N.eq_dec d 58) as [->|Nd].
      * cbn [split_colons]. destruct (IH s []) as [H1 H2]; [cbn [length] in L; lia|]. split; [|discriminate].
        destruct (split_colons s []) as [|y l] eqn:E; [congruence|].
        change (contains (last (y :: l) []) (rev cur ++ 58%N :: 58%N :: s)). cbn [rev app] in H1.
        destruct H1 as (p & q & H1). exists (rev cur ++ [58; 58]%N ++ p), q. rewrite H1 at 1. rewrite <- !app_assoc. reflexivity.
      * assert (E : split_colons ((58%N : char) :: d :: s) cur = split_colons (d :: s) ((58%N : char) :: cur)).
        { cbn [split_colons]. destruct d as [|d]; [reflexivity|]. repeat (destruct d as [d|d|]; try reflexivity). congruence. }
        rewrite E. exact Step.
    + assert (E : split_colons (c :: s) cur = split_colons s (c :: cur)).
      { cbn [split_colons]. destruct c as [|c]; [reflexivity|]. repeat (destruct c as [c|c|]; try reflexivity). congruence. }
      rewrite E. exact Step.
Qed.
Lemma symbol_name : forall s, contains (name (symbol_from s)) s.
Proof. intro s. destruct (split_last (length s) s [] (le_n _)) as [H _]. exact H. Qed.
Lemma symbol_quiet : forall s, avoids loud_words s -> ~ In (name (symbol_from s)) loud_names.
Proof. intros s H I. apply (H _ (loud_in _ I)). apply symbol_name. Qed.

(** ** the climber, with a condition on the operators *)
Section Climb.
  Context {I T : Type}.
  Variable get : I -> option (Z * assoc).
  Variable infix : T -> I -> T -> outcome T.
  Variable P : T -> Prop.
  Variable Q : I -> Prop.
  Hypothesis Hin : forall a o b, Q o -> P a -> P b -> oall P (infix a o b).
  Notation fits := (Forall (fun p : I * outcome T => Q (fst p) /\ oall P (snd p))).
  Lemma climb_each_aux : forall f,
    (forall lhs m ps, P lhs -> fits ps -> oall (fun x => P (fst x) /\ fits (snd x)) (climb_outer get infix f lhs m ps)) /\
    (forall m rhs ps, P rhs -> fits ps -> oall (fun x => P (fst x) /\ fits (snd x)) (climb_inner get infix f m rhs ps)).
  Proof.
    induction f as [|f [IHo IHi]]; [split; intros; exact Logic.I|]. split.
    - intros lhs m ps Hl Hp. rewrite climb_outer_S. destruct ps as [|[op x] ps1]; [cbn; auto|].
      destruct (get op) as [[pr a]|]; [|cbn; auto]. destruct (pr >=? m)%Z; [|cbn; auto].
      inversion Hp as [|? ? [Ho _] Hp1]; subst. destruct ps1 as [|[c y] ps2]; [exact Logic.I|]. inversion Hp1 as [|? ? [_ Hy] Hp2]; subst. cbn [fst snd] in Hy, Ho.
      apply (oall_bind _ _ P); [exact Hy|]. intros r0 Hr0.
      eapply oall_bind; [apply IHi; [exact Hr0|exact Hp2]|]. intros [r ps3] [Hr H3]. cbn [fst snd] in *.
      apply (oall_bind _ _ P); [apply Hin; assumption|]. intros l Hl'. apply IHo; assumption.
    - intros m rhs ps Hr Hp. rewrite climb_inner_S. destruct ps as [|[op x] ps1]; [cbn; auto|].
      destruct (get op) as [[pr a]|]; [|cbn; auto]. destruct (_ || _)%bool; [|cbn; auto].
      eapply oall_bind; [apply IHo; [exact Hr|exact Hp]|]. intros [r ps3] [Hr' H3]. cbn [fst snd] in *. apply IHi; assumption.
  Qed.
  Lemma climb_each : forall ps, fits ps -> oall P (climb get infix ps).
  Proof.
    intros [|[c x] ps] H; [exact Logic.I|]. inversion H as [|? ? [_ Hx] Hp]; subst. unfold climb.
    apply (oall_bind _ _ P); [exact Hx|]. intros l Hl. eapply oall_bind; [apply (proj1 (climb_each_aux _)); [exact Hl|exact Hp]|].
    intros [r ps'] [Hr _]. exact Hr.
  Qed.
End Climb.

Lemma quiet_good : forall n t, height t <= n -> quiet t -> good t.
Proof.
  induction n as [|n IH]; intros t L H; [destruct t; cbn [height] in L; lia|]. destruct H as [r a b x l [H1 H2] H3]. constructor; [exact H1|].
  rewrite Forall_forall in *. intros c Hc. apply IH; [|exact (H3 c Hc)]. pose proof (height_in (Node r a b x l) c Hc). lia.
Qed.
Lemma oall_any : forall A B (Q : B -> Prop) (x : outcome A) f, (forall a, oall Q (f a)) -> oall Q (obind x f).
Proof. intros A B Q x f H. destruct x; cbn; auto. Qed.
Lemma bang_loud : forall x, avoids loud_words x -> ~ In x [lit "!"; lit "!!"].
Proof. intros x H [<-|[<-|[]]]; apply (H (lit "!")); [left; reflexivity|apply contains_self|left; reflexivity|exists [], (lit "!"); reflexivity]. Qed.
Ltac quick := cbn [In loud_names]; let X := fresh in intro X; repeat (destruct X as [X|X]; [discriminate X|]); destruct X.
Lemma infix_name : forall x, avoids loud_words x -> ~ In (name (infix_map x)) loud_names.
Proof.
  intros x H. unfold infix_map.
  repeat match goal with |- context [str_eqb x ?y] => destruct (str_eqb x y); [quick|] end. cbn [name]. exact (not_loud x H).
Qed.

Section Build.
  Variable fname input : str.
  Lemma integer_tame : forall t, oall tame (parse_integer t).
  Proof. intro t. unfold parse_integer. apply oall_any. intro. exact Logic.I. Qed.
  Lemma string_loop_tame : forall l s, oall tame (parse_string_loop l s).
  Proof.
    induction l as [|c l IH]; intro s; [exact Logic.I|]. cbn [parse_string_loop]. destruct (t_rule c); try exact Logic.I; try apply IH; apply oall_any; intro; apply IH.
  Qed.
  Lemma special_tame : forall t, oall tame (parse_special t).
  Proof.
    intro t. unfold parse_special. repeat match goal with |- context [str_eqb ?x ?y] => destruct (str_eqb x y); [exact Logic.I|] end. exact Logic.I.
  Qed.
  Lemma in_out_tame : forall t, oall tame (parse_in_out fname input t).
  Proof.
    intro t. unfold parse_in_out. cbv zeta. apply oall_any. intro i.
    apply (oall_bind _ _ (fun s => ~ In (name s) loud_names)); [|intros s Hs; exact Hs].
    match goal with |- context [filter ?g (t_text t)] => destruct (filter g (t_text t)) as [|c l] end; [exact Logic.I|]. destruct c as [|c]; [exact Logic.I|].
    do 14 (try (destruct c as [c|c|]; try exact Logic.I)); quick.
  Qed.
  Lemma slot_tame : forall t, oall tame (parse_slot fname input t).
  Proof. intro t. unfold parse_slot. cbv zeta. apply oall_any. intro. cbn [oall tame]. destruct (strip_prefix _ _); quick. Qed.
  Lemma prefixes_tame : forall l b, tame b -> oall tame (apply_prefixes l b).
  Proof.
    induction l as [|[x p] l IH]; intros b H; [exact H|]. cbn [apply_prefixes]. unfold prefix_map.
    repeat match goal with |- context [str_eqb x ?y] => destruct (str_eqb x y); [cbn [obind]; apply IH; quick|] end. exact Logic.I.
  Qed.

  Section Rec.
    Variable rec : tree rule -> outcome ast.
    Variable n : nat.
    Hypothesis Hrec : forall c, height c < n -> quiet c -> t_rule c = R_expr -> oall tame (rec c).
    Ltac down := match goal with Hc : In ?c (t_inner ?t) |- _ => pose proof (height_in t c Hc) end.
    Lemma list_tame : forall t, oall tame (parse_list fname input rec t).
    Proof. intro t. unfold parse_list. apply oall_any. intro. quick. Qed.
    Lemma apply_call_tame : forall t, quiet t -> oall tame (parse_apply_call fname input rec t).
    Proof.
      intros t H. unfold parse_apply_call. apply quiet_inv in H. destruct H as (_ & _ & G). destruct (t_inner t) as [|h l]; [exact Logic.I|].
      inversion G as [|? ? Gh _]; subst. apply quiet_inv in Gh. destruct Gh as (_ & A & _). apply oall_any. intros [|p [|q ps]]; [exact Logic.I| |exact Logic.I].
      cbn [oall tame]. apply symbol_quiet. exact A.
    Qed.
    Lemma data_tame : forall t, oall tame (parse_data fname input rec t).
    Proof.
      intro t. unfold parse_data. destruct (t_inner t) as [|c l]; [exact Logic.I|]. destruct (t_rule c); try exact Logic.I.
      all: first [apply list_tame | apply integer_tame | apply string_loop_tame | apply special_tame | apply slot_tame | apply in_out_tame | idtac].
      all: unfold parse_byte, parse_decimal; try (destruct (t_text c) as [|u [|v d]]; try exact Logic.I); repeat (apply oall_any; intro); exact Logic.I.
    Qed.
    Lemma node_tame : forall t, height t <= n -> quiet t -> oall tame (parse_node fname input rec t).
    Proof.
      intros t L H. unfold parse_node. apply quiet_inv in H. destruct H as (_ & _ & G).
      destruct (t_inner t) as [|c l] eqn:El; [exact Logic.I|]. inversion G as [|? ? Gc _]; subst.
      assert (Hc : In c (t_inner t)) by (rewrite El; left; reflexivity). down. destruct (t_rule c) eqn:E; try exact Logic.I.
      - apply Hrec; [lia|exact Gc|exact E].
      - apply apply_call_tame. exact Gc.
      - unfold parse_space_call. apply oall_any. intro. quick.
      - apply data_tame.
    Qed.
    Lemma term_loop_tame : forall l x b pre, Forall (fun c => height c < n) l -> Forall quiet l -> Nat.eqb (reads (step R_term) x l) 1 = true ->
      (x = 1 -> tame b) -> oall tame (parse_term_loop fname input rec l b pre).
    Proof.
      induction l as [|c l IH]; intros x b pre L G F Hb; [apply prefixes_tame, Hb, Nat.eqb_eq; exact F|]. inversion L; inversion G; subst. cbn [parse_term_loop].
      unfold reads in F. cbn [fold_left] in F. change (rule_of c) with (t_rule c) in F.
      assert (Bad : Nat.eqb (fold_left (fun y v => step R_term y (rule_of v)) l 2) 1 = true -> False).
      { intro X. change (fold_left _ l 2) with (reads (step R_term) 2 l) in X. rewrite reads_stuck in X; [discriminate|intros []; reflexivity]. }
      destruct (t_rule c) eqn:E; try exact Logic.I.
      - apply (oall_bind _ _ tame); [apply node_tame; [lia|assumption]|]. intros b' Hb'. destruct x as [|[|x]]; cbn [step] in F; try (exfalso; exact (Bad F)). eapply IH; eauto.
      - apply oall_any. intro new. destruct x as [|[|x]]; cbn [step] in F; try (exfalso; exact (Bad F)). eapply IH; [assumption|assumption|exact F|]. intros _. quick.
      - destruct x as [|[|x]]; cbn [step] in F; try (exfalso; exact (Bad F)). eapply IH; [assumption|assumption|exact F|]. discriminate.
      - exfalso. pose proof (quiet_inv c ltac:(assumption)) as (X & A & _). rewrite E in X. destruct X as [X _]. exact (bang_loud _ A X).
    Qed.
    Lemma term_tame : forall t, height t <= n -> quiet t -> t_rule t = R_term -> oall tame (parse_term fname input rec t).
    Proof.
      intros t L H R. apply quiet_inv in H. rewrite R in H. destruct H as ((_ & F) & _ & G). apply (term_loop_tame _ 0); [apply inner_lt; exact L|exact G|exact F|discriminate].
    Qed.
  End Rec.

  Lemma expr_children : forall l x, Nat.eqb (reads (step R_expr) x l) 1 = true -> Forall (fun c : tree rule => t_rule c <> R_Dot) l.
  Proof.
    induction l as [|c l IH]; intros x F; [constructor|]. unfold reads in F. cbn [fold_left] in F. change (rule_of c) with (t_rule c) in F.
    constructor; [|eapply IH; exact F]. intro E. rewrite E in F. assert (X : step R_expr x R_Dot = 2) by (destruct x as [|[|x]]; reflexivity). rewrite X in F.
    change (fold_left _ l 2) with (reads (step R_expr) 2 l) in F. rewrite reads_stuck in F; [discriminate|intros []; reflexivity].
  Qed.
  Theorem expr_tame : forall n t, height t <= n -> quiet t -> t_rule t = R_expr -> oall tame (parse_expr fname input t).
  Proof.
    induction n as [|n IH]; intros t L G R; [destruct t; cbn [height] in L; lia|].
    assert (Hrec : forall c, height c < S n -> quiet c -> t_rule c = R_expr -> oall tame (parse_expr fname input c)) by (intros c Hc; apply IH; lia).
    pose proof (inner_lt (S n) t L) as LI. apply quiet_inv in G. rewrite R in G. destruct G as ((_ & F) & _ & G). cbn [final] in F. apply expr_children in F.
    destruct t as [r a b x l]. cbn [t_inner] in *. cbn [parse_expr].
    apply (climb_each _ _ tame (fun c => t_rule c <> R_Dot /\ quiet c)).
    - intros u o v [Ho Q] _ _. unfold infix_node. apply quiet_inv in Q. destruct Q as (_ & A & _). destruct (t_rule o); try congruence; exact (infix_name _ A).
    - apply Forall_map. rewrite Forall_forall in *. intros c Hc. cbn [fst snd]. split; [auto|]. unfold primary. destruct (t_rule c) eqn:E; try exact Logic.I.
      + apply Hrec; auto.
      + eapply term_tame; [exact Hrec|specialize (LI c Hc); lia|auto|exact E].
  Qed.
  Theorem expression_tame : forall t, quiet t -> t_rule t = R_expression -> oall (fun r => tame (fst r)) (parse_expression fname input t).
  Proof.
    intros t H R. destruct (expression_inner t (quiet_good _ t (le_n _) H) R) as (E & l & El & RE & Hl). unfold parse_expression. rewrite El. cbn [parse_expression_loop]. rewrite RE.
    apply quiet_inv in H. destruct H as (_ & _ & G). rewrite El in G. inversion G; subst.
    apply (oall_bind _ _ tame); [apply (expr_tame (height E)); auto|]. intros a Ha. destruct (eos_loop fname input l a false Hl) as [e ->]. exact Ha.
  Qed.
End Build.

(** ** Whole texts *)
Section Whole.
  Variable U : unicode.
  Notation sound Safe P e := (sound_rules U grammar skip_body Safe P e).
  Lemma quiet_sound : forall (Safe : str -> Prop) e, sound Safe fit e -> sound (fun w => Safe w /\ avoids loud_words w) quiet_fit e.
  Proof.
    intros Safe. induction e; cbn [sound_rules]; intuition. split; [eapply H1; eauto|].
    intros b Hb C. match goal with A : avoids _ (rest ?s), E : rest ?s = _ |- _ => rewrite E in A; apply (A b Hb); apply contains_app; exact C end.
  Qed.
  (** the condition on the text is one the analyses know *)
  Definition checked (x : str) : Prop := solid x = true /\ plain_start x = true /\ exists Safe : str -> Prop, (forall p w, Safe (p ++ w) -> Safe w) /\
    (forall r, sound Safe fit (grammar r)) /\ sound Safe fit skip_body /\ Safe x.
  Lemma checked_tame : forall f x, checked x -> x <> [] -> avoids loud_words x -> oall (fun r => match r with Ok a => tame a | Err _ => True end) (parse U f x).
  Proof.
    intros f x (Hx & Hp & Safe & SS & SR & SK & Hs) N A. destruct (expression_statement U 0 x [] Hp) as [E|(s & T & E & R)].
    - rewrite (statement_refused U x Hx N E f). exact Logic.I.
    - assert (G : quiet T).
      { pose proof E as [NF [n En]].
        assert (SS2 : forall p w, Safe (p ++ w) /\ avoids loud_words (p ++ w) -> Safe w /\ avoids loud_words w).
        { intros p w [H1 H2]. split; [exact (SS p w H1)|]. intros b Hb C. apply (H2 b Hb). apply contains_pre. exact C. }
        pose proof (run_fine U grammar skip_body _ SS2 quiet_fit (fun r => quiet_sound Safe _ (SR r)) (quiet_sound Safe _ SK) n (ECall R_statement) NonAtomic (mkPs 0 x []) Logic.I (conj Hs A)) as Fi.
        rewrite En in Fi. inversion Fi. assumption. }
      pose proof (expression_tame f x T G R) as D.
      destruct (program_first U _ _ _ Hx E) as [(s' & t & P)|(s' & more & P)]; unfold parse; rewrite P; [exact Logic.I|].
      cbn [app parse_pairs]. rewrite R. destruct (parse_expression f x T) as [[a e]|k|]; [exact D|exact Logic.I|exact Logic.I].
  Qed.
  Lemma harmless_checked : forall text, harmless U text -> exists g x, text = g ++ x /\ spacing g = true /\ x <> [] /\ checked x /\ answers U text.
  Proof.
    intros text H. destruct H as [g x Hg N W Sl P A H]. exists g, x. split; [reflexivity|]. split; [exact Hg|]. split; [exact N|].
    assert (Hx : solid x = true) by (apply solid_spec; assumption).
    split; [split; [exact Hx|split; [exact P|]]|].
    - destruct H as [H|[[H1 H2]|H]].
      + exists (Safe U troublemakers true false). split; [apply Safe_suffix|]. split; [intro r; apply chk_all_sound; [exact nameless_chk|left; reflexivity]|].
        split; [apply chk_sound, skip_chk|]. split; [exact A|]. split; [auto|discriminate].
      + exists (Safe U flat_bad false false). split; [apply Safe_suffix|]. split; [intro r; apply chk_all_sound; [exact flat_chk|left; reflexivity]|].
        split; [apply chk_sound, skip_chk|]. split; [|split; discriminate]. intros b [<-|Hb]; [exact H1|]. apply in_app_iff in Hb. destruct Hb; [apply A|apply H2]; assumption.
      + exists (Safe U spaced_bad false true). split; [apply Safe_suffix|]. split.
        { intro r. destruct (is_space_call r) eqn:E; [destruct r; try discriminate; apply space_call_sound|].
          apply chk_all_sound; [exact spaced_chk|right; intros ->; discriminate]. }
        split; [apply chk_sound, skip_chk|]. split; [|split; [discriminate|auto]]. intros b Hb. apply in_app_iff in Hb.
        destruct Hb as [Hb|Hb]; [apply A; exact Hb|exact (heads_apart U x H b Hb)].
    - destruct H as [H|[[H1 H2]|H]]; [apply nameless_answers|apply flat_answers|apply spaced_answers]; assumption.
  Qed.
  Lemma tame_forget : forall a b, forget_positions a = forget_positions b -> tame a -> tame b.
  Proof. intros a b E H. destruct a as [| |s ps| | | | |], b as [| |t qs| | | | |]; try discriminate; auto. cbn [forget_positions] in E. injection E as <- E. destruct ps as [|p [|p' ps]], qs as [|q [|q' qs]]; try discriminate; auto. Qed.
  Lemma harmless_tame : forall text f, harmless U text -> avoids loud_words text -> exists r, parse U f text = Ret r /\ match r with Ok a => tame a | Err _ => True end.
  Proof.
    intros text f H A. destruct (harmless_checked text H) as (g & x & -> & Hg & N & C & An).
    assert (Ax : avoids loud_words x) by (intros b Hb K; apply (A b Hb); apply contains_pre; exact K).
    pose proof (checked_tame f x C N Ax) as T. pose proof (leading_spacing U f g x Hg) as E.
    destruct (An f) as [[a Ha]|Ha]; rewrite Ha in *; eexists; (split; [reflexivity|]); [|exact Logic.I].
    destruct (parse U f x) as [[b|e]|k|]; cbn in E; try discriminate. injection E as E. exact (tame_forget b a (eq_sym E) T).
  Qed.
  Lemma forward_tame : forall W a c, tame a -> exists r, forward W a c = Ret (r, c) /\ match r with Ok o => calm (display o) | Err _ => True end.
  Proof.
    intros W a c H. destruct a as [|l|s ps|b|n|d|s|x]; cbn [tame] in H; try destruct H; try (eexists; split; [reflexivity|eexists; reflexivity]).
    destruct ps as [|p [|q ps]]; cbn [forward]; try (eexists; split; [reflexivity|try (eexists; reflexivity); exact Logic.I]).
    unfold evaluate_function. cbv zeta.
    assert (K : forall w, In w loud_names -> str_eqb (name s) w = false).
    { intros w Hw. destruct (str_eqb (name s) w) eqn:E; [|reflexivity]. apply str_eqb_eq in E. rewrite E in H. destruct (H Hw). }
    rewrite !K by (cbn; auto 10).
    destruct (str_eqb (name s) (lit "plus")); [|destruct (str_eqb (name s) (lit "times")); [|destruct (str_eqb (name s) (lit "power"))]].
    - unfold evaluate_additive. repeat (match goal with |- context [match ?x with _ => _ end] => destruct x end; try (eexists; split; [reflexivity|exact Logic.I])).
      eexists; split; [reflexivity|eexists; reflexivity].
    - unfold evaluate_multiplicative. repeat (match goal with |- context [match ?x with _ => _ end] => destruct x end; try (eexists; split; [reflexivity|exact Logic.I])).
      eexists; split; [reflexivity|eexists; reflexivity].
    - unfold evaluate_power. repeat (match goal with |- context [match ?x with _ => _ end] => destruct x end; try (eexists; split; [reflexivity|exact Logic.I]));
        eexists; (split; [reflexivity|eexists; reflexivity]).
    - eexists; split; [reflexivity|exact Logic.I].
  Qed.
  Theorem harmless_answer : forall W calls text, harmless U text -> avoids loud_words text -> exists r, answer U W calls text = Ret r.
  Proof.
    intros W calls text H A. destruct (harmless_tame text (lit "anonymous") H A) as (r & P & T). destruct (answer_eq U W calls text) as [c ->]. rewrite P.
    destruct r as [a|e]; [|eauto]. destruct (forward_tame W a c T) as (r & -> & D). destruct r as [o|e]; [|eauto]. destruct D as [t ->]. cbn [obind]. eauto.
  Qed.
  Theorem harmless_evaluate : forall W c text, keys_ok c -> harmless U text -> avoids loud_words text ->
    exists r, snd (Runner.evaluate W (parse U (lit "anonymous")) text c) = Ret r.
  Proof.
    intros W c text K H A. destruct (harmless_tame text (lit "anonymous") H A) as (r & P & T). rewrite evaluate_unfold by exact K. rewrite P.
    destruct r as [a|e]; [|cbn [snd]; eauto]. destruct (forward_tame W a (entered text c) T) as (r & -> & D). destruct r as [o|e]; [|cbn [snd]; eauto].
    destruct D as [t ->]. cbn [obind snd]. eauto.
  Qed.
  Theorem harmless_playground : forall W debug calls text, Forall (fun r => is_ret r = true) (pg_run W (parse U (lit "anonymous")) debug calls fresh_playground) ->
    harmless U text -> avoids loud_words text ->
    Forall (fun r => is_ret r = true) (pg_run W (parse U (lit "anonymous")) debug (calls ++ [CallResult text]) fresh_playground).
  Proof.
    intros W debug calls text F H A. rewrite pg_run_app. apply Forall_app. split; [exact F|].
    assert (Hh : history W (parse U (lit "anonymous")) [] (runner fresh_playground)) by (exact (session_history W _ [] eq_refl)).
    destruct (pg_after_good W (parse U (lit "anonymous")) debug calls fresh_playground [] eq_refl Hh F) as [Hp (_ & _ & _ & _ & K)].
    cbn [pg_run pg_step]. unfold pg_result. rewrite Hp. destruct (harmless_evaluate W _ text K H A) as [r E].
    destruct (Runner.evaluate W _ text _) as [c1 r1]. cbn [snd] in E. subst r1. constructor; [|constructor]. destruct r; reflexivity.
  Qed.
End Whole.

(** the words matter *)
Definition word_text (w : str) : str := match w with 33%N :: _ => lit "x!" | _ => w ++ lit "()" end.
Lemma words_matter : forall U W calls w, In w loud_words -> exists text, harmless U text /\ contains w text /\
  (forall other, In other loud_words -> other <> w -> ~ contains other text) /\ exists k, answer U W calls text = Panic k.
Proof.
  intros U W calls w H. exists (word_text w).
  assert (Other : forall other x, In other loud_words -> other <> w ->
    existsb (fun b => infixb b x) (filter (fun b => negb (str_eqb b w)) loud_words) = false -> ~ contains other x).
  { intros other x Ho Hn E. apply (avoids_chk _ _ E). apply filter_In. split; [exact Ho|]. destruct (str_eqb other w) eqn:Q; [|reflexivity].
    apply str_eqb_eq in Q. congruence. }
  assert (Hl : forall x, x <> [] -> head_is white_space x = false -> comment_start x = false -> plain_start x = true ->
    existsb (fun b => infixb b x) troublemakers = false -> besideb U x = false -> harmless U x).
  { intros x H1 H2 H3 H4 H5 H6. apply (harmless_text U [] x); auto. apply avoids_chk. exact H5. right. right. apply beside_chk. exact H6. }
  repeat (destruct H as [<-|H]; [split; [apply Hl; [discriminate|reflexivity|reflexivity|reflexivity|vm_compute; reflexivity|vm_compute; reflexivity]|];
    split; [apply infixb_sound; vm_compute; reflexivity|]; split; [intros other Ho Hn; apply Other; [exact Ho|exact Hn|vm_compute; reflexivity]|];
    match goal with |- exists k, answer U W calls ?t = _ => destruct (answer_eq U W calls t) as [c ->];
      assert (P : exists a, parse U (lit "anonymous") t = Ret (Ok a) /\ exists k, forward W a c = Panic k) by (eexists; split; [vm_compute; reflexivity|eexists; vm_compute; reflexivity]);
      destruct P as (a & -> & k & ->); exists k; reflexivity end|]).
  destruct H.
Qed.
