(** The exports are those of [SpecTex]. *)
From Verif Require Import Base Ast Display Tex Wolfram SpecAst SpecSession SpecTex.
From Verif Require Import ProofAst ProofDisplay ProofExport.
Local Open Scope Z_scope.
Local Open Scope outcome_scope.

(** ** Wolfram *)
Section W.
  Variable cap : str -> str.
  Notation tw := (to_wolfram cap).
  Notation ex := (exported cap).
  Lemma exported_list : forall l, Forall (fun a => ex a (tw a)) l -> Forall2 ex l (map tw l).
  Proof. induction 1; constructor; assumption. Qed.
  Lemma tw_call : forall s ps p, tw (Function s (ps ++ [p])) = WFunction (tw (Function s ps))
    (map tw (arguments p) ++ map (fun kv => WFunction (WSystem (lit "Rule")) [tw (fst kv); tw (snd kv)]) (options p)).
  Proof. intros s ps p. cbn [to_wolfram]. rewrite map_app, fold_left_app. reflexivity. Qed.
  Lemma exported_tw : forall a, ex a (tw a).
  Proof.
    induction a as [|l H|s ps H|b|n|d|s|s] using ast_ind'; [constructor| | | |constructor..]; try reflexivity.
    - cbn [to_wolfram]. constructor. apply exported_list. exact H.
    - revert H. induction ps as [|p ps IH] using rev_ind; intro H.
      + cbn [to_wolfram map fold_left]. unfold function_map. destruct (str_eqb (name s) (lit "factor")) eqn:E.
        * apply str_eqb_eq in E. apply exp_factor. exact E.
        * apply exp_head. intro X. rewrite X in E. discriminate.
      + apply Forall_app in H. destruct H as [H1 H2]. inversion H2 as [|? ? [Ha Ho] _]; subst. rewrite tw_call. apply exp_call; [exact (IH H1)|apply exported_list; exact Ha|].
        clear -Ho. induction Ho as [|[k v] m [Hk Hv] Ho IH]; cbn [map]; constructor; [|exact IH]. exists (tw k), (tw v). auto.
    - cbn [to_wolfram]. destruct b; constructor.
  Qed.
  Fixpoint exported_unique (a : ast) (w : wolfram) (H : ex a w) {struct H} : w = tw a.
  Proof.
    destruct H as [|l ws F| | |n|d t D|s|s|s N|s N|s ps p h args rules H F1 F2]; try reflexivity.
    - cbn [to_wolfram]. f_equal. induction F as [|x y l ws Hx F IH]; [reflexivity|]. cbn [map]. f_equal; [exact (exported_unique x y Hx)|exact IH].
    - cbn [to_wolfram]. cbn [display] in D. injection D as <-. reflexivity.
    - cbn [to_wolfram map fold_left]. unfold function_map. rewrite N. reflexivity.
    - cbn [to_wolfram map fold_left]. unfold function_map. destruct (str_eqb (name s) (lit "factor")) eqn:E; [|reflexivity]. apply str_eqb_eq in E. congruence.
    - rewrite tw_call. f_equal; [exact (exported_unique _ _ H)|]. f_equal.
      + induction F1 as [|x y l ws Hx F IH]; [reflexivity|]. cbn [map]. f_equal; [exact (exported_unique x y Hx)|exact IH].
      + induction F2 as [|kv r m rs (k & v & Hk & Hv & E) F IH]; [reflexivity|]. cbn [map]. f_equal; [|exact IH]. rewrite E.
        rewrite (exported_unique _ _ Hk), (exported_unique _ _ Hv). reflexivity.
  Qed.
  Theorem exported_iff : forall a w, ex a w <-> to_wolfram cap a = w.
  Proof. intros a w. split; [intro H; symmetry; exact (exported_unique a w H)|intros <-; apply exported_tw]. Qed.
End W.

(** ** TeX *)
Lemma width_cases : forall a, (width a = Panic PUnimplemented \/ width a = Panic PIndex) /\ ~ narrow a /\ ~ wide a \/
  (exists w, width a = Ret w /\ (w <= 1 /\ narrow a /\ ~ wide a \/ 1 < w /\ wide a /\ ~ narrow a)).
Proof.
  intro a. destruct a as [|l|s ps|b|n|d|s|s]; try (right; eexists; split; [reflexivity|]; left; cbn; repeat split; auto; lia).
  cbn [width]. destruct (ns_is s (lit "prefix")) eqn:E1.
  { left. split; [auto|]. apply ns_is_iff in E1. cbn [narrow wide]. rewrite E1. split; [|intros [X _]; discriminate].
    intros [X|[X _]]; [|discriminate]. apply X. exists (lit "prefix"). split; [exact E1|cbn; auto]. }
  destruct (ns_is s (lit "infix")) eqn:E2.
  { apply ns_is_iff in E2. destruct ps as [|p more].
    - left. split; [auto|]. cbn [narrow wide]. split; [|intros (_ & p & m & X & _); discriminate].
      intros [X|(_ & p & m & Y & _)]; [|discriminate]. apply X. exists (lit "infix"). split; [exact E2|cbn; auto].
    - right. eexists. split; [reflexivity|]. cbn [narrow wide]. destruct (le_lt_dec (length (arguments p)) 1) as [L|L].
      + left. split; [lia|]. split; [right; split; [exact E2|eauto]|]. intros (_ & q & m & [= <- <-] & X). lia.
      + right. split; [lia|]. split; [split; [exact E2|eauto]|]. intros [X|(_ & q & m & [= <- <-] & X)]; [|lia].
        apply X. exists (lit "infix"). split; [exact E2|cbn; auto]. }
  destruct (ns_is s (lit "suffix")) eqn:E3.
  { left. split; [auto|]. apply ns_is_iff in E3. cbn [narrow wide]. rewrite E3. split; [|intros [X _]; discriminate].
    intros [X|[X _]]; [|discriminate]. apply X. exists (lit "suffix"). split; [exact E3|cbn; auto]. }
  right. exists 1. split; [reflexivity|]. left. split; [lia|]. cbn [narrow wide].
  assert (N : ~ operator_space s).
  { intros (n & En & [<-|[<-|[<-|[]]]]); apply ns_is_iff in En; congruence. }
  split; [auto|]. intros (X & _). apply ns_is_iff in X. congruence.
Qed.
Lemma omapM_forall2 : forall A B (f : A -> outcome B) l ts, omapM f l = Ret ts <-> Forall2 (fun a t => f a = Ret t) l ts.
Proof.
  intros A B f. induction l as [|a l IH]; intros ts; cbn [omapM].
  - split; [intros [= <-]; constructor|intro H; inversion H; reflexivity].
  - split.
    + intro H. destruct (f a) as [b|k|] eqn:E; cbn [obind] in H; try discriminate. destruct (omapM f l) as [bs|k|] eqn:E2; cbn [obind] in H; try discriminate.
      injection H as <-. constructor; [exact E|apply IH; reflexivity].
    + intro H. inversion H as [|? b ? bs Hb Hbs]; subst. rewrite Hb. cbn [obind]. apply IH in Hbs. rewrite Hbs. reflexivity.
Qed.
Lemma omit_iff : forall tex p t, omit_brackets tex p = Ret t <-> exists ts, Forall2 (fun a t => tex a = Ret t) (arguments p) ts /\ bracketed (arguments p) ts t.
Proof.
  intros tex [args opts pos] t. cbn [arguments]. destruct args as [|a [|b l]].
  - unfold omit_brackets. cbn [arguments]. split; [intros [= <-]; exists []; split; constructor|]. intros (ts & _ & B). inversion B. reflexivity.
  - split.
    + intro H. destruct (width_cases a) as [[[W|W] _]|(w & W & [(L & N & _)|(L & N & _)])].
      * unfold omit_brackets in H. cbn [arguments] in H. rewrite W in H. discriminate.
      * unfold omit_brackets in H. cbn [arguments] in H. rewrite W in H. discriminate.
      * unfold omit_brackets in H. cbn [arguments] in H. rewrite W in H. cbn [obind] in H. apply Z.leb_le in L. rewrite L in H.
        destruct (tex a) as [x|k|] eqn:E; cbn [obind] in H; try discriminate. injection H as <-. exists [x]. split; [constructor; [exact E|constructor]|]. apply br_narrow. exact N.
      * destruct (tex a) as [x|k|] eqn:E.
        -- rewrite (omit_brackets_one_wide _ _ _ _ _ _ W L E) in H. injection H as <-. exists [x]. split; [constructor; [exact E|constructor]|]. apply br_wide. exact N.
        -- unfold omit_brackets in H. cbn [arguments] in H. rewrite W in H. cbn [obind] in H. destruct (w <=? 1) eqn:Y; [apply Z.leb_le in Y; lia|].
           destruct (param_height_le_1 (mkParam [a] opts pos)) as (m & Em & _). rewrite Em, E in H. discriminate.
        -- unfold omit_brackets in H. cbn [arguments] in H. rewrite W in H. cbn [obind] in H. destruct (w <=? 1) eqn:Y; [apply Z.leb_le in Y; lia|].
           destruct (param_height_le_1 (mkParam [a] opts pos)) as (m & Em & _). rewrite Em, E in H. discriminate.
    + intros (ts & F & B). inversion F as [|? x ? ? Hx F0]; subst. inversion F0; subst.
      destruct (width_cases a) as [[_ [N1 N2]]|(w & W & [(L & N1 & N2)|(L & N1 & N2)])]; inversion B; subst; try contradiction.
      * exact (omit_brackets_one_narrow _ _ _ _ _ _ W L Hx).
      * exact (omit_brackets_one_wide _ _ _ _ _ _ W L Hx).
  - split.
    + intro H. destruct (omapM tex (a :: b :: l)) as [ts|k|] eqn:E.
      * rewrite (omit_brackets_many _ _ _ _ _ _ _ E) in H. injection H as <-. exists ts. split; [apply omapM_forall2; exact E|constructor].
      * unfold omit_brackets in H. cbn [arguments] in H. destruct (param_height_le_1 (mkParam (a :: b :: l) opts pos)) as (m & Em & _). rewrite Em in H. cbn [obind] in H. rewrite E in H. discriminate.
      * unfold omit_brackets in H. cbn [arguments] in H. destruct (param_height_le_1 (mkParam (a :: b :: l) opts pos)) as (m & Em & _). rewrite Em in H. cbn [obind] in H. rewrite E in H. discriminate.
    + intros (ts & F & B). apply omapM_forall2 in F. inversion B; subst. exact (omit_brackets_many _ _ _ _ _ _ _ F).
Qed.

Lemma spaces : forall s, {name_space s = [lit "std"; lit "prefix"]} + {name_space s = [lit "std"; lit "infix"]} + {name_space s = [lit "std"; lit "suffix"]} + {~ operator_space s}.
Proof.
  intro s. destruct (ns_is s (lit "prefix")) eqn:E1; [left; left; left; apply ns_is_iff; exact E1|]. destruct (ns_is s (lit "infix")) eqn:E2; [left; left; right; apply ns_is_iff; exact E2|].
  destruct (ns_is s (lit "suffix")) eqn:E3; [left; right; apply ns_is_iff; exact E3|]. right. intros (n & En & [<-|[<-|[<-|[]]]]); apply ns_is_iff in En; congruence.
Qed.
Lemma in_false : forall x l, ~ In x l -> str_in x l = false.
Proof. intros x l H. destruct (str_in x l) eqn:E; [apply str_in_iff in E; contradiction|reflexivity]. Qed.
Lemma disjoint_names : forall x, In x bare_functions -> ~ In x named_functions.
Proof. intros x H N. cbn in H, N. repeat (destruct H as [<-|H]; [repeat (destruct N as [N|N]; [discriminate|]); exact N|]). exact H. Qed.
Lemma bare_eq : trig_names = bare_functions. Proof. reflexivity. Qed.
Lemma named_eq : operator_names = named_functions. Proof. reflexivity. Qed.
Definition agrees (a : ast) : Prop := forall t, to_tex a = Ret t <-> tex_of a t.
Lemma forall2_agrees : forall l ts, Forall agrees l -> (Forall2 (fun a t => to_tex a = Ret t) l ts <-> Forall2 tex_of l ts).
Proof.
  intros l ts H. revert ts. induction H as [|a l Ha H IH]; intros ts; split; intro F; inversion F; subst; constructor; try (apply Ha; assumption); apply IH; assumption.
Qed.
Lemma join_nil : forall l, join [] l = concat l.
Proof. induction l as [|x [|y l] IH]; [reflexivity|cbn; symmetry; apply app_nil_r|]. change (x ++ [] ++ join [] (y :: l) = x ++ concat (y :: l)). rewrite IH. reflexivity. Qed.
Theorem tex_iff : forall a t, to_tex a = Ret t <-> tex_of a t.
Proof.
  apply (ast_ind' agrees).
  - intro t. split; [intros [= <-]; constructor|intro H; inversion H; reflexivity].
  - intros l _ t. split; [discriminate|intro H; inversion H].
  - intros s ps H t. destruct (spaces s) as [[[S|S]|S]|S].
    + rewrite tex_unary_panics by auto. split; [discriminate|]. intro X.
      inversion X; subst; try (match goal with N : name_space s = _ |- _ => rewrite S in N; discriminate end);
        exfalso; match goal with N : ~ operator_space s |- _ => apply N; exists (lit "prefix"); split; [exact S|cbn; auto] end.
    + assert (Op : operator_space s) by (exists (lit "infix"); split; [exact S|cbn; auto]).
      destruct ps as [|p more].
      { cbn [to_tex]. assert (E1 : ns_is s (lit "prefix") = false) by (destruct (ns_is s (lit "prefix")) eqn:E; [apply ns_is_iff in E; rewrite S in E; discriminate|reflexivity]).
        rewrite E1, (proj2 (ns_is_iff s (lit "infix")) S). split; [discriminate|]. intro X. inversion X; subst; contradiction. }
      destruct (arguments p) as [|lhs [|rhs rest]] eqn:Ea.
      * rewrite tex_infix_few by (auto; rewrite Ea; cbn; lia). split; [discriminate|]. intro X. inversion X; subst; try contradiction. congruence.
      * rewrite tex_infix_few by (auto; rewrite Ea; cbn; lia). split; [discriminate|]. intro X. inversion X; subst; try contradiction. congruence.
      * destruct (tex_infix_two s p more lhs rhs rest S Ea) as [T1 T2]. split.
        -- intro X. destruct (display_dichotomy lhs) as [[Hl _]|[_ [l El]]]; [destruct (proj2 T1 (or_introl Hl)) as [k K]; congruence|].
           destruct (display_dichotomy rhs) as [[Hr _]|[_ [r Er]]]; [destruct (proj2 T1 (or_intror Hr)) as [k K]; congruence|].
           rewrite (T2 l r El Er) in X. injection X as <-. exact (tex_infix s p more lhs rhs rest l r S Ea El Er).
        -- intro X. inversion X; subst; try contradiction. match goal with E : arguments p = _ :: _ :: _ |- _ => rewrite Ea in E; injection E as <- <- <- end. apply T2; assumption.
    + rewrite tex_unary_panics by auto. split; [discriminate|]. intro X.
      inversion X; subst; try (match goal with N : name_space s = _ |- _ => rewrite S in N; discriminate end);
        exfalso; match goal with N : ~ operator_space s |- _ => apply N; exists (lit "suffix"); split; [exact S|cbn; auto] end.
    + assert (Ni : name_space s <> [lit "std"; lit "infix"]) by (intro N; apply S; exists (lit "infix"); split; [exact N|cbn; auto]).
      plain_space S. rewrite bare_eq, named_eq.
      destruct (str_in (name s) bare_functions) eqn:B.
      { apply str_in_iff in B. destruct ps as [|p more]; [split; [discriminate|]; intro X; inversion X; subst; contradiction|].
        inversion H as [|? ? [Ha _] _]; subst. split.
        - intro X. destruct (omit_brackets to_tex p) as [x|k|] eqn:O; cbn [obind] in X; try discriminate. injection X as <-. apply omit_iff in O. destruct O as (ts & F & O).
          apply forall2_agrees in F; [|exact Ha]. exact (tex_bare s p more ts x S B F O).
        - intro X. inversion X; subst; try contradiction.
          + match goal with F : Forall2 tex_of _ ?ts, O : bracketed _ ?ts ?x |- _ => apply forall2_agrees in F; [|exact Ha]; rewrite (proj2 (omit_iff to_tex p x)) by eauto end. reflexivity.
          + match goal with N : In (name s) named_functions |- _ => destruct (disjoint_names _ B N) end.
          + exfalso. match goal with N : name s = lit "List" |- _ => rewrite N in B end. exact (proj1 list_not_trig B). }
      assert (NB : ~ In (name s) bare_functions) by (intro X; apply str_in_iff in X; congruence).
      destruct (str_in (name s) named_functions) eqn:O.
      { apply str_in_iff in O. destruct ps as [|p more]; [split; [discriminate|]; intro X; inversion X; subst; contradiction|].
        inversion H as [|? ? [Ha _] _]; subst. split.
        - intro X. destruct (omit_brackets to_tex p) as [x|k|] eqn:Q; cbn [obind] in X; try discriminate. injection X as <-. apply omit_iff in Q. destruct Q as (ts & F & Q).
          apply forall2_agrees in F; [|exact Ha]. exact (tex_named s p more ts x S O F Q).
        - intro X. inversion X; subst; try contradiction.
          + match goal with F : Forall2 tex_of _ ?ts, O : bracketed _ ?ts ?x |- _ => apply forall2_agrees in F; [|exact Ha]; rewrite (proj2 (omit_iff to_tex p x)) by eauto end. reflexivity.
          + exfalso. match goal with N : name s = lit "List" |- _ => rewrite N in O end. exact (proj2 list_not_trig O). }
      assert (NO : ~ In (name s) named_functions) by (intro X; apply str_in_iff in X; congruence).
      destruct (str_eqb (name s) (lit "List")) eqn:L.
      { apply str_eqb_eq in L. destruct ps as [|p more]; [split; [discriminate|]; intro X; inversion X; subst; contradiction|].
        inversion H as [|? ? [Ha _] _]; subst. destruct (arguments p) as [|a l] eqn:Ea.
        { split; [discriminate|]. intro X. inversion X; subst; contradiction || congruence. }
        destruct (max_heights a l) as (m & Em & Hm). rewrite Em. cbn [obind]. split.
        - intro X. destruct (omapM to_tex (a :: l)) as [ts|k|] eqn:Q; cbn [obind] in X; try discriminate. rewrite Hm in X. injection X as <-. apply omapM_forall2 in Q.
          apply forall2_agrees in Q; [|exact Ha]. apply SpecTex.tex_list; auto; rewrite Ea; [discriminate|exact Q].
        - intro X. inversion X; subst; try contradiction. match goal with F : Forall2 tex_of (arguments p) ?ts |- _ => rewrite Ea in F; apply forall2_agrees in F; [|exact Ha]; apply omapM_forall2 in F; rewrite F end.
          cbn [obind]. rewrite Hm. reflexivity. }
      assert (NL : name s <> lit "List") by (intro X; rewrite X in L; discriminate).
      assert (Inner : forall tss, Forall2 (fun p ts => Forall2 tex_of (arguments p) ts) ps tss <-> Forall2 (fun p ts => omapM to_tex (arguments p) = Ret ts) ps tss).
      { clear -H. induction H as [|p ps [Ha _] H IH]; intro tss; (split; intro F; inversion F; subst; constructor; try (apply IH; assumption)).
        - apply omapM_forall2. apply forall2_agrees; assumption.
        - apply forall2_agrees; [exact Ha|]. apply omapM_forall2. assumption. }
      split.
      * intro X. match type of X with obind ?e _ = _ => destruct e as [ys|k|] eqn:Q end; cbn [obind] in X; try discriminate. injection X as <-.
        assert (Y : exists tss, Forall2 (fun p ts => omapM to_tex (arguments p) = Ret ts) ps tss /\ ys = map (fun ts => lit "\\left(" ++ join (lit ", ") ts ++ lit "\\right)") tss).
        { apply omapM_forall2 in Q. clear -Q. induction Q as [|p y ps ys Hy Q (tss & F & ->)]; [exists []; split; [constructor|reflexivity]|].
          destruct (omapM to_tex (arguments p)) as [ts|k|] eqn:E; cbn [obind] in Hy; try discriminate. injection Hy as <-. exists (ts :: tss). split; [constructor; assumption|reflexivity]. }
        destruct Y as (tss & F & ->). rewrite join_nil. apply tex_call; auto. apply Inner. exact F.
      * intro X. inversion X; subst; try contradiction.
        match goal with F : Forall2 _ ps ?tss |- _ => apply Inner in F;
          assert (Q : omapM (fun q => t <- omapM to_tex (arguments q); Ret (lit "\\left(" ++ join (lit ", ") t ++ lit "\\right)")) ps =
            Ret (map (fun ts => lit "\\left(" ++ join (lit ", ") ts ++ lit "\\right)") tss)) end.
        { apply omapM_forall2. match goal with F : Forall2 (fun p ts => omapM _ _ = _) _ _ |- _ => clear -F; induction F as [|p ts ps tss E F IH]; cbn [map]; constructor; [rewrite E; reflexivity|exact IH] end. }
        rewrite Q. cbn [obind]. rewrite join_nil. reflexivity.
  - intros b t. split; [intros [= <-]; constructor|intro H; inversion H; reflexivity].
  - intros n t. split; [intro H; constructor; exact H|intro H; inversion H; assumption].
  - intros d t. split; [intro H; constructor; exact H|intro H; inversion H; assumption].
  - intros s t. split; [intros [= <-]; constructor|intro H; inversion H; reflexivity].
  - intros s t. split; [intros [= <-]; constructor|intro H; inversion H; reflexivity].
Qed.
Lemma obind_fuel : forall A B (e : outcome A) (f : A -> outcome B), e <> OutOfFuel -> (forall x, f x <> OutOfFuel) -> obind e f <> OutOfFuel.
Proof. intros A B [x|k|] f H1 H2; cbn [obind]; [apply H2|discriminate|congruence]. Qed.
Lemma omapM_fuel : forall A B (f : A -> outcome B) l, Forall (fun x => f x <> OutOfFuel) l -> omapM f l <> OutOfFuel.
Proof.
  intros A B f l H. induction H as [|x l Hx _ IH]; [discriminate|]. cbn [omapM]. apply obind_fuel; [exact Hx|]. intro b. apply obind_fuel; [exact IH|discriminate].
Qed.
Lemma display_fuel : forall a, display a <> OutOfFuel.
Proof. intro a. destruct (display_dichotomy a) as [[_ E]|[_ [t E]]]; rewrite E; discriminate. Qed.
Lemma omit_fuel : forall p, Forall (fun a => to_tex a <> OutOfFuel) (arguments p) -> omit_brackets to_tex p <> OutOfFuel.
Proof.
  intros [args opts pos] H. cbn [arguments] in H. destruct args as [|a [|b l]]; [discriminate| |].
  - inversion H; subst. unfold omit_brackets. cbn [arguments]. destruct (width_cases a) as [[[W|W] _]|(w & W & _)]; rewrite W; try discriminate. cbn [obind].
    destruct (w <=? 1); [apply obind_fuel; [assumption|discriminate]|]. destruct (param_height_le_1 (mkParam [a] opts pos)) as (m & -> & _). cbn [obind].
    apply obind_fuel; [assumption|discriminate].
  - unfold omit_brackets. cbn [arguments]. destruct (param_height_le_1 (mkParam (a :: b :: l) opts pos)) as (m & -> & _). cbn [obind].
    apply obind_fuel; [apply omapM_fuel; exact H|discriminate].
Qed.
Lemma tex_fuel : forall a, to_tex a <> OutOfFuel.
Proof.
  induction a as [|l H|s ps H|b|n|d|s|s] using ast_ind'; try discriminate. cbn [to_tex].
  repeat match goal with |- (if ?b then _ else _) <> _ => destruct b; try discriminate end.
  - destruct ps as [|p more]; [discriminate|]. unfold infix_tex. destruct (arguments p) as [|x [|y l]]; try discriminate.
    apply obind_fuel; [apply display_fuel|intro]. apply obind_fuel; [apply display_fuel|intro].
    repeat match goal with |- (if ?b then _ else _) <> _ => destruct b; try discriminate end.
  - inversion H as [|p more [Ha _] _]; subst; [discriminate|]. apply obind_fuel; [apply omit_fuel; exact Ha|discriminate].
  - inversion H as [|p more [Ha _] _]; subst; [discriminate|]. apply obind_fuel; [apply omit_fuel; exact Ha|discriminate].
  - inversion H as [|p more [Ha _] _]; subst; [discriminate|]. apply obind_fuel; [destruct (arguments p); discriminate|]. intro m. apply obind_fuel; [apply omapM_fuel; exact Ha|]. intro e. destruct (m >? 1); discriminate.
  - apply obind_fuel; [|discriminate]. apply omapM_fuel. eapply Forall_impl; [|exact H]. intros p [Ha _]. apply obind_fuel; [apply omapM_fuel; exact Ha|discriminate].
Qed.
Theorem tex_panics_iff : forall a, (exists k, to_tex a = Panic k) <-> ~ exists t, tex_of a t.
Proof.
  intro a. destruct (to_tex a) as [t|k|] eqn:E.
  - split; [intros [k K]; discriminate|]. intro H. destruct H. exists t. apply tex_iff. exact E.
  - split; [|eauto]. intros _ [t H]. apply tex_iff in H. congruence.
  - destruct (tex_fuel a E).
Qed.

(** ** Predicates all output texts share with the texts of the tree *)
Section Closed.
  Variable Q : str -> Prop.
  Hypothesis Qnil : Q [].
  Hypothesis Qapp : forall x y, Q x -> Q y -> Q (x ++ y).
  Hypothesis Qchar : forall c, ~ In c (lit "\(){}") -> Q [c].
  Hypothesis Qround : forall x, Q x -> Q (lit "(" ++ x ++ lit ")").
  Hypothesis Qcurly : forall x, Q x -> Q (lit "{" ++ x ++ lit "}").
  Hypothesis Qslash : Q (lit "\\").

  Lemma q_chars : forall t, Forall (fun c => ~ In c (lit "\(){}")) t -> Q t.
  Proof. induction 1 as [|c t H _ IH]; [exact Qnil|]. exact (Qapp [c] t (Qchar c H) IH). Qed.
  Definition plainb (t : str) : bool := forallb (fun c => negb (existsb (N.eqb c) (lit "\(){}"))) t.
  Lemma q_plain : forall t, plainb t = true -> Q t.
  Proof.
    intros t H. apply q_chars. apply Forall_forall. intros c Hc Hin. unfold plainb in H. rewrite forallb_forall in H. specialize (H c Hc).
    apply negb_true_iff in H. assert (X : existsb (N.eqb c) (lit "\(){}") = true) by (apply existsb_exists; exists c; split; [exact Hin|apply N.eqb_refl]). congruence.
  Qed.
  Lemma q_join : forall sep l, Q sep -> Forall Q l -> Q (join sep l).
  Proof.
    intros sep l Hs. induction 1 as [|x l Hx Hl IH]; [exact Qnil|]. destruct l as [|y l]; [exact Hx|].
    change (Q (x ++ sep ++ join sep (y :: l))). apply Qapp; [exact Hx|]. apply Qapp; [exact Hs|exact IH].
  Qed.
  Lemma q_concat : forall l, Forall Q l -> Q (concat l).
  Proof. induction 1; [exact Qnil|]. apply Qapp; assumption. Qed.
  Lemma digit_plain : forall n, ~ In (Z.to_N (48 + n mod 10)) (lit "\(){}").
  Proof. intros n H. pose proof (Z.mod_pos_bound n 10 eq_refl) as B. remember (n mod 10) as m. clear Heqm.
    unfold lit in H. cbn [In] in H. assert (X : (48 <= Z.to_N (48 + m) <= 57)%N) by lia. remember (Z.to_N (48 + m)) as c. clear -H X. vm_compute in H. repeat (destruct H as [H|H]; [subst c; lia|]). exact H. Qed.
  Lemma q_digits : forall f n acc, Q acc -> Q (digits_loop f n acc).
  Proof.
    induction f as [|f IH]; intros n acc H; [exact H|]. cbn [digits_loop].
    assert (Q (Z.to_N (48 + n mod 10) :: acc)) by exact (Qapp [_] acc (Qchar _ (digit_plain n)) H).
    destruct (n <? 10); [assumption|]. apply IH. assumption.
  Qed.
  Lemma digits_plain : forall f n acc, Forall (fun c => ~ In c (lit "\(){}")) acc -> Forall (fun c => ~ In c (lit "\(){}")) (digits_loop f n acc).
  Proof.
    induction f as [|f IH]; intros n acc H; [exact H|]. cbn [digits_loop].
    assert (Forall (fun c => ~ In c (lit "\(){}")) (Z.to_N (48 + n mod 10) :: acc)) by (constructor; [apply digit_plain|exact H]).
    destruct (n <? 10); [assumption|]. apply IH. assumption.
  Qed.
  Lemma nat_plain : forall n, Forall (fun c => ~ In c (lit "\(){}")) (show_nat n).
  Proof. intro n. apply digits_plain. constructor. Qed.
  Lemma q_int : forall n, Q (show_int n).
  Proof. intro n. unfold show_int. destruct (n <? 0); [apply Qapp; [apply q_plain; reflexivity|]|]; apply q_chars, nat_plain. Qed.
  Lemma q_zeros : forall n, Q (zeros n).
  Proof. induction n; [exact Qnil|]. change (Q (lit "0" ++ zeros n)). apply Qapp; [apply q_plain; reflexivity|assumption]. Qed.
  Lemma q_decimal : forall d, Q (show_decimal d).
  Proof.
    intro d. unfold show_decimal. pose proof (nat_plain (Z.abs (dec_int d))) as P. remember (show_nat (Z.abs (dec_int d))) as x. clear Heqx.
    pose proof (q_chars _ P) as Qx.
    assert (C : forall b a, Q b -> Q a -> Q (let complete := match a with [] => b | _ => b ++ lit "." ++ a end in if dec_int d <? 0 then lit "-" ++ complete else complete)).
    { intros b a Hb Ha. cbn zeta. assert (Q match a with [] => b | _ => b ++ lit "." ++ a end).
      { destruct a; [exact Hb|]. apply Qapp; [exact Hb|]. apply Qapp; [apply q_plain; reflexivity|exact Ha]. }
      destruct (dec_int d <? 0); [|assumption]. apply Qapp; [apply q_plain; reflexivity|assumption]. }
    cbn zeta. destruct (dec_scale d >=? Z.of_nat (length x)).
    - apply C; [apply q_plain; reflexivity|]. apply Qapp; [apply q_zeros|exact Qx].
    - destruct (Z.of_nat (length x) - dec_scale d >? Z.of_nat (length x)).
      + refine (C _ [] _ Qnil). apply Qapp; [exact Qx|apply q_zeros].
      + rewrite <- (firstn_skipn (Z.to_nat (Z.of_nat (length x) - dec_scale d)) x) in P. apply Forall_app in P. destruct P as [P1 P2]. apply C; apply q_chars; assumption.
  Qed.
  Lemma q_symbol : forall s, Forall Q (symbol_texts s) -> Q (display_symbol s) /\ Q (name s) /\ forall o, kind s = Prefix o \/ kind s = Suffix o \/ (exists q, kind s = Infix o q) -> Q o.
  Proof.
    intros s H. unfold symbol_texts in H. inversion H as [|? ? Hn H2]; subst. apply Forall_app in H2. destruct H2 as [Hs Hk]. split; [|split; [exact Hn|]].
    - unfold display_symbol. destruct (name_space s) as [|x l]; [exact Hn|]. apply Qapp; [apply q_join; [apply q_plain; reflexivity|exact Hs]|].
      apply Qapp; [apply q_plain; reflexivity|exact Hn].
    - intros o [E|[E|[q E]]]; rewrite E in Hk; inversion Hk; assumption.
  Qed.
  Lemma q_omap : forall A (f : A -> outcome str) l ts, Forall (fun x => forall t, f x = Ret t -> Q t) l -> omapM f l = Ret ts -> Forall Q ts.
  Proof.
    intros A f l ts H E. apply omapM_forall2 in E. induction E as [|x t l ts Hx E IH]; constructor; inversion H; subst; auto.
  Qed.
  Lemma q_display : forall a t, Forall Q (tree_texts a) -> display a = Ret t -> Q t.
  Proof.
    intro a. induction a as [|l H|s ps H|b|n|d|s|s] using ast_ind'; intros t T E; cbn [display] in E; try discriminate.
    - cbn [tree_texts] in T. apply Forall_app in T. destruct T as [Ts Tp]. destruct (q_symbol s Ts) as (_ & _ & Qo).
      assert (A : forall p more, ps = p :: more -> Forall (fun x => forall t, display x = Ret t -> Q t) (arguments p)).
      { intros p more ->. inversion H as [|? ? [Ha _] _]; subst. cbn [flat_map] in Tp. apply Forall_app in Tp. destruct Tp as [Tp _].
        clear -Ha Tp. induction Ha as [|x l Hx _ IH]; [constructor|]. cbn [flat_map] in Tp. apply Forall_app in Tp. destruct Tp as [T1 T2]. constructor; auto. }
      destruct (kind s) as [| |o|o q|o]; try discriminate.
      + destruct (is_unary ps); [|injection E as <-; exact Qnil]. destruct ps as [|p more]; [discriminate|]. specialize (A p more eq_refl). destruct (arguments p) as [|x l]; [discriminate|].
        inversion A; subst. destruct (display x) as [y|k|]; cbn [obind] in E; try discriminate. injection E as <-. apply Qapp; [apply Qo; left; reflexivity|auto].
      + destruct (is_multiary ps); [|injection E as <-; exact Qnil]. destruct ps as [|p more]; [discriminate|]. specialize (A p more eq_refl).
        match type of E with obind ?e _ = _ => destruct e as [ts|k|] eqn:O end; cbn [obind] in E; try discriminate. injection E as <-. apply q_join; [apply Qo; right; right; exists q; reflexivity|].
        eapply q_omap; [|exact O]. eapply Forall_impl; [|exact A]. intros x Hx t. cbn beta. cbn beta in Hx. destruct (display x) as [y|k|]; cbn [obind]; try discriminate. intros [= <-]. specialize (Hx y eq_refl). unfold wrap_operand.
        destruct (precedence x <? q); [apply Qround|]; exact Hx.
      + destruct (is_unary ps); [|injection E as <-; exact Qnil]. destruct ps as [|p more]; [discriminate|]. specialize (A p more eq_refl). destruct (arguments p) as [|x l]; [discriminate|].
        inversion A; subst. destruct (display x) as [y|k|]; cbn [obind] in E; try discriminate. injection E as <-. apply Qapp; [auto|apply Qo; right; left; reflexivity].
    - injection E as <-. destruct b; apply q_plain; reflexivity.
    - injection E as <-. apply q_int.
    - injection E as <-. apply q_decimal.
    - injection E as <-. apply q_symbol. exact T.
    - injection E as <-. inversion T; assumption.
  Qed.
  Lemma q_bracketed : forall l ts t, bracketed l ts t -> Forall Q ts -> Q t.
  Proof.
    intros l ts t B H. inversion B; subst.
    - apply (Qround [] Qnil).
    - inversion H; subst. apply Qapp; [apply q_plain; reflexivity|assumption].
    - inversion H; subst. apply Qround. assumption.
    - apply Qround. apply q_join; [apply q_plain; reflexivity|exact H].
  Qed.
  Lemma q_braced : forall w x, plainb w = true -> Q x -> Q (lit "\\" ++ w ++ lit "{" ++ x ++ lit "}").
  Proof. intros w x Hw Hx. apply Qapp; [exact Qslash|]. apply Qapp; [apply q_plain; exact Hw|]. apply Qcurly. exact Hx. Qed.
  Lemma split_lit : forall w x r, lit "\\" ++ w ++ lit "{" ++ x ++ lit "}" ++ r = (lit "\\" ++ w ++ lit "{" ++ x ++ lit "}") ++ r.
  Proof. intros w x r. rewrite <- !app_assoc. reflexivity. Qed.
  Lemma q_args : forall l ts, Forall (fun a => forall t, Forall Q (tree_texts a) -> tex_of a t -> Q t) l -> Forall Q (flat_map tree_texts l) -> Forall2 tex_of l ts -> Forall Q ts.
  Proof.
    intros l ts H T F. induction F as [|a t l ts Ha F IH]; constructor; inversion H; subst; cbn [flat_map] in T; apply Forall_app in T; destruct T as [T1 T2]; auto.
  Qed.
  Theorem q_tex : forall a t, Forall Q (tree_texts a) -> tex_of a t -> Q t.
  Proof.
    intro a. induction a as [|l H|s ps H|b|n|d|s|s] using ast_ind'; intros t T X.
    - inversion X. exact Qnil.
    - inversion X.
    - cbn [tree_texts] in T. apply Forall_app in T. destruct T as [Ts Tp]. destruct (q_symbol s Ts) as (Qd & Qn & _).
      inversion X; subst.
      + cbn [flat_map] in Tp. apply Forall_app in Tp. destruct Tp as [Tp _]. match goal with E : arguments p = _ |- _ => rewrite E in Tp end. cbn [flat_map] in Tp.
        apply Forall_app in Tp. destruct Tp as [Tl Tp]. apply Forall_app in Tp. destruct Tp as [Tr _].
        apply Qapp; [apply (q_display lhs); assumption|]. apply Qapp; [|apply (q_display rhs); assumption]. unfold tex_sign.
        destruct (str_eqb (name s) (lit "times")); [apply q_plain; reflexivity|]. apply Qapp; [apply q_plain; reflexivity|]. apply Qapp; [|apply q_plain; reflexivity].
        destruct (str_eqb (name s) (lit "add")); [apply q_plain; reflexivity|exact Qn].
      + inversion H as [|? ? [Ha _] _]; subst. cbn [flat_map] in Tp. apply Forall_app in Tp. destruct Tp as [Tp _].
        apply Qapp; [exact Qslash|]. apply Qapp; [exact Qd|]. eapply q_bracketed; [eassumption|]. eapply q_args; eassumption.
      + inversion H as [|? ? [Ha _] _]; subst. cbn [flat_map] in Tp. apply Forall_app in Tp. destruct Tp as [Tp _].
        change (Q (lit "\\" ++ lit "operatorname" ++ lit "{" ++ display_symbol s ++ lit "}" ++ t0)). rewrite split_lit. apply Qapp; [apply q_braced; [reflexivity|exact Qd]|].
        eapply q_bracketed; [eassumption|]. eapply q_args; eassumption.
      + inversion H as [|? ? [Ha _] _]; subst. cbn [flat_map] in Tp. apply Forall_app in Tp. destruct Tp as [Tp _].
        change (Q (lit "\\" ++ lit "{" ++ join (lit ", ") ts ++ lit "\\" ++ lit "}")). apply Qapp; [exact Qslash|]. rewrite (app_assoc (join _ _)). apply Qcurly.
        apply Qapp; [|exact Qslash]. apply q_join; [apply q_plain; reflexivity|]. eapply q_args; eassumption.
      + change (Q (lit "\\" ++ lit "operatorname" ++ lit "{" ++ name s ++ lit "}" ++ concat (map (fun ts => lit "\\left(" ++ join (lit ", ") ts ++ lit "\\right)") tss))).
        rewrite split_lit. apply Qapp; [apply q_braced; [reflexivity|exact Qn]|]. apply q_concat.
        match goal with F : Forall2 _ ps tss |- _ => clear -F H Tp Qnil Qapp Qchar Qround Qslash; induction F as [|p ts ps tss Hp F IH]; [constructor|] end.
        inversion H as [|? ? [Ha _] Hm]; subst. cbn [flat_map] in Tp. apply Forall_app in Tp. destruct Tp as [T1 T2]. cbn [map]. constructor; [|auto].
        change (Q (lit "\\" ++ lit "left" ++ lit "(" ++ join (lit ", ") ts ++ lit "\\" ++ lit "right" ++ lit ")")).
        apply Qapp; [exact Qslash|]. apply Qapp; [apply q_plain; reflexivity|].
        replace (join (lit ", ") ts ++ lit "\\" ++ lit "right" ++ lit ")") with ((join (lit ", ") ts ++ lit "\\" ++ lit "right") ++ lit ")") by (rewrite <- !app_assoc; reflexivity).
        apply Qround. apply Qapp; [apply q_join; [apply q_plain; reflexivity|eapply q_args; eassumption]|]. apply Qapp; [exact Qslash|apply q_plain; reflexivity].
    - inversion X; subst. destruct b.
      + apply (q_braced (lit "mathtt") (lit "true")); [reflexivity|apply q_plain; reflexivity].
      + apply (q_braced (lit "mathtt") (lit "false")); [reflexivity|apply q_plain; reflexivity].
    - inversion X; subst. eapply q_display; [|eassumption]. constructor.
    - inversion X; subst. eapply q_display; [|eassumption]. constructor.
    - inversion X; subst. apply q_symbol. exact T.
    - inversion X; subst. apply (q_braced (lit "text") s); [reflexivity|]. inversion T; assumption.
  Qed.
End Closed.

Lemma doubled_app : forall x y, doubled x -> doubled y -> doubled (x ++ y).
Proof. intros x y H Hy. induction H; [exact Hy|apply dbl_char; assumption|apply dbl_pair; assumption]. Qed.
Theorem tex_doubled : forall a t, Forall doubled (tree_texts a) -> to_tex a = Ret t -> doubled t.
Proof.
  intros a t H E. apply tex_iff in E. revert H E. apply q_tex.
  - constructor.
  - apply doubled_app.
  - intros c Hc. apply dbl_char; [|constructor]. intros ->. apply Hc. left. reflexivity.
  - intros x Hx. apply dbl_char; [discriminate|]. apply doubled_app; [exact Hx|]. apply dbl_char; [discriminate|constructor].
  - intros x Hx. apply dbl_char; [discriminate|]. apply doubled_app; [exact Hx|]. apply dbl_char; [discriminate|constructor].
  - apply dbl_pair. constructor.
Qed.
Theorem tex_nested : forall a t, Forall nested (tree_texts a) -> to_tex a = Ret t -> nested t.
Proof.
  intros a t H E. apply tex_iff in E. revert H E. apply q_tex.
  - constructor.
  - apply nest_app.
  - intros c Hc. apply nest_char. intro X. apply Hc. right. exact X.
  - apply nest_round.
  - apply nest_curly.
  - apply (nest_app [92%N] [92%N]); apply nest_char; intro X; cbn in X; repeat (destruct X as [X|X]; [discriminate|]); exact X.
Qed.
