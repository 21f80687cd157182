(** The parser does not panic on texts that avoid the pieces it cannot handle. *)
From Verif Require Import Base Ast SmError Peg Grammar Climber Build SpecAst SpecSyntax SpecText SpecSafe.
From Verif Require Import ProofAst ProofPeg ProofGrammar ProofClimber ProofBuild ProofSym ProofSpace ProofAtom ProofLex ProofText ProofKeyword ProofStatement ProofShape.
Local Open Scope nat_scope.
Local Open Scope outcome_scope.

Fixpoint infixb (b l : str) : bool :=
  match strip_prefix b l with
  | Some _ => true
  | None => match l with [] => false | _ :: l' => infixb b l' end
  end.
Lemma infixb_sound : forall b l, infixb b l = true -> contains b l.
Proof.
  intros b l. induction l as [|c l IH]; cbn [infixb]; destruct (strip_prefix b _) as [k|] eqn:E; intro H; try discriminate.
  - apply strip_prefix_app in E. exists [], k. exact E.
  - apply strip_prefix_app in E. exists [], k. exact E.
  - destruct (IH H) as (x & y & F). exists (c :: x), y. rewrite F. reflexivity.
Qed.
Lemma contains_app : forall b l w, contains b l -> contains b (l ++ w).
Proof. intros b l w (x & y & ->). exists x, (y ++ w). rewrite <- !app_assoc. reflexivity. Qed.
Lemma contains_pre : forall b p w, contains b w -> contains b (p ++ w).
Proof. intros b p w (x & y & ->). exists (p ++ x), y. rewrite <- app_assoc. reflexivity. Qed.

(** both cases of every letter *)
Definition cases (c : char) : list char :=
  let l := ascii_lower c in if ((97 <=? l) && (l <=? 122))%N then [l; (l - 32)%N] else [l].
Fixpoint variants (l : str) : list str :=
  match l with
  | [] => [[]]
  | c :: l' => flat_map (fun d => map (cons d) (variants l')) (cases c)
  end.
Lemma cases_in : forall a b, N.eqb (ascii_lower a) (ascii_lower b) = true -> In b (cases a).
Proof.
  intros a b H. apply N.eqb_eq in H. unfold cases. rewrite H. cbv zeta. unfold ascii_lower.
  destruct ((65 <=? b)%N && (b <=? 90)%N)%bool eqn:E.
  - apply andb_prop in E. destruct E as [E1 E2]. apply N.leb_le in E1. apply N.leb_le in E2.
    destruct (N.leb_spec 97 (b + 32)); [|lia]. destruct (N.leb_spec (b + 32) 122); [|lia]. cbn. right. left. lia.
  - destruct ((97 <=? b)%N && (b <=? 122)%N)%bool; left; reflexivity.
Qed.
Lemma variants_in : forall l w k, strip_prefix_insensitive l w = Some k -> exists v, In v (variants l) /\ w = v ++ k.
Proof.
  induction l as [|a l IH]; intros w k H; cbn in H.
  - injection H as ->. exists []. split; [left; reflexivity|reflexivity].
  - destruct w as [|b w]; [discriminate|]. destruct (N.eqb _ _) eqn:E; [|discriminate]. destruct (IH _ _ H) as (v & Hv & ->).
    exists (b :: v). split; [|reflexivity]. cbn [variants]. apply in_flat_map. exists b. split; [apply cases_in; exact E|].
    apply in_map. exact Hv.
Qed.

Section Config.
  Variable U : unicode.
  Variable bad : list str.
  Variable nox apart : bool.

  Definition Safe (w : str) : Prop := avoids bad w /\ (nox = true -> nameless U w) /\ (apart = true -> ~ side_by_side U w).
  Lemma Safe_suffix : forall p w, Safe (p ++ w) -> Safe w.
  Proof.
    intros p w (H1 & H2 & H3). split; [|split].
    - intros b Hb C. apply (H1 b Hb). apply contains_pre. exact C.
    - intros N c Hc. apply (H2 N). apply in_app_iff. auto.
    - intros A (a & c & ws & d & b & E & H). apply (H3 A). exists (p ++ a), c, ws, d, b. rewrite E, <- app_assoc. auto.
  Qed.

  Definition lettered (l : str) : bool := existsb (fun c => ascii_letter c || (c =? 95)%N) l.
  Definition spoilt (l : str) : bool := existsb (fun b => infixb b l) bad.
  Definition no_str (l : str) : bool := spoilt l || (nox && lettered l).
  Definition no_insens (l : str) : bool := forallb no_str (variants l).
  Definition no_class (k : uclass) : bool := match k with XidStart => nox | _ => false end.

  Lemma letter_head : forall c, (ascii_letter c || (c =? 95)%N)%bool = true -> word_head U c = true.
  Proof.
    intros c H. unfold word_head. apply orb_prop in H. destruct H as [H|H]; [|rewrite H; apply orb_true_r]. unfold xid_start.
    destruct (N.ltb_spec c 128) as [L|L]; [rewrite H; reflexivity|]. exfalso. unfold ascii_letter in H.
    apply orb_prop in H. destruct H as [H|H]; apply andb_prop in H; destruct H as [_ H]; apply N.leb_le in H; lia.
  Qed.
  Lemma no_str_sound : forall l w, no_str l = true -> Safe (l ++ w) -> False.
  Proof.
    intros l w H (H1 & H2 & _). unfold no_str in H. apply orb_prop in H. destruct H as [H|H].
    - apply existsb_exists in H. destruct H as (b & Hb & E). apply (H1 b Hb). apply contains_app. apply infixb_sound. exact E.
    - apply andb_prop in H. destruct H as [N L]. apply existsb_exists in L. destruct L as (c & Hc & E). apply letter_head in E.
      rewrite (H2 N c) in E; [discriminate|]. apply in_app_iff. auto.
  Qed.
  Lemma no_insens_sound : forall l w k, no_insens l = true -> Safe w -> strip_prefix_insensitive l w = Some k -> False.
  Proof.
    intros l w k H Hs E. apply variants_in in E. destruct E as (v & Hv & ->). unfold no_insens in H. rewrite forallb_forall in H.
    exact (no_str_sound v k (H v Hv) Hs).
  Qed.
  Lemma no_class_sound : forall k c w, no_class k = true -> Safe (c :: w) -> in_class U k c = true -> False.
  Proof.
    intros [] c w H (_ & H2 & _) E; try discriminate. cbn [no_class in_class] in H, E. assert (N : word_head U c = false) by (apply (H2 H); left; reflexivity).
    unfold word_head in N. rewrite E in N. discriminate.
  Qed.

  (** ** What the builder needs of a pair *)
  (** the rules of the inner pairs: 0 is the start, 2 an error *)
  Definition step (r : rule) (x : nat) (c : rule) : nat :=
    match r with
    | R_expression => match x, c with 0, R_expr => 1 | 1, R_eos => 1 | _, _ => 2 end
    | R_expr => match x, c with 0, R_term => 1 | 1, R_Dot => 2 | 1, _ => 0 | _, _ => 2 end
    | R_term => match x, c with 0, R_Prefix => 0 | 0, R_node => 1 | 1, R_Suffix => 1 | 1, R_slice => 1 | _, _ => 2 end
    | R_node => match x with 0 => match c with R_expr | R_space_call | R_data | R_apply_call => 1 | _ => 2 end | _ => x end
    | R_space_call => match c with R_Symbol | R_Integer => x | _ => 2 end
    | R_data => match x with
                | 0 => match c with R_list | R_Special | R_REPL | R_Slot | R_Integer | R_String | R_Symbol => 1 | _ => 2 end
                | _ => x
                end
    | R_apply_call => match x, c with 0, _ => 1 | 1, R_apply => 1 | _, _ => 2 end
    | R_apply => match c with R_Comma | R_apply_kv => x | _ => 2 end
    | R_apply_kv => match c with R_SYMBOL | R_Colon | R_expr => x | _ => 2 end
    | R_list => match c with R_Comma | R_expr => x | _ => 2 end
    | R_slice => match c with R_Comma | R_index => x | _ => 2 end
    | R_index => match c with R_Colon | R_Start | R_End | R_Step | R_expr => x | _ => 2 end
    | R_Start | R_End | R_Step => match x with 0 => match c with R_expr => 1 | _ => 2 end | _ => x end
    | R_String => match c with R_SYMBOL | R_StringNormal | R_StringBlock => x | _ => 2 end
    | R_StringBlock => match c with R_Quotation | R_StringText => x | _ => 2 end
    | R_Slot => match c with R_SYMBOL | R_Integer => x | _ => 2 end
    | R_program => match x with 0 => match c with R_expression => 1 | R_EOI => 0 | _ => 2 end | _ => x end
    | _ => x
    end.
  Definition final (r : rule) (x : nat) : bool :=
    match r with
    | R_expression | R_expr | R_term | R_node | R_data | R_apply_call | R_Start | R_End | R_Step => Nat.eqb x 1
    | _ => Nat.ltb x 2
    end.
  Definition digit_or_mark (c : char) : bool := (ascii_digit c || (c =? 182) || (c =? 8267))%N.
  Definition repl_mark (c : char) : bool := ((c =? 182) || (c =? 8267))%N.
  Definition text_ok (r : rule) (x : str) : Prop :=
    match r with
    | R_Integer => x <> [] /\ forallb ascii_digit x = true
    | R_Prefix => In x [lit "+"; lit "-"; lit "*"; lit "!"]
    | R_Suffix => In x [lit "!"; lit "!!"]
    | R_Special => In x [lit "null"; lit "true"; lit "false"]
    | R_REPL => forallb digit_or_mark x = true /\ existsb repl_mark x = true
    | R_StringNormal => 2 <= length x
    | _ => True
    end.
  Definition fit (r : rule) (x : str) (l : list (tree rule)) : Prop :=
    text_ok r x /\ final r (reads (step r) 0 l) = true.

  (** ** The grammar meets it *)
  Notation mute := (mute grammar no_str no_insens no_class).
  Notation trans := (trans grammar skip_body no_str no_insens no_class 8).
  Notation words := (words grammar skip_body no_str no_insens no_class 8).
  Definition in_words (allowed : list str) (l : option (list str)) : bool :=
    match l with Some l => forallb (fun w => existsb (str_eqb w) allowed) l | None => false end.
  Definition text_chk (r : rule) (a : pexp rule) : bool :=
    match r with
    | R_Integer => Nat.leb 1 (least grammar 8 a) && chars grammar ascii_digit (fun _ => false) 8 a
    | R_Prefix => in_words [lit "+"; lit "-"; lit "*"; lit "!"] (words 8 a)
    | R_Suffix => in_words [lit "!"; lit "!!"] (words 8 a)
    | R_Special => in_words [lit "null"; lit "true"; lit "false"] (words 8 a)
    | R_REPL => chars grammar digit_or_mark (fun _ => false) 8 a && has grammar repl_mark 8 a
    | R_StringNormal => Nat.leb 2 (least grammar 8 a)
    | _ => true
    end.
  Definition is_space_call (r : rule) : bool := match r with R_space_call => true | _ => false end.
  Definition rule_chk (r : rule) (a : pexp rule) (k : atomicity) : bool :=
    match trans (step r) 12 a k [0] with Some l => forallb (final r) l | None => false end.
  Fixpoint chk (e : pexp rule) : bool :=
    match e with
    | EThen a b | EElse a b => if chk a then chk b else false
    | ESeq a | EOpt a | ERep a | ERestore a | EAtomic _ a | EPush a => chk a
    | ERule r a => if chk a then if mute 8 a then true else
        if text_chk r a then if rule_chk r a NonAtomic then rule_chk r a CompoundAtomic else false else false else false
    | _ => true
    end.

  Notation Run := (run U grammar skip_body).
  Lemma in_words_sound : forall allowed l w, in_words allowed (Some l) = true -> In w l -> In w allowed.
  Proof.
    intros allowed l w H Hw. cbn [in_words] in H. rewrite forallb_forall in H. specialize (H w Hw). apply existsb_exists in H.
    destruct H as (v & Hv & E). apply str_eqb_eq in E. subst v. exact Hv.
  Qed.
  Lemma words_text : forall allowed a f k s s' ts x, in_words allowed (words 8 a) = true -> Safe (rest s) -> Run f a k false s = POk s' ts ->
    rest s = x ++ rest s' -> In x allowed.
  Proof.
    intros allowed a f k s s' ts x H Hs E Ex. destruct (words 8 a) as [l|] eqn:W; [|discriminate].
    destruct (words_sound U grammar skip_body Safe Safe_suffix no_str no_insens no_class no_str_sound no_insens_sound no_class_sound 8 _ _ _ _ _ _ _ _ _ W Hs E) as (w & Ew & Hw).
    rewrite Ex in Ew. apply app_inv_tail in Ew. subst w. exact (in_words_sound _ _ _ H Hw).
  Qed.
  Lemma no_classes : forall p k c, (fun _ : uclass => false) k = true -> in_class U k c = true -> p c = true.
  Proof. discriminate. Qed.
  Lemma text_chk_sound : forall r a f k s s' ts x, text_chk r a = true -> Safe (rest s) -> Run f a k false s = POk s' ts ->
    rest s = x ++ rest s' -> text_ok r x.
  Proof.
    intros r a f k s s' ts x H Hs E Ex. destruct r; try exact Logic.I; cbn [text_chk text_ok] in *.
    - apply andb_prop in H. destruct H as [H1 H2]. apply Nat.leb_le in H1. split.
      + pose proof (least_sound U grammar skip_body _ 8 _ _ _ _ _ _ E) as L. rewrite Ex, app_length in L. intros ->. cbn [length] in L. lia.
      + pose proof (chars_sound U grammar skip_body _ _ (no_classes _) f 8 _ k false s H2) as C. rewrite E in C. destruct C as (w & Ew & Hw).
        rewrite Ex in Ew. apply app_inv_tail in Ew. subst w. exact Hw.
    - apply Nat.leb_le in H. pose proof (least_sound U grammar skip_body _ 8 _ _ _ _ _ _ E) as L. rewrite Ex, app_length in L. lia.
    - exact (words_text _ _ _ _ _ _ _ _ H Hs E Ex).
    - apply andb_prop in H. destruct H as [H1 H2]. split.
      + pose proof (chars_sound U grammar skip_body _ _ (no_classes _) f 8 _ k false s H1) as C. rewrite E in C. destruct C as (w & Ew & Hw).
        rewrite Ex in Ew. apply app_inv_tail in Ew. subst w. exact Hw.
      + destruct (has_sound U grammar skip_body _ _ 8 _ _ _ _ _ _ H2 E) as (w & Ew & Hw).
        rewrite Ex in Ew. apply app_inv_tail in Ew. subst w. exact Hw.
    - exact (words_text _ _ _ _ _ _ _ _ H Hs E Ex).
    - exact (words_text _ _ _ _ _ _ _ _ H Hs E Ex).
  Qed.
  Lemma rule_chk_sound : forall r a k f s s' ts, rule_chk r a k = true -> Safe (rest s) -> Run f a k false s = POk s' ts ->
    final r (reads (step r) 0 ts) = true.
  Proof.
    intros r a k f s s' ts H Hs E. unfold rule_chk in H. destruct (trans (step r) 12 a k [0]) as [l|] eqn:T; [|discriminate].
    rewrite forallb_forall in H. apply H.
    exact (trans_sound U grammar skip_body Safe Safe_suffix no_str no_insens no_class no_str_sound no_insens_sound no_class_sound 8 (step r) _ _ _ _ _ _ _ _ _ 0 T (or_introl eq_refl) Hs E).
  Qed.
  Notation rules_sound := (sound_rules U grammar skip_body Safe fit).
  Lemma chk_sound : forall e, chk e = true -> rules_sound e.
  Proof.
    induction e; intro H; cbn [chk sound_rules] in *; try exact Logic.I; try (exact (IHe H)).
    - destruct (chk e1); [|discriminate]. auto.
    - destruct (chk e1); [|discriminate]. auto.
    - destruct (chk e); [|discriminate]. split; [auto|]. intros f k s s' ts x Hk Hs E Ex.
      destruct (mute 8 e) eqn:M.
      { destruct (mute_sound U grammar skip_body Safe Safe_suffix no_str no_insens no_class no_str_sound no_insens_sound no_class_sound _ _ _ _ _ _ _ _ M Hs E). }
      destruct (text_chk r e) eqn:T; [|discriminate]. destruct (rule_chk r e NonAtomic) eqn:R1; [|discriminate].
      split; [exact (text_chk_sound _ _ _ _ _ _ _ _ T Hs E Ex)|]. destruct k; [exact (rule_chk_sound _ _ _ _ _ _ _ R1 Hs E)|exact (rule_chk_sound _ _ _ _ _ _ _ H Hs E)|congruence].
  Qed.
End Config.

(** ** The builder does not panic on such pairs *)
Notation good := (fine fit).
Definition calm {A} (o : outcome A) : Prop := exists a, o = Ret a.
Lemma calm_ret : forall A (a : A), calm (Ret a). Proof. intros A a. exists a. reflexivity. Qed.
Lemma calm_bind : forall A B (o : outcome A) (f : A -> outcome B), calm o -> (forall a, calm (f a)) -> calm (obind o f).
Proof. intros A B o f [a ->] H. apply H. Qed.
Lemma calm_mapM : forall A B (f : A -> outcome B) l, Forall (fun c => calm (f c)) l -> calm (omapM f l).
Proof.
  intros A B f l H. induction H as [|c l Hc Hl IH]; [apply calm_ret|]. cbn [omapM]. apply calm_bind; [exact Hc|]. intro b.
  apply calm_bind; [exact IH|]. intro. apply calm_ret.
Qed.
Lemma good_inv : forall t, good t -> fit (t_rule t) (t_text t) (t_inner t) /\ Forall good (t_inner t).
Proof. intros t H. destruct H. auto. Qed.

Lemma reads_stuck : forall stp l, (forall c, stp 2 c = 2) -> reads (R := rule) stp 2 l = 2.
Proof. intros stp l H. induction l as [|c l IH]; [reflexivity|]. unfold reads in *. cbn [fold_left]. rewrite H. exact IH. Qed.
Lemma reads_all : forall stp (ok : rule -> bool), (forall c, stp 0 c = if ok c then 0 else 2) -> (forall c, stp 2 c = 2) ->
  forall l, Nat.ltb (reads stp 0 l) 2 = true -> Forall (fun c => ok (t_rule c) = true) l.
Proof.
  intros stp ok H0 H2 l. induction l as [|c l IH]; intro H; [constructor|]. unfold reads in H. cbn [fold_left] in H. rewrite H0 in H.
  change (rule_of c) with (t_rule c) in H. destruct (ok (t_rule c)) eqn:E; [constructor; [exact E|exact (IH H)]|].
  change (fold_left _ l 2) with (reads stp 2 l) in H. rewrite reads_stuck in H; [discriminate|exact H2].
Qed.
Lemma reads_first : forall stp (ok : rule -> bool), (forall c, stp 0 c = if ok c then 1 else 2) -> (forall c, stp 2 c = 2) ->
  forall l, Nat.eqb (reads stp 0 l) 1 = true -> exists c l', l = c :: l' /\ ok (t_rule c) = true.
Proof.
  intros stp ok H0 H2 [|c l] H; [discriminate|]. unfold reads in H. cbn [fold_left] in H. rewrite H0 in H.
  change (rule_of c) with (t_rule c) in H. destruct (ok (t_rule c)) eqn:E; [eauto|].
  change (fold_left _ l 2) with (reads stp 2 l) in H. rewrite reads_stuck in H; [discriminate|exact H2].
Qed.
Ltac children H r := let F := fresh "F" in
  pose proof (proj2 (proj1 H)) as F; cbn [final] in F;
  first [ apply (reads_all (step r) (fun c => Nat.eqb (step r 0 c) 0)) in F; [|intros []; reflexivity|intros []; reflexivity]
        | apply (reads_first (step r) (fun c => Nat.eqb (step r 0 c) 1)) in F; [|intros []; reflexivity|intros []; reflexivity] ].

Lemma integer_calm : forall t, good t -> t_rule t = R_Integer -> calm (unwrap (int_from_str_radix (t_text t) 10)).
Proof.
  intros t H R. apply good_inv in H. destruct H as [[H _] _]. rewrite R in H. destruct H as [N D]. rewrite (int_digits _ N D). apply calm_ret.
Qed.

Section Build.
  Variable fname input : str.
  Lemma parse_integer_calm : forall t, good t -> t_rule t = R_Integer -> calm (parse_integer t).
  Proof. intros t H R. unfold parse_integer. apply calm_bind; [exact (integer_calm t H R)|]. intro. apply calm_ret. Qed.
  Lemma parse_special_calm : forall t, good t -> t_rule t = R_Special -> calm (parse_special t).
  Proof.
    intros t H R. apply good_inv in H. destruct H as [[H _] _]. rewrite R in H. unfold parse_special.
    destruct H as [<-|[<-|[<-|[]]]]; eexists; reflexivity.
  Qed.
  Lemma digits_filter : forall x, forallb digit_or_mark x = true ->
    forallb digit (filter (fun c => negb ((c =? 182) || (c =? 8267))%N) x) = true.
  Proof.
    induction x as [|c x IH]; intro H; [reflexivity|]. cbn [forallb] in H. apply andb_prop in H. destruct H as [Hc Hx]. cbn [filter].
    destruct (negb ((c =? 182) || (c =? 8267))%N) eqn:E; [|exact (IH Hx)]. cbn [forallb]. rewrite (IH Hx), andb_true_r.
    unfold digit_or_mark in Hc. rewrite <- orb_assoc in Hc. apply negb_true_iff in E. rewrite E, orb_false_r in Hc. exact Hc.
  Qed.
  Lemma parse_in_out_calm : forall t, good t -> t_rule t = R_REPL -> calm (parse_in_out fname input t).
  Proof.
    intros t H R. apply good_inv in H. destruct H as [[H _] _]. rewrite R in H. destruct H as [D M]. unfold parse_in_out. cbv zeta.
    apply calm_bind.
    - pose proof (digits_filter _ D) as F. match type of F with forallb _ ?l = _ => destruct l as [|c n]; [apply calm_ret|] end.
      rewrite int_digits; [apply calm_ret|discriminate|exact F].
    - intro i. apply calm_bind; [|intro; apply calm_ret]. apply existsb_exists in M. destruct M as (c & Hc & E).
      assert (I : In c (filter (fun c => ((c =? 182) || (c =? 8267))%N) (t_text t))) by (apply filter_In; auto).
      match type of I with In _ ?l => destruct l as [|d l'] eqn:F; [destruct I|] end.
      assert (Id : In d (filter (fun c => ((c =? 182) || (c =? 8267))%N) (t_text t))) by (rewrite F; left; reflexivity).
      apply filter_In in Id. destruct Id as [_ Ed]. apply orb_prop in Ed. destruct Ed as [Ed|Ed]; apply N.eqb_eq in Ed; subst d; apply calm_ret.
  Qed.
  Lemma parse_slot_calm : forall t, good t -> t_rule t = R_Slot -> calm (parse_slot fname input t).
  Proof.
    intros t H R. apply good_inv in H. rewrite R in H. children H R_Slot. unfold parse_slot. cbv zeta. apply calm_bind; [|intro; apply calm_ret].
    apply calm_mapM. destruct H as [_ G]. rewrite Forall_forall in *. intros c Hc. specialize (F c Hc). specialize (G c Hc).
    destruct (t_rule c) eqn:E; try discriminate F.
    - apply calm_bind; [exact (integer_calm c G E)|]. intro. apply calm_ret.
    - apply calm_ret.
  Qed.
  Lemma string_block_calm : forall l s, Forall (fun c => Nat.eqb (step R_StringBlock 0 (t_rule c)) 0 = true) l -> calm (parse_string_block l s).
  Proof.
    intros l. induction l as [|c l IH]; intros s F; [apply calm_ret|]. inversion F as [|? ? Fc Fl]; subst. cbn [parse_string_block].
    destruct (t_rule c); try discriminate Fc; apply IH; exact Fl.
  Qed.
  Lemma string_loop_calm : forall l s, Forall good l -> Forall (fun c => Nat.eqb (step R_String 0 (t_rule c)) 0 = true) l -> calm (parse_string_loop l s).
  Proof.
    intros l. induction l as [|c l IH]; intros s G F; [apply calm_ret|]. inversion F as [|? ? Fc Fl]; subst. inversion G as [|? ? Gc Gl]; subst.
    cbn [parse_string_loop]. apply good_inv in Gc. destruct (t_rule c) eqn:E; try discriminate Fc.
    - apply calm_bind; [|intro; apply IH; assumption]. destruct Gc as [[L _] _]. cbn [text_ok] in L. unfold unquote.
      destruct (t_text c) as [|a [|b x]]; [cbn [length] in L; lia|cbn [length] in L; lia|apply calm_ret].
    - apply calm_bind; [|intro; apply IH; assumption]. children Gc R_StringBlock. apply string_block_calm. exact F0.
    - apply IH; assumption.
  Qed.
  Lemma parse_string_calm : forall t, good t -> t_rule t = R_String -> calm (parse_string t).
  Proof. intros t H R. apply good_inv in H. rewrite R in H. children H R_String. apply string_loop_calm; [apply H|exact F]. Qed.
  Lemma space_call_calm : forall t, good t -> t_rule t = R_space_call -> calm (parse_space_call fname input t).
  Proof.
    intros t H R. apply good_inv in H. rewrite R in H. children H R_space_call. unfold parse_space_call. apply calm_bind; [|intro; apply calm_ret].
    apply calm_mapM. destruct H as [_ G]. rewrite Forall_forall in *. intros c Hc. specialize (F c Hc). specialize (G c Hc).
    destruct (t_rule c) eqn:E; try discriminate F; [|apply calm_ret]. apply calm_bind; [exact (parse_integer_calm c G E)|]. intro. apply calm_ret.
  Qed.

  (** trees by height *)
  Fixpoint height (t : tree rule) : nat := match t with Node _ _ _ _ l => S (fold_right (fun c n => Nat.max (height c) n) 0 l) end.
  Lemma height_in : forall t c, In c (t_inner t) -> height c < height t.
  Proof.
    intros [r a b x l] c Hc. cbn [t_inner] in Hc. cbn [height]. induction l as [|d l IH]; [destruct Hc|]. cbn [fold_right].
    destruct Hc as [->|Hc]; [lia|]. specialize (IH Hc). lia.
  Qed.

  Section Rec.
    Variable rec : tree rule -> outcome ast.
    Variable n : nat.
    Hypothesis Hrec : forall c, height c < n -> good c -> t_rule c = R_expr -> calm (rec c).
    Ltac down := match goal with Hc : In ?c (t_inner ?t) |- _ => pose proof (height_in t c Hc) end.

    Lemma kv_loop_calm : forall l k v, Forall (fun c => height c < n) l -> Forall good l -> Forall (fun c => Nat.eqb (step R_apply_kv 0 (t_rule c)) 0 = true) l ->
      calm (parse_apply_kv_loop rec l k v).
    Proof.
      induction l as [|c l IH]; intros k v L G F; [apply calm_ret|]. inversion L; inversion G; inversion F; subst. cbn [parse_apply_kv_loop].
      destruct (t_rule c) eqn:E; try discriminate; [|apply IH; assumption|apply IH; assumption]. apply calm_bind; [apply Hrec; assumption|]. intro. apply IH; assumption.
    Qed.
    Lemma inner_lt : forall t, height t <= n -> Forall (fun c => height c < n) (t_inner t).
    Proof. intros t H. apply Forall_forall. intros c Hc. down. lia. Qed.
    Lemma kv_calm : forall t, height t <= n -> good t -> t_rule t = R_apply_kv -> calm (parse_apply_kv rec t).
    Proof. intros t L H R. apply good_inv in H. rewrite R in H. children H R_apply_kv. apply kv_loop_calm; [apply inner_lt; exact L|apply H|exact F]. Qed.
    Lemma apply_loop_calm : forall l a k, Forall (fun c => height c < n) l -> Forall good l -> Forall (fun c => Nat.eqb (step R_apply 0 (t_rule c)) 0 = true) l ->
      calm (parse_apply_loop rec l a k).
    Proof.
      induction l as [|c l IH]; intros a k L G F; [apply calm_ret|]. inversion L; inversion G; inversion F; subst. cbn [parse_apply_loop].
      destruct (t_rule c) eqn:E; try discriminate; [|apply IH; assumption]. apply calm_bind; [apply kv_calm; [lia|assumption|exact E]|].
      intros [key v]. destruct key; apply IH; assumption.
    Qed.
    Lemma apply_calm : forall t, height t <= n -> good t -> t_rule t = R_apply -> calm (parse_apply fname input rec t).
    Proof.
      intros t L H R. apply good_inv in H. rewrite R in H. children H R_apply. unfold parse_apply.
      apply calm_bind; [apply apply_loop_calm; [apply inner_lt; exact L|apply H|exact F]|]. intros [a k]. apply calm_ret.
    Qed.
    Lemma applies_state : forall l, Nat.eqb (reads (step R_apply_call) 1 l) 1 = true -> Forall (fun c => t_rule c = R_apply) l.
    Proof.
      induction l as [|c l IH]; intro H; [constructor|]. unfold reads in H. cbn [fold_left] in H. change (rule_of c) with (t_rule c) in H.
      assert (D : t_rule c = R_apply \/ step R_apply_call 1 (t_rule c) = 2) by (destruct (t_rule c); auto).
      destruct D as [D|D]; [constructor; [exact D|apply IH; rewrite D in H; exact H]|]. rewrite D in H.
      change (fold_left _ l 2) with (reads (step R_apply_call) 2 l) in H. rewrite reads_stuck in H; [discriminate|]. intros []; reflexivity.
    Qed.
    Lemma apply_call_calm : forall t, height t <= n -> good t -> t_rule t = R_apply_call -> calm (parse_apply_call fname input rec t).
    Proof.
      intros t L H R. apply good_inv in H. rewrite R in H. unfold parse_apply_call. pose proof (inner_lt t L) as LI. destruct H as [[_ F] G]. cbn [final] in F.
      destruct (t_inner t) as [|h l]; [discriminate|]. apply applies_state in F. apply calm_bind; [|intro; apply calm_ret]. apply calm_mapM.
      inversion LI; inversion G; subst. rewrite Forall_forall in *. intros c Hc. rewrite (F c Hc). apply apply_calm; auto. assert (height c < n) by auto. lia.
    Qed.
    Lemma bound_calm : forall c, height c < n -> good c -> (t_rule c = R_Start \/ t_rule c = R_End \/ t_rule c = R_Step) ->
      exists e l, t_inner c = e :: l /\ calm (rec e).
    Proof.
      intros c L G H. apply good_inv in G.
      assert (F : exists e l, t_inner c = e :: l /\ t_rule e = R_expr).
      { destruct H as [E|[E|E]]; rewrite E in G.
        - children G R_Start. destruct F as (e & l & El & F). exists e, l. split; [exact El|]. destruct (t_rule e); try discriminate; reflexivity.
        - children G R_End. destruct F as (e & l & El & F). exists e, l. split; [exact El|]. destruct (t_rule e); try discriminate; reflexivity.
        - children G R_Step. destruct F as (e & l & El & F). exists e, l. split; [exact El|]. destruct (t_rule e); try discriminate; reflexivity. }
      destruct F as (e & l & El & F). exists e, l. split; [exact El|]. assert (Hi : In e (t_inner c)) by (rewrite El; left; reflexivity).
      down. apply Hrec; [lia| |exact F]. destruct G as [_ G]. rewrite Forall_forall in G. exact (G e Hi).
    Qed.
    Lemma index_loop_calm : forall t l a b c, Forall (fun c => height c < n) l -> Forall good l -> Forall (fun c => Nat.eqb (step R_index 0 (t_rule c)) 0 = true) l ->
      calm (parse_index_loop fname input rec t l a b c).
    Proof.
      intros t. induction l as [|d l IH]; intros a b c L G F; [apply calm_ret|]. inversion L; inversion G; inversion F; subst. cbn [parse_index_loop].
      destruct (t_rule d) eqn:E; try discriminate; [apply Hrec; assumption| | | |apply IH; assumption].
      all: destruct (bound_calm d) as (e & k & -> & C); auto; apply calm_bind; [exact C|]; intro; apply IH; assumption.
    Qed.
    Lemma index_calm : forall t, height t <= n -> good t -> t_rule t = R_index -> calm (parse_index fname input rec t).
    Proof. intros t L H R. apply good_inv in H. rewrite R in H. children H R_index. apply index_loop_calm; [apply inner_lt; exact L|apply H|exact F]. Qed.
    Lemma slice_calm : forall t, height t <= n -> good t -> t_rule t = R_slice -> calm (parse_slice fname input rec t).
    Proof.
      intros t L H R. apply good_inv in H. rewrite R in H. children H R_slice. unfold parse_slice. apply calm_bind; [|intro; apply calm_ret].
      apply calm_mapM. destruct H as [_ G]. rewrite Forall_forall in *. intros c Hc. specialize (F c Hc). specialize (G c Hc). down.
      destruct (t_rule c) eqn:E; try discriminate F; [|apply calm_ret]. apply calm_bind; [apply index_calm; [lia|exact G|exact E]|]. intro. apply calm_ret.
    Qed.
    Lemma list_calm : forall t, height t <= n -> good t -> t_rule t = R_list -> calm (parse_list fname input rec t).
    Proof.
      intros t L H R. apply good_inv in H. rewrite R in H. children H R_list. unfold parse_list. apply calm_bind; [|intro; apply calm_ret].
      apply calm_mapM. destruct H as [_ G]. rewrite Forall_forall in *. intros c Hc. specialize (F c Hc). specialize (G c Hc). down.
      destruct (t_rule c) eqn:E; try discriminate F; [|apply calm_ret]. apply calm_bind; [apply Hrec; [lia|exact G|exact E]|]. intro. apply calm_ret.
    Qed.
    Lemma data_calm : forall t, height t <= n -> good t -> t_rule t = R_data -> calm (parse_data fname input rec t).
    Proof.
      intros t L H R. apply good_inv in H. rewrite R in H. children H R_data. destruct F as (c & l & El & F). unfold parse_data. rewrite El.
      assert (Hc : In c (t_inner t)) by (rewrite El; left; reflexivity). down. destruct H as [_ G]. rewrite Forall_forall in G. specialize (G c Hc).
      destruct (t_rule c) eqn:E; try discriminate F.
      - apply list_calm; [lia|exact G|exact E].
      - apply parse_integer_calm; assumption.
      - apply parse_string_calm; assumption.
      - apply calm_ret.
      - apply parse_special_calm; assumption.
      - apply parse_slot_calm; assumption.
      - apply parse_in_out_calm; assumption.
    Qed.
    Lemma node_calm : forall t, height t <= n -> good t -> t_rule t = R_node -> calm (parse_node fname input rec t).
    Proof.
      intros t L H R. apply good_inv in H. rewrite R in H. children H R_node. destruct F as (c & l & El & F). unfold parse_node. rewrite El.
      assert (Hc : In c (t_inner t)) by (rewrite El; left; reflexivity). down. destruct H as [_ G]. rewrite Forall_forall in G. specialize (G c Hc).
      destruct (t_rule c) eqn:E; try discriminate F.
      - apply Hrec; [lia|exact G|exact E].
      - apply apply_call_calm; [lia|exact G|exact E].
      - apply space_call_calm; assumption.
      - apply data_calm; [lia|exact G|exact E].
    Qed.
    Lemma prefixes_calm : forall l b, Forall (fun p => In (fst p) [lit "+"; lit "-"; lit "*"; lit "!"]) l -> calm (apply_prefixes l b).
    Proof.
      induction l as [|[x p] l IH]; intros b H; [apply calm_ret|]. inversion H as [|? ? Hx Hl]; subst. cbn [apply_prefixes fst] in *.
      apply calm_bind; [|intro; apply IH; exact Hl]. destruct Hx as [<-|[<-|[<-|[<-|[]]]]]; eexists; reflexivity.
    Qed.
    Lemma term_loop_calm : forall l x b pre, Forall (fun c => height c < n) l -> Forall good l -> Nat.eqb (reads (step R_term) x l) 1 = true ->
      Forall (fun p => In (fst p) [lit "+"; lit "-"; lit "*"; lit "!"]) pre -> calm (parse_term_loop fname input rec l b pre).
    Proof.
      induction l as [|c l IH]; intros x b pre L G F Hp; [apply prefixes_calm; exact Hp|]. inversion L; inversion G; subst. cbn [parse_term_loop].
      unfold reads in F. cbn [fold_left] in F. change (rule_of c) with (t_rule c) in F.
      assert (D : step R_term x (t_rule c) = 2 \/ In (t_rule c) [R_node; R_Prefix; R_Suffix; R_slice]).
      { destruct x as [|[|x]]; destruct (t_rule c); cbn; auto 10. }
      destruct D as [D|D].
      { rewrite D in F. change (fold_left _ l 2) with (reads (step R_term) 2 l) in F. rewrite reads_stuck in F; [discriminate|intros []; reflexivity]. }
      destruct D as [E|[E|[E|[E|[]]]]]; rewrite <- E.
      - apply calm_bind; [apply node_calm; [lia|assumption|auto]|]. intro. eapply IH; eassumption.
      - eapply IH; try eassumption. constructor; [|exact Hp]. cbn [fst]. pose proof (good_inv c ltac:(assumption)) as X. rewrite <- E in X. exact (proj1 (proj1 X)).
      - apply calm_bind; [|intro; eapply IH; eassumption]. pose proof (good_inv c ltac:(assumption)) as X. rewrite <- E in X. destruct X as [[X _] _].
        destruct X as [<-|[<-|[]]]; eexists; reflexivity.
      - apply calm_bind; [apply slice_calm; [lia|assumption|auto]|]. intro. eapply IH; eassumption.
    Qed.
    Lemma term_calm : forall t, height t <= n -> good t -> t_rule t = R_term -> calm (parse_term fname input rec t).
    Proof. intros t L H R. apply good_inv in H. rewrite R in H. apply (term_loop_calm _ 0); [apply inner_lt; exact L|apply H|apply H|constructor]. Qed.
  End Rec.

  (** ** the climber *)
  Section Climb.
    Context {I T : Type}.
    Variable get : I -> option (Z * assoc).
    Variable infix : T -> I -> T -> outcome T.
    Inductive alternating : list (I * outcome T) -> Prop :=
    | alt_nil : alternating []
    | alt_cons : forall op o t a ps, (forall l r, calm (infix l op r)) -> alternating ps -> alternating ((op, o) :: (t, Ret a) :: ps).
    Definition tame (r : outcome (T * list (I * outcome T))) : Prop := r = OutOfFuel \/ exists a ps, r = Ret (a, ps) /\ alternating ps.
    Lemma climb_tame : forall f, (forall l m ps, alternating ps -> tame (climb_outer get infix f l m ps)) /\
      (forall m r ps, alternating ps -> tame (climb_inner get infix f m r ps)).
    Proof.
      assert (Stop : forall x ps, alternating ps -> tame (Ret (x, ps))) by (intros x ps H; right; eauto).
      induction f as [|f [IH1 IH2]]; [split; intros; left; reflexivity|]. split.
      - intros l m ps H. rewrite climb_outer_S. destruct H as [|op o t a ps Hop H]; [apply Stop; constructor|].
        assert (H' : alternating ((op, o) :: (t, Ret a) :: ps)) by (constructor; assumption).
        destruct (get op) as [[p s]|]; [|apply Stop; exact H']. destruct (p >=? m)%Z; [|apply Stop; exact H']. cbn [obind].
        destruct (IH2 p a ps H) as [->|(r & ps' & -> & H2)]; [left; reflexivity|]. cbn [obind]. destruct (Hop l r) as [v ->]. cbn [obind]. apply IH1. exact H2.
      - intros m r ps H. rewrite climb_inner_S. destruct H as [|op o t a ps Hop H]; [apply Stop; constructor|].
        assert (H' : alternating ((op, o) :: (t, Ret a) :: ps)) by (constructor; assumption).
        destruct (get op) as [[p s]|]; [|apply Stop; exact H']. match goal with |- tame (if ?b then _ else _) => destruct b end; [|apply Stop; exact H'].
        destruct (IH1 r p _ H') as [->|(r' & ps' & -> & H2)]; [left; reflexivity|]. cbn [obind]. apply IH2. exact H2.
    Qed.
    Lemma climb_calm : forall t a ps, alternating ps -> climb get infix ((t, Ret a) :: ps) <> OutOfFuel -> calm (climb get infix ((t, Ret a) :: ps)).
    Proof.
      intros t a ps H N. unfold climb in *. cbn [obind] in *. destruct (proj1 (climb_tame (S (2 * length ((t, Ret a : outcome T) :: ps)))) a 0%Z ps H) as [E|(r & ps' & E & _)];
        rewrite E in N |- *; cbn [obind] in N |- *; [congruence|]. apply calm_ret.
    Qed.
  End Climb.

  Lemma infix_calm : forall p op, t_rule op <> R_Dot -> forall l r, calm (infix_node p l op r).
  Proof. intros p op H l r. unfold infix_node. destruct (t_rule op); try apply calm_ret. congruence. Qed.
  Theorem expr_calm : forall n t, height t <= n -> good t -> t_rule t = R_expr -> calm (parse_expr fname input t).
  Proof.
    induction n as [|n IH]; intros t L G R; [destruct t; cbn [height] in L; lia|].
    assert (Hrec : forall c, height c < S n -> good c -> t_rule c = R_expr -> calm (parse_expr fname input c)) by (intros c Hc; apply IH; lia).
    pose proof (parse_expr_fuel fname input t) as NF. pose proof (inner_lt (S n) t L) as LI. apply good_inv in G. rewrite R in G. destruct G as [[_ F] G].
    destruct t as [r a b x l]. cbn [t_inner t_rule t_text] in *. cbn [parse_expr] in NF |- *. cbn [final] in F.
    set (g := fun c : tree rule => (c, primary fname input (parse_expr fname input) c)) in *.
    assert (Term : forall c, In c l -> t_rule c = R_term -> exists v, g c = (c, Ret v)).
    { intros c Hc E. unfold g, primary. rewrite E. rewrite Forall_forall in LI, G.
      destruct (term_calm (parse_expr fname input) (S n) Hrec c) as [v Hv]; [specialize (LI c Hc); lia|apply G; exact Hc|exact E|]. rewrite Hv. eauto. }
    assert (Alt : forall m k, length k < m -> incl k l -> Nat.eqb (reads (step R_expr) 1 k) 1 = true ->
      alternating (infix_node (get_position fname input (Node r a b x l))) (map g k)).
    { induction m as [|m IHm]; intros k Lk Hk Fk; [lia|]. destruct k as [|op [|t k]]; [constructor| |].
      - unfold reads in Fk. cbn [fold_left] in Fk. destruct (rule_of op); discriminate.
      - assert (E : t_rule op <> R_Dot /\ t_rule t = R_term /\ Nat.eqb (reads (step R_expr) 1 k) 1 = true).
        { unfold reads in Fk. cbn [fold_left] in Fk. change (rule_of op) with (t_rule op) in Fk. change (rule_of t) with (t_rule t) in Fk.
          assert (S2 : forall v, step R_expr 2 v = 2) by (intros []; reflexivity).
          assert (D1 : t_rule op <> R_Dot /\ step R_expr 1 (t_rule op) = 0 \/ step R_expr 1 (t_rule op) = 2) by (destruct (t_rule op); (right; reflexivity) || (left; split; [discriminate|reflexivity])).
          assert (D2 : t_rule t = R_term \/ step R_expr 0 (t_rule t) = 2) by (destruct (t_rule t); auto).
          assert (Bad : Nat.eqb (fold_left (fun y v => step R_expr y (rule_of v)) k 2) 1 = true -> False).
          { intro X. change (fold_left _ k 2) with (reads (step R_expr) 2 k) in X. rewrite reads_stuck in X; [discriminate|exact S2]. }
          destruct D1 as [[D1 E1]|E1]; rewrite E1 in Fk; [|rewrite S2 in Fk; destruct (Bad Fk)].
          destruct D2 as [D2|E2]; [|rewrite E2 in Fk; destruct (Bad Fk)]. rewrite D2 in Fk. auto. }
        destruct E as (E1 & E2 & E3). cbn [map]. destruct (Term t) as [v Hv]; [apply Hk; right; left; reflexivity|exact E2|]. rewrite Hv. unfold g at 1.
        constructor; [apply infix_calm; exact E1|]. apply IHm; [cbn [length] in Lk; lia| |exact E3]. intros c Hc. apply Hk. right. right. exact Hc. }
    destruct l as [|t k]; [discriminate|].
    assert (E : t_rule t = R_term /\ Nat.eqb (reads (step R_expr) 1 k) 1 = true).
    { unfold reads in F. cbn [fold_left] in F. change (rule_of t) with (t_rule t) in F.
      assert (D2 : t_rule t = R_term \/ step R_expr 0 (t_rule t) = 2) by (destruct (t_rule t); auto).
      destruct D2 as [D2|E2]; [rewrite D2 in F; auto|]. rewrite E2 in F. change (fold_left _ k 2) with (reads (step R_expr) 2 k) in F.
      rewrite reads_stuck in F; [discriminate|intros []; reflexivity]. }
    destruct E as [E1 E2]. cbn [map] in NF |- *. destruct (Term t) as [v Hv]; [left; reflexivity|exact E1|]. rewrite Hv in NF |- *.
    apply climb_calm; [|exact NF]. apply (Alt (S (length k))); [lia| |exact E2]. intros c Hc. right. exact Hc.
  Qed.
  Lemma eos_only : forall l, Nat.eqb (reads (step R_expression) 1 l) 1 = true -> Forall (fun c => t_rule c = R_eos) l.
  Proof.
    induction l as [|c l IH]; intro H; [constructor|]. unfold reads in H. cbn [fold_left] in H. change (rule_of c) with (t_rule c) in H.
    assert (D : t_rule c = R_eos \/ step R_expression 1 (t_rule c) = 2) by (destruct (t_rule c); auto).
    destruct D as [D|D]; [constructor; [exact D|apply IH; rewrite D in H; exact H]|]. rewrite D in H.
    change (fold_left _ l 2) with (reads (step R_expression) 2 l) in H. rewrite reads_stuck in H; [discriminate|]. intros []; reflexivity.
  Qed.
  Lemma eos_loop : forall l b e, Forall (fun c => t_rule c = R_eos) l -> exists e', parse_expression_loop fname input l b e = Ret (b, e').
  Proof. induction l as [|c l IH]; intros b e H; [exists e; reflexivity|]. inversion H as [|? ? Hc Hl]; subst. cbn [parse_expression_loop]. rewrite Hc. apply IH. exact Hl. Qed.
  (** an expression: one expr, then only ends of statements *)
  Lemma expression_inner : forall t, good t -> t_rule t = R_expression -> exists E l, t_inner t = E :: l /\ t_rule E = R_expr /\ Forall (fun c => t_rule c = R_eos) l.
  Proof.
    intros t H R. apply good_inv in H. rewrite R in H. destruct H as [[_ F] _]. cbn [final] in F. destruct (t_inner t) as [|E l]; [discriminate|].
    exists E, l. split; [reflexivity|]. unfold reads in F. cbn [fold_left] in F. change (rule_of E) with (t_rule E) in F.
    assert (D : t_rule E = R_expr \/ step R_expression 0 (t_rule E) = 2) by (destruct (t_rule E); auto).
    destruct D as [D|D]; rewrite D in F; [split; [exact D|exact (eos_only l F)]|].
    change (fold_left _ l 2) with (reads (step R_expression) 2 l) in F. rewrite reads_stuck in F; [discriminate|]. intros []; reflexivity.
  Qed.
  Theorem expression_calm : forall t, good t -> t_rule t = R_expression -> calm (parse_expression fname input t).
  Proof.
    intros t H R. destruct (expression_inner t H R) as (E & l & El & RE & Hl). unfold parse_expression. rewrite El. cbn [parse_expression_loop]. rewrite RE.
    apply good_inv in H. destruct H as [_ G]. rewrite El in G. inversion G; subst. destruct (expr_calm (height E) E (le_n _)) as [a ->]; auto. cbn [obind].
    destruct (eos_loop l a false Hl) as [e ->]. apply calm_ret.
  Qed.
End Build.

(** ** Whole texts *)
Section Whole.
  Variable U : unicode.
  Notation ev := (ev U grammar skip_body).
  Lemma expression_fails : forall s s' t, ev (ECall R_expression) NonAtomic false s (PErr s' t) -> fails U (ERestore (ECall R_expression)) NonAtomic false s.
  Proof.
    intros s s' t H. pose proof (ev_restore U grammar skip_body _ _ _ _ _ H) as X. cbn [restore_res] in X. destruct H as [_ [f E]].
    do 3 (destruct f as [|f]; [discriminate|]). unfold fails. cbn [Peg.run grammar] in E.
    destruct (run U grammar skip_body f _ NonAtomic false s) as [s1 t1|s1 t1| |]; try discriminate. cbn [emits] in E. injection E as <- <-.
    destruct s. exact X.
  Qed.
  Lemma expression_statement : forall p w st, plain_start w = true ->
    fails U (ECall R_statement) NonAtomic false (mkPs p w st) \/
    exists s T, ev (ECall R_statement) NonAtomic false (mkPs p w st) (POk s [T]) /\ t_rule T = R_expression.
  Proof.
    intros p w st Hp. destruct (call_decides U R_expression NonAtomic false (mkPs p w st) eq_refl) as [(s' & t & E)|(s' & t & E)].
    - destruct (rule_emits U R_expression _ NonAtomic _ _ _ eq_refl eq_refl E) as (T & -> & R). right. exists s', T. split; [|exact R].
      exact (statement_alt U p w st _ Hp (ok_restore U _ _ _ _ _ _ E)).
    - left. exact (statement_alt U p w st _ Hp (expression_fails _ _ _ E)).
  Qed.
  Lemma answers_skip : forall g x, spacing g = true -> answers U x -> answers U (g ++ x).
  Proof.
    intros g x Hg H f. pose proof (leading_spacing U f g x Hg) as E. destruct (H f) as [[a Ha]|Ha]; rewrite Ha in E; cbn [omap forget_result] in E;
      destruct (parse U f (g ++ x)) as [[b|e]|k|]; cbn in E; try discriminate; [left; eauto|]. injection E as ->. right. reflexivity.
  Qed.
  Theorem safe_answers : forall (Safe : str -> Prop) g x, (forall p w, Safe (p ++ w) -> Safe w) ->
    (forall r, sound_rules U grammar skip_body Safe fit (grammar r)) -> sound_rules U grammar skip_body Safe fit skip_body ->
    spacing g = true -> solid x = true -> plain_start x = true -> Safe x -> answers U (g ++ x).
  Proof.
    intros Safe g x SS SR SK Hg Hx Hp Hs. apply answers_skip; [exact Hg|]. intro f. destruct x as [|c x].
    { pose proof (text_empty U [] eq_refl f) as E. destruct (parse U f []) as [[b|e]|k|]; cbn in E; try discriminate. left. eauto. }
    destruct (expression_statement 0 (c :: x) [] Hp) as [E|(s & T & E & R)].
    - right. apply statement_refused; [exact Hx|discriminate|exact E].
    - assert (G : good T).
      { pose proof E as [NF [n En]]. pose proof (run_fine U grammar skip_body Safe SS fit SR SK n (ECall R_statement) NonAtomic (mkPs 0 (c :: x) []) Logic.I Hs) as Fi.
        rewrite En in Fi. inversion Fi. assumption. }
      destruct (expression_calm f (c :: x) T G R) as [[a e] D].
      destruct (program_first U _ _ _ Hx E) as [(s' & t & P)|(s' & more & P)]; unfold parse; rewrite P; [right; reflexivity|].
      cbn [app parse_pairs]. rewrite R, D. left. eexists. reflexivity.
  Qed.
End Whole.

(** ** The grammar under each configuration *)
Definition chk_all (bad : list str) (nox apart : bool) : bool :=
  forallb (fun r => (apart && is_space_call r) || chk bad nox (grammar r)) all_rules.
Definition flat_bad : list str := lit "(" :: troublemakers ++ byte_heads.
Definition spaced_bad : list str := troublemakers ++ byte_heads.
Lemma nameless_chk : chk_all troublemakers true false = true. Proof. vm_compute. reflexivity. Qed.
Lemma flat_chk : chk_all flat_bad false false = true. Proof. vm_compute. reflexivity. Qed.
Lemma spaced_chk : chk_all spaced_bad false true = true. Proof. vm_compute. reflexivity. Qed.
Lemma skip_chk : forall bad nox, chk bad nox skip_body = true. Proof. reflexivity. Qed.
Lemma chk_all_sound : forall U bad nox apart r, chk_all bad nox apart = true -> apart = false \/ r <> R_space_call ->
  sound_rules U grammar skip_body (Safe U bad nox apart) fit (grammar r).
Proof.
  intros U bad nox apart r H N. unfold chk_all in H. rewrite forallb_forall in H. specialize (H r (all_rules_complete r)). apply orb_prop in H.
  destruct H as [H|H]; [|apply chk_sound; exact H]. apply andb_prop in H. destruct H as [-> H]. destruct N as [N|N]; [discriminate|]. destruct r; try discriminate. congruence.
Qed.
Theorem nameless_answers : forall U g x, spacing g = true -> head_is white_space x = false -> comment_start x = false -> plain_start x = true ->
  avoids troublemakers x -> nameless U x -> answers U (g ++ x).
Proof.
  intros U g x Hg W S P A N. apply (safe_answers U (Safe U troublemakers true false)); auto.
  - apply Safe_suffix.
  - intro r. apply chk_all_sound; [exact nameless_chk|left; reflexivity].
  - apply chk_sound, skip_chk.
  - apply solid_spec; assumption.
  - split; [exact A|]. split; [auto|discriminate].
Qed.
Theorem flat_answers : forall U g x, spacing g = true -> head_is white_space x = false -> comment_start x = false -> plain_start x = true ->
  avoids troublemakers x -> ~ contains (lit "(") x -> avoids byte_heads x -> answers U (g ++ x).
Proof.
  intros U g x Hg W S P A N B. apply (safe_answers U (Safe U flat_bad false false)); auto.
  - apply Safe_suffix.
  - intro r. apply chk_all_sound; [exact flat_chk|left; reflexivity].
  - apply chk_sound, skip_chk.
  - apply solid_spec; assumption.
  - split; [|split; discriminate]. intros b [<-|Hb]; [exact N|]. apply in_app_iff in Hb. destruct Hb; [apply A|apply B]; assumption.
Qed.

(** ** Products: no two operands side by side *)
Section Spaced.
  Variable U : unicode.
  Notation Safe := (Safe U spaced_bad false true).
  Notation Run := (run U grammar skip_body).
  Notation ns := (no_str spaced_bad false).
  Notation ni := (no_insens spaced_bad false).
  Notation nc := (no_class false).
  Notation firstly p pc e := (first grammar skip_body ns ni nc 8 p pc 8 e).
  Notation lastly p pc e := (tail grammar skip_body ns ni nc 8 p pc 8 true e).
  Notation operand := (EElse (EElse (ERestore (ECall R_apply_call)) (ECall R_Number)) (ECall R_Symbol)).
  Notation blanks := (ERep (ESeq (EThen (ENot (ECall R_NEWLINE)) (ECall R_WHITESPACE)))).
  Let SS := Safe_suffix U spaced_bad false true.
  Let S1 := no_str_sound U spaced_bad false true.
  Let S2 := no_insens_sound U spaced_bad false true.
  Let S3 := no_class_sound U spaced_bad false true.
  Definition is_start (k : uclass) : bool := match k with XidStart => true | _ => false end.
  Definition is_name (k : uclass) : bool := match k with WhiteSpace => false | _ => true end.
  Definition is_white (k : uclass) : bool := match k with WhiteSpace => true | _ => false end.
  Definition is_continue (k : uclass) : bool := match k with XidContinue => true | _ => false end.

  Lemma head_first : forall e f k q s s' t, firstly (word_head U) is_start e = true -> Safe (rest s) -> Run f e k q s = POk s' t ->
    exists c w, rest s = c :: w /\ word_head U c = true.
  Proof.
    intros e f k q s s' t H Hs E. destruct (first_sound U grammar skip_body Safe SS ns ni nc S1 S2 S3 8 (word_head U) is_start) with (2 := H) (3 := Hs) (4 := E) as (c & w & Ew & Hc); [|eauto].
    intros [] c Hc Ec; try discriminate. unfold word_head. cbn [in_class] in Ec. rewrite Ec. reflexivity.
  Qed.
  Lemma last_of : forall p pc e f k q s s' t, (forall k c, pc k = true -> in_class U k c = true -> p c = true) -> lastly p pc e = true -> Safe (rest s) ->
    Run f e k q s = POk s' t -> exists v c, rest s = v ++ c :: rest s' /\ p c = true.
  Proof.
    intros p pc e f k q s s' t Hpc H Hs E. destruct (tail_sound U grammar skip_body Safe SS ns ni nc S1 S2 S3 8 p pc Hpc _ _ _ _ _ _ _ _ _ H Hs E) as [[X _]|X]; [discriminate|exact X].
  Qed.
  Notation name_char := (fun c => (xid_start U c || xid_continue U c)%bool).
  Lemma call_first : firstly (word_head U) is_start (ECall R_apply_call) = true. Proof. vm_compute. reflexivity. Qed.
  Lemma symbol_first : firstly (word_head U) is_start (ECall R_Symbol) = true. Proof. vm_compute. reflexivity. Qed.
  Lemma number_first : firstly digit (fun _ => false) (ECall R_Number) = true. Proof. vm_compute. reflexivity. Qed.
  Lemma call_last : lastly (N.eqb 41) (fun _ => false) (ECall R_apply_call) = true. Proof. vm_compute. reflexivity. Qed.
  Lemma symbol_last : lastly name_char is_name (ECall R_Symbol) = true. Proof. vm_compute. reflexivity. Qed.
  Lemma number_last : lastly digit (fun _ => false) (ECall R_Number) = true. Proof. vm_compute. reflexivity. Qed.
  Lemma symbol_stops : stops grammar skip_body 8 is_continue 8 true (ECall R_Symbol) = true. Proof. vm_compute. reflexivity. Qed.
  Lemma number_reads : forall k, k <> Atomic -> trans grammar skip_body ns ni nc 8 (step R_space_call) 8 (ECall R_Number) k [0] = Some [0].
  Proof. intros [] H; [vm_compute; reflexivity|vm_compute; reflexivity|congruence]. Qed.
  Lemma blanks_reads : forall k, k <> Atomic -> trans grammar skip_body ns ni nc 8 (step R_space_call) 8 blanks k [0] = Some [0].
  Proof. intros [] H; [vm_compute; reflexivity|vm_compute; reflexivity|congruence]. Qed.
  Lemma blanks_white : chars grammar white_space is_white 8 blanks = true. Proof. vm_compute. reflexivity. Qed.
  Lemma call_clean : clean grammar skip_body 8 (ERestore (ECall R_apply_call)) = true. Proof. vm_compute. reflexivity. Qed.
  Lemma number_clean : clean grammar skip_body 8 (EElse (ERestore (ECall R_apply_call)) (ECall R_Number)) = true. Proof. vm_compute. reflexivity. Qed.

  (** an operand: a number, or something that starts with a letter *)
  Definition after_number (s : pstate) : Prop := exists c, digit c = true /\ Safe (c :: rest s).
  Definition after_other (s : pstate) : Prop := exists c, Safe (c :: rest s) /\ (c = 41%N \/ (operand_end U c = true /\ stopped U XidContinue s)).
  Lemma safe_last : forall v c w, Safe (v ++ c :: w) -> Safe (c :: w). Proof. intros v c w. apply SS. Qed.
  Lemma operand_ok : forall f k s s' ts, k <> Atomic -> Safe (rest s) -> Run f operand k false s = POk s' ts ->
    (exists d w, rest s = d :: w /\ digit d = true /\ reads (step R_space_call) 0 ts = 0 /\ after_number s') \/
    (exists d w, rest s = d :: w /\ word_head U d = true /\ after_other s').
  Proof.
    intros f k s s' ts Hk Hs H. destruct f as [|f]; [discriminate|]. cbn [Peg.run] in H. destruct (Run f _ k false s) as [s1 t1|s1 t1| |] eqn:E1 in H; try discriminate.
    - injection H as <- <-. destruct f as [|f]; [discriminate|]. cbn [Peg.run] in E1. destruct (Run f _ k false s) as [s2 t2|s2 t2| |] eqn:E2 in E1; try discriminate.
      + injection E1 as <- <-. destruct f as [|f]; [discriminate|]. cbn [Peg.run] in E2. destruct (Run f _ k false s) as [s3 t3|s3 t3| |] eqn:E3 in E2; try discriminate.
        injection E2 as <- <-. right. destruct (head_first _ _ _ _ _ _ _ call_first Hs E3) as (d & w & Ed & Hd). exists d, w. split; [exact Ed|]. split; [exact Hd|].
        destruct (last_of _ _ _ _ _ _ _ _ _ (no_classes U _) call_last Hs E3) as (v & c & Ec & Hc). exists c. split; [apply (safe_last v); rewrite <- Ec; exact Hs|].
        left. apply N.eqb_eq in Hc. auto.
      + destruct (clean_sound U grammar skip_body _ _ _ _ _ _ _ _ call_clean E2) as [-> Er].
        destruct (Run f (ECall R_Number) k false s2) as [s3 t3|s3 t3| |] eqn:E3 in E1; try discriminate. cbn [prepend app] in E1. injection E1 as <- <-.
        rewrite <- Er in Hs |- *. left.
        destruct (first_sound U grammar skip_body Safe SS ns ni nc S1 S2 S3 8 digit (fun _ => false) (no_classes U _) _ _ _ _ _ _ _ _ number_first Hs E3) as (d & w & Ed & Hd).
        exists d, (w ++ rest s3). split; [exact Ed|]. split; [exact Hd|]. split.
        * pose proof (trans_sound U grammar skip_body Safe SS ns ni nc S1 S2 S3 8 (step R_space_call) _ _ _ _ _ _ _ _ _ 0 (number_reads k Hk) (or_introl eq_refl) Hs E3) as T.
          destruct T as [T|[]]. auto.
        * destruct (last_of _ _ _ _ _ _ _ _ _ (no_classes U _) number_last Hs E3) as (v & c & Ec & Hc). exists c. split; [exact Hc|]. apply (safe_last v). rewrite <- Ec. exact Hs.
    - destruct (clean_sound U grammar skip_body _ _ _ _ _ _ _ _ number_clean E1) as [-> Er].
      destruct (Run f (ECall R_Symbol) k false s1) as [s3 t3|s3 t3| |] eqn:E3 in H; try discriminate. cbn [prepend app] in H. injection H as <- <-.
      rewrite <- Er in Hs |- *. right. destruct (head_first _ _ _ _ _ _ _ symbol_first Hs E3) as (d & w & Ed & Hd). exists d, w. split; [exact Ed|]. split; [exact Hd|].
      assert (Hn : forall k c, is_name k = true -> in_class U k c = true -> name_char c = true).
      { intros [] c Hc Ec; try discriminate; cbn [in_class] in Ec; rewrite Ec; [reflexivity|apply orb_true_r]. }
      destruct (last_of _ _ _ _ _ _ _ _ _ Hn symbol_last Hs E3) as (v & c & Ec & Hc). exists c. split; [apply (safe_last v); rewrite <- Ec; exact Hs|].
      right. split; [unfold operand_end; rewrite Hc; reflexivity|].
      refine (stops_sound U grammar skip_body 8 XidContinue is_continue _ _ _ _ _ _ _ _ _ _ symbol_stops _ E3); [intros []; (discriminate || reflexivity)|discriminate].
  Qed.
  Lemma digit_continues : forall d, digit d = true -> xid_continue U d = true.
  Proof.
    intros d H. unfold digit in H. apply andb_prop in H. destruct H as [H1 H2]. unfold xid_continue. destruct (N.ltb_spec d 128) as [L|L]; [|apply N.leb_le in H2; lia].
    unfold ascii_digit. rewrite H1, H2. rewrite orb_true_r. reflexivity.
  Qed.
  Lemma digit_not_head : forall d, digit d = true -> word_head U d = false.
  Proof.
    intros d H. unfold digit in H. apply andb_prop in H. destruct H as [H1 H2]. apply N.leb_le in H1. apply N.leb_le in H2. unfold word_head, xid_start.
    destruct (N.ltb_spec d 128) as [L|L]; [|lia]. unfold ascii_letter.
    destruct (N.leb_spec 65 d); [lia|]. destruct (N.leb_spec 97 d); [lia|]. destruct (N.eqb_spec d 95); [lia|]. reflexivity.
  Qed.
  Lemma beside : forall c ws d w, Safe (c :: ws ++ d :: w) -> operand_end U c = true -> white ws = true -> operand_start U d = true ->
    (ws <> [] \/ c = 41%N \/ (digit c = true /\ digit d = false) \/ xid_continue U d = false) -> False.
  Proof. intros c ws d w (_ & _ & H) H1 H2 H3 H4. apply (H eq_refl). exists [], c, ws, d, w. auto. Qed.
  Lemma next_operand : forall f k s s' ts, k <> Atomic -> after_number s \/ after_other s -> Run f (ESeq (EThen blanks operand)) k false s = POk s' ts ->
    (after_other s -> False) /\ reads (step R_space_call) 0 ts = 0 /\ after_number s'.
  Proof.
    intros f k s s' ts Hk J0 H. destruct f as [|f]; [discriminate|]. cbn [Peg.run] in H. destruct (Run f _ k false s) as [s1 t1|s1 t1| |] eqn:E1 in H; try discriminate.
    injection H as <- <-. destruct f as [|f]; [discriminate|]. cbn [Peg.run] in E1. destruct (Run f blanks k false s) as [s2 t2|s2 t2| |] eqn:E2 in E1; try discriminate.
    destruct (Run f operand k false s2) as [s3 t3|s3 t3| |] eqn:E3 in E1; try discriminate. cbn [prepend] in E1. injection E1 as <- <-.
    assert (Hsafe : Safe (rest s)). { destruct J0 as [(c & _ & J)|(c & J & _)]; exact (SS [c] _ J). }
    assert (Hsafe2 : Safe (rest s2)) by (exact (safe_next U grammar skip_body Safe SS _ _ _ _ _ _ _ Hsafe E2)).
    assert (Hw : forall k c, is_white k = true -> in_class U k c = true -> white_space c = true) by (intros [] c X Y; (discriminate || exact Y)).
    pose proof (chars_sound U grammar skip_body white_space is_white Hw f 8 blanks k false s blanks_white) as Sp. rewrite E2 in Sp. destruct Sp as (ws & Ews & Hws).
    pose proof (trans_sound U grammar skip_body Safe SS ns ni nc S1 S2 S3 8 (step R_space_call) _ _ _ _ _ _ _ _ _ 0 (blanks_reads k Hk) (or_introl eq_refl) Hsafe E2) as T.
    destruct T as [T|[]].
    destruct (operand_ok _ _ _ _ _ Hk Hsafe2 E3) as [(d & w & Ed & Hd & Hr & Ha)|(d & w & Ed & Hd & Ha)].
    - split; [|split; [rewrite reads_app, <- T; exact Hr|exact Ha]]. intros (c & J & Hc). rewrite Ews, Ed in J.
      destruct Hc as [->|[Hc St]].
      + apply (beside 41%N ws d w J); [reflexivity|exact Hws|unfold operand_start; rewrite Hd; apply orb_true_r|auto].
      + apply (beside c ws d w J); [exact Hc|exact Hws|unfold operand_start; rewrite Hd; apply orb_true_r|]. left. intros ->. unfold stopped in St. rewrite Ews in St.
        cbn [app] in St. rewrite Ed in St. cbn [in_class] in St. rewrite (digit_continues d Hd) in St. discriminate.
    - exfalso. assert (Od : operand_start U d = true) by (unfold operand_start; rewrite Hd; reflexivity). destruct J0 as [(c & Hc & J)|(c & J & Hc)]; rewrite Ews, Ed in J.
      + assert (Nd : digit d = false) by (apply not_true_iff_false; intro X; rewrite (digit_not_head d X) in Hd; discriminate).
        apply (beside c ws d w J); auto. unfold operand_end. rewrite (digit_continues c Hc), orb_true_r. reflexivity.
      + destruct Hc as [->|[Hc St]]; [apply (beside 41%N ws d w J); auto|]. apply (beside c ws d w J); auto.
        destruct ws as [|b ws]; [|left; discriminate]. right. right. right. unfold stopped in St. rewrite Ews in St. cbn [app] in St. rewrite Ed in St. exact St.
  Qed.
  Lemma next_operands : forall f k s s' ts, k <> Atomic -> after_number s -> Run f (ERep (ESeq (EThen blanks operand))) k false s = POk s' ts ->
    reads (step R_space_call) 0 ts = 0.
  Proof.
    induction f as [|f IH]; intros k s s' ts Hk J H; [discriminate|]. cbn [Peg.run] in H. destruct (Run f _ k false s) as [s1 t1|s1 t1| |] eqn:E1 in H; try discriminate.
    - destruct (Run f _ k false s1) as [s2 t2|s2 t2| |] eqn:E2 in H; try discriminate. cbn [prepend] in H. injection H as <- <-.
      destruct (next_operand _ _ _ _ _ Hk (or_introl J) E1) as (_ & R & J1). rewrite reads_app, R. exact (IH _ _ _ _ Hk J1 E2).
    - injection H as <- <-. assert (Hc : clean grammar skip_body 8 (ESeq (EThen blanks operand)) = true) by (vm_compute; reflexivity).
      destruct (clean_sound U grammar skip_body _ _ _ _ _ _ _ _ Hc E1) as [-> _]. reflexivity.
  Qed.
  Lemma space_call_sound : sound_rules U grammar skip_body Safe fit (grammar R_space_call).
  Proof.
    cbn [grammar sound_rules]. split; [repeat split|]. intros f k s s' ts x Hk Hs H _. split; [exact Logic.I|].
    destruct f as [|f]; [discriminate|]. cbn [Peg.run] in H. destruct (Run f _ k false s) as [s1 t1|s1 t1| |] eqn:E1 in H; try discriminate. injection H as <- <-.
    destruct f as [|f]; [discriminate|]. cbn [Peg.run] in E1. destruct (Run f _ k false s) as [s2 t2|s2 t2| |] eqn:E2 in E1; try discriminate.
    destruct (Run f _ k false s2) as [s3 t3|s3 t3| |] eqn:E3 in E1; try discriminate. cbn [prepend] in E1. injection E1 as <- <-.
    destruct f as [|f]; [discriminate|]. change (Run (S f) (EThen operand (ESeq (EThen blanks operand))) k false s = POk s2 t2) in E2. cbn [Peg.run] in E2.
    destruct (Run f operand k false s) as [s4 t4|s4 t4| |] eqn:E4 in E2; try discriminate.
    destruct (Run f _ k false s4) as [s5 t5|s5 t5| |] eqn:E5 in E2; try discriminate. cbn [prepend] in E2. injection E2 as <- <-.
    assert (J : (after_number s4 /\ reads (step R_space_call) 0 t4 = 0) \/ after_other s4).
    { destruct (operand_ok _ _ _ _ _ Hk Hs E4) as [(d & w & _ & _ & R & J)|(d & w & _ & _ & J)]; auto. }
    assert (J0 : after_number s4 \/ after_other s4) by tauto.
    destruct (next_operand _ _ _ _ _ Hk J0 E5) as (J1 & R5 & J5). pose proof (next_operands _ _ _ _ _ Hk J5 E3) as R3.
    destruct J as [[_ R4]|J]; [|destruct (J1 J)]. rewrite !reads_app, R4, R5, R3. reflexivity.
  Qed.
End Spaced.

Lemma heads_apart : forall U x, ~ side_by_side U x -> avoids byte_heads x.
Proof.
  intros U x H b Hb (p & q & ->). apply H. 
  assert (E : exists d, b = [48%N; d] /\ xid_start U d = true /\ digit d = false).
  { repeat (destruct Hb as [<-|Hb]; [eexists; split; [reflexivity|split; reflexivity]|]). destruct Hb. }
  destruct E as (d & -> & E1 & E2). exists p, 48%N, [], d, q. split; [reflexivity|]. split; [reflexivity|]. split; [reflexivity|].
  unfold operand_start, word_head. rewrite E1, E2. split; [reflexivity|]. right. right. left. split; reflexivity.
Qed.
Theorem spaced_answers : forall U g x, spacing g = true -> head_is white_space x = false -> comment_start x = false -> plain_start x = true ->
  avoids troublemakers x -> ~ side_by_side U x -> answers U (g ++ x).
Proof.
  intros U g x Hg W S P A N. apply (safe_answers U (Safe U spaced_bad false true)); auto.
  - apply Safe_suffix.
  - intro r. destruct (is_space_call r) eqn:E; [destruct r; try discriminate; apply space_call_sound|].
    apply chk_all_sound; [exact spaced_chk|right; intros ->; discriminate].
  - apply chk_sound, skip_chk.
  - apply solid_spec; assumption.
  - split; [|split; [discriminate|auto]]. intros b Hb. apply in_app_iff in Hb. destruct Hb as [Hb|Hb]; [apply A; exact Hb|exact (heads_apart U x N b Hb)].
Qed.

(** ** Deciding the hypotheses on given texts *)
Lemma infixb_complete : forall b l, contains b l -> infixb b l = true.
Proof.
  intros b l (x & y & ->). induction x as [|c x IH].
  - cbn [app]. assert (E : strip_prefix b (b ++ y) = Some y) by (apply strip_prefix_app; reflexivity). destruct (b ++ y); cbn [infixb]; rewrite E; reflexivity.
  - cbn [app infixb]. destruct (strip_prefix b _); [reflexivity|exact IH].
Qed.
Lemma avoids_chk : forall bad x, existsb (fun b => infixb b x) bad = false -> avoids bad x.
Proof.
  intros bad x H b Hb C. apply infixb_complete in C. assert (E : existsb (fun b => infixb b x) bad = true) by (apply existsb_exists; eauto). congruence.
Qed.
Lemma nameless_chk_text : forall U x, forallb (fun c => negb (word_head U c)) x = true -> nameless U x.
Proof. intros U x H c Hc. rewrite forallb_forall in H. specialize (H c Hc). apply negb_true_iff in H. exact H. Qed.
Fixpoint nextb (U : unicode) (c : char) (some : bool) (l : str) : bool :=
  match l with
  | [] => false
  | d :: b => (operand_start U d && (some || (c =? 41)%N || (digit c && negb (digit d)) || negb (xid_continue U d))) || (white_space d && nextb U c true b)
  end.
Fixpoint besideb (U : unicode) (l : str) : bool :=
  match l with [] => false | c :: l' => (operand_end U c && nextb U c false l') || besideb U l' end.
Lemma nextb_complete : forall U c ws d b some, white ws = true -> operand_start U d = true ->
  (some = true \/ ws <> [] \/ c = 41%N \/ (digit c = true /\ digit d = false) \/ xid_continue U d = false) -> nextb U c some (ws ++ d :: b) = true.
Proof.
  intros U c ws d b. induction ws as [|w ws IH]; intros some Hw Hd H.
  - cbn [app nextb]. rewrite Hd. destruct H as [->|[H|[->|[[H1 H2]|H]]]]; [reflexivity|congruence| | |].
    + destruct some; reflexivity.
    + rewrite H1, H2. destruct some, (c =? 41)%N; reflexivity.
    + rewrite H. destruct some, (c =? 41)%N, (digit c), (digit d); reflexivity.
  - cbn [white forallb] in Hw. apply andb_prop in Hw. destruct Hw as [Hc Hw]. cbn [app nextb]. rewrite Hc, (IH true Hw Hd (or_introl eq_refl)). apply orb_true_r.
Qed.
Lemma beside_chk : forall U x, besideb U x = false -> ~ side_by_side U x.
Proof.
  intros U x H (a & c & ws & d & b & -> & H1 & H2 & H3 & H4). assert (E : besideb U (a ++ [c] ++ ws ++ [d] ++ b) = true); [|congruence]. clear H.
  induction a as [|e a IH]; cbn [app besideb]; [|cbn [app] in IH; rewrite IH; apply orb_true_r].
  rewrite H1, nextb_complete; auto.
Qed.

(** ** The pieces matter *)
Definition piece_text (piece : str) : str :=
  match piece with
  | 46%N :: _ => lit "1.2.3.4" | 123%N :: _ => lit "{}" | 39%N :: _ => lit "1'" | 63%N :: _ => lit "1?"
  | 172%N :: _ => [172; 49]%N | 35%N :: _ => lit "##1" | _ => lit "1+%%%2%%%1"
  end.
Lemma piece_matters : forall U, sane U -> forall piece, In piece troublemakers -> exists x,
  head_is white_space x = false /\ comment_start x = false /\ plain_start x = true /\ nameless U x /\
  (forall other, In other troublemakers -> other <> piece -> ~ contains other x) /\
  forall fname, parse U fname x = Panic PUnreachable.
Proof.
  intros U HU piece H. exists (piece_text piece).
  assert (N : word_head U 172%N = false) by (unfold word_head; rewrite (proj1 (HU 172%N eq_refl)); reflexivity).
  assert (Other : forall other x, In other troublemakers -> other <> piece ->
    existsb (fun b => infixb b x) (filter (fun b => negb (str_eqb b piece)) troublemakers) = false -> ~ contains other x).
  { intros other x Ho Hn E. apply (avoids_chk _ _ E). apply filter_In. split; [exact Ho|]. destruct (str_eqb other piece) eqn:Q; [|reflexivity].
    apply str_eqb_eq in Q. congruence. }
  repeat (destruct H as [<-|H]; [split; [reflexivity|]; split; [reflexivity|]; split; [reflexivity|]; split;
    [apply nameless_chk_text; cbn [piece_text lit forallb]; rewrite ?N; vm_compute; reflexivity|];
    split; [intros other Ho Hn; apply Other; [exact Ho|exact Hn|vm_compute; reflexivity]|intro fname; vm_compute; reflexivity]|]).
  destruct H.
Qed.
Lemma products_matter : forall U fname,
  parse U fname (lit "x f(y)") = Panic PUnreachable /\ parse U fname (lit "2 0x1") = Panic PUnreachable.
Proof. intros U fname. split; vm_compute; reflexivity. Qed.
