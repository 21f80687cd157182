(** Replacing letters in a text. *)
From Coq Require Import Sorting.Permutation.
From Verif Require Import Base Ast SmError Peg Grammar Track Climber Build SpecAst SpecClimb SpecSyntax SpecPlace SpecParse SpecSafe SpecPest Source SpecValue SpecLetter.
From Verif Require Import SpecOrder ProofOrder ProofPeg ProofShape ProofAst ProofSym ProofBuild ProofPlace ProofAtom ProofPest ProofFollow ProofInside ProofValue ProofMeaning ProofOrigin.
From Verif Require SpecSource.
Local Open Scope nat_scope.

Section Run.
  Variable U : unicode.
  Variable phi psi : char -> char.
  Hypothesis HR : replaces U phi psi.
  Notation run := (run U grammar skip_body).
  Notation m := (map phi).

  Lemma phi_inj : forall c d, phi c = phi d -> c = d.
  Proof. intros c d H. rewrite <- (back _ _ _ HR c), <- (back _ _ _ HR d), H. reflexivity. Qed.
  Definition fixed (c : char) : bool := (c <? 128)%N || existsb (N.eqb c) grammar_signs.
  Lemma fixed_kept : forall c, fixed c = true -> phi c = c.
  Proof.
    intros c H. apply (kept _ _ _ HR). apply orb_prop in H as [H|H]; [left; apply N.ltb_lt, H|right].
    apply existsb_exists in H as (d & Hd & E). apply N.eqb_eq in E. subst. exact Hd.
  Qed.
  Lemma eqb_phi : forall c d, N.eqb (phi c) (phi d) = N.eqb c d.
  Proof. intros c d. destruct (N.eqb_spec c d) as [->|H]; [apply N.eqb_refl|]. apply N.eqb_neq. intro E. apply H, phi_inj, E. Qed.
  Lemma eqb_fixed : forall c d, fixed c = true -> N.eqb c (phi d) = N.eqb c d.
  Proof. intros c d H. rewrite <- (fixed_kept c H) at 1. apply eqb_phi. Qed.
  Lemma ascii_phi : forall c, (phi c <? 128)%N = (c <? 128)%N.
  Proof.
    intro c. destruct (N.ltb_spec c 128) as [H|H]; [rewrite (kept _ _ _ HR c (or_introl H)); apply N.ltb_lt, H|].
    apply N.ltb_ge. destruct (N.ltb_spec (phi c) 128) as [L|L]; [|exact L]. pose proof (kept _ _ _ HR _ (or_introl L)) as E. apply phi_inj in E. rewrite E in L. lia.
  Qed.
  Lemma leb_fixed : forall a b c, (a <? 128)%N = true -> (b <? 128)%N = true -> ((a <=? phi c) && (phi c <=? b))%N = ((a <=? c) && (c <=? b))%N.
  Proof.
    intros a b c Ha Hb. apply N.ltb_lt in Ha, Hb. pose proof (ascii_phi c) as A. destruct (N.ltb_spec c 128) as [L|L].
    - rewrite (kept _ _ _ HR c (or_introl L)). reflexivity.
    - apply N.ltb_ge in A. replace (phi c <=? b)%N with false by (symmetry; apply N.leb_gt; lia). replace (c <=? b)%N with false by (symmetry; apply N.leb_gt; lia).
      rewrite !andb_false_r. reflexivity.
  Qed.
  Lemma map_fixed : forall w, forallb fixed w = true -> m w = w.
  Proof. induction w as [|c w IH]; intro H; [reflexivity|]. cbn in *. apply andb_prop in H as [H1 H2]. rewrite (fixed_kept c H1), IH by exact H2. reflexivity. Qed.
  Lemma strip_phi : forall x w, strip_prefix (m x) (m w) = option_map m (strip_prefix x w).
  Proof. induction x as [|c x IH]; intros [|d w]; try reflexivity. cbn [map strip_prefix]. rewrite eqb_phi. destruct (N.eqb c d); [apply IH|reflexivity]. Qed.
  Lemma strip_fixed : forall x w, forallb fixed x = true -> strip_prefix x (m w) = option_map m (strip_prefix x w).
  Proof. intros x w H. rewrite <- (map_fixed x H) at 1. apply strip_phi. Qed.
  Lemma lower_phi : forall c, ascii_lower (phi c) = phi (ascii_lower c).
  Proof.
    intro c. unfold ascii_lower. rewrite leb_fixed by reflexivity. destruct ((65 <=? c) && (c <=? 90))%N eqn:E; [|reflexivity].
    apply andb_prop in E as [E1 E2]. apply N.leb_le in E1, E2. rewrite !(kept _ _ _ HR) by (left; lia). reflexivity.
  Qed.
  Lemma insensitive_phi : forall x w, strip_prefix_insensitive (m x) (m w) = option_map m (strip_prefix_insensitive x w).
  Proof. induction x as [|c x IH]; intros [|d w]; try reflexivity. cbn [map strip_prefix_insensitive]. rewrite !lower_phi, eqb_phi. destruct (N.eqb _ _); [apply IH|reflexivity]. Qed.
  Lemma insensitive_fixed : forall x w, forallb fixed x = true -> strip_prefix_insensitive x (m w) = option_map m (strip_prefix_insensitive x w).
  Proof. intros x w H. rewrite <- (map_fixed x H) at 1. apply insensitive_phi. Qed.
  Lemma class_phi : forall k c, in_class U k (phi c) = in_class U k c.
  Proof. intros [] c; [apply (same_white _ _ _ HR)|apply (same_start _ _ _ HR)|apply (same_continue _ _ _ HR)]. Qed.

  (** *** pairs *)
  Fixpoint mt (t : tree rule) : tree rule := match t with Node r i j w l => Node r i j (m w) (map mt l) end.
  Definition ms (s : pstate) : pstate := mkPs (pos s) (m (rest s)) (map m (stk s)).
  Definition mr (r : pres rule) : pres rule :=
    match r with POk s t => POk (ms s) (map mt t) | PErr s t => PErr (ms s) (map mt t) | PPanic => PPanic | PFuel => PFuel end.
  Lemma advance_phi : forall s w, advance (ms s) (m w) = ms (advance s w).
  Proof. intros [p r st] w. unfold advance, ms. cbn [pos rest stk]. rewrite !map_length. reflexivity. Qed.
  Lemma take_phi : forall s o, take (R := rule) (ms s) (option_map m o) = mr (take s o).
  Proof. intros s [w|]; cbn; [rewrite advance_phi|]; reflexivity. Qed.
  Lemma char_phi : forall p p' s, (forall c, p' (phi c) = p c) -> take_char (R := rule) p' (ms s) = mr (take_char p s).
  Proof.
    intros p p' s H. unfold take_char. destruct s as [q [|c r] st]; [reflexivity|]. cbn [rest ms map]. rewrite H. destruct (p c); [|reflexivity].
    cbn [mr map]. rewrite <- advance_phi. reflexivity.
  Qed.
  Lemma prepend_phi : forall t r, mr (prepend t r) = prepend (map mt t) (mr r).
  Proof. intros t [s u|s u| |]; cbn; rewrite ?map_app; reflexivity. Qed.
  Lemma consumed_phi : forall a b, consumed (m a) (m b) = m (consumed a b).
  Proof. intros a b. unfold consumed. rewrite !map_length. apply firstn_map. Qed.

  Fixpoint letters_chk (e : pexp rule) : bool :=
    match e with
    | EStr l | EInsens l => forallb fixed l
    | ERange a b => (a <? 128)%N && (b <? 128)%N
    | EThen a b | EElse a b => letters_chk a && letters_chk b
    | ESeq a | EOpt a | ERep a | ERestore a | EAtomic _ a | EPush a | ERule _ a | ENot a => letters_chk a
    | _ => true
    end.
  Lemma grammar_letters : forall r, letters_chk (grammar r) = true.
  Proof. intro r. destruct r; vm_compute; reflexivity. Qed.
  Lemma skip_letters : letters_chk skip_body = true. Proof. reflexivity. Qed.
  Lemma run_letters : forall f e k q s, letters_chk e = true -> run f e k q (ms s) = mr (run f e k q s).
  Proof.
    induction f as [|f IH]; intros e k q s H; [reflexivity|]. cbn [Peg.run]. destruct e; cbn [letters_chk] in H.
    - change (rest (ms s)) with (m (rest s)). rewrite strip_fixed by exact H. apply take_phi.
    - change (rest (ms s)) with (m (rest s)). rewrite insensitive_fixed by exact H. apply take_phi.
    - apply andb_prop in H as [H1 H2]. apply char_phi. intro c. apply leb_fixed; assumption.
    - apply char_phi. intro c. apply class_phi.
    - apply char_phi. reflexivity.
    - destruct s as [p [|c r] st]; reflexivity.
    - destruct s as [[|p] r st]; reflexivity.
    - apply andb_prop in H as [H1 H2]. rewrite IH by exact H1. destruct (run f e1 k q s) as [s1 t1|s1 t1| |]; try reflexivity. cbn [mr]. rewrite IH by exact H2. symmetry. apply prepend_phi.
    - apply andb_prop in H as [H1 H2]. rewrite IH by exact H1. destruct (run f e1 k q s) as [s1 t1|s1 t1| |]; try reflexivity. cbn [mr]. rewrite IH by exact H2. symmetry. apply prepend_phi.
    - rewrite IH by exact H. destruct (run f e k q s); reflexivity.
    - rewrite IH by exact H. destruct (run f e k q s); reflexivity.
    - rewrite IH by exact H. destruct (run f e k q s) as [s1 t1|s1 t1| |]; try reflexivity. cbn [mr]. rewrite (IH (ERep e)) by exact H. symmetry. apply prepend_phi.
    - rewrite IH by exact H. destruct (run f e k q s); reflexivity.
    - rewrite IH by exact H. destruct (run f e k true s); reflexivity.
    - rewrite IH by exact H. destruct (run f e k q s) as [s1 t1|s1 t1| |]; try reflexivity; cbn [mr]; destruct (emits k q); try reflexivity.
      cbn [map mt]. rewrite <- consumed_phi. reflexivity.
    - apply IH, H.
    - rewrite IH by exact H. destruct (run f e k q s) as [s1 t1|s1 t1| |]; try reflexivity. cbn [mr]. f_equal. unfold ms. cbn [pos rest stk map]. rewrite consumed_phi. reflexivity.
    - destruct s as [p r [|x st]]; [reflexivity|]. cbn [ms stk map rest pos]. rewrite strip_phi. apply (take_phi (mkPs p r (x :: st))).
    - destruct s as [p r [|x st]]; [reflexivity|]. cbn [ms stk map rest pos]. rewrite strip_phi. apply (take_phi (mkPs p r st)).
    - apply IH, grammar_letters.
    - destruct k; try reflexivity. apply IH, skip_letters.
  Qed.
  Lemma program_letters : forall text, run_program U (m text) = mr (run_program U text).
  Proof. intro text. unfold run_program, peg_fuel. rewrite map_length. exact (run_letters _ (ECall R_program) NonAtomic false (mkPs 0 text []) eq_refl). Qed.

  Lemma trace_letters : forall f e k l s a, letters_chk e = true -> trace U grammar skip_body f e k l (ms s) a = trace U grammar skip_body f e k l s a.
  Proof.
    induction f as [|f IH]; intros e k l s a H; [reflexivity|]. destruct e; cbn [trace]; cbn [letters_chk] in H; try reflexivity; try (apply IH; assumption).
    - apply andb_prop in H as [H1 H2]. rewrite run_letters by exact H1. destruct (run f e1 k (quiet_of l) s); cbn [mr]; rewrite ?(IH e2 k l _ _ H2), (IH e1 k l _ _ H1); reflexivity.
    - apply andb_prop in H as [H1 H2]. rewrite run_letters by exact H1. destruct (run f e1 k (quiet_of l) s); cbn [mr]; rewrite ?(IH e2 k l _ _ H2), (IH e1 k l _ _ H1); reflexivity.
    - rewrite run_letters by exact H. destruct (run f e k (quiet_of l) s); cbn [mr]; rewrite ?(IH (ERep e) k l _ _ H), (IH e k l _ _ H); reflexivity.
    - rewrite run_letters by exact H. destruct (run f e k (quiet_of l) s); cbn [mr]; rewrite (IH e k l _ _ H); reflexivity.
    - apply IH, grammar_letters.
    - destruct k; try reflexivity. apply IH, skip_letters.
  Qed.
  Lemma error_letters : forall text, parse_error U (m text) = parse_error U text.
  Proof.
    intro text. unfold parse_error. rewrite program_letters. assert (E : program_attempts U (m text) = program_attempts U text).
    { unfold program_attempts, peg_fuel. rewrite map_length. exact (trace_letters _ (ECall R_program) NonAtomic LNone (mkPs 0 text []) _ eq_refl). }
    rewrite E. destruct (run_program U text); reflexivity.
  Qed.

  (** ** Words *)
  Notation rsym := (replaced_symbol phi).
  Notation has := SpecSafe.contains.
  Lemma has_phi : forall x w, has (m x) (m w) <-> has x w.
  Proof.
    assert (B : forall w, map psi (m w) = w) by (intro w; rewrite map_map; rewrite <- (map_id w) at 2; apply map_ext; apply (back _ _ _ HR)).
    intros x w. split.
    - intros (p & q & E). exists (map psi p), (map psi q). apply (f_equal (map psi)) in E. rewrite !map_app, !B in E. exact E.
    - intros (p & q & ->). exists (m p), (m q). rewrite !map_app. reflexivity.
  Qed.
  Lemma lit_phi : forall x w, forallb fixed x = true -> (has x (m w) <-> has x w).
  Proof. intros x w H. rewrite <- (map_fixed x H) at 1. apply has_phi. Qed.
  Lemma parts_phi : forall w l, parts w l -> parts (m w) (map m l).
  Proof.
    induction 1 as [w H|a b l H _ IH].
    - apply parts_one. rewrite lit_phi by reflexivity. exact H.
    - cbn [map]. rewrite !map_app, (map_fixed (lit "::") eq_refl). apply parts_more; [|exact IH]. intro C. apply H. apply (lit_phi (lit "::")); [reflexivity|]. rewrite map_app, (map_fixed (lit ":") eq_refl). exact C.
  Qed.
  Lemma removelast_map : forall l, removelast (map m l) = map m (removelast l).
  Proof. induction l as [|x [|y l] IH]; try reflexivity. cbn [map removelast] in *. rewrite IH. reflexivity. Qed.
  Lemma last_map : forall l, last (map m l) [] = m (last l []).
  Proof. induction l as [|x [|y l] IH]; try reflexivity. cbn [map last] in *. exact IH. Qed.
  Lemma named_phi : forall w s, named w s -> named (m w) (rsym s).
  Proof. intros w s [w' l H]. unfold replaced_symbol. cbn [name_space name kind attributes replaced_kind]. rewrite <- removelast_map, <- last_map. apply named_by, parts_phi, H. Qed.
  Lemma ascii_fixed : forall (P : char -> bool) w, (forall c, P c = true -> (c < 128)%N) -> forallb P w = true -> m w = w.
  Proof.
    intros P w H A. apply map_fixed. rewrite forallb_forall in *. intros c Hc. unfold fixed. apply orb_true_iff. left. apply N.ltb_lt, H, A, Hc.
  Qed.
  Local Ltac bool_to_prop := repeat (rewrite ?orb_true_iff, ?andb_true_iff, ?N.leb_le in * ); lia.
  Lemma digit_ascii : forall c, digit c = true -> (c < 128)%N.
  Proof. intros c H. unfold digit, char in *. bool_to_prop. Qed.
  Lemma digits_phi : forall w, digits w -> m w = w.
  Proof. intros w [_ H]. exact (ascii_fixed digit w digit_ascii H). Qed.
  Lemma standard_phi : forall a n, forallb fixed a = true -> forallb fixed n = true -> rsym (standard a n) = standard a n.
  Proof. intros a n Ha Hn. unfold replaced_symbol, standard. cbn [name_space name kind attributes replaced_kind map]. rewrite !map_fixed; auto. Qed.
  Lemma map_repeat : forall c k, m (repeat c k) = repeat (phi c) k. Proof. induction k as [|k IH]; [reflexivity|]. cbn. rewrite IH. reflexivity. Qed.
  Lemma refers_phi : forall w s n, refers w s n -> m w = w /\ rsym s = s.
  Proof.
    assert (R : forall c s, register c s -> phi c = c /\ rsym s = s).
    { intros c s [[-> ->]|[-> ->]]; (split; [apply fixed_kept; reflexivity|apply standard_phi; reflexivity]). }
    intros w s n [c s' n' Hr Hd|c s' k Hr]; destruct (R _ _ Hr) as [Rc Rs]; (split; [|exact Rs]).
    - cbn [map]. rewrite Rc, digits_phi by exact Hd. reflexivity.
    - rewrite map_repeat, Rc. reflexivity.
  Qed.
  Lemma grouped_phi : forall P s, (forall c, P c = true -> (c < 128)%N) -> grouped P s = true -> m s = s.
  Proof.
    intros P s HP. remember (length s) as n eqn:E. assert (L : length s <= n) by lia. clear E. revert s L. induction n as [|n IH]; intros [|c s] L H; try reflexivity; [cbn in L; lia|].
    cbn [grouped] in H. cbn [map]. destruct (N.eqb_spec c 95) as [->|N].
    - destruct s as [|d s]; [discriminate|]. apply andb_prop in H as [H1 H2]. cbn [map]. rewrite (fixed_kept 95%N eq_refl). rewrite (kept _ _ _ HR d) by (left; apply HP, H1).
      rewrite IH; [reflexivity|cbn in L; lia|exact H2].
    - apply andb_prop in H as [H1 H2]. rewrite (kept _ _ _ HR c) by (left; apply HP, H1). rewrite IH; [reflexivity|cbn in L; lia|exact H2].
  Qed.
  Lemma based_ascii : forall b P, based b P -> (b < 128)%N /\ forall c, P c = true -> (c < 128)%N.
  Proof. intros b P []; (split; [lia|]); intros c H; unfold bin_digit, oct_digit, hex_digit, char in *; bool_to_prop. Qed.
  Lemma lookup_phi : forall V w (l : list (str * V)) v, SpecSource.lookup w l = Some v -> forallb (fun p => forallb fixed (fst p)) l = true -> m w = w.
  Proof.
    induction l as [|[k x] l IH]; intros v H A; [discriminate|]. cbn in H, A. apply andb_prop in A as [A1 A2]. destruct (str_eqb w k) eqn:E; [|eauto].
    apply str_eqb_eq in E. subst. apply map_fixed, A1.
  Qed.

  (** ** Places *)
  Lemma feed_phi : forall c, is_feed (phi c) = is_feed c.
  Proof. intro c. unfold is_feed. rewrite N.eqb_sym, (N.eqb_sym c). apply eqb_fixed. reflexivity. Qed.
  Lemma feeds_phi : forall w, length (filter is_feed (m w)) = length (filter is_feed w).
  Proof. induction w as [|c w IH]; [reflexivity|]. cbn [map filter]. rewrite feed_phi. destruct (is_feed c); cbn [length]; rewrite IH; reflexivity. Qed.
  Lemma exists_feed_phi : forall w, existsb is_feed (m w) = existsb is_feed w.
  Proof. induction w as [|c w IH]; [reflexivity|]. cbn [map existsb]. rewrite feed_phi, IH. reflexivity. Qed.
  Lemma last_line_phi : forall w, length (last_line (m w)) = length (last_line w).
  Proof.
    induction w as [|c w IH]; [reflexivity|]. cbn [map last_line]. change (phi c :: m w) with (m (c :: w)). rewrite exists_feed_phi.
    destruct (existsb is_feed (c :: w)); [exact IH|]. apply map_length.
  Qed.
  Lemma place_phi : forall text i, place (m text) i = place text i.
  Proof. intros text i. unfold place, line_after, column_after. rewrite firstn_map, feeds_phi, last_line_phi. reflexivity. Qed.
  Lemma spot_phi : forall f text t, spot f (m text) (mt t) = spot f text t.
  Proof. intros f text [r i j w l]. cbn [spot mt]. rewrite !place_phi. reflexivity. Qed.
  Notation rule_of := SpecValue.rule_of.
  Notation text_of := SpecValue.text_of.
  Lemma rule_phi : forall t, rule_of (mt t) = rule_of t. Proof. intros []. reflexivity. Qed.
  Lemma text_phi : forall t, text_of (mt t) = m (text_of t). Proof. intros []. reflexivity. Qed.
  Lemma rules_phi : forall r l, Forall (fun t => rule_of t = r) l -> Forall (fun t => rule_of t = r) (map mt l).
  Proof. intros r l H. apply Forall_map. eapply Forall_impl; [|exact H]. intros t E. rewrite rule_phi. exact E. Qed.

  (** ** Trees *)
  Notation rel := (replaced phi).
  Definition rel_pair (o o' : ast * ast) : Prop := rel (fst o) (fst o') /\ rel (snd o) (snd o').
  Definition rel_param (p q : parameter) : Prop := Forall2 rel (arguments p) (arguments q) /\ ppos p = ppos q /\ exists opts, Forall2 rel_pair (options p) opts /\ Permutation opts (options q).
  Variable f text : str.
  Notation text' := (m text).
  Lemma rel_at : forall s s' vs vs' t, rsym s = s' -> Forall2 rel vs vs' -> rel (call_at f text s vs t) (call_at f text' s' vs' (mt t)).
  Proof.
    intros s s' vs vs' t <- H. apply replaced_call. constructor; [|constructor]. split; [exact H|]. split; [symmetry; apply spot_phi|]. exists []. split; constructor.
  Qed.
  Lemma rel_key : forall s x, rel (Sym s) x -> x = Sym (rsym s). Proof. intros s x H. inversion H. reflexivity. Qed.
  Lemma rel_call : forall s ps x, rel (Function s ps) x -> exists qs, x = Function (rsym s) qs /\ Forall2 rel_param ps qs.
  Proof. intros s ps x H. inversion H as [| | | | | |? ? qs E]; subst. exists qs. split; [reflexivity|exact E]. Qed.
  Lemma rel_list2 : forall a a' b b', rel a a' -> rel b b' -> Forall2 rel [a; b] [a'; b']. Proof. intros. constructor; [assumption|]. constructor; [assumption|constructor]. Qed.

  Lemma dotted_phi : forall t a b c a' b', dotted f text t a b c -> rel a a' -> rel b b' -> exists c', dotted f text' (mt t) a' b' c' /\ rel c c'.
  Proof.
    intros t a b c a' b' [s|s args opts p ps|n] Ha Hb.
    - apply rel_key in Hb as ->. eexists. split; [apply dotted_name|]. apply rel_at; [reflexivity|]. constructor; [exact Ha|constructor].
    - apply rel_call in Hb as (qs & -> & H). inversion H as [|? [args' opts' p'] ? qs' (R1 & R2 & R3) R4]; subst.
      cbn [arguments options ppos] in *. eexists. split; [apply dotted_call|]. apply replaced_call. constructor; [|exact R4]. cbn [arguments options ppos]. split; [constructor; assumption|]. split; assumption.
    - inversion Hb; subst. eexists. split; [apply dotted_number|]. apply rel_at; [apply standard_phi; reflexivity|]. apply rel_list2; [exact Ha|constructor].
  Qed.
  Lemma prefixed_phi : forall l a b, prefixed f text l a b -> forall a', rel a a' -> exists b', prefixed f text' (map mt l) a' b' /\ rel b b'.
  Proof.
    induction 1 as [a|t l a b n Ht _ IH Hn]; intros a' Ha; [exists a'; split; [constructor|exact Ha]|]. destruct (IH a' Ha) as (b' & P & R).
    pose proof (lookup_phi _ _ _ _ Hn eq_refl) as E. eexists. split.
    - cbn [map]. eapply prefixed_by; [rewrite rule_phi; exact Ht|exact P|]. rewrite text_phi, E. exact Hn.
    - apply rel_at; [|constructor; [exact R|constructor]]. rewrite text_phi. unfold replaced_symbol. cbn [name_space name kind attributes replaced_kind map].
      rewrite !(map_fixed (lit "std") eq_refl), (map_fixed (lit "prefix") eq_refl). f_equal. apply map_fixed.
      clear - Hn. cbn in Hn. repeat match goal with H : context[if ?x then _ else _] |- _ => destruct x end; try discriminate Hn; injection Hn as <-; reflexivity.
  Qed.
  Lemma factors_phi : forall l vs, Forall2 factor_value l vs -> exists vs', Forall2 factor_value (map mt l) vs' /\ Forall2 rel vs vs'.
  Proof.
    induction 1 as [|t v l vs H _ IH]; [exists []; split; constructor|]. destruct IH as (vs' & I1 & I2). destruct H as [i j w l' Hd|i j w l' s Hs].
    - exists (Integer (numeral_value w) :: vs'). split; [|constructor; [constructor|exact I2]]. constructor; [|exact I1]. cbn [mt]. rewrite (digits_phi w Hd). apply factor_integer, Hd.
    - exists (Sym (rsym s) :: vs'). split; [|constructor; [constructor|exact I2]]. constructor; [|exact I1]. cbn [mt]. apply factor_name, named_phi, Hs.
  Qed.
  Lemma slots_phi : forall l vs, Forall2 slot_value l vs -> exists vs', Forall2 slot_value (map mt l) vs' /\ Forall2 rel vs vs'.
  Proof.
    induction 1 as [|t v l vs H _ IH]; [exists []; split; constructor|]. destruct IH as (vs' & I1 & I2). destruct H as [i j w l'|i j w l' Hd].
    - exists (Str (m w) :: vs'). split; [|constructor; [constructor|exact I2]]. constructor; [|exact I1]. cbn [mt]. apply slot_name.
    - exists (Integer (numeral_value w) :: vs'). split; [|constructor; [constructor|exact I2]]. constructor; [|exact I1]. cbn [mt]. rewrite (digits_phi w Hd). apply slot_number, Hd.
  Qed.
  Lemma string_phi : forall t s, string_value t s -> string_value (mt t) (m s).
  Proof.
    intros t s [i j s' l|i j w l x l' Hx Hl].
    - cbn [mt]. unfold quoted. cbn [map]. rewrite map_app. cbn [map]. rewrite (fixed_kept 34%N eq_refl). apply string_normal.
    - cbn [mt]. rewrite map_app. cbn [map]. rewrite <- text_phi. apply string_block; [rewrite rule_phi; exact Hx|]. rewrite <- map_app. apply rules_phi, Hl.
  Qed.

  (** *** options *)
  Lemma rsym_inj : forall s t, rsym s = rsym t -> s = t.
  Proof.
    assert (J : forall w v, m w = m v -> w = v).
    { induction w as [|c w IH]; intros [|d v] H; try discriminate; [reflexivity|]. injection H as H1 H2. f_equal; [apply phi_inj, H1|apply IH, H2]. }
    assert (J2 : forall l k, map m l = map m k -> l = k).
    { induction l as [|w l IH]; intros [|v k] H; try discriminate; [reflexivity|]. injection H as H1 H2. f_equal; [apply J, H1|apply IH, H2]. }
    intros [ns n k a] [ns' n' k' a'] H. unfold replaced_symbol in H. cbn [name_space name kind attributes] in H. injection H as H1 H2 H3 H4. f_equal; auto.
    destruct k, k'; cbn in H3; try discriminate; try reflexivity; injection H3; intros; f_equal; auto.
  Qed.
  Lemma forall2_right : forall A B (R : A -> B -> Prop) l l', Forall2 R l l' -> forall y, In y l' -> exists x, In x l /\ R x y.
  Proof. induction 1 as [|x y l l' H _ IH]; intros z Hz; [destruct Hz|]. destruct Hz as [<-|Hz]; [exists x; split; [left; reflexivity|exact H]|]. destruct (IH z Hz) as (x' & I & Q). exists x'. split; [right; exact I|exact Q]. Qed.
  Lemma Forall2_in_left : forall A B (R : A -> B -> Prop) l l', Forall2 R l l' -> forall y, In y l -> exists x, In x l' /\ R y x.
  Proof. induction 1 as [|x y l l' H _ IH]; intros z Hz; [destruct Hz|]. destruct Hz as [<-|Hz]; [exists y; split; [left; reflexivity|exact H]|]. destruct (IH z Hz) as (x' & I & Q). exists x'. split; [right; exact I|exact Q]. Qed.
  Lemma last_write_phi : forall ws ws', Forall2 rel_pair ws ws' -> symbol_keys ws -> forall s v, last_write eq (Sym s) v ws ->
    exists v', last_write eq (Sym (rsym s)) v' ws' /\ rel v v'.
  Proof.
    intros ws ws' F K s v L. remember (Sym s) as k eqn:Ek. destruct L as [before k' after E N]. subst k' k.
    apply Forall2_app_inv_l in F as (b' & a' & F1 & F2 & ->). inversion F2 as [|? [k' v'] ? after' [R1 R2] F3]; subst. cbn in R1, R2. apply rel_key in R1 as ->.
    exists v'. split; [|exact R2]. apply last_write_intro; [reflexivity|]. intros e He X. destruct (forall2_right _ _ _ _ _ F3 e He) as ([k1 v1] & I1 & [R3 _]).
    cbn in R3. apply Forall_app in K as [_ K]. inversion K as [|? ? _ K']; subst. rewrite Forall_forall in K'. destruct (K' _ I1) as [s1 Es]. cbn in Es. subst k1. apply rel_key in R3. apply (N _ I1).
    cbn. f_equal. apply rsym_inj. congruence.
  Qed.

  Lemma last_write_back : forall ws ws', Forall2 rel_pair ws ws' -> symbol_keys ws -> forall k' v', last_write eq k' v' ws' ->
    exists s v, k' = Sym (rsym s) /\ last_write eq (Sym s) v ws /\ rel v v'.
  Proof.
    intros ws ws' F K k' v' L. destruct L as [before k2 after E N]. subst k2.
    apply Forall2_app_inv_r in F as (b & a & F1 & F2 & ->). inversion F2 as [|[k v] ? ? ? [R1 R2] F3]; subst. cbn in R1, R2. apply Forall_app in K as [_ K]. inversion K as [|? ? [s Es] K']; subst.
    cbn in Es. subst k. apply rel_key in R1 as ->. exists s, v. split; [reflexivity|]. split; [|exact R2]. apply last_write_intro; [reflexivity|]. intros e He X.
    destruct (Forall2_in_left _ _ _ _ _ F3 e He) as (e' & I & [R3 _]). rewrite <- X in R3. apply rel_key in R3. apply (N _ I). symmetry. exact R3.
  Qed.
  Lemma increasing_once : forall (opts : list (ast * ast)), strictly_increasing tree_before (map fst opts) -> NoDup (map fst opts).
  Proof.
    intros opts S. apply NoDup_nth_error. intros i j Hi E. assert (K : forall i j, i < j -> i < length (map fst opts) -> nth_error (map fst opts) i = nth_error (map fst opts) j -> False).
    { clear i j Hi E. intros i j L Hi E. destruct (nth_error (map fst opts) i) as [k|] eqn:Ei; [|apply nth_error_None in Ei; lia].
      pose proof (S i j k k L Ei (eq_sym E)) as Q. apply order_lt in Q. rewrite compare_self in Q. discriminate. }
    destruct (lt_eq_lt_dec i j) as [[L|L]|L]; [contradiction (K i j L Hi E)|exact L|]. exfalso. apply (K j i L); [|congruence]. apply nth_error_Some. rewrite <- E. apply nth_error_Some, Hi.
  Qed.
  Lemma once_value : forall (opts : list (ast * ast)) k v v', NoDup (map fst opts) -> In (k, v) opts -> In (k, v') opts -> v = v'.
  Proof.
    induction opts as [|[k0 v0] opts IH]; intros k v v' N H H'; [destruct H|]. cbn in N. inversion N as [|? ? N1 N2]; subst.
    destruct H as [H|H], H' as [H'|H'].
    - congruence.
    - exfalso. apply N1. injection H as -> _. apply (in_map fst) in H'. exact H'.
    - exfalso. apply N1. injection H' as -> _. apply (in_map fst) in H. exact H.
    - exact (IH k v v' N2 H H').
  Qed.
  Definition rel_keyed (o o' : ast * ast) : Prop := rel_pair o o' /\ exists s, fst o = Sym s /\ fst o' = Sym (rsym s).
  Lemma keyed_once : forall opts os, Forall2 rel_keyed opts os -> NoDup (map fst opts) -> NoDup os.
  Proof.
    induction 1 as [|o o' opts os [_ (s & E1 & E2)] F IH]; intro N; [constructor|]. cbn in N. inversion N as [|? ? N1 N2]; subst. constructor; [|apply IH, N2].
    intro I. destruct (forall2_right _ _ _ _ _ F o' I) as (o2 & I2 & _ & s2 & E3 & E4). apply N1. assert (s = s2) by (apply rsym_inj; congruence). subst s2. rewrite E1, <- E3. apply in_map, I2.
  Qed.
  Lemma keyed_phi : forall ws ws', Forall2 rel_pair ws ws' -> symbol_keys ws -> symbol_keys ws'.
  Proof.
    induction 1 as [|o o' ws ws' [H1 _] _ IH]; intro K; [constructor|]. inversion K as [|? ? [s E] K']; subst. constructor; [|apply IH, K']. rewrite E in H1. apply rel_key in H1. exists (rsym s). exact H1.
  Qed.
  Lemma collected_phi : forall ws ws' opts, Forall2 rel_pair ws ws' -> symbol_keys ws -> collected ws opts ->
    exists opts', collected ws' opts' /\ exists os, Forall2 rel_pair opts os /\ Permutation os opts'.
  Proof.
    intros ws ws' opts F K [S M]. pose proof (keyed_phi _ _ F K) as K'. exists (insert_all ast_compare ws'). assert (C : collected ws' (insert_all ast_compare ws')) by (apply collected_inserts; [exact K'|reflexivity]).
    split; [exact C|]. assert (O : exists os, Forall2 rel_keyed opts os /\ Forall (fun o => last_write eq (fst o) (snd o) ws') os).
    { assert (A : Forall (fun o => last_write eq (fst o) (snd o) ws) opts) by (apply Forall_forall; intros [k v] H; apply M, H).
      clear S M. induction A as [|[k v] opts H _ (os & I1 & I2)]; [exists []; split; constructor|]. cbn [fst snd] in H.
      assert (Q : exists s, k = Sym s).
      { destruct H as [before k' after <- _]. apply Forall_app in K as [_ K]. inversion K as [|? ? Q _]. exact Q. }
      destruct Q as [s ->]. destruct (last_write_phi _ _ F K s v H) as (v' & L & R). exists ((Sym (rsym s), v') :: os). split; constructor; try assumption. split; [split; [constructor|exact R]|]. exists s. split; reflexivity. }
    destruct O as (os & O1 & O2). exists os. split; [clear - O1; induction O1 as [|o o' l l' [H _] _ IH]; constructor; assumption|]. pose proof C as [S' M']. apply NoDup_Permutation.
    - exact (keyed_once _ _ O1 (increasing_once _ S)).
    - exact (NoDup_map_inv _ _ (increasing_once _ S')).
    - rewrite Forall_forall in O2. intros [k' v']. split; [intro I; apply M'; exact (O2 _ I)|]. intro I. apply M' in I as L. destruct (last_write_back _ _ F K _ _ L) as (s & v & -> & L1 & R). apply M in L1.
      destruct (Forall2_in_left _ _ _ _ _ O1 _ L1) as ([k2 v2] & I2 & _ & s2 & E1 & E2). cbn in E1, E2. injection E1 as <-. subst k2. pose proof (O2 _ I2) as L2. apply M' in L2.
      rewrite (once_value _ _ _ _ (increasing_once _ S') I L2). exact I2.
  Qed.

  (** *** brackets *)
  Fixpoint mb (b : bracketing (tree rule)) : bracketing (tree rule) := match b with Leaf x => Leaf (mt x) | Bin l o r => Bin (mb l) (mt o) (mb r) end.
  Lemma strength_phi : forall o, op_strength (mt o) = op_strength o. Proof. intros []. reflexivity. Qed.
  Lemma right_phi : forall o, op_to_right (mt o) = op_to_right o. Proof. intros []. reflexivity. Qed.
  Lemma root_phi : forall b, root_op (mb b) = option_map mt (root_op b). Proof. intros []; reflexivity. Qed.
  Lemma written_phi : forall b, written (mb b) = map mt (written b).
  Proof. induction b as [x|l IHl o r IHr]; [reflexivity|]. cbn [mb written]. rewrite map_app, IHl, IHr. reflexivity. Qed.
  Lemma bracketed_phi : forall b, well_bracketed op_strength op_to_right b -> well_bracketed op_strength op_to_right (mb b).
  Proof.
    induction 1 as [x|l o r _ IHl _ IHr Hl Hr]; [constructor|]. cbn [mb]. constructor; [exact IHl|exact IHr| |]; intros p E; rewrite root_phi in E;
      [destruct (root_op l) as [q|]|destruct (root_op r) as [q|]]; try discriminate E; injection E as <-; rewrite !strength_phi, ?right_phi; auto.
  Qed.
  Lemma alternate_phi : forall x0 l, map mt (alternate x0 l) = alternate (mt x0) (map (fun p => (mt (fst p), mt (snd p))) l).
  Proof. intros x0 l. unfold alternate. cbn [map]. f_equal. induction l as [|[o x] l IH]; [reflexivity|]. cbn. f_equal. f_equal. exact IH. Qed.

  Notation expr' := (expr_value f text').
  Lemma found_phi : forall V w (l : list (str * V)) v (P : V -> bool), SpecSource.lookup w l = Some v -> forallb (fun p => P (snd p)) l = true -> P v = true.
  Proof. induction l as [|[k x] l IH]; intros v P H A; [discriminate|]. cbn in H, A. apply andb_prop in A as [A1 A2]. destruct (str_eqb w k); [injection H as <-; exact A1|eauto]. Qed.

  Lemma values_letters :
    (forall t a, expr_value f text t a -> exists b, expr' (mt t) b /\ rel a b) /\
    (forall t g a, group_value f text t g a -> exists b, group_value f text' (mt t) (mb g) b /\ rel a b) /\
    (forall t a, term_value f text t a -> exists b, term_value f text' (mt t) b /\ rel a b) /\
    (forall r a b, suffixed f text r a b -> forall a', rel a a' -> exists b', suffixed f text' (map mt r) a' b' /\ rel b b') /\
    (forall l vs, indices_value f text l vs -> exists us, indices_value f text' (map mt l) us /\ Forall2 rel vs us) /\
    (forall t a, index_value f text t a -> exists b, index_value f text' (mt t) b /\ rel a b) /\
    (forall r d l v, bound_value f text r d l v -> rel d d -> exists u, bound_value f text' r d (map mt l) u /\ rel v u) /\
    (forall t a, node_value f text t a -> exists b, node_value f text' (mt t) b /\ rel a b) /\
    (forall l ps, applies f text l ps -> exists qs, applies f text' (map mt l) qs /\ Forall2 rel_param ps qs) /\
    (forall l args kvs, arguments_value f text l args kvs -> symbol_keys kvs /\ exists args' kvs', arguments_value f text' (map mt l) args' kvs' /\ Forall2 rel args args' /\ Forall2 rel_pair kvs kvs') /\
    (forall t a, data_value f text t a -> exists b, data_value f text' (mt t) b /\ rel a b) /\
    (forall l vs, elements_value f text l vs -> exists us, elements_value f text' (map mt l) us /\ Forall2 rel vs us).
  Proof.
    apply (values_all f text).
    - (* expr *) intros i j w x0 l k b a t Hl Hk Hb Hw _ (b' & IH & R). exists b'. split; [|exact R]. unfold t. cbn [mt]. rewrite map_app, alternate_phi. eapply expr_chain with (b := mb b).
      + apply Forall_map. eapply Forall_impl; [|exact Hl]. intros p Hp. unfold supported in *. cbn [fst]. rewrite strength_phi. exact Hp.
      + destruct k as [|o k]; [exact I|]. cbn [map]. unfold supported in *. rewrite strength_phi. exact Hk.
      + apply bracketed_phi, Hb.
      + rewrite written_phi, Hw. apply alternate_phi.
      + unfold t in IH. cbn [mt] in IH. rewrite map_app, alternate_phi in IH. exact IH.
    - (* group *) intros t x a _ (b & IH & R). exists b. split; [apply group_term, IH|exact R].
    - intros t l o r a b c Ho _ (a' & Ia & Ra) _ (b' & Ib & Rb) Hd. destruct (dotted_phi _ _ _ _ _ _ Hd Ra Rb) as (c' & D & R). exists c'. split; [|exact R]. cbn [mb].
      eapply group_dot; [rewrite rule_phi; exact Ho|exact Ia|exact Ib|exact D].
    - intros t l o r a b q n p Ho Hd _ (a' & Ia & Ra) _ (b' & Ib & Rb) Hn. pose proof (lookup_phi _ _ _ _ Hn eq_refl) as E. eexists. split.
      + cbn [mb]. eapply group_operator with (q := q) (n := n) (p := p); [rewrite rule_phi; exact Ho|rewrite text_phi, E; exact Hd|exact Ia|exact Ib|rewrite text_phi, E; exact Hn].
      + apply rel_at; [|apply rel_list2; assumption]. rewrite text_phi. unfold replaced_symbol. cbn [name_space name kind attributes replaced_kind map].
        rewrite (map_fixed (lit "std") eq_refl), (map_fixed (lit "infix") eq_refl). f_equal. apply map_fixed.
        exact (found_phi _ _ _ _ (fun v => forallb fixed (snd (fst v))) Hn eq_refl).
    - (* term *) intros i j w l x r a b c _ (a' & Ia & Ra) _ IHs Hp. destruct (IHs _ Ra) as (b' & Ib & Rb). destruct (prefixed_phi _ _ _ Hp _ Rb) as (c' & Ic & Rc). exists c'. split; [|exact Rc].
      cbn [mt]. rewrite map_app. cbn [map]. eapply term_parts; eassumption.
    - (* suffixed *) intros a a' R. exists a'. split; [constructor|exact R].
    - intros t r a b n Ht Hn _ IH a' R. pose proof (lookup_phi _ _ _ _ Hn eq_refl) as E.
      assert (Q : rsym (mkSymbol [lit "std"; lit "suffix"] n (Suffix (text_of t)) 0) = mkSymbol [lit "std"; lit "suffix"] n (Suffix (text_of (mt t))) 0).
      { rewrite text_phi. unfold replaced_symbol. cbn [name_space name kind attributes replaced_kind map]. rewrite (map_fixed (lit "std") eq_refl), (map_fixed (lit "suffix") eq_refl). f_equal.
        apply map_fixed. exact (found_phi _ _ _ _ (forallb fixed) Hn eq_refl). }
      destruct (IH _ (rel_at _ _ [a] [a'] t Q ltac:(constructor; [exact R|constructor]))) as (b' & I' & R'). exists b'. split; [|exact R']. cbn [map].
      eapply suffixed_by; [rewrite rule_phi; exact Ht|rewrite text_phi, E; exact Hn|exact I'].
    - intros i j w l r a b vs _ (us & Iu & Ru) _ IH a' R.
      destruct (IH _ (rel_at _ _ (a :: vs) (a' :: us) (Node R_slice i j w l) (standard_phi (lit "core") (lit "Index") eq_refl eq_refl) ltac:(constructor; [exact R|exact Ru]))) as (b' & I' & R').
      exists b'. split; [|exact R']. cbn [map mt]. eapply suffixed_slice; eassumption.
    - (* indices *) exists []. split; constructor.
    - intros c l vs Hc _ (us & I & R). exists us. split; [|exact R]. cbn [map]. apply indices_comma; [rewrite rule_phi; exact Hc|exact I].
    - intros x l v vs _ (u & Iu & Ru) _ (us & I & R). exists (u :: us). split; [|constructor; assumption]. cbn [map]. apply indices_more; assumption.
    - (* index *) intros i j w x v _ (u & I & R). exists u. split; [|exact R]. cbn [mt map]. apply index_plain, I.
    - intros i j w a c b va vb t _ IHa Hc _ IHb. destruct (IHa ltac:(constructor)) as (ua & Ia & Ra). destruct (IHb ltac:(rewrite <- (standard_phi (lit "core") (lit "All") eq_refl eq_refl) at 2; constructor)) as (ub & Ib & Rb).
      eexists. split.
      + unfold t. cbn [mt]. rewrite map_app. cbn [map]. eapply index_range; [exact Ia|rewrite rule_phi; exact Hc|exact Ib].
      + pose proof (rel_at _ _ [va; vb; Integer 1] [ua; ub; Integer 1] t (standard_phi (lit "core") (lit "Span") eq_refl eq_refl) ltac:(constructor; [exact Ra|constructor; [exact Rb|constructor; constructor]])) as Q.
        unfold t in Q at 2. cbn [mt] in Q. rewrite map_app in Q. exact Q.
    - intros i j w a c b d e va vb ve t _ IHa Hc _ IHb Hd _ IHe. destruct (IHa ltac:(constructor)) as (ua & Ia & Ra). destruct (IHb ltac:(rewrite <- (standard_phi (lit "core") (lit "All") eq_refl eq_refl) at 2; constructor)) as (ub & Ib & Rb).
      destruct (IHe ltac:(constructor)) as (ue & Ie & Re). eexists. split.
      + unfold t. cbn [mt]. rewrite map_app. cbn [map]. rewrite map_app. cbn [map]. eapply index_step; [exact Ia|rewrite rule_phi; exact Hc|exact Ib|rewrite rule_phi; exact Hd|exact Ie].
      + pose proof (rel_at _ _ [va; vb; ve] [ua; ub; ue] t (standard_phi (lit "core") (lit "Span") eq_refl eq_refl) ltac:(constructor; [exact Ra|constructor; [exact Rb|constructor; [exact Re|constructor]]])) as Q.
        unfold t in Q at 2. cbn [mt] in Q. rewrite map_app in Q. cbn [map] in Q. rewrite map_app in Q. exact Q.
    - (* bound *) intros r d H. exists d. split; [constructor|exact H].
    - intros r d i j w x v _ (u & I & R) _. exists u. split; [|exact R]. cbn [map mt]. apply bound_some, I.
    - (* node *) intros i j w x l v _ (u & I & R). exists u. split; [|exact R]. cbn [mt map]. apply node_expr, I.
    - intros i j w i' j' w' h l l' s ps Hh Hs _ (qs & I & R). eexists. split; [|apply replaced_call, R]. cbn [mt map]. apply node_call; [rewrite rule_phi; exact Hh|rewrite text_phi; apply named_phi, Hs|exact I].
    - intros i j w i' j' w' l l' vs t Hv. destruct (factors_phi _ _ Hv) as (us & I & R). eexists. split; [cbn [mt map]; apply node_product, I|].
      apply (rel_at _ _ vs us t); [|exact R]. unfold replaced_symbol. cbn [name_space name kind attributes replaced_kind map]. rewrite !map_fixed by reflexivity. reflexivity.
    - intros i j w i' j' w' x l l' v _ (u & I & R). exists u. split; [|exact R]. cbn [mt map]. apply node_data, I.
    - (* applies *) exists []. split; constructor.
    - intros i j w l r args writes opts ps t _ (K & args' & kvs' & Ia & R1 & R2) Hc _ (qs & I & R). destruct (collected_phi _ _ _ R2 K Hc) as (opts' & C & os & O1 & O2).
      exists (mkParam args' opts' (spot f text t) :: qs). split; [|constructor; [|exact R]].
      + rewrite <- spot_phi. cbn [map]. unfold t. cbn [mt]. eapply applies_more; [exact Ia|exact C|exact I].
      + split; [exact R1|]. split; [reflexivity|]. exists os. split; assumption.
    - (* arguments *) split; [constructor|]. exists [], []. repeat split; constructor.
    - intros c l args kvs Hc _ (K & args' & kvs' & I & R1 & R2). split; [exact K|]. exists args', kvs'. split; [|split; assumption]. cbn [map]. apply arguments_comma; [rewrite rule_phi; exact Hc|exact I].
    - intros i j w x l v args kvs _ (u & Iu & Ru) _ (K & args' & kvs' & I & R1 & R2). split; [exact K|]. exists (u :: args'), kvs'. split; [|split; [constructor; assumption|exact R2]]. cbn [map mt]. apply arguments_plain; assumption.
    - intros i j w k s c x l v args kvs Hk Hs Hc _ (u & Iu & Ru) _ (K & args' & kvs' & I & R1 & R2). split; [constructor; [exists s; reflexivity|exact K]|].
      exists args', ((Sym (rsym s), u) :: kvs'). split; [|split; [exact R1|constructor; [split; [constructor|exact Ru]|exact R2]]]. cbn [map mt].
      apply arguments_keyword; [rewrite rule_phi; exact Hk|rewrite text_phi; apply named_phi, Hs|rewrite rule_phi; exact Hc|exact Iu|exact I].
    - (* data *) intros i j w l H. eexists. split; [|constructor]. cbn [mt]. rewrite (digits_phi w H). apply SpecValue.data_integer, H.
    - intros i j x y l Hx Hy. eexists. split; [|constructor]. cbn [mt]. rewrite !map_app, (digits_phi x Hx), (digits_phi y Hy), (map_fixed (lit ".") eq_refl). apply SpecValue.data_decimal; assumption.
    - intros i j b P s l Hb Hs Hg Hd. destruct (based_ascii _ _ Hb) as [B1 B2]. eexists. split; [|constructor]. cbn [mt map]. rewrite (grouped_phi P s B2 Hg), (fixed_kept 48%N eq_refl), (kept _ _ _ HR b (or_introl B1)).
      eapply SpecValue.data_based; eassumption.
    - intros i j w l a H. exists a. split.
      + cbn [mt]. rewrite (map_fixed w) by (destruct H; reflexivity). apply SpecValue.data_special, H.
      + destruct H; try constructor. match goal with |- rel (Sym ?s) _ => assert (E : rsym s = s) by (unfold replaced_symbol; cbn [name_space name kind attributes replaced_kind map]; rewrite !map_fixed by reflexivity; reflexivity); rewrite <- E at 2; constructor end.
    - intros i j w l s H. eexists. split; [|constructor]. cbn [mt]. apply SpecValue.data_name, named_phi, H.
    - intros i j w l x s Hl Hx. eexists. split; [|constructor]. cbn [mt]. rewrite map_app. cbn [map]. apply SpecValue.data_string; [apply rules_phi, Hl|apply string_phi, Hx].
    - intros i j w l s n t H. destruct (refers_phi _ _ _ H) as [E1 E2]. exists (call_at f text' s [Integer n] (mt t)). split; [|apply rel_at; [exact E2|constructor; [constructor|constructor]]].
      unfold t. cbn [mt]. rewrite E1. apply SpecValue.data_register, H.
    - intros i j w l vs t H. destruct (slots_phi _ _ H) as (us & I & R). eexists. split; [unfold t; cbn [mt]; apply SpecValue.data_slot, I|].
      assert (E : starts_with (lit "##") (m w) = starts_with (lit "##") w).
      { unfold starts_with. rewrite strip_fixed by reflexivity. destruct (strip_prefix (lit "##") w); reflexivity. }
      rewrite E. apply (rel_at _ _ vs us t); [|exact R]. clear - HR. destruct (starts_with (lit "##") w); apply standard_phi; reflexivity.
    - intros i j w l vs t _ (us & I & R). eexists. split; [unfold t; cbn [mt]; apply SpecValue.data_list, I|]. apply (rel_at _ _ vs us t); [apply standard_phi; reflexivity|exact R].
    - (* elements *) exists []. split; constructor.
    - intros c l vs Hc _ (us & I & R). exists us. split; [|exact R]. cbn [map]. apply elements_comma; [rewrite rule_phi; exact Hc|exact I].
    - intros x l v vs _ (u & Iu & Ru) _ (us & I & R). exists (u :: us). split; [|constructor; assumption]. cbn [map]. apply elements_more; assumption.
  Qed.
  Lemma program_value_letters : forall l a, program_value f text l a -> exists b, program_value f text' (map mt l) b /\ rel a b.
  Proof.
    intros l a [t Ht|i j w x l' l2 a' Hl Hx].
    - exists EmptyStatement. split; [|constructor]. cbn [map]. apply program_empty. rewrite rule_phi. exact Ht.
    - destruct (proj1 values_letters _ _ Hx) as (b & I & R). exists b. split; [|exact R]. cbn [map mt]. apply program_first; [apply rules_phi, Hl|exact I].
  Qed.
End Run.

Lemma replaces_back : forall U phi psi, replaces U phi psi -> replaces U psi phi.
Proof.
  intros U phi psi [B F K S C W]. constructor; [exact F|exact B| | | |].
  - intros c H. rewrite <- (K c H) at 1. apply B.
  - intro c. rewrite <- (S (psi c)), F. reflexivity.
  - intro c. rewrite <- (C (psi c)), F. reflexivity.
  - intro c. rewrite <- (W (psi c)), F. reflexivity.
Qed.
Lemma map_back : forall U phi psi text, replaces U phi psi -> map psi (map phi text) = text.
Proof. intros U phi psi text H. rewrite map_map. rewrite <- (map_id text) at 2. apply map_ext. apply (back _ _ _ H). Qed.
Lemma parse_letters : forall U phi psi f text a, replaces U phi psi -> parse U f text = Ret (Ok a) -> exists b, parse U f (map phi text) = Ret (Ok b) /\ replaced phi a b.
Proof.
  intros U phi psi f text a H E. apply parse_tree in E as (s & ts & R & V). destruct (program_value_letters U phi psi H f text ts a V) as (b & V' & Q). exists b. split; [|exact Q].
  apply program_accepts in R. apply parse_tree. exists (ms phi s), (map (mt phi) ts). split; [|exact V']. apply program_accepts. rewrite (program_letters U phi psi H), R. reflexivity.
Qed.
Lemma refused_letters : forall U phi psi f text e, replaces U phi psi -> (parse U f text = Ret (Err e) <-> parse U f (map phi text) = Ret (Err e)).
Proof.
  intros U phi psi f text e H. unfold parse. rewrite (program_letters U phi psi H). destruct (run_program U text) as [s ts|s ts| |]; cbn [mr]; try tauto.
  split; intro X; exfalso.
  - apply bind_ret in X as (b & _ & X). discriminate X.
  - apply bind_ret in X as (b & _ & X). discriminate X.
Qed.
Lemma panics_letters : forall U phi psi f text, replaces U phi psi -> ((exists k, parse U f text = Panic k) <-> exists k, parse U f (map phi text) = Panic k).
Proof.
  assert (D : forall U phi psi f text, replaces U phi psi -> (exists k, parse U f text = Panic k) -> exists k, parse U f (map phi text) = Panic k).
  { intros U phi psi f text H [k E]. destruct (parse U f (map phi text)) as [[b|e]|k'|] eqn:Q.
    - apply (parse_letters U psi phi) in Q as (a & Q & _); [|apply replaces_back, H]. rewrite (map_back U phi psi text H) in Q. congruence.
    - apply (refused_letters U phi psi f text e H) in Q. congruence.
    - exists k'. reflexivity.
    - exfalso. revert Q. apply parse_terminates. }
  intros U phi psi f text H. split; [apply (D U phi psi f text H)|]. intro X. apply (D U psi phi f (map phi text) (replaces_back _ _ _ H)) in X. rewrite (map_back U phi psi text H) in X. exact X.
Qed.
Lemma place_letters : forall U phi psi text, replaces U phi psi -> error_place U (map phi text) = error_place U text.
Proof.
  intros U phi psi text H. unfold error_place. rewrite (error_letters U phi psi H). destruct (parse_error U text) as [[[p y] n]|]; [|reflexivity]. rewrite !line_col_place. f_equal. apply (place_phi U phi psi H).
Qed.
Lemma error_letters_of : forall U phi psi text, replaces U phi psi -> parse_error U (map phi text) = parse_error U text.
Proof. intros U phi psi text H. exact (error_letters U phi psi H text). Qed.
Lemma letters_example : exists a b,
  let greek := fun c => (N.eqb c 945 || N.eqb c 946)%N in let U := mkUnicode greek greek in
  let swap := fun c => if N.eqb c 945 then 946%N else if N.eqb c 946 then 945%N else c in
  let x := 945%N in let y := 946%N in
  let text := [x] ++ lit "(" ++ [x] ++ lit ":1," ++ [y] ++ lit ":2,3)+" ++ [34; x; 34]%N in
  replaces U swap swap /\ parse U (lit "f") text = Ret (Ok a) /\ parse U (lit "f") (map swap text) = Ret (Ok b) /\ replaced swap a b /\ a <> b.
Proof.
  set (greek := fun c => (N.eqb c 945 || N.eqb c 946)%N). set (U := mkUnicode greek greek).
  set (swap := fun c => if N.eqb c 945 then 946%N else if N.eqb c 946 then 945%N else c).
  set (text := [945%N] ++ lit "(" ++ [945%N] ++ lit ":1," ++ [946%N] ++ lit ":2,3)+" ++ [34; 945; 34]%N).
  assert (H : replaces U swap swap).
  { assert (S : forall c, swap (swap c) = c) by (intro c; unfold swap; destruct (N.eqb_spec c 945) as [->|N1]; [reflexivity|]; destruct (N.eqb_spec c 946) as [->|N2]; [reflexivity|]; apply N.eqb_neq in N1, N2; rewrite N1, N2; reflexivity).
    constructor; try assumption.
    - assert (Q : forall c l, In c l -> existsb (N.eqb c) l = true) by (intros c l I; apply existsb_exists; exists c; split; [exact I|apply N.eqb_refl]).
      intros c Hc. unfold swap. destruct (N.eqb_spec c 945) as [->|N1]; [exfalso; destruct Hc as [L|L]; [discriminate L|apply Q in L; vm_compute in L; discriminate L]|].
      destruct (N.eqb_spec c 946) as [->|N2]; [exfalso; destruct Hc as [L|L]; [discriminate L|apply Q in L; vm_compute in L; discriminate L]|reflexivity].
    - intro c. unfold swap. destruct (N.eqb_spec c 945) as [->|N1]; [reflexivity|]. destruct (N.eqb_spec c 946) as [->|N2]; reflexivity.
    - intro c. unfold swap. destruct (N.eqb_spec c 945) as [->|N1]; [reflexivity|]. destruct (N.eqb_spec c 946) as [->|N2]; reflexivity.
    - intro c. unfold swap. destruct (N.eqb_spec c 945) as [->|N1]; [reflexivity|]. destruct (N.eqb_spec c 946) as [->|N2]; reflexivity. }
  destruct (parse U (lit "f") text) as [[a|e]|k|] eqn:E; [|exfalso; revert E; vm_compute; discriminate..].
  destruct (parse_letters U swap swap (lit "f") text a H E) as (b & E' & R). exists a, b. cbv zeta. split; [exact H|]. split; [exact E|]. split; [exact E'|]. split; [exact R|].
  intros <-. revert E E'. vm_compute. congruence.
Qed.
