(** The AST depends on the spans of the pairs only in its positions, and on the
    texts of few of them. *)
From Verif Require Import Base Ast SmError Peg Grammar Climber Build SpecAst SpecPeg SpecClimb.
From Verif Require Import ProofAst ProofClimber ProofBuild.
Local Open Scope Z_scope.
Local Open Scope outcome_scope.

Fixpoint strip (t : tree rule) : tree rule :=
  match t with Node r _ _ x l => Node r 0 0 x (map strip l) end.

(** the pairs whose text is read *)
Definition worded (r : rule) : bool :=
  match r with
  | R_Integer | R_Decimal | R_Byte | R_Special | R_REPL | R_Slot | R_SYMBOL | R_Symbol | R_StringNormal | R_StringText
  | R_Prefix | R_Suffix | R_Plus | R_Minus | R_Multiply | R_Divide | R_Power | R_Map | R_Dot => true
  | _ => false
  end.
Definition word_of (r : rule) (x : str) (l : list (tree rule)) : str :=
  if worded r then x
  else match r with R_apply_call => match l with h :: _ => t_text h | [] => [] end | _ => [] end.
Fixpoint shade (t : tree rule) : tree rule :=
  match t with Node r _ _ x l => Node r 0 0 (word_of r x l) (map shade l) end.

Definition orel {A B} (R : A -> B -> Prop) (x : outcome A) (y : outcome B) : Prop :=
  match x, y with
  | Ret a, Ret b => R a b
  | Panic k, Panic k' => k = k'
  | OutOfFuel, OutOfFuel => True
  | _, _ => False
  end.
Lemma orel_bind : forall A B C D (R : A -> B -> Prop) (S : C -> D -> Prop) x y f g,
  orel R x y -> (forall a b, R a b -> orel S (f a) (g b)) -> orel S (obind x f) (obind y g).
Proof. intros A B C D R S [a|k|] [b|k'|] f g H HF; cbn in *; try contradiction; auto. Qed.
Lemma orel_refl : forall A (R : A -> A -> Prop) x, (forall a, R a a) -> orel R x x.
Proof. intros A R [a|k|] H; cbn; auto. Qed.
Lemma orel_omapM : forall A A' B B' (P : A -> A' -> Prop) (R : B -> B' -> Prop) f g l m,
  Forall2 P l m -> (forall a b, In a l -> P a b -> orel R (f a) (g b)) -> orel (Forall2 R) (omapM f l) (omapM g m).
Proof.
  intros A A' B B' P R f g l m H. induction H as [|a b l m Hab Hlm IH]; intros HF; cbn; [constructor|].
  eapply orel_bind; [apply HF; [left; reflexivity|exact Hab]|]. intros x y Hxy.
  eapply orel_bind; [apply IH; intros; apply HF; [right; assumption|assumption]|]. intros xs ys Hs. cbn. constructor; assumption.
Qed.

Definition sim (a b : ast) : Prop := forget_positions a = forget_positions b.
Definition same (t u : tree rule) : Prop := shade t = shade u.

Lemma same_rule : forall t u, same t u -> t_rule t = t_rule u.
Proof. intros [] [] H. unfold same in H. cbn in *. congruence. Qed.
Lemma same_text : forall t u, same t u -> worded (t_rule t) = true -> t_text t = t_text u.
Proof. intros [r ? ? x l] [r' ? ? x' l'] H W. unfold same in H. cbn in *. injection H as -> H _. unfold word_of in H. rewrite W in H. exact H. Qed.
Lemma same_head : forall t u, same t u -> t_rule t = R_apply_call ->
  match t_inner t, t_inner u with h :: _, h' :: _ => t_text h = t_text h' | _, _ => True end.
Proof.
  intros [r ? ? x l] [r' ? ? x' l'] H W. unfold same in H. cbn in *. injection H as H1 H _. subst r r'. cbn in H.
  destruct l, l'; auto.
Qed.
Lemma same_list : forall l m, map shade l = map shade m -> Forall2 same l m.
Proof.
  induction l as [|a l IH]; intros [|b m] H; try discriminate; constructor; cbn in H; injection H as H1 H2; auto.
Qed.
Lemma same_inner : forall t u, same t u -> Forall2 same (t_inner t) (t_inner u).
Proof. intros [] [] H. unfold same in H. cbn in *. apply same_list. congruence. Qed.
Lemma strip_same : forall t u, strip t = strip u -> same t u.
Proof.
  intro t. induction t as [r a b x l IH] using tree_ind'. intros [r' a' b' x' l'] H. cbn in H. injection H as <- <- H. unfold same. cbn.
  assert (E : map shade l = map shade l').
  { clear -IH H. revert l' H. induction IH as [|t l Ht _ IHl]; intros [|u l'] H; try discriminate; [reflexivity|]. cbn in *. injection H as H1 H2.
    f_equal; [exact (Ht u H1)|apply IHl, H2]. }
  rewrite E. f_equal. unfold word_of. destruct (worded r); [reflexivity|]. destruct r; try reflexivity.
  destruct l as [|[] ?], l' as [|[] ?]; cbn in H; try discriminate; [reflexivity|]. injection H as _ -> _ _. reflexivity.
Qed.
Lemma strip_strip : forall t, strip (strip t) = strip t.
Proof.
  intro t. induction t as [r a b x l IH] using tree_ind'. cbn. f_equal. rewrite map_map.
  apply map_ext_in. intros t Ht. rewrite Forall_forall in IH. auto.
Qed.

Lemma sim_concat : forall l m, Forall2 (Forall2 sim) l m -> Forall2 sim (concat l) (concat m).
Proof. induction 1; cbn; [constructor|]. apply Forall2_app; assumption. Qed.
Lemma sim_map : forall l m, Forall2 sim l m <-> map forget_positions l = map forget_positions m.
Proof.
  induction l as [|a l IH]; intros [|b m]; cbn; split; intro H; try discriminate; try (inversion H; fail); try constructor.
  - inversion H; subst. f_equal; [assumption|]. apply IH. assumption.
  - injection H as H1 H2. exact H1.
  - injection H as H1 H2. apply IH. exact H2.
Qed.
Lemma sim_call : forall s l m p q, Forall2 sim l m ->
  sim (Function s [plain_param l p]) (Function s [plain_param m q]).
Proof. intros s l m p q H. unfold sim. cbn. apply sim_map in H. rewrite H. reflexivity. Qed.
Lemma sim_refl : forall a, sim a a.
Proof. reflexivity. Qed.

Section Pos.
  Variables f1 i1 f2 i2 : str.

  Lemma infix_node_sim : forall p q a a' o o' b b', sim a a' -> t_rule o = t_rule o' -> t_text o = t_text o' -> sim b b' ->
    orel sim (infix_node p a o b) (infix_node q a' o' b').
  Proof.
    intros p q a a' o o' b b' Ha Ho Hr Hb. unfold infix_node. rewrite <- Ho, <- Hr.
    assert (D : orel sim (parse_dot_call a b p) (parse_dot_call a' b' q)).
    { unfold parse_dot_call. unfold sim in Hb.
      destruct b as [| |s [|x ps]| | | | |], b' as [| |s' [|x' ps']| | | | |]; cbn in Hb; try discriminate; try exact eq_refl.
      - injection Hb as -> E1 E2 E3. cbn. unfold sim. cbn. rewrite Ha, E1, E2, E3. reflexivity.
      - injection Hb as ->. apply sim_call. constructor; [exact Ha|]. constructor; [apply sim_refl|constructor].
      - injection Hb as ->. apply sim_call. constructor; [exact Ha|]. constructor. }
    destruct (t_rule o); try exact D; apply sim_call; constructor; try constructor; auto.
  Qed.

  Lemma string_block_same : forall l m, Forall2 same l m -> forall s, parse_string_block l s = parse_string_block m s.
  Proof.
    induction 1 as [|a b l m H _ IH]; intro s; [reflexivity|]. cbn. rewrite <- (same_rule _ _ H). pose proof (same_text _ _ H) as HT.
    destruct (t_rule a); auto. rewrite HT by reflexivity. auto.
  Qed.
  Lemma parse_string_same : forall t u, same t u -> parse_string t = parse_string u.
  Proof.
    intros t u H. unfold parse_string. generalize (@nil char). pose proof (same_inner _ _ H) as HI.
    induction HI as [|a b l m H1 H2 IH]; intro s; [reflexivity|].
    cbn. rewrite <- (same_rule _ _ H1), (string_block_same _ _ (same_inner _ _ H1)). pose proof (same_text _ _ H1) as HT.
    destruct (t_rule a); auto.
    - rewrite <- HT by reflexivity. destruct (unquote (t_text a)); cbn; auto.
    - destruct (parse_string_block (t_inner b) s); cbn; auto.
  Qed.

  Lemma parse_space_call_sim : forall t u, same t u -> orel sim (parse_space_call f1 i1 t) (parse_space_call f2 i2 u).
  Proof.
    intros t u H. unfold parse_space_call. eapply orel_bind.
    - eapply orel_omapM with (R := Forall2 sim); [apply (same_inner _ _ H)|].
      intros a b _ Hab. rewrite <- (same_rule _ _ Hab). pose proof (same_text _ _ Hab) as HT. unfold parse_integer.
      destruct (t_rule a); cbn; try rewrite <- HT by reflexivity; try reflexivity; try constructor; try constructor; try reflexivity.
      destruct (unwrap (int_from_str_radix (t_text a) 10)); cbn; auto.
      constructor; [reflexivity|constructor].
    - intros l m Hlm. apply sim_call. apply sim_concat. exact Hlm.
  Qed.

  Lemma parse_in_out_sim : forall t u, same t u -> worded (t_rule t) = true -> orel sim (parse_in_out f1 i1 t) (parse_in_out f2 i2 u).
  Proof.
    intros t u H Hr. unfold parse_in_out. rewrite <- (same_text _ _ H Hr).
    eapply orel_bind with (R := eq); [apply orel_refl; reflexivity|]. intros i j ->.
    eapply orel_bind with (R := eq); [apply orel_refl; reflexivity|]. intros s s' ->.
    apply sim_call. constructor; [reflexivity|constructor].
  Qed.
  Lemma parse_slot_sim : forall t u, same t u -> worded (t_rule t) = true -> orel sim (parse_slot f1 i1 t) (parse_slot f2 i2 u).
  Proof.
    intros t u H Hr. unfold parse_slot. rewrite <- (same_text _ _ H Hr).
    eapply orel_bind.
    - eapply orel_omapM with (R := sim); [apply (same_inner _ _ H)|].
      intros a b _ Hab. rewrite <- (same_rule _ _ Hab). pose proof (same_text _ _ Hab) as HT.
      destruct (t_rule a); try rewrite <- HT by reflexivity; apply orel_refl; reflexivity.
    - intros l m Hlm. apply sim_call. exact Hlm.
  Qed.

  Section Rec.
    Variables r1 r2 : tree rule -> outcome ast.
    Let ok (t : tree rule) : Prop := forall u, same t u -> orel sim (r1 t) (r2 u).
    Fixpoint within (n : nat) (t : tree rule) : Prop :=
      match n with O => True | S m => Forall (fun c => ok c /\ within m c) (t_inner t) end.
    Lemma within_le : forall n m t, (m <= n)%nat -> within n t -> within m t.
    Proof.
      induction n as [|n IH]; intros [|m] t L H; try exact I; try lia. cbn [within] in *.
      eapply Forall_impl; [|exact H]. intros c [H1 H2]. split; [exact H1|]. apply IH; [lia|exact H2].
    Qed.
    Lemma within_in : forall n t c, within (S n) t -> In c (t_inner t) -> ok c /\ within n c.
    Proof. intros n t c H Hin. cbn [within] in H. rewrite Forall_forall in H. apply H. exact Hin. Qed.

    Lemma parse_list_sim : forall t u, within 1 t -> same t u ->
      orel sim (parse_list f1 i1 r1 t) (parse_list f2 i2 r2 u).
    Proof.
      intros t u Hw H. unfold parse_list. eapply orel_bind.
      - eapply orel_omapM with (R := Forall2 sim); [apply (same_inner _ _ H)|].
        intros a b Hin Hab. destruct (within_in _ _ _ Hw Hin) as [Hr _].
        rewrite <- (same_rule _ _ Hab). destruct (t_rule a); try exact eq_refl; try constructor.
        eapply orel_bind; [apply Hr; exact Hab|]. intros x y Hxy. constructor; [exact Hxy|constructor].
      - intros l m Hlm. apply sim_call. apply sim_concat. exact Hlm.
    Qed.

    Lemma parse_data_sim : forall t u, within 2 t -> same t u ->
      orel sim (parse_data f1 i1 r1 t) (parse_data f2 i2 r2 u).
    Proof.
      intros t u Hw H. unfold parse_data. pose proof (same_inner _ _ H) as HI.
      pose proof (within_in 1 t) as HW. destruct HI as [|a b l m Hab _]; [exact eq_refl|].
      destruct (HW a Hw (or_introl eq_refl)) as [_ Hl].
      rewrite <- (same_rule _ _ Hab). pose proof (same_text _ _ Hab) as HT.
      destruct (t_rule a) eqn:Er; try exact eq_refl; try specialize (HT eq_refl).
      - apply parse_list_sim; assumption.
      - unfold parse_decimal. rewrite <- HT. apply orel_refl. reflexivity.
      - unfold parse_integer. rewrite <- HT. apply orel_refl. reflexivity.
      - unfold parse_byte. rewrite <- HT. apply orel_refl. reflexivity.
      - rewrite (parse_string_same _ _ Hab). apply orel_refl. reflexivity.
      - rewrite <- HT. apply orel_refl. reflexivity.
      - unfold parse_special. rewrite <- HT. apply orel_refl. reflexivity.
      - apply parse_slot_sim; [exact Hab|rewrite Er; reflexivity].
      - apply parse_in_out_sim; [exact Hab|rewrite Er; reflexivity].
    Qed.

    Definition sim_kv (p q : ast * ast) : Prop := fst p = fst q /\ sim (snd p) (snd q).
    Lemma parse_apply_kv_sim : forall t u, within 1 t -> same t u ->
      orel sim_kv (parse_apply_kv r1 t) (parse_apply_kv r2 u).
    Proof.
      intros t u Hw H. unfold parse_apply_kv. cbn [within] in Hw. pose proof (same_inner _ _ H) as HI.
      assert (G : forall key v v', sim v v' ->
        orel sim_kv (parse_apply_kv_loop r1 (t_inner t) key v) (parse_apply_kv_loop r2 (t_inner u) key v')).
      { induction HI as [|a b l m Hab _ IH]; intros key v v' Hv; [split; [reflexivity|exact Hv]|].
        inversion Hw as [|? ? [Ha _] Hw']; subst. cbn. rewrite <- (same_rule _ _ Hab). pose proof (same_text _ _ Hab) as HT.
        destruct (t_rule a); try exact eq_refl; try rewrite <- HT by reflexivity; try (apply IH; assumption).
        eapply orel_bind; [apply Ha; exact Hab|]. intros x y Hxy. apply IH; assumption. }
      apply G. reflexivity.
    Qed.

    Lemma btree_insert_sim : forall k v v' m m', sim v v' -> Forall2 sim_kv m m' ->
      Forall2 sim_kv (btree_insert ast_compare k v m) (btree_insert ast_compare k v' m').
    Proof.
      intros k v v' m m' Hv Hm. induction Hm as [|[k1 v1] [k2 v2] m m' [H1 H2] Hm IH]; cbn.
      - constructor; [split; [reflexivity|exact Hv]|constructor].
      - cbn in H1, H2. subst k2. destruct (ast_compare k k1).
        + constructor; [split; [reflexivity|exact Hv]|exact Hm].
        + constructor; [split; [reflexivity|exact Hv]|]. constructor; [split; [reflexivity|exact H2]|exact Hm].
        + constructor; [split; [reflexivity|exact H2]|exact IH].
    Qed.

    Definition sim_param (p q : parameter) : Prop :=
      Forall2 sim (arguments p) (arguments q) /\ Forall2 sim_kv (options p) (options q).
    Lemma parse_apply_sim : forall t u, within 2 t -> same t u ->
      orel sim_param (parse_apply f1 i1 r1 t) (parse_apply f2 i2 r2 u).
    Proof.
      intros t u Hw H. unfold parse_apply. pose proof (same_inner _ _ H) as HI.
      eapply orel_bind with (R := fun x y => Forall2 sim (fst x) (fst y) /\ Forall2 sim_kv (snd x) (snd y)).
      - assert (G : forall args args' kws kws', Forall2 sim args args' -> Forall2 sim_kv kws kws' ->
          orel (fun x y => Forall2 sim (fst x) (fst y) /\ Forall2 sim_kv (snd x) (snd y))
            (parse_apply_loop r1 (t_inner t) args kws) (parse_apply_loop r2 (t_inner u) args' kws')).
        { remember 1%nat as n eqn:En. cbn [within] in Hw.
          induction HI as [|a b l m Hab _ IH]; intros args args' kws kws' Ha Hk; [split; assumption|].
          inversion Hw as [|? ? [_ Hwa] Hw']; subst. cbn. rewrite <- (same_rule _ _ Hab).
          destruct (t_rule a); try exact eq_refl; try (apply IH; assumption).
          eapply orel_bind; [apply parse_apply_kv_sim; eassumption|].
          intros [k v] [k' v'] [H1 H2]. cbn in H1, H2. subst k'.
          destruct k; (apply IH; [assumption| |]); try assumption; try (apply btree_insert_sim; assumption).
          apply Forall2_app; [assumption|]. constructor; [exact H2|constructor]. }
        apply G; constructor.
      - intros [a k] [a' k'] [H1 H2]. split; assumption.
    Qed.

    Lemma sim_params : forall s ps qs, Forall2 sim_param ps qs -> sim (Function s ps) (Function s qs).
    Proof.
      intros s ps qs H. unfold sim. cbn. f_equal. induction H as [|p q ps qs [H1 H2] _ IH]; [reflexivity|].
      cbn. rewrite IH. f_equal. f_equal.
      - apply sim_map. exact H1.
      - clear -H2. induction H2 as [|[k v] [k' v'] l m [E1 E2] _ IH]; [reflexivity|]. cbn in *. subst k'.
        rewrite E2, IH. reflexivity.
    Qed.

    Lemma parse_apply_call_sim : forall t u, within 3 t -> same t u -> t_rule t = R_apply_call ->
      orel sim (parse_apply_call f1 i1 r1 t) (parse_apply_call f2 i2 r2 u).
    Proof.
      intros t u Hw H Hr. unfold parse_apply_call. pose proof (same_inner _ _ H) as HI. pose proof (same_head _ _ H Hr) as HT.
      pose proof (within_in 2 t) as HW. destruct HI as [|a b l m Hab Hlm]; [exact eq_refl|].
      rewrite <- HT. eapply orel_bind.
      - eapply orel_omapM with (R := sim_param); [exact Hlm|]. intros c d Hin Hcd.
        destruct (HW c Hw (or_intror Hin)) as [_ Hc]. rewrite <- (same_rule _ _ Hcd).
        destruct (t_rule c); try exact eq_refl. apply parse_apply_sim; assumption.
      - intros ps qs Hps. apply sim_params. exact Hps.
    Qed.

    Lemma parse_node_sim : forall t u, within 4 t -> same t u ->
      orel sim (parse_node f1 i1 r1 t) (parse_node f2 i2 r2 u).
    Proof.
      intros t u Hw H. unfold parse_node. pose proof (same_inner _ _ H) as HI.
      pose proof (within_in 3 t) as HW. destruct HI as [|a b l m Hab _]; [exact eq_refl|].
      destruct (HW a Hw (or_introl eq_refl)) as [Hok Hl].
      rewrite <- (same_rule _ _ Hab). destruct (t_rule a) eqn:Er; try exact eq_refl.
      - apply Hok. exact Hab.
      - apply parse_apply_call_sim; assumption.
      - apply parse_space_call_sim. exact Hab.
      - apply parse_data_sim; [|exact Hab]. eapply within_le; [|exact Hl]. lia.
    Qed.

    Lemma parse_index_sim : forall t u, within 2 t -> same t u ->
      orel sim (parse_index f1 i1 r1 t) (parse_index f2 i2 r2 u).
    Proof.
      intros t u Hw H. unfold parse_index. pose proof (same_inner _ _ H) as HI.
      assert (G : forall a a' b b' c c', sim a a' -> sim b b' -> sim c c' ->
        orel sim (parse_index_loop f1 i1 r1 t (t_inner t) a b c) (parse_index_loop f2 i2 r2 u (t_inner u) a' b' c')).
      { remember 1%nat as n eqn:En. cbn [within] in Hw. revert HI Hw.
        generalize (t_inner t) as lt. generalize (t_inner u) as lu. intros lu lt HI Hw.
        induction HI as [|x y l m Hxy _ IH]; intros a a' b b' c c' Ha Hb Hc.
        - apply sim_call. repeat constructor; assumption.
        - inversion Hw as [|? ? [Hok Hwa] Hw']; subst. cbn [parse_index_loop].
          rewrite <- (same_rule _ _ Hxy). pose proof (same_inner _ _ Hxy) as HJ.
          destruct (t_rule x); try exact eq_refl; try (apply IH; assumption); try (apply Hok; exact Hxy).
          all: cbn [within] in Hwa; destruct HJ as [|e e' l0 m0 Hee _]; [exact eq_refl|];
            inversion Hwa as [|? ? [He _] _]; subst;
            eapply orel_bind; [apply He; exact Hee|]; intros v w Hvw; apply IH; assumption. }
      apply G; reflexivity.
    Qed.

    Lemma parse_slice_sim : forall t u, within 3 t -> same t u ->
      orel (Forall2 sim) (parse_slice f1 i1 r1 t) (parse_slice f2 i2 r2 u).
    Proof.
      intros t u Hw H. unfold parse_slice. eapply orel_bind.
      - eapply orel_omapM with (R := Forall2 sim); [apply (same_inner _ _ H)|].
        intros a b Hin Hab. destruct (within_in _ _ _ Hw Hin) as [_ Hr].
        rewrite <- (same_rule _ _ Hab). destruct (t_rule a); try exact eq_refl; try constructor.
        eapply orel_bind; [apply parse_index_sim; eassumption|]. intros x y Hxy. constructor; [exact Hxy|constructor].
      - intros l m Hlm. apply sim_concat. exact Hlm.
    Qed.

    Lemma apply_prefixes_sim : forall pre pre' a a', Forall2 (fun x y : str * position => fst x = fst y) pre pre' ->
      sim a a' -> orel sim (apply_prefixes pre a) (apply_prefixes pre' a').
    Proof.
      intros pre pre' a a' H. revert a a'. induction H as [|[x p] [y q] l m Hxy _ IH]; intros a a' Ha; [exact Ha|].
      cbn in *. subst y. eapply orel_bind with (R := eq); [apply orel_refl; reflexivity|]. intros s s' ->.
      apply IH. apply sim_call. constructor; [exact Ha|constructor].
    Qed.

    Lemma parse_term_sim : forall t u, within 5 t -> same t u ->
      orel sim (parse_term f1 i1 r1 t) (parse_term f2 i2 r2 u).
    Proof.
      intros t u Hw H. unfold parse_term. pose proof (same_inner _ _ H) as HI.
      assert (G : forall a a' pre pre', sim a a' -> Forall2 (fun x y : str * position => fst x = fst y) pre pre' ->
        orel sim (parse_term_loop f1 i1 r1 (t_inner t) a pre) (parse_term_loop f2 i2 r2 (t_inner u) a' pre')).
      { remember 4%nat as n eqn:En. cbn [within] in Hw.
        induction HI as [|x y l m Hxy _ IH]; intros a a' pre pre' Ha Hp; [apply apply_prefixes_sim; assumption|].
        inversion Hw as [|? ? [_ Hwa] Hw']; subst. cbn [parse_term_loop].
        rewrite <- (same_rule _ _ Hxy). pose proof (same_text _ _ Hxy) as HT.
        destruct (t_rule x); try exact eq_refl; try rewrite <- HT by reflexivity.
        - eapply orel_bind; [apply parse_node_sim; eassumption|]. intros v w Hvw. apply IH; assumption.
        - eapply orel_bind; [apply parse_slice_sim; [|exact Hxy]; eapply within_le; [|exact Hwa]; lia|].
          intros v w Hvw. apply IH; [assumption| |assumption]. apply sim_call. constructor; assumption.
        - apply IH; [assumption|assumption|]. constructor; [reflexivity|assumption].
        - eapply orel_bind with (R := eq); [apply orel_refl; reflexivity|]. intros s s' ->.
          apply IH; [assumption| |assumption]. apply sim_call. constructor; [exact Ha|constructor]. }
      apply G; [reflexivity|constructor].
    Qed.

    Lemma primary_sim : forall t u, ok t -> within 5 t -> same t u ->
      orel sim (primary f1 i1 r1 t) (primary f2 i2 r2 u).
    Proof.
      intros t u Ht Hw H. unfold primary. rewrite <- (same_rule _ _ H). destruct (t_rule t); try exact eq_refl.
      - apply Ht. exact H.
      - apply parse_term_sim; assumption.
    Qed.
  End Rec.

  (** climbing with related operands and infix functions *)
  Lemma climb_sim : forall (inf1 inf2 : ast -> tree rule -> ast -> outcome ast) l m,
    (forall a a' o o' b b', sim a a' -> same o o' -> tree_ops o <> None -> sim b b' -> orel sim (inf1 a o b) (inf2 a' o' b')) ->
    Forall2 (fun x y => same (fst x) (fst y) /\ orel sim (snd x) (snd y)) l m ->
    orel sim (climb tree_ops inf1 l) (climb tree_ops inf2 m).
  Proof.
    intros inf1 inf2 l m HI HL.
    set (PS := Forall2 (fun x y : tree rule * outcome ast => same (fst x) (fst y) /\ orel sim (snd x) (snd y))).
    assert (G : forall f,
      (forall a a' p l m, sim a a' -> PS l m ->
        orel (fun x y => sim (fst x) (fst y) /\ PS (snd x) (snd y)) (climb_outer tree_ops inf1 f a p l) (climb_outer tree_ops inf2 f a' p m)) /\
      (forall a a' p l m, sim a a' -> PS l m ->
        orel (fun x y => sim (fst x) (fst y) /\ PS (snd x) (snd y)) (climb_inner tree_ops inf1 f p a l) (climb_inner tree_ops inf2 f p a' m))).
    { induction f as [|f [IHo IHi]]; split; try (intros; exact I).
      - intros a a' p l0 m0 Ha Hl. rewrite !climb_outer_S.
        destruct Hl as [|[o po] [o' po'] l1 m1 [Ho Hpo] Hl1]; [split; [assumption|constructor]|].
        assert (HH : PS ((o, po) :: l1) ((o', po') :: m1)) by (constructor; [split; assumption|assumption]).
        cbn [fst] in Ho. assert (E : tree_ops o = tree_ops o') by (unfold tree_ops; rewrite (same_rule _ _ Ho); reflexivity).
        rewrite <- E. destruct (tree_ops o) as [[pr as_]|] eqn:Eo; [|split; assumption].
        destruct (pr >=? p); [|split; assumption].
        destruct Hl1 as [|[x px] [x' px'] l2 m2 [_ Hpx] Hl2]; [exact eq_refl|].
        cbn [snd] in Hpx. eapply orel_bind; [exact Hpx|]. intros v w Hvw.
        eapply orel_bind; [apply IHi; eassumption|]. intros [r l3] [r' m3] [Hr Hl3]. cbn [fst snd] in *.
        eapply orel_bind; [apply HI; [exact Ha|exact Ho|rewrite Eo; discriminate|exact Hr]|]. intros v1 w1 H1. apply IHo; assumption.
      - intros a a' p l0 m0 Ha Hl. rewrite !climb_inner_S.
        destruct Hl as [|[o po] [o' po'] l1 m1 [Ho Hpo] Hl1]; [split; [assumption|constructor]|].
        cbn [fst snd] in Ho, Hpo. assert (E : tree_ops o = tree_ops o') by (unfold tree_ops; rewrite (same_rule _ _ Ho); reflexivity).
        assert (HH : PS ((o, po) :: l1) ((o', po') :: m1)) by (constructor; [split; assumption|assumption]).
        rewrite <- E. destruct (tree_ops o) as [[pr as_]|]; [|split; assumption].
        destruct ((pr >? p) || _); [|split; assumption].
        eapply orel_bind; [apply IHo; eassumption|]. intros [r l3] [r' m3] [Hr Hl3]. cbn [fst snd] in *. apply IHi; assumption. }
    unfold climb. assert (EL : length l = length m) by (clear -HL; induction HL; cbn; auto). rewrite EL.
    destruct HL as [|[x px] [x' px'] l1 m1 [_ Hx] Hl1]; [exact eq_refl|]. cbn [snd] in Hx.
    eapply orel_bind; [exact Hx|]. intros v w Hvw. eapply orel_bind; [apply G; eassumption|].
    intros [r q] [r' q'] [Hr _]. exact Hr.
  Qed.

  Theorem parse_expr_sim : forall t u, same t u -> orel sim (parse_expr f1 i1 t) (parse_expr f2 i2 u).
  Proof.
    assert (G : forall t n, (forall u, same t u -> orel sim (parse_expr f1 i1 t) (parse_expr f2 i2 u)) /\
                            within (parse_expr f1 i1) (parse_expr f2 i2) n t).
    2:{ intros t. exact (proj1 (G t 0%nat)). }
    intro t. induction t as [r a b x l IH] using tree_ind'. intro n.
    assert (Hi : forall n, within (parse_expr f1 i1) (parse_expr f2 i2) n (Node r a b x l)).
    { intros [|m]; [exact I|]. cbn [within t_inner]. eapply Forall_impl; [|exact IH]. intros c Hc. apply Hc. }
    split; [|apply Hi]. intros [r' a' b' x' l'] H. pose proof (same_inner _ _ H) as HI. cbn [t_inner] in HI.
    cbn [parse_expr]. change (fun op : tree rule => operators (t_rule op)) with tree_ops. apply climb_sim.
    - intros v v' o o' w w' Hv Ho Hr Hw. apply infix_node_sim; [exact Hv|apply same_rule, Ho| |exact Hw].
      apply (same_text _ _ Ho). unfold tree_ops in Hr. destruct (t_rule o); cbn in *; congruence.
    - clear H Hi. induction HI as [|c d l m Hcd _ IHl]; cbn [map]; constructor.
      + split; [exact Hcd|]. cbn [snd]. inversion IH as [|? ? Hc _]; subst. apply primary_sim; [|apply (proj2 (Hc 5%nat))|exact Hcd].
        exact (proj1 (Hc 0%nat)).
      + apply IHl. inversion IH; assumption.
  Qed.

  Theorem parse_pairs_sim : forall l m, Forall2 same l m -> orel sim (parse_pairs f1 i1 l) (parse_pairs f2 i2 m).
  Proof.
    induction 1 as [|c d l m Hcd Hlm IH]; cbn; [reflexivity|].
    rewrite <- (same_rule _ _ Hcd). destruct (t_rule c); try exact eq_refl; try exact IH.
    eapply orel_bind with (R := fun x y => sim (fst x) (fst y)).
    - unfold parse_expression. pose proof (same_inner _ _ Hcd) as HI. clear -HI.
      generalize false as eos.
      assert (G : forall a a' eos, sim a a' ->
        orel (fun x y : ast * bool => sim (fst x) (fst y)) (parse_expression_loop f1 i1 (t_inner c) a eos)
          (parse_expression_loop f2 i2 (t_inner d) a' eos)).
      { induction HI as [|x y l m Hxy _ IH]; intros a a' eos Ha; [exact Ha|]. cbn. rewrite <- (same_rule _ _ Hxy).
        destruct (t_rule x); try exact eq_refl; auto.
        eapply orel_bind; [apply parse_expr_sim; exact Hxy|]. intros v w Hvw. apply IH. exact Hvw. }
      intro eos. apply G. reflexivity.
    - intros [a e] [a' e'] Ha. exact Ha.
  Qed.
End Pos.
