(** The derived order of trees is the one of SpecOrder. *)
From Coq Require Import QArith Qpower.
From Verif Require Import Base Ast Display SpecAst SpecUtf8 SpecOrder.
From Verif Require Import ProofAst ProofUtf8.
Local Open Scope Z_scope.

Definition decides (c : comparison) (same less : Prop) : Prop := (c = Eq <-> same) /\ (c = Lt <-> less).
Lemma decides_iff : forall c s l s' l', decides c s l -> (s <-> s') -> (l <-> l') -> decides c s' l'.
Proof. unfold decides. intros. tauto. Qed.
Lemma lex_decides : forall c d s1 l1 s2 l2, decides c s1 l1 -> decides d s2 l2 -> decides (lex c d) (s1 /\ s2) (l1 \/ s1 /\ l2).
Proof. intros c d s1 l1 s2 l2 [A B] [C D]. unfold decides, lex. destruct c; intuition congruence. Qed.
Lemma list_decides : forall {A} (cmp : A -> A -> comparison) same less l, Forall (fun x => forall y, decides (cmp x y) (same x y) (less x y)) l ->
  forall m, decides (list_compare cmp l m) (Forall2 same l m) (ahead same less l m).
Proof.
  intros A cmp same less l H. induction H as [|x l Hx H IH]; intros [|y m]; cbn [list_compare].
  - split; split; intros X; try discriminate; try constructor. inversion X.
  - split; split; intros X; try discriminate; try inversion X; constructor.
  - split; split; intros X; try discriminate; inversion X.
  - eapply decides_iff; [apply lex_decides; [apply Hx|apply IH]| |].
    + split; [intros [? ?]; constructor; assumption|intros X; inversion X; auto].
    + split; [intros [?|[? ?]]; [apply ahead_here|apply ahead_later]; assumption|intros X; inversion X; auto].
Qed.
Lemma all_decides : forall {A} (cmp : A -> A -> comparison) same less, (forall x y, decides (cmp x y) (same x y) (less x y)) ->
  forall l m, decides (list_compare cmp l m) (Forall2 same l m) (ahead same less l m).
Proof. intros. apply list_decides. apply Forall_forall. auto. Qed.
Lemma forall2_eq : forall {A} (l m : list A), Forall2 eq l m <-> l = m.
Proof. intros A l m. split; [induction 1; congruence|]. intros <-. induction l; constructor; auto. Qed.
Lemma Z_decides : forall x y, decides (Z.compare x y) (x = y) (x < y).
Proof. intros. split; [apply Z.compare_eq_iff|apply Z.compare_lt_iff]. Qed.
Lemma text_decides : forall s t, decides (str_compare s t) (s = t) (text_before s t).
Proof.
  intros s t. eapply decides_iff; [apply (all_decides N.compare eq N.lt)|apply forall2_eq|reflexivity]. intros x y. split; [apply N.compare_eq_iff|apply N.compare_lt_iff].
Qed.
Lemma texts_decides : forall s t, decides (list_compare str_compare s t) (s = t) (ahead eq text_before s t).
Proof. intros s t. eapply decides_iff; [apply (all_decides str_compare eq text_before), text_decides|apply forall2_eq|reflexivity]. Qed.
Ltac no_case := split; split; intros X; (discriminate X || inversion X || (constructor; discriminate) || constructor || idtac).
Lemma kind_decides : forall k j, decides (kind_compare k j) (k = j) (kind_before k j).
Proof.
  intros [| |a|a p|a] [| |b|b q|b]; cbn [kind_compare kind_tag Z.compare]; try (split; split; intros X; first [discriminate X | reflexivity | (constructor; discriminate) | constructor | (inversion X; congruence)]; fail).
  - eapply decides_iff; [apply text_decides| |]; [split; congruence|split; [apply kb_prefix|intros X; inversion X; assumption]].
  - eapply decides_iff; [apply lex_decides; [apply text_decides|apply Z_decides]| |]; [split; [intros [-> ->]; reflexivity|intros [= -> ->]; auto]|].
    split; [intros [X|[-> X]]; [apply kb_infix|apply kb_infix_strength]; assumption|intros X; inversion X; auto].
  - eapply decides_iff; [apply text_decides| |]; [split; congruence|split; [apply kb_suffix|intros X; inversion X; assumption]].
Qed.
Lemma symbol_decides : forall s t, decides (symbol_compare s t) (s = t) (symbol_before s t).
Proof.
  intros [ns n k a] [ns' n' k' a']. unfold symbol_compare. cbn [name_space name kind attributes].
  eapply decides_iff; [apply lex_decides; [apply texts_decides|apply lex_decides; [apply text_decides|apply lex_decides; [apply kind_decides|apply Z_decides]]]| |].
  - split; [intros (-> & -> & -> & ->); reflexivity|intros [= -> -> -> ->]; auto].
  - split; [|intros X; inversion X; subst; intuition]. intros [X|[-> [X|[-> [X|[-> X]]]]]]; [apply sb_space|apply sb_name|apply sb_kind|apply sb_attributes]; assumption.
Qed.
Lemma spot_decides : forall x y, decides (pair_compare Z.compare Z.compare x y) (x = y) (spot_before x y).
Proof.
  intros [a b] [c d]. eapply decides_iff; [apply lex_decides; apply Z_decides| |reflexivity]. cbn [fst snd]. split; [intros [-> ->]; reflexivity|intros [= -> ->]; auto].
Qed.
Lemma position_decides : forall x y, decides (pos_compare x y) (x = y) (position_before x y).
Proof.
  intros [f s e] [f' s' e']. unfold pos_compare. cbn [file pstart pend]. eapply decides_iff; [apply lex_decides; [apply text_decides|apply lex_decides; apply spot_decides]| |].
  - split; [intros (-> & -> & ->); reflexivity|intros [= -> -> ->]; auto].
  - split; [|intros X; inversion X; subst; intuition]. intros [X|[-> [X|[-> X]]]]; [apply pb_file|apply pb_start|apply pb_end]; assumption.
Qed.
Lemma ten : ~ (inject_Z 10 == 0)%Q. Proof. discriminate. Qed.
Lemma scaled : forall i e s, e <= s -> 
  (inject_Z (i * 10 ^ (s - e)) == inject_Z i * inject_Z 10 ^ (- e) * inject_Z 10 ^ s)%Q.
Proof.
  intros i e s H. rewrite inject_Z_mult, Zpower_Qpower by lia. replace (s - e) with (- e + s) by lia. rewrite Qpower_plus by exact ten. ring.
Qed.
Lemma power_nonzero : forall s, ~ (inject_Z 10 ^ s == 0)%Q.
Proof. intro s. apply Qpower_not_0, ten. Qed.
Lemma compare_value : forall x y, dec_compare x y = Eq <-> (inject_Z (dec_int x) * inject_Z 10 ^ (- dec_scale x) == inject_Z (dec_int y) * inject_Z 10 ^ (- dec_scale y))%Q.
Proof.
  intros [i e] [j d]. unfold dec_compare. cbn [dec_int dec_scale]. set (s := Z.max 0 (Z.max e d)). rewrite Z.compare_eq_iff.
  rewrite <- inject_Z_injective. rewrite !scaled by lia. apply Qmult_inj_r, power_nonzero.
Qed.
Lemma decimal_decides : forall d e, decides (dec_compare d e) (value_of d == value_of e)%Q (value_of d < value_of e)%Q.
Proof.
  intros d e. split; [apply compare_value|]. destruct d as [i x], e as [j y]. unfold dec_compare, value_of. cbn [dec_int dec_scale]. set (s := Z.max 0 (Z.max x y)).
  rewrite Z.compare_lt_iff, Zlt_Qlt, !scaled by (unfold s; lia). apply Qmult_lt_r. rewrite <- Zpower_Qpower by (unfold s; lia). rewrite <- (Zlt_Qlt 0). apply Z.pow_pos_nonneg; unfold s; lia.
Qed.
Lemma option_decides : forall x, (forall b, decides (ast_compare (fst x) b) (alike (fst x) b) (tree_before (fst x) b)) /\ (forall b, decides (ast_compare (snd x) b) (alike (snd x) b) (tree_before (snd x) b)) ->
  forall y, decides (pair_compare ast_compare ast_compare x y) (options_alike x y) (tree_before (fst x) (fst y) \/ alike (fst x) (fst y) /\ tree_before (snd x) (snd y)).
Proof. intros x [A B] y. apply lex_decides; auto. Qed.
Theorem tree_decides : forall a b, decides (ast_compare a b) (alike a b) (tree_before a b).
Proof.
  induction a as [|l H|s ps H|b|n|d|s|s] using ast_ind'; intros y; destruct y as [|m|t qs|b'|n'|d'|t|t]; cbn [ast_compare];
    try (cbn [ast_tag Z.compare Pos.compare Pos.compare_cont]; split; split; intros X; first [discriminate X | (apply tb_sort; cbn; lia) | constructor | (inversion X; cbn in *; lia)]; fail).
  - eapply decides_iff; [apply (list_decides ast_compare alike tree_before); exact H| |].
    + split; [apply alike_program|intros X; inversion X; assumption].
    + split; [apply tb_program|intros X; inversion X; [cbn in *; lia|assumption]].
  - eapply decides_iff; [apply lex_decides; [apply symbol_decides|]| |].
    + apply (list_decides (param_compare ast_compare) calls_alike
        (fun p q => ahead alike tree_before (arguments p) (arguments q) \/
         Forall2 alike (arguments p) (arguments q) /\
         (ahead options_alike (fun x y => tree_before (fst x) (fst y) \/ alike (fst x) (fst y) /\ tree_before (snd x) (snd y)) (options p) (options q) \/
          Forall2 options_alike (options p) (options q) /\ position_before (ppos p) (ppos q)))).
      eapply Forall_impl; [|exact H]. intros p [Ha Ho] q. unfold param_compare. apply lex_decides; [apply list_decides; exact Ha|]. apply lex_decides; [|apply position_decides].
      apply (list_decides (pair_compare ast_compare ast_compare) options_alike). eapply Forall_impl; [|exact Ho]. exact option_decides.
    + split; [intros [-> X]; apply alike_function; exact X|intros X; inversion X; subst; split; [reflexivity|assumption]].
    + split; [intros [X|[-> X]]; [apply tb_function|apply tb_calls]; exact X|]. intros X. inversion X; subst; [cbn in *; lia|left; assumption|right; split; [reflexivity|assumption]].
  - destruct b, b'; cbn; split; split; intros X; first [discriminate X | reflexivity | apply tb_boolean | apply alike_boolean | (inversion X; cbn in *; lia)].
  - eapply decides_iff; [apply Z_decides| |]; [split; [intros ->; constructor|intros X; inversion X; reflexivity]|split; [apply tb_integer|intros X; inversion X; [cbn in *; lia|assumption]]].
  - eapply decides_iff; [apply decimal_decides| |]; [split; [apply alike_decimal|intros X; inversion X; assumption]|split; [apply tb_decimal|intros X; inversion X; [cbn in *; lia|assumption]]].
  - eapply decides_iff; [apply symbol_decides| |]; [split; [intros ->; constructor|intros X; inversion X; reflexivity]|split; [apply tb_symbol|intros X; inversion X; [cbn in *; lia|assumption]]].
  - eapply decides_iff; [apply text_decides| |]; [split; [intros ->; constructor|intros X; inversion X; reflexivity]|split; [apply tb_string|intros X; inversion X; [cbn in *; lia|assumption]]].
Qed.

(** ** Texts by their bytes *)
Lemma char_before : forall c c' bs bs' l l', utf8_char c bs -> utf8_char c' bs' -> (c < c')%N -> (c' < 1114112)%N -> text_before (bs ++ l) (bs' ++ l').
Proof.
  assert (S : forall x y l l', (x < y)%N \/ x = y /\ text_before l l' -> text_before (x :: l) (y :: l')) by (intros x y l l' [H|[-> H]]; [apply ahead_here|apply ahead_later]; auto).
  intros c c' bs bs' l l' H H' L M. inversion H; subst; inversion H'; subst; cbn [app]; try (exfalso; lia); apply S; try (left; lia).
  all: repeat (match goal with |- (?k + ?x < ?k + ?y)%N \/ _ => destruct (N.lt_ge_cases x y); [left; lia|right; split; [lia|apply S; try (left; lia)]] end).
Qed.
Lemma ahead_app : forall p l l', text_before l l' -> text_before (p ++ l) (p ++ l').
Proof. induction p as [|x p IH]; intros l l' H; [exact H|]. apply ahead_later; [reflexivity|apply IH; exact H]. Qed.
Lemma bytes_before : forall s t, text_before s t -> forall bs bt, utf8 s bs -> utf8 t bt -> Forall (fun c => (c < 1114112)%N) s -> Forall (fun c => (c < 1114112)%N) t -> text_before bs bt.
Proof.
  induction 1 as [y m|x l y m L|x l y m E H IH]; intros bs bt Hs Ht Fs Ft.
  - inversion Hs; subst. inversion Ht as [|? b ? ? C T]; subst. inversion C; cbn [app]; constructor.
  - inversion Hs; subst. inversion Ht; subst. inversion Ft; subst. eapply char_before; eassumption.
  - subst y. inversion Hs as [|? b ? u C T]; subst. inversion Ht as [|? b' ? u' C' T']; subst. rewrite (char_once _ _ _ C' C). inversion Fs; subst. inversion Ft; subst. apply ahead_app. apply IH; assumption.
Qed.
Lemma text_three : forall s t, s = t \/ text_before s t \/ text_before t s.
Proof.
  intros s t. destruct (text_decides s t) as [E L]. destruct (text_decides t s) as [E' L']. destruct (good_str s) as (_ & O & _). specialize (O t).
  destruct (str_compare s t); [left; apply E; reflexivity|right; left; apply L; reflexivity|right; right; apply L'; exact O].
Qed.
Lemma text_irrefl : forall s t, text_before s t -> text_before t s -> False.
Proof.
  intros s t H H'. apply (proj2 (text_decides s t)) in H. apply (proj2 (text_decides t s)) in H'. destruct (good_str s) as (_ & O & _). specialize (O t). rewrite H in O. rewrite H' in O. discriminate.
Qed.
Lemma text_strict : forall s, ~ text_before s s.
Proof. intros s H. exact (text_irrefl s s H H). Qed.
Theorem bytes_order : forall s t bs bt, utf8 s bs -> utf8 t bt -> Forall (fun c => (c < 1114112)%N) s -> Forall (fun c => (c < 1114112)%N) t -> (text_before s t <-> text_before bs bt).
Proof.
  intros s t bs bt Hs Ht Fs Ft. split; intros H; [eapply bytes_before; eassumption|]. destruct (text_three s t) as [->|[X|X]]; [|exact X|].
  - rewrite (text_once _ _ _ Hs Ht) in H. elim (text_strict _ H).
  - pose proof (bytes_before _ _ X _ _ Ht Hs Ft Fs) as Y. elim (text_irrefl _ _ H Y).
Qed.
Lemma order_lt : forall a b, ast_compare a b = Lt <-> tree_before a b. Proof. intros a b. apply tree_decides. Qed.
Lemma order_eq : forall a b, ast_compare a b = Eq <-> alike a b. Proof. intros a b. apply tree_decides. Qed.
Lemma order_gt : forall a b, ast_compare a b = Gt <-> tree_before b a.
Proof. intros a b. rewrite <- order_lt. destruct (good_ast a) as (_ & O & _). rewrite (O b). destruct (ast_compare a b); cbn; split; congruence. Qed.
Lemma increasing_iff : forall {A} (lt lt' : A -> A -> Prop) l, (forall a b, lt a b <-> lt' a b) -> (strictly_increasing lt l <-> strictly_increasing lt' l).
Proof. intros A lt lt' l H. split; intros S i j a b L Ha Hb; apply H, (S i j); assumption. Qed.
Lemma increasing_compare : forall l, strictly_increasing tree_before l <-> strictly_increasing (fun a b => ast_compare a b = Lt) l.
Proof. intros l. apply increasing_iff. intros a b. symmetry. apply order_lt. Qed.
Lemma text_lt : forall s t, str_compare s t = Lt <-> text_before s t. Proof. intros s t. apply text_decides. Qed.
Lemma key_before : forall k l, tree_before (Sym (mkSymbol [] k Normal 0)) (Sym (mkSymbol [] l Normal 0)) <-> text_before k l.
Proof. intros k l. rewrite <- order_lt, <- text_lt. cbn [ast_compare]. unfold symbol_compare. cbn. destruct (str_compare k l); reflexivity. Qed.
Lemma last_write_iff : forall {K V} (same same' : K -> K -> Prop) k (v : V) l, (forall a b, same a b <-> same' a b) -> (last_write same k v l <-> last_write same' k v l).
Proof. intros K V same same' k v l H. split; intros [b k' a E N]; (constructor; [apply H, E|]); intros e He X; apply (N e He), H, X. Qed.
Theorem options_order : forall (writes : list (ast * ast)),
  let m := insert_all ast_compare writes in
  strictly_increasing tree_before (map fst m) /\
  (forall k v, (exists k', alike k k' /\ In (k', v) m) <-> last_write alike k v writes).
Proof.
  intros writes m. destruct (options_spec writes) as [S L]. split; [apply increasing_compare, S|]. intros k v.
  rewrite <- (last_write_iff _ _ k v writes order_eq), <- L. split; intros (k' & E & I); exists k'; (split; [apply order_eq, E|exact I]).
Qed.
Theorem strings_bytes : forall s t bs bt,
  Forall (fun c => c < 1114112)%N s -> Forall (fun c => c < 1114112)%N t -> utf8 s bs -> utf8 t bt ->
  (ast_compare (Str s) (Str t) = Lt <-> text_before bs bt).
Proof. intros s t bs bt Fs Ft Hs Ht. rewrite <- (bytes_order s t bs bt Hs Ht Fs Ft). apply text_lt. Qed.
Theorem order_total : forall a b,
  tree_before a b /\ ~ alike a b /\ ~ tree_before b a \/
  ~ tree_before a b /\ alike a b /\ ~ tree_before b a \/
  ~ tree_before a b /\ ~ alike a b /\ tree_before b a.
Proof. intros a b. rewrite <- order_lt, <- order_gt, <- order_eq. destruct (ast_compare a b); intuition congruence. Qed.
Theorem order_transitive : forall a b c, tree_before a b -> tree_before b c -> tree_before a c.
Proof. intros a b c. rewrite <- !order_lt. apply (cmp_lt_trans ast_compare good_ast). Qed.
Theorem alike_differ : exists a b, alike a b /\ display a <> display b.
Proof. exists (Decimal (mkDecimal 15 1)), (Decimal (mkDecimal 150 2)). split; [apply order_eq; reflexivity|vm_compute; discriminate]. Qed.
