(** Proofs about TeX and Wolfram output and parse_file. *)
From Verif Require Import Base Ast Display Internal Eval Tex Wolfram ParseFile.
From Verif Require Import SpecAst SpecSession ProofAst ProofDisplay.
Local Open Scope Z_scope.

(** ** TeX: boxes are never higher than one line *)
Lemma height_le_1 : forall a, height a <= 1.
Proof. destruct a; cbn; lia. Qed.
Lemma fold_max_le : forall l x b, x <= b -> Forall (fun y => y <= b) l -> fold_left Z.max l x <= b.
Proof. induction l as [|y l IH]; intros x b Hx H; [exact Hx|]. inversion H; subst. cbn. apply IH; [lia | assumption]. Qed.
Lemma heights_le_1 : forall l, Forall (fun y => y <= 1) (map height l).
Proof. induction l; constructor; [apply height_le_1 | assumption]. Qed.
Lemma max_heights : forall a l, exists m, max_list (map height (a :: l)) = Ret m /\ (m >? 1) = false.
Proof.
  intros a l. cbn. eexists. split; [reflexivity|]. pose proof (height_le_1 a) as Ha.
  pose proof (fold_max_le (map height l) (height a) 1 Ha (heights_le_1 l)). rewrite Z.gtb_ltb. apply Z.ltb_ge. lia.
Qed.
Lemma param_height_le_1 : forall p, exists m, param_height p = Ret m /\ (m >? 1) = false.
Proof.
  intros [[|a l] o q]; unfold param_height; cbn [arguments].
  - exists 1. split; reflexivity.
  - apply max_heights.
Qed.

(** function arguments are always closed by plain brackets *)
Lemma omit_brackets_many : forall tex a b l opts pos ts,
  omapM tex (a :: b :: l) = Ret ts ->
  omit_brackets tex (mkParam (a :: b :: l) opts pos) = Ret (lit "(" ++ join (lit ", ") ts ++ lit ")").
Proof.
  intros tex a b l opts pos ts H. unfold omit_brackets. cbn [arguments].
  destruct (param_height_le_1 (mkParam (a :: b :: l) opts pos)) as (m & -> & Hm). cbn [obind].
  rewrite H. cbn [obind]. unfold open_scaled, close_many. rewrite Hm. reflexivity.
Qed.
Lemma omit_brackets_one_wide : forall tex a opts pos w t,
  width a = Ret w -> 1 < w -> tex a = Ret t ->
  omit_brackets tex (mkParam [a] opts pos) = Ret (lit "(" ++ t ++ lit ")").
Proof.
  intros tex a opts pos w t Hw H1 Ht. unfold omit_brackets. cbn [arguments]. rewrite Hw. cbn [obind].
  replace (w <=? 1) with false by (symmetry; apply Z.leb_gt; lia).
  destruct (param_height_le_1 (mkParam [a] opts pos)) as (m & -> & Hm). cbn [obind].
  rewrite Ht. cbn [obind]. unfold open_scaled, close_one. rewrite Hm. reflexivity.
Qed.
Lemma omit_brackets_one_narrow : forall tex a opts pos w t,
  width a = Ret w -> w <= 1 -> tex a = Ret t ->
  omit_brackets tex (mkParam [a] opts pos) = Ret (lit " " ++ t).
Proof.
  intros tex a opts pos w t Hw H1 Ht. unfold omit_brackets. cbn [arguments]. rewrite Hw. cbn [obind].
  replace (w <=? 1) with true by (symmetry; apply Z.leb_le; lia).
  rewrite Ht. reflexivity.
Qed.

Lemma ns_is_iff : forall s n, ns_is s n = true <-> name_space s = [lit "std"; n].
Proof.
  intros [ns nm k at_] n. unfold ns_is. cbn [name_space].
  destruct ns as [|a [|b [|c ns]]]; try (split; discriminate).
  rewrite andb_true_iff, !str_eqb_eq. split.
  - intros [-> ->]. reflexivity.
  - intros [= -> ->]. split; reflexivity.
Qed.
Lemma ns_not : forall s n, ~ operator_space s -> In n [lit "prefix"; lit "infix"; lit "suffix"] -> ns_is s n = false.
Proof.
  intros s n H Hn. destruct (ns_is s n) eqn:E; [|reflexivity]. exfalso. apply H.
  apply ns_is_iff in E. exists n. split; assumption.
Qed.

Lemma str_in_iff : forall s l, str_in s l = true <-> In s l.
Proof.
  intros s l. unfold str_in. rewrite existsb_exists. split.
  - intros (x & Hx & E). apply str_eqb_eq in E. subst. exact Hx.
  - intro H. exists s. split; [exact H | apply str_eqb_refl].
Qed.

Ltac plain_space H :=
  cbn [to_tex];
  rewrite (ns_not _ (lit "prefix") H) by (cbn; tauto);
  rewrite (ns_not _ (lit "infix") H) by (cbn; tauto);
  rewrite (ns_not _ (lit "suffix") H) by (cbn; tauto).

Lemma tex_trig_many : forall s a b l opts pos more ts,
  ~ operator_space s -> In (name s) trig_names -> omapM to_tex (a :: b :: l) = Ret ts ->
  to_tex (Function s (mkParam (a :: b :: l) opts pos :: more)) =
  Ret (lit "\\" ++ display_symbol s ++ lit "(" ++ join (lit ", ") ts ++ lit ")").
Proof.
  intros s a b l opts pos more ts Hs Hn Ht. plain_space Hs.
  rewrite (proj2 (str_in_iff _ _) Hn). rewrite (omit_brackets_many _ _ _ _ _ _ _ Ht). reflexivity.
Qed.
Lemma tex_trig_one : forall s a opts pos more w t,
  ~ operator_space s -> In (name s) trig_names -> width a = Ret w -> to_tex a = Ret t ->
  to_tex (Function s (mkParam [a] opts pos :: more)) =
  Ret (lit "\\" ++ display_symbol s ++ (if w <=? 1 then lit " " ++ t else lit "(" ++ t ++ lit ")")).
Proof.
  intros s a opts pos more w t Hs Hn Hw Ht. plain_space Hs.
  rewrite (proj2 (str_in_iff _ _) Hn). destruct (w <=? 1) eqn:E.
  - apply Z.leb_le in E. rewrite (omit_brackets_one_narrow _ _ _ _ _ _ Hw E Ht). reflexivity.
  - apply Z.leb_gt in E. rewrite (omit_brackets_one_wide _ _ _ _ _ _ Hw E Ht). reflexivity.
Qed.

Lemma list_not_trig : ~ In (lit "List") trig_names /\ ~ In (lit "List") operator_names.
Proof. split; intro H; cbn in H; repeat (destruct H as [H|H]; [discriminate|]); exact H. Qed.

Lemma tex_list : forall s p more, ~ operator_space s -> name s = lit "List" ->
  (arguments p = [] -> to_tex (Function s (p :: more)) = Panic PUnwrap) /\
  (forall ts, arguments p <> [] -> omapM to_tex (arguments p) = Ret ts ->
     to_tex (Function s (p :: more)) = Ret (lit "\\{" ++ join (lit ", ") ts ++ lit "\\}")).
Proof.
  intros s p more Hs Hn. destruct list_not_trig as [N1 N2].
  assert (E1 : str_in (name s) trig_names = false).
  { destruct (str_in (name s) trig_names) eqn:E; [|reflexivity]. apply str_in_iff in E. rewrite Hn in E. contradiction. }
  assert (E2 : str_in (name s) operator_names = false).
  { destruct (str_in (name s) operator_names) eqn:E; [|reflexivity]. apply str_in_iff in E. rewrite Hn in E. contradiction. }
  split.
  - intro Ha. plain_space Hs. rewrite E1, E2, Hn, str_eqb_refl, Ha. reflexivity.
  - intros ts Ha Ht. plain_space Hs. rewrite E1, E2, Hn, str_eqb_refl.
    destruct (arguments p) as [|a l]; [congruence|].
    destruct (max_heights a l) as (m & -> & Hm). cbn [obind]. rewrite Ht. cbn [obind]. rewrite Hm. reflexivity.
Qed.

Lemma tex_infix_two : forall s p more lhs rhs rest,
  name_space s = [lit "std"; lit "infix"] -> arguments p = lhs :: rhs :: rest ->
  ((exists k, to_tex (Function s (p :: more)) = Panic k) <-> unprintable lhs \/ unprintable rhs) /\
  (forall l r, display lhs = Ret l -> display rhs = Ret r ->
     to_tex (Function s (p :: more)) =
     Ret (l ++ (if str_eqb (name s) (lit "times") then lit " "
                else lit " " ++ (if str_eqb (name s) (lit "add") then lit "+" else name s) ++ lit " ") ++ r)).
Proof.
  intros s p more lhs rhs rest Hs Ha.
  assert (E : to_tex (Function s (p :: more)) = infix_tex s p).
  { cbn [to_tex]. destruct (ns_is s (lit "prefix")) eqn:E1.
    - apply ns_is_iff in E1. rewrite Hs in E1. discriminate.
    - rewrite (proj2 (ns_is_iff s (lit "infix")) Hs). reflexivity. }
  rewrite E. unfold infix_tex. rewrite Ha. split.
  - destruct (display_dichotomy lhs) as [[Hl El]|[Hl [l El]]]; rewrite El; cbn [obind].
    { split; [auto | eauto]. }
    destruct (display_dichotomy rhs) as [[Hr Er]|[Hr [r Er]]]; rewrite Er; cbn [obind].
    { split; [auto | eauto]. }
    split; [|tauto]. intros [k Hk]. destruct (str_eqb (name s) (lit "add")), (str_eqb (name s) (lit "times")); discriminate.
  - intros l r Hl Hr. rewrite Hl, Hr. cbn [obind].
    destruct (str_eqb (name s) (lit "add")) eqn:E1.
    + apply str_eqb_eq in E1. rewrite E1. cbn [str_eqb]. cbn. reflexivity.
    + destruct (str_eqb (name s) (lit "times")); rewrite ?app_assoc; reflexivity.
Qed.
Lemma tex_infix_few : forall s p more,
  name_space s = [lit "std"; lit "infix"] -> (length (arguments p) < 2)%nat ->
  to_tex (Function s (p :: more)) = Panic PIndex.
Proof.
  intros s p more Hs Ha. cbn [to_tex]. destruct (ns_is s (lit "prefix")) eqn:E1.
  - apply ns_is_iff in E1. rewrite Hs in E1. discriminate.
  - rewrite (proj2 (ns_is_iff s (lit "infix")) Hs). unfold infix_tex.
    destruct (arguments p) as [|x [|y l]]; cbn in Ha; try reflexivity; lia.
Qed.
Lemma tex_unary_panics : forall s ps,
  name_space s = [lit "std"; lit "prefix"] \/ name_space s = [lit "std"; lit "suffix"] ->
  to_tex (Function s ps) = Panic PUnimplemented.
Proof.
  intros s ps H. cbn [to_tex]. destruct (ns_is s (lit "prefix")) eqn:E1; [reflexivity|].
  destruct H as [H|H].
  - apply (ns_is_iff s (lit "prefix")) in H. congruence.
  - destruct (ns_is s (lit "infix")) eqn:E2; [apply ns_is_iff in E2; rewrite H in E2; discriminate|].
    rewrite (proj2 (ns_is_iff s (lit "suffix")) H). reflexivity.
Qed.

(** ** Wolfram *)
Section W.
  Context (cap : str -> str).
  Notation tw := (to_wolfram cap).

  Lemma map_shape : forall l m, Forall2 same_shape l m ->
    (Forall (fun a => forall b, same_shape a b -> tw a = tw b) l) -> map tw l = map tw m.
  Proof.
    intros l m H. induction H as [|x y l m Hxy H IH]; intro F; [reflexivity|].
    inversion F; subst. cbn. f_equal; auto.
  Qed.

  Lemma to_wolfram_shape : forall a b, same_shape a b -> tw a = tw b.
  Proof.
    induction a as [|l H|s ps H|b0|n|d|s|s] using ast_ind'; intros b Hb; inversion Hb; subst; try reflexivity.
    - cbn [to_wolfram]. f_equal. apply map_shape; assumption.
    - cbn [to_wolfram]. f_equal.
      + match goal with F : Forall2 _ ps qs |- _ => clear Hb; induction F as [|p q ps qs [Ha Ho] F IH] end;
          [reflexivity|].
        inversion H as [|? ? [Hp1 Hp2] Hp]; subst. cbn [map]. f_equal; [|apply IH; exact Hp].
        f_equal; [apply map_shape; assumption|].
        clear -Ho Hp2. induction Ho as [|e f es fs [He1 He2] Ho IH]; [reflexivity|].
        inversion Hp2 as [|? ? [K1 K2] K]; subst. cbn [map]. rewrite (K1 _ He1), (K2 _ He2). f_equal. apply IH; exact K.
      + unfold function_map. match goal with E : name s = name t |- _ => rewrite E end. reflexivity.
    - cbn [to_wolfram]. congruence.
  Qed.

  Lemma fold_function_leaves : forall ls h,
    wolfram_leaves (fold_left (fun hd vec => WFunction hd vec) ls h) =
    wolfram_leaves h ++ flat_map (flat_map wolfram_leaves) ls.
  Proof.
    induction ls as [|l ls IH]; intro h; cbn [fold_left flat_map]; [rewrite app_nil_r; reflexivity|].
    rewrite IH. cbn [wolfram_leaves]. rewrite <- app_assoc. reflexivity.
  Qed.

  Lemma flat_map_leaves : forall l,
    Forall (fun a => wolfram_leaves (tw a) = ast_leaves a) l ->
    flat_map wolfram_leaves (map tw l) = flat_map ast_leaves l.
  Proof. intros l H. induction H as [|x l Hx H IH]; [reflexivity|]. cbn. rewrite Hx, IH. reflexivity. Qed.

  Lemma to_wolfram_leaves : forall a, wolfram_leaves (tw a) = ast_leaves a.
  Proof.
    induction a as [|l H|s ps H|b|n|d|s|s] using ast_ind'; try reflexivity.
    - cbn [to_wolfram wolfram_leaves ast_leaves]. cbn [app]. apply flat_map_leaves. exact H.
    - cbn [to_wolfram]. rewrite fold_function_leaves. cbn [wolfram_leaves app ast_leaves].
      induction H as [|p ps [H1 H2] H IH]; [reflexivity|]. cbn [map flat_map].
      rewrite IH. f_equal. rewrite flat_map_app. f_equal; [apply flat_map_leaves; exact H1|].
      clear -H2. induction H2 as [|[k v] m [Hk Hv] H IH]; [reflexivity|].
      cbn [map flat_map fst snd] in *. rewrite IH. cbn [wolfram_leaves flat_map app]. rewrite Hk, Hv, app_nil_r. reflexivity.
    - cbn [to_wolfram]. destruct b; reflexivity.
  Qed.
End W.

(** ** parse_file *)
Section F.
  Context (decode : list byte -> option str)
          (parse : str -> outcome (sm_result ast))
          (bytes : ast -> list byte).
  Notation step := (pf_step decode parse bytes).
  Notation reach := (pf_reach decode parse bytes).

  Definition pf_inv (from to : path) (f0 : fs) (st : fs * pf_pc) : Prop :=
    let '(f, pc) := st in
    (f = f0 /\
     match pc with
     | AtRead => True
     | AtParse text => exists c, f0 from = Some c /\ decode c = Some text
     | AtCreate a => exists c text, f0 from = Some c /\ decode c = Some text /\ parse text = Ret (Ok a)
     | AtWrite _ => False
     | Finished r => r <> Ret (Ok tt)
     end) \/
    (exists c text a written rest,
       f0 from = Some c /\ decode c = Some text /\ parse text = Ret (Ok a) /\
       written ++ rest = bytes a /\ f to = Some written /\
       (forall q, q <> to -> f q = f0 q) /\
       match pc with
       | AtWrite r => r = rest
       | Finished r => (r = Ret (Ok tt) /\ rest = []) \/ (exists e, r = Ret (Err (SMIOError e)) /\ rest <> [])
       | _ => False
       end).

  Lemma update_same : forall f p c, update f p c p = Some c.
  Proof. intros. unfold update. rewrite str_eqb_refl. reflexivity. Qed.
  Lemma update_other : forall f p c q, q <> p -> update f p c q = f q.
  Proof. intros f p c q H. unfold update. rewrite (proj2 (str_eqb_neq q p) H). reflexivity. Qed.

  Lemma pf_inv_step : forall from to f0 s t, pf_inv from to f0 s -> step from to s t -> pf_inv from to f0 t.
  Proof.
    intros from to f0 s t H Hs. destruct Hs; cbn [pf_inv] in *.
    - left. destruct H as [[-> _]|(? & ? & ? & ? & ? & ? & ? & ? & ? & ? & ? & [])]. eauto.
    - left. destruct H as [[-> _]|(? & ? & ? & ? & ? & ? & ? & ? & ? & ? & ? & [])]. split; [reflexivity | discriminate].
    - left. destruct H as [[-> _]|(? & ? & ? & ? & ? & ? & ? & ? & ? & ? & ? & [])]. split; [reflexivity | discriminate].
    - left. destruct H as [[-> (c & Hc & Hd)]|(? & ? & ? & ? & ? & ? & ? & ? & ? & ? & ? & [])]. eauto 7.
    - left. destruct H as [[-> _]|(? & ? & ? & ? & ? & ? & ? & ? & ? & ? & ? & [])]. split; [reflexivity | discriminate].
    - left. destruct H as [[-> _]|(? & ? & ? & ? & ? & ? & ? & ? & ? & ? & ? & [])]. split; [reflexivity | discriminate].
    - right. destruct H as [[-> (c & text & Hc & Hd & Hp)]|(? & ? & ? & ? & ? & ? & ? & ? & ? & ? & ? & [])].
      exists c, text, a, [], (bytes a). repeat split; auto.
      + apply update_same.
      + intros q Hq. apply update_other. exact Hq.
    - left. destruct H as [[-> _]|(? & ? & ? & ? & ? & ? & ? & ? & ? & ? & ? & [])]. split; [reflexivity | discriminate].
    - right. destruct H as [[_ []]|(c & text & a & w & r & Hc & Hd & Hp & Hw & Hf & Ho & <-)].
      exists c, text, a, (w ++ part), rest. repeat split; auto.
      + rewrite <- app_assoc. exact Hw.
      + rewrite update_same. congruence.
      + intros q Hq. rewrite update_other by exact Hq. apply Ho. exact Hq.
    - right. destruct H as [[_ []]|(c & text & a & w & r & Hc & Hd & Hp & Hw & Hf & Ho & ->)].
      exists c, text, a, w, r. repeat split; auto. right. eauto.
    - right. destruct H as [[_ []]|(c & text & a & w & r & Hc & Hd & Hp & Hw & Hf & Ho & <-)].
      exists c, text, a, w, []. repeat split; auto.
  Qed.

  Lemma pf_reach_inv : forall from to f0 st, reach from to (f0, AtRead) st -> pf_inv from to f0 st.
  Proof.
    intros from to f0 st H. induction H as [|t u H IH Hs].
    - left. split; auto.
    - eapply pf_inv_step; eassumption.
  Qed.

  Notation parse_succeeds := (parse_succeeds decode parse).

  Lemma pf_untouched : forall from to f0 f pc, reach from to (f0, AtRead) (f, pc) ->
    (forall a, ~ parse_succeeds from f0 a) -> f = f0.
  Proof.
    intros from to f0 f pc H Hn. apply pf_reach_inv in H. destruct H as [[H _]|H]; [exact H|].
    destruct H as (c & text & a & w & r & Hc & Hd & Hp & _). exfalso. apply (Hn a). exists c, text. auto.
  Qed.
  Lemma pf_other_paths : forall from to f0 f pc q, reach from to (f0, AtRead) (f, pc) -> q <> to -> f q = f0 q.
  Proof.
    intros from to f0 f pc q H Hq. apply pf_reach_inv in H. destruct H as [[-> _]|H]; [reflexivity|].
    destruct H as (c & text & a & w & r & _ & _ & _ & _ & _ & Ho & _). apply Ho. exact Hq.
  Qed.
  Lemma pf_crash_states : forall from to f0 f pc, reach from to (f0, AtRead) (f, pc) ->
    f = f0 \/ exists a written rest, parse_succeeds from f0 a /\ bytes a = written ++ rest /\ f to = Some written.
  Proof.
    intros from to f0 f pc H. apply pf_reach_inv in H. destruct H as [[-> _]|H]; [left; reflexivity|].
    right. destruct H as (c & text & a & w & r & Hc & Hd & Hp & Hw & Hf & _). exists a, w, r.
    split; [exists c, text; auto|]. split; [symmetry; exact Hw | exact Hf].
  Qed.
  Lemma pf_success : forall from to f0 f, reach from to (f0, AtRead) (f, Finished (Ret (Ok tt))) ->
    exists a, parse_succeeds from f0 a /\ f to = Some (bytes a).
  Proof.
    intros from to f0 f H. apply pf_reach_inv in H. destruct H as [[_ H]|H]; [exfalso; apply H; reflexivity|].
    destruct H as (c & text & a & w & r & Hc & Hd & Hp & Hw & Hf & _ & [[_ ->]|(e & E & _)]); [|discriminate].
    exists a. split; [exists c, text; auto|]. rewrite <- Hw, app_nil_r. exact Hf.
  Qed.
  Lemma pf_error_after_create : forall from to f0 f e, reach from to (f0, AtRead) (f, Finished (Ret (Err e))) ->
    f = f0 \/ exists a written rest, parse_succeeds from f0 a /\ bytes a = written ++ rest /\ rest <> [] /\ f to = Some written.
  Proof.
    intros from to f0 f e H. apply pf_reach_inv in H. destruct H as [[-> _]|H]; [left; reflexivity|].
    right. destruct H as (c & text & a & w & r & Hc & Hd & Hp & Hw & Hf & _ & [[E _]|(e' & E & Hr)]); [discriminate|].
    exists a, w, r. split; [exists c, text; auto|]. auto.
  Qed.

  (** every strict or non-strict prefix is a possible crash point *)
  Lemma pf_prefix_reachable : forall from to f0 a w rest, parse_succeeds from f0 a -> bytes a = w ++ rest ->
    exists f, reach from to (f0, AtRead) (f, AtWrite rest) /\ f to = Some w.
  Proof.
    intros from to f0 a w rest (c & text & Hc & Hd & Hp) Hb.
    assert (R : reach from to (f0, AtRead) (update f0 to [], AtWrite (w ++ rest))).
    { eapply reach_step; [eapply reach_step; [eapply reach_step; [apply reach_refl|]|]|].
      - eapply step_read_ok; eassumption.
      - apply step_parse_ok. exact Hp.
      - rewrite <- Hb. apply step_create_ok. }
    destruct w as [|x w].
    - exists (update f0 to []). split; [exact R | apply update_same].
    - exists (update (update f0 to []) to ([] ++ x :: w)). split; [|apply update_same].
      eapply reach_step; [exact R|]. apply step_write_some; [apply update_same | discriminate].
  Qed.
End F.
