(** Proofs about symbols, the derived order and ordered maps. *)
From Verif Require Import Base Ast SpecAst.
Local Open Scope Z_scope.

(** ** Induction over ASTs *)
Section AstInd.
  Variable P : ast -> Prop.
  Definition Pparam (p : parameter) : Prop :=
    Forall P (arguments p) /\ Forall (fun kv => P (fst kv) /\ P (snd kv)) (options p).
  Hypotheses
    (HE : P EmptyStatement)
    (HP : forall l, Forall P l -> P (Program l))
    (HF : forall s ps, Forall Pparam ps -> P (Function s ps))
    (HB : forall b, P (Boolean b)) (HI : forall n, P (Integer n)) (HD : forall d, P (Decimal d))
    (HS : forall s, P (Sym s)) (HT : forall s, P (Str s)).
  Fixpoint ast_ind' (a : ast) : P a :=
    match a return P a with
    | EmptyStatement => HE
    | Program l =>
        HP l ((fix go l : Forall P l :=
                 match l return Forall P l with
                 | [] => Forall_nil _
                 | x :: r => Forall_cons _ (ast_ind' x) (go r)
                 end) l)
    | Function s ps =>
        HF s ps
          ((fix gop (ps : list parameter) : Forall Pparam ps :=
              match ps return Forall Pparam ps with
              | [] => Forall_nil _
              | p :: r =>
                  Forall_cons p
                    (match p return Pparam p with
                     | mkParam args opts pos =>
                         conj
                           ((fix go l : Forall P l :=
                               match l return Forall P l with
                               | [] => Forall_nil _
                               | x :: r => Forall_cons _ (ast_ind' x) (go r)
                               end) args)
                           ((fix go (l : list (ast * ast)) :
                               Forall (fun kv => P (fst kv) /\ P (snd kv)) l :=
                               match l return Forall (fun kv => P (fst kv) /\ P (snd kv)) l with
                               | [] => Forall_nil _
                               | (k, v) :: r =>
                                   Forall_cons (k, v) (conj (ast_ind' k) (ast_ind' v)) (go r)
                               end) opts)
                     end)
                    (gop r)
              end) ps)
    | Boolean b => HB b
    | Integer n => HI n
    | Decimal d => HD d
    | Sym s => HS s
    | Str s => HT s
    end.
End AstInd.

(** ** Strings *)
Lemma str_eqb_eq : forall a b, str_eqb a b = true <-> a = b.
Proof.
  induction a as [|x a IH]; destruct b as [|y b]; cbn; split; intro H; try congruence.
  - apply andb_true_iff in H. destruct H as [H1 H2].
    apply N.eqb_eq in H1. apply IH in H2. congruence.
  - inversion H; subst. rewrite N.eqb_refl. cbn. apply IH. reflexivity.
Qed.
Lemma str_eqb_refl : forall a, str_eqb a a = true.
Proof. intro a. apply str_eqb_eq. reflexivity. Qed.
Lemma str_eqb_neq : forall a b, str_eqb a b = false <-> a <> b.
Proof.
  intros a b. destruct (str_eqb a b) eqn:E.
  - apply str_eqb_eq in E. split; congruence.
  - split; [|reflexivity]. intros _ ->. rewrite str_eqb_refl in E. discriminate.
Qed.

(** ** Symbol paths *)
Definition colons : str := lit "::".

Lemma split_colons_step : forall c s cur, c <> 58%N ->
  split_colons (c :: s) cur = split_colons s (c :: cur).
Proof.
  intros c s cur H. cbn [split_colons]. destruct c as [|p]; [reflexivity|].
  repeat (destruct p as [p|p|]; try reflexivity). exfalso; apply H; reflexivity.
Qed.
Lemma split_colons_step1 : forall s cur, hd_error s <> Some 58%N ->
  split_colons (58%N :: s) cur = split_colons s (58%N :: cur).
Proof.
  intros s cur H. cbn [split_colons]. destruct s as [|c s]; [reflexivity|].
  destruct c as [|p]; [reflexivity|].
  repeat (destruct p as [p|p|]; try reflexivity). exfalso; apply H; reflexivity.
Qed.

Lemma split_colons_cases : forall (P : str -> Prop),
  P [] ->
  (forall c s, c <> 58%N -> P s -> P (c :: s)) ->
  (forall s, hd_error s <> Some 58%N -> P s -> P (58%N :: s)) ->
  (forall s, P s -> P (58%N :: 58%N :: s)) ->
  forall s, P s.
Proof.
  intros P H0 H1 H2 H3.
  enough (H : forall n s, (length s <= n)%nat -> P s) by (intro s; apply (H (length s)); lia).
  induction n as [|n IH]; intros s Hs; destruct s as [|c s]; cbn in Hs; try exact H0; try lia.
  destruct (N.eq_dec c 58) as [->|Hc]; [|apply H1; [exact Hc | apply IH; lia]].
  destruct s as [|c' s]; [apply H2; [discriminate | exact H0]|].
  destruct (N.eq_dec c' 58) as [->|Hc'].
  - apply H3. apply IH. cbn in Hs. lia.
  - apply H2; [cbn; congruence | apply IH; cbn in *; lia].
Qed.

Lemma split_colons_nonempty : forall s cur, split_colons s cur <> [].
Proof.
  intro s. pattern s. apply split_colons_cases; clear s.
  - discriminate.
  - intros c s Hc IH cur. rewrite split_colons_step by exact Hc. apply IH.
  - intros s Hs IH cur. rewrite split_colons_step1 by exact Hs. apply IH.
  - intros s IH cur. discriminate.
Qed.

(** join of a list via its last element *)
Definition path_text (ns : list str) (n : str) : str :=
  match ns with [] => n | _ => join colons ns ++ colons ++ n end.
Lemma path_text_cons : forall x ns n, path_text (x :: ns) n = x ++ colons ++ path_text ns n.
Proof.
  intros x ns n. destruct ns as [|y ns]; cbn [path_text]; [reflexivity|].
  change (join colons (x :: y :: ns)) with (x ++ colons ++ join colons (y :: ns)).
  rewrite !app_assoc. reflexivity.
Qed.

Lemma path_text_split : forall s cur,
  path_text (removelast (split_colons s cur)) (last (split_colons s cur) []) = rev cur ++ s.
Proof.
  intro s. pattern s. apply split_colons_cases; clear s.
  - intro cur. cbn. rewrite app_nil_r. reflexivity.
  - intros c s Hc IH cur. rewrite split_colons_step by exact Hc. rewrite IH. cbn [rev].
    rewrite <- app_assoc. reflexivity.
  - intros s Hs IH cur. rewrite split_colons_step1 by exact Hs. rewrite IH. cbn [rev].
    rewrite <- app_assoc. reflexivity.
  - intros s IH cur.
    change (split_colons (58%N :: 58%N :: s) cur) with (rev cur :: split_colons s []).
    pose proof (split_colons_nonempty s []) as Hne. specialize (IH []).
    destruct (split_colons s []) as [|y l]; [congruence|].
    change (removelast (rev cur :: y :: l)) with (rev cur :: removelast (y :: l)).
    change (last (rev cur :: y :: l) []) with (last (y :: l) []).
    rewrite path_text_cons, IH. reflexivity.
Qed.

Lemma display_symbol_path : forall s, display_symbol s = path_text (name_space s) (name s).
Proof. intros [[|x ns] n k a]; reflexivity. Qed.

Lemma display_symbol_from : forall s, display_symbol (symbol_from s) = s.
Proof.
  intro s. rewrite display_symbol_path. unfold symbol_from. cbn [name_space name].
  rewrite path_text_split. reflexivity.
Qed.

Lemma split_colons_no_colon : forall x s cur, ~ In 58%N x ->
  split_colons (x ++ s) cur = split_colons s (rev x ++ cur).
Proof.
  induction x as [|c x IH]; intros s cur H; [reflexivity|].
  cbn [app]. rewrite split_colons_step by (intro E; apply H; left; congruence).
  rewrite IH by (intro E; apply H; right; exact E). cbn [rev]. rewrite <- app_assoc. reflexivity.
Qed.

Lemma split_path_text : forall ns n, Forall (fun c => ~ In 58%N c) ns -> ~ In 58%N n ->
  split_colons (path_text ns n) [] = ns ++ [n].
Proof.
  induction ns as [|x ns IH]; intros n H Hn.
  - cbn [path_text]. rewrite <- (app_nil_r n) at 1. rewrite split_colons_no_colon by exact Hn.
    cbn. rewrite app_nil_r, rev_involutive. reflexivity.
  - inversion H; subst. rewrite path_text_cons, split_colons_no_colon by assumption.
    change (split_colons (colons ++ path_text ns n) (rev x ++ []))
      with (rev (rev x ++ []) :: split_colons (path_text ns n) []).
    rewrite app_nil_r, rev_involutive, IH by assumption. reflexivity.
Qed.

Lemma symbol_from_display : forall s,
  Forall (fun c => ~ In 58%N c) (name_space s) -> ~ In 58%N (name s) ->
  name_space (symbol_from (display_symbol s)) = name_space s /\
  name (symbol_from (display_symbol s)) = name s.
Proof.
  intros s H Hn. rewrite display_symbol_path. unfold symbol_from. cbn [name_space name].
  rewrite split_path_text by assumption. rewrite removelast_last, last_last. split; reflexivity.
Qed.

(** ** The derived order is a total order (up to numeric equality of decimals) *)
Definition comp_le (c1 c2 c : comparison) : Prop :=
  match c1, c2 with
  | Eq, _ => c = c2
  | _, Eq => c = c1
  | Lt, Lt => c = Lt
  | Gt, Gt => c = Gt
  | _, _ => True
  end.

(** What an order must satisfy at the left element x. *)
Definition good {A} (cmp : A -> A -> comparison) (x : A) : Prop :=
  cmp x x = Eq /\
  (forall y, cmp y x = CompOpp (cmp x y)) /\
  (forall y z, comp_le (cmp x y) (cmp y z) (cmp x z)).

Lemma comp_le_lex : forall a1 a2 a b1 b2 b,
  comp_le a1 a2 a -> comp_le b1 b2 b -> comp_le (lex a1 b1) (lex a2 b2) (lex a b).
Proof.
  intros a1 a2 a b1 b2 b. destruct a1, a2; cbn; intros E; subst; cbn;
    destruct b1, b2; cbn; intros; subst; cbn; auto.
Qed.
Lemma comp_opp_lex : forall a b, CompOpp (lex a b) = lex (CompOpp a) (CompOpp b).
Proof. intros [] b; reflexivity. Qed.

Lemma good_N : forall x, good N.compare x.
Proof.
  intro x. split; [apply N.compare_refl|]. split; [intro y; apply N.compare_antisym|].
  intros y z. unfold comp_le.
  destruct (N.compare_spec x y), (N.compare_spec y z); auto;
    destruct (N.compare_spec x z); auto; try reflexivity; exfalso; lia.
Qed.
Lemma good_Z : forall x, good Z.compare x.
Proof.
  intro x. split; [apply Z.compare_refl|]. split; [intro y; apply Z.compare_antisym|].
  intros y z. unfold comp_le.
  destruct (Z.compare_spec x y), (Z.compare_spec y z); auto;
    destruct (Z.compare_spec x z); auto; try reflexivity; exfalso; lia.
Qed.

Lemma good_lex2 : forall {A B} (ca : A -> A -> comparison) (cb : B -> B -> comparison)
  {C} (pa : C -> A) (pb : C -> B) x,
  good ca (pa x) -> good cb (pb x) ->
  good (fun u v => lex (ca (pa u) (pa v)) (cb (pb u) (pb v))) x.
Proof.
  intros A B ca cb C pa pb x (R1 & O1 & T1) (R2 & O2 & T2). split; [|split].
  - rewrite R1. exact R2.
  - intro y. rewrite O1, O2, comp_opp_lex. reflexivity.
  - intros y z. apply comp_le_lex; [apply T1 | apply T2].
Qed.

Lemma good_list : forall {A} (cmp : A -> A -> comparison) l,
  Forall (good cmp) l -> good (list_compare cmp) l.
Proof.
  intros A cmp l H. induction H as [|x l (R & O & T) H (IR & IO & IT)].
  - split; [reflexivity|]. split; [intros []; reflexivity|]. intros [|y m] [|z n]; cbn; auto.
    destruct (lex (cmp y z) (list_compare cmp m n)); cbn; auto.
  - split; [|split].
    + cbn. rewrite R. exact IR.
    + intros [|y m]; [reflexivity|]. cbn. rewrite O, IO, comp_opp_lex. reflexivity.
    + intros [|y m] [|z n]; cbn [list_compare]; try (cbn; auto; fail).
      * destruct (lex (cmp x y) (list_compare cmp l m)); cbn; auto.
      * apply comp_le_lex; [apply T | apply IT].
Qed.

Lemma good_str : forall s, good str_compare s.
Proof. intro s. apply good_list. apply Forall_forall. intros; apply good_N. Qed.

Lemma good_pull : forall {A B} (cmp : B -> B -> comparison) (f : A -> B) x,
  good cmp (f x) -> good (fun u v => cmp (f u) (f v)) x.
Proof. intros A B cmp f x (R & O & T). split; [|split]; auto. Qed.

Lemma good_bool : forall b, good bool_compare b.
Proof. intro b. split; [|split]; destruct b; try intros []; try intros []; cbn; auto. Qed.

Lemma dec_compare_scale : forall x y t, 0 <= t -> dec_scale x <= t -> dec_scale y <= t ->
  dec_compare x y = Z.compare (dec_int x * 10 ^ (t - dec_scale x)) (dec_int y * 10 ^ (t - dec_scale y)).
Proof.
  intros x y t H0 Hx Hy. unfold dec_compare. set (s := Z.max 0 (Z.max (dec_scale x) (dec_scale y))).
  replace (t - dec_scale x) with ((s - dec_scale x) + (t - s)) by lia.
  replace (t - dec_scale y) with ((s - dec_scale y) + (t - s)) by lia.
  rewrite !Z.pow_add_r by lia. rewrite !Z.mul_assoc.
  assert (Hp : 0 < 10 ^ (t - s)) by (apply Z.pow_pos_nonneg; lia).
  symmetry. set (u := dec_int x * 10 ^ (s - dec_scale x)). set (v := dec_int y * 10 ^ (s - dec_scale y)).
  destruct (Z.compare_spec u v) as [E|E|E].
  - rewrite E. apply Z.compare_refl.
  - apply Z.compare_lt_iff. apply Z.mul_lt_mono_pos_r; assumption.
  - apply Z.compare_gt_iff. apply Z.mul_lt_mono_pos_r; assumption.
Qed.
Lemma good_dec : forall d, good dec_compare d.
Proof.
  intro d. split; [|split].
  - unfold dec_compare. apply Z.compare_refl.
  - intro y. unfold dec_compare. rewrite (Z.max_comm (dec_scale y)). apply Z.compare_antisym.
  - intros y z.
    set (t := Z.max 0 (Z.max (dec_scale d) (Z.max (dec_scale y) (dec_scale z)))).
    rewrite (dec_compare_scale d y t), (dec_compare_scale y z t), (dec_compare_scale d z t) by lia.
    apply good_Z.
Qed.

Lemma good_kind : forall k, good kind_compare k.
Proof.
  assert (HP : forall o, good str_compare o) by apply good_str.
  intro k. split; [|split].
  - destruct k; cbn; try reflexivity; try apply HP.
    destruct (HP o) as [-> _]. apply Z.compare_refl.
  - intro y. destruct k as [| |a|a p|a], y as [| |b|b q|b]; cbn; try reflexivity; try apply HP.
    destruct (HP a) as (_ & -> & _). rewrite comp_opp_lex. f_equal. apply Z.compare_antisym.
  - intros y z. destruct k as [| |a|a p|a], y as [| |b|b q|b], z as [| |c|c r|c];
      cbn [kind_compare kind_tag]; try (cbn; auto; fail);
      try (apply HP); try (apply comp_le_lex; [apply HP | apply good_Z]);
      try (match goal with |- comp_le ?a (Z.compare ?u ?v) ?c =>
             change (Z.compare u v) with c; destruct a; cbn; auto end; fail);
      try (match goal with |- comp_le _ ?b _ => destruct b; cbn; auto end; fail).
Qed.

Lemma good_symbol : forall s, good symbol_compare s.
Proof.
  intro s. unfold symbol_compare.
  apply (good_lex2 (list_compare str_compare)
           (fun u v => lex (str_compare (name u) (name v))
              (lex (kind_compare (kind u) (kind v)) (Z.compare (attributes u) (attributes v))))
           name_space (fun s => s)).
  { apply good_list. apply Forall_forall. intros; apply good_str. }
  apply (good_lex2 str_compare
           (fun u v => lex (kind_compare (kind u) (kind v)) (Z.compare (attributes u) (attributes v)))
           name (fun s => s)); [apply good_str|].
  apply (good_lex2 kind_compare Z.compare kind attributes); [apply good_kind | apply good_Z].
Qed.

Lemma good_pair : forall {A B} (ca : A -> A -> comparison) (cb : B -> B -> comparison) p,
  good ca (fst p) -> good cb (snd p) -> good (pair_compare ca cb) p.
Proof. intros A B ca cb p H1 H2. unfold pair_compare. apply (good_lex2 ca cb fst snd); assumption. Qed.

Lemma good_position : forall p, good pos_compare p.
Proof.
  intro p. unfold pos_compare.
  apply (good_lex2 str_compare
           (fun u v => lex (pair_compare Z.compare Z.compare (pstart u) (pstart v))
                           (pair_compare Z.compare Z.compare (pend u) (pend v))) file (fun s => s));
    [apply good_str|].
  apply (good_lex2 (pair_compare Z.compare Z.compare) (pair_compare Z.compare Z.compare) pstart pend);
    apply good_pair; apply good_Z.
Qed.

Lemma good_param : forall {A} (cmp : A -> A -> comparison) p,
  Forall (good cmp) (arguments p) ->
  Forall (fun kv => good cmp (fst kv) /\ good cmp (snd kv)) (options p) ->
  good (param_compare cmp) p.
Proof.
  intros A cmp p H1 H2. unfold param_compare.
  apply (good_lex2 (list_compare cmp)
           (fun u v => lex (list_compare (pair_compare cmp cmp) (options u) (options v))
                           (pos_compare (ppos u) (ppos v))) arguments (fun s => s)).
  { apply good_list. exact H1. }
  apply (good_lex2 (list_compare (pair_compare cmp cmp)) pos_compare options ppos).
  - apply good_list. eapply Forall_impl; [|exact H2]. intros kv [Ha Hb]. apply good_pair; assumption.
  - apply good_position.
Qed.

Ltac tags :=
  repeat split; intros; repeat match goal with y : ast |- _ => destruct y end;
  cbn [ast_compare ast_tag]; try reflexivity; try (cbn; auto; fail);
  try (match goal with |- comp_le _ ?b _ => destruct b; cbn; auto end; fail);
  try (match goal with |- comp_le ?a _ _ => destruct a; cbn; auto end; fail).

Lemma good_ast : forall a, good ast_compare a.
Proof.
  induction a as [|l H|s ps H|b|n|d|s|s] using ast_ind'.
  - tags.
  - pose proof (good_list ast_compare l H) as (R & O & T).
    split; [|split]; [exact R| |]; tags; auto.
  - assert (Hps : good (list_compare (param_compare ast_compare)) ps).
    { apply good_list. eapply Forall_impl; [|exact H]. intros p [Ha Hb]. apply good_param; assumption. }
    destruct Hps as (R & O & T). pose proof (good_symbol s) as (R1 & O1 & T1).
    split; [|split].
    + cbn [ast_compare]. rewrite R1. exact R.
    + intro y. destruct y; cbn [ast_compare]; try reflexivity.
      rewrite O1, O, comp_opp_lex. reflexivity.
    + tags. apply comp_le_lex; auto.
  - pose proof (good_bool b) as (R & O & T). split; [|split]; [exact R| |]; tags; auto.
  - pose proof (good_Z n) as (R & O & T). split; [|split]; [exact R| |]; tags; auto.
  - pose proof (good_dec d) as (R & O & T). split; [|split]; [exact R| |]; tags; auto.
  - pose proof (good_symbol s) as (R & O & T). split; [|split]; [exact R| |]; tags; auto.
  - pose proof (good_str s) as (R & O & T). split; [|split]; [exact R| |]; tags; auto.
Qed.

(** ** Equality of the order is Leibniz equality away from decimals *)
Lemma list_compare_eq : forall {A} (cmp : A -> A -> comparison) l m,
  (forall x, In x l -> forall y, cmp x y = Eq -> x = y) ->
  list_compare cmp l m = Eq -> l = m.
Proof.
  intros A cmp. induction l as [|x l IH]; intros [|y m] H E; cbn in E; try congruence.
  destruct (cmp x y) eqn:E1; cbn in E; try discriminate.
  f_equal; [apply H; [left; reflexivity | exact E1] | apply IH; [|exact E]].
  intros z Hz. apply H. right. exact Hz.
Qed.
Lemma str_compare_eq : forall a b, str_compare a b = Eq -> a = b.
Proof. intros a b. apply list_compare_eq. intros x _ y. apply N.compare_eq. Qed.
Lemma kind_compare_eq : forall a b, kind_compare a b = Eq -> a = b.
Proof.
  intros [| |a|a p|a] [| |b|b q|b]; cbn; try discriminate; try reflexivity; intro H;
    try (apply str_compare_eq in H; congruence).
  destruct (str_compare a b) eqn:E; cbn in H; try discriminate.
  apply str_compare_eq in E. apply Z.compare_eq in H. congruence.
Qed.
Lemma symbol_compare_eq : forall a b, symbol_compare a b = Eq -> a = b.
Proof.
  intros [n1 m1 k1 a1] [n2 m2 k2 a2]. unfold symbol_compare. cbn [name_space name kind attributes].
  destruct (list_compare str_compare n1 n2) eqn:E1; cbn [lex]; try discriminate.
  destruct (str_compare m1 m2) eqn:E2; cbn [lex]; try discriminate.
  destruct (kind_compare k1 k2) eqn:E3; cbn [lex]; try discriminate. intro E4.
  apply list_compare_eq in E1; [|intros x _; apply str_compare_eq].
  apply str_compare_eq in E2. apply kind_compare_eq in E3. apply Z.compare_eq in E4. congruence.
Qed.
Lemma ast_symbol_compare_eq : forall s a, ast_compare (Sym s) a = Eq -> a = Sym s.
Proof.
  intros s [| | | | | | t |]; cbn; try discriminate. intro H. apply symbol_compare_eq in H. congruence.
Qed.

(** ** Ordered maps *)
Section BTreeFacts.
  Context {K V : Type} (cmp : K -> K -> comparison).
  Hypothesis Hgood : forall k, good cmp k.

  Definition klt a b := cmp a b = Lt.
  Definition keq a b := cmp a b = Eq.
  Definition insert_all (l : list (K * V)) : list (K * V) :=
    fold_left (fun m kv => btree_insert cmp (fst kv) (snd kv) m) l [].

  Fixpoint sorted (m : list (K * V)) : Prop :=
    match m with
    | [] => True
    | (k, _) :: m' => Forall (fun e => klt k (fst e)) m' /\ sorted m'
    end.

  Lemma cmp_lt_trans : forall a b c, klt a b -> klt b c -> klt a c.
  Proof.
    intros a b c H1 H2. destruct (Hgood a) as (_ & _ & T). specialize (T b c).
    unfold klt in *. rewrite H1, H2 in T. exact T.
  Qed.
  Lemma cmp_lt_eq : forall a b c, klt a b -> keq b c -> klt a c.
  Proof.
    intros a b c H1 H2. destruct (Hgood a) as (_ & _ & T). specialize (T b c).
    unfold klt, keq in *. rewrite H1, H2 in T. exact T.
  Qed.
  Lemma cmp_eq_lt : forall a b c, keq a b -> klt b c -> klt a c.
  Proof.
    intros a b c H1 H2. destruct (Hgood a) as (_ & _ & T). specialize (T b c).
    unfold klt, keq in *. rewrite H1, H2 in T. exact T.
  Qed.
  Lemma cmp_eq_trans : forall a b c, keq a b -> keq b c -> keq a c.
  Proof.
    intros a b c H1 H2. destruct (Hgood a) as (_ & _ & T). specialize (T b c).
    unfold keq in *. rewrite H1, H2 in T. exact T.
  Qed.
  Lemma cmp_eq_sym : forall a b, keq a b -> keq b a.
  Proof.
    intros a b H. destruct (Hgood a) as (_ & O & _). unfold keq in *. rewrite O, H. reflexivity.
  Qed.
  Lemma cmp_gt_lt : forall a b, cmp a b = Gt -> klt b a.
  Proof.
    intros a b H. destruct (Hgood a) as (_ & O & _). unfold klt. rewrite O, H. reflexivity.
  Qed.
  Lemma cmp_refl : forall a, keq a a.
  Proof. intro a. apply (Hgood a). Qed.
  Lemma klt_not_keq : forall a b, klt a b -> ~ keq a b.
  Proof. unfold klt, keq. congruence. Qed.

  Lemma insert_lower : forall k0 k (v : V) (m : list (K * V)),
    klt k0 k -> Forall (fun e => klt k0 (fst e)) m ->
    Forall (fun e => klt k0 (fst e)) (btree_insert cmp k v m).
  Proof.
    intros k0 k v m Hk H. induction H as [|[k' v'] m H1 H IH]; cbn [btree_insert].
    - constructor; [exact Hk | constructor].
    - destruct (cmp k k') eqn:E; constructor; auto.
  Qed.
  Lemma insert_sorted : forall k (v : V) m, sorted m -> sorted (btree_insert cmp k v m).
  Proof.
    intros k v. induction m as [|[k' v'] m IH]; intro H; cbn [btree_insert].
    - cbn. auto.
    - destruct H as [H1 H2]. destruct (cmp k k') eqn:E.
      + cbn. auto.
      + cbn. split; [constructor; [exact E|] | auto].
        eapply Forall_impl; [|exact H1]. intros e He. eapply cmp_lt_trans; [exact E | exact He].
      + cbn. split; [|auto]. apply insert_lower; [apply cmp_gt_lt; exact E | exact H1].
  Qed.

  Lemma get_insert : forall k (v : V) m k', sorted m ->
    btree_get cmp k' (btree_insert cmp k v m) =
    match cmp k' k with Eq => Some v | _ => btree_get cmp k' m end.
  Proof.
    intros k v. induction m as [|[k1 v1] m IH]; intros k' Hs; cbn [btree_insert].
    - cbn. reflexivity.
    - destruct Hs as [H1 H2]. destruct (cmp k k1) eqn:E.
      + cbn [btree_get]. destruct (cmp k' k1) eqn:E1, (cmp k' k) eqn:E2; try reflexivity; exfalso.
        * assert (keq k' k) by (eapply cmp_eq_trans; [exact E1 | apply cmp_eq_sym; exact E]).
          unfold keq in *; congruence.
        * assert (keq k' k) by (eapply cmp_eq_trans; [exact E1 | apply cmp_eq_sym; exact E]).
          unfold keq in *; congruence.
        * assert (keq k' k1) by (eapply cmp_eq_trans; [exact E2 | exact E]). unfold keq in *; congruence.
        * assert (keq k' k1) by (eapply cmp_eq_trans; [exact E2 | exact E]). unfold keq in *; congruence.
      + cbn [btree_get]. reflexivity.
      + cbn [btree_get]. rewrite IH by exact H2.
        destruct (cmp k' k1) eqn:E1, (cmp k' k) eqn:E2; try reflexivity; exfalso.
        assert (keq k k1) by (eapply cmp_eq_trans; [apply cmp_eq_sym; exact E2 | exact E1]).
        unfold keq in *; congruence.
  Qed.

  Lemma insert_all_snoc : forall l k v,
    insert_all (l ++ [(k, v)]) = btree_insert cmp k v (insert_all l).
  Proof. intros. unfold insert_all. rewrite fold_left_app. reflexivity. Qed.

  Lemma insert_all_sorted : forall l, sorted (insert_all l).
  Proof.
    induction l as [|[k v] l IH] using rev_ind; [exact I|].
    rewrite insert_all_snoc. apply insert_sorted. exact IH.
  Qed.

  Lemma get_insert_all : forall l k (v : V),
    btree_get cmp k (insert_all l) = Some v <-> last_write keq k v l.
  Proof.
    induction l as [|[k1 v1] l IH] using rev_ind; intros k v.
    - split; [discriminate|]. intro H. inversion H as [b k' a Hs Ha E].
      destruct b; discriminate.
    - rewrite insert_all_snoc, get_insert by apply insert_all_sorted.
      destruct (cmp k k1) eqn:E.
      + split.
        * intros [= ->]. apply last_write_intro with (after := []); [exact E | intros e []].
        * intro H. inversion H as [b k' a Hs Ha El].
          destruct a as [|e a _] using rev_ind.
          -- apply app_inj_tail in El. destruct El as [_ El]. congruence.
          -- rewrite app_comm_cons, app_assoc in El. apply app_inj_tail in El. destruct El as [_ ->].
             exfalso. apply (Ha (k1, v1)); [apply in_or_app; right; left; reflexivity | exact E].
      + rewrite IH. split; intro H; inversion H as [b k' a Hs Ha El].
        * rewrite <- app_assoc. cbn [app]. apply last_write_intro; [exact Hs|].
          intros e He. apply in_app_or in He. destruct He as [He|[<-|[]]]; [apply Ha; exact He|].
          unfold keq; cbn; congruence.
        * destruct a as [|e a _] using rev_ind.
          -- apply app_inj_tail in El. destruct El as [_ [= -> ->]]. unfold keq in Hs; congruence.
          -- rewrite app_comm_cons, app_assoc in El. apply app_inj_tail in El. destruct El as [<- _].
             apply last_write_intro; [exact Hs|]. intros e' He'. apply Ha. apply in_or_app; left; exact He'.
      + rewrite IH. split; intro H; inversion H as [b k' a Hs Ha El].
        * rewrite <- app_assoc. cbn [app]. apply last_write_intro; [exact Hs|].
          intros e He. apply in_app_or in He. destruct He as [He|[<-|[]]]; [apply Ha; exact He|].
          unfold keq; cbn; congruence.
        * destruct a as [|e a _] using rev_ind.
          -- apply app_inj_tail in El. destruct El as [_ [= -> ->]]. unfold keq in Hs; congruence.
          -- rewrite app_comm_cons, app_assoc in El. apply app_inj_tail in El. destruct El as [<- _].
             apply last_write_intro; [exact Hs|]. intros e' He'. apply Ha. apply in_or_app; left; exact He'.
  Qed.

  Lemma get_sorted_in : forall m k (v : V), sorted m -> In (k, v) m -> btree_get cmp k m = Some v.
  Proof.
    induction m as [|[k1 v1] m IH]; intros k v Hs Hin; [destruct Hin|].
    destruct Hs as [H1 H2]. cbn [btree_get]. destruct Hin as [[= -> ->]|Hin].
    - rewrite (cmp_refl k). reflexivity.
    - rewrite Forall_forall in H1. specialize (H1 _ Hin). cbn in H1.
      destruct (cmp k k1) eqn:E.
      + exfalso. apply klt_not_keq in H1. apply H1. apply cmp_eq_sym. exact E.
      + apply IH; assumption.
      + apply IH; assumption.
  Qed.

  Lemma get_some_in : forall m k (v : V), btree_get cmp k m = Some v -> exists k', keq k k' /\ In (k', v) m.
  Proof.
    induction m as [|[k1 v1] m IH]; intros k v H; [discriminate|]. cbn [btree_get] in H.
    destruct (cmp k k1) eqn:E.
    - injection H as ->. exists k1. split; [exact E | left; reflexivity].
    - destruct (IH _ _ H) as (k' & Hk & Hin). exists k'. split; [exact Hk | right; exact Hin].
    - destruct (IH _ _ H) as (k' & Hk & Hin). exists k'. split; [exact Hk | right; exact Hin].
  Qed.

  Lemma sorted_increasing : forall m, sorted m -> strictly_increasing klt (map fst m).
  Proof.
    induction m as [|[k v] m IH]; intros Hs i j a b Hij Ha Hb.
    - destruct i; discriminate.
    - destruct Hs as [H1 H2]. destruct j as [|j]; [lia|]. cbn in Hb. destruct i as [|i]; cbn in Ha.
      + injection Ha as ->. apply nth_error_In in Hb. apply in_map_iff in Hb.
        destruct Hb as (e & <- & He). rewrite Forall_forall in H1. apply H1. exact He.
      + apply (IH H2 i j); [lia | assumption | assumption].
  Qed.
End BTreeFacts.

Lemma options_spec : forall (writes : list (ast * ast)),
  let m := insert_all ast_compare writes in
  strictly_increasing (fun a b => ast_compare a b = Lt) (map fst m) /\
  (forall k v, (exists k', ast_compare k k' = Eq /\ In (k', v) m) <->
               last_write (fun a b => ast_compare a b = Eq) k v writes).
Proof.
  intros writes m. split.
  - apply sorted_increasing. apply insert_all_sorted. apply good_ast.
  - intros k v. rewrite <- (get_insert_all ast_compare good_ast). split.
    + intros (k' & Hk & Hin).
      rewrite <- (get_sorted_in ast_compare good_ast (insert_all ast_compare writes) k' v);
        [|apply insert_all_sorted, good_ast | exact Hin].
      clear Hin. unfold m. revert Hk. generalize (insert_all ast_compare writes) as mm.
      intros mm Hk. induction mm as [|[k1 v1] mm IH]; [reflexivity|]. cbn [btree_get].
      destruct (good_ast k) as (_ & _ & T). specialize (T k' k1). rewrite Hk in T. cbn in T.
      rewrite T. destruct (ast_compare k' k1); [reflexivity | exact IH | exact IH].
    + intro H. apply get_some_in in H. exact H.
Qed.
