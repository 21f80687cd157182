(** The precedence climber builds the unique well bracketed tree. *)
From Verif Require Import Base Peg Grammar Climber SpecClimb.
Local Open Scope Z_scope.
Local Open Scope outcome_scope.

Section Unfold.
  Context {I T : Type} (get : I -> option (Z * assoc)) (infix : T -> I -> T -> outcome T).
  Lemma climb_outer_S : forall f lhs min_prec ps, climb_outer get infix (S f) lhs min_prec ps =
    match ps with
    | [] => Ret (lhs, ps)
    | (op, _) :: ps1 =>
        match get op with
        | None => Ret (lhs, ps)
        | Some (prec, _) =>
            if prec >=? min_prec then
              match ps1 with
              | [] => Panic PUnwrap
              | (_, primary) :: ps2 =>
                  r0 <- primary;
                  '(r, ps3) <- climb_inner get infix f prec r0 ps2;
                  l <- infix lhs op r;
                  climb_outer get infix f l min_prec ps3
              end
            else Ret (lhs, ps)
        end
    end.
  Proof. reflexivity. Qed.
  Lemma climb_inner_S : forall f prec rhs ps, climb_inner get infix (S f) prec rhs ps =
    match ps with
    | [] => Ret (rhs, ps)
    | (op, _) :: _ =>
        match get op with
        | None => Ret (rhs, ps)
        | Some (new_prec, a) =>
            if (new_prec >? prec) || (match a with Right => new_prec =? prec | Left => false end)
            then '(r, ps1) <- climb_outer get infix f rhs new_prec ps; climb_inner get infix f prec r ps1
            else Ret (rhs, ps)
        end
    end.
  Proof. reflexivity. Qed.
End Unfold.

Section Climb.
  Context {I : Type}.
  Variable get : I -> option (Z * assoc).
  Definition prec (o : I) : Z := match get o with Some (p, _) => p | None => 0 end.
  Definition rightp (o : I) : bool := match get o with Some (_, Right) => true | _ => false end.
  Hypothesis same_assoc : forall a b, get a <> None -> get b <> None -> prec a = prec b -> rightp a = rightp b.
  Hypothesis prec_pos : forall o, 0 <= prec o.
  Notation good := (well_bracketed prec rightp).

  (** every operator of a tree is in the table *)
  Fixpoint known (t : bracketing I) : Prop :=
    match t with Leaf _ => True | Bin l o r => known l /\ get o <> None /\ known r end.

  (** may the tree be the left operand of o *)
  Definition left_of (t : bracketing I) (o : I) : Prop :=
    forall p, root_op t = Some p -> prec p > prec o \/ prec p = prec o /\ rightp o = false.
  Definition right_of (t : bracketing I) (o : I) : Prop :=
    forall p, root_op t = Some p -> prec p > prec o \/ prec p = prec o /\ rightp o = true.

  Definition flat (l : list (I * I)) : list I := flat_map (fun p => [fst p; snd p]) l.
  Definition known_ops (l : list (I * I)) : Prop := Forall (fun p => get (fst p) <> None) l.

  (** ** the free interpretation *)
  Notation freeT := (outcome (bracketing I)).
  Definition fp (x : I) : I * freeT := (x, Ret (Leaf x)).
  Definition finfix (a : bracketing I) (o : I) (b : bracketing I) : freeT := Ret (Bin a o b).
  Notation fouter := (climb_outer get finfix).
  Notation finner := (climb_inner get finfix).

  (** what follows the sequence does not continue it *)
  Definition stops (k : list I) : Prop := match k with [] => True | o :: _ => get o = None end.
  Definition next_op (l : list (I * I)) : option I := match l with [] => None | p :: _ => Some (fst p) end.

  Lemma climb_sound : forall k, stops k -> forall f,
    (forall lhs m l, known_ops l -> good lhs -> known lhs ->
       (forall o, next_op l = Some o -> left_of lhs o) -> (2 * length l + 1 <= f)%nat ->
       exists t done l', l = done ++ l' /\ fouter f lhs m (map fp (flat l ++ k)) = Ret (t, map fp (flat l' ++ k)) /\
         written t = written lhs ++ flat done /\ good t /\ known t /\
         (forall o, next_op l' = Some o -> prec o < m) /\
         (forall o, next_op l' = Some o -> left_of t o) /\
         (t = lhs /\ done = [] \/ exists p, root_op t = Some p /\ get p <> None /\ prec p >= m)) /\
    (forall op rhs l, known_ops l -> good rhs -> known rhs -> get op <> None ->
       (forall o, next_op l = Some o -> left_of rhs o) -> right_of rhs op -> (2 * length l + 2 <= f)%nat ->
       exists t done l', l = done ++ l' /\ finner f (prec op) rhs (map fp (flat l ++ k)) = Ret (t, map fp (flat l' ++ k)) /\
         written t = written rhs ++ flat done /\ good t /\ known t /\ right_of t op /\
         (forall o, next_op l' = Some o -> prec o < prec op \/ prec o = prec op /\ rightp o = false)).
  Proof.
    intros k Hk. induction f as [|f [IHo IHi]]; split; try (intros; lia).
    - intros lhs m [|[op x] l] Kn Hg Hkn Hl Hf.
      + exists lhs, [], []. cbn [flat flat_map app].
        repeat split; auto; try discriminate; [|rewrite app_nil_r; reflexivity].
        destruct k as [|o k]; cbn; [reflexivity|]. cbn in Hk. rewrite Hk. reflexivity.
      + inversion Kn as [|? ? K1 K2]; subst. cbn in K1.
        change (map fp (flat ((op, x) :: l) ++ k)) with (fp op :: fp x :: map fp (flat l ++ k)).
        rewrite climb_outer_S. cbn [fp].
        destruct (get op) as [[pr a]|] eqn:G; [|congruence].
        assert (Hpr : prec op = pr) by (unfold prec; rewrite G; reflexivity).
        destruct (Z.geb_spec pr m) as [Hge|Hlt].
        * cbn [obind].
          destruct (IHi op (Leaf x) l) as (r & d1 & l1 & E1 & R1 & W1 & G1 & N1 & T1 & S1); auto; try (constructor); try (cbn; intros; discriminate).
          { congruence. } { cbn [length] in Hf. lia. }
          rewrite Hpr in R1. rewrite R1. cbn [obind]. unfold finfix at 2. cbn [obind].
          destruct (IHo (Bin lhs op r) m l1) as (t & d2 & l2 & E2 & R2 & W2 & G2 & N2 & S2 & L2 & D2).
          { subst l. apply Forall_app in K2. apply K2. }
          { constructor; auto. apply Hl. reflexivity. }
          { cbn. repeat split; auto. congruence. }
          { intros o Ho p Hp. cbn in Hp. injection Hp as <-. destruct (S1 o Ho) as [H|[H1 H2]]; [left; lia|right; split; [lia|exact H2]]. }
          { subst l. cbn [length] in Hf. rewrite app_length in Hf. lia. }
          exists t, ((op, x) :: d1 ++ d2), l2. subst l1.
          repeat split; auto.
          -- subst l. cbn. rewrite app_assoc. reflexivity.
          -- rewrite W2. cbn [written]. rewrite W1. cbn. rewrite flat_map_app, <- !app_assoc. cbn. reflexivity.
          -- destruct D2 as [[-> ->]|D2]; [|right; exact D2]. right. exists op. repeat split; [congruence|lia].
        * exists lhs, [], ((op, x) :: l).
          split; [reflexivity|]. split; [reflexivity|]. split; [cbn; rewrite app_nil_r; reflexivity|].
          split; [exact Hg|]. split; [exact Hkn|]. split; [|split; [exact Hl|left; auto]].
          intros o Ho; injection Ho as <-. lia.
    - intros op rhs [|[o x] l] Kn Hg Hkn Hop Hl Hr Hf.
      + exists rhs, [], []. cbn [flat flat_map app].
        repeat split; auto; try discriminate; [|rewrite app_nil_r; reflexivity].
        destruct k as [|o k]; cbn; [reflexivity|]. cbn in Hk. rewrite Hk. reflexivity.
      + pose proof Kn as Kn'. inversion Kn as [|? ? K1 K2]; subst. cbn in K1.
        remember ((o, x) :: l) as L eqn:EL.
        assert (EM : map fp (flat L ++ k) = fp o :: fp x :: map fp (flat l ++ k)) by (subst L; reflexivity).
        assert (EQ : finner (S f) (prec op) rhs (map fp (flat L ++ k)) =
          match get o with
          | None => Ret (rhs, map fp (flat L ++ k))
          | Some (new_prec, a) =>
              if (new_prec >? prec op) || (match a with Right => new_prec =? prec op | Left => false end)
              then '(r, ps1) <- fouter f rhs new_prec (map fp (flat L ++ k)); finner f (prec op) r ps1
              else Ret (rhs, map fp (flat L ++ k))
          end) by (rewrite climb_inner_S, EM; reflexivity).
        rewrite EQ. clear EQ.
        destruct (get o) as [[pr a]|] eqn:G; [|congruence].
        assert (Hpr : prec o = pr) by (unfold prec; rewrite G; reflexivity).
        assert (Ha : rightp o = match a with Right => true | Left => false end) by (unfold rightp; rewrite G; reflexivity).
        destruct ((pr >? prec op) || match a with Right => pr =? prec op | Left => false end) eqn:C.
        * destruct (IHo rhs pr L) as (t & d1 & l1 & E1 & R1 & W1 & G1 & N1 & S1 & L1 & D1); auto; [lia|].
          rewrite R1. cbn [obind].
          assert (d1 <> []).
          { intros ->. cbn in E1. subst l1. specialize (S1 o). rewrite EL in S1. specialize (S1 eq_refl). lia. }
          destruct D1 as [[_ ?]|(p & P1 & P2 & P3)]; [contradiction|].
          destruct (IHi op t l1) as (r & d2 & l2 & E2 & R2 & W2 & G2 & N2 & T2 & S2); auto.
          { rewrite E1 in Kn'. apply Forall_app in Kn'. apply Kn'. }
          { intros q Hq. rewrite P1 in Hq. injection Hq as <-.
            apply orb_true_iff in C. destruct C as [C|C]; [apply Z.gtb_lt in C; left; lia|].
            destruct a; [discriminate|]. apply Z.eqb_eq in C.
            assert (prec p > prec op \/ prec p = prec op) as [?|E] by lia; [left; assumption|].
            right. split; [exact E|]. rewrite <- (same_assoc o op); [exact Ha|congruence|exact Hop|lia]. }
          { rewrite E1 in Hf. rewrite app_length in Hf. destruct d1; [congruence|]. cbn [length] in Hf. lia. }
          exists r, (d1 ++ d2), l2. repeat split; auto.
          -- rewrite E1, E2, app_assoc. reflexivity.
          -- rewrite W2, W1. unfold flat. rewrite flat_map_app, <- app_assoc. reflexivity.
        * exists rhs, [], L. repeat split; auto; [rewrite app_nil_r; reflexivity|].
          intros o' Ho. rewrite EL in Ho. cbn in Ho. injection Ho as <-.
          apply orb_false_iff in C. destruct C as [C1 C2].
          assert (~ pr > prec op) by (intro H; apply Z.gt_lt, Z.gtb_lt in H; congruence).
          destruct a.
          -- assert (pr < prec op \/ pr = prec op) as [?|?] by lia; [left; lia|right; split; [lia|exact Ha]].
          -- apply Z.eqb_neq in C2. left. lia.
  Qed.

  (** ** uniqueness *)
  Fixpoint ops (t : bracketing I) : list I :=
    match t with Leaf _ => [] | Bin l o r => ops l ++ o :: ops r end.

  Lemma root_min : forall t, good t -> forall o x, root_op t = Some o -> In x (ops t) -> prec x >= prec o.
  Proof.
    induction 1 as [x|l o r Hl IHl Hr IHr Cl Cr]; intros o' x' Ho Hin; [discriminate|].
    cbn in Ho. injection Ho as <-. cbn in Hin. apply in_app_iff in Hin. destruct Hin as [Hin|[<-|Hin]]; [|lia|].
    - destruct l as [y|l1 p l2]; [destruct Hin|].
      specialize (IHl p x' eq_refl Hin). destruct (Cl p eq_refl) as [?|[? _]]; lia.
    - destruct r as [y|l1 p l2]; [destruct Hin|].
      specialize (IHr p x' eq_refl Hin). destruct (Cr p eq_refl) as [?|[? _]]; lia.
  Qed.

  Lemma written_len : forall t : bracketing I, length (written t) = (2 * length (ops t) + 1)%nat.
  Proof. induction t; cbn; [reflexivity|]. rewrite !app_length. cbn. lia. Qed.

  (** the items at odd places are the operators *)
  Lemma written_nth : forall (t : bracketing I) n, nth_error (written t) (2 * n + 1) = nth_error (ops t) n.
  Proof.
    induction t as [x|l IHl o r IHr]; intro n.
    - cbn [written ops]. rewrite (proj2 (nth_error_None [x] (2 * n + 1))) by (cbn; lia). destruct n; reflexivity.
    - cbn [written ops]. destruct (Nat.lt_ge_cases n (length (ops l))) as [L|L].
      + rewrite !nth_error_app1; [apply IHl|exact L|rewrite written_len; lia].
      + rewrite !nth_error_app2; [|exact L|rewrite written_len; lia].
        rewrite written_len. destruct (n - length (ops l))%nat as [|j] eqn:E.
        * replace (2 * n + 1 - (2 * length (ops l) + 1))%nat with 0%nat by lia. reflexivity.
        * replace (2 * n + 1 - (2 * length (ops l) + 1))%nat with (S (2 * j + 1))%nat by lia. cbn. apply IHr.
  Qed.

  Lemma known_in : forall t x, known t -> In x (ops t) -> get x <> None.
  Proof.
    induction t as [y|l IHl o r IHr]; intros x H Hin; [destruct Hin|]. cbn in *. destruct H as (H1 & H2 & H3).
    apply in_app_iff in Hin. destruct Hin as [Hin|[<-|Hin]]; auto.
  Qed.

  (** an operator in the right operand that is as weak as the root: the strength
      associates to the right *)
  Lemma right_equal : forall l o r x, good (Bin l o r) -> In x (ops r) -> prec x <= prec o -> rightp o = true.
  Proof.
    intros l o r x H Hin Hx. inversion H as [|? ? ? Hl Hr Cl Cr]; subst.
    destruct r as [y|r1 p r2]; [destruct Hin|].
    pose proof (root_min _ Hr p x eq_refl Hin). destruct (Cr p eq_refl) as [?|[_ ?]]; [lia|assumption].
  Qed.
  Lemma left_equal : forall l o r x, good (Bin l o r) -> In x (ops l) -> prec x <= prec o -> rightp o = false.
  Proof.
    intros l o r x H Hin Hx. inversion H as [|? ? ? Hl Hr Cl Cr]; subst.
    destruct l as [y|r1 p r2]; [destruct Hin|].
    pose proof (root_min _ Hl p x eq_refl Hin). destruct (Cl p eq_refl) as [?|[_ ?]]; [lia|assumption].
  Qed.

  Lemma ops_eq : forall t u : bracketing I, written t = written u -> ops t = ops u.
  Proof.
    intros t u H. assert (HL : length (ops t) = length (ops u)).
    { pose proof (written_len t). pose proof (written_len u). rewrite H in *. lia. }
    revert HL. assert (HN : forall n, nth_error (ops t) n = nth_error (ops u) n).
    { intro n. rewrite <- !written_nth, H. reflexivity. }
    clear H. revert HN. generalize (ops u). induction (ops t) as [|a l IH]; intros [|b m] HN HL; try discriminate; auto.
    f_equal; [specialize (HN 0%nat); cbn in HN; congruence|].
    apply IH; [intro n; apply (HN (S n))|cbn in HL; lia].
  Qed.

  Lemma split_same : forall (a b : list I) x y c d, a ++ x :: b = c ++ y :: d -> length a = length c ->
    a = c /\ x = y /\ b = d.
  Proof.
    induction a as [|h a IH]; intros b x y [|h' c] d H HL; cbn in *; try discriminate.
    - injection H as -> ->. auto.
    - injection H as -> H. destruct (IH _ _ _ _ _ H) as (-> & -> & ->); auto.
  Qed.

  Lemma nth_mid : forall (a b : list I) x c y d n, a ++ x :: b = c ++ y :: d -> length a = n -> (n < length c)%nat ->
    In x c /\ In y b.
  Proof.
    induction a as [|h a IH]; intros b x [|h' c] y d n H HL HC; cbn in *; subst n; try lia.
    - injection H as -> ->. split; [auto|]. apply in_app_iff. right. left. reflexivity.
    - injection H as -> H. destruct (IH _ _ _ _ _ _ H eq_refl) as [H1 H2]; [lia|]. auto.
  Qed.

  Lemma bracketing_unique : forall t u, good t -> good u -> known t -> known u -> written t = written u -> t = u.
  Proof.
    induction t as [x|l IHl o r IHr]; intros [y|l' o' r'] Gt Gu Kt Ku H.
    - cbn in H. congruence.
    - exfalso. apply (f_equal (@length _)) in H. cbn in H. rewrite app_length in H. cbn in H.
      rewrite !written_len in H. lia.
    - exfalso. apply (f_equal (@length _)) in H. cbn in H. rewrite app_length in H. cbn in H.
      rewrite !written_len in H. lia.
    - pose proof (ops_eq _ _ H) as HO. cbn in HO. cbn in Kt, Ku.
      destruct Kt as (K1 & K2 & K3), Ku as (K1' & K2' & K3').
      destruct (Nat.lt_trichotomy (length (ops l)) (length (ops l'))) as [L|[L|L]].
      + exfalso. destruct (nth_mid _ _ _ _ _ _ _ HO eq_refl L) as [Hin Hin'].
        assert (prec o' >= prec o). { apply (root_min _ Gt o o' eq_refl). cbn. apply in_app_iff. right. right. exact Hin'. }
        assert (prec o >= prec o'). { apply (root_min _ Gu o' o eq_refl). cbn. apply in_app_iff. left. exact Hin. }
        assert (A : rightp o = true) by (eapply right_equal; [exact Gt|exact Hin'|lia]).
        assert (B : rightp o' = false) by (eapply left_equal; [exact Gu|exact Hin|lia]).
        rewrite (same_assoc o o') in A; [congruence|assumption|assumption|lia].
      + cbn in H. destruct (split_same _ _ _ _ _ _ H) as (E1 & -> & E2); [rewrite !written_len; lia|].
        inversion Gt; inversion Gu; subst. f_equal; auto.
      + exfalso. symmetry in HO. destruct (nth_mid _ _ _ _ _ _ _ HO eq_refl L) as [Hin Hin'].
        assert (prec o >= prec o'). { apply (root_min _ Gu o' o eq_refl). cbn. apply in_app_iff. right. right. exact Hin'. }
        assert (prec o' >= prec o). { apply (root_min _ Gt o o' eq_refl). cbn. apply in_app_iff. left. exact Hin. }
        assert (A : rightp o' = true) by (eapply right_equal; [exact Gu|exact Hin'|lia]).
        assert (B : rightp o = false) by (eapply left_equal; [exact Gt|exact Hin|lia]).
        rewrite (same_assoc o' o) in A; [congruence|assumption|assumption|lia].
  Qed.

  (** ** arbitrary interpretation *)
  Section Eval.
    Context {T : Type}.
    Variable operand : I -> outcome T.
    Variable apply : T -> I -> T -> outcome T.
    Notation eval := (evaluate operand apply).
    Definition ip (x : I) : I * outcome T := (x, operand x).

    Definition stuck {A} (x : outcome A) : Prop := match x with Ret _ => False | _ => True end.
    Lemma climb_eval : forall f,
      (forall lhs m l t l', fouter f lhs m (map fp l) = Ret (t, map fp l') ->
         (forall v, eval lhs = Ret v -> climb_outer get apply f v m (map ip l) = (r <- eval t; Ret (r, map ip l'))) /\
         (stuck (eval lhs) -> eval t = eval lhs)) /\
      (forall p rhs l t l', finner f p rhs (map fp l) = Ret (t, map fp l') ->
         (forall v, eval rhs = Ret v -> climb_inner get apply f p v (map ip l) = (r <- eval t; Ret (r, map ip l'))) /\
         (stuck (eval rhs) -> eval t = eval rhs)).
    Proof.
      assert (Hm : forall l l', map fp l = map fp l' -> l = l').
      { intros l l' H. apply (f_equal (map fst)) in H. rewrite !map_map in H. cbn in H. rewrite !map_id in H. exact H. }
      assert (HT : forall f, (forall lhs m l t q, fouter f lhs m (map fp l) = Ret (t, q) -> exists l', q = map fp l') /\
                             (forall p rhs l t q, finner f p rhs (map fp l) = Ret (t, q) -> exists l', q = map fp l')).
      { induction f as [|f [IHo IHi]]; split; try discriminate.
        - intros lhs m l t q H. destruct l as [|o l]; rewrite climb_outer_S in H; cbn [map fp] in H; [injection H as <- <-; exists []; reflexivity|].
          destruct (get o) as [[pr a]|]; [|injection H as <- <-; exists (o :: l); reflexivity].
          destruct (pr >=? m); [|injection H as <- <-; exists (o :: l); reflexivity].
          destruct l as [|x l]; [discriminate|]. cbn [map fp obind] in H.
          destruct (finner f pr (Leaf x) (map fp l)) as [[r ps3]| |] eqn:E; try discriminate.
          apply IHi in E. destruct E as [l3 ->]. cbn [obind finfix] in H. eapply IHo. exact H.
        - intros p rhs l t q H. destruct l as [|o l]; rewrite climb_inner_S in H; cbn [map fp] in H; [injection H as <- <-; exists []; reflexivity|].
          destruct (get o) as [[pr a]|]; [|injection H as <- <-; exists (o :: l); reflexivity].
          destruct ((pr >? p) || _); [|injection H as <- <-; exists (o :: l); reflexivity].
          change (fp o :: map fp l) with (map fp (o :: l)) in H.
          destruct (fouter f rhs pr (map fp (o :: l))) as [[r ps3]| |] eqn:E; try discriminate.
          apply IHo in E. destruct E as [l3 ->]. cbn [obind] in H. eapply IHi. exact H. }
      induction f as [|f [IHo IHi]]; split; try discriminate.
      - intros lhs m l t l' H.
        destruct l as [|o l]; rewrite climb_outer_S in H; cbn [map fp] in H.
        { injection H as <- H. destruct l'; [|discriminate]. split; [|reflexivity]. intros v ->. reflexivity. }
        setoid_rewrite climb_outer_S; cbn [map ip].
        destruct (get o) as [[pr a]|].
        2:{ injection H as <- H. apply (Hm (o :: l)) in H. subst l'. split; [|reflexivity]. intros v ->. reflexivity. }
        destruct (pr >=? m).
        2:{ injection H as <- H. apply (Hm (o :: l)) in H. subst l'. split; [|reflexivity]. intros v ->. reflexivity. }
        destruct l as [|x l]; [discriminate|]. cbn [map fp obind ip] in *.
        destruct (finner f pr (Leaf x) (map fp l)) as [[r ps3]| |] eqn:E; try discriminate.
        destruct (proj2 (HT f) _ _ _ _ _ E) as [l3 ->]. cbn [obind finfix] in H.
        destruct (IHi _ _ _ _ _ E) as [E1 E2]. destruct (IHo _ _ _ _ _ H) as [H1 H2].
        cbn [evaluate] in E1, E2. split.
        + intros v Hv. cbn [evaluate] in H1, H2. rewrite Hv in H1, H2. cbn [obind] in H1, H2.
          destruct (operand x) as [w|kk|] eqn:Ex; cbn [obind].
          * rewrite (E1 _ eq_refl). destruct (eval r) as [b|kk|] eqn:Er; cbn [obind] in *.
            -- destruct (apply v o b) as [c|kk|] eqn:Ea; cbn [obind] in *.
               ++ apply H1. reflexivity.
               ++ rewrite H2 by exact Logic.I. reflexivity.
               ++ rewrite H2 by exact Logic.I. reflexivity.
            -- rewrite H2 by exact Logic.I. reflexivity.
            -- rewrite H2 by exact Logic.I. reflexivity.
          * rewrite E2 in H2 by exact Logic.I. cbn in H2. rewrite H2 by exact Logic.I. reflexivity.
          * rewrite E2 in H2 by exact Logic.I. cbn in H2. rewrite H2 by exact Logic.I. reflexivity.
        + intro Hs. cbn [evaluate] in H2. destruct (eval lhs); [destruct Hs|apply H2; exact Logic.I|apply H2; exact Logic.I].
      - intros p rhs l t l' H.
        destruct l as [|o l]; rewrite climb_inner_S in H; cbn [map fp] in H.
        { injection H as <- H. destruct l'; [|discriminate]. split; [|reflexivity]. intros v ->. reflexivity. }
        setoid_rewrite climb_inner_S; cbn [map ip].
        destruct (get o) as [[pr a]|].
        2:{ injection H as <- H. apply (Hm (o :: l)) in H. subst l'. split; [|reflexivity]. intros v ->. reflexivity. }
        destruct ((pr >? p) || _).
        2:{ injection H as <- H. apply (Hm (o :: l)) in H. subst l'. split; [|reflexivity]. intros v ->. reflexivity. }
        change (fp o :: map fp l) with (map fp (o :: l)) in H.
        change (ip o :: map ip l) with (map ip (o :: l)).
        destruct (fouter f rhs pr (map fp (o :: l))) as [[r ps3]| |] eqn:E; try discriminate.
        destruct (proj1 (HT f) _ _ _ _ _ E) as [l3 ->]. cbn [obind] in H.
        destruct (IHo _ _ _ _ _ E) as [E1 E2]. destruct (IHi _ _ _ _ _ H) as [H1 H2]. split.
        + intros v Hv. rewrite (E1 v Hv). destruct (eval r) as [b|kk|]; cbn [obind].
          * apply H1. reflexivity.
          * rewrite H2 by exact Logic.I. reflexivity.
          * rewrite H2 by exact Logic.I. reflexivity.
        + intro Hs. pose proof (E2 Hs) as E3. rewrite E3 in H2. apply H2. exact Hs.
    Qed.

    Theorem climb_spec : forall x0 l k, known_ops l -> stops k ->
      exists t, good t /\ known t /\ written t = alternate x0 l /\
        climb get apply (map ip (alternate x0 l ++ k)) = eval t.
    Proof.
      intros x0 l k Kn Hk. unfold alternate.
      set (n := S (2 * length (map ip ((x0 :: flat l) ++ k)))).
      assert (Hn : (2 * length l + 1 <= n)%nat).
      { assert (HL : length (flat l) = (2 * length l)%nat) by (clear; induction l as [|a l IH]; [reflexivity|]; cbn [flat flat_map app length]; fold (flat l); rewrite IH; lia).
        unfold n. rewrite map_length, app_length. cbn [length]. rewrite HL. lia. }
      assert (HLf : forall o, left_of (Leaf x0) o) by (intros o p Hp; discriminate).
      destruct (proj1 (climb_sound k Hk n) (Leaf x0) 0 l Kn (wb_leaf _ _ x0) Logic.I (fun o _ => HLf o) Hn)
        as (t & d & l' & E & R & W & G & N & S1 & _ & _).
      assert (l' = []) as ->.
      { destruct l' as [|[o x] l']; [reflexivity|]. specialize (S1 o eq_refl). pose proof (prec_pos o). lia. }
      rewrite app_nil_r in E. subst d.
      exists t. repeat split; auto.
      destruct (proj1 (climb_eval n) _ _ _ _ _ R) as [R1 R2].
      unfold climb. cbn [map app ip].
      match goal with |- context [climb_outer _ _ ?m] => change m with n end.
      change (map ip (flat_map (fun p => [fst p; snd p]) l ++ k)) with (map ip (flat l ++ k)).
      cbn [evaluate] in *. destruct (operand x0) as [v|kk|]; cbn [obind].
      - rewrite (R1 v eq_refl). destruct (eval t); reflexivity.
      - symmetry. apply R2. exact Logic.I.
      - symmetry. apply R2. exact Logic.I.
    Qed.
  End Eval.
End Climb.

(** the fuel is sufficient on every list of pairs *)
Section Fuel.
  Context {I T : Type} (get : I -> option (Z * assoc)) (infix : T -> I -> T -> outcome T).
  Hypothesis infix_fuel : forall a o b, infix a o b <> OutOfFuel.
  Definition fed (ps : list (I * outcome T)) : Prop := Forall (fun p => snd p <> OutOfFuel) ps.
  Definition left_over (n : nat) (r : outcome (T * list (I * outcome T))) : Prop :=
    match r with Ret (_, ps) => (length ps <= n)%nat /\ fed ps | Panic _ => True | OutOfFuel => False end.

  Lemma left_over_le : forall n m r, (n <= m)%nat -> left_over n r -> left_over m r.
  Proof. intros n m [[t ps]|k|] H; cbn; auto. intros [? ?]; split; [lia|assumption]. Qed.

  Lemma climb_fuel_aux : forall f,
    (forall lhs m ps, fed ps -> (length ps + 1 <= f)%nat ->
       left_over (length ps) (climb_outer get infix f lhs m ps) /\
       (match ps with (o, _) :: _ => match get o with Some (p, _) => p >= m | None => False end | [] => False end ->
        left_over (length ps - 2) (climb_outer get infix f lhs m ps))) /\
    (forall p rhs ps, fed ps -> (length ps + 2 <= f)%nat ->
       left_over (length ps) (climb_inner get infix f p rhs ps)).
  Proof.
    induction f as [|f [IHo IHi]]; split; try (intros; lia).
    - intros lhs m ps Hf Hl. rewrite climb_outer_S.
      destruct ps as [|[o po] ps]; [cbn; split; [auto|tauto]|].
      destruct (get o) as [[pr a]|]; [|cbn; split; [auto|tauto]].
      destruct (Z.geb_spec pr m) as [Hge|Hlt]; [|cbn [left_over]; split; [auto|lia]].
      assert (X : left_over (length ((o, po) :: ps) - 2)
        match ps with
        | [] => Panic PUnwrap
        | (_, primary) :: ps2 => r0 <- primary; '(r, ps3) <- climb_inner get infix f pr r0 ps2;
            l <- infix lhs o r; climb_outer get infix f l m ps3
        end).
      2:{ split; [eapply left_over_le; [|exact X]; lia|auto]. }
      destruct ps as [|[x px] ps]; [exact Logic.I|].
      inversion Hf as [|? ? _ Hf1]; subst. inversion Hf1 as [|? ? Hx Hf2]; subst. cbn [snd length] in *.
      replace (S (S (length ps)) - 2)%nat with (length ps) by lia.
      destruct px as [r0|kk|]; cbn [obind]; [|exact Logic.I|congruence].
      pose proof (IHi pr r0 ps Hf2 ltac:(lia)) as H1.
      destruct (climb_inner get infix f pr r0 ps) as [[r ps3]|kk|]; cbn [obind]; [|exact Logic.I|exact H1].
      destruct H1 as [H1 H2]. pose proof (infix_fuel lhs o r) as H3.
      destruct (infix lhs o r) as [l|kk|]; cbn [obind]; [|exact Logic.I|congruence].
      destruct (IHo l m ps3 H2) as [H4 _]; [lia|]. eapply left_over_le; [|exact H4]. lia.
    - intros p rhs ps Hf Hl. rewrite climb_inner_S.
      destruct ps as [|[o po] ps]; [cbn; auto|].
      destruct (get o) as [[pr a]|] eqn:G; [|cbn; auto].
      destruct ((pr >? p) || _); [|cbn [left_over]; auto].
      destruct (IHo rhs pr ((o, po) :: ps) Hf) as [_ H1]; [lia|]. rewrite G in H1. specialize (H1 ltac:(lia)).
      destruct (climb_outer get infix f rhs pr ((o, po) :: ps)) as [[r ps1]|kk|]; cbn [obind]; [|exact Logic.I|exact H1].
      destruct H1 as [H1 H2]. cbn [length] in *.
      assert (length ps1 <= length ps)%nat by lia.
      eapply left_over_le; [|apply IHi]; [lia|exact H2|].
      destruct ps; cbn [length] in *; lia.
  Qed.

  Lemma climb_never_out_of_fuel : forall ps, fed ps -> climb get infix ps <> OutOfFuel.
  Proof.
    intros [|[x p] ps] H; [discriminate|]. unfold climb. inversion H as [|? ? Hx Hf]; subst. cbn [snd] in Hx.
    destruct p as [v|k|]; cbn [obind]; [|discriminate|congruence].
    destruct (climb_fuel_aux (S (2 * length ((x, Ret v) :: ps)))) as [H1 _].
    destruct (H1 v 0 ps Hf) as [H2 _]; [cbn [length]; lia|].
    destruct (climb_outer get infix (S (2 * length ((x, Ret v) :: ps))) v 0 ps) as [[r q]|k|]; cbn [obind]; try discriminate.
    destruct H2.
  Qed.
End Fuel.

(** ** The table of the code *)
Lemma operators_same_assoc : forall a b, operators a <> None -> operators b <> None ->
  prec operators a = prec operators b -> rightp operators a = rightp operators b.
Proof. intros a b Ha Hb. destruct a; try (cbn in Ha; congruence); destruct b; try (cbn in Hb; congruence); cbn; intro; try reflexivity; discriminate. Qed.
Lemma operators_prec_pos : forall o, 0 <= prec operators o.
Proof. destruct o; cbn; lia. Qed.
