(** Proofs about threads that call the playground. *)
From Verif Require Import Base Ast Display Internal Eval Tex Runner Threads SpecSession SpecThreads ProofRunner.
Local Open Scope nat_scope.

Section ProofThreads.
  Context (W : Z) (parse : str -> outcome (sm_result ast)) (debug : str -> sm_error -> str).
  Notation pg_step := (pg_step W parse debug).
  Notation pg_run := (pg_run W parse debug).
  Notation statement := (statement W parse debug).
  Notation thread_step := (thread_step W parse debug).
  Notation threads_run := (threads_run W parse debug).
  Notation one_by_one := (one_by_one W parse debug).

  Fixpoint after (calls : list pg_call) (g : playground) : playground :=
    match calls with [] => g | c :: rest => after rest (fst (pg_step c g)) end.
  Lemma after_snoc : forall cs c g, after (cs ++ [c]) g = fst (pg_step c (after cs g)).
  Proof. induction cs as [|x cs IH]; intros c g; simpl; [reflexivity | apply IH]. Qed.
  Lemma run_snoc : forall cs c g, pg_run (cs ++ [c]) g = pg_run cs g ++ [snd (pg_step c (after cs g))].
  Proof.
    induction cs as [|x cs IH]; intros c g; simpl.
    - destruct (pg_step c g) as [g' r]. reflexivity.
    - destruct (pg_step x g) as [g' r]. simpl. f_equal. apply IH.
  Qed.
  Lemma run_len : forall cs g, length (pg_run cs g) = length cs.
  Proof. induction cs as [|c cs IH]; intros g; simpl; [reflexivity|]. destruct (pg_step c g). simpl. f_equal. apply IH. Qed.

  Lemma combine_snoc : forall A B (a : list A) (b : list B) x y, length a = length b -> combine (a ++ [x]) (b ++ [y]) = combine a b ++ [(x, y)].
  Proof. induction a as [|u a IH]; intros [|v b] x y E; simpl in *; try discriminate; [reflexivity|]. f_equal. apply IH. lia. Qed.
  Lemma of_snoc : forall A i j (x : A) l, of_thread j (l ++ [(i, x)]) = of_thread j l ++ (if i =? j then [x] else []).
  Proof.
    intros. unfold of_thread. rewrite filter_app, map_app. f_equal. simpl. destruct (i =? j); reflexivity.
  Qed.
  Lemma nth_mid : forall A (l : list A) x r, nth_error (l ++ x :: r) (length l) = Some x.
  Proof. induction l; intros; simpl; auto. Qed.
  Lemma nth_other : forall A (l : list A) x y r i, i <> length l -> nth_error (l ++ x :: r) i = nth_error (l ++ y :: r) i.
  Proof. induction l as [|a l IH]; intros x y r [|i] H; simpl in *; try congruence; try reflexivity. apply IH. lia. Qed.

  (** the holder of the lock is in the midst of its call *)
  Definition inside (g : playground) (p : place) (sh : playground) : Prop :=
    poisoned g = false /\ poisoned sh = false /\
    match p with
    | AtInput _ | AtTex => sh = g
    | AtForward s => runner_parse s (runner g) = (runner sh, Ret (Ok tt))
    | AtPrint s => exists c, runner_parse s (runner g) = (c, Ret (Ok tt)) /\ runner_forward W parse c = (runner sh, Ret (Ok tt))
    | _ => False
    end.
  Definition is_out (p : place) : Prop := match p with Outside | Waiting _ => True | _ => False end.

  Lemma inside_on : forall g p b c c' p', inside g p (mkPlayground b c) -> statement p c = (c', inl p') ->
    inside g p' (mkPlayground b c') /\ under_way p' = under_way p.
  Proof.
    intros g p b c c' p' [Hg [Hs Hp]] E. simpl in Hs. destruct p; simpl in *; try contradiction.
    - subst g. injection E as <- <-. simpl. repeat split; auto.
    - destruct (runner_forward W parse c) as [c1 o] eqn:F. destruct o as [[u|e]|k|]; try discriminate.
      injection E as <- <-. destruct u. simpl. repeat split; auto. exists c. auto.
    - discriminate.
    - discriminate.
  Qed.
  Lemma ret_text : forall s (o : outcome (sm_result str)), is_ret (text_of debug s o) = is_ret o.
  Proof. intros s [[|]| |]; reflexivity. Qed.
  Lemma inside_end : forall g p b c c' o, inside g p (mkPlayground b c) -> statement p c = (c', inr o) ->
    exists call, under_way p = [call] /\ pg_step call g = (mkPlayground (negb (is_ret o)) c', o).
  Proof.
    intros g p b c c' o [Hg [Hs Hp]] E. simpl in Hs. destruct p as [|w|s|s|s|]; simpl in *; try contradiction; try discriminate.
    - exists (CallResult s). split; [reflexivity|]. unfold Runner.pg_step, pg_result. rewrite Hg.
      unfold evaluate. rewrite Hp. destruct (runner_forward W parse c) as [c1 r] eqn:F.
      destruct r as [[u|e]|k|]; try discriminate; injection E as <- <-; reflexivity.
    - destruct Hp as [c1 [P F]]. exists (CallResult s). split; [reflexivity|]. unfold Runner.pg_step, pg_result. rewrite Hg.
      unfold evaluate. rewrite P, F. injection E as <- <-.
      destruct (btree_get Z.compare (index c) (outputs c)) as [x|]; [|reflexivity].
      destruct (display x); reflexivity.
    - subst g. exists CallTex. split; [reflexivity|]. injection E as <- <-. unfold Runner.pg_step, pg_result_tex. simpl in *.
      rewrite Hs. reflexivity.
  Qed.

  Definition inv (calls : list (list pg_call)) (w : world) (order : list (nat * pg_call)) : Prop :=
    one_by_one calls w order /\
    match holder w with
    | None => shared w = after (map snd order) fresh_playground
    | Some i => exists t, nth_error (threads w) i = Some t /\ inside (after (map snd order) fresh_playground) (at_place t) (shared w)
    end /\
    forall i t, nth_error (threads w) i = Some t -> holder w <> Some i -> is_out (at_place t).

  Lemma mid_len : forall A (l : list A) x y r, length (l ++ x :: r) = length (l ++ y :: r).
  Proof. intros. rewrite !app_length. reflexivity. Qed.

  (** a step within a call leaves the order alone *)
  Lemma same_order : forall calls g h g' h' l t t' r order,
    one_by_one calls (mkWorld g h (l ++ t :: r)) order ->
    under_way (at_place t') ++ todo t' = under_way (at_place t) ++ todo t -> answers t' = answers t ->
    one_by_one calls (mkWorld g' h' (l ++ t' :: r)) order.
  Proof.
    intros calls g h g' h' l t t' r order [L H] U A. split; simpl in *.
    - rewrite (mid_len _ l t' t r). exact L.
    - intros i cs u C E. destruct (Nat.eq_dec i (length l)) as [->|N].
      + rewrite nth_mid in E. injection E as <-. destruct (H (length l) cs t C (nth_mid _ l t r)) as [H1 H2].
        rewrite U, A. auto.
      + apply (H i cs u C). rewrite (nth_other _ l t t' r i N). exact E.
  Qed.
  (** the end of a call puts it last *)
  Lemma new_last : forall calls g h g' h' l c t p rs o r order,
    one_by_one calls (mkWorld g h (l ++ mkThread t p rs :: r)) order -> under_way p = [c] ->
    snd (pg_step c (after (map snd order) fresh_playground)) = o ->
    one_by_one calls (mkWorld g' h' (l ++ mkThread t Outside (rs ++ [o]) :: r)) (order ++ [(length l, c)]).
  Proof.
    intros calls g h g' h' l c t p rs o r order [L H] U O. split; simpl in *.
    - rewrite (mid_len _ l _ (mkThread t p rs) r). exact L.
    - intros i cs u C E. rewrite !map_app. simpl. rewrite run_snoc, O.
      rewrite combine_snoc by (rewrite run_len, !map_length; reflexivity). rewrite !of_snoc.
      destruct (Nat.eq_dec i (length l)) as [->|N].
      + rewrite Nat.eqb_refl. rewrite nth_mid in E. injection E as <-.
        destruct (H (length l) cs _ C (nth_mid _ l _ r)) as [H1 H2]. simpl in *. rewrite U in H1. rewrite H2.
        rewrite <- app_assoc. auto.
      + replace (length l =? i) with false by (symmetry; apply Nat.eqb_neq; lia). rewrite !app_nil_r.
        apply (H i cs u C). rewrite (nth_other _ l _ (mkThread t Outside (rs ++ [o])) r i N). exact E.
  Qed.

  Lemma outs : forall l t t' r h h', (forall i u, nth_error (l ++ t :: r) i = Some u -> h <> Some i -> is_out (at_place u)) ->
    (is_out (at_place t') \/ h' = Some (length l)) -> (h = Some (length l) \/ h = h' \/ h = None) ->
    forall i u, nth_error (l ++ t' :: r) i = Some u -> h' <> Some i -> is_out (at_place u).
  Proof.
    intros l t t' r h h' H T D i u E N. destruct (Nat.eq_dec i (length l)) as [->|M].
    - rewrite nth_mid in E. injection E as <-. destruct T as [T|T]; [exact T | congruence].
    - apply (H i u); [rewrite (nth_other _ l t t' r i M); exact E|]. destruct D as [-> | [-> | ->]]; congruence.
  Qed.

  Lemma inv_step : forall calls u v order, inv calls u order -> thread_step u v -> exists more, inv calls v (order ++ more).
  Proof.
    intros calls u v order [B [S O]] T. destruct T as [g h l c t rs r | g l c t rs r P | g l c t rs r P | b c c' l t p p' rs r E | b c c' l t p o rs r E]; simpl in *.
    - exists []. rewrite app_nil_r. split; [|split; simpl].
      + eapply same_order; [exact B | reflexivity | reflexivity].
      + destruct h as [i|]; [|exact S]. destruct S as [x [X I]].
        destruct (Nat.eq_dec i (length l)) as [->|N].
        * rewrite nth_mid in X. injection X as <-. destruct I as [_ [_ []]].
        * exists x. split; [|exact I]. rewrite <- X. apply nth_other; exact N.
      + eapply outs; [exact O | left; exact I | auto].
    - exists []. rewrite app_nil_r. split; [|split; simpl].
      + eapply same_order; [exact B | destruct c; reflexivity | reflexivity].
      + eexists. split; [apply nth_mid|]. rewrite <- S. destruct c; repeat split; auto.
      + eapply outs; [exact O | right; reflexivity | auto].
    - exists [(length l, c)]. assert (Q : pg_step c (after (map snd order) fresh_playground) = (g, Panic PPoisoned)).
      { rewrite <- S. destruct c; simpl; unfold pg_result, pg_result_tex; rewrite P; reflexivity. }
      split; [|split; simpl].
      + eapply new_last; [exact B | reflexivity | rewrite Q; reflexivity].
      + rewrite map_app; cbn [map snd]; rewrite after_snoc, Q. reflexivity.
      + eapply outs; [exact O | left; exact I | auto].
    - exists []. rewrite app_nil_r. destruct S as [x [X I]]. rewrite nth_mid in X. injection X as <-. simpl in I.
      destruct (inside_on _ _ _ _ _ _ I E) as [I' U]. split; [|split; simpl].
      + eapply same_order; [exact B | simpl; rewrite U; reflexivity | reflexivity].
      + eexists. split; [apply nth_mid | exact I'].
      + eapply outs; [exact O | right; reflexivity | auto].
    - destruct S as [x [X I]]. rewrite nth_mid in X. injection X as <-. simpl in I.
      destruct (inside_end _ _ _ _ _ _ I E) as [call [U Q]]. exists [(length l, call)]. split; [|split; simpl].
      + eapply new_last; [exact B | exact U | rewrite Q; reflexivity].
      + rewrite map_app; cbn [map snd]; rewrite after_snoc, Q. reflexivity.
      + eapply outs; [exact O | left; exact Logic.I | auto].
  Qed.

  Lemma inv_run : forall calls u n v order, inv calls u order -> threads_run u n v -> exists more, inv calls v (order ++ more).
  Proof.
    intros calls u n v order I R. induction R as [|n x y R IH T].
    - exists []. rewrite app_nil_r. exact I.
    - destruct IH as [more J]. destruct (inv_step _ _ _ _ J T) as [more' K]. exists (more ++ more'). rewrite app_assoc. exact K.
  Qed.
  Lemma inv_start : forall calls, inv calls (start_of calls) [].
  Proof.
    intros calls. split; [split|split]; simpl.
    - apply map_length.
    - intros i cs t C E. rewrite nth_error_map, C in E. injection E as <-. simpl. auto.
    - reflexivity.
    - intros i t E _. rewrite nth_error_map in E. destruct (nth_error calls i); [|discriminate]. injection E as <-. exact I.
  Qed.

  Lemma serial_lemma : forall calls n w, threads_run (start_of calls) n w ->
    exists order, one_by_one calls w order /\
      forall m v, threads_run w m v -> exists more, one_by_one calls v (order ++ more).
  Proof.
    intros calls n w R. destruct (inv_run _ _ _ _ _ (inv_start calls) R) as [order I]. simpl in I.
    exists order. split; [exact (proj1 I)|]. intros m v Q. destruct (inv_run _ _ _ _ _ I Q) as [more J].
    exists more. exact (proj1 J).
  Qed.

  Lemma nth_cut : forall A (l : list A) i x, nth_error l i = Some x -> exists a b, l = a ++ x :: b /\ length a = i.
  Proof. intros. apply nth_error_split in H. destruct H as [a [b [H1 H2]]]. eauto. Qed.

  Lemma progress_lemma : forall calls n w, threads_run (start_of calls) n w -> all_done w \/ exists v, thread_step w v.
  Proof.
    intros calls n w R. destruct (inv_run _ _ _ _ _ (inv_start calls) R) as [order [_ [S O]]]. clear R.
    destruct w as [g h ts]. unfold all_done. simpl in *. destruct h as [i|].
    - destruct S as [t [T I]]. right. apply nth_cut in T. destruct T as [a [b [-> <-]]].
      destruct g as [q c]. destruct t as [td p rs]. simpl in I.
      destruct (statement p c) as [c' [p'|o]] eqn:E.
      + eexists. apply step_inside. exact E.
      + eexists. apply step_leave. exact E.
    - assert (P : forall a b, ts = a ++ b -> Forall (fun t => todo t = [] /\ at_place t = Outside) b \/ exists v, thread_step (mkWorld g None ts) v).
      { intros a b. revert a. induction b as [|t b IH]; intros a E; [left; constructor|].
        destruct (IH (a ++ [t])) as [F|V]; [rewrite <- app_assoc; exact E | | right; exact V].
        assert (Q : is_out (at_place t)) by (apply (O (length a)); [rewrite E; apply nth_mid | discriminate]).
        destruct t as [td p rs]. destruct p as [|c| | | |]; try contradiction.
        - destruct td as [|c td]; [left; constructor; auto|]. right. rewrite E. eexists. apply step_call.
        - right. rewrite E. destruct (poisoned g) eqn:Z.
          + eexists. apply step_poisoned. exact Z.
          + eexists. apply step_lock. exact Z. }
      destruct (P [] ts eq_refl) as [F|V]; [left; exact F | right; exact V].
  Qed.

  (** the steps left of a thread *)
  Definition left_at (p : place) : nat :=
    match p with Outside => 0 | Waiting _ => 4 | AtInput _ => 3 | AtForward _ => 2 | AtPrint _ => 1 | AtTex => 1 end.
  Definition left_of (t : thread) : nat := left_at (at_place t) + 5 * length (todo t).
  Definition left_all (w : world) : nat := list_sum (map left_of (threads w)).
  Lemma left_mid : forall l t r, list_sum (map left_of (l ++ t :: r)) = list_sum (map left_of l) + left_of t + list_sum (map left_of r).
  Proof. intros. rewrite map_app, list_sum_app. simpl. lia. Qed.
  Lemma left_step : forall calls u v order, inv calls u order -> thread_step u v -> left_all v < left_all u.
  Proof.
    intros calls u v order [B [S O]] T. destruct T as [g h l c t rs r | g l c t rs r P | g l c t rs r P | b c c' l t p p' rs r E | b c c' l t p o rs r E];
      unfold left_all; simpl in *; rewrite !left_mid; unfold left_of; simpl.
    - lia.
    - destruct c; simpl; lia.
    - lia.
    - destruct S as [x [X I]]. rewrite nth_mid in X. injection X as <-. destruct I as [_ [_ I]].
      destruct p; simpl in *; try contradiction; try discriminate.
      + injection E as <- <-. simpl. lia.
      + destruct (runner_forward W parse c) as [c1 [[y|e]|k|]]; try discriminate. injection E as <- <-. simpl. lia.
    - destruct S as [x [X I]]. rewrite nth_mid in X. injection X as <-. destruct I as [_ [_ I]].
      destruct p; simpl in *; try contradiction; lia.
  Qed.
  Lemma ends_lemma : forall calls n w, threads_run (start_of calls) n w -> n <= 5 * number calls.
  Proof.
    intros calls n w R. cut (n + left_all w <= left_all (start_of calls)).
    { assert (left_all (start_of calls) = 5 * number calls); [|lia]. unfold left_all, number. simpl. clear.
      induction calls as [|c cs IH]; [reflexivity|].
      change (left_of (mkThread c Outside []) + list_sum (map left_of (map (fun cs => mkThread cs Outside []) cs)) = 5 * (length c + list_sum (map (@length pg_call) cs))).
      rewrite IH. unfold left_of. cbn [left_at at_place todo]. lia. }
    induction R as [|n x y R IH T]; [lia|]. destruct (inv_run _ _ _ _ _ (inv_start calls) R) as [order I].
    pose proof (left_step _ _ _ _ I T). lia.
  Qed.

  (** when all is done, the order has all the calls *)
  Lemma done_lemma : forall calls n w, threads_run (start_of calls) n w -> all_done w ->
    exists order, forall i cs t, nth_error calls i = Some cs -> nth_error (threads w) i = Some t ->
      of_thread i order = cs /\ answers t = of_thread i (combine (map fst order) (pg_run (map snd order) fresh_playground)).
  Proof.
    intros calls n w R D. destruct (serial_lemma _ _ _ R) as [order [[L H] _]]. exists order.
    intros i cs t C T. destruct (H i cs t C T) as [H1 H2]. split; [|exact H2].
    unfold all_done in D. rewrite Forall_forall in D. destruct (D t (nth_error_In _ _ T)) as [D1 D2].
    rewrite D1, D2, app_nil_r in H1. auto.
  Qed.

  Lemma run_trans : forall u n v m w, threads_run u n v -> threads_run v m w -> threads_run u (n + m) w.
  Proof.
    intros u n v m w A B. induction B as [|m x y B IH T]; [rewrite Nat.add_0_r; exact A|].
    rewrite Nat.add_succ_r. econstructor; eassumption.
  Qed.
  Lemma run_step : forall u v m w, thread_step u v -> threads_run v m w -> threads_run u (S m) w.
  Proof. intros u v m w A B. apply (run_trans u 1 v m w); [econstructor; [constructor | exact A] | exact B]. Qed.

  (** a whole call, with no other thread in between *)
  Lemma whole_call : forall g l c t rs r, exists n,
    threads_run (mkWorld g None (l ++ mkThread (c :: t) Outside rs :: r)) n
      (mkWorld (fst (pg_step c g)) None (l ++ mkThread t Outside (rs ++ [snd (pg_step c g)]) :: r)).
  Proof.
    intros g l c t rs r. destruct (poisoned g) eqn:P.
    - exists 2. eapply run_step; [apply step_call|]. eapply run_step; [apply step_poisoned; exact P|].
      replace (pg_step c g) with (g, @Panic str PPoisoned); [constructor|].
      destruct c; simpl; unfold pg_result, pg_result_tex; rewrite P; reflexivity.
    - assert (Q : forall n p b x, inside g p (mkPlayground b x) -> under_way p = [c] -> left_at p <= n ->
        exists m, threads_run (mkWorld (mkPlayground b x) (Some (length l)) (l ++ mkThread t p rs :: r)) m
          (mkWorld (fst (pg_step c g)) None (l ++ mkThread t Outside (rs ++ [snd (pg_step c g)]) :: r))).
      { induction n as [|n IH]; intros p b x I U N.
        - destruct I as [_ [_ I]]. destruct p; simpl in *; try contradiction; lia.
        - destruct (statement p x) as [x' [p'|o]] eqn:E.
          + destruct (inside_on _ _ _ _ _ _ I E) as [I' U'].
            assert (left_at p' < left_at p).
            { destruct I as [_ [_ I]]. destruct p; simpl in *; try contradiction; try discriminate.
              - injection E as <- <-. simpl. lia.
              - destruct (runner_forward W parse x) as [c1 [[y|e]|k|]]; try discriminate. injection E as <- <-. simpl. lia. }
            destruct (IH p' b x' I') as [m M]; [rewrite U'; exact U | lia|].
            exists (S m). eapply run_step; [apply step_inside; exact E | exact M].
          + destruct (inside_end _ _ _ _ _ _ I E) as [call [U' S]].
            rewrite U in U'. injection U' as <-. rewrite S.
            exists 1. eapply run_step; [apply step_leave; exact E | constructor]. }
      destruct g as [b x]. destruct (Q 5 (match c with CallResult s => AtInput s | CallTex => AtTex end) b x) as [m M].
      + destruct c; repeat split; auto.
      + destruct c; reflexivity.
      + destruct c; simpl; lia.
      + exists (S (S m)). eapply run_step; [apply step_call|]. eapply run_step; [apply step_lock; exact P | exact M].
  Qed.

  Definition idle (w : world) : Prop := holder w = None /\ Forall (fun t => at_place t = Outside) (threads w).
  Lemma all_orders : forall calls order w done, idle w -> inv calls w done ->
    Forall (fun x => fst x < length calls) order ->
    (forall i t, nth_error (threads w) i = Some t -> todo t = of_thread i order) ->
    exists n v, threads_run w n v /\ all_done v /\ one_by_one calls v (done ++ order).
  Proof.
    intros calls order. induction order as [|[i c] order IH]; intros w done [D O] I F T.
    - exists 0, w. split; [constructor|]. rewrite app_nil_r. split; [|exact (proj1 I)].
      apply Forall_forall. intros t M. rewrite Forall_forall in O. split; [|exact (O t M)].
      apply In_nth_error in M. destruct M as [i M]. exact (T i t M).
    - apply Forall_inv in F as F1. apply Forall_inv_tail in F. simpl in F1.
      destruct (nth_error (threads w) i) as [t|] eqn:E.
      2:{ apply nth_error_None in E. destruct I as [[L _] _]. lia. }
      pose proof (T i t E) as Tt. unfold of_thread in Tt. simpl in Tt. rewrite Nat.eqb_refl in Tt. simpl in Tt.
      apply nth_cut in E. destruct E as [l [r [E L]]]. destruct w as [g h ts]. simpl in *. subst h ts i.
      assert (P : at_place t = Outside) by (rewrite Forall_forall in O; apply O; apply in_or_app; right; left; reflexivity).
      destruct t as [td p rs]. simpl in *. subst p td.
      destruct (whole_call g l c (map snd (filter (fun x => fst x =? length l) order)) rs r) as [n N].
      destruct I as [B [S Q]]. simpl in S.
      destruct (IH (mkWorld (fst (pg_step c g)) None (l ++ mkThread (map snd (filter (fun x => fst x =? length l) order)) Outside (rs ++ [snd (pg_step c g)]) :: r)) (done ++ [(length l, c)])) as [m [v [M [A H]]]].
      5:{ exists (n + m), v. split; [eapply run_trans; eassumption|]. split; [exact A|].
          rewrite <- app_assoc in H. exact H. }
      + split; [reflexivity|]. simpl. apply Forall_app in O. destruct O as [O1 O2]. apply Forall_app. split; [exact O1|].
        constructor; [reflexivity | exact (Forall_inv_tail O2)].
      + split; [|split; simpl].
        * eapply (new_last calls g None _ _ l c (map snd (filter (fun x => fst x =? length l) order)) (Waiting c) rs).
          -- eapply same_order; [exact B | reflexivity | reflexivity].
          -- reflexivity.
          -- rewrite <- S. reflexivity.
        * rewrite map_app; cbn [map snd]. rewrite after_snoc, <- S. reflexivity.
        * eapply outs; [exact Q | left; exact Logic.I | auto].
      + exact F.
      + intros i t X. simpl in X. destruct (Nat.eq_dec i (length l)) as [->|Z].
        * rewrite nth_mid in X. injection X as <-. reflexivity.
        * rewrite (nth_other _ l _ (mkThread (c :: map snd (filter (fun x => fst x =? length l) order)) Outside rs) r i Z) in X.
          rewrite (T i t X). unfold of_thread. simpl. replace (length l =? i) with false by (symmetry; apply Nat.eqb_neq; lia). reflexivity.
  Qed.
  Lemma any_order_lemma : forall calls order,
    Forall (fun x => fst x < length calls) order -> (forall i cs, nth_error calls i = Some cs -> of_thread i order = cs) ->
    exists n w, threads_run (start_of calls) n w /\ all_done w /\ one_by_one calls w order.
  Proof.
    intros calls order F H. apply (all_orders calls order (start_of calls) []).
    - split; [reflexivity|]. simpl. apply Forall_forall. intros t M. apply in_map_iff in M. destruct M as [cs [<- _]]. reflexivity.
    - apply inv_start.
    - exact F.
    - intros i t E. simpl in E. rewrite nth_error_map in E. destruct (nth_error calls i) as [cs|] eqn:C; [|discriminate].
      injection E as <-. simpl. symmetry. apply H. exact C.
  Qed.

  Lemma exists_mid : forall (P : thread -> Prop) l t r, Exists P (l ++ t :: r) <-> P t \/ Exists P (l ++ r).
  Proof. intros. rewrite !Exists_app, Exists_cons. tauto. Qed.
  Definition sound (w : world) : Prop := some_panic w -> holder w = None /\ poisoned (shared w) = true.
  Lemma sound_step : forall u v, sound u -> thread_step u v -> sound v.
  Proof.
    intros u v H T. unfold sound, some_panic in *.
    destruct T as [g h l c t rs r | g l c t rs r P | g l c t rs r P | b c c' l t p p' rs r E | b c c' l t p o rs r E]; simpl in *;
      rewrite exists_mid in *; simpl in *; intros X.
    - auto.
    - destruct (H X) as [_ Q]. congruence.
    - auto.
    - destruct (H X) as [Q _]. discriminate.
    - rewrite Exists_app in X. destruct (is_ret o) eqn:R; [|auto].
      exfalso. destruct X as [[X|X]|X].
      + destruct (H (or_introl X)). discriminate.
      + inversion X as [? ? Y|? ? Y]; [congruence | inversion Y].
      + destruct (H (or_intror X)). discriminate.
  Qed.
  Lemma sound_run : forall u n v, sound u -> threads_run u n v -> sound v.
  Proof. intros u n v H R. induction R; [exact H | eapply sound_step; eassumption]. Qed.
  Lemma sound_start : forall calls, sound (start_of calls).
  Proof.
    intros calls X. exfalso. unfold some_panic in X. simpl in X. rewrite Exists_exists in X. destruct X as [t [I Y]].
    apply in_map_iff in I. destruct I as [cs [<- _]]. inversion Y.
  Qed.
  Definition same_but (t u : thread) : Prop := exists more, answers u = answers t ++ more /\ Forall (eq (Panic PPoisoned)) more.
  Lemma same_refl : forall l, Forall2 same_but l l.
  Proof. induction l; constructor; auto. exists []. rewrite app_nil_r. auto. Qed.
  Lemma same_trans : forall a b c, Forall2 same_but a b -> Forall2 same_but b c -> Forall2 same_but a c.
  Proof.
    intros a b c H. revert c. induction H as [|x y a b [m [M F]] H IH]; intros c K; inversion K as [|? z ? c' [m' [M' F']] K']; subst; constructor; auto.
    exists (m ++ m'). rewrite M', M, <- app_assoc. split; [reflexivity | apply Forall_app; auto].
  Qed.
  Lemma same_mid : forall l t u r, same_but t u -> Forall2 same_but (l ++ t :: r) (l ++ u :: r).
  Proof. intros. apply Forall2_app; [apply same_refl|]. constructor; [assumption | apply same_refl]. Qed.
  Lemma panic_step : forall u v, sound u -> some_panic u -> thread_step u v -> Forall2 same_but (threads u) (threads v) /\ some_panic v.
  Proof.
    intros u v H X T. pose proof (H X) as [HN PO]. unfold some_panic in *.
    destruct T as [g h l c t rs r | g l c t rs r P | g l c t rs r P | b c c' l t p p' rs r E | b c c' l t p o rs r E]; simpl in *; try discriminate; try congruence.
    - split; [|rewrite exists_mid in *; exact X]. apply same_mid. exists []. rewrite app_nil_r. auto.
    - split; [apply same_mid; exists [Panic PPoisoned]; auto|]. rewrite exists_mid in *. simpl in *. rewrite Exists_app. tauto.
  Qed.
  Lemma panic_lemma : forall calls n w m v, threads_run (start_of calls) n w -> some_panic w -> threads_run w m v ->
    forall i t u, nth_error (threads w) i = Some t -> nth_error (threads v) i = Some u ->
    exists more, answers u = answers t ++ more /\ Forall (eq (Panic PPoisoned)) more.
  Proof.
    intros calls n w m v R X Q. pose proof (sound_run _ _ _ (sound_start calls) R) as S.
    assert (K : Forall2 same_but (threads w) (threads v) /\ some_panic v).
    { induction Q as [|m x y Q IH T]; [split; [apply same_refl | exact X]|].
      destruct (panic_step x y (sound_run _ _ _ S Q) (proj2 IH) T) as [A B]. split; [eapply same_trans; [exact (proj1 IH) | exact A] | exact B]. }
    destruct K as [K _]. clear - K. induction K as [|x y a b H K IH]; intros [|i] t u T U; simpl in *; try discriminate.
    - injection T as <-. injection U as <-. exact H.
    - exact (IH i t u T U).
  Qed.

  Lemma pair_lemma : forall s1 s2 o1 o2 d1 d2 t2,
    evaluates_to W parse s1 o1 -> display o1 = Ret d1 -> evaluates_to W parse s2 o2 -> display o2 = Ret d2 -> to_tex o2 = Ret t2 ->
    exists n w t, threads_run (start_of [[CallResult s1; CallTex]; [CallResult s2]]) n w /\ all_done w /\
      nth_error (threads w) 0 = Some t /\ answers t = [Ret d1; Ret t2].
  Proof.
    intros s1 s2 o1 o2 d1 d2 t2 E1 D1 E2 D2 T2.
    assert (A1 : pg_run [CallResult s1] fresh_playground = [Ret d1]).
    { destruct (pg_next_result W parse debug [] s1 (Forall_nil _)) as [r [R [Q _]]]. simpl app in R. rewrite R, (Q o1 d1 E1 D1). reflexivity. }
    assert (A2 : pg_run [CallResult s1; CallResult s2] fresh_playground = [Ret d1; Ret d2]).
    { destruct (pg_next_result W parse debug [CallResult s1] s2) as [r [R [Q _]]]; [rewrite A1; repeat constructor|].
      simpl app in R at 1. rewrite R, A1, (Q o2 d2 E2 D2). reflexivity. }
    assert (A3 : pg_run [CallResult s1; CallResult s2; CallTex] fresh_playground = [Ret d1; Ret d2; Ret t2]).
    { destruct (pg_next_tex W parse debug [CallResult s1; CallResult s2]) as [r [R [_ Q]]]; [rewrite A2; repeat constructor|].
      simpl app in R at 1. rewrite R, A2. destruct (Q [s1] s2 eq_refl) as [Q1 _]. rewrite (Q1 o2 E2), T2. reflexivity. }
    destruct (any_order_lemma [[CallResult s1; CallTex]; [CallResult s2]] [(0, CallResult s1); (1, CallResult s2); (0, CallTex)]) as [n [w [R [D [L H]]]]].
    - repeat constructor.
    - intros [|[|i]] cs C; simpl in C; [injection C as <-; reflexivity | injection C as <-; reflexivity | destruct i; discriminate].
    - destruct (nth_error (threads w) 0) as [t|] eqn:T; [|apply nth_error_None in T; simpl in L; lia].
      exists n, w, t. split; [exact R|]. split; [exact D|]. split; [exact T|].
      destruct (H 0 _ t eq_refl T) as [_ Q]. rewrite Q. cbn [map snd fst]. rewrite A3. reflexivity.
  Qed.
End ProofThreads.
