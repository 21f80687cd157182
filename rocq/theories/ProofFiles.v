(** Calls of parse_file at the same time. *)
From Verif Require Import Base Ast SmError ParseFile ParseFiles SpecSession SpecFiles.
From Verif Require Import ProofAst ProofExport.
Local Open Scope nat_scope.

Lemma update_here : forall f p c, update f p c p = Some c.
Proof. intros. unfold update. rewrite str_eqb_refl. reflexivity. Qed.
Lemma update_there : forall f p c q, q <> p -> update f p c q = f q.
Proof. intros f p c q H. unfold update. rewrite (proj2 (str_eqb_neq q p) H). reflexivity. Qed.
Lemma overwrite_end : forall c part, overwrite c (length c) part = c ++ part.
Proof. intros c part. unfold overwrite. rewrite firstn_all, Nat.sub_diag, skipn_all2 by lia. cbn. rewrite app_nil_r. reflexivity. Qed.
Lemma overwrite_none : forall c o, o <= length c -> overwrite c o [] = c.
Proof. intros c o H. unfold overwrite. replace (o - length c) with 0 by lia. cbn [repeat app length]. rewrite Nat.add_0_r. apply firstn_skipn. Qed.
Lemma overwrite_length : forall c o part, length (overwrite c o part) = Nat.max (length c) (o + length part).
Proof. intros c o part. unfold overwrite. rewrite !app_length, firstn_length, repeat_length, skipn_length. lia. Qed.
Lemma overwrite_in : forall c o part k, o <= k < o + length part -> nth_error (overwrite c o part) k = nth_error part (k - o).
Proof.
  intros c o part k H. unfold overwrite. rewrite nth_error_app2 by (rewrite firstn_length; lia). rewrite firstn_length.
  rewrite nth_error_app2 by (rewrite repeat_length; lia). rewrite repeat_length. rewrite nth_error_app1 by lia. f_equal. lia.
Qed.
Lemma nth_firstn : forall A (l : list A) n k, k < n -> nth_error (firstn n l) k = nth_error l k.
Proof. induction l as [|x l IH]; intros [|n] [|k] H; try lia; try reflexivity. cbn. apply IH. lia. Qed.
Lemma nth_skipn : forall A (l : list A) n k, nth_error (skipn n l) k = nth_error l (n + k).
Proof. induction l as [|x l IH]; intros [|n] k; try reflexivity; [destruct k; reflexivity|]. cbn. apply IH. Qed.
Lemma overwrite_out : forall c o part k, k < length c -> k < o \/ o + length part <= k -> nth_error (overwrite c o part) k = nth_error c k.
Proof.
  intros c o part k H Q. unfold overwrite. destruct (Nat.lt_ge_cases k o) as [L|L].
  - rewrite nth_error_app1 by (rewrite firstn_length; lia). apply nth_firstn, L.
  - rewrite nth_error_app2 by (rewrite firstn_length; lia). rewrite firstn_length, nth_error_app2 by (rewrite repeat_length; lia). rewrite repeat_length, nth_error_app2 by lia.
    rewrite nth_skipn. f_equal. lia.
Qed.
Lemma nth_middle : forall A (l r : list A) x i y, nth_error (l ++ x :: r) i = Some y -> (i = length l /\ y = x) \/ (i <> length l /\ forall z, nth_error (l ++ z :: r) i = Some y).
Proof.
  intros A l r x i y H. destruct (Nat.lt_trichotomy i (length l)) as [L|[->|L]].
  - right. split; [lia|]. intro z. rewrite nth_error_app1 in * by lia. exact H.
  - left. split; [reflexivity|]. rewrite nth_error_app2, Nat.sub_diag in H by lia. cbn in H. congruence.
  - right. split; [lia|]. intro z. rewrite nth_error_app2 in * by lia. destruct (i - length l) as [|k] eqn:E; [lia|]. exact H.
Qed.
Lemma nth_here : forall A (l r : list A) x, nth_error (l ++ x :: r) (length l) = Some x.
Proof. intros. rewrite nth_error_app2, Nat.sub_diag by lia. reflexivity. Qed.

Lemma nth_error_ext : forall A (l m : list A), (forall k, nth_error l k = nth_error m k) -> l = m.
Proof.
  induction l as [|x l IH]; intros [|y m] H; [reflexivity|specialize (H 0); discriminate|specialize (H 0); discriminate|]. f_equal; [specialize (H 0); cbn in H; congruence|].
  apply IH. intro k. exact (H (S k)).
Qed.

Section Files.
  Variable decode : list byte -> option str.
  Variable parse : str -> outcome (sm_result ast).
  Variable bytes : ast -> list byte.
  Notation jstep := (job_step decode parse bytes).
  Notation jreach := (jobs_reach decode parse bytes).
  Notation reach := (pf_reach decode parse bytes).
  Notation parses := (parse_succeeds decode parse).
  Definition args_of (js : list job) : list (path * path) := map (fun j => (job_from j, job_to j)) js.

  Lemma step_paths : forall from to f f' p p' q, jstep from to (f, p) (f', p') -> q <> to -> f' q = f q.
  Proof. intros from to f f' p p' q H Hq. inversion H; subst; try reflexivity; apply update_there, Hq. Qed.
  Lemma jobs_args : forall s t, jobs_step decode parse bytes s t -> args_of (snd t) = args_of (snd s).
  Proof. intros s t [f f' from to p p' l r _]. cbn [snd]. unfold args_of. rewrite !map_app. reflexivity. Qed.
  Lemma reach_args : forall f0 args s, jreach (f0, calls args) s -> args_of (snd s) = args.
  Proof.
    intros f0 args s H. induction H as [|t u _ IH H].
    - cbn [snd]. unfold args_of, calls. rewrite map_map. cbn. rewrite <- (map_id args) at 2. apply map_ext. intros []; reflexivity.
    - rewrite (jobs_args _ _ H). exact IH.
  Qed.
  Lemma other_paths : forall f0 args f js q, jreach (f0, calls args) (f, js) -> ~ In q (map snd args) -> f q = f0 q.
  Proof.
    intros f0 args f js q H. remember (f, js) as s eqn:E. revert f js E. induction H as [|t u R IH H]; intros f js E Hq; [injection E as -> _; reflexivity|].
    pose proof (reach_args _ _ _ R) as A. destruct H as [g f' from to p p' l r H]. injection E as -> _. cbn [snd] in A.
    rewrite (step_paths _ _ _ _ _ _ q H); [exact (IH g _ eq_refl Hq)|]. intros ->. apply Hq. rewrite <- A. unfold args_of. rewrite map_map, map_app. apply in_or_app. right. left. reflexivity.
  Qed.

  (** ** Alone *)
  Definition alike (f0 : fs) (a : path * path) (f : fs) (p : job_pc) : Prop :=
    exists g pc, reach (fst a) (snd a) (f0, AtRead) (g, pc) /\ same_stage p pc /\ f (snd a) = g (snd a) /\ f (fst a) = g (fst a) /\
      match p with Reading got => exists more, f0 (fst a) = Some (got ++ more) | Writing gone _ => f (snd a) = Some gone | _ => True end.
  Lemma reach_inv : forall from to f0 f pc, reach from to (f0, AtRead) (f, pc) -> pf_inv decode parse bytes from to f0 (f, pc).
  Proof. intros. apply pf_reach_inv. assumption. Qed.
  Lemma early : forall from to f0 g pc, reach from to (f0, AtRead) (g, pc) -> match pc with AtRead | AtParse _ | AtCreate _ => g = f0 | _ => True end.
  Proof. intros from to f0 g pc H. apply reach_inv in H. destruct H as [[-> H]|H]; [destruct pc; auto|]. destruct H as (c & t & a & w & r & _ & _ & _ & _ & _ & _ & H). destruct pc; auto; contradiction. Qed.
  Lemma alike_step : forall f0 a f p f' p', alike f0 a f p -> jstep (fst a) (snd a) (f, p) (f', p') -> alike f0 a f' p'.
  Proof.
    intros f0 [from to] f p f' p' (g & pc & R & St & Et & Ef & X) H. cbn [fst snd] in *. pose proof (early _ _ _ _ _ R) as Q. inversion H; subst; inversion St; subst; try (cbn in Q; subst g).
    - exists f0, AtRead. repeat split; try assumption; [constructor|]. cbn [fst]. exists c. cbn. congruence.
    - exists f0, (Finished (Ret (Err (SMIOError e)))). repeat split; try assumption; [|constructor]. eapply reach_step; [exact R|apply step_read_fail].
    - exists f0, AtRead. repeat split; try assumption; [constructor|]. cbn [fst]. destruct X as [m0 X]. exists more. rewrite X. f_equal.
      assert (C : c = got ++ m0) by congruence. subst c. rewrite skipn_app, skipn_all, Nat.sub_diag in H5. cbn in H5. subst m0. rewrite app_assoc. reflexivity.
    - exists f0, (Finished (Ret (Err (SMIOError e)))). repeat split; try assumption; [|constructor]. eapply reach_step; [exact R|apply step_read_fail].
    - destruct X as [m0 X]. assert (C : c = got ++ m0) by congruence. subst c. match goal with L : length (got ++ m0) <= _ |- _ => rewrite app_length in L; destruct m0; [|cbn in L; lia] end. rewrite app_nil_r in *.
      exists f0, (AtParse text). repeat split; try assumption; [|constructor]. eapply reach_step; [exact R|econstructor; eassumption].
    - destruct X as [m0 X]. assert (C : c = got ++ m0) by congruence. subst c. match goal with L : length (got ++ m0) <= _ |- _ => rewrite app_length in L; destruct m0; [|cbn in L; lia] end. rewrite app_nil_r in *.
      exists f0, (Finished (Ret (Err (SMIOError e)))). repeat split; try assumption; [|constructor]. eapply reach_step; [exact R|eapply step_read_invalid; eassumption].
    - exists f0, (AtCreate a). repeat split; try assumption; [|constructor]. eapply reach_step; [exact R|constructor; assumption].
    - exists f0, (Finished (Ret (Err e))). repeat split; try assumption; [|constructor]. eapply reach_step; [exact R|constructor; assumption].
    - exists f0, (Finished (Panic k)). repeat split; try assumption; [|constructor]. eapply reach_step; [exact R|constructor; assumption].
    - exists (update f0 to []), (AtWrite (bytes a)). split; [eapply reach_step; [exact R|constructor]|]. split; [constructor|]. cbn [fst snd]. rewrite !update_here. split; [reflexivity|]. split; [|reflexivity].
      unfold update. destruct (str_eqb from to); [reflexivity|exact Ef].
    - exists f0, (Finished (Ret (Err (SMIOError e)))). repeat split; try assumption; [|constructor]. eapply reach_step; [exact R|apply step_create_fail].
    - assert (c = gone) by congruence. subst c. exists (update g to (gone ++ part)), (AtWrite left). split; [eapply reach_step; [exact R|constructor; [congruence|assumption]]|]. split; [constructor|].
      cbn [fst snd]. rewrite overwrite_end, !update_here. split; [reflexivity|]. split; [|reflexivity]. unfold update. destruct (str_eqb from to); [reflexivity|exact Ef].
    - exists g, (Finished (Ret (Err (SMIOError e)))). repeat split; try assumption; [|constructor]. eapply reach_step; [exact R|constructor; assumption].
    - exists g, (Finished (Ret (Ok tt))). repeat split; try assumption; [|constructor]. eapply reach_step; [exact R|apply step_write_done].
  Qed.
  Lemma alike_other : forall f0 a f f' p, alike f0 a f p -> f' (snd a) = f (snd a) -> f' (fst a) = f (fst a) -> alike f0 a f' p.
  Proof.
    intros f0 a f f' p (g & pc & R & St & Et & Ef & X) H1 H2. exists g, pc. repeat split; try assumption; try congruence. destruct p; auto. congruence.
  Qed.
  Lemma apart_alike : forall f0 args f js, apart args -> jreach (f0, calls args) (f, js) ->
    forall i a j, nth_error args i = Some a -> nth_error js i = Some j -> alike f0 a f (job_at j).
  Proof.
    intros f0 args f js A H. remember (f, js) as s eqn:E. revert f js E. induction H as [|t u R IH H]; intros f js E i a j Ha Hj.
    - injection E as <- <-. unfold calls in Hj. rewrite nth_error_map, Ha in Hj. injection Hj as <-. exists f0, AtRead. repeat split; constructor.
    - pose proof (reach_args _ _ _ R) as B. destruct H as [g f' from to p p' l r H]. injection E as -> <-. cbn [snd] in B. specialize (IH g _ eq_refl).
      assert (Q : nth_error args (length l) = Some (from, to)).
      { rewrite <- B. unfold args_of. rewrite nth_error_map, nth_here. reflexivity. }
      apply nth_middle in Hj as [[-> ->]|[N Hj]].
      + assert (a = (from, to)) by congruence. subst a. cbn [job_at]. apply (alike_step f0 (from, to) g p f p'); [|exact H]. exact (IH _ _ _ Q (nth_here _ _ _ _)).
      + destruct (A _ _ _ _ (not_eq_sym N) Q Ha) as [A1 A2]. cbn [snd] in A1, A2. apply (alike_other f0 a g f); [exact (IH _ _ _ Ha (Hj _))| |]; apply (step_paths _ _ _ _ _ _ _ H); congruence.
  Qed.
  Lemma as_alone : forall f0 args f js i from to j, apart args -> jreach (f0, calls args) (f, js) -> nth_error args i = Some (from, to) -> nth_error js i = Some j ->
    exists g pc, reach from to (f0, AtRead) (g, pc) /\ same_stage (job_at j) pc /\ f to = g to.
  Proof.
    intros f0 args f js i from to j A H Ha Hj. destruct (apart_alike _ _ _ _ A H _ _ _ Ha Hj) as (g & pc & R & St & Et & _). exists g, pc. auto.
  Qed.
  Lemma apart_done : forall f0 args f js, apart args -> jreach (f0, calls args) (f, js) -> Forall succeeded js ->
    forall from to, In (from, to) args -> exists a, parses from f0 a /\ f to = Some (bytes a).
  Proof.
    intros f0 args f js A H D from to I. apply In_nth_error in I as [i I]. pose proof (reach_args _ _ _ H) as B. cbn [snd] in B.
    assert (J : exists j, nth_error js i = Some j).
    { rewrite <- B in I. unfold args_of in I. rewrite nth_error_map in I. destruct (nth_error js i) as [j|]; [exists j; reflexivity|discriminate]. }
    destruct J as [j J]. destruct (as_alone _ _ _ _ _ _ _ _ A H I J) as (g & pc & R & St & E). rewrite Forall_forall in D. pose proof (D j (nth_error_In _ _ J)) as S. unfold succeeded in S. rewrite S in St. inversion St; subst.
    destruct (pf_success _ _ _ _ _ _ _ R) as (a & P & Q). exists a. split; [exact P|congruence].
  Qed.

  Lemma jobs_trans : forall s t u, jreach s t -> jreach t u -> jreach s u.
  Proof. intros s t u H H'. induction H' as [|v w _ IH Hs]; [exact H|]. eapply jobs_more; [exact IH|exact Hs]. Qed.
  Lemma jobs_single : forall f f' from to p p' l r, jstep from to (f, p) (f', p') -> jreach (f, l ++ mkJob from to p :: r) (f', l ++ mkJob from to p' :: r).
  Proof. intros. eapply jobs_more; [apply jobs_refl|]. constructor. assumption. Qed.
  Lemma one_step : forall f f' from to p p', jstep from to (f, p) (f', p') -> jreach (f, [mkJob from to p]) (f', [mkJob from to p']).
  Proof. intros f f' from to p p' H. exact (jobs_single _ _ _ _ _ _ [] [] H). Qed.
  Lemma alone_as : forall f0 from to g pc, reach from to (f0, AtRead) (g, pc) ->
    exists p, jreach (f0, calls [(from, to)]) (g, [mkJob from to p]) /\ same_stage p pc.
  Proof.
    intros f0 from to g pc H. assert (Q : exists p, jreach (f0, calls [(from, to)]) (g, [mkJob from to p]) /\ same_stage p pc /\ (pc = AtRead -> p = Opening) /\ match p with Writing gone _ => g to = Some gone | _ => True end).
    2: { destruct Q as (p & R & S & _). exists p. auto. }
    remember (g, pc) as s eqn:E. revert g pc E. induction H as [|t u R IH H]; intros g pc E.
    - injection E as <- <-. exists Opening. split; [apply jobs_refl|]. repeat split; constructor.
    - destruct H; injection E as <- <-; destruct (IH _ _ eq_refl) as (p & R' & S & P & X); inversion S; subst;
        try (specialize (P eq_refl); try discriminate P; clear P; subst);
        try (match goal with |- exists p, jreach _ (?f', _) /\ same_stage p ?pc /\ _ =>
          match pc with
          | AtCreate ?a => exists (Creating a)
          | Finished ?r => exists (Over r)
          | AtWrite (bytes ?a) => exists (Writing [] (bytes a))
          end end; split; [eapply jobs_trans; [exact R'|]; eapply one_step; econstructor; eassumption|]; split; [constructor|]; split; [discriminate|]; try exact I; apply update_here).
      + exists (Parsing text). split; [|split; [constructor|split; [discriminate|exact I]]]. eapply jobs_trans; [exact R'|].
        eapply jobs_trans; [eapply one_step; econstructor; eassumption|]. destruct c as [|x c].
        * eapply one_step. eapply job_read_all; [eassumption|cbn; lia|assumption].
        * eapply jobs_trans; [eapply one_step; eapply job_read with (part := x :: c) (more := []); [eassumption|cbn; rewrite app_nil_r; reflexivity|discriminate]|].
          eapply one_step. eapply job_read_all; [eassumption|cbn; lia|assumption].
      + exists (Writing (gone ++ part) rest). split; [|split; [constructor|split; [discriminate|]]].
        * eapply jobs_trans; [exact R'|]. eapply one_step. assert (old = gone) by congruence. subst old. replace (update f to (gone ++ part)) with (update f to (overwrite gone (length gone) part)) by (rewrite overwrite_end; reflexivity). constructor; assumption.
        * rewrite update_here. congruence.
  Qed.

  (** ** Schedules *)
  Lemma two_first : forall f f' from to p p' j, jstep from to (f, p) (f', p') -> jreach (f, [mkJob from to p; j]) (f', [mkJob from to p'; j]).
  Proof. intros f f' from to p p' j H. exact (jobs_single _ _ _ _ _ _ [] [j] H). Qed.
  Lemma two_second : forall f f' from to p p' j, jstep from to (f, p) (f', p') -> jreach (f, [j; mkJob from to p]) (f', [j; mkJob from to p']).
  Proof. intros f f' from to p p' j H. exact (jobs_single _ _ _ _ _ _ [j] [] H). Qed.
  Lemma read_whole : forall f from to c text l r, f from = Some c -> decode c = Some text ->
    jreach (f, l ++ mkJob from to Opening :: r) (f, l ++ mkJob from to (Parsing text) :: r).
  Proof.
    intros f from to c text l r H D. eapply jobs_trans; [eapply jobs_single, job_open; exact H|]. destruct c as [|x c].
    - eapply jobs_single, job_read_all; [exact H|cbn; lia|exact D].
    - eapply jobs_trans; [eapply jobs_single, job_read with (part := x :: c) (more := []); [exact H|cbn; rewrite app_nil_r; reflexivity|discriminate]|].
      eapply jobs_single, job_read_all; [exact H|cbn; lia|exact D].
  Qed.
  Lemma ready : forall f from to a l r, parses from f a -> jreach (f, l ++ mkJob from to Opening :: r) (f, l ++ mkJob from to (Creating a) :: r).
  Proof. intros f from to a l r (c & text & H & D & P). eapply jobs_trans; [eapply read_whole; eassumption|]. eapply jobs_single, job_parse_ok, P. Qed.
  Lemma write_part : forall f from to c gone part left l r, f to = Some c -> length gone <= length c ->
    exists f', jreach (f, l ++ mkJob from to (Writing gone (part ++ left)) :: r) (f', l ++ mkJob from to (Writing (gone ++ part) left) :: r) /\ f' to = Some (overwrite c (length gone) part) /\
      forall q, q <> to -> f' q = f q.
  Proof.
    intros f from to c gone part left l r H L. destruct part as [|x part].
    - exists f. rewrite app_nil_r, overwrite_none by exact L. repeat split; try assumption. apply jobs_refl.
    - eexists. split; [eapply jobs_single, job_write; [exact H|discriminate]|]. split; [apply update_here|]. intros q Hq. apply update_there, Hq.
  Qed.
  Lemma overwrite_start : forall c part, overwrite c 0 part = part ++ skipn (length part) c.
  Proof. intros c part. unfold overwrite. reflexivity. Qed.
  Lemma mixed : forall f0 from1 from2 to a1 a2, parses from1 f0 a1 -> parses from2 f0 a2 ->
    exists f js, jreach (f0, calls [(from1, to); (from2, to)]) (f, js) /\ Forall succeeded js /\ f to = Some (bytes a2 ++ skipn (length (bytes a2)) (bytes a1)).
  Proof.
    intros f0 from1 from2 to a1 a2 P1 P2. unfold calls. cbn [map fst snd].
    pose proof (ready f0 from1 to a1 [] [mkJob from2 to Opening] P1) as R1. cbn [app] in R1. pose proof (ready f0 from2 to a2 [mkJob from1 to (Creating a1)] [] P2) as R2. cbn [app] in R2.
    pose proof (two_first _ _ from1 to _ _ (mkJob from2 to (Creating a2)) (job_create decode parse bytes from1 to f0 a1)) as R3.
    pose proof (two_second _ _ from2 to _ _ (mkJob from1 to (Writing [] (bytes a1))) (job_create decode parse bytes from2 to (update f0 to []) a2)) as R4.
    set (f1 := update (update f0 to []) to []) in *. assert (E1 : f1 to = Some []) by apply update_here.
    destruct (write_part f1 from1 to [] [] (bytes a1) [] [] [mkJob from2 to (Writing [] (bytes a2))] E1 (le_n 0)) as (f2 & R5 & E2 & _). cbn [app length] in R5. rewrite app_nil_r in R5.
    rewrite overwrite_start, skipn_nil, app_nil_r in E2.
    destruct (write_part f2 from2 to (bytes a1) [] (bytes a2) [] [mkJob from1 to (Writing (bytes a1) [])] [] E2 (Nat.le_0_l _)) as (f3 & R6 & E3 & _). cbn [app length] in R6. rewrite app_nil_r in R6.
    rewrite overwrite_start in E3. exists f3, [mkJob from1 to (Over (Ret (Ok tt))); mkJob from2 to (Over (Ret (Ok tt)))]. split; [|split; [repeat constructor|exact E3]].
    eapply jobs_trans; [exact R1|]. eapply jobs_trans; [exact R2|]. eapply jobs_trans; [exact R3|]. eapply jobs_trans; [exact R4|]. eapply jobs_trans; [exact R5|]. eapply jobs_trans; [exact R6|].
    eapply jobs_trans; [eapply two_first, job_write_done|]. eapply two_second, job_write_done.
  Qed.
  Lemma torn : forall f0 from1 middle to a u v text, parses from1 f0 a -> bytes a = u ++ v -> decode u = Some text ->
    exists f js, jreach (f0, calls [(from1, middle); (middle, to)]) (f, js) /\ f middle = Some (bytes a) /\ map job_at js = [Over (Ret (Ok tt)); Parsing text].
  Proof.
    intros f0 from1 middle to a u v text P B D. unfold calls. cbn [map fst snd].
    pose proof (ready f0 from1 middle a [] [mkJob middle to Opening] P) as R1. cbn [app] in R1.
    pose proof (two_first _ _ from1 middle _ _ (mkJob middle to Opening) (job_create decode parse bytes from1 middle f0 a)) as R2. rewrite B in R2.
    set (f1 := update f0 middle []) in *. assert (E1 : f1 middle = Some []) by apply update_here.
    destruct (write_part f1 from1 middle [] [] u v [] [mkJob middle to Opening] E1 (le_n 0)) as (f2 & R3 & E2 & _). cbn [app length] in R3. rewrite overwrite_start, skipn_nil, app_nil_r in E2.
    pose proof (read_whole f2 middle to u text [mkJob from1 middle (Writing u v)] [] E2 D) as R4. cbn [app] in R4.
    destruct (write_part f2 from1 middle u u v [] [] [mkJob middle to (Parsing text)] E2 (le_n _)) as (f3 & R5 & E3 & _). cbn [app] in R5. rewrite app_nil_r in R5. rewrite overwrite_end in E3.
    exists f3, [mkJob from1 middle (Over (Ret (Ok tt))); mkJob middle to (Parsing text)]. split; [|split; [rewrite B; exact E3|reflexivity]].
    eapply jobs_trans; [exact R1|]. eapply jobs_trans; [exact R2|]. eapply jobs_trans; [exact R3|]. eapply jobs_trans; [exact R4|]. eapply jobs_trans; [exact R5|]. eapply two_first, job_write_done.
  Qed.

  (** ** The same output *)
  Section Same.
    Variable f0 : fs.
    Variable t : path.
    Variable w : list byte.
    Definition sends (a : path * path) : Prop := snd a = t /\ fst a <> t /\ exists b, parses (fst a) f0 b /\ bytes b = w.
    Definition on_way (from : path) (p : job_pc) : Prop :=
      match p with
      | Opening => True
      | Reading got => exists more, f0 from = Some (got ++ more)
      | Parsing text => exists c, f0 from = Some c /\ decode c = Some text
      | Creating b => bytes b = w
      | Writing gone after => gone ++ after = w
      | Over _ => True
      end.
    Definition holds (f : fs) (n : nat) : Prop := exists c, f t = Some c /\ length c <= length w /\ forall k, k < n -> nth_error c k = nth_error w k.
    Definition leads (f : fs) (p : job_pc) : Prop :=
      match p with Writing gone _ => holds f (length gone) | Over (Ret (Ok _)) => holds f (length w) | Over _ => True | _ => False end.
    Definition before (p : job_pc) : Prop := match p with Writing _ _ | Over (Ret (Ok _)) => False | _ => True end.
    Definition good (f : fs) (js : list job) : Prop :=
      (forall q, q <> t -> f q = f0 q) /\ Forall (fun j => on_way (job_from j) (job_at j)) js /\
      (Forall (fun j => before (job_at j)) js \/ Exists (fun j => leads f (job_at j)) js).
    Lemma holds_write : forall f c n gone part left, f t = Some c -> gone ++ part ++ left = w -> holds f n -> n <= length c -> holds (update f t (overwrite c (length gone) part)) n.
    Proof.
      intros f c n gone part left E W (c' & E' & L & H) N. assert (c' = c) by congruence. subst c'. exists (overwrite c (length gone) part). split; [apply update_here|]. split.
      - rewrite overwrite_length. apply (f_equal (@length byte)) in W. rewrite !app_length in W. lia.
      - intros k K. destruct (Nat.lt_ge_cases k (length gone)) as [K1|K1]; [rewrite overwrite_out by lia; auto|]. destruct (Nat.lt_ge_cases k (length gone + length part)) as [K2|K2].
        + rewrite overwrite_in by lia. rewrite <- W, nth_error_app2 by lia. rewrite nth_error_app1 by lia. reflexivity.
        + rewrite overwrite_out by lia. auto.
    Qed.
    Lemma holds_far : forall f c n, f t = Some c -> holds f n -> n <= length w -> n <= length c.
    Proof.
      intros f c n E (c' & E' & L & H) N. assert (c' = c) by congruence. subst c'. destruct (Nat.le_gt_cases n (length c)) as [Q|Q]; [exact Q|exfalso].
      specialize (H (length c) Q). rewrite (proj2 (nth_error_None c (length c)) (le_n _)) in H. symmetry in H. apply nth_error_None in H. lia.
    Qed.
    Lemma good_step : forall f js f' js', Forall sends (args_of js) -> good f js -> jobs_step decode parse bytes (f, js) (f', js') -> good f' js'.
    Proof.
      intros f js f' js' A (Hq & Hw & Hl) H. remember (f, js) as s eqn:Es. remember (f', js') as s' eqn:Es'. destruct H as [g g' from to p p' l r H]. injection Es as -> <-. injection Es' as -> <-.
      unfold args_of in A. rewrite map_app in A. apply Forall_app in A as [Al A]. inversion A as [|? ? (T & Nf & b & Pb & Wb) Ar]; subst. cbn [fst snd job_from job_to] in *. subst to.
      apply Forall_app in Hw as [Wl Wr]. inversion Wr as [|? ? Wp Wr']; subst. cbn [job_from job_at] in Wp.
      assert (Q1 : forall q, q <> t -> f' q = f0 q) by (intros q Q; rewrite (step_paths _ _ _ _ _ _ q H Q); apply Hq, Q).
      assert (W1 : on_way from p').
      { pose proof (Hq from Nf) as F. inversion H; subst; cbn [on_way] in *; try exact I.
        - exists c. cbn. congruence.
        - destruct Wp as [m0 X]. exists more. assert (C : c = got ++ m0) by congruence. subst c. match goal with S : skipn _ _ = _ |- _ => rewrite skipn_app, skipn_all, Nat.sub_diag in S; cbn in S; subst m0 end. rewrite <- app_assoc. exact X.
        - destruct Wp as [m0 X]. assert (C : c = got ++ m0) by congruence. subst c. match goal with L : length (got ++ m0) <= _ |- _ => rewrite app_length in L; destruct m0; [|cbn in L; lia] end. rewrite app_nil_r in *. exists got. auto.
        - destruct Wp as (c & X1 & X2). destruct Pb as (c' & text' & Y1 & Y2 & Y3). congruence.
        - assumption.
        - rewrite <- app_assoc. exact Wp. }
      split; [exact Q1|]. split; [apply Forall_app; split; [exact Wl|constructor; assumption]|].
      assert (K : match p with Creating _ => True | _ => before p -> before p' end) by (destruct p; auto; inversion H; subst; cbn; auto; try discriminate).
      inversion H; subst; cbn [job_at] in *;
        try (destruct Hl as [B|L];
          [left; apply Forall_app in B as [B1 B2]; apply Forall_app; split; [exact B1|]; inversion B2 as [|? ? B3 B4]; subst; constructor; [exact (K B3)|exact B4]
          |right; apply Exists_app in L as [L|L]; apply Exists_app; [left; exact L|right]; inversion L as [? ? L'|? ? L']; subst; [apply Exists_cons_hd; cbn in L' |- *; try contradiction; try exact I; try exact L'|apply Exists_cons_tl; exact L']]; fail).
      - (* created *) right. apply Exists_app. right. apply Exists_cons_hd. cbn. exists []. split; [apply update_here|]. split; [cbn; lia|]. intros k Hk. lia.
      - (* create failed *) destruct Hl as [B|L].
        + left. apply Forall_app in B as [B1 B2]. apply Forall_app; split; [exact B1|]. inversion B2; subst. constructor; [exact I|assumption].
        + right. apply Exists_app in L as [L|L]; apply Exists_app; [left; exact L|right]. inversion L as [? ? L'|? ? L']; subst; [contradiction|apply Exists_cons_tl; exact L'].
      - (* written *) cbn [on_way] in Wp. destruct Hl as [B|L]; [apply Forall_app in B as [_ B]; inversion B as [|? ? B' _]; subst; contradiction|]. right.
        assert (M : forall q, leads f q -> leads (update f t (overwrite c (length gone) part)) q \/ exists x y, q = Writing x y /\ holds f (length x) /\ length w < length x).
        { intros q Lq. destruct q as [| | | |x y|[[|]| |]]; try contradiction; try (left; exact I); cbn [leads] in *.
          - destruct (Nat.le_gt_cases (length x) (length w)) as [N|N]; [left|right; exists x, y; auto]. eapply holds_write; try eassumption. eapply holds_far; eassumption.
          - left. eapply holds_write; try eassumption. eapply holds_far; try eassumption. lia. }
        assert (OUT : forall m, Forall (fun j => on_way (job_from j) (job_at j)) m -> Exists (fun j => leads f (job_at j)) m -> Exists (fun j => leads (update f t (overwrite c (length gone) part)) (job_at j)) m).
        { intros m Wm Em. induction Em as [j m Lj|j m _ IH]; inversion Wm as [|? ? Wj Wm']; subst; [|apply Exists_cons_tl, IH, Wm']. apply Exists_cons_hd. destruct (M _ Lj) as [Q|(x & y & Q & _ & N)]; [exact Q|].
          exfalso. rewrite Q in Wj. cbn in Wj. rewrite <- Wj, app_length in N. lia. }
        apply Exists_app in L as [L|L]; apply Exists_app; [left; exact (OUT _ Wl L)|right]. inversion L as [? ? L'|? ? L']; subst; [|apply Exists_cons_tl, (OUT _ Wr' L')].
        apply Exists_cons_hd. cbn [job_at leads] in *. assert (F : length gone <= length c) by (eapply holds_far; [eassumption|exact L'|rewrite <- Wp, app_length; lia]).
        destruct (holds_write f c (length gone) gone part left ltac:(assumption) Wp L' F) as (c' & E1 & E2 & E3). rewrite update_here in E1. injection E1 as <-. eexists. split; [apply update_here|]. split; [exact E2|].
        intros k Hk. rewrite app_length in Hk. destruct (Nat.lt_ge_cases k (length gone)) as [K1|K1]; [apply E3, K1|]. rewrite overwrite_in by lia. rewrite <- Wp, nth_error_app2 by lia. rewrite nth_error_app1 by lia. reflexivity.
      - (* write done *) cbn [on_way] in Wp. rewrite app_nil_r in Wp. subst gone. destruct Hl as [B|L]; [apply Forall_app in B as [_ B]; inversion B as [|? ? B' _]; subst; contradiction|]. right.
        apply Exists_app in L as [L|L]; apply Exists_app; [left; exact L|right]. inversion L as [? ? L'|? ? L']; subst; [apply Exists_cons_hd; exact L'|apply Exists_cons_tl; exact L'].
    Qed.
    Lemma same_output : forall args f js, Forall sends args -> args <> [] -> jreach (f0, calls args) (f, js) -> Forall succeeded js -> f t = Some w.
    Proof.
      intros args f js A NE H D. assert (G : good f js).
      { clear D. remember (f, js) as s eqn:E. revert f js E. induction H as [|u v R IH H]; intros f js E.
        - injection E as <- <-. split; [reflexivity|]. unfold calls. split; [|left]; apply Forall_map, Forall_forall; intros; exact I.
        - destruct u as [g ks]. subst v. apply (good_step g ks f js); [|exact (IH g ks eq_refl)|exact H]. rewrite <- (reach_args _ _ _ R) in A. exact A. }
      destruct G as (_ & _ & [B|L]).
      - exfalso. pose proof (reach_args _ _ _ H) as Q. cbn [snd] in Q. destruct js as [|j js]; [apply NE; rewrite <- Q; reflexivity|]. inversion B as [|? ? B' _]; inversion D as [|? ? D' _]; subst. unfold succeeded in D'. rewrite D' in B'. exact B'.
      - apply Exists_exists in L as (j & Ij & Lj). rewrite Forall_forall in D. pose proof (D j Ij) as Dj. unfold succeeded in Dj. rewrite Dj in Lj. cbn in Lj. destruct Lj as (c & E & Lc & K). rewrite E. f_equal.
        assert (X : length w <= length c) by (eapply holds_far; [exact E|exists c; eauto|lia]). apply nth_error_ext. intro k. destruct (Nat.lt_ge_cases k (length w)) as [Y|Y]; [apply K, Y|].
        rewrite !(proj2 (nth_error_None _ _)) by lia. reflexivity.
    Qed.
  End Same.
End Files.

Lemma alone_same : forall decode parse bytes f0 from to r,
  (forall f, jobs_reach decode parse bytes (f0, calls [(from, to)]) (f, [mkJob from to (Over r)]) -> exists g, pf_reach decode parse bytes from to (f0, AtRead) (g, Finished r) /\ forall q, f q = g q) /\
  (forall f, pf_reach decode parse bytes from to (f0, AtRead) (f, Finished r) -> jobs_reach decode parse bytes (f0, calls [(from, to)]) (f, [mkJob from to (Over r)])).
Proof.
  intros decode parse bytes f0 from to r. split; intros f H.
  - assert (A : apart [(from, to)]).
    { intros [|i] [|j] a b N Ha Hb; try (contradiction N; reflexivity); [destruct j; discriminate Hb|destruct i; discriminate Ha|destruct i; discriminate Ha]. }
    destruct (as_alone decode parse bytes f0 [(from, to)] f _ 0 from to _ A H eq_refl eq_refl) as (g & pc & R & S & E). inversion S; subst. exists g. split; [exact R|]. intro q.
    destruct (str_eqb q to) eqn:Q; [apply str_eqb_eq in Q; subst; exact E|]. apply str_eqb_neq in Q. rewrite (pf_other_paths _ _ _ _ _ _ _ _ _ R Q). apply (other_paths decode parse bytes f0 [(from, to)] f _ q H).
    cbn. intros [X|[]]. congruence.
  - destruct (alone_as decode parse bytes f0 from to f _ H) as (p & J & S). inversion S; subst. exact J.
Qed.
