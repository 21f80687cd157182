(** Properties of the playground called from several threads. *)
From Verif Require Import Base Ast SmError Display Tex Peg Build Runner Threads SpecSession SpecThreads ProofSample.
From Verif Require Import ProofThreads.
Local Open Scope nat_scope.

(** C78: whatever the order of the steps of the threads, the answers are those of
    calls made one after another, each thread making its calls in its order; and a
    call that has been answered comes before every call made later *)
Theorem C78_one_by_one : forall W parse debug calls n w, threads_run W parse debug (start_of calls) n w ->
  exists order, one_by_one W parse debug calls w order /\
    forall m v, threads_run W parse debug w m v -> exists more, one_by_one W parse debug calls v (order ++ more).
Proof.
  exact serial_lemma.
Qed.
Print Assumptions C78_one_by_one.

(** C78: when the threads are done, all their calls are in that order *)
Theorem C78_done : forall W parse debug calls n w, threads_run W parse debug (start_of calls) n w -> all_done w ->
  exists order, forall i cs t, nth_error calls i = Some cs -> nth_error (threads w) i = Some t ->
    of_thread i order = cs /\ answers t = of_thread i (combine (map fst order) (pg_run W parse debug (map snd order) fresh_playground)).
Proof.
  exact done_lemma.
Qed.
Print Assumptions C78_done.

(** C78: every order of the calls that keeps the order in each thread may happen *)
Theorem C78_any_order : forall W parse debug calls order,
  Forall (fun x => fst x < length calls) order -> (forall i cs, nth_error calls i = Some cs -> of_thread i order = cs) ->
  exists n w, threads_run W parse debug (start_of calls) n w /\ all_done w /\ one_by_one W parse debug calls w order.
Proof.
  exact any_order_lemma.
Qed.
Print Assumptions C78_any_order.

(** C78: the threads never wait for each other for ever: until all are done some
    thread can go on, also after a panic *)
Theorem C78_no_deadlock : forall W parse debug calls n w, threads_run W parse debug (start_of calls) n w ->
  all_done w \/ exists v, thread_step W parse debug w v.
Proof.
  exact progress_lemma.
Qed.
Print Assumptions C78_no_deadlock.

(** C78: and a run has no more than five steps for each call *)
Theorem C78_ends : forall W parse debug calls n w, threads_run W parse debug (start_of calls) n w -> n <= 5 * number calls.
Proof.
  exact ends_lemma.
Qed.
Print Assumptions C78_ends.

(** C78: after a panic in any thread every call answered later, in any thread, panics
    because of it *)
Theorem C78_panic_disables_all : forall W parse debug calls n w m v,
  threads_run W parse debug (start_of calls) n w -> some_panic w -> threads_run W parse debug w m v ->
  forall i t u, nth_error (threads w) i = Some t -> nth_error (threads v) i = Some u ->
  exists more, answers u = answers t ++ more /\ Forall (eq (Panic PPoisoned)) more.
Proof.
  exact panic_lemma.
Qed.
Print Assumptions C78_panic_disables_all.

(** C78: [result_tex] right after [result] in the same thread need not show the same
    output: a text of another thread may come in between *)
Theorem C78_pair_refuted : forall W parse debug s1 s2 o1 o2 d1 d2 t2,
  evaluates_to W parse s1 o1 -> display o1 = Ret d1 -> evaluates_to W parse s2 o2 -> display o2 = Ret d2 -> to_tex o2 = Ret t2 ->
  exists n w t, threads_run W parse debug (start_of [[CallResult s1; CallTex]; [CallResult s2]]) n w /\ all_done w /\
    nth_error (threads w) 0 = Some t /\ answers t = [Ret d1; Ret t2].
Proof.
  exact pair_lemma.
Qed.
Print Assumptions C78_pair_refuted.

(** two threads and the order first, second, first; the last call finds the string of
    the second thread.  Then a text whose value has no text: a panic, and one more *)
Example C78_example :
  let p := parse ascii_only (lit "anonymous") in let d := fun (_ : str) (_ : sm_error) => lit "error" in
  (exists n w t, threads_run 64 p d (start_of [[CallResult (lit "5!"); CallTex]; [CallResult (lit """s""")]]) n w /\ all_done w /\
    nth_error (threads w) 0 = Some t /\ answers t = [Ret (lit "120"); Ret (lit "\\text{s}")]) /\
  (exists n w, threads_run 64 p d (start_of [[CallResult (lit "5!")]; [CallTex]]) n w /\ some_panic w /\
    map answers (threads w) = [[Panic PPoisoned]; [Panic PUnwrap]]).
Proof.
  split.
  - apply (C78_pair_refuted 64 _ _ (lit "5!") (lit """s""") (Integer 120) (Str (lit "s")) (lit "120") (lit "s")).
    + eexists. split; [vm_compute; reflexivity | reflexivity].
    + vm_compute. reflexivity.
    + eexists. split; [vm_compute; reflexivity | reflexivity].
    + vm_compute. reflexivity.
    + vm_compute. reflexivity.
  - destruct (C78_any_order 64 (parse ascii_only (lit "anonymous")) (fun _ _ => lit "error") [[CallResult (lit "5!")]; [CallTex]] [(1, CallTex); (0, CallResult (lit "5!"))])
      as [n [w [R [D [L H]]]]].
    + repeat constructor.
    + intros [|[|i]] cs C; simpl in C; [injection C as <-; reflexivity | injection C as <-; reflexivity | destruct i; discriminate].
    + exists n, w. split; [exact R|]. destruct w as [g h ts]. simpl in *. destruct ts as [|t0 [|t1 [|t2 ts]]]; try discriminate.
      destruct (H 0 _ t0 eq_refl eq_refl) as [_ H0]. destruct (H 1 _ t1 eq_refl eq_refl) as [_ H1].
      match type of H0 with _ = ?x => let y := eval vm_compute in x in change x with y in H0 end.
      match type of H1 with _ = ?x => let y := eval vm_compute in x in change x with y in H1 end. simpl. rewrite H0, H1. split; [|reflexivity].
      apply Exists_cons_hd. simpl. rewrite H0. constructor. reflexivity.
Qed.
