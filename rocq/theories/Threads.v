(** projects/sm-playground/src/lib.rs called from several threads (the crate is also
    an rlib): the static mutex, with the steps of a call while it holds the lock.
    Simplified: the steps of [Runner::evaluate] are its three statements; a thread
    whose call has panicked may call again (a page, or catch_unwind). *)
From Verif Require Import Base Ast Display Internal Eval Tex Runner.
Local Open Scope nat_scope.

Section Threads.
  (** as in [Runner] *)
  Context (W : Z) (parse : str -> outcome (sm_result ast)) (debug : str -> sm_error -> str).

  (** where a thread is: outside, waiting for the lock (lib.rs:12, 21), before a statement of
      evaluate/traits.rs:25-28, or before lib.rs:22 *)
  Inductive place :=
  | Outside
  | Waiting (c : pg_call)
  | AtInput (s : str)
  | AtForward (s : str)
  | AtPrint (s : str)
  | AtTex.
  (** the calls a thread has still to make, where it is, and the answers it got, the
      latest last; sm-playground/src/lib.rs:10-26 *)
  Record thread := mkThread { todo : list pg_call; at_place : place; answers : list (outcome str) }.
  (** the mutex of lib.rs:6-8: what it protects and the thread that holds it *)
  Record world := mkWorld { shared : playground; holder : option nat; threads : list thread }.

  (** a statement under the lock: the runner afterwards, and the next statement or the
      result of the call; evaluate/traits.rs:24-29, sm-playground/src/lib.rs:13-16, 22-25 *)
  Definition statement (p : place) (c : context) : context * (place + outcome str) :=
    match p with
    | AtInput s => let '(c1, r) := runner_parse s c in
        (c1, match r with Ret (Ok _) => inl (AtForward s) | Ret (Err e) => inr (Ret (debug s e)) | Panic k => inr (Panic k) | OutOfFuel => inr OutOfFuel end)
    | AtForward s => let '(c1, r) := runner_forward W parse c in
        (c1, match r with Ret (Ok _) => inl (AtPrint s) | Ret (Err e) => inr (Ret (debug s e)) | Panic k => inr (Panic k) | OutOfFuel => inr OutOfFuel end)
    | AtPrint s => (c, inr (match btree_get Z.compare (index c) (outputs c) with None => Panic PUnwrap | Some o => display o end))
    | AtTex => (c, inr (match last_output c with Ret (Ok o) => to_tex o | Ret (Err e) => Ret (debug [] e) | Panic k => Panic k | OutOfFuel => OutOfFuel end))
    | _ => (c, inl p)
    end.

  (** a step of the thread after those of [l]; sm-playground/src/lib.rs:10-26.  [lock]
      waits while another holds the mutex; its result is an error, on which [unwrap]
      panics, when a panic has poisoned it; a panic under the lock poisons it *)
  Inductive thread_step : world -> world -> Prop :=
  | step_call : forall g h l c t rs r,
      thread_step (mkWorld g h (l ++ mkThread (c :: t) Outside rs :: r)) (mkWorld g h (l ++ mkThread t (Waiting c) rs :: r))
  | step_lock : forall g l c t rs r, poisoned g = false ->
      thread_step (mkWorld g None (l ++ mkThread t (Waiting c) rs :: r))
        (mkWorld g (Some (length l)) (l ++ mkThread t (match c with CallResult s => AtInput s | CallTex => AtTex end) rs :: r))
  | step_poisoned : forall g l c t rs r, poisoned g = true ->
      thread_step (mkWorld g None (l ++ mkThread t (Waiting c) rs :: r)) (mkWorld g None (l ++ mkThread t Outside (rs ++ [Panic PPoisoned]) :: r))
  | step_inside : forall b c c' l t p p' rs r, statement p c = (c', inl p') ->
      thread_step (mkWorld (mkPlayground b c) (Some (length l)) (l ++ mkThread t p rs :: r))
        (mkWorld (mkPlayground b c') (Some (length l)) (l ++ mkThread t p' rs :: r))
  | step_leave : forall b c c' l t p o rs r, statement p c = (c', inr o) ->
      thread_step (mkWorld (mkPlayground b c) (Some (length l)) (l ++ mkThread t p rs :: r))
        (mkWorld (mkPlayground (negb (is_ret o)) c') None (l ++ mkThread t Outside (rs ++ [o]) :: r)).
  (** that many steps, of threads in any order; sm-playground/src/lib.rs:10-26 *)
  Inductive threads_run (w : world) : nat -> world -> Prop :=
  | run_none : threads_run w 0 w
  | run_more : forall n u v, threads_run w n u -> thread_step u v -> threads_run w (S n) v.
End Threads.
