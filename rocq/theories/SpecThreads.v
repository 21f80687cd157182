(** Threads that call the playground, and calls one after another. *)
From Verif Require Import Base Ast Display Internal Eval Tex Runner Threads.
Local Open Scope nat_scope.

(** threads about to make these calls on a fresh playground *)
Definition start_of (calls : list (list pg_call)) : world :=
  mkWorld fresh_playground None (map (fun cs => mkThread cs Outside []) calls).
(** the call a thread is making *)
Definition under_way (p : place) : list pg_call :=
  match p with
  | Outside => []
  | Waiting c => [c]
  | AtInput s | AtForward s | AtPrint s => [CallResult s]
  | AtTex => [CallTex]
  end.
(** of a list with thread numbers, what belongs to thread i *)
Definition of_thread {A} (i : nat) (l : list (nat * A)) : list A := map snd (filter (fun x => fst x =? i) l).

(** The order is one in which calls may have been made one after another: each
    thread has made, in it, the calls it is to make but for the one under way and
    those to come, and has got the answers that the calls one after another get. *)
Definition one_by_one (W : Z) (parse : str -> outcome (sm_result ast)) (debug : str -> sm_error -> str)
  (calls : list (list pg_call)) (w : world) (order : list (nat * pg_call)) : Prop :=
  length (threads w) = length calls /\
  forall i cs t, nth_error calls i = Some cs -> nth_error (threads w) i = Some t ->
    cs = of_thread i order ++ under_way (at_place t) ++ todo t /\
    answers t = of_thread i (combine (map fst order) (pg_run W parse debug (map snd order) fresh_playground)).
Definition all_done (w : world) : Prop := Forall (fun t => todo t = [] /\ at_place t = Outside) (threads w).
Definition number (calls : list (list pg_call)) : nat := list_sum (map (@length pg_call) calls).
(** some call of some thread panicked *)
Definition some_panic (w : world) : Prop := Exists (fun t => Exists (fun o => is_ret o = false) (answers t)) (threads w).
