(** projects/sm-ast/src/evaluate/traits.rs and projects/sm-playground/src/lib.rs *)
From Verif Require Import Base Ast Display Internal Eval Tex.
Local Open Scope Z_scope.

(** evaluate/mod.rs:15 [Context::default] *)
Definition empty_context : context := mkContext 0 [] [] [].

Section Runner.
  (** Word size, and [ParserSettings::parse] of the runner's settings
      (evaluate/traits.rs:3-7: file "anonymous"). *)
  Context (W : Z) (parse : str -> outcome (sm_result ast)).

  (** A method with [&mut self]: the state it leaves behind (also when it panics)
      and its outcome. evaluate/traits.rs:10-34. *)
  Definition runner_out (A : Type) : Type := (context * outcome (sm_result A))%type.

  (** evaluate/traits.rs:10-14 [Runner::parse] *)
  Definition runner_parse (s : str) (c : context) : runner_out unit :=
    let i := index c + 1 in
    (mkContext i (btree_insert Z.compare i s (inputs c)) (outputs c) (symbols c), Ret (Ok tt)).

  (** evaluate/traits.rs:16-22 [Runner::forward] *)
  Definition runner_forward (c : context) : runner_out unit :=
    match btree_get Z.compare (index c) (inputs c) with
    | None => (c, Panic PUnwrap)
    | Some input =>
        match parse input with
        | Panic k => (c, Panic k)
        | OutOfFuel => (c, OutOfFuel)
        | Ret (Err e) => (c, Ret (Err e))
        | Ret (Ok a) =>
            match forward W a c with
            | Panic k => (c, Panic k)
            | OutOfFuel => (c, OutOfFuel)
            | Ret (Err e, c') => (c', Ret (Err e))
            | Ret (Ok output, c') =>
                (mkContext (index c') (inputs c')
                   (btree_insert Z.compare (index c') output (outputs c')) (symbols c'),
                 Ret (Ok tt))
            end
        end
    end.

  (** evaluate/traits.rs:24-29 [Runner::evaluate] *)
  Definition evaluate (input : str) (c : context) : runner_out str :=
    let '(c1, r1) := runner_parse input c in
    match r1 with
    | Panic k => (c1, Panic k)
    | OutOfFuel => (c1, OutOfFuel)
    | Ret (Err e) => (c1, Ret (Err e))
    | Ret (Ok _) =>
        let '(c2, r2) := runner_forward c1 in
        match r2 with
        | Panic k => (c2, Panic k)
        | OutOfFuel => (c2, OutOfFuel)
        | Ret (Err e) => (c2, Ret (Err e))
        | Ret (Ok _) =>
            match btree_get Z.compare (index c2) (outputs c2) with
            | None => (c2, Panic PUnwrap)
            | Some o => (c2, obind (display o) (fun s => Ret (Ok s)))
            end
        end
    end.

  (** evaluate/traits.rs:31-34 [Runner::last] *)
  Definition last_output (c : context) : outcome (sm_result ast) :=
    match btree_get Z.compare (index c) (outputs c) with
    | None => Panic PUnwrap
    | Some o => Ret (Ok o)
    end.

  (** A sequence of [evaluate] calls on one runner, stopping at a panic.
      evaluate/traits.rs:24-29, repeated *)
  Fixpoint run_session (calls : list str) (c : context) : context * list (outcome (sm_result str)) :=
    match calls with
    | [] => (c, [])
    | s :: rest =>
        let '(c1, r) := evaluate s c in
        match r with
        | Ret _ => let '(c2, rs) := run_session rest c1 in (c2, r :: rs)
        | _ => (c1, [r])
        end
    end.

  (** ** sm-playground/src/lib.rs *)

  (** lib.rs:6-8 [RUNNER]: a mutex-protected runner; a panic while the guard is
      held poisons it. *)
  Record playground := mkPlayground { poisoned : bool; runner : context }.
  (** sm-playground/src/lib.rs:7 *)
  Definition fresh_playground : playground := mkPlayground false empty_context.

  (** [format!("{:?}", e)], any function here.  The payload of a parse error depends on the
      text that was parsed, so that text is an argument; [Debug.v] has the function. *)
  Context (debug : str -> sm_error -> str).

  (** the [match] of sm-playground/src/lib.rs:13-16 *)
  Definition text_of (input : str) (r : outcome (sm_result str)) : outcome str :=
    match r with
    | Ret (Ok o) => Ret o
    | Ret (Err e) => Ret (debug input e)
    | Panic k => Panic k
    | OutOfFuel => OutOfFuel
    end.

  (** lib.rs:10-17 [result] *)
  Definition pg_result (input : str) (g : playground) : playground * outcome str :=
    if poisoned g then (g, Panic PPoisoned)
    else
      let '(c, r) := evaluate input (runner g) in
      (mkPlayground (negb (is_ret r)) c, text_of input r).

  (** lib.rs:19-26 [result_tex]; [last] never gives an error, so the text does not matter *)
  Definition pg_result_tex (g : playground) : playground * outcome str :=
    if poisoned g then (g, Panic PPoisoned)
    else
      let r := match last_output (runner g) with
               | Ret (Ok o) => to_tex o
               | Ret (Err e) => Ret (debug [] e)
               | Panic k => Panic k
               | OutOfFuel => OutOfFuel
               end in
      (mkPlayground (negb (is_ret r)) (runner g), r).

  (** The answers to a sequence of calls from the web page; a call that panics
      does not prevent further calls. sm-playground/src/lib.rs:10-26. *)
  Inductive pg_call := CallResult (input : str) | CallTex.
  (** one call, sm-playground/src/lib.rs:10-26 *)
  Definition pg_step (call : pg_call) (g : playground) : playground * outcome str :=
    match call with
    | CallResult s => pg_result s g
    | CallTex => pg_result_tex g
    end.
  (** calls in turn, sm-playground/src/lib.rs:10-26 *)
  Fixpoint pg_run (calls : list pg_call) (g : playground) : list (outcome str) :=
    match calls with
    | [] => []
    | c :: rest => let '(g', r) := pg_step c g in r :: pg_run rest g'
    end.
End Runner.
