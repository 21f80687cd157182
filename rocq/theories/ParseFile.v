(** projects/sm-ast/src/parser/parse.rs:18-24 [ParserSettings::parse_file] as a
    small-step system over a file system; every reachable state is a possible
    crash point. *)
From Verif Require Import Base Ast SmError.

(** the bytes of parser/parse.rs:19, 22 *)
Definition byte := N.
(** the arguments of parser/parse.rs:18 *)
Definition path := str.
(** A file system: contents of the existing regular files. parser/parse.rs:18-24. *)
Definition fs := path -> option (list byte).

(** [File::create] and [write_all], parser/parse.rs:21-22 *)
Definition update (f : fs) (p : path) (c : list byte) : fs :=
  fun q => if str_eqb q p then Some c else f q.

Section ParseFile.
  (** UTF-8 decoding of [read_to_string], [ParserSettings::parse], and
      [to_wolfram_bytes] (external wolfram_wxf): any functions. *)
  Context (decode : list byte -> option str)
          (parse : str -> outcome (sm_result ast))
          (bytes : ast -> list byte).

  (** Program counter: line 19, 20, 21, 22 (with the bytes still to write), end.
      parser/parse.rs:18-24 *)
  Inductive pf_pc :=
  | AtRead
  | AtParse (text : str)
  | AtCreate (a : ast)
  | AtWrite (rest : list byte)
  | Finished (r : outcome (sm_result unit)).

  (** One step.  The operating system may fail any file operation, and may write
      any non-empty part of the remaining buffer ([write_all] loops). parser/parse.rs:18-24. *)
  Inductive pf_step (from to : path) : fs * pf_pc -> fs * pf_pc -> Prop :=
  | step_read_ok : forall f c text,
      f from = Some c -> decode c = Some text ->
      pf_step from to (f, AtRead) (f, AtParse text)
  | step_read_invalid : forall f c e,
      f from = Some c -> decode c = None ->
      pf_step from to (f, AtRead) (f, Finished (Ret (Err (SMIOError e))))
  | step_read_fail : forall f e,
      pf_step from to (f, AtRead) (f, Finished (Ret (Err (SMIOError e))))
  | step_parse_ok : forall f text a,
      parse text = Ret (Ok a) ->
      pf_step from to (f, AtParse text) (f, AtCreate a)
  | step_parse_err : forall f text e,
      parse text = Ret (Err e) ->
      pf_step from to (f, AtParse text) (f, Finished (Ret (Err e)))
  | step_parse_panic : forall f text k,
      parse text = Panic k ->
      pf_step from to (f, AtParse text) (f, Finished (Panic k))
  | step_create_ok : forall f a,
      pf_step from to (f, AtCreate a) (update f to [], AtWrite (bytes a))
  | step_create_fail : forall f a e,
      pf_step from to (f, AtCreate a) (f, Finished (Ret (Err (SMIOError e))))
  | step_write_some : forall f old part rest,
      f to = Some old -> part <> [] ->
      pf_step from to (f, AtWrite (part ++ rest)) (update f to (old ++ part), AtWrite rest)
  | step_write_fail : forall f rest e,
      rest <> [] ->
      pf_step from to (f, AtWrite rest) (f, Finished (Ret (Err (SMIOError e))))
  | step_write_done : forall f,
      pf_step from to (f, AtWrite []) (f, Finished (Ret (Ok tt))).

  (** any number of steps of parser/parse.rs:18-24 *)
  Inductive pf_reach (from to : path) (s : fs * pf_pc) : fs * pf_pc -> Prop :=
  | reach_refl : pf_reach from to s s
  | reach_step : forall t u, pf_reach from to s t -> pf_step from to t u -> pf_reach from to s u.
End ParseFile.
