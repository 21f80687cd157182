(** Several calls of [ParserSettings::parse_file] (projects/sm-ast/src/parser/parse.rs:18-24)
    at the same time, in threads or processes of their own.  Unlike in [ParseFile] the
    source is read piece by piece and every file handle has a place of its own.
    Simplified: paths are different names of different files (no links), and files are
    not removed or locked by others. *)
From Verif Require Import Base Ast SmError ParseFile.

(** what a file holds after a write of [part] at offset [o]: a gap is filled with
    zeros; the handle of parser/parse.rs:21-22 writes at its own offset *)
Definition overwrite (c : list byte) (o : nat) (part : list byte) : list byte :=
  firstn o c ++ repeat 0%N (o - length c) ++ part ++ skipn (o + length part) c.

Section ParseFiles.
  (** as in [ParseFile] *)
  Context (decode : list byte -> option str)
          (parse : str -> outcome (sm_result ast))
          (bytes : ast -> list byte).

  (** where a call is: opening the source, with a part of it read (19), parsing (20),
      creating the destination (21), with a part of the output written (22), or over.
      parser/parse.rs:18-24 *)
  Inductive job_pc :=
  | Opening
  | Reading (got : list byte)
  | Parsing (text : str)
  | Creating (a : ast)
  | Writing (gone left : list byte)
  | Over (r : outcome (sm_result unit)).

  (** one step of one call; any file operation may fail, and a read or write may be
      as short as the operating system likes.  [read_to_string] decodes at the end of
      the file.  parser/parse.rs:18-24 *)
  Inductive job_step (from to : path) : fs * job_pc -> fs * job_pc -> Prop :=
  | job_open : forall f c, f from = Some c -> job_step from to (f, Opening) (f, Reading [])
  | job_open_fail : forall f e, job_step from to (f, Opening) (f, Over (Ret (Err (SMIOError e))))
  | job_read : forall f c got part more, f from = Some c -> skipn (length got) c = part ++ more -> part <> [] ->
      job_step from to (f, Reading got) (f, Reading (got ++ part))
  | job_read_fail : forall f got e, job_step from to (f, Reading got) (f, Over (Ret (Err (SMIOError e))))
  | job_read_all : forall f got c text, f from = Some c -> length c <= length got -> decode got = Some text ->
      job_step from to (f, Reading got) (f, Parsing text)
  | job_read_invalid : forall f got c e, f from = Some c -> length c <= length got -> decode got = None ->
      job_step from to (f, Reading got) (f, Over (Ret (Err (SMIOError e))))
  | job_parse_ok : forall f text a, parse text = Ret (Ok a) -> job_step from to (f, Parsing text) (f, Creating a)
  | job_parse_err : forall f text e, parse text = Ret (Err e) -> job_step from to (f, Parsing text) (f, Over (Ret (Err e)))
  | job_parse_panic : forall f text k, parse text = Panic k -> job_step from to (f, Parsing text) (f, Over (Panic k))
  | job_create : forall f a, job_step from to (f, Creating a) (update f to [], Writing [] (bytes a))
  | job_create_fail : forall f a e, job_step from to (f, Creating a) (f, Over (Ret (Err (SMIOError e))))
  | job_write : forall f c gone part left, f to = Some c -> part <> [] ->
      job_step from to (f, Writing gone (part ++ left)) (update f to (overwrite c (length gone) part), Writing (gone ++ part) left)
  | job_write_fail : forall f gone left e, left <> [] ->
      job_step from to (f, Writing gone left) (f, Over (Ret (Err (SMIOError e))))
  | job_write_done : forall f gone, job_step from to (f, Writing gone []) (f, Over (Ret (Ok tt))).

  (** a call of parser/parse.rs:18: its arguments, and where it is *)
  Record job := mkJob { job_from : path; job_to : path; job_at : job_pc }.

  (** one of the calls takes a step; parser/parse.rs:18-24 *)
  Inductive jobs_step : fs * list job -> fs * list job -> Prop :=
  | jobs_one : forall f f' from to p p' l r, job_step from to (f, p) (f', p') ->
      jobs_step (f, l ++ mkJob from to p :: r) (f', l ++ mkJob from to p' :: r).
  (** any number of steps, in any order; parser/parse.rs:18-24 *)
  Inductive jobs_reach (s : fs * list job) : fs * list job -> Prop :=
  | jobs_refl : jobs_reach s s
  | jobs_more : forall t u, jobs_reach s t -> jobs_step t u -> jobs_reach s u.
End ParseFiles.
