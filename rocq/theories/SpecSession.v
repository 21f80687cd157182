(** Specification vocabulary for sessions, export and files. *)
From Verif Require Import Base Ast Internal Eval Wolfram ParseFile Runner.

(** What one text evaluates to, without any session state: parse it, then
    evaluate the tree in some context. *)
Definition evaluates_to (W : Z) (parse : str -> outcome (sm_result ast)) (s : str) (o : ast) : Prop :=
  exists a, parse s = Ret (Ok a) /\ forall c, forward W a c = Ret (Ok o, c).

Definition fails_with (W : Z) (parse : str -> outcome (sm_result ast)) (s : str) (e : sm_error) : Prop :=
  parse s = Ret (Err e) \/
  exists a, parse s = Ret (Ok a) /\ forall c, forward W a c = Ret (Err e, c).

(** the texts given to [result] by a sequence of calls of the playground *)
Definition texts (calls : list pg_call) : list str :=
  flat_map (fun c => match c with CallResult s => [s] | CallTex => [] end) calls.

(** ** Leaves that the export must carry unchanged *)
Inductive leaf := LInt (n : Z) | LStr (s : str).

(** in order: arguments first, then options (key, value) *)
Fixpoint ast_leaves (a : ast) : list leaf :=
  match a with
  | Integer n => [LInt n]
  | Str s => [LStr s]
  | Program l => flat_map ast_leaves l
  | Function _ ps =>
      flat_map (fun p => flat_map ast_leaves (arguments p) ++
                         flat_map (fun kv => ast_leaves (fst kv) ++ ast_leaves (snd kv)) (options p)) ps
  | _ => []
  end.

Fixpoint wolfram_leaves (w : wolfram) : list leaf :=
  match w with
  | WBigInteger n => [LInt n]
  | WString s => [LStr s]
  | WFunction h args => wolfram_leaves h ++ flat_map wolfram_leaves args
  | _ => []
  end.

(** the function names the evaluator knows *)
Definition builtin_names : list str :=
  [lit "first"; lit "last"; lit "length"; lit "factorial"; lit "fibonacci"; lit "plus"; lit "times"; lit "power"].

(** symbols of the parser's operator namespaces *)
Definition operator_space (s : symbol) : Prop :=
  exists n, name_space s = [lit "std"; n] /\ In n [lit "prefix"; lit "infix"; lit "suffix"].

(** reading, decoding and parsing the source file gives the tree a *)
Definition parse_succeeds (decode : list byte -> option str) (parse : str -> outcome (sm_result ast))
  (from : path) (f0 : fs) (a : ast) : Prop :=
  exists c text, f0 from = Some c /\ decode c = Some text /\ parse text = Ret (Ok a).
