(** How an error is written on the web page, said by how it is read. *)
From Verif Require Import Base Ast SmError Peg Build Runner Message Debug.
Local Open Scope N_scope.

(** the value of a hexadecimal digit *)
Definition hex_read (c : char) : option N :=
  if (48 <=? c) && (c <=? 57) then Some (c - 48) else if (97 <=? c) && (c <=? 102) then Some (c - 87) else None.
(** reading between the quotes of a Rust string literal: after a character; after a backslash; after \u; after \u{ and digits *)
Inductive reading := Outside | AfterSlash | BeforeBrace | Digits (n : N).
Fixpoint unquote (q : reading) (s : str) : option str :=
  match s with
  | [] => match q with Outside => Some [] | _ => None end
  | c :: s' =>
      match q with
      | Outside => if c =? 92 then unquote AfterSlash s' else if c =? 34 then None else option_map (cons c) (unquote Outside s')
      | AfterSlash =>
          if c =? 110 then option_map (cons 10) (unquote Outside s')
          else if c =? 114 then option_map (cons 13) (unquote Outside s')
          else if c =? 116 then option_map (cons 9) (unquote Outside s')
          else if c =? 48 then option_map (cons 0) (unquote Outside s')
          else if (c =? 92) || (c =? 34) || (c =? 39) then option_map (cons c) (unquote Outside s')
          else if c =? 117 then unquote BeforeBrace s'
          else None
      | BeforeBrace => if c =? 123 then unquote (Digits 0) s' else None
      | Digits n =>
          if c =? 125 then option_map (cons n) (unquote Outside s')
          else match hex_read c with Some d => unquote (Digits (16 * n + d)) s' | None => None end
      end
  end.
(** the characters between the quotes of a string literal of the value s *)
Definition literal_of (body s : str) : Prop := unquote Outside body = Some s.

(** an error is written as the name of its kind, and what it carries as a string literal in brackets *)
Definition error_name (e : sm_error) : str :=
  match e with
  | SMUnknown => lit "Unknown" | SMIOError _ => lit "IOError" | SMParseError => lit "ParseError" | EmptyContainer _ => lit "EmptyContainer"
  | Overflow => lit "Overflow" | Infinity => lit "Infinity" | SMComplexInfinity => lit "ComplexInfinity"
  | SMUnimplemented _ => lit "Unimplemented" | SMUnreachable _ => lit "Unreachable"
  end.
(** m is the message of a refused text *)
Definition carried (m : str) (e : sm_error) : option str :=
  match e with
  | SMIOError s | EmptyContainer s | SMUnimplemented s | SMUnreachable s => Some s
  | SMParseError => Some m
  | _ => None
  end.
Definition written_error (m : str) (e : sm_error) (w : str) : Prop :=
  match carried m e with
  | None => w = error_name e
  | Some s => exists body, literal_of body s /\ w = error_name e ++ lit "(""" ++ body ++ lit """)"
  end.
(** nothing in it ends a line *)
Definition one_line (w : str) : Prop := ~ In 10 w /\ ~ In 13 w.

(** the message of a refused text *)
Definition message_of (U : unicode) (text : str) : str := match message U text with Some (Ret m) => m | _ => [] end.
(** the replies of the web page to calls *)
Definition page_run (U : unicode) (W : Z) (st : style) (calls : list pg_call) : list (outcome str) :=
  pg_run W (parse U (lit "anonymous")) (debug_error U st) calls fresh_playground.
(** one more text is answered by w, whatever came before, as long as nothing panicked *)
Definition replies (U : unicode) (W : Z) (st : style) (text w : str) : Prop := forall calls,
  Forall (fun r => is_ret r = true) (page_run U W st calls) -> page_run U W st (calls ++ [CallResult text]) = page_run U W st calls ++ [Ret w].
