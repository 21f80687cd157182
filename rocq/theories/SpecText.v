(** What a whole text means. *)
From Verif Require Import Base Ast SmError Peg Build SpecAst SpecSyntax SpecSource.
Local Open Scope outcome_scope.

(** parsing the text, under whatever file name, gives what [o] gives, up to positions: the tree if
    [o] returns one, the panic if [o] is one *)
Definition denotes (U : unicode) (text : str) (o : outcome ast) : Prop :=
  forall fname, omap forget_result (parse U fname text) = omap (fun a => Ok (forget_positions a)) o.
(** the same, or the text is refused *)
Definition denotes_or_refused (U : unicode) (text : str) (o : outcome ast) : Prop :=
  (forall fname, parse U fname text = Ret (Err SMParseError)) \/ denotes U text o.

(** expressions, each ended by a semicolon, except perhaps the last *)
Inductive statements (U : unicode) : str -> Prop :=
| ss_none : forall ws, closing ws = true -> statements U ws
| ss_last : forall g x o ws, spacing g = true -> expr U x o -> plain_start x = true -> closing ws = true -> statements U (g ++ x ++ ws)
| ss_more : forall g x o ws c w, spacing g = true -> expr U x o -> plain_start x = true -> spacing ws = true -> semi c = true -> statements U w ->
    statements U (g ++ x ++ ws ++ c :: w).

(** ** Common forms *)
Section Forms.
  Variable U : unicode.
  (** (x1, ..., xn)(y1, ..., ym)... *)
  Definition lists_text (ls : list (list str)) : str := concat (map (fun xs => paren (join (lit ", ") xs)) ls).
  (** x, or k: x *)
  Definition entry := (option str * (str * ast))%type.
  Definition entry_text (e : entry) : str := match fst e with Some k => k ++ lit ": " ++ fst (snd e) | None => fst (snd e) end.
  Definition good_entry (e : entry) : Prop :=
    match fst e with Some k => word U k = true | None => True end /\ expr U (fst (snd e)) (Ret (snd (snd e))).
  Definition unnamed (es : list entry) : list ast := flat_map (fun e => match fst e with None => [snd (snd e)] | Some _ => [] end) es.
  Definition written_keys (es : list entry) : list (str * ast) := flat_map (fun e => match fst e with None => [] | Some k => [(k, snd (snd e))] end) es.
  Definition optional (x : option str) : str := match x with Some x => x | None => [] end.
  (** a:b or a:b:s, where a, b and s may be missing *)
  Definition range_text (a b : option str) (s : option (option str)) : str :=
    optional a ++ lit ":" ++ optional b ++ match s with Some s => lit ":" ++ optional s | None => [] end.
  Definition bound_is (d : ast) (x : option str) (o : outcome ast) : Prop := match x with Some x => expr U x o | None => o = Ret d end.
  (** an integer or a name *)
  Inductive plain_factor : str -> ast -> Prop :=
  | pf_integer : forall n x, numeral_of n x -> plain_factor x (Integer n)
  | pf_name : forall w l, segment U w = true -> forallb (segment U) l = true -> plain_factor (w ++ path_tail l) (Sym (named w l)).
  (** a decimal or a based literal *)
  Inductive odd_number : str -> Prop :=
  | on_decimal : forall x y, numeral x = true -> numeral y = true -> odd_number (x ++ lit "." ++ y)
  | on_based : forall b P s, based b P -> s <> [] -> grouped P s = true -> odd_number ([48%N; b] ++ s).
  (** the same, or a call *)
  Inductive odd_factor : str -> Prop :=
  | of_number : forall x, odd_number x -> odd_factor x
  | of_call : forall w l ls rss, segment U w = true -> forallb (segment U) l = true -> ls <> [] -> Forall2 (Forall2 (argument U)) ls rss ->
      odd_factor ((w ++ path_tail l) ++ lists_text ls).
  (** ) ] } , . : = < > ? & | ^ ~ \ ` $ ' at the start *)
  Definition no_start : list char := [41; 93; 125; 44; 46; 58; 61; 60; 62; 63; 38; 124; 94; 126; 92; 96; 36; 39]%N.

  (** starts of statements that are not expressions *)
  Inductive other_start : str -> Prop :=
  | os_semi : forall c w, semi c = true -> other_start (c :: w)
  | os_at : forall w, other_start (lit "@" ++ w)
  | os_break : forall w, other_start (lit "break" ++ w)
  | os_pass : forall w, other_start (lit "pass" ++ w)
  | os_declare : forall k g w, In k [lit "let"; lit "class"; lit "trait"; lit "using"] -> spacing g = true -> head_is (xid_start U) w = true ->
      other_start (k ++ g ++ w)
  | os_return : forall g x o ws, spacing g = true -> expr U x o -> closing ws = true -> other_start (lit "return" ++ g ++ x ++ ws)
  | os_return_more : forall g x o ws c w, spacing g = true -> expr U x o -> spacing ws = true -> semi c = true ->
      other_start (lit "return" ++ g ++ x ++ ws ++ c :: w).
End Forms.

(** the letters of ASCII *)
Definition letters : str := lit "ABCDEFGHIJKLMNOPQRSTUVWXYZabcdefghijklmnopqrstuvwxyz".
