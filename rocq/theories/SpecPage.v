(** What the web page shows: the replies to a sequence of calls of the playground,
    where None is a panic. *)
From Verif Require Import Base Ast SmError Peg Runner SpecReply.

(** how the value of the last text is written in TeX; two backslashes where two are
    written *)
Inductive tex_shown : ast -> str -> Prop :=
| tex_true : tex_shown (Boolean true) (lit "\\mathtt{true}")
| tex_false : tex_shown (Boolean false) (lit "\\mathtt{false}")
| tex_integer : forall n w, shown (Integer n) w -> tex_shown (Integer n) w
| tex_decimal : forall d w, shown (Decimal d) w -> tex_shown (Decimal d) w
| tex_symbol : forall s, tex_shown (Sym s) (name s)
| tex_string : forall s, tex_shown (Str s) (lit "\\text{" ++ s ++ lit "}").

(** texts without a reply *)
Definition silent (U : unicode) (W : Z) (text : str) : Prop :=
  ~ refused U text /\ forall a r, understood U text a -> evaluates W a r -> exists b, r = Ok b /\ forall w, ~ shown b w.

(** [debug] renders errors; the second argument is the value of the last text, if
    it had one *)
Inductive page (U : unicode) (W : Z) (debug : str -> sm_error -> str) : option ast -> list pg_call -> list (option str) -> Prop :=
| page_end : forall l, page U W debug l [] []
| page_value : forall l text a b w calls rs, understood U text a -> evaluates W a (Ok b) -> shown b w ->
    page U W debug (Some b) calls rs -> page U W debug l (CallResult text :: calls) (Some w :: rs)
| page_refused : forall l text calls rs, refused U text ->
    page U W debug None calls rs -> page U W debug l (CallResult text :: calls) (Some (debug text SMParseError) :: rs)
| page_error : forall l text a e calls rs, understood U text a -> evaluates W a (Err e) ->
    page U W debug None calls rs -> page U W debug l (CallResult text :: calls) (Some (debug text e) :: rs)
| page_tex : forall b t calls rs, tex_shown b t -> page U W debug (Some b) calls rs -> page U W debug (Some b) (CallTex :: calls) (Some t :: rs)
(** nothing works any more after a panic *)
| page_broken : forall l text calls, silent U W text -> page U W debug l (CallResult text :: calls) (map (fun _ => None) (CallResult text :: calls))
| page_no_tex : forall calls, page U W debug None (CallTex :: calls) (map (fun _ => None) (CallTex :: calls)).

Definition reply (r : outcome str) : option str := match r with Ret t => Some t | _ => None end.
