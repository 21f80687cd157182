(** The parser combinators of pest 2.1 (external crate) that the generated parser
    projects/sm-parser/src/sm_parser.rs is written with, as a deep embedding with
    a fuelled interpreter.  The fuel is proved sufficient in ProofPeg.v. *)
From Verif Require Import Base.

(** [pest::Atomicity]; pest 2.1; sm_parser.rs:155-1141 *)
Inductive atomicity := NonAtomic | CompoundAtomic | Atomic.

(** arguments of [match_char_by]; sm_parser.rs throughout *)
Inductive uclass := WhiteSpace | XidStart | XidContinue.

Section Syntax.
  Variable R : Type.

  (** Expressions of the generated code; [state.] and the closures are left out.
      sm_parser.rs:155-1141 *)
  Inductive pexp :=
  | EStr (s : str)                        (* match_string(s) *)
  | EInsens (s : str)                     (* match_insensitive(s) *)
  | ERange (a b : char)                   (* match_range(a..b), both inclusive *)
  | EClass (k : uclass)                   (* match_char_by *)
  | EAny                                  (* skip(1) *)
  | EEoi                                  (* end_of_input() *)
  | ESoi                                  (* start_of_input() *)
  | EThen (a b : pexp)                    (* a.and_then(b) *)
  | EElse (a b : pexp)                    (* a.or_else(b) *)
  | ESeq (a : pexp)                       (* sequence(a) *)
  | EOpt (a : pexp)                       (* optional(a) *)
  | ERep (a : pexp)                       (* repeat(a) *)
  | ERestore (a : pexp)                   (* restore_on_err(a) *)
  | ENot (a : pexp)                       (* lookahead(false, a) *)
  | ERule (r : R) (a : pexp)              (* rule(r, a) *)
  | EAtomic (k : atomicity) (a : pexp)    (* atomic(k, a) *)
  | EPush (a : pexp)                      (* stack_push(a) *)
  | EPeek                                 (* stack_peek() *)
  | EPop                                  (* stack_pop() *)
  | ECall (r : R)                         (* call of another generated function *)
  | ESkip.                                (* hidden::skip *)

  (** [pest::iterators::Pair]: rule, span (offsets counted in chars instead of
      bytes), [as_str], [into_inner]. pest 2.1. *)
  Inductive tree :=
  | Node (r : R) (start stop : nat) (text : str) (inner : list tree).
End Syntax.
Arguments EStr {R}. Arguments EInsens {R}. Arguments ERange {R}. Arguments EClass {R}.
Arguments EAny {R}. Arguments EEoi {R}. Arguments ESoi {R}. Arguments EThen {R}.
Arguments EElse {R}. Arguments ESeq {R}. Arguments EOpt {R}. Arguments ERep {R}.
Arguments ERestore {R}. Arguments ENot {R}. Arguments ERule {R}. Arguments EAtomic {R}.
Arguments EPush {R}. Arguments EPeek {R}. Arguments EPop {R}. Arguments ECall {R}.
Arguments ESkip {R}. Arguments Node {R}.

(** The parts of [pest::ParserState] that influence parsing: offset, remaining
    input, stack of matched texts.  The token queue is returned as trees, atomicity
    and lookahead are arguments of [run]. pest 2.1 parser_state.rs. *)
Record pstate := mkPs { pos : nat; rest : str; stk : list str }.

(** [ParseResult]: the state and the tokens queued since the expression was
    entered; plus a panic ([expect] on an empty stack) and lack of fuel.
    pest 2.1 parser_state.rs *)
Inductive pres (R : Type) :=
| POk (s : pstate) (ts : list (tree R))
| PErr (s : pstate) (ts : list (tree R))
| PPanic
| PFuel.
Arguments POk {R}. Arguments PErr {R}. Arguments PPanic {R}. Arguments PFuel {R}.

(** [str::starts_with] and what follows; pest 2.1 [match_string] *)
Fixpoint strip_prefix (p s : str) : option str :=
  match p, s with
  | [], _ => Some s
  | a :: p', b :: s' => if N.eqb a b then strip_prefix p' s' else None
  | _ :: _, [] => None
  end.

(** [u8::to_ascii_lowercase] on a char; pest 2.1 [match_insensitive] *)
Definition ascii_lower (c : char) : char :=
  if ((65 <=? c) && (c <=? 90))%N then (c + 32)%N else c.

(** [eq_ignore_ascii_case] on the first [len] bytes; the literals are ASCII;
    pest 2.1 [match_insensitive] *)
Fixpoint strip_prefix_insensitive (p s : str) : option str :=
  match p, s with
  | [], _ => Some s
  | a :: p', b :: s' =>
      if N.eqb (ascii_lower a) (ascii_lower b) then strip_prefix_insensitive p' s' else None
  | _ :: _, [] => None
  end.

(** Unicode White_Space (the complete list); pest 2.1 unicode tables *)
Definition white_space (c : char) : bool :=
  ((9 <=? c) && (c <=? 13) || (c =? 32) || (c =? 133) || (c =? 160) || (c =? 5760)
   || (8192 <=? c) && (c <=? 8202) || (c =? 8232) || (c =? 8233) || (c =? 8239)
   || (c =? 8287) || (c =? 12288))%N.
(** no code *)
Definition ascii_letter (c : char) : bool :=
  ((65 <=? c) && (c <=? 90) || (97 <=? c) && (c <=? 122))%N.
(** no code *)
Definition ascii_digit (c : char) : bool := ((48 <=? c) && (c <=? 57))%N.

(** XID_Start and XID_Continue: exact on ASCII, arbitrary predicates elsewhere;
    pest 2.1 unicode tables *)
Record unicode := mkUnicode { xid_start_hi : char -> bool; xid_continue_hi : char -> bool }.
(** pest 2.1 unicode tables *)
Definition xid_start (U : unicode) (c : char) : bool :=
  if (c <? 128)%N then ascii_letter c else xid_start_hi U c.
(** pest 2.1 unicode tables *)
Definition xid_continue (U : unicode) (c : char) : bool :=
  if (c <? 128)%N then ascii_letter c || ascii_digit c || (c =? 95)%N
  else xid_continue_hi U c.
(** pest 2.1 [match_char_by] *)
Definition in_class (U : unicode) (k : uclass) (c : char) : bool :=
  match k with
  | WhiteSpace => white_space c
  | XidStart => xid_start U c
  | XidContinue => xid_continue U c
  end.

(** the text between two positions of the same input; pest 2.1 [Pair::as_str] *)
Definition consumed (before after : str) : str :=
  firstn (length before - length after) before.

(** a position moved forward (pest 2.1 position.rs) *)
Definition advance (s : pstate) (r : str) : pstate :=
  mkPs (pos s + (length (rest s) - length r)) r (stk s).

Section Run.
  Context {R : Type}.
  Variable U : unicode.
  Variable g : R -> pexp R.
  Variable sk : pexp R.

  Notation pres := (pres R).

  (** the result of matching a fixed number of chars (pest 2.1 parser_state.rs) *)
  Definition take (s : pstate) (r : option str) : pres :=
    match r with Some k => POk (advance s k) [] | None => PErr s [] end.

  (** one character satisfying p; pest 2.1 [match_char_by] *)
  Definition take_char (p : char -> bool) (s : pstate) : pres :=
    match rest s with
    | c :: k => if p c then POk (advance s k) [] else PErr s []
    | [] => PErr s []
    end.

  (** queue the earlier tokens before those of a result; pest 2.1 [sequence] *)
  Definition prepend (ts : list (tree R)) (r : pres) : pres :=
    match r with
    | POk s us => POk s (ts ++ us)
    | PErr s us => PErr s (ts ++ us)
    | PPanic => PPanic
    | PFuel => PFuel
    end.

  (** does [rule] queue tokens: not inside a lookahead, not in atomic mode;
      pest 2.1 [ParserState::rule] *)
  Definition emits (k : atomicity) (quiet : bool) : bool :=
    match k with Atomic => false | _ => negb quiet end.

  (** [quiet]: inside a lookahead.  Error tracking: [Track.v]. pest 2.1 parser_state.rs. *)
  Fixpoint run (fuel : nat) (e : pexp R) (k : atomicity) (quiet : bool) (s : pstate) : pres :=
    match fuel with
    | O => PFuel
    | S f =>
        match e with
        | EStr l => take s (strip_prefix l (rest s))
        | EInsens l => take s (strip_prefix_insensitive l (rest s))
        | ERange a b => take_char (fun c => (a <=? c) && (c <=? b))%N s
        | EClass c => take_char (in_class U c) s
        | EAny => take_char (fun _ => true) s
        | EEoi => match rest s with [] => POk s [] | _ :: _ => PErr s [] end
        | ESoi => match pos s with O => POk s [] | S _ => PErr s [] end
        | EThen a b =>
            match run f a k quiet s with
            | POk s1 t1 => prepend t1 (run f b k quiet s1)
            | r => r
            end
        | EElse a b =>
            match run f a k quiet s with
            | PErr s1 t1 => prepend t1 (run f b k quiet s1)
            | r => r
            end
        | ESeq a =>
            match run f a k quiet s with
            | PErr s1 _ => PErr (mkPs (pos s) (rest s) (stk s1)) []
            | r => r
            end
        | EOpt a =>
            match run f a k quiet s with
            | PErr s1 t1 => POk s1 t1
            | r => r
            end
        | ERep a =>
            match run f a k quiet s with
            | POk s1 t1 => prepend t1 (run f (ERep a) k quiet s1)
            | PErr s1 t1 => POk s1 t1
            | r => r
            end
        | ERestore a =>
            match run f a k quiet s with
            | PErr s1 t1 => PErr (mkPs (pos s1) (rest s1) (stk s)) t1
            | r => r
            end
        | ENot a =>
            match run f a k true s with
            | POk _ _ => PErr s []
            | PErr _ _ => POk s []
            | r => r
            end
        | ERule r a =>
            match run f a k quiet s with
            | POk s1 t1 =>
                POk s1 (if emits k quiet
                        then [Node r (pos s) (pos s1) (consumed (rest s) (rest s1)) t1]
                        else t1)
            | PErr s1 t1 => PErr s1 (if emits k quiet then [] else t1)
            | x => x
            end
        | EAtomic k' a => run f a k' quiet s
        | EPush a =>
            match run f a k quiet s with
            | POk s1 t1 =>
                POk (mkPs (pos s1) (rest s1) (consumed (rest s) (rest s1) :: stk s1)) t1
            | r => r
            end
        | EPeek =>
            match stk s with
            | [] => PPanic
            | t :: _ => take s (strip_prefix t (rest s))
            end
        | EPop =>
            match stk s with
            | [] => PPanic
            | t :: st =>
                let s' := mkPs (pos s) (rest s) st in
                take s' (strip_prefix t (rest s'))
            end
        | ECall r => run f (g r) k quiet s
        | ESkip =>
            match k with
            | NonAtomic => run f sk k quiet s
            | _ => POk s []
            end
        end
    end.
End Run.
