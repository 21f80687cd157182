(** Where the error of a refused text points: the bookkeeping of pest 2.1
    (external crate) behind the message in [ParseError]. *)
From Verif Require Import Base Peg Grammar Build.
Local Open Scope nat_scope.

(** [pest::Lookahead]; pest 2.1 parser_state.rs *)
Inductive lookahead := LNone | LPositive | LNegative.
(** does the lookahead keep [rule] from queueing tokens; pest 2.1 [ParserState::rule] *)
Definition quiet_of (l : lookahead) : bool := match l with LNone => false | _ => true end.
(** the lookahead inside [lookahead(false, ..)]; pest 2.1 [ParserState::lookahead] *)
Definition turned (l : lookahead) : lookahead := match l with LNegative => LPositive | _ => LNegative end.
(** [ParserState::lookahead == Negative]; pest 2.1 parser_state.rs *)
Definition negative (l : lookahead) : bool := match l with LNegative => true | _ => false end.
(** [ParserState::atomicity == Atomic]; pest 2.1 parser_state.rs *)
Definition atomic (k : atomicity) : bool := match k with Atomic => true | _ => false end.

Section Track.
  Context {R : Type}.
  Variable U : unicode.
  Variable g : R -> pexp R.
  Variable sk : pexp R.

  (** The fields [attempt_pos], [pos_attempts] and [neg_attempts] of
      [ParserState]; pest 2.1 parser_state.rs.  Offsets in chars, the lists newest
      last as in pest. *)
  Record attempts := mkAt { a_pos : nat; a_yes : list R; a_no : list R }.

  (** [ParserState::attempts_at]; pest 2.1 parser_state.rs *)
  Definition attempts_at (a : attempts) (p : nat) : nat :=
    if a_pos a =? p then length (a_yes a) + length (a_no a) else 0.

  (** [ParserState::track]: rule, its position, the lengths of the two lists and the
      number of attempts when it was entered; pest 2.1 parser_state.rs *)
  Definition track (l : lookahead) (k : atomicity) (r : R) (p yi ni prev : nat) (a : attempts) : attempts :=
    if atomic k then a
    else
      let now := attempts_at a p in
      if (prev <? now) && (now - prev =? 1) then a
      else
        let a1 := if p =? a_pos a then mkAt (a_pos a) (firstn yi (a_yes a)) (firstn ni (a_no a)) else a in
        let a2 := if a_pos a1 <? p then mkAt p [] [] else a1 in
        if p =? a_pos a2
        then if negative l then mkAt (a_pos a2) (a_yes a2) (a_no a2 ++ [r])
             else mkAt (a_pos a2) (a_yes a2 ++ [r]) (a_no a2)
        else a2.

  (** [ParserState::rule] around its closure: [before] the attempts on entry, [after]
      those the closure leaves, [ok] whether it succeeded.  A rule is recorded if it
      failed, inside a negative lookahead if it succeeded; pest 2.1 parser_state.rs *)
  Definition tracked (l : lookahead) (k : atomicity) (r : R) (p : nat) (ok : bool) (before after : attempts) : attempts :=
    if Bool.eqb ok (negative l)
    then track l k r p (if p =? a_pos before then length (a_yes before) else 0)
           (if p =? a_pos before then length (a_no before) else 0) (attempts_at before p) after
    else after.

  (** The attempts left when [run] has evaluated the same expression from the same
      state; the combinators of pest 2.1 parser_state.rs in the order of [Peg.run].
      [ParserState] carries the attempts through failures as through successes. *)
  Fixpoint trace (fuel : nat) (e : pexp R) (k : atomicity) (l : lookahead) (s : pstate) (a : attempts) : attempts :=
    match fuel with
    | O => a
    | S f =>
        match e with
        | EStr _ | EInsens _ | ERange _ _ | EClass _ | EAny | EEoi | ESoi | EPeek | EPop => a
        | EThen x y =>
            match run U g sk f x k (quiet_of l) s with
            | POk s1 _ => trace f y k l s1 (trace f x k l s a)
            | _ => trace f x k l s a
            end
        | EElse x y =>
            match run U g sk f x k (quiet_of l) s with
            | PErr s1 _ => trace f y k l s1 (trace f x k l s a)
            | _ => trace f x k l s a
            end
        | ERep x =>
            match run U g sk f x k (quiet_of l) s with
            | POk s1 _ => trace f (ERep x) k l s1 (trace f x k l s a)
            | _ => trace f x k l s a
            end
        | ESeq x | EOpt x | ERestore x | EPush x => trace f x k l s a
        | ENot x => trace f x k (turned l) s a
        | ERule r x =>
            match run U g sk f x k (quiet_of l) s with
            | POk _ _ => tracked l k r (pos s) true a (trace f x k l s a)
            | PErr _ _ => tracked l k r (pos s) false a (trace f x k l s a)
            | _ => trace f x k l s a
            end
        | EAtomic k' x => trace f x k' l s a
        | ECall r => trace f (g r) k l s a
        | ESkip => match k with NonAtomic => trace f sk k l s a | _ => a end
        end
    end.
End Track.
Arguments attempts : clear implicits. Arguments mkAt {R}. Arguments a_pos {R}. Arguments a_yes {R}. Arguments a_no {R}.

(** the attempts left by [SMParser::parse(Rule::program, text)], parse.rs:30; a new
    [ParserState] starts at attempt 0 with none; pest 2.1 [pest::state] *)
Definition program_attempts (U : unicode) (text : str) : attempts rule :=
  trace U grammar skip_body (peg_fuel text) (ECall R_program) NonAtomic LNone (mkPs 0 text []) (mkAt 0 [] []).

(** What the error in [ParseError] says: the offset it points to and the rules
    listed after "expected" and "unexpected" (here unsorted and with repetitions);
    None when the text is accepted.  The layout of the message is in [Message.v]. parse.rs:30, error/traits.rs:15-19, pest 2.1 [pest::state] *)
Definition parse_error (U : unicode) (text : str) : option (nat * list rule * list rule) :=
  match run_program U text with
  | PErr _ _ => let a := program_attempts U text in Some (a_pos a, a_yes a, a_no a)
  | _ => None
  end.
(** the line and column after the arrow in the message, from 1; pest 2.1
    [Error::new_from_pos], [Position::line_col] *)
Definition error_place (U : unicode) (text : str) : option (Z * Z) :=
  match parse_error U text with
  | Some (p, _, _) => Some (line_col (firstn p text))
  | None => None
  end.
