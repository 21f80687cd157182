(** How often the functions of the generated parser are called, and how deep the
    calls nest. *)
From Verif Require Import Base Peg Grammar Build.
Local Open Scope nat_scope.

Section Steps.
  Context {R : Type}.
  Variable U : unicode.
  Variable g : R -> pexp R.
  Variable sk : pexp R.

  (** The calls made while [run] evaluates the same expression: the combinators of
      pest 2.1 parser_state.rs, in the order of [Peg.run]; one for each call of a
      function of sm_parser.rs:169-985.  The work of pest itself between two calls
      is not counted. *)
  Fixpoint steps (fuel : nat) (e : pexp R) (k : atomicity) (quiet : bool) (s : pstate) : nat :=
    match fuel with
    | O => 0
    | S f =>
        match e with
        | EStr _ | EInsens _ | ERange _ _ | EClass _ | EAny | EEoi | ESoi | EPeek | EPop => 0
        | EThen a b =>
            steps f a k quiet s +
            match run U g sk f a k quiet s with POk s1 _ => steps f b k quiet s1 | _ => 0 end
        | EElse a b =>
            steps f a k quiet s +
            match run U g sk f a k quiet s with PErr s1 _ => steps f b k quiet s1 | _ => 0 end
        | ERep a =>
            steps f a k quiet s +
            match run U g sk f a k quiet s with POk s1 _ => steps f (ERep a) k quiet s1 | _ => 0 end
        | ESeq a | EOpt a | ERestore a | ERule _ a | EPush a => steps f a k quiet s
        | ENot a => steps f a k true s
        | EAtomic k' a => steps f a k' quiet s
        | ECall r => S (steps f (g r) k quiet s)
        | ESkip => match k with NonAtomic => steps f sk k quiet s | _ => 0 end
        end
    end.

  (** The most calls of functions of sm_parser.rs:169-985 that are open at the same
      time while [run] evaluates the expression.  pest's [repeat] is a loop, so the
      rounds of a repetition do not nest (pest 2.1 parser_state.rs).  Frames of pest
      itself and of the closures are not counted. *)
  Fixpoint depth (fuel : nat) (e : pexp R) (k : atomicity) (quiet : bool) (s : pstate) : nat :=
    match fuel with
    | O => 0
    | S f =>
        match e with
        | EStr _ | EInsens _ | ERange _ _ | EClass _ | EAny | EEoi | ESoi | EPeek | EPop => 0
        | EThen a b =>
            Nat.max (depth f a k quiet s)
              match run U g sk f a k quiet s with POk s1 _ => depth f b k quiet s1 | _ => 0 end
        | EElse a b =>
            Nat.max (depth f a k quiet s)
              match run U g sk f a k quiet s with PErr s1 _ => depth f b k quiet s1 | _ => 0 end
        | ERep a =>
            Nat.max (depth f a k quiet s)
              match run U g sk f a k quiet s with POk s1 _ => depth f (ERep a) k quiet s1 | _ => 0 end
        | ESeq a | EOpt a | ERestore a | ERule _ a | EPush a => depth f a k quiet s
        | ENot a => depth f a k true s
        | EAtomic k' a => depth f a k' quiet s
        | ECall r => S (depth f (g r) k quiet s)
        | ESkip => match k with NonAtomic => depth f sk k quiet s | _ => 0 end
        end
    end.
End Steps.

(** the calls made by [SMParser::parse(Rule::program, text)], parse.rs:30 *)
Definition program_steps (U : unicode) (text : str) : nat :=
  steps U grammar skip_body (peg_fuel text) (ECall R_program) NonAtomic false (mkPs 0 text []).
(** the deepest nesting of calls in [SMParser::parse(Rule::program, text)], parse.rs:30 *)
Definition program_depth (U : unicode) (text : str) : nat :=
  depth U grammar skip_body (peg_fuel text) (ECall R_program) NonAtomic false (mkPs 0 text []).
