(** pest's precedence climber (external crate pest 2.1, prec_climber.rs) and the
    operator table of projects/sm-ast/src/parser/mod.rs. *)
From Verif Require Import Base Peg Grammar.
Local Open Scope Z_scope.
Local Open Scope outcome_scope.

(** [pest::prec_climber::Assoc]; used at parser/mod.rs:15-32 *)
Inductive assoc := Left | Right.

(** parser/mod.rs:15-32 [OPERATORS], [CLIMBER.get] *)
Definition operators (r : rule) : option (Z * assoc) :=
  match r with
  | R_Plus => Some (310, Left)
  | R_Minus => Some (310, Left)
  | R_Multiply => Some (400, Left)
  | R_Divide => Some (470, Left)
  | R_Power => Some (590, Right)
  | R_Map => Some (620, Left)
  | R_Dot => Some (900, Left)
  | _ => None
  end.

(** [PrecClimber::climb] and [climb_rec].  A pair is given with the outcome of
    [primary] on it, which is only inspected where pest calls [primary].  The
    iterator is the list of the remaining pairs, which is returned. *)
Section Climb.
  Context {I T : Type}.
  Variable get : I -> option (Z * assoc).
  Variable infix : T -> I -> T -> outcome T.
  Notation pairs := (list (I * outcome T)).

  (** [climb_outer] is the body of [climb_rec]; [climb_inner] its inner loop, which
      collects the right operand of an operator of precedence [prec].
      called at parser/parse.rs:62 *)
  Fixpoint climb_outer (fuel : nat) (lhs : T) (min_prec : Z) (ps : pairs) : outcome (T * pairs) :=
    match fuel with
    | O => OutOfFuel
    | S f =>
        match ps with
        | [] => Ret (lhs, ps)
        | (op, _) :: ps1 =>
            match get op with
            | None => Ret (lhs, ps)
            | Some (prec, _) =>
                if prec >=? min_prec then
                  match ps1 with
                  | [] => Panic PUnwrap
                  | (_, primary) :: ps2 =>
                      r0 <- primary;
                      '(r, ps3) <- climb_inner f prec r0 ps2;
                      l <- infix lhs op r;
                      climb_outer f l min_prec ps3
                  end
                else Ret (lhs, ps)
            end
        end
    end
  (** the inner [while] of [climb_rec]; called at parser/parse.rs:62 *)
  with climb_inner (fuel : nat) (prec : Z) (rhs : T) (ps : pairs) : outcome (T * pairs) :=
    match fuel with
    | O => OutOfFuel
    | S f =>
        match ps with
        | [] => Ret (rhs, ps)
        | (op, _) :: _ =>
            match get op with
            | None => Ret (rhs, ps)
            | Some (new_prec, a) =>
                if (new_prec >? prec) || (match a with Right => new_prec =? prec | Left => false end)
                then '(r, ps1) <- climb_outer f rhs new_prec ps; climb_inner f prec r ps1
                else Ret (rhs, ps)
            end
        end
    end.

  (** [PrecClimber::climb]; the fuel is proved sufficient in ProofClimber.v;
      called at parser/parse.rs:62 *)
  Definition climb (ps : pairs) : outcome T :=
    match ps with
    | [] => Panic PUnwrap
    | (_, primary) :: ps' =>
        l <- primary;
        '(r, _) <- climb_outer (S (2 * length ps)) l 0 ps';
        Ret r
    end.
End Climb.
