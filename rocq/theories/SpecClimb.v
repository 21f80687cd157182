(** Specification vocabulary for operator precedence. *)
From Verif Require Import Base.
Local Open Scope Z_scope.
Local Open Scope outcome_scope.

Section Spec.
  Context {I : Type}.
  (** a fully bracketed expression over operands and binary operators *)
  Inductive bracketing := Leaf (x : I) | Bin (l : bracketing) (o : I) (r : bracketing).

  (** the operands and operators in the order they are written *)
  Fixpoint written (t : bracketing) : list I :=
    match t with Leaf x => [x] | Bin l o r => written l ++ o :: written r end.

  Definition root_op (t : bracketing) : option I := match t with Leaf _ => None | Bin _ o _ => Some o end.

  (** binding strength of an operator, and whether it associates to the right *)
  Variable strength : I -> Z.
  Variable to_right : I -> bool.

  (** an operator below another binds tighter, or equally tight on the side to
      which that strength associates *)
  Inductive well_bracketed : bracketing -> Prop :=
  | wb_leaf : forall x, well_bracketed (Leaf x)
  | wb_bin : forall l o r,
      well_bracketed l -> well_bracketed r ->
      (forall p, root_op l = Some p ->
         strength p > strength o \/ strength p = strength o /\ to_right o = false) ->
      (forall p, root_op r = Some p ->
         strength p > strength o \/ strength p = strength o /\ to_right o = true) ->
      well_bracketed (Bin l o r).

  (** evaluation: operands from left to right, each operator after its operands *)
  Context {T : Type}.
  Variable operand : I -> outcome T.
  Variable apply : T -> I -> T -> outcome T.
  Fixpoint evaluate (t : bracketing) : outcome T :=
    match t with
    | Leaf x => operand x
    | Bin l o r => a <- evaluate l; b <- evaluate r; apply a o b
    end.
End Spec.
Arguments bracketing : clear implicits.

(** x0 o1 x1 o2 x2 ... *)
Definition alternate {I} (x0 : I) (l : list (I * I)) : list I :=
  x0 :: flat_map (fun p => [fst p; snd p]) l.
