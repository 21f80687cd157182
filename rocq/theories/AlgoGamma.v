(** projects/sm-algorithm/src/gamma/factorial.rs *)
From Verif Require Import Base AlgoError NumTypes.
Local Open Scope Z_scope.

(** factorial.rs:18-20 [factorial_fold_u]: fold over the range 1..=n. *)
Definition factorial_fold_u (n : Z) : Z :=
  fold_left (fun a b => a * b) (zseq 1 (Z.to_nat n)) 1.

(** factorial.rs:22-34 [factorial_i] *)
Definition factorial_i (W : Z) (n : Z) : alg_result Z :=
  match to_isize W n with
  | Some s => if s <? 0 then Err ComplexInfinity
              else Ok (factorial_fold_u (isize_as_usize W s))
  | None => Err OverFlow
  end.
