(** What a session answers. *)
From Verif Require Import Base Ast Internal Peg Build Runner SpecAst.

(** the answer to one more text after a session of any calls (which ends with the
    first call that panics, if any); the file name is that of the runner *)
Definition answer (U : unicode) (W : Z) (calls : list str) (text : str) : outcome (sm_result str) :=
  snd (Runner.evaluate W (parse U (lit "anonymous")) text
    (fst (run_session W (parse U (lit "anonymous")) calls empty_context))).

(** the decimal numeral of n *)
Definition prints (n : Z) (r : outcome (sm_result str)) : Prop := exists z, numeral_of n z /\ r = Ret (Ok z).
