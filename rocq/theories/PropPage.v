(** Property theorem about the web page; [SpecPage] says which replies a sequence
    of calls gets. *)
From Verif Require Import Base Ast SmError Peg Build Runner SpecAnswer SpecReply SpecPage ProofSample ProofReply ProofPage.
Local Open Scope Z_scope.

(** ** C61 the page from the first call to the last *)
(** [debug] is the rendering of the errors of a text, any function *)
Theorem C61_page : forall U W, 0 < W -> forall debug calls rs,
  map reply (pg_run W (parse U (lit "anonymous")) debug calls fresh_playground) = rs <-> page U W debug None calls rs.
Proof. exact playground_page. Qed.
Print Assumptions C61_page.

Example C61_example : page ascii_only 64 (fun _ _ => lit "error") None
  [CallResult (lit "5!"); CallTex; CallTex; CallResult (lit "1+1"); CallResult (lit """s"""); CallTex; CallResult (lit ")"); CallTex; CallResult (lit "1"); CallTex]
  [Some (lit "120"); Some (lit "120"); Some (lit "120"); Some (lit "error"); Some (lit "s"); Some (lit "\\text{s}"); Some (lit "error"); None; None; None].
Proof. apply C61_page; [reflexivity|]. vm_compute. reflexivity. Qed.
