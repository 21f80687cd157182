(** Properties of calls of parse_file at the same time. *)
From Verif Require Import Base Ast SmError ParseFile ParseFiles SpecSession SpecFiles.
From Verif Require Import ProofFiles.

(** C77: calls in which no destination is a destination or source of another run as
    if each were alone, in every order of their steps: each is at every moment as far
    as some run of it alone, with the same destination file *)
Theorem C77_apart : forall decode parse bytes f0 args f js i from to j,
  apart args -> jobs_reach decode parse bytes (f0, calls args) (f, js) -> nth_error args i = Some (from, to) -> nth_error js i = Some j ->
  exists g pc, pf_reach decode parse bytes from to (f0, AtRead) (g, pc) /\ same_stage (job_at j) pc /\ f to = g to.
Proof.
  exact as_alone.
Qed.
Print Assumptions C77_apart.

(** C77: so when all of them succeed, every destination holds the output for its source *)
Theorem C77_apart_done : forall decode parse bytes f0 args f js,
  apart args -> jobs_reach decode parse bytes (f0, calls args) (f, js) -> Forall succeeded js ->
  forall from to, In (from, to) args -> exists a, parse_succeeds decode parse from f0 a /\ f to = Some (bytes a).
Proof.
  exact apart_done.
Qed.
Print Assumptions C77_apart_done.

(** C77: no file but the destinations is changed, whatever the calls are *)
Theorem C77_other_paths : forall decode parse bytes f0 args f js q,
  jobs_reach decode parse bytes (f0, calls args) (f, js) -> ~ In q (map snd args) -> f q = f0 q.
Proof.
  exact other_paths.
Qed.
Print Assumptions C77_other_paths.

(** C77: one call, read and written piece by piece, is the call of C49 *)
Theorem C77_alone : forall decode parse bytes f0 from to r,
  (forall f, jobs_reach decode parse bytes (f0, calls [(from, to)]) (f, [mkJob from to (Over r)]) -> exists g, pf_reach decode parse bytes from to (f0, AtRead) (g, Finished r) /\ forall q, f q = g q) /\
  (forall f, pf_reach decode parse bytes from to (f0, AtRead) (f, Finished r) -> jobs_reach decode parse bytes (f0, calls [(from, to)]) (f, [mkJob from to (Over r)])).
Proof.
  exact alone_same.
Qed.
Print Assumptions C77_alone.

(** C77: two calls with the same destination can both succeed and leave the output of
    the second followed by what is left of the output of the first *)
Theorem C77_same_destination_refuted : forall decode parse bytes f0 from1 from2 to a1 a2,
  parse_succeeds decode parse from1 f0 a1 -> parse_succeeds decode parse from2 f0 a2 ->
  exists f js, jobs_reach decode parse bytes (f0, calls [(from1, to); (from2, to)]) (f, js) /\ Forall succeeded js /\
    f to = Some (bytes a2 ++ skipn (length (bytes a2)) (bytes a1)).
Proof.
  exact mixed.
Qed.
Print Assumptions C77_same_destination_refuted.

(** C77: but any number of calls that write the same bytes to the same destination
    leave these bytes when all have succeeded *)
Theorem C77_same_output : forall decode parse bytes f0 t w args f js,
  Forall (fun a => snd a = t /\ fst a <> t /\ exists b, parse_succeeds decode parse (fst a) f0 b /\ bytes b = w) args -> args <> [] ->
  jobs_reach decode parse bytes (f0, calls args) (f, js) -> Forall succeeded js -> f t = Some w.
Proof.
  exact same_output.
Qed.
Print Assumptions C77_same_output.

(** C77: a call that reads the destination of another may take any first part of the
    output for the whole of it, although the other succeeds *)
Theorem C77_torn_read : forall decode parse bytes f0 from middle to a u v text,
  parse_succeeds decode parse from f0 a -> bytes a = u ++ v -> decode u = Some text ->
  exists f js, jobs_reach decode parse bytes (f0, calls [(from, middle); (middle, to)]) (f, js) /\ f middle = Some (bytes a) /\
    map job_at js = [Over (Ret (Ok tt)); Parsing text].
Proof.
  exact torn.
Qed.
Print Assumptions C77_torn_read.

(** the digits 1 and 23 written back *)
Example C77_example :
  let decode := fun b => Some b in
  let parse := fun s => match s with [c] => Ret (Ok (Integer 1)) | _ => Ret (Ok (Integer 23)) end in
  let bytes := fun a => match a with Integer 1 => [49%N] | _ => [50%N; 51%N] end in
  let f0 := update (update (fun _ => None) (lit "a") [49%N]) (lit "b") [50%N; 51%N] in
  parse_succeeds decode parse (lit "a") f0 (Integer 1) /\ parse_succeeds decode parse (lit "b") f0 (Integer 23) /\
  apart [(lit "a", lit "c"); (lit "b", lit "d")] /\
  exists f js, jobs_reach decode parse bytes (f0, calls [(lit "b", lit "c"); (lit "a", lit "c")]) (f, js) /\ Forall succeeded js /\ f (lit "c") = Some [49%N; 51%N].
Proof.
  cbv zeta. split; [exists [49%N], [49%N]; repeat split|]. split; [exists [50%N; 51%N], [50%N; 51%N]; repeat split|]. split.
  - intros [|[|i]] [|[|j]] a b N Ha Hb; try (contradiction N; reflexivity); try (destruct i; discriminate Ha); try (destruct j; discriminate Hb);
      injection Ha as <-; injection Hb as <-; split; discriminate.
  - apply (mixed _ _ (fun a => match a with Integer 1 => [49%N] | _ => [50%N; 51%N] end) _ _ _ _ (Integer 23) (Integer 1)); [exists [50%N; 51%N], [50%N; 51%N]; repeat split|exists [49%N], [49%N]; repeat split].
Qed.
