(** Property theorems about brackets.  The vocabulary is in [SpecBracket],
    [SpecOutside] and [SpecFault]. *)
From Verif Require Import Base Ast SmError Internal Peg Grammar Build Track SpecSyntax SpecText SpecSource SpecPlace SpecManual SpecFault SpecBracket SpecOutside.
From Verif Require Import ProofBracket ProofOutside ProofSample.
Local Open Scope outcome_scope.
Local Open Scope nat_scope.

(** ** C71 brackets match *)
(** a text with a string that has no end, or whose brackets outside strings and comments do not match, is refused *)
Theorem C71_outside : forall U text, ~ (exists k, outside text = Some k /\ balanced k) -> forall f, parse U f text = Ret (Err SMParseError).
Proof. exact outside_refused. Qed.
Print Assumptions C71_outside.
(** all of a text without quotes and starts of comments is outside *)
Theorem C71_bare_outside : forall text, bare text = true -> outside text = Some text.
Proof. exact bare_outside. Qed.
Print Assumptions C71_bare_outside.
(** a text without strings and comments whose brackets do not match is refused *)
Theorem C71_unbalanced : forall U text, bare text = true -> ~ balanced text -> forall f, parse U f text = Ret (Err SMParseError).
Proof. exact unbalanced_refused. Qed.
Print Assumptions C71_unbalanced.
(** and the error is not after the first closing bracket that closes nothing, whatever surrounds it *)
Theorem C71_closer : forall U u c w, bare u = true -> closes_nothing u c ->
  (forall f, parse U f (u ++ c :: w) = Ret (Err SMParseError)) /\ exists i, i <= length u /\ blamed U (u ++ c :: w) i.
Proof. exact closer_refused. Qed.
Print Assumptions C71_closer.
(** after an expression, the error is exactly at the closing bracket *)
Theorem C71_closer_after_expression : forall U, sane U -> forall g t x o ws a c w, spacing g = true -> lines U t -> expr U x o -> plain_start x = true ->
  t = [] \/ head_is operator_start x = false -> spacing ws = true -> In (a, c) brackets -> bare (g ++ t ++ x ++ ws) = true ->
  blamed U ((g ++ t ++ x ++ ws) ++ c :: w) (length (g ++ t ++ x ++ ws)).
Proof. exact closer_exact. Qed.
Print Assumptions C71_closer_after_expression.

(** f(a, [b]) is balanced; the closing bracket of f(a] closes nothing; brackets in strings need not match *)
Example C71_example : balanced (lit "f(a,[b])") /\ ~ balanced (lit "f(a]") /\ closes_nothing (lit "f(a") 93%N /\ closes_nothing (lit "a") 41%N /\ bare (lit "f(a") = true /\
  parse ascii_only [] (lit "f(a]") = Ret (Err SMParseError) /\ error_place ascii_only (lit "f(a] b") = Some (1%Z, 4%Z) /\
  error_place ascii_only (lit "f(a))") = Some (1%Z, 5%Z) /\ bare (quoted (lit ")")) = false /\ error_place ascii_only (quoted (lit ")")) = None.
Proof.
  assert (P : forall c, existsb (N.eqb c) [40; 41; 91; 93; 123; 125]%N = false -> ~ a_bracket c).
  { intros c H (d & [K|K]); cbn [brackets In] in K; destruct K as [K|[K|[K|[]]]]; injection K as <- <-; discriminate. }
  assert (C : closes_nothing (lit "f(a") 93%N).
  { apply (walk_closes_nothing (lit "f(a") 93%N); [reflexivity|reflexivity|discriminate]. }
  assert (B : closes_nothing (lit "a") 41%N) by (apply walk_closes_nothing; [reflexivity|reflexivity|discriminate]).
  split.
  { change (balanced (102%N :: 40%N :: lit "a,[b]" ++ 41%N :: [])). apply balanced_plain; [apply P; reflexivity|]. apply balanced_pair; [cbn; auto| |constructor].
    do 2 (apply balanced_plain; [apply P; reflexivity|]). change (balanced (91%N :: lit "b" ++ 93%N :: [])). apply balanced_pair; [cbn; auto| |constructor].
    apply balanced_plain; [apply P; reflexivity|constructor]. }
  split; [intro X; apply balanced_walk with (st := []) in X; discriminate X|]. split; [exact C|]. split; [exact B|]. repeat split; vm_compute; reflexivity.
Qed.

(** brackets in strings and comments do not count, and those of the rest must match *)
Example C71_example_outside :
  outside (lit "f("")"") /// (") = Some (lit "f() ") /\ outside (lit "%%% ( %%% a %%% [ %%% b") = Some (lit " a  b") /\ outside (lit """""""( "" ("""""" + 1") = Some (lit " + 1") /\
  outside (lit "f(""\"")"")") = Some (lit "f()") /\ outside (lit "a "" b") = None /\ outside (lit "a %%% (") = Some (lit "a %%% (") /\
  error_place ascii_only (lit "f("")"") /// (") = None /\ parse ascii_only [] (lit "f(a /// )") = Ret (Err SMParseError) /\ outside (lit "f(a /// )") = Some (lit "f(a ") /\
  ~ balanced (lit "f(a ") /\ ~ (exists k, outside (lit "f(a /// )") = Some k /\ balanced k).
Proof.
  assert (N : ~ balanced (lit "f(a ")) by (intro X; apply balanced_walk with (st := []) in X; discriminate X).
  repeat split; try (vm_compute; reflexivity); [exact N|]. intros (k & E & B). vm_compute in E. injection E as <-. exact (N B).
Qed.
