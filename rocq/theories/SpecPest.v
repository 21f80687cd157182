(** What a pest grammar means, following the pest book: the notation of .pest
    files and a semantics for it.  Only failure or success with the place reached,
    the matched-text stack and the pairs produced; nothing of the generated code. *)
From Verif Require Import Base Peg Grammar.
Local Open Scope nat_scope.

(** ** The notation *)
Inductive gexp :=
| Text (w : str)               (* "w" *)
| AnyCase (w : str)            (* ^"w" *)
| Name (r : rule)              (* r *)
| Then (a b : gexp)            (* a ~ b *)
| Or (a b : gexp)              (* a | b *)
| Maybe (a : gexp)             (* a? *)
| Many (a : gexp)              (* a* *)
| Several (a : gexp)           (* a+ *)
| Times (n : nat) (a : gexp)   (* a{n} *)
| Not (a : gexp)               (* !a *)
| Push (a : gexp).             (* PUSH(a) *)

(** r = {..}, _{..}, @{..}, ${..}, !{..} *)
Inductive sort := Plain | Silent | AtomicRule | CompoundRule | NonAtomicRule.
(** the names that pest defines *)
Inductive builtin := AnyChar | Digit | NonzeroDigit | BinDigit | OctDigit | HexDigit | White | IdStart | IdContinue | StartOfInput | EndOfInput | Peek | Pop.
Inductive definition := Rule (k : sort) (e : gexp) | Built (b : builtin).

(** ** The meaning *)
Definition between (a b c : char) : Prop := (a <= c <= b)%N.
(** the names that stand for one character *)
Definition is_char (U : unicode) (b : builtin) : option (char -> Prop) :=
  match b with
  | AnyChar => Some (fun _ => True)
  | Digit => Some (between 48%N 57%N)
  | NonzeroDigit => Some (between 49%N 57%N)
  | BinDigit => Some (between 48%N 49%N)
  | OctDigit => Some (between 48%N 55%N)
  | HexDigit => Some (fun c => between 48%N 57%N c \/ between 97%N 102%N c \/ between 65%N 70%N c)
  | White => Some (fun c => white_space c = true)
  | IdStart => Some (fun c => xid_start U c = true)
  | IdContinue => Some (fun c => xid_continue U c = true)
  | _ => None
  end.
(** s' is s after the text w *)
Definition past (w : str) (s s' : pstate) : Prop := rest s = w ++ rest s' /\ pos s' = pos s + length w /\ stk s' = stk s.
(** capital letters are 65 to 90; small ones are 32 further *)
Definition same_letter (a b : char) : Prop := a = b \/ (between 65 90 a /\ b = a + 32)%N \/ (between 65 90 b /\ a = b + 32)%N.
Definition same_but_case : str -> str -> Prop := Forall2 same_letter.
Definition with_stack (s : pstate) (st : list str) : pstate := mkPs (pos s) (rest s) st.

(** how the body of a rule is read, and whether the rule makes a pair; the rules
    called WHITESPACE and COMMENT are silent and atomic *)
Definition implicit (r : rule) : bool := match r with R_WHITESPACE | R_COMMENT => true | _ => false end.
Definition body_mode (r : rule) (k : sort) (m : atomicity) : atomicity :=
  if implicit r then Atomic else
  match k with Plain | Silent => m | AtomicRule => Atomic | CompoundRule => CompoundAtomic | NonAtomicRule => NonAtomic end.
Definition makes_pair (k : sort) (m : atomicity) : bool :=
  match k with Silent => false | Plain | AtomicRule => match m with Atomic => false | _ => true end | CompoundRule | NonAtomicRule => true end.

Fixpoint times (n : nat) (a : gexp) : gexp :=
  match n with O | S O => a | S k => Then a (times k a) end.

Section Meaning.
  Variable U : unicode.
  Variable source : rule -> definition.
  Notation answer := (option (pstate * list (tree rule))).

  (** [reads m e s o]: e, read at s in mode m, fails (None) or leads to a state and pairs *)
  Inductive reads : atomicity -> gexp -> pstate -> answer -> Prop :=
  | r_text : forall m w s s', past w s s' -> reads m (Text w) s (Some (s', []))
  | r_text_no : forall m w s, ~ (exists k, rest s = w ++ k) -> reads m (Text w) s None
  | r_any_case : forall m v w s s', same_but_case v w -> past v s s' -> reads m (AnyCase w) s (Some (s', []))
  | r_any_case_no : forall m w s, ~ (exists v k, same_but_case v w /\ rest s = v ++ k) -> reads m (AnyCase w) s None
  | r_then : forall m a b s s1 t1 s2 t2 s3 t3, reads m a s (Some (s1, t1)) -> skips m s1 s2 t2 -> reads m b s2 (Some (s3, t3)) ->
      reads m (Then a b) s (Some (s3, t1 ++ t2 ++ t3))
  | r_then_no1 : forall m a b s, reads m a s None -> reads m (Then a b) s None
  | r_then_no2 : forall m a b s s1 t1 s2 t2, reads m a s (Some (s1, t1)) -> skips m s1 s2 t2 -> reads m b s2 None -> reads m (Then a b) s None
  | r_or1 : forall m a b s o, reads m a s (Some o) -> reads m (Or a b) s (Some o)
  | r_or2 : forall m a b s o, reads m a s None -> reads m b s o -> reads m (Or a b) s o
  | r_maybe : forall m a s o, reads m a s (Some o) -> reads m (Maybe a) s (Some o)
  | r_maybe_no : forall m a s, reads m a s None -> reads m (Maybe a) s (Some (s, []))
  | r_many : forall m a s s1 t1 s2 t2, reads m a s (Some (s1, t1)) -> again m a s1 s2 t2 -> reads m (Many a) s (Some (s2, t1 ++ t2))
  | r_many_no : forall m a s, reads m a s None -> reads m (Many a) s (Some (s, []))
  | r_several : forall m a s o, reads m (Then a (Many a)) s o -> reads m (Several a) s o
  | r_times : forall m n a s o, reads m (times n a) s o -> reads m (Times n a) s o
  | r_not : forall m a s, reads m a s None -> reads m (Not a) s (Some (s, []))
  | r_not_no : forall m a s o, reads m a s (Some o) -> reads m (Not a) s None
  | r_push : forall m a s s1 t1 w, reads m a s (Some (s1, t1)) -> rest s = w ++ rest s1 ->
      reads m (Push a) s (Some (with_stack s1 (w :: stk s1), t1))
  | r_push_no : forall m a s, reads m a s None -> reads m (Push a) s None
  (** names *)
  | r_rule : forall m r k e s s1 t1 w, source r = Rule k e -> reads (body_mode r k m) e s (Some (s1, t1)) -> rest s = w ++ rest s1 ->
      reads m (Name r) s (Some (s1, if makes_pair k m then [Node r (pos s) (pos s1) w t1] else t1))
  | r_rule_no : forall m r k e s, source r = Rule k e -> reads (body_mode r k m) e s None -> reads m (Name r) s None
  | r_char : forall m r b P c s s', source r = Built b -> is_char U b = Some P -> P c -> past [c] s s' -> reads m (Name r) s (Some (s', []))
  | r_char_no : forall m r b P s, source r = Built b -> is_char U b = Some P -> ~ (exists c k, rest s = c :: k /\ P c) -> reads m (Name r) s None
  | r_start : forall m r s, source r = Built StartOfInput -> pos s = 0 -> reads m (Name r) s (Some (s, []))
  | r_start_no : forall m r s, source r = Built StartOfInput -> pos s <> 0 -> reads m (Name r) s None
  | r_end : forall m r s, source r = Built EndOfInput -> rest s = [] ->
      reads m (Name r) s (Some (s, if makes_pair Plain m then [Node r (pos s) (pos s) [] []] else []))
  | r_end_no : forall m r s, source r = Built EndOfInput -> rest s <> [] -> reads m (Name r) s None
  | r_peek : forall m r t st s o, source r = Built Peek -> stk s = t :: st -> reads m (Text t) s o -> reads m (Name r) s o
  | r_pop : forall m r t st s o, source r = Built Pop -> stk s = t :: st -> reads m (Text t) (with_stack s st) o -> reads m (Name r) s o
  (** a* goes on: between two repetitions as between the parts of a ~ b *)
  with again : atomicity -> gexp -> pstate -> pstate -> list (tree rule) -> Prop :=
  | again_stop : forall m a s s1 t1, skips m s s1 t1 -> reads m a s1 None -> again m a s s []
  | again_more : forall m a s s1 t1 s2 t2 s3 t3, skips m s s1 t1 -> reads m a s1 (Some (s2, t2)) -> again m a s2 s3 t3 -> again m a s s3 (t1 ++ t2 ++ t3)
  (** what lies between the parts of a ~ b: any white space and comments, unless in an atomic rule *)
  with skips : atomicity -> pstate -> pstate -> list (tree rule) -> Prop :=
  | skips_nothing : forall m s, m <> NonAtomic -> skips m s s []
  | skips_implicit : forall s s1 t, reads Atomic (Many (Or (Name R_WHITESPACE) (Name R_COMMENT))) s (Some (s1, t)) -> skips NonAtomic s s1 t.
End Meaning.
