(** Property theorems about whole source texts.  What a text means is said in
    [SpecSource] and [SpecText]; [denotes] is what parsing it gives, up to
    positions.  White space and line comments are allowed before and after. *)
From Verif Require Import Base Ast Display SmError Peg Build SpecAst SpecClimb SpecOrder SpecSyntax SpecSource SpecText.
From Verif Require Import ProofSource ProofSyntax ProofStatement ProofComment ProofKeyword ProofRepl ProofSample.
Local Open Scope Z_scope.
Local Open Scope outcome_scope.

(** ** C51 the reference syntax *)
(** every text of the reference syntax is accepted and means what the syntax says *)
Theorem C51_reference_syntax : forall U, sane U -> forall g x o ws,
  spacing g = true -> expr U x o -> plain_start x = true -> closing ws = true -> denotes U (g ++ x ++ ws) o.
Proof. exact source_text. Qed.
Print Assumptions C51_reference_syntax.
(** a text has at most one meaning *)
Theorem C51_unambiguous : forall U, sane U -> forall x o o',
  expr U x o -> expr U x o' -> omap forget_positions o = omap forget_positions o'.
Proof. exact unambiguous. Qed.
Print Assumptions C51_unambiguous.
Example C51_example : expr ascii_only (lit "-x!+2*3") (Ret
  (binary (lit "add") (lit "+") 80
    [call (mkSymbol [lit "std"; lit "prefix"] (lit "minus") (Prefix (lit "-")) 0)
       [suffix_call (lit "factorial") (lit "!") (Sym (named (lit "x") []))];
     times [Integer 2; Integer 3]])).
Proof.
  pose proof (sample_minus_factorial (lit "x") eq_refl eq_refl) as T1.
  pose proof (r_more ascii_only [] (lit "*") [] (lit "3") _ [] [] eq_refl (or_intror (or_intror (or_introl eq_refl))) eq_refl (sample_number (lit "3") eq_refl) ltac:(discriminate) ltac:(discriminate) (r_nil _)) as R3.
  pose proof (r_more ascii_only [] (lit "+") [] (lit "2") _ (lit "*3") _ eq_refl (or_introl eq_refl) eq_refl (sample_number (lit "2") eq_refl) ltac:(discriminate) ltac:(discriminate) R3) as R2.
  exact (sample_expr (lit "-x!") _ (lit "+2*3") _ (Bin (Leaf (Operand _)) (Sign (lit "+")) (Bin (Leaf (Operand _)) (Sign (lit "*")) (Leaf (Operand _)))) T1 R2 eq_refl eq_refl
    ltac:(bracketed)).
Qed.

(** ** C27 integer literals *)
Theorem C27_integer : forall U, sane U -> forall g n x ws,
  spacing g = true -> numeral_of n x -> closing ws = true -> denotes U (g ++ x ++ ws) (Ret (Integer n)).
Proof. exact text_integer. Qed.
Print Assumptions C27_integer.
(** leading zeros are factors of a product *)
Theorem C27_leading_zeros : forall U, sane U -> forall g k n y ws,
  spacing g = true -> numeral_of n y -> closing ws = true ->
  denotes U (g ++ (repeat 48%N (S k) ++ y) ++ ws) (Ret (times (repeat (Integer 0) (S k) ++ [Integer n]))).
Proof. exact text_zeros. Qed.
Print Assumptions C27_leading_zeros.
Example C27_example : numeral_of 120 (lit "120") /\ forall xs xc f,
  omap forget_result (parse (mkUnicode xs xc) f (lit " 012 ")) = Ret (Ok (times [Integer 0; Integer 12])).
Proof. split; [exact (sample_numeral (lit "120") eq_refl)|]; intros; vm_compute; reflexivity. Qed.

(** ** C28 literals in base 2, 8 and 16 *)
(** digits of the base, single underscores between them *)
Theorem C28_value : forall U, sane U -> forall g b P s ws,
  spacing g = true -> based b P -> s <> [] -> grouped P s = true -> hd_error s <> Some 95%N -> closing ws = true ->
  denotes U (g ++ ([48%N; b] ++ s) ++ ws) (Ret (Integer (based_value (base_of b) s))).
Proof. exact text_based_value. Qed.
Print Assumptions C28_value.
(** the grammar also accepts an underscore right after the letter, but then the
    conversion to a number is unwrapped and panics *)
Theorem C28_underscore_panics : forall U, sane U -> forall g b P s ws,
  spacing g = true -> based b P -> s <> [] -> grouped P s = true -> hd_error s = Some 95%N -> closing ws = true ->
  denotes U (g ++ ([48%N; b] ++ s) ++ ws) (Panic PUnwrap).
Proof. exact text_based_panic. Qed.
Print Assumptions C28_underscore_panics.
Example C28_example : based 120%N hex_digit /\ grouped hex_digit (lit "f_F0") = true /\ base_of 120%N = 16 /\ based_value 16 (lit "f_F0") = 4080 /\
  grouped hex_digit (lit "_F") = true.
Proof. repeat split; constructor. Qed.

(** ** C29 decimal literals *)
Theorem C29_decimal : forall U, sane U -> forall g i j x y ws,
  spacing g = true -> numeral_of i x -> numeral_of j y -> closing ws = true ->
  exists d, denotes U (g ++ (x ++ lit "." ++ y) ++ ws) (Ret (Decimal d)) /\
    dec_int d = i * 10 ^ Z.of_nat (length y) + j /\ dec_scale d = Z.of_nat (length y) /\
    display (Decimal d) = Ret (x ++ lit "." ++ y).
Proof. exact text_decimal. Qed.
Print Assumptions C29_decimal.
Theorem C29_leading_zero_panics : forall U, sane U -> forall g x k y ws,
  spacing g = true -> numeral x = true -> numeral y = true -> closing ws = true ->
  denotes U (g ++ (x ++ lit "." ++ repeat 48%N (S k) ++ y) ++ ws) (Panic PUnreachable).
Proof. exact text_decimal_zeros. Qed.
Print Assumptions C29_leading_zero_panics.
Example C29_example : numeral_of 3 (lit "3") /\ numeral_of 14 (lit "14") /\ numeral (lit "5") = true /\ forall xs xc f,
  parse (mkUnicode xs xc) f (lit "1.05") = Panic PUnreachable.
Proof.
  split; [exact (sample_numeral (lit "3") eq_refl)|]. split; [exact (sample_numeral (lit "14") eq_refl)|].
  split; [reflexivity|]. intros. vm_compute. reflexivity.
Qed.

(** ** C30 string literals *)
Theorem C30_verbatim : forall U, sane U -> forall g s ws,
  spacing g = true -> ~ In 34%N s -> ~ In 92%N s -> closing ws = true -> denotes U (g ++ quoted s ++ ws) (Ret (Str s)).
Proof. exact text_verbatim. Qed.
Print Assumptions C30_verbatim.
(** the literal of the escaped text gives the escaped text, which is the text
    itself only if there was nothing to escape *)
Theorem C30_escapes_stay : forall U, sane U -> forall g s ws, spacing g = true -> closing ws = true ->
  denotes U (g ++ quoted (escape s) ++ ws) (Ret (Str (escape s))) /\ (escape s = s <-> ~ In 34%N s /\ ~ In 92%N s).
Proof. exact text_escaped. Qed.
Print Assumptions C30_escapes_stay.
(** three or more quotes: anything without that many quotes in a row *)
Theorem C30_block : forall U, sane U -> forall g n s ws, spacing g = true -> fenceable n s = true -> closing ws = true ->
  denotes U (g ++ fenced n s ++ ws) (Ret (Str s)).
Proof. exact text_block. Qed.
Print Assumptions C30_block.
(** a name directly before the quotes has no effect *)
Theorem C30_tag_ignored : forall U, sane U -> forall g w x s ws, spacing g = true -> word U w = true -> literal x s ->
  existsb (fun k => starts_with k (w ++ x)) statement_words = false -> existsb (fun k => starts_with k w) constant_words = false -> closing ws = true ->
  denotes U (g ++ (w ++ x) ++ ws) (Ret (Str s)).
Proof. exact text_tagged. Qed.
Print Assumptions C30_tag_ignored.
Example C30_example : escape [97; 34; 98]%N = [97; 92; 34; 98]%N /\ fenceable 0 [97; 34; 34; 98]%N = true /\
  fenceable 0 [97; 34; 34; 34; 98]%N = false /\ fenceable 1 [97; 34; 34; 34; 98]%N = true.
Proof. repeat split; reflexivity. Qed.

(** ** C31 names *)
(** among the characters of ASCII, the letters start words, and letters, digits and _ continue them *)
Theorem C31_ascii : forall U c, (c < 128)%N ->
  (xid_start U c = true <-> In c letters) /\ (xid_continue U c = true <-> In c (letters ++ lit "0123456789_")).
Proof. exact ascii_words. Qed.
Print Assumptions C31_ascii.
(** segments joined by ::, unless the first one starts with a reserved word *)
Theorem C31_name : forall U, sane U -> forall g w l ws,
  spacing g = true -> segment U w = true -> forallb (segment U) l = true ->
  existsb (fun k => starts_with k (w ++ path_tail l)) (statement_words ++ constant_words) = false -> closing ws = true ->
  denotes U (g ++ (w ++ path_tail l) ++ ws) (Ret (Sym (named w l))).
Proof. exact text_name. Qed.
Print Assumptions C31_name.
(** the character ∷ joins words too, but the result is one name without a namespace *)
Theorem C31_ratio_sign_refuted : forall U, sane U -> forall g w v ws, spacing g = true -> word U w = true -> word U v = true ->
  existsb (fun k => starts_with k (w ++ 8759%N :: v)) (statement_words ++ constant_words) = false -> closing ws = true ->
  denotes U (g ++ (w ++ 8759%N :: v) ++ ws) (Ret (Sym (mkSymbol [] (w ++ 8759%N :: v) Normal 0))).
Proof. exact text_ratio. Qed.
Print Assumptions C31_ratio_sign_refuted.
(** a word that starts with null, true or false is cut there: parsing gives the
    constant or refuses the text *)
Theorem C31_constant_prefix : forall U, sane U -> forall g x a c y ws,
  spacing g = true -> special x a -> word U (x ++ c :: y) = true -> closing ws = true ->
  denotes_or_refused U (g ++ x ++ c :: y ++ ws) (Ret a).
Proof. exact text_special_more. Qed.
Print Assumptions C31_constant_prefix.
(** it gives the constant if the rest of the word is an expression *)
Theorem C31_constant_then_expression : forall U, sane U -> forall g x a y o ws,
  spacing g = true -> special x a -> word U (x ++ y) = true -> expr U y o -> plain_start y = true -> closing ws = true ->
  denotes U (g ++ x ++ y ++ ws) (Ret a).
Proof. exact source_special_word. Qed.
Print Assumptions C31_constant_then_expression.
(** whatever starts with break or pass panics or is refused *)
Theorem C31_break_pass : forall U, sane U -> forall g w, spacing g = true ->
  denotes_or_refused U (g ++ lit "break" ++ w) (Panic PUnreachable) /\ denotes_or_refused U (g ++ lit "pass" ++ w) (Panic PUnreachable).
Proof. exact text_break_pass. Qed.
Print Assumptions C31_break_pass.
Example C31_example : forall xs xc f,
  let U := mkUnicode xs xc in
  word U (lit "x_1") = true /\ existsb (fun k => starts_with k (lit "x_1" ++ path_tail [])) (statement_words ++ constant_words) = false /\
  omap forget_result (parse U f (lit "std::x_1")) = Ret (Ok (Sym (mkSymbol [lit "std"] (lit "x_1") Normal 0))) /\
  segment ascii_only [97; 8759; 98]%N = true /\ segment ascii_only [97; 8759]%N = false /\
  parse U f (lit "trueish") = Ret (Ok (Boolean true)) /\ parse U f (lit "true_") = Ret (Err SMParseError) /\
  parse U f (lit "passage") = Panic PUnreachable /\ parse U f (lit "pass_") = Ret (Err SMParseError).
Proof. intros. vm_compute. repeat split; reflexivity. Qed.

(** ** C18 keyword arguments *)
(** f(..., k: v, ...): the positional arguments in order; the keyword arguments
    as a map with increasing keys that holds the last value written for each key *)
Theorem C18_call_options : forall U, sane U -> forall g w l es ws,
  spacing g = true -> segment U w = true -> forallb (segment U) l = true ->
  existsb (fun k => starts_with k (w ++ path_tail l)) statement_words = false ->
  Forall (good_entry U) es -> closing ws = true ->
  exists m, denotes U (g ++ ((w ++ path_tail l) ++ paren (join (lit ", ") (map entry_text es))) ++ ws)
      (Ret (Function (named w l) [mkParam (unnamed es) (map (fun kv => (Sym (named (fst kv) []), snd kv)) m) default_position])) /\
    strictly_increasing text_before (map fst m) /\
    forall k v, In (k, v) m <-> last_write eq k v (written_keys es).
Proof. exact text_keywords. Qed.
Print Assumptions C18_call_options.
Example C18_text_example : forall xs xc f,
  let U := mkUnicode xs xc in
  let x s := Sym (named (lit s) []) in
  omap forget_result (parse U f (lit "f(b: 1, 7, a: 2, b: 3, 8)")) =
  Ret (Ok (Function (named (lit "f") []) [mkParam [Integer 7; Integer 8] [(Sym (named (lit "a") []), Integer 2); (Sym (named (lit "b") []), Integer 3)] default_position])) /\
  good_entry ascii_only (Some (lit "b"), (lit "1", Integer 1)).
Proof.
  intros. split; [vm_compute; reflexivity|]. split; [reflexivity|].
  exact (term_expr ascii_only (lit "1") _ (sample_number (lit "1") eq_refl)).
Qed.

(** ** C32 C33 C36 operators between operands *)
Theorem C32_text : forall U, sane U -> forall g x o y l b ws,
  spacing g = true -> term U x o -> rest U y l -> forallb known l = true -> plain_start (x ++ y) = true ->
  written b = Operand o :: l -> well_bracketed token_strength token_to_right b -> closing ws = true ->
  denotes U (g ++ (x ++ y) ++ ws) (evaluate token_value token_apply b).
Proof. exact text_operators. Qed.
Print Assumptions C32_text.
(** what starts with an ignored operator is dropped *)
Theorem C33_text : forall U, sane U -> forall g x o y l z s m b ws,
  spacing g = true -> term U x o -> rest U y l -> forallb known l = true -> plain_start (x ++ y ++ z) = true ->
  written b = Operand o :: l -> well_bracketed token_strength token_to_right b ->
  rest U z (Sign s :: m) -> In s ignored -> closing ws = true ->
  denotes U (g ++ (x ++ y ++ z) ++ ws) (evaluate token_value token_apply b).
Proof. exact text_cut. Qed.
Print Assumptions C33_text.
Theorem C36_text : forall U, sane U -> forall g x o g1 g2 y o' ws,
  spacing g = true -> term U x o -> plain_start (x ++ g1 ++ lit "." ++ g2 ++ y) = true -> spacing g1 = true -> spacing g2 = true ->
  term U y o' -> (g2 = [] -> head_is digit y = false) -> closing ws = true ->
  denotes U (g ++ (x ++ g1 ++ lit "." ++ g2 ++ y) ++ ws) (a <- o; b <- o'; dotted a b).
Proof. exact text_dot. Qed.
Print Assumptions C36_text.
Example C32_C33_C36_example :
  term ascii_only (lit "a") (Ret (Sym (named (lit "a") []))) /\
  rest ascii_only (lit " = 2") [Sign (lit "="); Operand (Ret (Integer 2))] /\ In (lit "=") ignored /\
  dotted (Integer 1) (Sym (named (lit "f") [])) = Ret (call (named (lit "f") []) [Integer 1]).
Proof.
  split; [apply sample_name; reflexivity|]. split; [|split; [left; reflexivity|reflexivity]].
  exact (r_more ascii_only (lit " ") (lit "=") (lit " ") (lit "2") _ [] [] eq_refl
    ltac:(cbn; tauto) eq_refl (sample_number (lit "2") eq_refl) ltac:(discriminate) ltac:(discriminate) (r_nil _)).
Qed.

(** ** C34 block comments *)
Theorem C34_comment_first_panics : forall U, sane U -> forall g body w,
  spacing g = true -> no_percent body = true -> statements U w -> no_percent w = true ->
  denotes U (g ++ comment body ++ w) (Panic PUnreachable).
Proof. exact text_comment. Qed.
Print Assumptions C34_comment_first_panics.
(** whatever follows *)
Theorem C34_comment_first : forall U v, denotes_or_refused U (lit "%%%" ++ v) (Panic PUnreachable).
Proof. exact comment_or_refused. Qed.
Print Assumptions C34_comment_first.
(** between an operand and an operator it ends the expression *)
Theorem C34_comment_cuts : forall U, sane U -> forall g x o y l b ws body ws' z t m ws2,
  spacing g = true -> term U x o -> rest U y l -> forallb known l = true ->
  written b = Operand o :: l -> well_bracketed token_strength token_to_right b -> plain_start (x ++ y) = true ->
  spacing ws = true -> no_percent body = true -> spacing ws' = true ->
  rest U z (t :: m) -> closing ws2 = true -> no_percent (ws' ++ z ++ ws2) = true ->
  denotes U (g ++ (x ++ y) ++ ws ++ comment body ++ ws' ++ z ++ ws2) (evaluate token_value token_apply b).
Proof. exact source_broken. Qed.
Print Assumptions C34_comment_cuts.
Example C34_example : forall xs xc f,
  parse (mkUnicode xs xc) f (lit "%%% c %%% 1") = Panic PUnreachable /\
  parse (mkUnicode xs xc) f (lit "1 %%% abc %%% + 2") = Ret (Ok (Integer 1)) /\
  statements ascii_only (lit " 1") /\ rest ascii_only (lit "+ 2") [Sign (lit "+"); Operand (Ret (Integer 2))].
Proof.
  intros. split; [vm_compute; reflexivity|]. split; [vm_compute; reflexivity|]. split.
  - exact (ss_last ascii_only (lit " ") (lit "1") _ [] eq_refl (term_expr ascii_only _ _ (sample_number (lit "1") eq_refl)) eq_refl eq_refl).
  - exact (r_more ascii_only [] (lit "+") (lit " ") (lit "2") _ [] [] eq_refl
      ltac:(cbn; tauto) eq_refl (sample_number (lit "2") eq_refl) ltac:(discriminate) ltac:(discriminate) (r_nil _)).
Qed.

(** ** C35 calls *)
(** any number of argument lists, each with any number of arguments *)
Theorem C35_call : forall U, sane U -> forall g w l ls rss ws,
  spacing g = true -> segment U w = true -> forallb (segment U) l = true ->
  existsb (fun k => starts_with k (w ++ path_tail l)) statement_words = false ->
  ls <> [] -> Forall2 (Forall2 (argument U)) ls rss -> closing ws = true ->
  denotes U (g ++ ((w ++ path_tail l) ++ lists_text ls) ++ ws)
    (ps <- all (map parameter_of rss); Ret (Function (named w l) ps)).
Proof. exact text_call. Qed.
Print Assumptions C35_call.
(** f(n1, ..., nk)(m1, ..., mj)... *)
Theorem C35_numbers : forall U, sane U -> forall g w l ls nss ws,
  spacing g = true -> segment U w = true -> forallb (segment U) l = true ->
  existsb (fun k => starts_with k (w ++ path_tail l)) statement_words = false ->
  ls <> [] -> Forall2 (Forall2 (fun x n => numeral_of n x)) ls nss -> closing ws = true ->
  denotes U (g ++ ((w ++ path_tail l) ++ lists_text ls) ++ ws)
    (Ret (Function (named w l) (map (fun ns => mkParam (map Integer ns) [] default_position) nss))).
Proof. exact text_call_numbers. Qed.
Print Assumptions C35_numbers.
Example C35_example : forall xs xc f,
  lists_text [[lit "1"; lit "20"]; []; [lit "3"]] = lit "(1, 20)()(3)" /\
  omap forget_result (parse (mkUnicode xs xc) f (lit "f(1, 20)()(3)")) =
  Ret (Ok (Function (named (lit "f") []) (map (fun ns => mkParam (map Integer ns) [] default_position) [[1; 20]; []; [3]]))).
Proof. intros. split; [reflexivity|]. vm_compute. reflexivity. Qed.

(** ** C37 slices *)
Theorem C37_slice : forall U, sane U -> forall g x o is os ws,
  spacing g = true -> node U x o -> plain_start x = true -> is <> [] -> Forall2 (index U) is os -> closing ws = true ->
  denotes U (g ++ (x ++ lit "[" ++ join (lit ", ") is ++ lit "]") ++ ws)
    (a <- o; vs <- all os; Ret (call (core (lit "Index")) (a :: vs))).
Proof. exact text_slice. Qed.
Print Assumptions C37_slice.
(** omitted bounds are 1, All and 1.  Excluded is a::s with s a name, which is the
    name a::s *)
Theorem C37_defaults : forall U, sane U -> forall g x o a oa b ob s os ws,
  spacing g = true -> node U x o -> plain_start x = true ->
  bound_is U (Integer 1) a oa -> bound_is U (Sym (core (lit "All"))) b ob ->
  bound_is U (Integer 1) (match s with Some s => s | None => None end) os ->
  (a <> None -> b = None -> match s with Some (Some s) => head_is (word_head U) s = false | _ => True end) -> closing ws = true ->
  denotes U (g ++ (x ++ lit "[" ++ range_text a b s ++ lit "]") ++ ws)
    (v <- o; x <- oa; y <- ob; z <- os; Ret (call (core (lit "Index")) [v; call (core (lit "Span")) [x; y; z]])).
Proof. exact text_range. Qed.
Print Assumptions C37_defaults.
Example C37_example : forall xs xc f,
  range_text None (Some (lit "3")) None = lit ":3" /\
  omap forget_result (parse (mkUnicode xs xc) f (lit "a[:3, 2]")) =
  Ret (Ok (call (core (lit "Index")) [Sym (named (lit "a") []); call (core (lit "Span")) [Integer 1; Integer 3; Integer 1]; Integer 2])) /\
  node ascii_only (lit "a") (Ret (Sym (named (lit "a") []))).
Proof. intros. split; [reflexivity|]. split; [vm_compute; reflexivity|]. apply sample_node_name; reflexivity. Qed.

(** ** C38 juxtaposition *)
Theorem C38_product : forall U, sane U -> forall g xs vs ws,
  spacing g = true -> Forall2 (plain_factor U) xs vs -> (2 <= length xs)%nat -> plain_start (join (lit " ") (firstn 1 xs)) = true -> closing ws = true ->
  denotes U (g ++ join (lit " ") xs ++ ws) (Ret (times vs)).
Proof. exact text_product. Qed.
Print Assumptions C38_product.
(** one factor that is a decimal, a based literal or a call makes parsing panic; a
    call in the first place is no product *)
Theorem C38_odd_first_panics : forall U, sane U -> forall g x xs ws,
  spacing g = true -> odd_number x -> plain_start x = true -> xs <> [] ->
  Forall (fun y => (exists v, plain_factor U y v) \/ odd_factor U y) xs -> closing ws = true ->
  denotes U (g ++ join (lit " ") (x :: xs) ++ ws) (Panic PUnreachable).
Proof. exact text_odd_first. Qed.
Print Assumptions C38_odd_first_panics.
Theorem C38_odd_later_panics : forall U, sane U -> forall g x v xs y zs ws,
  spacing g = true -> plain_factor U x v -> plain_start x = true ->
  Forall (fun y => (exists v, plain_factor U y v) \/ odd_factor U y) (xs ++ zs) -> odd_factor U y -> closing ws = true ->
  denotes U (g ++ join (lit " ") (x :: xs ++ y :: zs) ++ ws) (Panic PUnreachable).
Proof. exact text_odd_later. Qed.
Print Assumptions C38_odd_later_panics.
Example C38_example : forall xs xc f,
  let U := mkUnicode xs xc in
  omap forget_result (parse U f (lit "2 x 3")) = Ret (Ok (times [Integer 2; Sym (named (lit "x") []); Integer 3])) /\
  parse U f (lit "2 0x1f") = Panic PUnreachable /\ parse U f (lit "2 f(1)") = Panic PUnreachable /\
  plain_factor U (lit "2") (Integer 2) /\ odd_number (lit "0x1f").
Proof.
  intros. split; [vm_compute; reflexivity|]. split; [vm_compute; reflexivity|]. split; [vm_compute; reflexivity|]. split.
  - exact (pf_integer _ _ _ (sample_numeral (lit "2") eq_refl)).
  - exact (on_based 120%N hex_digit (lit "1f") based_x ltac:(discriminate) eq_refl).
Qed.

(** ** C39 statements *)
(** the first of several expressions *)
Theorem C39_first_expression : forall U, sane U -> forall g x o ws c w,
  spacing g = true -> expr U x o -> plain_start x = true -> spacing ws = true -> semi c = true -> statements U w ->
  denotes U (g ++ x ++ ws ++ c :: w) o.
Proof. exact source_lines. Qed.
Print Assumptions C39_first_expression.
(** whatever follows the semicolon *)
Theorem C39_first_expression_anything_after : forall U, sane U -> forall g x o ws c w,
  spacing g = true -> expr U x o -> plain_start x = true -> spacing ws = true -> semi c = true ->
  denotes_or_refused U (g ++ x ++ ws ++ c :: w) o.
Proof. exact source_first. Qed.
Print Assumptions C39_first_expression_anything_after.
Theorem C39_other_statements_panic : forall U, sane U -> forall g text,
  spacing g = true -> other_start U text -> denotes_or_refused U (g ++ text) (Panic PUnreachable).
Proof. exact text_other. Qed.
Print Assumptions C39_other_statements_panic.
Theorem C39_empty : forall U g, closing g = true -> denotes U g (Ret EmptyStatement).
Proof. exact text_empty. Qed.
Print Assumptions C39_empty.
Example C39_example : forall xs xc f,
  let U := mkUnicode xs xc in
  omap forget_result (parse U f (lit "1; 2; 3;")) = Ret (Ok (Integer 1)) /\
  parse U f (lit "let x = 1") = Panic PUnreachable /\ parse U f (lit "return 1; 2") = Panic PUnreachable /\
  parse U f (lit "; 1") = Panic PUnreachable /\ other_start ascii_only (lit "let x = 1") /\ statements ascii_only (lit " 2 ").
Proof.
  intros. split; [vm_compute; reflexivity|]. split; [vm_compute; reflexivity|]. split; [vm_compute; reflexivity|]. split; [vm_compute; reflexivity|]. split.
  - exact (os_declare ascii_only (lit "let") (lit " ") (lit "x = 1") (or_introl eq_refl) eq_refl eq_refl).
  - exact (ss_last ascii_only (lit " ") (lit "2") _ (lit " ") eq_refl (term_expr ascii_only _ _ (sample_number (lit "2") eq_refl)) eq_refl eq_refl).
Qed.

(** ** C40 parentheses *)
Theorem C40_parentheses : forall U, sane U -> forall g x o ws,
  spacing g = true -> expr U x o -> closing ws = true -> denotes U (g ++ paren x ++ ws) o.
Proof. exact text_paren. Qed.
Print Assumptions C40_parentheses.
(** white space after the opening parenthesis is refused *)
Theorem C40_space_refused : forall U, sane U -> forall g cs c w,
  spacing g = true -> forallb prefix_char cs = true -> white_space c = true ->
  forall f, parse U f (g ++ cs ++ lit "(" ++ c :: w) = Ret (Err SMParseError).
Proof. exact text_space. Qed.
Print Assumptions C40_space_refused.
Example C40_example : forall xs xc f,
  parse (mkUnicode xs xc) f (lit "((1))") = Ret (Ok (Integer 1)) /\ expr ascii_only (lit "1") (Ret (Integer 1)).
Proof. intros. split; [vm_compute; reflexivity|]. exact (term_expr ascii_only _ _ (sample_number (lit "1") eq_refl)). Qed.

(** ** C52 texts that cannot start *)
(** no expression or statement starts with one of ) ] } , . : = < > ? & | ^ ~ \ ` $ ' *)
Theorem C52_refused_start : forall U g c w, spacing g = true -> In c no_start ->
  forall f, parse U f (g ++ c :: w) = Ret (Err SMParseError).
Proof. exact text_no_start. Qed.
Print Assumptions C52_refused_start.
Example C52_example : In 94%N no_start /\ forall xs xc f, parse (mkUnicode xs xc) f (lit "^2") = Ret (Err SMParseError).
Proof. split; [cbn; tauto|]. intros. vm_compute. reflexivity. Qed.
