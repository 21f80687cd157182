#!/usr/bin/env python3
"""Writes /verif/properties.jsonl from the list below (one JSON object per line)."""
import json, os
P = []
A = "projects/sm-algorithm/src/"
S = "projects/sm-ast/src/"
G = "projects/sm-parser/src/sm_parser.rs"
PG = "projects/sm-playground/src/lib.rs"
def p(id, title, statement, quantifier, why, *anchors):
    P.append(dict(id=id, title=title, statement=statement, quantifier=quantifier,
                  why_tests_cant=why, anchors=list(anchors)))

p("C01", "factorial_i is n! on its whole domain",
  "factorial_i(n) returns Ok(n!) for every n with 0 <= n <= isize::MAX, Err(ComplexInfinity) for every negative n that fits isize, and Err(OverFlow) for every n outside isize (even negative ones); it never panics.",
  "all integers n (arbitrary precision), both word sizes",
  "the unit test prints one value; the claim is about every integer including the isize boundary",
  A+"gamma/factorial.rs:factorial_i", A+"gamma/factorial.rs:factorial_fold_u")
p("C02", "fibonacci_i is the Fibonacci number for every non-negative n; both algorithms agree",
  "For every usize n, fibonacci_fast_u(n) (memoised doubling over a mutable map) and fibonacci_fold_u(n) both return F(n) and never panic (no BigUint subtraction underflow, recursion terminates); fibonacci_i(n) = Ok(F(n)) for 0 <= n <= isize::MAX and Err(OverFlow) outside isize.",
  "all usize / all integers n",
  "tests check n=0,10,100 only; memoisation correctness depends on every intermediate map state",
  A+"linear/fibonacci.rs:fibonacci_i", A+"linear/fibonacci.rs:fibonacci_fast_u", A+"linear/fibonacci.rs:fibonacci_fold_u")
p("C03", "fibonacci_i on negative integers does not compute negafibonacci numbers",
  "For negative n in isize, F(-k) = (-1)^(k+1) F(k) is never what is computed: the index is reinterpreted as 2^W - k, so odd k would yield F(2^W - k) (a different number, for every k < 2^(W-1) odd), and even k always ends in a panic (negating a BigUint).",
  "all negative n with n >= -2^(W-1), W in {32,64}",
  "the real computation would need a number with more than 2^31 bits; no test can run it",
  A+"linear/fibonacci.rs:fibonacci_i")
p("C04", "power_iu: where it equals a^b",
  "power_iu(a,b) never panics; it returns Err(Indeterminate) iff a=b=0; for a=0,b>0 returns 0; for a=1,b>0 returns 1; for a not in {0,1} and 2<=b<2^32 returns Ok(a^b), for b>=2^32 Err(OverFlow). The expected law 'result = a^b whenever Ok' is false exactly at b=0 (returns 0 for every a<>0) and b=1 (returns 1 for every a not in {0,1}).",
  "all integers a and all naturals b",
  "the special cases are dispatched before the general code, tests only exercise BigInt::pow directly",
  A+"basic/mod.rs:power_iu")
p("C05", "extended_gcd2 returns Bezout coefficients",
  "extended_gcd2(a,b) = (g,[x,y]) with g = gcd(a,b) >= 0 and a*x + b*y = g, for every pair of integers including zero and negative ones; the computation always terminates without panic. Unless |a| = |b|, no other coefficients are smaller: |x| and |y| are least among all solutions, at most |b|/(2g) and |a|/(2g) if a and b are not zero.",
  "all pairs of integers",
  "loop invariant over the Euclid iteration with truncating division on signed integers",
  A+"basic/mod.rs:extended_gcd2")
p("C06", "modulo_inverse returns an inverse exactly when one exists",
  "modulo_inverse(a,m) is Some(x) iff gcd(a,m)=1, and then a*x = 1 (mod m). For every a and m > 0 the returned x lies strictly between 0 and 2m, between m/2 and 3m/2 (it is NOT reduced modulo m: for a=1 it is m+1).",
  "all pairs of integers a, m",
  "the test only prints; the property is for all coprime pairs and the negative result for all non-coprime ones",
  A+"basic/mod.rs:modulo_inverse")
p("C07", "modulo_division decides solvability but returns a solution of the wrong congruence",
  "For gcd(b,m) <> 0, modulo_division(a,b,m) is Some iff gcd(b,m) divides a, i.e. iff b*x = a (mod m) is solvable. The documented law b*x = a (mod m) for the returned x is false; instead every returned x satisfies m*x = a (mod b). Dividing by a proper divisor of m, such as 1, returns 0 whenever it returns a number, and that is wrong unless m divides a. For b=m=0 it panics (division by zero).",
  "all triples of integers",
  "the test only prints its output, nobody checks the congruence",
  A+"basic/mod.rs:modulo_division")
p("C08", "chinese_remainder solves every congruence of the system",
  "Whenever chinese_remainder(u,m) returns Some(x), x = u_i (mod m_i) for every i.",
  "all lists u, m of arbitrary length and arbitrary (signed) integers",
  "induction over the list length (Garner mixed-radix digits)",
  A+"basic/mod.rs:chinese_remainder")
p("C09", "chinese_remainder: exact answer/None/panic conditions",
  "If |u| <> |m| the result is None. For equal non-zero lengths with all moduli non-zero the result is Some iff the moduli are pairwise coprime, otherwise None. Empty input panics (unwrap on None), and a zero modulus, when reached, panics (remainder by zero).",
  "all lists of integers",
  "the None branch depends on a gcd with the running product, for any length",
  A+"basic/mod.rs:chinese_remainder")
p("C10", "chinese_remainder: size of the answer",
  "A returned x satisfies |x| < |product of the moduli|, and the solutions are exactly the numbers that differ from x by a multiple of the product. So x is the least solution that is not negative, or that one minus the absolute value of the product. It is not always the least non-negative solution, even with positive moduli (for the classic 2,3,2 mod 3,5,7 it returns -82).",
  "all lists of remainders and moduli",
  "bound over arbitrary list length",
  A+"basic/mod.rs:chinese_remainder")
p("C11", "is_coprime is coprimality",
  "is_coprime(x,y) is true iff every common divisor of x and y is a unit.",
  "all pairs of integers", "universally quantified over integers and divisors", A+"basic/mod.rs:is_coprime")
p("C12", "prime_sum_u64 is the sum of primes below 2^32",
  "For every 1 <= n < 2^32, prime_sum_u64(n) returns the sum of all primes <= n, without panic and without any arithmetic overflow or missing-key index, in debug and in release builds alike.",
  "all n in [1, 2^32), both overflow modes",
  "tests check 14 values; correctness is a sieve invariant over an in-place updated map",
  A+"prime/prime_sum.rs:prime_sum_u64")
p("C13", "prime_sum_u64 outside [1,2^32)",
  "prime_sum_u64(0) panics. With overflow checks, prime_sum_u64(n) panics for every n >= 2^32. Without overflow checks the result is congruent to the true prime sum modulo 2^63 for every 2^32 <= n < (2^32-1)^2, and is wrong (off by exactly 2^63) for every 2^32 <= n <= 6074000999.",
  "all n outside [1,2^32) in u64 (release congruence: n < (2^32-1)^2)",
  "too large to run; wrap-around error analysis over all n",
  A+"prime/prime_sum.rs:prime_sum_u64")
p("C14", "prime_sum_i dispatch",
  "prime_sum_i(n): the constant-table value if n is a tabulated power of ten; else Err(Undefined) if n<0; else Err(Unimplemented) if n >= 2^64; else the u64 algorithm. Hence for 1 <= n < 2^32 it is Ok(sum of primes <= n), and prime_sum_i(0) panics.",
  "all integers n", "dispatch order and boundaries over all integers",
  A+"prime/prime_sum.rs:prime_sum_i", A+"prime/prime_sum.rs:prime_sum_table")
p("C15", "tabulated prime sums and prime counts are right",
  "The table entries for 10^0..10^k equal the true sum / number of primes up to 10^k (checked in Coq by running a proved-correct prime-summing recursion; the largest k the kernel can afford is stated in the theorem).",
  "all table rows up to the stated bound, each against the mathematical definition over all primes",
  "a test would compare with another program; here the comparison is with the definition of primality",
  A+"prime/prime_sum.rs:prime_sum_table", A+"prime/prime_count.rs:prime_count_table")
p("C16", "prime_count_i answers only the tabulated powers of ten",
  "prime_count_i(n) is Ok iff n is one of 10^0..10^27; every other negative n gives Err(Undefined), every other n Err(Unimplemented); it never panics.",
  "all integers n", "exhaustive over integers", A+"prime/prime_count.rs:prime_count_i")
p("C17", "symbol paths round-trip through text",
  "For every string s, displaying Symbol::from(s) gives back s. For every path whose components contain no ':' , Symbol::from of the displayed path recovers namespace and name. With ':' inside components the second law fails.",
  "all strings / all paths", "string splitting over arbitrary input",
  S+"ast/traits.rs:From<&str> for Symbol", S+"ast/traits.rs:Display for Symbol")
p("C18", "keyword options behave like a last-wins ordered map",
  "In a call f(k1: v1, ..., kn: vn, positional...), the stored options contain exactly the keys written, each with its last written value, in strictly increasing key order, and positional arguments keep their order.",
  "all argument lists", "insertion history of arbitrary length into an ordered map keyed by AST order",
  S+"parser/parse.rs:parse_apply", S+"ast/mod.rs:AST")
p("C19", "which ASTs can be displayed",
  "Formatting an AST panics iff formatting reaches (along displayed positions) an empty statement, a program node, or a call of an ordinary (non-operator) function; otherwise it returns a string.",
  "all ASTs", "structural induction over unbounded trees", S+"ast/traits.rs:Display for AST")
p("C20", "display then parse is the identity exactly on operator expressions that display unambiguously",
  "For every expression tree built from integers, booleans, names, infix + - * / ^ and the two unicode signs, prefix + - * !, suffix ! and !!: the displayed text parses without error or panic to a tree of the same class, and it parses to the displayed tree (up to source positions) if and only if the tree satisfies an explicit bracketing condition. The displayed text does not depend on source positions.",
  "all expression trees in the stated class, any depth",
  "unbounded tree depth; needs the whole grammar, climber and printer",
  S+"ast/traits.rs:Display for AST", S+"parser/parse.rs:parse", G)
p("C21", "display is ambiguous outside that class",
  "Every tree of the C20 class that violates the bracketing condition is displayed as a text that parses to a different tree. In particular for all literals and names a, b, c: a-(b-c), a+(b+c), (a*b)/c, a/(b*c), (a^b)^c, -(a+b), (a+b)!, (-a)!, (a!)! and negative integers; and every product of three or more factors is displayed as a text that parses to nested products of two factors.",
  "all trees of the class that violate the condition; all literals and names a, b, c; all products of three or more of them",
  "tests assert the printed text only and never re-parse it",
  S+"ast/traits.rs:Display for AST")
p("C22", "head / rewrite",
  "head(e) never panics; head(f(a..)(b..)) with k>=2 argument lists drops exactly the last one, with one list is the symbol f; for atoms it is a std::core type symbol. Taking heads of heads, every expression reaches std::core::Symbol and stays there, a call after dropping its argument lists one by one. rewrite(e) = e for every e.",
  "all ASTs", "all shapes", S+"internal/list_like.rs:head", S+"evaluate/rewrite.rs:rewrite")
p("C23", "length / first / last on strings",
  "length(string s) is the number of UTF-8 bytes of s (not of characters); first/last return the one-character string of the first/last character and Err(EmptyContainer) iff s is empty; on any non-string they panic. length of s equals the number of characters iff s is ASCII.",
  "all strings and all ASTs", "all unicode strings",
  S+"internal/list_like.rs:length", S+"internal/list_like.rs:first", S+"internal/list_like.rs:last")
p("C24", "parsing terminates on every input",
  "The generated PEG parser terminates on every text: no left recursion and no repetition of an expression that can succeed without consuming; recursion depth is bounded linearly in the input length.",
  "all input texts", "non-termination cannot be observed by finite tests", G)
p("C25", "an accepted text is consumed entirely and all reported spans are nested inside it",
  "If the grammar accepts a text, the whole text is consumed; every pair in the result spans 0 <= start <= end <= length, its text is the corresponding substring, children are nested in and ordered within their parent.",
  "all texts, all pairs", "invariant over every backtracking execution", G)
p("C26", "leading whitespace is irrelevant",
  "For every text t and every whitespace string w, parsing w++t gives the same outcome as parsing t (same AST up to positions, same panic, same error).",
  "all texts t, all whitespace prefixes", "arbitrary programs t", S+"parser/parse.rs:parse", G)
p("C27", "integer literals",
  "For every natural n, parsing its decimal numeral yields exactly the integer n; a numeral with leading zeros is not a number but a product of its parts (e.g. 012 is 0 times 12).",
  "all naturals", "unbounded numerals", S+"parser/parse.rs:parse_integer", G)
p("C28", "0x/0o/0b literals",
  "For every non-empty digit string of the base (with optional single underscores between digits), parsing 0x/0o/0b followed by it (any case of the base letter) yields the value; if an underscore directly follows the base prefix, parsing panics although the grammar accepts it.",
  "all digit strings in bases 2, 8, 16", "unbounded digit strings", S+"parser/parse.rs:parse_byte", G)
p("C29", "decimal literals",
  "For naturals i, j written without leading zeros, parsing i.j yields a decimal which displays as exactly i.j. For every literal whose fractional part has a leading zero and further digits (e.g. 1.05) parsing panics.",
  "all pairs of numerals", "unbounded numerals", S+"parser/parse.rs:parse_decimal", S+"parser/parse.rs:parse_space_call", G)
p("C30", "string literals are taken verbatim",
  "For every text s without double quote and backslash, parsing \"s\" yields the string s. Escapes are not interpreted: for every s the literal with quotes and backslashes escaped yields the escaped text, so the round-trip fails as soon as s has a quote or backslash. Between n >= 3 quotes any text stands for itself that does not start with a quote and does not contain or complete n quotes in a row. A name directly before a string literal has no effect.",
  "all unicode texts", "all texts", S+"parser/parse.rs:parse_string", G)
p("C31", "identifiers",
  "Every identifier path (words joined by ::, letters from any Unicode table) not starting with a reserved word parses to the symbol with that name and namespace. The single character ∷, which the grammar takes for ::, also joins words, but the whole becomes one name without a namespace. Reserved words are matched without word boundary: a word that starts with null, true or false never denotes a symbol of that name (the text is refused or denotes that constant), and a text starting with break or pass, or with let, class, trait or using followed by a letter, never denotes an expression (parse panics or refuses).",
  "all identifiers", "all identifier strings", S+"parser/parse.rs:parse_data", G)
p("C32", "operator precedence and associativity",
  "For every sequence operand (operator operand)* over + - * / ^ ., climbing yields the unique tree whose in-order leaves are that sequence and in which children bind tighter than parents (power right-associative, the others left-associative, / binding tighter than *).",
  "all operator sequences of any length", "unbounded sequences",
  S+"parser/mod.rs:OPERATORS", S+"parser/parse.rs:parse_expr")
p("C33", "unsupported infix operators silently truncate",
  "For every sequence in which an operator outside the climber table (= % > and the unicode products) follows a supported prefix, the result is the tree of the part before that operator; everything after it is dropped without error.",
  "all sequences", "all sequences", S+"parser/parse.rs:parse_expr", S+"parser/mod.rs:OPERATORS")
p("C34", "block comments are not transparent",
  "A %%%...%%% comment at the start of a text makes parse panic, and between an operand and an operator it drops the rest of the expression.",
  "all comment bodies without %", "all comment bodies", S+"parser/parse.rs:parse", G)
p("C35", "calls: argument lists of any length, any rank",
  "Parsing f(a1,...,an) for any list of naturals yields a call of f with exactly those arguments in order, no options; f() yields an empty argument list; k successive lists yield k parameters in order.",
  "all lists", "unbounded lists", S+"parser/parse.rs:parse_apply_call", S+"parser/parse.rs:parse_apply")
p("C36", "dot call prepends the receiver",
  "Resolving lhs.rhs: with rhs a symbol gives rhs(lhs); with rhs a call gives the call with lhs prepended to its first argument list, everything else unchanged; with an integer gives index(lhs,i); every other rhs panics (so does a call with zero argument lists).",
  "all pairs of ASTs", "all shapes", S+"parser/parse.rs:parse_dot_call")
p("C37", "slices default their omitted bounds",
  "a[start:end:step] with any subset of the parts omitted becomes Span(start or 1, end or All, step or 1); plain indices are passed through; the number and order of indices is preserved.",
  "all 8 omission patterns and all index lists", "all index lists", S+"parser/parse.rs:parse_index", S+"parser/parse.rs:parse_slice")
p("C38", "juxtaposition is multiplication only of plain integers and symbols",
  "A juxtaposition of symbols and plain integers becomes one times(...) call with the factors in order; if any factor is a decimal, a 0x literal or a call, parse panics.",
  "all factor lists", "all factor lists", S+"parser/parse.rs:parse_space_call")
p("C39", "only the first expression statement is returned; other statements panic",
  "parse returns the first statement if it is an expression, regardless of what follows; if the first statement is of any other kind (let, def, class, if, ;, ...) parse panics; an empty (or all-whitespace) text gives the empty statement.",
  "all accepted texts", "all statement sequences", S+"parser/parse.rs:parse")
p("C40", "parentheses",
  "For every displayable operator expression e, parsing (e) gives the same AST as parsing e; but a space directly after an opening parenthesis is a syntax error.",
  "all expressions of the C20 class", "unbounded", S+"parser/parse.rs:parse_node", G)
p("C41", "forward: complete decision table",
  "Evaluating an AST: atoms are returned unchanged; a program panics; a call with no argument list becomes its symbol; with two or more argument lists Err(Unimplemented); with one list, dispatch on the function name only (namespace ignored), arguments not evaluated; unknown names Err(Unimplemented). The context is never modified.",
  "all ASTs and contexts", "all shapes", S+"evaluate/forward.rs:forward", S+"evaluate/forward.rs:evaluate_function")
p("C42", "end-to-end arithmetic of the evaluator",
  "For all naturals a,b: evaluate(\"a*b\") prints a*b; evaluate(\"a^b\") prints a^b when b < 2^64; evaluate(\"a!\") prints a! when a <= isize::MAX; evaluate(\"fibonacci(a)\") prints F(a); evaluate(\"plus(a,b)\") prints a+b; but evaluate(\"a+b\") is always Err(Unimplemented).",
  "all naturals a, b and every reachable runner state", "all numbers, all sessions",
  S+"evaluate/traits.rs:evaluate", S+"evaluate/forward.rs:evaluate_function")
p("C43", "power with exponent outside u64 silently returns the base",
  "Evaluating power(a,b) gives a^b for 0 <= b < 2^64 and a itself for every other b (negative or huge).",
  "all integers a,b", "all integers", S+"evaluate/forward.rs:evaluate_power")
p("C44", "runner history",
  "After any sequence of evaluate calls that do not panic, the index equals the number of calls, the inputs map holds exactly the call texts at 1..k, the outputs map holds exactly the successful results at their call index, and earlier entries never change.",
  "all call sequences", "all histories", S+"evaluate/traits.rs:Runner", S+"evaluate/mod.rs:Context")
p("C45", "Runner::last",
  "last() returns the AST of the most recent evaluate call iff that call produced an output; before any call or after a call that returned an error it panics, it never returns an older output.",
  "all call sequences", "all histories", S+"evaluate/traits.rs:last")
p("C46", "playground: one panicking input disables the session",
  "In the playground, after any calls none of which panicked, result(input) is the printed output of input or the text of its error (never an Err); result_tex() is the TeX of the output of the most recent input and panics if there is none; once any call panics, every later call of result or result_tex panics too; evaluating the empty text panics.",
  "all call sequences (any interleaving of threads, calls being serialised by the mutex)", "all histories", PG+":result", PG+":result_tex")
p("C47", "TeX output",
  "Scaled delimiters for function arguments (\\left( ... \\left) , \\right)) are never emitted because box height never exceeds 1; the TeX of an infix node uses only its first two operands (a juxtaposition of three factors loses the rest) and panics iff one of them cannot be displayed; an empty list panics; prefix and suffix operators panic. Every other tree has the TeX its shape gives: plain names, \\text{..} strings, sin x without and sin(x + y) with brackets, \\operatorname{f} followed by one bracket group per argument list.",
  "all ASTs", "all trees", S+"traits/tex/mod.rs:to_tex", S+"traits/tex/utils.rs:omit_brackets_function", S+"traits/tex/utils.rs:infix_tex")
p("C48", "Wolfram export is total and ignores positions, namespaces and operator kinds",
  "to_wolfram never panics; ASTs that differ only in positions, namespaces, kinds and attributes have the same image; integers and strings are exported unchanged, every argument exactly once in order; a call f(..)(..) becomes the application of the application, options become rules after the arguments, factor becomes FactorInteger and other names are capitalised.",
  "all ASTs", "all trees", S+"traits/wolfram/mod.rs:to_wolfram")
p("C49", "parse_file touches the destination only after a successful parse",
  "If reading or parsing fails (error or panic) the destination file is unchanged; no other path is ever modified; but the write is not atomic: a crash (or write failure) after the file is created leaves the old content lost and a strict prefix of the new content.",
  "all file systems, all crash points", "crash points cannot be enumerated by tests", S+"parser/parse.rs:parse_file")
p("C50", "algorithm errors surface as the corresponding evaluator errors",
  "factorial / fibonacci / prime_sum on an integer node return exactly the algorithm's value, or its error translated OverFlow->Overflow, ComplexInfinity->ComplexInfinity, Unimplemented->Unimplemented, IOError->IOError, Indeterminate/Undefined->Unknown; on a decimal node they return the decimal unchanged; on anything else they panic. The displayed text of an algorithm error identifies the error.",
  "all ASTs; all errors", "all shapes, all messages inside errors", "projects/sm-algorithm/src/error.rs:Display", S+"internal/elementary.rs:factorial", S+"internal/elementary.rs:fibonacci", S+"internal/number_theory.rs:prime_sum", S+"error/traits.rs")
p("C51", "a reference syntax for expressions",
  "There is a syntax of expressions, stated without the parser (literals, names, references, slots, prefix and suffix operators, calls, derivatives, slices, lists, dictionaries, juxtaposition, infix operators with strengths, parentheses, white space and line comments), such that every text of it, between any white space and line comments, is accepted and denotes exactly the meaning the syntax gives (a tree up to positions, or a panic); a text has at most one meaning.",
  "all texts of the syntax, unbounded nesting", "unbounded nesting and all interactions of constructs",
  S+"parser/parse.rs:parse", S+"parser/parse.rs:parse_expr", S+"parser/parse.rs:parse_term", G)
p("C52", "refused texts",
  "A text whose first character after white space is one of ) ] } , . : = < > ? & | ^ ~ \\ ` $ ' is refused with a parse error and never panics, whatever follows.",
  "all texts with such a start", "all continuations", S+"parser/parse.rs:parse", G)
p("C53", "nested arithmetic is not evaluated",
  "In every session, a text that denotes an infix operation whose operands are not both integer literals (so any chain of two or more operators) is answered Err(Unimplemented): arguments are never evaluated.",
  "all texts and sessions", "all expressions", S+"evaluate/forward.rs:evaluate_function", S+"evaluate/traits.rs:evaluate")
p("C54", "recorded positions point into the source",
  "In a tree that parse returns, every argument list carries the given file name and the 1-based line and column of the start and of the end of some part of the text, start not after end; a carriage return does not count as a line end, only a line feed does; for a prefix or suffix operator the part is exactly its sign.",
  "all accepted texts, all line structures", "all placements of line ends and all nestings", S+"parser/traits.rs:get_position", S+"parser/parse.rs:parse_term", S+"ast/mod.rs:Position")
p("C55", "texts that cannot make the parser panic",
  "Whatever else a text contains, and however malformed it is, parsing it returns a tree or a parse error and does not panic, provided that, after leading white space, it does not start with a comment, with ; or @ or with a word that starts another kind of statement, that it contains none of . { ' ? ## %%% and the sign for logical not, and that it has no names, or has no opening parenthesis and no 0x, 0o, 0b, or has no two operands side by side. Each of these pieces can make the parser panic.",
  "all such texts, of any length, balanced or not", "the claim is about every text, most of them malformed", S+"parser/parse.rs:parse", S+"parser/parse.rs:parse_term", S+"parser/parse.rs:parse_data", S+"parser/parse.rs:parse_space_call", "projects/sm-parser/src/sm_parser.rs")

p("C56", "Texts that cannot make a session panic",
  "A text of the kinds of C55 that is not blank and contains neither ! nor one of the words first, last, length, factorial, fibonacci is answered by a session or refused with an error, whatever was evaluated before; on the web page such a text never makes the later calls fail. Each of these words can make a session panic.",
  "all texts (as character lists), all earlier calls, all word sizes, all tables of letters beyond ASCII",
  "The panics of the evaluator and the printer depend on the shape of the tree, which comes from the text; tests try a few texts in a few sessions, not all of them.",
  "projects/sm-ast/src/evaluate/traits.rs: Runner::evaluate", "projects/sm-ast/src/evaluate/forward.rs: AST::forward", "projects/sm-ast/src/parser/parse.rs", "projects/sm-playground/src/lib.rs: result")

p("C57", "the TeX output contains no TeX command and its brackets match",
  "In every TeX text produced, backslashes come only in pairs (a pair is a line break in TeX, so no command such as \\sin is ever produced), and round and curly brackets match, provided that this holds of the names and strings in the tree.",
  "all trees", "all trees, all names and strings in them", S+"traits/tex/mod.rs:to_tex", S+"traits/tex/utils.rs:omit_brackets_function", S+"ast/traits.rs:fmt")

p("C58", "the parser follows the grammar file",
  "The shipped parser (the generated Rust functions) accepts exactly the texts that the grammar file simple-math.pest accepts, under the meaning that pest gives to its notation (ordered choice, greedy repetition, implicit white space and comments, atomic and silent rules, PUSH, PEEK and POP), with the same pairs, spans and nesting; the same holds for every rule from every position; the grammar gives every text exactly one meaning; parse reports a parse error exactly for the texts that the grammar refuses.",
  "all texts, all rules, all start positions, modes and stacks",
  "A generated parser can drift from the grammar file it claims to implement; samples reach few of the 149 rules' paths.",
  "projects/sm-parser/simple-math.pest", "projects/sm-parser/src/sm_parser.rs: SMParser::parse", "projects/sm-ast/src/parser/parse.rs: parse")

p("C59", "the tree of every accepted text",
  "For every text that the grammar accepts, parse returns exactly the tree that its pairs stand for, or panics exactly when they stand for none: operators grouped by strength, prefix operators from the right, suffix operators and slices from the left, a.b as a call of b on a, slices with missing bounds filled in, arguments in order and options by key with the last value given, numbers, names, strings, constants, slots and references to earlier inputs and outputs; only the first expression of a text counts; every argument list carries the file and the line and column where its construct starts and ends.",
  "all accepted texts, any nesting, all file names, all tables of letters beyond ASCII",
  "C51 covers the texts of a reference syntax; this one covers every text that the parser accepts, including those on which it panics, and every recorded position. Tests sample both.",
  S+"parser/parse.rs:parse", S+"parser/parse.rs:parse_expr", S+"parser/parse.rs:parse_term", S+"parser/parse.rs:parse_index", S+"parser/parse.rs:parse_apply", S+"parser/parse.rs:parse_data", S+"parser/ops.rs", S+"parser/traits.rs:get_position")

p("C60", "the reply to every text",
  "For every text and after any earlier texts, a session replies exactly this: the parse error if the grammar refuses the text; otherwise the written value of its tree, the evaluation error of its tree, or a panic when the text has no tree, the tree no value or the value no written form. Integers, decimals, booleans, names and strings are their own values; plus, times and power work on two integers, factorial and fibonacci on numbers in the machine range, first, last and length on strings, and everything else is unimplemented.",
  "all texts, all earlier texts, all word sizes, all tables of letters beyond ASCII",
  "This joins grammar, tree builder, evaluator and printer into one relation between input text and output text. Tests sample it.",
  S+"evaluate/traits.rs:Runner::evaluate", S+"evaluate/forward.rs:AST::forward", S+"internal", S+"ast/traits.rs:Display")

p("C61", "the web page from the first call to the last",
  "For every sequence of calls of the web page (a text to evaluate, or a request for the last result in TeX), the replies are exactly these: the written value or the rendered error of each text; the TeX form of the value of the latest text; and a panic for a text without a reply, for a TeX request when the latest text had no value, and for every call after a panic.",
  "all sequences of calls of any length, all texts, all word sizes, all renderings of errors",
  "Histories of calls are unbounded and a panic changes all later replies. Tests run a few short histories.",
  "projects/sm-playground/src/lib.rs:result", "projects/sm-playground/src/lib.rs:result_tex", S+"evaluate/traits.rs:Runner", S+"traits/tex/mod.rs:to_tex")

p("C62", "parsing can take exponential time",
  "Parsing makes at least 3^n calls of the parser's functions when n operands are indexed inside each other, as in a[a[a[0]]], although such a text is accepted; and at least 2^n calls for n calls that are never closed, as in f(f(f(, which is then refused. So no polynomial in the length of the text bounds the work. It is always below 2^(70(l+1)) for a text of length l. Only nesting does this: a text of length l with k signs among ( [ { @ = % takes at most (6(l+1))^(6(k+1)) calls, so without such signs the work is polynomial.",
  "all nestings of indexed operands and of unclosed calls, any depth; the upper bounds: all texts",
  "A test measures one depth on one machine; that the work multiplies with every level, and that no polynomial bounds it, is about all depths.",
  "projects/sm-parser/simple-math.pest:index", "projects/sm-parser/simple-math.pest:node", "projects/sm-parser/src/sm_parser.rs", S+"parser/parse.rs:parse")

p("C63", "lines of a text",
  "An expression ends at a line break unless the next line starts with an operator: arguments, indices, juxtaposed factors and coefficients never reach over a line, so f, a line break, then (a) is f and not a call. The text then means the first expression, or is refused; it is accepted when the following lines are expressions. An operator takes both operands whatever line breaks surround it.",
  "all expressions of the reference syntax, all white space with a line break, all following texts, all operators",
  "The manual states it for every expression; tests try a few pairs of lines.",
  "projects/sm-book/docs/cn/basic/readme.md", "projects/sm-parser/simple-math.pest:node", "projects/sm-parser/simple-math.pest:space_call", "projects/sm-parser/simple-math.pest:expr", S+"parser/parse.rs:parse")

p("C64", "signs the manual offers and the parser does not take",
  "After an expression, | & $ ~ < \\ ` ) ] } and the comma make the text an error, and so does an operator without a right operand; so ==, >=, ->, =>, .. and // cannot be used. x @ y is x or refused, never an application; x ** y is x times the unpacking of y (not a number with exponent); x != y is the factorial of x.",
  "all expressions of the reference syntax on the left, all white space, all following texts",
  "That a sign is never accepted, after any expression and before any text, is a claim about all texts.",
  "projects/sm-book/docs/cn/developer/operators.md", "projects/sm-book/docs/cn/starter/literal.md", "projects/sm-parser/Readme.md", "projects/sm-parser/simple-math.pest:Infix", S+"parser/parse.rs:parse_expr")

p("C65", "line comments are white space",
  "A comment that starts with ///, //?, //! or //* and reaches to the end of its line counts as white space: before any text whatever it changes nothing but positions; before, between and after the parts of an expression (wherever the reference syntax allows white space) it leaves the meaning alone; the last comment of a text needs no line end. A / directly before a /// comment is swallowed by it: the division is lost and the text means the left operand alone, or is refused.",
  "all texts after a leading comment, all comment bodies, all expressions of the reference syntax",
  "Comments can stand at unboundedly many places of unboundedly many texts.",
  "projects/sm-parser/simple-math.pest:COMMENT", S+"parser/parse.rs:parse", G)

p("C66", "how deep the parser recurses",
  "The parser is recursive. The nesting of its calls is at most 14 plus 14 for each of the signs ( [ { @ = % in the text: a text without them is parsed in bounded depth, however long. It has no limit otherwise: n opening parentheses nest at least 3n calls, whatever follows, and ((...(0)...)) is accepted and means 0. The pairs the parser returns nest at most as deep as its calls. A flat sum of n numbers is parsed in bounded depth, but its tree is n levels deep, and everything that walks the tree recurses that deep.",
  "all texts; all numbers of parentheses; all sums of numerals",
  "A bound on the depth for every text, and its absence for nested ones, cannot be read off finitely many runs.",
  "projects/sm-parser/src/sm_parser.rs:rules::visible", S+"parser/parse.rs:parse", G)

p("C67", "references to earlier lines, and slots",
  "As the manual says, ¶n and ⁋n are read as the n-th input and output (n >= 1), and k marks in a row as the k-th last one: a call of std::repl::input or std::repl::output on n or -k, exported as Input[n], Output[-k]. But a session never looks them up: after any history it answers every such reference with an unimplemented error. # is a slot, #n and #name slots with a number or a name, ## the slot sequence; ##n is accepted and panics.",
  "all positive numerals, all numbers of marks, all names, all white space and comments around, all session histories",
  "Numbers, marks, names and histories are unbounded.",
  "projects/sm-book/docs/cn/starter/repl.md", "projects/sm-book/docs/cn/developer/shortcoming.md", S+"parser/parse.rs:parse_in_out", S+"parser/parse.rs:parse_slot", S+"evaluate/traits.rs:evaluate", G)

p("C68", "syntax that is accepted and has no meaning",
  "A derivative f'(x) with any number of primes and any argument list, a dictionary { } with any entries, a ? or primes after an operand, and a ¬ before one are accepted by the grammar, but turning them into a tree panics, always.",
  "all names, argument lists, dictionary entries and operands of the reference syntax",
  "That no such text ever gets a meaning or an error message is a claim about all of them.",
  "projects/sm-parser/Readme.md", "projects/sm-book/Readme.md", "projects/sm-parser/simple-math.pest:derivative", "projects/sm-parser/simple-math.pest:dict", S+"parser/parse.rs:parse_node", S+"parser/parse.rs:parse_term", G)

p("C69", "operands side by side",
  "What is written after an operand without an operator is silently lost, unless the two can be a call or a product: a parenthesis after an expression whose last operand cannot be called, and a number, name, reference or slot after one whose last operand cannot be a factor, end the expression there. The text then means what the expression before it means, or is refused because of what follows; it is accepted when the rest is a list of expressions. So 2(3) is 2, (a)(b) is a, sin(x) cos(x) is sin(x), and #(a+1), which the manual calls a multiplication, is #.",
  "all expressions of the reference syntax whose last operand is of the class, all blanks between, all texts after",
  "The dropped operand may come after any expression and be followed by any text.",
  "projects/sm-book/docs/cn/developer/shortcoming.md", "projects/sm-parser/simple-math.pest:space_call", "projects/sm-parser/simple-math.pest:apply_call", S+"parser/parse.rs:parse_expression", S+"parser/parse.rs:parse_space_call", G)

p("C70", "where a parse error points",
  "The line and column of a parse error are always a place of the text or its end, and there is none if the text is accepted. The error always lists rules as expected, none of them can be read at that place, and it lists nothing as unexpected. The error is never before the end of the correct expressions that stand on lines of their own at the start of the text. A character without meaning in the language, outside strings and comments, makes the text fail, whatever surrounds it, and the error is not after it; after an expression, or in place of an operand, the error is exactly there, and after an expression the end of the text is among what was expected. When the operand of an operator is missing at the end of the text, the error is at the end of the text; when something else stands there, not before that.",
  "all texts; all expressions of the reference syntax, all lines before, all white space and comments around, all texts after",
  "Before and after the fault stand any texts, and the place is the furthest of all the attempts the parser made.",
  S+"error/traits.rs:from", S+"parser/parse.rs:parse", "projects/sm-parser/src/sm_parser.rs:rules::visible", G)

p("C71", "brackets match",
  "A text whose brackets, outside strings and comments, do not match is always refused, and so is one with a string that has no end: of an accepted text, what is outside strings and comments is balanced. In a text without strings and comments the error is never after the first closing bracket that no open bracket waits for, whatever surrounds it; after a complete expression, it is exactly at that bracket.",
  "all texts; for the place of the error, all texts without strings and comments before the bracket, all texts after it; all expressions of the reference syntax, all lines before, all white space around",
  "Brackets nest without bound, and any text may follow the fault.",
  S+"parser/parse.rs:parse", "projects/sm-parser/simple-math.pest:node", "projects/sm-parser/simple-math.pest:apply", "projects/sm-parser/simple-math.pest:slice", "projects/sm-parser/simple-math.pest:dict", G)


p("C72", "where a text that breaks off is wrong",
  "A text that breaks off inside an expression while a bracket is open (a group, a list, a call, a dictionary or an index, also of the last factor of a product; after a prefix or infix operator, a comma, a colon, a complete expression or nothing, but not inside a string, a number or a name) is refused, and the error is at the end of the text. If a character without meaning comes next, or a closing bracket the innermost open bracket does not wait for, the error is exactly at that character, however deep the nesting and whatever follows.",
  "all expressions of the reference syntax and all ways to break off inside brackets, nested without bound; all lines before, all texts after",
  "Open constructs nest without bound, every complete part is arbitrary, and any text may follow the fault.",
  S+"parser/parse.rs:parse", "projects/sm-parser/simple-math.pest:node", "projects/sm-parser/simple-math.pest:apply", "projects/sm-parser/simple-math.pest:slice", "projects/sm-parser/simple-math.pest:dict", G)

p("C73", "layout does not matter",
  "Two texts that differ only in the width of their gaps outside strings, in the kind of white space they are made of (as long as a gap stays a gap, and a gap with a line break stays a gap with a line break) and in what their comments say (as long as a line comment stays one, and a block comment stays one) are accepted, refused or made to panic alike, denote the same expression and get the same reply from a session. So, in texts without strings, line ends may be CR LF, CR or LF, tabulators may be blanks, blanks at the ends of lines may go, and any such text may be reformatted, in comments too. Removing a gap, turning a line break into a blank, or changing the inside of a string can change the meaning.",
  "all pairs of texts with the same strings, gaps, comments and other characters, accepted or not",
  "Every text is covered, the refused ones too, and the parser backtracks over the gaps in every rule.",
  S+"parser/parse.rs:parse", "projects/sm-parser/simple-math.pest:WHITESPACE", "projects/sm-parser/simple-math.pest:COMMENT", "projects/sm-parser/simple-math.pest:apply_call", G)

p("C74", "tests on trees",
  "A tree passes the test for zero, or for one, exactly if it is an integer or a decimal of that value, with any number of decimal places; the tests for strings, truth values and for prefix, infix and suffix operators answer exactly for these; the test for a product answers exactly for std::infix::times. The test for null asks for the name Null, and so the tree of the text null fails it. The tests for functions, powers, numbers, complex numbers, integers and signs answer no for every tree. A position is shown as its file alone.",
  "all trees, all names, all positions",
  "Decimals of one value have infinitely many representations, and names may contain the separator.",
  S+"ast/traits.rs:is_zero", S+"ast/traits.rs:is_one", S+"ast/traits.rs:is_null", S+"ast/traits.rs:is_times", S+"parser/parse.rs:parse_special")

p("C75", "nothing is invented, and trees are no larger than texts",
  "Every string and number in the tree of a text is a piece of the text, or 1 for the missing bound of a range, or minus a number of ¶ signs. Every name stands in the text with its whole path or is one of ten that the parser adds (std::core::Span, ...); the sign of every operator stands in the text, except that of a product written without one. The tree has at most two nodes for each character of the text, and texts of every even length from 4 have trees with one node less than that.",
  "all accepted texts, file names and Unicode tables",
  "An added or duplicated piece can come from any combination of constructs, and a bound on the size of the result is about all texts at once.",
  S+"parser/parse.rs:parse_expression", S+"parser/parse.rs:parse_index", S+"parser/parse.rs:parse_in_out", G)
p("C76", "letters outside ASCII are alike",
  "Characters outside ASCII, other than the signs of the grammar, are told apart only by whether they may start a word, may continue one, or are white space. When they are replaced one for one by others of the same class, an accepted text stays accepted and has the same tree but for the replaced names and strings (the same shape, numbers and places, options again in the order of their keys); a refused text stays refused with the same place and the same expected rules in its error; a text that makes the parser panic stays one. What a session replies changes only by the same replacement, with the same errors and panics, if letters are replaced by letters with as many bytes in UTF-8; otherwise the reply can be different, because the length of a string counts bytes.",
  "all texts, file names, Unicode tables and replacements",
  "There are over a million characters and any of them can appear anywhere in a text; a comparison of one character too many shows only on that character.",
  S+"parser/parse.rs:parse", G)
p("C77", "conversions of files at the same time",
  "Calls of parse_file running at the same time, in any interleaving of their reads and writes: calls in which no destination is the destination or the source of another run as if each were alone, and when all succeed every destination holds the output for its source; no other file changes. Any number of calls that write the same bytes to one destination leave these bytes when all have succeeded. But two calls with one destination can both succeed and leave a mixture of their outputs, and a call that reads the destination of another may take any first part of the output for the whole.",
  "all file systems, all numbers of calls, all interleavings and crash points, all sizes of single reads and writes",
  "The orders in which the steps of concurrent calls can run cannot be enumerated, and tests run one of them.",
  S+"parser/parse.rs:parse_file")
p("C78", "the playground called from several threads",
  "Threads that call result and result_tex at the same time, in any interleaving, get the answers of some order of the same calls made one after another; each thread's calls keep their order, and a call answered before another is made comes before it. Every such order may happen. No set of calls ever blocks for ever, and a run is over after a bounded number of steps. After a panic in one thread every call answered later, in any thread, panics. But result_tex called right after result may show the output of a text of another thread.",
  "all numbers of threads, all sequences of calls in each, all interleavings",
  "The interleavings of threads cannot be enumerated; a test sees one of them.",
  "projects/sm-playground/src/lib.rs:RUNNER", "projects/sm-playground/src/lib.rs:result", "projects/sm-playground/src/lib.rs:result_tex", S+"evaluate/traits.rs:evaluate")

p("C79", "the trees that can be written",
  "Up to the places of its parts, a tree is the tree of some text exactly if it is the tree of the blank text or built as follows: natural numbers; decimals; true, false and null; names of words that do not begin with null, true or false; strings that can stand between single or triple quotation marks; calls of a name with at least one parameter list, whose options have different names in alphabetical order; operators with at least as many arguments as they have operands; products of numbers and names written side by side; and the earlier inputs or outputs counted from the last. So no text gives a list of statements, a negative number of its own, or a string that starts with a quotation mark.",
  "every tree and every text, for all Unicode tables",
  "both directions quantify over infinitely many trees and texts: that a given tree has no text cannot be seen by trying texts",
  S+"parser/parse.rs:parse", S+"parser/parse.rs:parse_expression", S+"parser/parse.rs:parse_term", S+"parser/parse.rs:parse_data", S+"ast/mod.rs:AST", G)
p("C80", "the message of a refused text",
  "The error of a refused text carries a message of six lines: the line and the column of the error, the line of the text it stands in, a mark, and the names of exactly the rules that were tried there in vain, each once, in the order of the program. A text that is not refused has no message. The message can be taken apart in one way only, so texts refused at different places, or with different sets of rules tried, have different messages. The mark stands under the character at the error if no carriage return stands before it in its line (refuted otherwise: the mark is then too far to the right).",
  "every text, for all Unicode tables",
  "the layout depends on the length of the line number, on the line ends and tabulators of the text and on every rule the parser tried at the furthest place",
  S+"error/traits.rs:From", S+"parser/parse.rs:parse", G)
p("C81", "errors on the web page",
  "When the evaluation of a text fails, the web page answers with one line: the name of the error and, in brackets, what it carries as a string literal; for a refused text that is its message. The error and what it carries can be read off the answer, so two failing texts with the same answer failed with the same error, and two refused texts with the same answer are wrong at the same place. That there was an error cannot be read off: every such answer is also the answer to a text that is just a string (refuted: answers of errors and of values are different).",
  "every text, every error and every sequence of earlier calls without a panic, for all Unicode tables and all releases of Rust as far as they differ in which characters Debug escapes",
  "the payload of an error is an arbitrary text, so that it can be read back is a statement about all strings; that every answer can be mimicked needs a text for each",
  "projects/sm-playground/src/lib.rs:result", S+"error/mod.rs:SMError", S+"error/traits.rs:From", S+"ast/traits.rs:Display")
p("C82", "replies as texts",
  "A reply of the web page that is a number or a truth value, given back as a text, has the same value and the same reply; so has the reply that is a name, unless it starts with a word that starts a statement. The numbers among the replies are never negative: they are digits, perhaps with one dot. It fails for the rest (refuted): the reply to null is refused as a text, giving back the reply to (letter) panics, and the reply to a string is read as a text.",
  "every text with a value and every sequence of earlier calls without a panic, for all Unicode tables and all widths of usize",
  "it relates the printer, the grammar, the tree builder and the evaluator on all values that any text can have; tests compare a few literals with themselves",
  "projects/sm-playground/src/lib.rs:result", S+"ast/traits.rs:Display", S+"evaluate/forward.rs:forward", S+"parser/parse.rs:parse", G)
p("C83", "length of a reply",
  "A text without the signs ^ and ! and without the words power, factorial and fibonacci has a reply of at most three times its length and 24 characters. Any reply to a text of length n has at most 2 (n + 12) 2^64 + 2 W 2^W characters, for words of W bits. The text 10^x, for a numeral x below 2^64, has the reply 1 followed by x zeros, so a text of 23 characters has a reply of 2^64 characters: there is no limit that a server could rely on.",
  "every text that has a reply, every earlier history, every Unicode table and every width of usize",
  "the bound is over texts of every length and of every shape; and a test cannot wait for the long replies",
  "projects/sm-playground/src/lib.rs:result", S+"evaluate/forward.rs:forward", S+"ast/traits.rs:Display", S+"parser/parse.rs:parse", G)
p("C84", "what is a comment and what is a string",
  "At any place of any text: ///, //?, //! and //* start a comment that reaches to the end of the line; %%% starts a comment exactly if the number of further %%% up to the end of the text (counted from the left, without overlap) is odd, and that comment ends at the very next %%%, so block comments do not nest; a string in single quotes ends at the next quote that is not escaped, one in three or more quotes at the next place with that many quotes in a row. A text that starts with %%% and has an even number of them after it is refused, whatever else it contains.",
  "all places of all texts, all reading modes", "Whether %%% starts a comment depends on all the rest of the text.",
  "projects/sm-parser/simple-math.pest:COMMENT", "projects/sm-parser/simple-math.pest:MultiLineComment", "projects/sm-parser/simple-math.pest:StringBlock", "projects/sm-parser/simple-math.pest:StringNormal", "projects/sm-parser/src/sm_parser.rs:rules::visible::MultiLineComment", G)

p("C85", "the order of trees",
  "Trees are compared first by their sort (nothing, program, call, truth value, integer, decimal, name, string), then by content: lists as in a dictionary, strings by their bytes, integers and decimals by value, names by namespace, name, kind and attributes, calls by name, then arguments, options and place. Two trees compare equal exactly if they are equal except that decimals count by value: 1.5 and 1.50 are equal keys, though they print differently. Of any two trees exactly one holds: before, equal, after; before is transitive.",
  "all pairs of trees", "A sorted map of options is only a map if the order is one, for trees of any depth.",
  S+"ast/mod.rs:AST", S+"ast/mod.rs:Symbol", S+"ast/mod.rs:SymbolKind", S+"ast/mod.rs:Parameter", S+"ast/mod.rs:Position")

p("C86", "what an export to Wolfram leaves of a tree",
  "Two texts have the same export to Wolfram exactly if their trees agree in everything but positions, namespaces, kinds and attributes, where functions need only have the same Wolfram name; provided that neither calls a function whose Wolfram name is Rule, True, False or CompoundExpression. Otherwise it fails (refuted): f(k: 1) and f(Rule(k, 1)) have the same export. Nor does the export tell f from F, or factor from factorInteger, as names of functions.",
  "all pairs of accepted texts, all trees with decimals as they are written, all ways of capitalising", "that nothing else is lost is a statement about all pairs of trees of any depth",
  S+"traits/wolfram/mod.rs:to_wolfram", S+"traits/wolfram/mod.rs:function_map", S+"parser/parse.rs:parse")

p("C87", "converting files, from bytes to bytes",
  "Converting a file can end well exactly if the source is a text with a tree. Two sources that differ only in layout and in the words of comments are converted alike: if one conversion can end well so can the other, and if both do they have written the same bytes, wherever the files are and whatever name the settings give. Provided that different Wolfram values are written differently, and nothing is called by a Wolfram name that the export uses itself, two conversions have written the same bytes exactly if the trees of their sources agree as in C86.",
  "all sources, all file systems and all behaviours of the operating system, all Unicode tables, all encodings of Wolfram values", "It relates all pairs of sources and all executions over a file system; tests compare a few files.",
  S+"parser/parse.rs:parse_file", S+"traits/wolfram/mod.rs:to_wolfram", S+"parser/parse.rs:parse", G)

p("C88", "line breaks in an expression",
  "An expression ends at a line break, or at a comment with one, if the next line starts with anything but an infix operator: parentheses there are no arguments, brackets no index, numbers and names no factors, and ! is no factorial. The text then denotes that expression, or is refused for what follows, and is not refused if expressions follow. Before and after an infix operator lines may be broken: the operator is applied to the operands on both lines.",
  "all expressions of the reference syntax, all white space and comments between the lines, all next lines, all Unicode tables", "It ranges over all expressions and whatever may stand on the next line; tests break a few lines.",
  G, "projects/sm-parser/simple-math.pest:term", "projects/sm-parser/simple-math.pest:apply_call", "projects/sm-parser/simple-math.pest:space_call", S+"parser/parse.rs:parse_expr")

p("C89", "how much work the number functions do",
  "The fast Fibonacci function makes at most 6 log2 n + 7 recursive calls. The extended Euclidean algorithm makes at most 2 log2 |b| + 2 divisions (none for b = 0), whatever a is; for two neighbouring Fibonacci numbers it makes about as many as their index. prime_sum_u64(n) keeps at most 2 sqrt n + 2 sums and updates them fewer than 2 n^(1/4) n^(1/2) + n / n^(1/4) times (roots rounded down), so always fewer than 24 n^(3/4) times.",
  "all n > 0, all integers a and b, both overflow modes",
  "a bound on the work for every size of input; a test measures a few inputs and a missed memo entry, or a loop that does not stop early, gives the same numbers",
  A+"linear/fibonacci.rs:fibonacci_fast_u", A+"basic/mod.rs:extended_gcd2", A+"prime/prime_sum.rs:prime_sum_u64")

def main():
    out = os.path.join(os.path.dirname(__file__), "..", "properties.jsonl")
    with open(out, "w") as f:
        for q in P:
            f.write(json.dumps(q, ensure_ascii=False) + "\n")
if __name__ == "__main__":
    main()
