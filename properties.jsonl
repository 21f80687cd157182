{"id": "C01", "title": "factorial_i is n! on its whole domain", "statement": "factorial_i(n) returns Ok(n!) for every n with 0 <= n <= isize::MAX, Err(ComplexInfinity) for every negative n that fits isize, and Err(OverFlow) for every n outside isize (even negative ones); it never panics.", "quantifier": "all integers n (arbitrary precision), both word sizes", "why_tests_cant": "the unit test prints one value; the claim is about every integer including the isize boundary", "anchors": ["projects/sm-algorithm/src/gamma/factorial.rs:factorial_i", "projects/sm-algorithm/src/gamma/factorial.rs:factorial_fold_u"]}
{"id": "C02", "title": "fibonacci_i is the Fibonacci number for every non-negative n; both algorithms agree", "statement": "For every usize n, fibonacci_fast_u(n) (memoised doubling over a mutable map) and fibonacci_fold_u(n) both return F(n) and never panic (no BigUint subtraction underflow, recursion terminates); fibonacci_i(n) = Ok(F(n)) for 0 <= n <= isize::MAX and Err(OverFlow) outside isize.", "quantifier": "all usize / all integers n", "why_tests_cant": "tests check n=0,10,100 only; memoisation correctness depends on every intermediate map state", "anchors": ["projects/sm-algorithm/src/linear/fibonacci.rs:fibonacci_i", "projects/sm-algorithm/src/linear/fibonacci.rs:fibonacci_fast_u", "projects/sm-algorithm/src/linear/fibonacci.rs:fibonacci_fold_u"]}
{"id": "C03", "title": "fibonacci_i on negative integers does not compute negafibonacci numbers", "statement": "For negative n in isize, F(-k) = (-1)^(k+1) F(k) is never what is computed: the index is reinterpreted as 2^W - k, so odd k would yield F(2^W - k) (a different number, for every k < 2^(W-1) odd), and even k always ends in a panic (negating a BigUint).", "quantifier": "all negative n with n >= -2^(W-1), W in {32,64}", "why_tests_cant": "the real computation would need a number with more than 2^31 bits; no test can run it", "anchors": ["projects/sm-algorithm/src/linear/fibonacci.rs:fibonacci_i"]}
{"id": "C04", "title": "power_iu: where it equals a^b", "statement": "power_iu(a,b) never panics; it returns Err(Indeterminate) iff a=b=0; for a=0,b>0 returns 0; for a=1,b>0 returns 1; for a not in {0,1} and 2<=b<2^32 returns Ok(a^b), for b>=2^32 Err(OverFlow). The expected law 'result = a^b whenever Ok' is false exactly at b=0 (returns 0 for every a<>0) and b=1 (returns 1 for every a not in {0,1}).", "quantifier": "all integers a and all naturals b", "why_tests_cant": "the special cases are dispatched before the general code, tests only exercise BigInt::pow directly", "anchors": ["projects/sm-algorithm/src/basic/mod.rs:power_iu"]}
{"id": "C05", "title": "extended_gcd2 returns Bezout coefficients", "statement": "extended_gcd2(a,b) = (g,[x,y]) with g = gcd(a,b) >= 0 and a*x + b*y = g, for every pair of integers including zero and negative ones; the computation always terminates without panic. Unless |a| = |b|, no other coefficients are smaller: |x| and |y| are least among all solutions, at most |b|/(2g) and |a|/(2g) if a and b are not zero.", "quantifier": "all pairs of integers", "why_tests_cant": "loop invariant over the Euclid iteration with truncating division on signed integers", "anchors": ["projects/sm-algorithm/src/basic/mod.rs:extended_gcd2"]}
{"id": "C06", "title": "modulo_inverse returns an inverse exactly when one exists", "statement": "modulo_inverse(a,m) is Some(x) iff gcd(a,m)=1, and then a*x = 1 (mod m). For every a and m > 0 the returned x lies strictly between 0 and 2m, between m/2 and 3m/2 (it is NOT reduced modulo m: for a=1 it is m+1).", "quantifier": "all pairs of integers a, m", "why_tests_cant": "the test only prints; the property is for all coprime pairs and the negative result for all non-coprime ones", "anchors": ["projects/sm-algorithm/src/basic/mod.rs:modulo_inverse"]}
{"id": "C07", "title": "modulo_division decides solvability but returns a solution of the wrong congruence", "statement": "For gcd(b,m) <> 0, modulo_division(a,b,m) is Some iff gcd(b,m) divides a, i.e. iff b*x = a (mod m) is solvable. The documented law b*x = a (mod m) for the returned x is false; instead every returned x satisfies m*x = a (mod b). Dividing by a proper divisor of m, such as 1, returns 0 whenever it returns a number, and that is wrong unless m divides a. For b=m=0 it panics (division by zero).", "quantifier": "all triples of integers", "why_tests_cant": "the test only prints its output, nobody checks the congruence", "anchors": ["projects/sm-algorithm/src/basic/mod.rs:modulo_division"]}
{"id": "C08", "title": "chinese_remainder solves every congruence of the system", "statement": "Whenever chinese_remainder(u,m) returns Some(x), x = u_i (mod m_i) for every i.", "quantifier": "all lists u, m of arbitrary length and arbitrary (signed) integers", "why_tests_cant": "induction over the list length (Garner mixed-radix digits)", "anchors": ["projects/sm-algorithm/src/basic/mod.rs:chinese_remainder"]}
{"id": "C09", "title": "chinese_remainder: exact answer/None/panic conditions", "statement": "If |u| <> |m| the result is None. For equal non-zero lengths with all moduli non-zero the result is Some iff the moduli are pairwise coprime, otherwise None. Empty input panics (unwrap on None), and a zero modulus, when reached, panics (remainder by zero).", "quantifier": "all lists of integers", "why_tests_cant": "the None branch depends on a gcd with the running product, for any length", "anchors": ["projects/sm-algorithm/src/basic/mod.rs:chinese_remainder"]}
{"id": "C10", "title": "chinese_remainder: size of the answer", "statement": "A returned x satisfies |x| < |product of the moduli|, and the solutions are exactly the numbers that differ from x by a multiple of the product. So x is the least solution that is not negative, or that one minus the absolute value of the product. It is not always the least non-negative solution, even with positive moduli (for the classic 2,3,2 mod 3,5,7 it returns -82).", "quantifier": "all lists of remainders and moduli", "why_tests_cant": "bound over arbitrary list length", "anchors": ["projects/sm-algorithm/src/basic/mod.rs:chinese_remainder"]}
{"id": "C11", "title": "is_coprime is coprimality", "statement": "is_coprime(x,y) is true iff every common divisor of x and y is a unit.", "quantifier": "all pairs of integers", "why_tests_cant": "universally quantified over integers and divisors", "anchors": ["projects/sm-algorithm/src/basic/mod.rs:is_coprime"]}
{"id": "C12", "title": "prime_sum_u64 is the sum of primes below 2^32", "statement": "For every 1 <= n < 2^32, prime_sum_u64(n) returns the sum of all primes <= n, without panic and without any arithmetic overflow or missing-key index, in debug and in release builds alike.", "quantifier": "all n in [1, 2^32), both overflow modes", "why_tests_cant": "tests check 14 values; correctness is a sieve invariant over an in-place updated map", "anchors": ["projects/sm-algorithm/src/prime/prime_sum.rs:prime_sum_u64"]}
{"id": "C13", "title": "prime_sum_u64 outside [1,2^32)", "statement": "prime_sum_u64(0) panics. With overflow checks, prime_sum_u64(n) panics for every n >= 2^32. Without overflow checks the result is congruent to the true prime sum modulo 2^63 for every 2^32 <= n < (2^32-1)^2, and is wrong (off by exactly 2^63) for every 2^32 <= n <= 6074000999.", "quantifier": "all n outside [1,2^32) in u64 (release congruence: n < (2^32-1)^2)", "why_tests_cant": "too large to run; wrap-around error analysis over all n", "anchors": ["projects/sm-algorithm/src/prime/prime_sum.rs:prime_sum_u64"]}
{"id": "C14", "title": "prime_sum_i dispatch", "statement": "prime_sum_i(n): the constant-table value if n is a tabulated power of ten; else Err(Undefined) if n<0; else Err(Unimplemented) if n >= 2^64; else the u64 algorithm. Hence for 1 <= n < 2^32 it is Ok(sum of primes <= n), and prime_sum_i(0) panics.", "quantifier": "all integers n", "why_tests_cant": "dispatch order and boundaries over all integers", "anchors": ["projects/sm-algorithm/src/prime/prime_sum.rs:prime_sum_i", "projects/sm-algorithm/src/prime/prime_sum.rs:prime_sum_table"]}
{"id": "C15", "title": "tabulated prime sums and prime counts are right", "statement": "The table entries for 10^0..10^k equal the true sum / number of primes up to 10^k (checked in Coq by running a proved-correct prime-summing recursion; the largest k the kernel can afford is stated in the theorem).", "quantifier": "all table rows up to the stated bound, each against the mathematical definition over all primes", "why_tests_cant": "a test would compare with another program; here the comparison is with the definition of primality", "anchors": ["projects/sm-algorithm/src/prime/prime_sum.rs:prime_sum_table", "projects/sm-algorithm/src/prime/prime_count.rs:prime_count_table"]}
{"id": "C16", "title": "prime_count_i answers only the tabulated powers of ten", "statement": "prime_count_i(n) is Ok iff n is one of 10^0..10^27; every other negative n gives Err(Undefined), every other n Err(Unimplemented); it never panics.", "quantifier": "all integers n", "why_tests_cant": "exhaustive over integers", "anchors": ["projects/sm-algorithm/src/prime/prime_count.rs:prime_count_i"]}
{"id": "C17", "title": "symbol paths round-trip through text", "statement": "For every string s, displaying Symbol::from(s) gives back s. For every path whose components contain no ':' , Symbol::from of the displayed path recovers namespace and name. With ':' inside components the second law fails.", "quantifier": "all strings / all paths", "why_tests_cant": "string splitting over arbitrary input", "anchors": ["projects/sm-ast/src/ast/traits.rs:From<&str> for Symbol", "projects/sm-ast/src/ast/traits.rs:Display for Symbol"]}
{"id": "C18", "title": "keyword options behave like a last-wins ordered map", "statement": "In a call f(k1: v1, ..., kn: vn, positional...), the stored options contain exactly the keys written, each with its last written value, in strictly increasing key order, and positional arguments keep their order.", "quantifier": "all argument lists", "why_tests_cant": "insertion history of arbitrary length into an ordered map keyed by AST order", "anchors": ["projects/sm-ast/src/parser/parse.rs:parse_apply", "projects/sm-ast/src/ast/mod.rs:AST"]}
{"id": "C19", "title": "which ASTs can be displayed", "statement": "Formatting an AST panics iff formatting reaches (along displayed positions) an empty statement, a program node, or a call of an ordinary (non-operator) function; otherwise it returns a string.", "quantifier": "all ASTs", "why_tests_cant": "structural induction over unbounded trees", "anchors": ["projects/sm-ast/src/ast/traits.rs:Display for AST"]}
{"id": "C20", "title": "display then parse is the identity exactly on operator expressions that display unambiguously", "statement": "For every expression tree built from integers, booleans, names, infix + - * / ^ and the two unicode signs, prefix + - * !, suffix ! and !!: the displayed text parses without error or panic to a tree of the same class, and it parses to the displayed tree (up to source positions) if and only if the tree satisfies an explicit bracketing condition. The displayed text does not depend on source positions.", "quantifier": "all expression trees in the stated class, any depth", "why_tests_cant": "unbounded tree depth; needs the whole grammar, climber and printer", "anchors": ["projects/sm-ast/src/ast/traits.rs:Display for AST", "projects/sm-ast/src/parser/parse.rs:parse", "projects/sm-parser/src/sm_parser.rs"]}
{"id": "C21", "title": "display is ambiguous outside that class", "statement": "Every tree of the C20 class that violates the bracketing condition is displayed as a text that parses to a different tree. In particular for all literals and names a, b, c: a-(b-c), a+(b+c), (a*b)/c, a/(b*c), (a^b)^c, -(a+b), (a+b)!, (-a)!, (a!)! and negative integers; and every product of three or more factors is displayed as a text that parses to nested products of two factors.", "quantifier": "all trees of the class that violate the condition; all literals and names a, b, c; all products of three or more of them", "why_tests_cant": "tests assert the printed text only and never re-parse it", "anchors": ["projects/sm-ast/src/ast/traits.rs:Display for AST"]}
{"id": "C22", "title": "head / rewrite", "statement": "head(e) never panics; head(f(a..)(b..)) with k>=2 argument lists drops exactly the last one, with one list is the symbol f; for atoms it is a std::core type symbol. Taking heads of heads, every expression reaches std::core::Symbol and stays there, a call after dropping its argument lists one by one. rewrite(e) = e for every e.", "quantifier": "all ASTs", "why_tests_cant": "all shapes", "anchors": ["projects/sm-ast/src/internal/list_like.rs:head", "projects/sm-ast/src/evaluate/rewrite.rs:rewrite"]}
{"id": "C23", "title": "length / first / last on strings", "statement": "length(string s) is the number of UTF-8 bytes of s (not of characters); first/last return the one-character string of the first/last character and Err(EmptyContainer) iff s is empty; on any non-string they panic. length of s equals the number of characters iff s is ASCII.", "quantifier": "all strings and all ASTs", "why_tests_cant": "all unicode strings", "anchors": ["projects/sm-ast/src/internal/list_like.rs:length", "projects/sm-ast/src/internal/list_like.rs:first", "projects/sm-ast/src/internal/list_like.rs:last"]}
{"id": "C24", "title": "parsing terminates on every input", "statement": "The generated PEG parser terminates on every text: no left recursion and no repetition of an expression that can succeed without consuming; recursion depth is bounded linearly in the input length.", "quantifier": "all input texts", "why_tests_cant": "non-termination cannot be observed by finite tests", "anchors": ["projects/sm-parser/src/sm_parser.rs"]}
{"id": "C25", "title": "an accepted text is consumed entirely and all reported spans are nested inside it", "statement": "If the grammar accepts a text, the whole text is consumed; every pair in the result spans 0 <= start <= end <= length, its text is the corresponding substring, children are nested in and ordered within their parent.", "quantifier": "all texts, all pairs", "why_tests_cant": "invariant over every backtracking execution", "anchors": ["projects/sm-parser/src/sm_parser.rs"]}
{"id": "C26", "title": "leading whitespace is irrelevant", "statement": "For every text t and every whitespace string w, parsing w++t gives the same outcome as parsing t (same AST up to positions, same panic, same error).", "quantifier": "all texts t, all whitespace prefixes", "why_tests_cant": "arbitrary programs t", "anchors": ["projects/sm-ast/src/parser/parse.rs:parse", "projects/sm-parser/src/sm_parser.rs"]}
{"id": "C27", "title": "integer literals", "statement": "For every natural n, parsing its decimal numeral yields exactly the integer n; a numeral with leading zeros is not a number but a product of its parts (e.g. 012 is 0 times 12).", "quantifier": "all naturals", "why_tests_cant": "unbounded numerals", "anchors": ["projects/sm-ast/src/parser/parse.rs:parse_integer", "projects/sm-parser/src/sm_parser.rs"]}
{"id": "C28", "title": "0x/0o/0b literals", "statement": "For every non-empty digit string of the base (with optional single underscores between digits), parsing 0x/0o/0b followed by it (any case of the base letter) yields the value; if an underscore directly follows the base prefix, parsing panics although the grammar accepts it.", "quantifier": "all digit strings in bases 2, 8, 16", "why_tests_cant": "unbounded digit strings", "anchors": ["projects/sm-ast/src/parser/parse.rs:parse_byte", "projects/sm-parser/src/sm_parser.rs"]}
{"id": "C29", "title": "decimal literals", "statement": "For naturals i, j written without leading zeros, parsing i.j yields a decimal which displays as exactly i.j. For every literal whose fractional part has a leading zero and further digits (e.g. 1.05) parsing panics.", "quantifier": "all pairs of numerals", "why_tests_cant": "unbounded numerals", "anchors": ["projects/sm-ast/src/parser/parse.rs:parse_decimal", "projects/sm-ast/src/parser/parse.rs:parse_space_call", "projects/sm-parser/src/sm_parser.rs"]}
{"id": "C30", "title": "string literals are taken verbatim", "statement": "For every text s without double quote and backslash, parsing \"s\" yields the string s. Escapes are not interpreted: for every s the literal with quotes and backslashes escaped yields the escaped text, so the round-trip fails as soon as s has a quote or backslash. Between n >= 3 quotes any text stands for itself that does not start with a quote and does not contain or complete n quotes in a row. A name directly before a string literal has no effect.", "quantifier": "all unicode texts", "why_tests_cant": "all texts", "anchors": ["projects/sm-ast/src/parser/parse.rs:parse_string", "projects/sm-parser/src/sm_parser.rs"]}
{"id": "C31", "title": "identifiers", "statement": "Every identifier path (words joined by ::, letters from any Unicode table) not starting with a reserved word parses to the symbol with that name and namespace. The single character ∷, which the grammar takes for ::, also joins words, but the whole becomes one name without a namespace. Reserved words are matched without word boundary: a word that starts with null, true or false never denotes a symbol of that name (the text is refused or denotes that constant), and a text starting with break or pass, or with let, class, trait or using followed by a letter, never denotes an expression (parse panics or refuses).", "quantifier": "all identifiers", "why_tests_cant": "all identifier strings", "anchors": ["projects/sm-ast/src/parser/parse.rs:parse_data", "projects/sm-parser/src/sm_parser.rs"]}
{"id": "C32", "title": "operator precedence and associativity", "statement": "For every sequence operand (operator operand)* over + - * / ^ ., climbing yields the unique tree whose in-order leaves are that sequence and in which children bind tighter than parents (power right-associative, the others left-associative, / binding tighter than *).", "quantifier": "all operator sequences of any length", "why_tests_cant": "unbounded sequences", "anchors": ["projects/sm-ast/src/parser/mod.rs:OPERATORS", "projects/sm-ast/src/parser/parse.rs:parse_expr"]}
{"id": "C33", "title": "unsupported infix operators silently truncate", "statement": "For every sequence in which an operator outside the climber table (= % > and the unicode products) follows a supported prefix, the result is the tree of the part before that operator; everything after it is dropped without error.", "quantifier": "all sequences", "why_tests_cant": "all sequences", "anchors": ["projects/sm-ast/src/parser/parse.rs:parse_expr", "projects/sm-ast/src/parser/mod.rs:OPERATORS"]}
{"id": "C34", "title": "block comments are not transparent", "statement": "A %%%...%%% comment at the start of a text makes parse panic, and between an operand and an operator it drops the rest of the expression.", "quantifier": "all comment bodies without %", "why_tests_cant": "all comment bodies", "anchors": ["projects/sm-ast/src/parser/parse.rs:parse", "projects/sm-parser/src/sm_parser.rs"]}
{"id": "C35", "title": "calls: argument lists of any length, any rank", "statement": "Parsing f(a1,...,an) for any list of naturals yields a call of f with exactly those arguments in order, no options; f() yields an empty argument list; k successive lists yield k parameters in order.", "quantifier": "all lists", "why_tests_cant": "unbounded lists", "anchors": ["projects/sm-ast/src/parser/parse.rs:parse_apply_call", "projects/sm-ast/src/parser/parse.rs:parse_apply"]}
{"id": "C36", "title": "dot call prepends the receiver", "statement": "Resolving lhs.rhs: with rhs a symbol gives rhs(lhs); with rhs a call gives the call with lhs prepended to its first argument list, everything else unchanged; with an integer gives index(lhs,i); every other rhs panics (so does a call with zero argument lists).", "quantifier": "all pairs of ASTs", "why_tests_cant": "all shapes", "anchors": ["projects/sm-ast/src/parser/parse.rs:parse_dot_call"]}
{"id": "C37", "title": "slices default their omitted bounds", "statement": "a[start:end:step] with any subset of the parts omitted becomes Span(start or 1, end or All, step or 1); plain indices are passed through; the number and order of indices is preserved.", "quantifier": "all 8 omission patterns and all index lists", "why_tests_cant": "all index lists", "anchors": ["projects/sm-ast/src/parser/parse.rs:parse_index", "projects/sm-ast/src/parser/parse.rs:parse_slice"]}
{"id": "C38", "title": "juxtaposition is multiplication only of plain integers and symbols", "statement": "A juxtaposition of symbols and plain integers becomes one times(...) call with the factors in order; if any factor is a decimal, a 0x literal or a call, parse panics.", "quantifier": "all factor lists", "why_tests_cant": "all factor lists", "anchors": ["projects/sm-ast/src/parser/parse.rs:parse_space_call"]}
{"id": "C39", "title": "only the first expression statement is returned; other statements panic", "statement": "parse returns the first statement if it is an expression, regardless of what follows; if the first statement is of any other kind (let, def, class, if, ;, ...) parse panics; an empty (or all-whitespace) text gives the empty statement.", "quantifier": "all accepted texts", "why_tests_cant": "all statement sequences", "anchors": ["projects/sm-ast/src/parser/parse.rs:parse"]}
{"id": "C40", "title": "parentheses", "statement": "For every displayable operator expression e, parsing (e) gives the same AST as parsing e; but a space directly after an opening parenthesis is a syntax error.", "quantifier": "all expressions of the C20 class", "why_tests_cant": "unbounded", "anchors": ["projects/sm-ast/src/parser/parse.rs:parse_node", "projects/sm-parser/src/sm_parser.rs"]}
{"id": "C41", "title": "forward: complete decision table", "statement": "Evaluating an AST: atoms are returned unchanged; a program panics; a call with no argument list becomes its symbol; with two or more argument lists Err(Unimplemented); with one list, dispatch on the function name only (namespace ignored), arguments not evaluated; unknown names Err(Unimplemented). The context is never modified.", "quantifier": "all ASTs and contexts", "why_tests_cant": "all shapes", "anchors": ["projects/sm-ast/src/evaluate/forward.rs:forward", "projects/sm-ast/src/evaluate/forward.rs:evaluate_function"]}
{"id": "C42", "title": "end-to-end arithmetic of the evaluator", "statement": "For all naturals a,b: evaluate(\"a*b\") prints a*b; evaluate(\"a^b\") prints a^b when b < 2^64; evaluate(\"a!\") prints a! when a <= isize::MAX; evaluate(\"fibonacci(a)\") prints F(a); evaluate(\"plus(a,b)\") prints a+b; but evaluate(\"a+b\") is always Err(Unimplemented).", "quantifier": "all naturals a, b and every reachable runner state", "why_tests_cant": "all numbers, all sessions", "anchors": ["projects/sm-ast/src/evaluate/traits.rs:evaluate", "projects/sm-ast/src/evaluate/forward.rs:evaluate_function"]}
{"id": "C43", "title": "power with exponent outside u64 silently returns the base", "statement": "Evaluating power(a,b) gives a^b for 0 <= b < 2^64 and a itself for every other b (negative or huge).", "quantifier": "all integers a,b", "why_tests_cant": "all integers", "anchors": ["projects/sm-ast/src/evaluate/forward.rs:evaluate_power"]}
{"id": "C44", "title": "runner history", "statement": "After any sequence of evaluate calls that do not panic, the index equals the number of calls, the inputs map holds exactly the call texts at 1..k, the outputs map holds exactly the successful results at their call index, and earlier entries never change.", "quantifier": "all call sequences", "why_tests_cant": "all histories", "anchors": ["projects/sm-ast/src/evaluate/traits.rs:Runner", "projects/sm-ast/src/evaluate/mod.rs:Context"]}
{"id": "C45", "title": "Runner::last", "statement": "last() returns the AST of the most recent evaluate call iff that call produced an output; before any call or after a call that returned an error it panics, it never returns an older output.", "quantifier": "all call sequences", "why_tests_cant": "all histories", "anchors": ["projects/sm-ast/src/evaluate/traits.rs:last"]}
{"id": "C46", "title": "playground: one panicking input disables the session", "statement": "In the playground, after any calls none of which panicked, result(input) is the printed output of input or the text of its error (never an Err); result_tex() is the TeX of the output of the most recent input and panics if there is none; once any call panics, every later call of result or result_tex panics too; evaluating the empty text panics.", "quantifier": "all call sequences (any interleaving of threads, calls being serialised by the mutex)", "why_tests_cant": "all histories", "anchors": ["projects/sm-playground/src/lib.rs:result", "projects/sm-playground/src/lib.rs:result_tex"]}
{"id": "C47", "title": "TeX output", "statement": "Scaled delimiters for function arguments (\\left( ... \\left) , \\right)) are never emitted because box height never exceeds 1; the TeX of an infix node uses only its first two operands (a juxtaposition of three factors loses the rest) and panics iff one of them cannot be displayed; an empty list panics; prefix and suffix operators panic. Every other tree has the TeX its shape gives: plain names, \\text{..} strings, sin x without and sin(x + y) with brackets, \\operatorname{f} followed by one bracket group per argument list.", "quantifier": "all ASTs", "why_tests_cant": "all trees", "anchors": ["projects/sm-ast/src/traits/tex/mod.rs:to_tex", "projects/sm-ast/src/traits/tex/utils.rs:omit_brackets_function", "projects/sm-ast/src/traits/tex/utils.rs:infix_tex"]}
{"id": "C48", "title": "Wolfram export is total and ignores positions, namespaces and operator kinds", "statement": "to_wolfram never panics; ASTs that differ only in positions, namespaces, kinds and attributes have the same image; integers and strings are exported unchanged, every argument exactly once in order; a call f(..)(..) becomes the application of the application, options become rules after the arguments, factor becomes FactorInteger and other names are capitalised.", "quantifier": "all ASTs", "why_tests_cant": "all trees", "anchors": ["projects/sm-ast/src/traits/wolfram/mod.rs:to_wolfram"]}
{"id": "C49", "title": "parse_file touches the destination only after a successful parse", "statement": "If reading or parsing fails (error or panic) the destination file is unchanged; no other path is ever modified; but the write is not atomic: a crash (or write failure) after the file is created leaves the old content lost and a strict prefix of the new content.", "quantifier": "all file systems, all crash points", "why_tests_cant": "crash points cannot be enumerated by tests", "anchors": ["projects/sm-ast/src/parser/parse.rs:parse_file"]}
{"id": "C50", "title": "algorithm errors surface as the corresponding evaluator errors", "statement": "factorial / fibonacci / prime_sum on an integer node return exactly the algorithm's value, or its error translated OverFlow->Overflow, ComplexInfinity->ComplexInfinity, Unimplemented->Unimplemented, IOError->IOError, Indeterminate/Undefined->Unknown; on a decimal node they return the decimal unchanged; on anything else they panic. The displayed text of an algorithm error identifies the error.", "quantifier": "all ASTs; all errors", "why_tests_cant": "all shapes, all messages inside errors", "anchors": ["projects/sm-algorithm/src/error.rs:Display", "projects/sm-ast/src/internal/elementary.rs:factorial", "projects/sm-ast/src/internal/elementary.rs:fibonacci", "projects/sm-ast/src/internal/number_theory.rs:prime_sum", "projects/sm-ast/src/error/traits.rs"]}
{"id": "C51", "title": "a reference syntax for expressions", "statement": "There is a syntax of expressions, stated without the parser (literals, names, references, slots, prefix and suffix operators, calls, derivatives, slices, lists, dictionaries, juxtaposition, infix operators with strengths, parentheses, white space and line comments), such that every text of it, between any white space and line comments, is accepted and denotes exactly the meaning the syntax gives (a tree up to positions, or a panic); a text has at most one meaning.", "quantifier": "all texts of the syntax, unbounded nesting", "why_tests_cant": "unbounded nesting and all interactions of constructs", "anchors": ["projects/sm-ast/src/parser/parse.rs:parse", "projects/sm-ast/src/parser/parse.rs:parse_expr", "projects/sm-ast/src/parser/parse.rs:parse_term", "projects/sm-parser/src/sm_parser.rs"]}
{"id": "C52", "title": "refused texts", "statement": "A text whose first character after white space is one of ) ] } , . : = < > ? & | ^ ~ \\ ` $ ' is refused with a parse error and never panics, whatever follows.", "quantifier": "all texts with such a start", "why_tests_cant": "all continuations", "anchors": ["projects/sm-ast/src/parser/parse.rs:parse", "projects/sm-parser/src/sm_parser.rs"]}
{"id": "C53", "title": "nested arithmetic is not evaluated", "statement": "In every session, a text that denotes an infix operation whose operands are not both integer literals (so any chain of two or more operators) is answered Err(Unimplemented): arguments are never evaluated.", "quantifier": "all texts and sessions", "why_tests_cant": "all expressions", "anchors": ["projects/sm-ast/src/evaluate/forward.rs:evaluate_function", "projects/sm-ast/src/evaluate/traits.rs:evaluate"]}
{"id": "C54", "title": "recorded positions point into the source", "statement": "In a tree that parse returns, every argument list carries the given file name and the 1-based line and column of the start and of the end of some part of the text, start not after end; a carriage return does not count as a line end, only a line feed does; for a prefix or suffix operator the part is exactly its sign.", "quantifier": "all accepted texts, all line structures", "why_tests_cant": "all placements of line ends and all nestings", "anchors": ["projects/sm-ast/src/parser/traits.rs:get_position", "projects/sm-ast/src/parser/parse.rs:parse_term", "projects/sm-ast/src/ast/mod.rs:Position"]}
{"id": "C55", "title": "texts that cannot make the parser panic", "statement": "Whatever else a text contains, and however malformed it is, parsing it returns a tree or a parse error and does not panic, provided that, after leading white space, it does not start with a comment, with ; or @ or with a word that starts another kind of statement, that it contains none of . { ' ? ## %%% and the sign for logical not, and that it has no names, or has no opening parenthesis and no 0x, 0o, 0b, or has no two operands side by side. Each of these pieces can make the parser panic.", "quantifier": "all such texts, of any length, balanced or not", "why_tests_cant": "the claim is about every text, most of them malformed", "anchors": ["projects/sm-ast/src/parser/parse.rs:parse", "projects/sm-ast/src/parser/parse.rs:parse_term", "projects/sm-ast/src/parser/parse.rs:parse_data", "projects/sm-ast/src/parser/parse.rs:parse_space_call", "projects/sm-parser/src/sm_parser.rs"]}
{"id": "C56", "title": "Texts that cannot make a session panic", "statement": "A text of the kinds of C55 that is not blank and contains neither ! nor one of the words first, last, length, factorial, fibonacci is answered by a session or refused with an error, whatever was evaluated before; on the web page such a text never makes the later calls fail. Each of these words can make a session panic.", "quantifier": "all texts (as character lists), all earlier calls, all word sizes, all tables of letters beyond ASCII", "why_tests_cant": "The panics of the evaluator and the printer depend on the shape of the tree, which comes from the text; tests try a few texts in a few sessions, not all of them.", "anchors": ["projects/sm-ast/src/evaluate/traits.rs: Runner::evaluate", "projects/sm-ast/src/evaluate/forward.rs: AST::forward", "projects/sm-ast/src/parser/parse.rs", "projects/sm-playground/src/lib.rs: result"]}
{"id": "C57", "title": "the TeX output contains no TeX command and its brackets match", "statement": "In every TeX text produced, backslashes come only in pairs (a pair is a line break in TeX, so no command such as \\sin is ever produced), and round and curly brackets match, provided that this holds of the names and strings in the tree.", "quantifier": "all trees", "why_tests_cant": "all trees, all names and strings in them", "anchors": ["projects/sm-ast/src/traits/tex/mod.rs:to_tex", "projects/sm-ast/src/traits/tex/utils.rs:omit_brackets_function", "projects/sm-ast/src/ast/traits.rs:fmt"]}
{"id": "C58", "title": "the parser follows the grammar file", "statement": "The shipped parser (the generated Rust functions) accepts exactly the texts that the grammar file simple-math.pest accepts, under the meaning that pest gives to its notation (ordered choice, greedy repetition, implicit white space and comments, atomic and silent rules, PUSH, PEEK and POP), with the same pairs, spans and nesting; the same holds for every rule from every position; the grammar gives every text exactly one meaning; parse reports a parse error exactly for the texts that the grammar refuses.", "quantifier": "all texts, all rules, all start positions, modes and stacks", "why_tests_cant": "A generated parser can drift from the grammar file it claims to implement; samples reach few of the 149 rules' paths.", "anchors": ["projects/sm-parser/simple-math.pest", "projects/sm-parser/src/sm_parser.rs: SMParser::parse", "projects/sm-ast/src/parser/parse.rs: parse"]}
{"id": "C59", "title": "the tree of every accepted text", "statement": "For every text that the grammar accepts, parse returns exactly the tree that its pairs stand for, or panics exactly when they stand for none: operators grouped by strength, prefix operators from the right, suffix operators and slices from the left, a.b as a call of b on a, slices with missing bounds filled in, arguments in order and options by key with the last value given, numbers, names, strings, constants, slots and references to earlier inputs and outputs; only the first expression of a text counts; every argument list carries the file and the line and column where its construct starts and ends.", "quantifier": "all accepted texts, any nesting, all file names, all tables of letters beyond ASCII", "why_tests_cant": "C51 covers the texts of a reference syntax; this one covers every text that the parser accepts, including those on which it panics, and every recorded position. Tests sample both.", "anchors": ["projects/sm-ast/src/parser/parse.rs:parse", "projects/sm-ast/src/parser/parse.rs:parse_expr", "projects/sm-ast/src/parser/parse.rs:parse_term", "projects/sm-ast/src/parser/parse.rs:parse_index", "projects/sm-ast/src/parser/parse.rs:parse_apply", "projects/sm-ast/src/parser/parse.rs:parse_data", "projects/sm-ast/src/parser/ops.rs", "projects/sm-ast/src/parser/traits.rs:get_position"]}
{"id": "C60", "title": "the reply to every text", "statement": "For every text and after any earlier texts, a session replies exactly this: the parse error if the grammar refuses the text; otherwise the written value of its tree, the evaluation error of its tree, or a panic when the text has no tree, the tree no value or the value no written form. Integers, decimals, booleans, names and strings are their own values; plus, times and power work on two integers, factorial and fibonacci on numbers in the machine range, first, last and length on strings, and everything else is unimplemented.", "quantifier": "all texts, all earlier texts, all word sizes, all tables of letters beyond ASCII", "why_tests_cant": "This joins grammar, tree builder, evaluator and printer into one relation between input text and output text. Tests sample it.", "anchors": ["projects/sm-ast/src/evaluate/traits.rs:Runner::evaluate", "projects/sm-ast/src/evaluate/forward.rs:AST::forward", "projects/sm-ast/src/internal", "projects/sm-ast/src/ast/traits.rs:Display"]}
{"id": "C61", "title": "the web page from the first call to the last", "statement": "For every sequence of calls of the web page (a text to evaluate, or a request for the last result in TeX), the replies are exactly these: the written value or the rendered error of each text; the TeX form of the value of the latest text; and a panic for a text without a reply, for a TeX request when the latest text had no value, and for every call after a panic.", "quantifier": "all sequences of calls of any length, all texts, all word sizes, all renderings of errors", "why_tests_cant": "Histories of calls are unbounded and a panic changes all later replies. Tests run a few short histories.", "anchors": ["projects/sm-playground/src/lib.rs:result", "projects/sm-playground/src/lib.rs:result_tex", "projects/sm-ast/src/evaluate/traits.rs:Runner", "projects/sm-ast/src/traits/tex/mod.rs:to_tex"]}
{"id": "C62", "title": "parsing can take exponential time", "statement": "Parsing makes at least 3^n calls of the parser's functions when n operands are indexed inside each other, as in a[a[a[0]]], although such a text is accepted; and at least 2^n calls for n calls that are never closed, as in f(f(f(, which is then refused. So no polynomial in the length of the text bounds the work. It is always below 2^(70(l+1)) for a text of length l. Only nesting does this: a text of length l with k signs among ( [ { @ = % takes at most (6(l+1))^(6(k+1)) calls, so without such signs the work is polynomial.", "quantifier": "all nestings of indexed operands and of unclosed calls, any depth; the upper bounds: all texts", "why_tests_cant": "A test measures one depth on one machine; that the work multiplies with every level, and that no polynomial bounds it, is about all depths.", "anchors": ["projects/sm-parser/simple-math.pest:index", "projects/sm-parser/simple-math.pest:node", "projects/sm-parser/src/sm_parser.rs", "projects/sm-ast/src/parser/parse.rs:parse"]}
{"id": "C63", "title": "lines of a text", "statement": "An expression ends at a line break unless the next line starts with an operator: arguments, indices, juxtaposed factors and coefficients never reach over a line, so f, a line break, then (a) is f and not a call. The text then means the first expression, or is refused; it is accepted when the following lines are expressions. An operator takes both operands whatever line breaks surround it.", "quantifier": "all expressions of the reference syntax, all white space with a line break, all following texts, all operators", "why_tests_cant": "The manual states it for every expression; tests try a few pairs of lines.", "anchors": ["projects/sm-book/docs/cn/basic/readme.md", "projects/sm-parser/simple-math.pest:node", "projects/sm-parser/simple-math.pest:space_call", "projects/sm-parser/simple-math.pest:expr", "projects/sm-ast/src/parser/parse.rs:parse"]}
{"id": "C64", "title": "signs the manual offers and the parser does not take", "statement": "After an expression, | & $ ~ < \\ ` ) ] } and the comma make the text an error, and so does an operator without a right operand; so ==, >=, ->, =>, .. and // cannot be used. x @ y is x or refused, never an application; x ** y is x times the unpacking of y (not a number with exponent); x != y is the factorial of x.", "quantifier": "all expressions of the reference syntax on the left, all white space, all following texts", "why_tests_cant": "That a sign is never accepted, after any expression and before any text, is a claim about all texts.", "anchors": ["projects/sm-book/docs/cn/developer/operators.md", "projects/sm-book/docs/cn/starter/literal.md", "projects/sm-parser/Readme.md", "projects/sm-parser/simple-math.pest:Infix", "projects/sm-ast/src/parser/parse.rs:parse_expr"]}
{"id": "C65", "title": "line comments are white space", "statement": "A comment that starts with ///, //?, //! or //* and reaches to the end of its line counts as white space: before any text whatever it changes nothing but positions; before, between and after the parts of an expression (wherever the reference syntax allows white space) it leaves the meaning alone; the last comment of a text needs no line end. A / directly before a /// comment is swallowed by it: the division is lost and the text means the left operand alone, or is refused.", "quantifier": "all texts after a leading comment, all comment bodies, all expressions of the reference syntax", "why_tests_cant": "Comments can stand at unboundedly many places of unboundedly many texts.", "anchors": ["projects/sm-parser/simple-math.pest:COMMENT", "projects/sm-ast/src/parser/parse.rs:parse", "projects/sm-parser/src/sm_parser.rs"]}
{"id": "C66", "title": "how deep the parser recurses", "statement": "The parser is recursive. The nesting of its calls is at most 14 plus 14 for each of the signs ( [ { @ = % in the text: a text without them is parsed in bounded depth, however long. It has no limit otherwise: n opening parentheses nest at least 3n calls, whatever follows, and ((...(0)...)) is accepted and means 0. The pairs the parser returns nest at most as deep as its calls. A flat sum of n numbers is parsed in bounded depth, but its tree is n levels deep, and everything that walks the tree recurses that deep.", "quantifier": "all texts; all numbers of parentheses; all sums of numerals", "why_tests_cant": "A bound on the depth for every text, and its absence for nested ones, cannot be read off finitely many runs.", "anchors": ["projects/sm-parser/src/sm_parser.rs:rules::visible", "projects/sm-ast/src/parser/parse.rs:parse", "projects/sm-parser/src/sm_parser.rs"]}
{"id": "C67", "title": "references to earlier lines, and slots", "statement": "As the manual says, ¶n and ⁋n are read as the n-th input and output (n >= 1), and k marks in a row as the k-th last one: a call of std::repl::input or std::repl::output on n or -k, exported as Input[n], Output[-k]. But a session never looks them up: after any history it answers every such reference with an unimplemented error. # is a slot, #n and #name slots with a number or a name, ## the slot sequence; ##n is accepted and panics.", "quantifier": "all positive numerals, all numbers of marks, all names, all white space and comments around, all session histories", "why_tests_cant": "Numbers, marks, names and histories are unbounded.", "anchors": ["projects/sm-book/docs/cn/starter/repl.md", "projects/sm-book/docs/cn/developer/shortcoming.md", "projects/sm-ast/src/parser/parse.rs:parse_in_out", "projects/sm-ast/src/parser/parse.rs:parse_slot", "projects/sm-ast/src/evaluate/traits.rs:evaluate", "projects/sm-parser/src/sm_parser.rs"]}
{"id": "C68", "title": "syntax that is accepted and has no meaning", "statement": "A derivative f'(x) with any number of primes and any argument list, a dictionary { } with any entries, a ? or primes after an operand, and a ¬ before one are accepted by the grammar, but turning them into a tree panics, always.", "quantifier": "all names, argument lists, dictionary entries and operands of the reference syntax", "why_tests_cant": "That no such text ever gets a meaning or an error message is a claim about all of them.", "anchors": ["projects/sm-parser/Readme.md", "projects/sm-book/Readme.md", "projects/sm-parser/simple-math.pest:derivative", "projects/sm-parser/simple-math.pest:dict", "projects/sm-ast/src/parser/parse.rs:parse_node", "projects/sm-ast/src/parser/parse.rs:parse_term", "projects/sm-parser/src/sm_parser.rs"]}
{"id": "C69", "title": "operands side by side", "statement": "What is written after an operand without an operator is silently lost, unless the two can be a call or a product: a parenthesis after an expression whose last operand cannot be called, and a number, name, reference or slot after one whose last operand cannot be a factor, end the expression there. The text then means what the expression before it means, or is refused because of what follows; it is accepted when the rest is a list of expressions. So 2(3) is 2, (a)(b) is a, sin(x) cos(x) is sin(x), and #(a+1), which the manual calls a multiplication, is #.", "quantifier": "all expressions of the reference syntax whose last operand is of the class, all blanks between, all texts after", "why_tests_cant": "The dropped operand may come after any expression and be followed by any text.", "anchors": ["projects/sm-book/docs/cn/developer/shortcoming.md", "projects/sm-parser/simple-math.pest:space_call", "projects/sm-parser/simple-math.pest:apply_call", "projects/sm-ast/src/parser/parse.rs:parse_expression", "projects/sm-ast/src/parser/parse.rs:parse_space_call", "projects/sm-parser/src/sm_parser.rs"]}
{"id": "C70", "title": "where a parse error points", "statement": "The line and column of a parse error are always a place of the text or its end, and there is none if the text is accepted. The error always lists rules as expected, none of them can be read at that place, and it lists nothing as unexpected. The error is never before the end of the correct expressions that stand on lines of their own at the start of the text. A character without meaning in the language, outside strings and comments, makes the text fail, whatever surrounds it, and the error is not after it; after an expression, or in place of an operand, the error is exactly there, and after an expression the end of the text is among what was expected. When the operand of an operator is missing at the end of the text, the error is at the end of the text; when something else stands there, not before that.", "quantifier": "all texts; all expressions of the reference syntax, all lines before, all white space and comments around, all texts after", "why_tests_cant": "Before and after the fault stand any texts, and the place is the furthest of all the attempts the parser made.", "anchors": ["projects/sm-ast/src/error/traits.rs:from", "projects/sm-ast/src/parser/parse.rs:parse", "projects/sm-parser/src/sm_parser.rs:rules::visible", "projects/sm-parser/src/sm_parser.rs"]}
{"id": "C71", "title": "brackets match", "statement": "A text whose brackets, outside strings and comments, do not match is always refused, and so is one with a string that has no end: of an accepted text, what is outside strings and comments is balanced. In a text without strings and comments the error is never after the first closing bracket that no open bracket waits for, whatever surrounds it; after a complete expression, it is exactly at that bracket.", "quantifier": "all texts; for the place of the error, all texts without strings and comments before the bracket, all texts after it; all expressions of the reference syntax, all lines before, all white space around", "why_tests_cant": "Brackets nest without bound, and any text may follow the fault.", "anchors": ["projects/sm-ast/src/parser/parse.rs:parse", "projects/sm-parser/simple-math.pest:node", "projects/sm-parser/simple-math.pest:apply", "projects/sm-parser/simple-math.pest:slice", "projects/sm-parser/simple-math.pest:dict", "projects/sm-parser/src/sm_parser.rs"]}
{"id": "C72", "title": "where a text that breaks off is wrong", "statement": "A text that breaks off inside an expression while a bracket is open (a group, a list, a call, a dictionary or an index, also of the last factor of a product; after a prefix or infix operator, a comma, a colon, a complete expression or nothing, but not inside a string, a number or a name) is refused, and the error is at the end of the text. If a character without meaning comes next, or a closing bracket the innermost open bracket does not wait for, the error is exactly at that character, however deep the nesting and whatever follows.", "quantifier": "all expressions of the reference syntax and all ways to break off inside brackets, nested without bound; all lines before, all texts after", "why_tests_cant": "Open constructs nest without bound, every complete part is arbitrary, and any text may follow the fault.", "anchors": ["projects/sm-ast/src/parser/parse.rs:parse", "projects/sm-parser/simple-math.pest:node", "projects/sm-parser/simple-math.pest:apply", "projects/sm-parser/simple-math.pest:slice", "projects/sm-parser/simple-math.pest:dict", "projects/sm-parser/src/sm_parser.rs"]}
{"id": "C73", "title": "layout does not matter", "statement": "Two texts that differ only in the width of their gaps outside strings, in the kind of white space they are made of (as long as a gap stays a gap, and a gap with a line break stays a gap with a line break) and in what their comments say (as long as a line comment stays one, and a block comment stays one) are accepted, refused or made to panic alike, denote the same expression and get the same reply from a session. So, in texts without strings, line ends may be CR LF, CR or LF, tabulators may be blanks, blanks at the ends of lines may go, and any such text may be reformatted, in comments too. Removing a gap, turning a line break into a blank, or changing the inside of a string can change the meaning.", "quantifier": "all pairs of texts with the same strings, gaps, comments and other characters, accepted or not", "why_tests_cant": "Every text is covered, the refused ones too, and the parser backtracks over the gaps in every rule.", "anchors": ["projects/sm-ast/src/parser/parse.rs:parse", "projects/sm-parser/simple-math.pest:WHITESPACE", "projects/sm-parser/simple-math.pest:COMMENT", "projects/sm-parser/simple-math.pest:apply_call", "projects/sm-parser/src/sm_parser.rs"]}
{"id": "C74", "title": "tests on trees", "statement": "A tree passes the test for zero, or for one, exactly if it is an integer or a decimal of that value, with any number of decimal places; the tests for strings, truth values and for prefix, infix and suffix operators answer exactly for these; the test for a product answers exactly for std::infix::times. The test for null asks for the name Null, and so the tree of the text null fails it. The tests for functions, powers, numbers, complex numbers, integers and signs answer no for every tree. A position is shown as its file alone.", "quantifier": "all trees, all names, all positions", "why_tests_cant": "Decimals of one value have infinitely many representations, and names may contain the separator.", "anchors": ["projects/sm-ast/src/ast/traits.rs:is_zero", "projects/sm-ast/src/ast/traits.rs:is_one", "projects/sm-ast/src/ast/traits.rs:is_null", "projects/sm-ast/src/ast/traits.rs:is_times", "projects/sm-ast/src/parser/parse.rs:parse_special"]}
{"id": "C75", "title": "nothing is invented, and trees are no larger than texts", "statement": "Every string and number in the tree of a text is a piece of the text, or 1 for the missing bound of a range, or minus a number of ¶ signs. Every name stands in the text with its whole path or is one of ten that the parser adds (std::core::Span, ...); the sign of every operator stands in the text, except that of a product written without one. The tree has at most two nodes for each character of the text, and texts of every even length from 4 have trees with one node less than that.", "quantifier": "all accepted texts, file names and Unicode tables", "why_tests_cant": "An added or duplicated piece can come from any combination of constructs, and a bound on the size of the result is about all texts at once.", "anchors": ["projects/sm-ast/src/parser/parse.rs:parse_expression", "projects/sm-ast/src/parser/parse.rs:parse_index", "projects/sm-ast/src/parser/parse.rs:parse_in_out", "projects/sm-parser/src/sm_parser.rs"]}
{"id": "C76", "title": "letters outside ASCII are alike", "statement": "Characters outside ASCII, other than the signs of the grammar, are told apart only by whether they may start a word, may continue one, or are white space. When they are replaced one for one by others of the same class, an accepted text stays accepted and has the same tree but for the replaced names and strings (the same shape, numbers and places, options again in the order of their keys); a refused text stays refused with the same place and the same expected rules in its error; a text that makes the parser panic stays one. What a session replies changes only by the same replacement, with the same errors and panics, if letters are replaced by letters with as many bytes in UTF-8; otherwise the reply can be different, because the length of a string counts bytes.", "quantifier": "all texts, file names, Unicode tables and replacements", "why_tests_cant": "There are over a million characters and any of them can appear anywhere in a text; a comparison of one character too many shows only on that character.", "anchors": ["projects/sm-ast/src/parser/parse.rs:parse", "projects/sm-parser/src/sm_parser.rs"]}
{"id": "C77", "title": "conversions of files at the same time", "statement": "Calls of parse_file running at the same time, in any interleaving of their reads and writes: calls in which no destination is the destination or the source of another run as if each were alone, and when all succeed every destination holds the output for its source; no other file changes. Any number of calls that write the same bytes to one destination leave these bytes when all have succeeded. But two calls with one destination can both succeed and leave a mixture of their outputs, and a call that reads the destination of another may take any first part of the output for the whole.", "quantifier": "all file systems, all numbers of calls, all interleavings and crash points, all sizes of single reads and writes", "why_tests_cant": "The orders in which the steps of concurrent calls can run cannot be enumerated, and tests run one of them.", "anchors": ["projects/sm-ast/src/parser/parse.rs:parse_file"]}
{"id": "C78", "title": "the playground called from several threads", "statement": "Threads that call result and result_tex at the same time, in any interleaving, get the answers of some order of the same calls made one after another; each thread's calls keep their order, and a call answered before another is made comes before it. Every such order may happen. No set of calls ever blocks for ever, and a run is over after a bounded number of steps. After a panic in one thread every call answered later, in any thread, panics. But result_tex called right after result may show the output of a text of another thread.", "quantifier": "all numbers of threads, all sequences of calls in each, all interleavings", "why_tests_cant": "The interleavings of threads cannot be enumerated; a test sees one of them.", "anchors": ["projects/sm-playground/src/lib.rs:RUNNER", "projects/sm-playground/src/lib.rs:result", "projects/sm-playground/src/lib.rs:result_tex", "projects/sm-ast/src/evaluate/traits.rs:evaluate"]}
{"id": "C79", "title": "the trees that can be written", "statement": "Up to the places of its parts, a tree is the tree of some text exactly if it is the tree of the blank text or built as follows: natural numbers; decimals; true, false and null; names of words that do not begin with null, true or false; strings that can stand between single or triple quotation marks; calls of a name with at least one parameter list, whose options have different names in alphabetical order; operators with at least as many arguments as they have operands; products of numbers and names written side by side; and the earlier inputs or outputs counted from the last. So no text gives a list of statements, a negative number of its own, or a string that starts with a quotation mark.", "quantifier": "every tree and every text, for all Unicode tables", "why_tests_cant": "both directions quantify over infinitely many trees and texts: that a given tree has no text cannot be seen by trying texts", "anchors": ["projects/sm-ast/src/parser/parse.rs:parse", "projects/sm-ast/src/parser/parse.rs:parse_expression", "projects/sm-ast/src/parser/parse.rs:parse_term", "projects/sm-ast/src/parser/parse.rs:parse_data", "projects/sm-ast/src/ast/mod.rs:AST", "projects/sm-parser/src/sm_parser.rs"]}
{"id": "C80", "title": "the message of a refused text", "statement": "The error of a refused text carries a message of six lines: the line and the column of the error, the line of the text it stands in, a mark, and the names of exactly the rules that were tried there in vain, each once, in the order of the program. A text that is not refused has no message. The message can be taken apart in one way only, so texts refused at different places, or with different sets of rules tried, have different messages. The mark stands under the character at the error if no carriage return stands before it in its line (refuted otherwise: the mark is then too far to the right).", "quantifier": "every text, for all Unicode tables", "why_tests_cant": "the layout depends on the length of the line number, on the line ends and tabulators of the text and on every rule the parser tried at the furthest place", "anchors": ["projects/sm-ast/src/error/traits.rs:From", "projects/sm-ast/src/parser/parse.rs:parse", "projects/sm-parser/src/sm_parser.rs"]}
{"id": "C81", "title": "errors on the web page", "statement": "When the evaluation of a text fails, the web page answers with one line: the name of the error and, in brackets, what it carries as a string literal; for a refused text that is its message. The error and what it carries can be read off the answer, so two failing texts with the same answer failed with the same error, and two refused texts with the same answer are wrong at the same place. That there was an error cannot be read off: every such answer is also the answer to a text that is just a string (refuted: answers of errors and of values are different).", "quantifier": "every text, every error and every sequence of earlier calls without a panic, for all Unicode tables and all releases of Rust as far as they differ in which characters Debug escapes", "why_tests_cant": "the payload of an error is an arbitrary text, so that it can be read back is a statement about all strings; that every answer can be mimicked needs a text for each", "anchors": ["projects/sm-playground/src/lib.rs:result", "projects/sm-ast/src/error/mod.rs:SMError", "projects/sm-ast/src/error/traits.rs:From", "projects/sm-ast/src/ast/traits.rs:Display"]}
{"id": "C82", "title": "replies as texts", "statement": "A reply of the web page that is a number or a truth value, given back as a text, has the same value and the same reply; so has the reply that is a name, unless it starts with a word that starts a statement. The numbers among the replies are never negative: they are digits, perhaps with one dot. It fails for the rest (refuted): the reply to null is refused as a text, giving back the reply to (letter) panics, and the reply to a string is read as a text.", "quantifier": "every text with a value and every sequence of earlier calls without a panic, for all Unicode tables and all widths of usize", "why_tests_cant": "it relates the printer, the grammar, the tree builder and the evaluator on all values that any text can have; tests compare a few literals with themselves", "anchors": ["projects/sm-playground/src/lib.rs:result", "projects/sm-ast/src/ast/traits.rs:Display", "projects/sm-ast/src/evaluate/forward.rs:forward", "projects/sm-ast/src/parser/parse.rs:parse", "projects/sm-parser/src/sm_parser.rs"]}
{"id": "C83", "title": "length of a reply", "statement": "A text without the signs ^ and ! and without the words power, factorial and fibonacci has a reply of at most three times its length and 24 characters. Any reply to a text of length n has at most 2 (n + 12) 2^64 + 2 W 2^W characters, for words of W bits. The text 10^x, for a numeral x below 2^64, has the reply 1 followed by x zeros, so a text of 23 characters has a reply of 2^64 characters: there is no limit that a server could rely on.", "quantifier": "every text that has a reply, every earlier history, every Unicode table and every width of usize", "why_tests_cant": "the bound is over texts of every length and of every shape; and a test cannot wait for the long replies", "anchors": ["projects/sm-playground/src/lib.rs:result", "projects/sm-ast/src/evaluate/forward.rs:forward", "projects/sm-ast/src/ast/traits.rs:Display", "projects/sm-ast/src/parser/parse.rs:parse", "projects/sm-parser/src/sm_parser.rs"]}
{"id": "C84", "title": "what is a comment and what is a string", "statement": "At any place of any text: ///, //?, //! and //* start a comment that reaches to the end of the line; %%% starts a comment exactly if the number of further %%% up to the end of the text (counted from the left, without overlap) is odd, and that comment ends at the very next %%%, so block comments do not nest; a string in single quotes ends at the next quote that is not escaped, one in three or more quotes at the next place with that many quotes in a row. A text that starts with %%% and has an even number of them after it is refused, whatever else it contains.", "quantifier": "all places of all texts, all reading modes", "why_tests_cant": "Whether %%% starts a comment depends on all the rest of the text.", "anchors": ["projects/sm-parser/simple-math.pest:COMMENT", "projects/sm-parser/simple-math.pest:MultiLineComment", "projects/sm-parser/simple-math.pest:StringBlock", "projects/sm-parser/simple-math.pest:StringNormal", "projects/sm-parser/src/sm_parser.rs:rules::visible::MultiLineComment", "projects/sm-parser/src/sm_parser.rs"]}
{"id": "C85", "title": "the order of trees", "statement": "Trees are compared first by their sort (nothing, program, call, truth value, integer, decimal, name, string), then by content: lists as in a dictionary, strings by their bytes, integers and decimals by value, names by namespace, name, kind and attributes, calls by name, then arguments, options and place. Two trees compare equal exactly if they are equal except that decimals count by value: 1.5 and 1.50 are equal keys, though they print differently. Of any two trees exactly one holds: before, equal, after; before is transitive.", "quantifier": "all pairs of trees", "why_tests_cant": "A sorted map of options is only a map if the order is one, for trees of any depth.", "anchors": ["projects/sm-ast/src/ast/mod.rs:AST", "projects/sm-ast/src/ast/mod.rs:Symbol", "projects/sm-ast/src/ast/mod.rs:SymbolKind", "projects/sm-ast/src/ast/mod.rs:Parameter", "projects/sm-ast/src/ast/mod.rs:Position"]}
{"id": "C86", "title": "what an export to Wolfram leaves of a tree", "statement": "Two texts have the same export to Wolfram exactly if their trees agree in everything but positions, namespaces, kinds and attributes, where functions need only have the same Wolfram name; provided that neither calls a function whose Wolfram name is Rule, True, False or CompoundExpression. Otherwise it fails (refuted): f(k: 1) and f(Rule(k, 1)) have the same export. Nor does the export tell f from F, or factor from factorInteger, as names of functions.", "quantifier": "all pairs of accepted texts, all trees with decimals as they are written, all ways of capitalising", "why_tests_cant": "that nothing else is lost is a statement about all pairs of trees of any depth", "anchors": ["projects/sm-ast/src/traits/wolfram/mod.rs:to_wolfram", "projects/sm-ast/src/traits/wolfram/mod.rs:function_map", "projects/sm-ast/src/parser/parse.rs:parse"]}
{"id": "C87", "title": "converting files, from bytes to bytes", "statement": "Converting a file can end well exactly if the source is a text with a tree. Two sources that differ only in layout and in the words of comments are converted alike: if one conversion can end well so can the other, and if both do they have written the same bytes, wherever the files are and whatever name the settings give. Provided that different Wolfram values are written differently, and nothing is called by a Wolfram name that the export uses itself, two conversions have written the same bytes exactly if the trees of their sources agree as in C86.", "quantifier": "all sources, all file systems and all behaviours of the operating system, all Unicode tables, all encodings of Wolfram values", "why_tests_cant": "It relates all pairs of sources and all executions over a file system; tests compare a few files.", "anchors": ["projects/sm-ast/src/parser/parse.rs:parse_file", "projects/sm-ast/src/traits/wolfram/mod.rs:to_wolfram", "projects/sm-ast/src/parser/parse.rs:parse", "projects/sm-parser/src/sm_parser.rs"]}
{"id": "C88", "title": "line breaks in an expression", "statement": "An expression ends at a line break, or at a comment with one, if the next line starts with anything but an infix operator: parentheses there are no arguments, brackets no index, numbers and names no factors, and ! is no factorial. The text then denotes that expression, or is refused for what follows, and is not refused if expressions follow. Before and after an infix operator lines may be broken: the operator is applied to the operands on both lines.", "quantifier": "all expressions of the reference syntax, all white space and comments between the lines, all next lines, all Unicode tables", "why_tests_cant": "It ranges over all expressions and whatever may stand on the next line; tests break a few lines.", "anchors": ["projects/sm-parser/src/sm_parser.rs", "projects/sm-parser/simple-math.pest:term", "projects/sm-parser/simple-math.pest:apply_call", "projects/sm-parser/simple-math.pest:space_call", "projects/sm-ast/src/parser/parse.rs:parse_expr"]}
{"id": "C89", "title": "how much work the number functions do", "statement": "The fast Fibonacci function makes at most 6 log2 n + 7 recursive calls. The extended Euclidean algorithm makes at most 2 log2 |b| + 2 divisions (none for b = 0), whatever a is; for two neighbouring Fibonacci numbers it makes about as many as their index. prime_sum_u64(n) keeps at most 2 sqrt n + 2 sums and updates them fewer than 2 n^(1/4) n^(1/2) + n / n^(1/4) times (roots rounded down), so always fewer than 24 n^(3/4) times.", "quantifier": "all n > 0, all integers a and b, both overflow modes", "why_tests_cant": "a bound on the work for every size of input; a test measures a few inputs and a missed memo entry, or a loop that does not stop early, gives the same numbers", "anchors": ["projects/sm-algorithm/src/linear/fibonacci.rs:fibonacci_fast_u", "projects/sm-algorithm/src/basic/mod.rs:extended_gcd2", "projects/sm-algorithm/src/prime/prime_sum.rs:prime_sum_u64"]}
