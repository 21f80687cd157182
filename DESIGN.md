# Formal model of GalAster/SimpleMath in Rocq (Coq 8.16.1)

Statements in English: `properties.jsonl`. Which theorem proves what:
`MANIFEST.json`. Wrong programs tried against the theorems: `seeded/LOG.jsonl`.

## How the files are organised (rocq/theories)

* **Model**: one file per part of the code, listed below. Every definition cites
  the file and lines in /repo that it models.
* **`Spec*.v`**: the vocabulary of the theorem statements. It does not use the
  functions of the model, only its data types.
* **`Prop*.v`**: the property theorems and nothing else. Each is closed by an
  `exact`, followed by `Print Assumptions` and by an `Example` that meets its
  hypotheses.
* **`Proof*.v`**: everything in between.

| Part of /repo | Model file | How |
|---|---|---|
| sm-algorithm `basic`, `gamma`, `linear`, `errors` | `AlgoBasic.v`, `AlgoGamma.v`, `AlgoFib.v`, `AlgoError.v` | total Gallina functions over `Z`; panics are outcome values; the memo map is threaded |
| sm-algorithm `prime` | `NumTypes.v`, `AlgoPrime.v` | `u64` arithmetic with an overflow mode (debug panics, release wraps mod 2^64); BTreeMap is a finite map |
| sm-ast `ast` | `Ast.v`, `Display.v` | inductive AST, derived `Ord`, printer with panics |
| sm-ast `internal` | `Internal.v` | decision tables |
| sm-ast `error` | `SmError.v` | error type and conversions |
| sm-ast `evaluate` | `Eval.v`, `Runner.v` | evaluator, runner state machine |
| sm-parser `sm_parser.rs` (the generated parser) | `Peg.v` (pest's ParserState combinators), `Grammar.v` (written by `tools/gen_grammar.py` from `sm_parser.rs`, one case per function with its line), `Steps.v` (the same evaluation, counting the calls), `Track.v` (the same evaluation, with pest's bookkeeping of failed attempts), `Message.v` (the text of the error) | deep embedding and a fuelled interpreter; the fuel is proved sufficient on every input |
| sm-parser `simple-math.pest` (the grammar file) | `Source.v` (written by `tools/gen_source.py`), meaning in `SpecPest.v` | deep embedding and an inductive meaning; proved equivalent to `Grammar.v` (C58) |
| sm-ast `parser` | `Climber.v` (pest PrecClimber and OPERATORS), `Build.v` (parse.rs) | recursion over the pair tree |
| sm-ast `traits/tex`, `traits/wolfram` | `Tex.v`, `Wolfram.v` | printers, tree translation |
| sm-playground `lib.rs` | `Runner.v`, `Debug.v` (errors as text) | the runner behind a mutex that can be poisoned |
| `parse_file` | `ParseFile.v` | file system as a map, explicit crash points |
| `parse_file`, several calls at the same time | `ParseFiles.v` | reads and writes piece by piece, a file handle per call, any interleaving |
| the playground, several threads | `Threads.v` | the mutex: lock, the statements of a call under the lock, release, poisoning; any interleaving |

| Specification file | Contents |
|---|---|
| `SpecNum.v` | factorial, Fibonacci, sums and counts of primes from the definition of primality, coprimality, congruences |
| `SpecAst.v`, `SpecSession.v`, `SpecAnswer.v` | ordered maps, which trees can be shown, sessions, files, answers |
| `SpecClimb.v`, `SpecParse.v` | operator trees, traversal, correct bracketing |
| `SpecPeg.v`, `SpecPlace.v` | spans, lines and columns |
| `SpecSyntax.v`, `SpecSource.v`, `SpecText.v` | numerals, words, white space and line comments; the reference syntax of expressions and its meaning; whole texts |
| `SpecRound.v` | operator expressions and which of them are printed unambiguously |
| `SpecSafe.v` | texts that avoid given pieces |
| `SpecTex.v` | the TeX and Wolfram forms of a tree |
| `SpecPest.v` | the notation of .pest files and its meaning |
| `SpecReply.v` | the value of a tree and how values are written |
| `SpecPage.v` | the replies to a sequence of calls of the web page |
| `SpecCost.v` | nested indexing, unclosed calls; nesting signs, levels of pairs and trees |
| `SpecManual.v` | line breaks, signs and line comments, as the manual uses them |
| `SpecJuxta.v` | expressions whose last operand cannot take what follows |
| `SpecFault.v` | characters without meaning, texts without strings and comments, expressions on lines of their own, what a text is blamed for |
| `SpecBracket.v` | texts whose brackets match, closing brackets nothing waits for |
| `SpecOutside.v` | where comments and strings end, and what of a text is outside them |
| `SpecConvert.v` | the conversion of a file from its bytes to the bytes written |
| `SpecLine.v` | line breaks between expressions, and the characters that go on with an expression on a new line |
| `SpecExport.v` | the parts of a tree; trees that agree but for what the export to Wolfram leaves out |
| `SpecOrder.v` | the order of texts and trees, as a dictionary has them |
| `SpecUtf8.v` | the bytes of a text (RFC 3629) |
| `SpecPieces.v` | a text as a list of gaps, strings, comments and other characters |
| `SpecUnfinished.v` | texts that break off inside an expression |
| `SpecLayout.v` | the layout of a text; line ends, tabulators, blanks at line ends |
| `SpecTest.v` | the number a tree is |
| `SpecOrigin.v` | which words the parser adds; trees drawn from a text; the number of nodes |
| `SpecLetter.v` | replacements of characters that keep their class; trees with replaced names and strings |
| `SpecFiles.v` | calls of parse_file at the same time; calls that keep apart |
| `SpecThreads.v` | threads that call the playground; an order of calls one after another that explains their answers |
| `SpecImage.v` | the trees that can be written |
| `SpecDebug.v` | how a string literal of Rust is read, how errors are written, replies of the web page |
| `SpecAgain.v` | numbers, truth values, texts that are their own reply |
| `SpecLength.v` | the signs and names that stand for powers, factorials and Fibonacci numbers |
| `SpecMessage.v` | the lines of the message of a refused text, the line it quotes, its mark and its list of names |
| `SpecValue.v` | which tree, with which positions, the pairs of a text stand for |

## Modelling conventions

* `str` is a list of Unicode scalar values (`N`). Offsets count characters, where
  Rust counts bytes; a length in bytes is computed from the UTF-8 width where the
  program shows one.
* A Rust panic is the value `Panic kind`; a `Result` is data. They are kept apart.
  A fuelled function that runs out of fuel gives `OutOfFuel`, and it is proved
  that this does not happen.
* The word size W of usize/isize and the overflow mode are parameters.
* XID_Start and XID_Continue are exact on ASCII and arbitrary, universally
  quantified predicates elsewhere. Some theorems assume `sane`: white space and
  the operator signs beyond ASCII are in neither class, which is true of Unicode.
  White_Space is the exact list.
* Texts of error messages (pest's rendered message; the type names and line
  numbers in `unimplemented_function!`) are reduced to a tag.

## External code (not in /repo; its behaviour is written into the model)

* num-bigint/num-integer 0.2: integers are `Z`; `/` and `%` truncate;
  `extended_gcd` is num-integer's loop (modelled step by step);
  `to_isize/to_u64/to_u32` check ranges; negating a BigUint panics;
  `from_str_radix` accepts inner underscores and rejects a leading one.
* bigdecimal 0.1: a decimal is an integer and a scale; its display is modelled.
  Exponents (`1e5`) do not occur in the grammar.
* pest (git, 2.1.3): the ParserState combinators used by the generated code and
  PrecClimber::climb, and in `Track.v` the furthest failed attempts with the
  place and the rules an error names. `Message.v` has the sorting and the layout
  of the message (quoted line, mark, names of rules), written from pest's sources
  as known, since they are not in /repo.
* Rust's Debug of strings (`Debug.v`): what is written with a backslash; whether
  single quotes and the character 0 are, and which characters are printable, are
  parameters, since releases differ.
* pest's grammar notation: its meaning in `SpecPest.v` follows the pest book. C58
  proves that the generated code, run with the combinators above, has that
  meaning, so the two descriptions of pest check each other.
* text-utils `capitalize_first_letter`: an arbitrary function in the theorems.
* std: BTreeMap is a sorted association list or a finite map. Mutex: a panic
  while the lock is held poisons it, and the later `lock().unwrap()` panics. Under
  wasm with panic=abort the same calls trap instead of unwinding; the model
  describes the unwinding build.
* wolfram_wxf: only the constructors of WolframValue. Its printing and its byte
  encoding are arbitrary functions.

Not modelled: memory exhaustion; time and stack, except that `Steps.v` counts
the calls of the parser's functions and how deep they nest (C62, C66), and `Effort.v` the
rounds of the number functions (C89); the wasm-bindgen glue and
the script in index.html; `parse_repl`; the about 60 functions whose body is only
`unimplemented!()`; benches; `GlobalCache` (all its methods are unimplemented);
sm-std and sm-book (they
contain no Rust code).

## Per property

| Property | Modelled as | Proved by |
|---|---|---|
| C01 | `factorial_i` | induction on the fold, against factorial |
| C02, C03 | fold and memoised doubling, map threaded | invariant "entry k of the map is F(k)", strong induction; C03 from the cast to unsigned |
| C04 | `power_iu` | case analysis; refuted at b = 0, 1 |
| C05-C07, C11 | extended Euclid loop and its users | loop invariant, fuel proved sufficient, Bezout; the size of the coefficients by a second invariant (`ProofBezout.v`) |
| C08-C10 | Garner's loop | induction on the processed prefix |
| C12, C13 | in-place sieve over u64 | sieve invariant over the updated map; C13 the same modulo 2^64 with the exact error |
| C14, C16 | dispatch | case analysis |
| C15 (partial) | constant tables | run of a proved prime-summing recursion (`ProofLegendre.v`) for rows up to 10^9; the later rows (to 10^27) are out of reach: for 10^10 the virtual machine needs two minutes but `coqchk`, which does without it, most of an hour |
| C17 | split and join | induction |
| C18 | derived order, ordered map | total order on trees, map lemmas |
| C19 | printer | equivalence with an independent predicate |
| C20, C21 | printer and parser | the reference syntax contains the printed text; two trees, one text |
| C22, C23, C36, C41, C43, C50 | evaluator tables | case analysis; the bytes of a string by `SpecUtf8.v` |
| C24 | interpreter | a well-formedness analysis (nullability, left-call depth) proved sound for every grammar, checked on this one by computation |
| C25, C26 | interpreter | generic invariant on spans; generic shift lemma |
| C27-C31, C33-C35, C37-C40 | parser | big-step rules of the interpreter, first sets proved sound, induction on the literal |
| C32 | climber | traversal and bracketing of the output, uniqueness |
| C42, C53 | text to answer | C51 and C41 with the runner |
| C44-C46 | sessions | induction over the calls |
| C47, C48, C57 | printers | equality with `SpecTex`, induction over trees |
| C49 | file system with crash points | case analysis on the crash point |
| C51, C52 | parser | mutual induction over the reference syntax; first sets |
| C54 | positions | invariant from spans (C25) to trees |
| C55, C56 | parser and session | static analysis of the grammar (which pairs can occur in which texts), proved sound for every grammar |
| C58 | generated code and grammar file | a compiler from the grammar notation to parsing code whose output, for the rewritten grammar, is the generated code (by computation); the rewriting keeps the meaning; the compiled code has the meaning of the source |
| C59 | tree builder on the pairs of the grammar | the tree of a pair is a relation; one direction by induction over it, the other by induction over pairs, using which pairs can lie inside a pair and which texts a rule can read (both proved from C58's meaning for every grammar) |
| C60 | runner, parser, evaluator, printer | values and written forms are relations; evaluator and printer follow them by cases, the rest is C59 |
| C61 | playground on top of C60 | the replies to a sequence of calls are a relation; by induction over the calls with the invariant that the stored output at the current index is the value of the latest text |
| C62 | `Steps.v`: the calls made during `Peg.run`, one by one | lower bounds for every combinator, then by induction over the nesting: Start, Start and expr all read the same operand before index is decided; apply_call is tried once alone and once inside space_call. Refusal of the unclosed text through the grammar semantics of C58. Upper bounds by induction over the fuel; the one by nesting signs with a cost (coefficient and power of the length) for each function, checked for the whole grammar by computation, what follows a passed sign being charged to the next level |
| C63 | grammar, parser | after an expression and white space with a line break no suffix, factor or operator of the grammar can start, so the statement ends; the rest of the text is read or refused |
| C64 | grammar, parser | the same stopping lemma for the unknown signs, and for an operator that no operand can follow; then no statement can start there and the text is refused. Doubled signs are an operator and a prefix (C51) |
| C65 | grammar, parser | skipping a line comment is a rewrite of the state like skipping white space (generic shift lemma, for all texts); the reference syntax of C51 takes comments wherever it takes white space |
| C66 | `Steps.v`: the deepest nesting of calls during `Peg.run` | a rank for every function: its body calls functions of lower rank until a nesting sign has been passed (checked for each function), so the depth is bounded by induction over the fuel; lower bound by induction over the parentheses; the tree of a sum from C51 |
| C67 | grammar, parser, evaluator | new operands of the reference syntax, so they may stand in any expression (C51); the answers as for C42 |
| C68 | grammar, parser | the same: operands and suffixes of the reference syntax whose meaning is a panic |
| C69 | grammar, parser | what may follow an operand is a parameter of the lemmas behind C51: parentheses, lists, dictionaries and calls are read alike whatever follows, numbers and marks also before a parenthesis; the rest of the text is read as in C63 |
| C70 | `Track.v`: the attempts pest records during `Peg.run` | the recorded place never goes back, and is a place of the text: by induction over the fuel. Upper bound for characters without meaning: an analysis of every function of the grammar, checked by computation, shows that none of them passes such a character or records an attempt after it. Lower bounds: the expressions before the fault are read as in C51 and C63, and the attempt that fails there is recorded. Expected rules: every rule recorded is a call of a generated function that failed there, so by C58 the grammar does not read it; lookaheads record nothing, an analysis of every function. Strangers in texts with strings and comments: by the analysis of C71 |
| C71 | the texts of C70 | an analysis of every function of the grammar, checked by computation, gives the brackets it leaves open when it succeeds: none, or one it just read; soundness by induction over the fuel, with the stack of open brackets as the invariant, and the attempts bounded by the first closing bracket that does not fit. The exact place from C70's lower bound. Texts with strings and comments: `SpecOutside.v` says what is outside them. The same kind of analysis, now of the grammar file (C58), over the derivations of `SpecPest.v`; what the string and comment rules read is shown to be what the specification skips, and an operator that starts with / or % is read only where no comment can be |
| C72 | the texts of C70 and C71 | `SpecUnfinished.v` says which texts break off inside an expression. Lower bound: by mutual induction over these texts, a call of `expr` gets to the place where the text breaks off, whatever ending or fault comes next. Upper bounds and refusals from C70 and C71. Left out: texts that break off inside a string, a number or a name |
| C73 | the parser of C01 | `SpecLayout.v` reduces every run of white space to one character. By induction over the fuel of the grammar interpreter: runs over two texts with the same layout end at places with the same layout and build trees that agree in everything the tree builder reads. The grammar is checked to read white space only in whole gaps. Texts with strings: `SpecPieces.v` keeps strings as they are and forgets what comments say. An analysis of the grammar file (C58) gives where a comment cannot start and which rules read one word; by induction over the derivations of `SpecPest.v`, texts with the same pieces have the same derivations up to the words the tree builder does not look at |
| C74 | the predicates of `ast/traits.rs` (internal to the crate, and not used by it) | `SpecTest.v` says which rational number a tree is. Scaling lemmas over Q, C17 for the names |
| C75 | all of `parser/parse.rs` and the grammar | `SpecOrigin.v`. Every pair covers its children and has text (a check of the grammar, `ProofOrigin.roomy_chk`), a slice has a comma for every index but the first (`credit`); then induction over `SpecValue`. That the bound is reached: C51 on the texts ¶[:,:,…] |
| C76 | the grammar, all of `parser/parse.rs`, `Track.v` | `SpecLetter.v`. The literals and ranges of the grammar only contain kept characters (a check of the grammar, `ProofLetter.letters_chk`), so pest runs alike on both texts, and so do its attempts; then induction over `SpecValue`. Options are sorted by key, so their order may change: last writes correspond, and keys are different. Replies: `SpecReply.v` (C60), whose values and written forms only name ASCII characters |
| C77 | `parse_file` (`ParseFiles.v`: any number of calls, each with its own file handles; paths are different files, nobody else removes or locks them) | `SpecFiles.v`. Simulation: each call of a set that keeps apart is matched by a run of `ParseFile.v` alone, over every interleaving. For equal outputs an invariant about the call that created the file last; mixtures and torn reads by schedules |
| C78 | `Threads.v`: any number of threads, each with any sequence of calls; the statements under the lock are separate steps | `SpecThreads.v`. Invariant: the shared runner is that of the calls released so far, made one after another with `Runner.v`, plus the statements done by the holder of the lock. Every order by running call after call; the bound by a measure |
| C79 | `parse` as a whole: which trees it can return | `SpecImage.v`. Every such tree has a text: induction on its size, the text being written with brackets around every operand and the reference syntax of `SpecSource.v` giving its value. Every tree returned is such a tree: induction on the derivation in the grammar, function by function. The set does not depend on positions by induction on size |
| C80 | `Message.v`: pest's rendering of the error over `Track.v` | `SpecMessage.v`. Every rule recorded is a variant of the enumeration (induction over the fuel, and a check of every function); sorting and removing repetitions gives the variants recorded in their order. The line quoted is the line of the text with that number, by induction over the text. The six lines determine their contents, and the names contain neither commas nor blanks, so the list can be read back |
| C81 | `Debug.v`: the derived Debug of the errors, over `Message.v`; `Runner.v` | `SpecDebug.v` says it by reading: a string literal is unquoted by a small automaton, and unquoting what Debug writes gives the string back, by induction. Names and brackets then determine the error. For the last part: by C79 every string without quotation marks at its ends has a literal, and its reply is the string |
| C82 | `Runner.v`, `Display.v`, `Eval.v` and the parser | By C79 every tree is one of a few shapes; inverting the evaluation (`SpecReply.v`) the value of a text is a number that is not negative, a truth value, a writable name, null or a string. What `Display` writes for the first three is an expression of `SpecSource.v` with that value, so C51 gives its tree, and C81 the replies. The exceptions are witnesses. |
| C83 | `Runner.v`, `Eval.v`, `Display.v` and the parser | By C75 everything in the tree of a text is taken from the text, so its numbers are below 16^(length + 1) (a base has at most 36 figures) and its names and strings are no longer than the text. The evaluation relation of `SpecReply.v` is inverted; each function's value is bounded by its arguments, and a growing function occurs only if its sign or name does. The long replies follow from C42. |
| C84 | the rules of the grammar file for comments and strings, and through C58 the generated functions | the comment and string rules are decided at every place by induction over the length of the rest, with the matched-text stack for strings in many quotes; that nested attempts amount to counting the %%% is an induction over the number of them. The refused texts by C34's analysis of a leading %%% |
| C85 | the derived order of trees | induction over the tree, the lists by dictionary order; decimals by their value as rational numbers; bytes by the ranges of UTF-8 |
| C86 | the export to Wolfram of all trees, and by C79 of all texts | the head and the argument lists of nested calls are determined by the export, by induction from the last one; an option is told from an argument because no argument is a rule; decimals by the unique split at the point; the converse by induction. Pairs of texts for what is mixed up |
| C87 | `parse_file` over the file system of C49 with the real parser and export; decoding of bytes, capitalising and the encoding of Wolfram values are any functions | composition of C49, C73, C48 and C86; the name of the source only reaches the positions |
| C88 | the grammar of `sm_parser.rs` over all texts whose first expression is one of C51 | what may follow an expression (the stopping condition of C69) holds after a line break before any character that starts no infix operator; around operators C51 allows any white space |
| C89 | `Effort.v`: the calls of `memoization`, the divisions of the Euclidean loop, the table of `prime_sum_u64` and its updates, counted along the modelled runs | Fibonacci: calls are 1 + 2 for each new entry; the keys of depth j lie between n/2^j and n/2^j + 2, and none is entered twice. Euclid: two divisions halve the divisor. Sums of primes: up to n^(1/4) each prime updates at most the whole table, a later prime p at most n/p^2 + 1 entries, and n/p^2 <= n/(p-1) - n/p |

Where the code violates the law one would expect, the theorem states what it does
and a `_refuted` or similarly named theorem shows that the law fails (C03, C04,
C07, C10, C13, C17, C21, C29, C30, C33, C34, C38, C43, C46, C49, C67, C69).

## Trusted base

* The kernel of Coq 8.16.1, with its virtual machine (`vm_compute`).
* `Print Assumptions` prints "Closed under the global context" for every theorem
  listed in MANIFEST.json: no axiom of the standard library or of any other
  library is used. (A checker that lists what compiled libraries contain also
  reports seven `Coq.ssr.ssrunder.Under_rel.*` constants: opaque fields of a
  module in Coq's own ssreflect library, which Coq's tactics load. No theorem
  here depends on them.)
* The faithfulness of the model to /repo and to the external code named above,
  and of the two translators `tools/gen_grammar.py` and `tools/gen_source.py`.
  C58 reduces the trust in both: the two files come from different sources in
  /repo and are proved to describe the same parser.
