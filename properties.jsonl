{"id": "C01", "title": "Allocation never hands out a cell that is in use", "statement": "After any history of cell allocations and releases (each release naming a cell currently in use), a further allocation returns a cell that no client holds, lies inside the memory committed for the slab, and is completely zeroed.", "quantifier": "all finite histories of allocate/release calls in which releases name cells in use", "why_tests_cant": "the free list is threaded through freed cells in an arbitrary order and is rebuilt by growth; only an invariant over all histories excludes a double hand-out", "anchors": ["lib/core/slab.c: slab_new, slab_allocate, slab_deallocate, slab_expand", "include/mnml/slab.h: CELL_COUNT"]}
{"id": "C02", "title": "Slab accounting and capacity are exact", "statement": "At every point the allocation counter minus the release counter equals the number of cells in use, and cells in use plus cells on the free chain are exactly all committed cells, without repetition. The slab grows (doubling) only when every committed cell is in use, and the process is aborted for lack of memory exactly when 2097152 cells (64 MiB) are all in use.", "quantifier": "all finite histories of allocate/release calls", "why_tests_cant": "capacity limits and leaks of free cells only show after millions of operations in particular orders", "anchors": ["lib/core/slab.c: slab_expand, slab_allocate, slab_deallocate", "include/mnml/slab.h: SLAB_SIZE, PAGE_SIZE"]}
{"id": "C03", "title": "Dropping a reference never damages what others can still reach", "statement": "In any heap whose reference counts are correct, dropping one owned reference leaves every cell reachable from the remaining references allocated, with the same contents, and leaves all reference counts correct again; it never touches a freed cell.", "quantifier": "all heaps with correct counts, all owned references, all sharing patterns", "why_tests_cant": "sharing patterns are unbounded; a use-after-free needs one specific aliasing pattern", "anchors": ["include/mnml/lisp.h: X_0, UP, DOWN", "lib/core/lisp.c: lisp_deallocate"]}
{"id": "C04", "title": "Dropping the last reference to acyclic data frees exactly that data", "statement": "Dropping a reference always terminates, and after dropping every reference held by the program in a heap without cycles no cell remains in use: nothing leaks.", "quantifier": "all acyclic heaps with correct reference counts", "why_tests_cant": "leaks are invisible to result-checking tests and depend on the shape of the data", "anchors": ["lib/core/lisp.c: lisp_deallocate", "include/mnml/lisp.h: X_0"]}
{"id": "C05", "title": "List primitives are memory neutral", "statement": "Building atoms and pairs, taking heads and tails, shallow duplication, destructive concatenation, appending an element, destructuring binding, and sorted environment update/merge each consume exactly the references documented as consumed and return exactly one new reference: reference counts stay correct in any context.", "quantifier": "all heaps with correct counts, all argument values, all other references held by the program", "why_tests_cant": "one missing or extra count is only visible as a leak or a crash much later", "anchors": ["include/mnml/lisp.h: lisp_car, lisp_cdr, lisp_cons", "lib/core/lisp.c: lisp_conc, lisp_bind", "lib/core/utils.c: lisp_dup, lisp_append, lisp_sss, lisp_merge"]}
{"id": "C06", "title": "Destructive concatenation produces a finite list", "statement": "`(conc a b)` returns a finite list consisting of the elements of `a` followed by `b`, whatever the arguments, and the variable holding `a` then shows the concatenation.", "quantifier": "all list arguments, including aliased ones such as (conc x x)", "why_tests_cant": "the outcome depends on aliasing between arguments, which example-based tests never cover", "anchors": ["lib/core/lisp.c: lisp_conc", "lib/mnml/std/conc.c: lisp_function_conc", "docs/manual/Reference.md: CONC"]}
{"id": "C07", "title": "`=` is structural equality", "statement": "`(= a b)` holds exactly when a and b are structurally the same value; it is reflexive, symmetric and transitive, and it distinguishes a number from a character with the same code.", "quantifier": "all pairs of values", "why_tests_cant": "values are unbounded trees", "anchors": ["lib/core/utils.c: lisp_equ", "lib/mnml/logic/equ.c"]}
{"id": "C08", "title": "`<>` is the exact negation of `=`", "statement": "For all values a and b, `(<> a b)` is true exactly when `(= a b)` is not.", "quantifier": "all pairs of values", "why_tests_cant": "the two are separate recursive functions with different case splits", "anchors": ["lib/core/utils.c: lisp_neq, lisp_equ", "lib/mnml/logic/neq.c"]}
{"id": "C09", "title": "Destructuring binds every variable of a pattern to the matching part", "statement": "Binding a pattern to a value gives each variable of a pattern without repeated names the sub-value at the same position, or NIL when the value has no such position, binds nothing else, and never fails; existing bindings of other names are kept.", "quantifier": "all patterns and all values of any shape", "why_tests_cant": "patterns and values are unbounded and may mismatch anywhere", "anchors": ["lib/core/lisp.c: lisp_bind", "docs/notes/Deconstruction.md"]}
{"id": "C10", "title": "Local scopes behave as a finite map", "statement": "Extending a local scope with a list of bindings gives a scope in which every bound name shows its last binding in the list and every other name is unchanged; a scope kept sorted stays sorted and free of duplicates; the scope that was extended is not altered.", "quantifier": "all scopes and all binding lists", "why_tests_cant": "insertion position and overwriting interact over unbounded sequences", "anchors": ["lib/core/utils.c: lisp_sss, lisp_merge, lisp_dup", "lib/core/lisp.c: lisp_lookup"]}
{"id": "C11", "title": "A call is rejected exactly when it has too many values", "statement": "Applying a function with a fixed argument list of n entries to k values is accepted iff k <= n; an argument list ending in a catch-all symbol accepts any number of values.", "quantifier": "all argument lists and value lists", "why_tests_cant": "unbounded lists and mixed fixed/catch-all forms", "anchors": ["lib/core/utils.c: lisp_may_apply"]}
{"id": "C12", "title": "Strings: escape processing", "statement": "Making a string from text keeps text without backslashes unchanged; `\\n` and `\\t` become newline and tab, any other escaped character stands for itself, and the result never contains more characters than the text.", "quantifier": "all character sequences", "why_tests_cant": "escape state carries across characters of unbounded text", "anchors": ["lib/core/lisp.c: lisp_make_string", "lib/core/utils.c: lisp_process_escapes"]}
{"id": "C13", "title": "Converting a string to a C buffer stays inside the buffer", "statement": "Converting a string to a C string with a stated capacity writes only inside a buffer of that capacity, and yields the first characters of the string followed by a terminator.", "quantifier": "all strings and capacities", "why_tests_cant": "an off-by-one write only shows at one exact length and may not crash", "anchors": ["lib/core/utils.c: lisp_make_cstring, lisp_load_file", "lib/mnml/io/in.c", "lib/mnml/io/out.c", "lib/mnml/std/sym.c", "lib/mnml/std/load.c"]}
{"id": "C14", "title": "Symbols are identified by their first 16 characters", "statement": "Two names denote the same symbol iff their first 16 bytes agree; symbol ordering is a strict total order compatible with that identity.", "quantifier": "all pairs of names of any length", "why_tests_cant": "names are unbounded", "anchors": ["include/mnml/lisp.h: MAKE_SYMBOL_STATIC, MAKE_SYMBOL_STATIC_N", "include/mnml/utils.h: lisp_symbol_match, lisp_symbol_compare"]}
{"id": "C15", "title": "`str` and `sym` are mutually inverse on names", "statement": "Turning a symbol into a string and back gives the same symbol; turning a string of 1 to 16 non-zero characters into a symbol and back gives the same string.", "quantifier": "all symbols / strings within the length limit", "why_tests_cant": "depends on every character that may occur in a name", "anchors": ["lib/mnml/std/str.c", "lib/mnml/std/sym.c"]}
{"id": "C16", "title": "Structural matching", "statement": "A template matches a value exactly when the value can be obtained from the template by replacing each wildcard with some value; the first matching clause is the one evaluated.", "quantifier": "all templates and values", "why_tests_cant": "unbounded trees with wildcards anywhere", "anchors": ["lib/mnml/std/match.c: atom_match, lisp_match"]}
{"id": "C17", "title": "Global definitions behave as a finite map", "statement": "After any sequence of global definitions (new names and redefinitions), looking up a name returns its latest definition, and NIL when it was never defined. Redefining one name never changes another.", "quantifier": "all sequences of definitions and all looked-up names", "why_tests_cant": "the store is a self-rotating pointer tree; each insertion order is a different pointer graph", "anchors": ["lib/core/tree.c: lisp_tree_add, lisp_tree_get, tree_add_node, tree_add_check, lisp_tree_lrot, lisp_tree_rrot", "lib/core/lisp.c: lisp_setq"]}
{"id": "C18", "title": "Inserting a definition never dereferences an invalid node", "statement": "Any sequence of insertions into the globals tree completes: it never dereferences a node that is NIL or freed, the rebalancing loop terminates, parent links stay correct, keys stay in order and the root stays uncoloured.", "quantifier": "all sequences of insertions", "why_tests_cant": "rotation cases reached depend on the whole insertion history", "anchors": ["lib/core/tree.c: tree_add_check, lisp_tree_lrot, lisp_tree_rrot"]}
{"id": "C19", "title": "The globals tree stays balanced", "statement": "After any sequence of insertions no coloured node has a coloured parent and the height is logarithmic in the number of names, so symbol lookup is logarithmic.", "quantifier": "all insertion sequences", "why_tests_cant": "imbalance needs particular insertion orders and never changes results", "anchors": ["lib/core/tree.c: tree_add_check"]}
{"id": "C20", "title": "In-place update of a global", "statement": "Updating an existing global replaces only that name's value, keeps the identity of its binding and hands back the previous value; updating an unknown name changes nothing.", "quantifier": "all tree states and names", "why_tests_cant": "depends on arbitrary tree shapes", "anchors": ["lib/core/tree.c: lisp_tree_upd"]}
{"id": "C21", "title": "Removing a key from the tree", "statement": "Removing a key yields a tree containing exactly the other bindings; removing an absent key leaves the tree unchanged.", "quantifier": "all trees and keys", "why_tests_cant": "deletion fix-up has many pointer cases", "anchors": ["lib/core/tree.c: lisp_tree_rem, tree_rem_check"]}
{"id": "C22", "title": "The per-symbol lookup cache is never stale", "statement": "Resolving a symbol through the cached binding gives the same value as searching the globals, after any interleaving of definitions, redefinitions, in-place updates and lookups.", "quantifier": "all histories of global definitions, updates and lookups", "why_tests_cant": "staleness needs a specific interleaving", "anchors": ["lib/core/lisp.c: lisp_lookup", "include/mnml/types.h: struct atom.cache", "lib/core/tree.c: tree_add_node"]}
{"id": "C23", "title": "Literal printing is exact for values of any size", "statement": "Printing a value in literal form emits exactly the textual form of that value, regardless of its size and of how the 1024-byte staging buffer is flushed.", "quantifier": "all values", "why_tests_cant": "errors occur only when a token straddles a buffer boundary", "anchors": ["lib/core/print.c: lisp_write, lisp_prin_pair, lisp_prin_atom, lisp_prin"]}
{"id": "C24", "title": "The print buffer is never overrun", "statement": "While printing any value, every write to the 1024-byte staging buffer stays inside it.", "quantifier": "all values, both printing modes", "why_tests_cant": "an overrun needs a specific alignment of tokens with the buffer end", "anchors": ["lib/core/print.c: lisp_write"]}
{"id": "C25", "title": "Symbolic printing emits every non-NIL leaf", "statement": "`prin` of a value emits the concatenation of the texts of its leaves, NIL leaves contributing nothing.", "quantifier": "all values", "why_tests_cant": "needs values with NIL inside lists at all positions relative to buffer flushes", "anchors": ["lib/core/print.c: lisp_prin_atom (T_NIL case)"]}
{"id": "C26", "title": "Printing then reading gives the same value", "statement": "Reading back the literal form of a value yields that value, for every value whose characters are printable and whose symbols are readable names.", "quantifier": "all values in the readable subset", "why_tests_cant": "unbounded nesting; token boundaries depend on neighbouring tokens", "anchors": ["lib/core/print.c", "lib/grammar/lexer.rl", "lib/grammar/parser.y"]}
{"id": "C27", "title": "Reading any integer literal", "statement": "Reading a decimal literal (optional minus sign) gives that integer when it fits in 64 bits and the nearest representable bound otherwise.", "quantifier": "all digit sequences", "why_tests_cant": "literals are unbounded in length", "anchors": ["lib/grammar/lexer.rl: tok_number"]}
{"id": "C28", "title": "The reader consumes every byte and keeps tokens separate", "statement": "Tokenisation of any text is total and deterministic: it always takes the longest token, consumes at least one byte per step, and the concatenation of the texts of tokens and skipped material is the input.", "quantifier": "all byte sequences", "why_tests_cant": "unbounded inputs", "anchors": ["lib/grammar/lexer.rl: main scanner"]}
{"id": "C29", "title": "Evaluation is deterministic and has at most one result", "statement": "If evaluating an expression produces a result within some resource limit, every larger limit produces the same result and the same effects on globals and output.", "quantifier": "all expressions, scopes and global states", "why_tests_cant": "quantifies over all programs", "anchors": ["lib/core/eval.c: lisp_eval"]}
{"id": "C30", "title": "Name resolution order", "statement": "A symbol evaluates to its innermost local binding when there is one, otherwise to its global value, otherwise to NIL; evaluating a symbol changes nothing.", "quantifier": "all scopes, global states and symbols", "why_tests_cant": "all combinations of shadowing", "anchors": ["lib/core/lisp.c: lisp_lookup", "lib/core/eval.c: lisp_eval"]}
{"id": "C31", "title": "Too many arguments: NIL and no evaluation", "statement": "Calling a function with more values than arguments returns NIL without evaluating any of the values.", "quantifier": "all functions, calls and states", "why_tests_cant": "needs arbitrary effects inside argument expressions", "anchors": ["lib/core/eval.c: lisp_eval_func", "lib/core/utils.c: lisp_may_apply"]}
{"id": "C32", "title": "Currying", "statement": "Supplying the arguments of a function in two successive calls gives the same result as supplying them all at once, at any split point, for user-defined functions.", "quantifier": "all functions with fixed argument lists, all split points, all argument values", "why_tests_cant": "functions and splits are unbounded", "anchors": ["lib/core/eval.c: lisp_eval_args, lisp_eval_func", "docs/manual/Language.md: Currying"]}
{"id": "C33", "title": "Catch-all arguments receive their values unevaluated", "statement": "A function whose argument list is a single symbol receives the unevaluated list of argument expressions, of any length, and none of them is evaluated by the call; `quote` returns its argument expression unchanged.", "quantifier": "all functions and argument lists", "why_tests_cant": "quantifies over all argument expressions, including ones with effects or that diverge", "anchors": ["lib/core/eval.c: lisp_eval_args", "lib/mnml/std/quote.c"]}
{"id": "C34", "title": "Conditionals evaluate exactly one branch", "statement": "`if`, `when`, `unless` evaluate the condition once and then only the selected branch, in the caller's scope; the unselected branch is never evaluated.", "quantifier": "all conditions, branches and states", "why_tests_cant": "the unselected branch may be arbitrary, including diverging or crashing code", "anchors": ["lib/mnml/std/if.c", "lib/mnml/std/when.c", "lib/mnml/std/unless.c"]}
{"id": "C35", "title": "`let` binds sequentially and locally", "statement": "`let` evaluates its bindings in order, each seeing the previous ones, evaluates its body in the extended scope, and afterwards the enclosing scope is unchanged.", "quantifier": "all binding lists, bodies and scopes", "why_tests_cant": "unbounded nesting and shadowing", "anchors": ["lib/mnml/std/let.c: lisp_let_bind, lisp_let"]}
{"id": "C36", "title": "In a binding list with a repeated name the last binding wins", "statement": "`(let ((a . 1) (a . 2)) a)` and a function with a repeated argument name see the last value bound.", "quantifier": "all binding lists with repeated names", "why_tests_cant": "which binding wins depends on list orientation and merge order", "anchors": ["lib/mnml/std/let.c", "lib/core/utils.c: lisp_merge", "lib/core/lisp.c: lisp_bind"]}
{"id": "C37", "title": "Lexical capture", "statement": "A lambda evaluated in a scope sees, when called anywhere, its parameters first, then the bindings of its definition scope, then those of its call site, then globals.", "quantifier": "all definition scopes, call-site scopes and names", "why_tests_cant": "quantifies over all nesting of scopes", "anchors": ["lib/mnml/std/lambda.c", "lib/core/eval.c: lisp_eval_func", "docs/notes/Closures.md"]}
{"id": "C38", "title": "Tail-call elimination is invisible", "statement": "Running a function whose self-calls in tail position are executed by the interpreter's loop gives the same result and effects as running it with ordinary recursive calls.", "quantifier": "all functions, arguments and states in which the function's name denotes the function", "why_tests_cant": "needs all recursion depths and all bodies", "anchors": ["lib/core/eval.c: lisp_eval_func (tail-call loop)", "lib/core/utils.c: lisp_mark_tail_calls, lisp_collect_tails"]}
{"id": "C39", "title": "Only calls in tail position are eliminated", "statement": "The calls selected for tail-call elimination are in tail position: their value is the value of the whole body.", "quantifier": "all function bodies", "why_tests_cant": "bodies are unbounded expressions", "anchors": ["lib/core/utils.c: lisp_collect_tails, lisp_collect_tails_assoc"]}
{"id": "C40", "title": "Defining a function always succeeds", "statement": "`def` with a symbol and an argument list defines the function for every body, including an empty body or a body consisting of a documentation string only, and `let` may bind any function value.", "quantifier": "all bodies and function values", "why_tests_cant": "quantifies over all bodies", "anchors": ["lib/mnml/std/def.c", "lib/mnml/std/let.c", "lib/core/utils.c: lisp_mark_tail_calls"]}
{"id": "C41", "title": "`setq` associates the value with the symbol", "statement": "After `(setq s e)`, evaluating s in a scope that does not bind s locally gives the value of e, and all other globals are unchanged.", "quantifier": "all symbols, expressions and states", "why_tests_cant": "quantifies over all values, NIL included", "anchors": ["lib/mnml/std/setq.c", "lib/core/lisp.c: lisp_setq"]}
{"id": "C42", "title": "`<-` updates the innermost binding and returns the previous value", "statement": "`(<- 's e)` replaces the value of the innermost existing binding of s (local, else global) and returns the previous value; other bindings are unchanged; when s is unbound nothing changes.", "quantifier": "all scopes, states and values", "why_tests_cant": "local/global paths, sharing of captured scopes", "anchors": ["lib/mnml/std/set.c", "lib/core/tree.c: lisp_tree_upd", "docs/manual/Reference.md: SET"]}
{"id": "C43", "title": "Integer arithmetic and comparison", "statement": "On numbers, `+ - *` give the mathematical result whenever it fits in 64 bits, `/` truncates towards zero and `%` has the sign of the dividend for a non-zero divisor, comparisons agree with integer order; everything outside those conditions is the exact set of undefined cases.", "quantifier": "all pairs of 64-bit integers", "why_tests_cant": "2^128 input pairs", "anchors": ["include/mnml/module.h: BINARY_NUMBER_GEN, BINARY_COMPARE_GEN", "lib/mnml/math/*.c"]}
{"id": "C44", "title": "Input/output redirection is properly nested", "statement": "`in` and `out` evaluate their body with the new channel and restore the previous channel stack afterwards, whatever the body does, so output is attributed to the right channel.", "quantifier": "all bodies, all nestings", "why_tests_cant": "unbounded nesting", "anchors": ["lib/mnml/io/in.c", "lib/mnml/io/out.c", "include/mnml/utils.h: PUSH_IO_CONTEXT, POP_IO_CONTEXT"]}
{"id": "C45", "title": "Evaluation never corrupts memory", "statement": "Evaluating any expression in a heap with correct reference counts never touches a freed cell and leaves the counts correct; every reference the evaluation was given is consumed and exactly one result reference is produced.", "quantifier": "all expressions, scopes, heaps and sharing patterns", "why_tests_cant": "needs all programs and all aliasing", "anchors": ["lib/core/eval.c", "lib/core/lisp.c", "lib/mnml/std/*.c"]}
{"id": "C46", "title": "Library list functions compute what they document", "statement": "`foldl`, `foldr`, `map`, `map2`, `zip`, `rev`, `append`, `$+`, `filter`, `has`, `last`, `assoc`, `erase`, `replc`, `rep`, `truncl`, `truncr`, `<|>` and the car/cdr chains of the bundled library, run by the interpreter, compute the corresponding mathematical list functions for lists of every length, calling the given function once per element in the order of the fold.", "quantifier": "all lists and all element values", "why_tests_cant": "unbounded lists, recursion through the interpreter", "anchors": ["share/mnml/iterators.l", "share/mnml/rev.l", "share/mnml/append.l", "share/mnml/filter.l", "share/mnml/manips.l", "share/mnml/last.l", "share/mnml/has.l", "share/mnml/erase.l", "share/mnml/replc.l", "share/mnml/truncr.l", "share/mnml/orelse.l"]}
{"id": "C47", "title": "Recycled closures are large enough", "statement": "A closure obtained from the closure cache for N variables has room for N variables, whatever closures were returned to the cache before.", "quantifier": "all sequences of get/put with any sizes", "why_tests_cant": "needs particular size sequences; overflow may be silent", "anchors": ["lib/core/closure.c: lisp_closure_get, lisp_closure_put"]}
{"id": "C48", "title": "Source text means what the grammar says", "statement": "A text made of literals, names, lists, dotted pairs, quoted forms, read-time evaluation (backtick) and splicing (tilde), with any blanks and comments, is read as the values the grammar prescribes, in order, with read-time evaluations performed from left to right.", "quantifier": "all texts of the grammar, all nestings, all behaviours of read-time evaluation", "why_tests_cant": "unbounded texts and nesting", "anchors": ["lib/grammar/parser.y", "lib/grammar/lexer.rl"]}
{"id": "C49", "title": "Reading a file line by line does not change its meaning", "statement": "`lisp_read` on a stream returns the first form even when it is spread over several lines, returns the other forms of the same line on the next calls in order, and leaves the rest of the stream unread, whatever the lengths of the lines.", "quantifier": "all streams, all line lengths", "why_tests_cant": "needs forms at every position relative to the 1024-byte buffer", "anchors": ["lib/core/read.c: lisp_read", "lib/grammar/lexer.rl: lexer_parse"]}
{"id": "C50", "title": "Reading ends", "statement": "`lisp_read` on a finite stream returns after finitely many turns (a value, end of file or an error).", "quantifier": "all finite streams", "why_tests_cant": "non-termination cannot be observed by a test", "anchors": ["lib/core/read.c: lisp_read"]}
{"id": "C51", "title": "Quoting a number", "statement": "Reading a quote followed by a decimal literal gives the quoted number.", "quantifier": "all decimal literals", "why_tests_cant": "unbounded literals; depends on rule precedence", "anchors": ["lib/grammar/lexer.rl: scanner rules", "lib/grammar/parser.y: prefix"]}
{"id": "C52", "title": "An identifier is one symbol", "statement": "Reading an identifier (letters, digits and marks, not a number or a special word) gives one symbol with that name.", "quantifier": "all identifiers", "why_tests_cant": "unbounded names", "anchors": ["lib/grammar/lexer.rl: symbol"]}
{"id": "C53", "title": "Type predicates", "statement": "`nil?`, `tru?`, `chr?`, `num?`, `sym?`, `lst?`, `atm?`, `str?` and `not` evaluate their argument once and answer T exactly on the values of the named kind (a string is a NIL-ended list of characters, a list is NIL or a pair), NIL otherwise.", "quantifier": "all argument expressions, scopes and states in which the names denote the builtins", "why_tests_cant": "infinitely many values, side effects of the argument", "anchors": ["lib/mnml/std/isnil.c", "lib/mnml/std/isstr.c", "lib/mnml/std/islst.c", "lib/core/utils.c: lisp_is_string"]}
{"id": "C54", "title": "Pairs: construction, selection, length", "statement": "`cons` evaluates its arguments left to right and pairs them; `car` and `cdr` give back the parts (NIL for what is not a pair), so `(car (cons a b))` is `a` and `(cdr (cons a b))` is `b` with both evaluated; `len` is the number of pairs on the spine of a list and NIL for what is not a list.", "quantifier": "all argument expressions, scopes and states", "why_tests_cant": "algebraic laws over all values", "anchors": ["lib/mnml/std/cons.c", "lib/mnml/std/car.c", "lib/mnml/std/cdr.c", "lib/mnml/std/len.c", "lib/core/utils.c: lisp_len"]}
{"id": "C55", "title": "Logical connectives", "statement": "`and` evaluates both arguments and answers T when neither is NIL; `or` evaluates its second argument only when the first is NIL; both answer T or NIL.", "quantifier": "all argument expressions, scopes and states", "why_tests_cant": "evaluation count is only visible through side effects of arbitrary arguments", "anchors": ["lib/mnml/logic/and.c", "lib/mnml/logic/or.c"]}
{"id": "C56", "title": "`list` collects the values in the order written", "statement": "`(list e1 ... en)` evaluates each expression exactly once, from the last to the first, and returns the values in the order written.", "quantifier": "all numbers of arguments, all expressions", "why_tests_cant": "unbounded number of arguments", "anchors": ["lib/mnml/std/list.c: lisp_list"]}
{"id": "C57", "title": "`cond` selects by predicate", "statement": "`(cond e (p1 . x1) ...)` evaluates e once, evaluates the xi of the first clause whose predicate answers T on that value (or is `_`), and nothing of the other right-hand sides; NIL when no clause applies.", "quantifier": "all subjects, clause lists, scopes and states", "why_tests_cant": "unbounded clause lists; evaluation count is only visible through side effects", "anchors": ["lib/mnml/std/cond.c: lisp_cond", "docs/manual/Reference.md: COND"]}
{"id": "C58", "title": "Loops and sequences", "statement": "`(while c . body)` evaluates c before every turn, runs the body in order as long as c is not NIL, and returns the value of the last turn (NIL if there was none); `prog` evaluates its expressions in order and returns the last value.", "quantifier": "all conditions and bodies, any number of turns", "why_tests_cant": "unbounded iteration", "anchors": ["lib/mnml/std/while.c: lisp_function_while", "lib/mnml/std/prog.c", "lib/core/lisp.c: lisp_prog"]}
{"id": "C59", "title": "Fluent composition", "statement": "`(|> x f1 ... fn)` evaluates x once and passes each value, unevaluated again, to the next stage; the value is that of the last stage.", "quantifier": "all pipelines", "why_tests_cant": "unbounded pipelines; a double evaluation is only visible for values that are themselves expressions", "anchors": ["lib/mnml/std/stream.c: lisp_stream"]}
{"id": "C60", "title": "Printing functions", "statement": "`prin`, `prinl`, `print` and `printl` evaluate each argument once, in order, and write each value to the current output channel as soon as it is known, in symbolic or literal form, with a single space between (and only between) the values for `print` and `printl`, and a final newline for `prinl` and `printl`; they return the last value, or NIL.", "quantifier": "all argument lists whose values the printer handles (C23, C25)", "why_tests_cant": "interleaving of evaluation and output, unbounded arguments", "anchors": ["lib/mnml/io/prin.c", "lib/mnml/io/prinl.c", "lib/mnml/io/print.c", "lib/mnml/io/printl.c"]}
{"id": "C61", "title": "`eval` and `chr`", "statement": "`(eval e)` evaluates e and then evaluates its value in the same scope; `(chr n)` is the character with the code n modulo 256.", "quantifier": "all expressions and numbers", "why_tests_cant": "unbounded inputs", "anchors": ["lib/mnml/std/eval.c", "lib/mnml/std/chr.c"]}
{"id": "C62", "title": "`match` selects by structure", "statement": "`(match e (t1 . x1) ...)` evaluates e once in the scope of the call and evaluates the xi of the first clause whose template the value is an instance of, and nothing else; NIL when no clause applies.", "quantifier": "all subjects, clause lists, scopes and states", "why_tests_cant": "unbounded templates and clause lists; the scope used for the subject only shows for particular names", "anchors": ["lib/mnml/std/match.c: lisp_match, lisp_function_match", "docs/manual/Reference.md: MATCH"]}
{"id": "C63", "title": "A function means the same under every name", "statement": "Calling a function through another name bound to the same value (a parameter, a `let` name, an argument of `map`) gives the value and the effects of calling it by the name it was defined with.", "quantifier": "all functions, names, arguments, scopes and states", "why_tests_cant": "quantifies over all functions and all ways of passing them; the self-call marking only shows for particular functions under other names", "anchors": ["lib/core/eval.c: lisp_eval_func", "lib/core/utils.c: lisp_mark_tail_calls", "share/mnml/last.l"]}
{"id": "C64", "title": "Sorting", "statement": "`(isort less l)` returns the elements of l, each as often as in l, in the order of `less`, elements that `less` does not separate staying in their order, for every comparator that is a strict weak order; `insert` puts an element at its place in a sorted list; `strlt` is dictionary order.", "quantifier": "all lists, all strict weak orders given by any function, all calling scopes", "why_tests_cant": "needs all lists and comparators; stability and multiplicity", "anchors": ["share/mnml/isort.l", "share/mnml/insert.l", "share/mnml/strlt.l"]}
{"id": "C65", "title": "Numbers and numerals", "statement": "`aton` is the number written by a sequence of digits; `(ntoa n)` is the numeral of n without leading zeros; `(aton (ntoa n))` is n.", "quantifier": "all 64-bit numbers, all digit sequences whose number fits, all calling scopes", "why_tests_cant": "2^64 numbers", "anchors": ["share/mnml/aton.l", "share/mnml/ntoa.l"]}
{"id": "C66", "title": "Reference counting does not change the answers", "statement": "Expressions evaluated on the reference-counted heap, whose cells are shared, updated in place, cached and freed, give the values, the output and the global state that the language prescribes for the expressions as values; references held elsewhere keep reading the same value.", "quantifier": "all sessions from program start; all expressions, scopes, heaps that represent a state, and budgets", "why_tests_cant": "all programs and all heap layouts; aliasing only shows for particular combinations of sharing and mutation", "anchors": ["lib/core/eval.c", "lib/core/lisp.c", "lib/core/tree.c", "lib/core/utils.c", "include/mnml/lisp.h", "lib/mnml/std", "lib/mnml/logic", "lib/mnml/math", "lib/mnml/io", "bin/mnml.c:320-360"]}
{"id": "C67", "title": "Sharing is not observable", "statement": "Two heaps that represent the same state with different cells, sharing, counts and caches give, for the same expression in the same scope, equal values, equal output and equal global states.", "quantifier": "all pairs of heaps representing a common state, all expressions and scopes", "why_tests_cant": "quantifies over pairs of heap layouts", "anchors": ["lib/core/eval.c", "lib/core/lisp.c", "lib/core/tree.c", "lib/core/utils.c", "include/mnml/lisp.h"]}
{"id": "C68", "title": "File names given to load", "statement": "A name given to `load` or on the command line stands for: the library directory if its first component is `@lib`, the home directory if it is `~`, itself if absolute, and otherwise a file relative to the directory of the script being read; the file opened is the one at that place (or the new one in that directory).", "quantifier": "all names, all environments, all file systems (as a function of realpath), scripts nested to any depth", "why_tests_cant": "all names and file systems; prefixes and escapes only show for particular names", "anchors": ["lib/core/utils.c:580-640", "lib/core/utils.c:642-710", "include/mnml/utils.h:135-149"]}
{"id": "C69", "title": "No file name or environment faults", "statement": "Whatever file name, module name, environment and working directory: loading stores only inside its buffers and never passes a null pointer to the C library.", "quantifier": "all names, environments and file systems", "why_tests_cant": "the faulty cases are corner cases of lengths, missing files and missing variables", "anchors": ["lib/core/utils.c:580-710", "lib/core/module.c:26-86", "bin/mnml.c:319-388"]}
{"id": "C70", "title": "Loading a module", "statement": "`(load '(m n1 n2 ...))` binds exactly the named entries that module m provides, to the values of the module, taken from the first directory of the search path that has it, and returns their names in order; `(load 'm)` binds all; nothing else changes; a module found nowhere gives NIL; loading again uses the same module.", "quantifier": "all search paths, directories, modules, requests, and states reached by any session", "why_tests_cant": "all requests and search paths, histories of earlier loads", "anchors": ["lib/core/module.c:92-511", "lib/mnml/std/load.c:8-84"]}
{"id": "C71", "title": "A script is its expressions in order", "statement": "Loading a file reads its text as a sequence of expressions and evaluates each at top level in order, in the state left by the previous one, with the file's directory current; the result is the value of the last expression; `(load a1 ... an)` evaluates and loads its arguments from left to right and returns the result for the last; a file that does not exist gives NIL and changes nothing.", "quantifier": "all texts, states, file systems, nesting of loads to any depth", "why_tests_cant": "all texts and nestings of files", "anchors": ["lib/core/utils.c:642-710", "lib/core/read.c", "lib/mnml/std/load.c:8-73", "bin/mnml.c:379-383"]}
{"id": "C72", "title": "Loading leaves the channels as they were", "statement": "When a top-level expression returns, whatever it loaded, the current input and output channels and the current directory are those from before, earlier output and bindings are still there, and the modules loaded remain loaded.", "quantifier": "all expressions, states, file systems, nestings of loads", "why_tests_cant": "all programs", "anchors": ["lib/core/utils.c:642-710", "include/mnml/utils.h:135-149", "lib/core/module.c:346-406"]}
{"id": "C73", "title": "quit stops the program", "statement": "After `(quit)` no further expression is evaluated: with -e, interactively, and in a script.", "quantifier": "all programs, positions of the call", "why_tests_cant": "all programs", "anchors": ["lib/mnml/std/quit.c:7-14", "bin/mnml.c:15-51", "bin/mnml.c:338-388", "lib/core/utils.c:698-702"]}
{"id": "C74", "title": "Option -e evaluates every expression", "statement": "`mnml -e text` evaluates every expression of the text in order until told to quit; the result is the value of the last one evaluated.", "quantifier": "all texts, states", "why_tests_cant": "all texts", "anchors": ["bin/mnml.c:338-379", "lib/core/utils.c"]}
{"id": "C75", "title": "Interactive use", "statement": "The interactive loop prompts when it needs a line, evaluates the expressions of the line in order, and writes the literal form of each value on its own line, until the end of the input or until told to quit; an orderly end has the status of success.", "quantifier": "all inputs and states", "why_tests_cant": "all inputs", "anchors": ["bin/mnml.c:33-78", "bin/mnml.c:331-337", "bin/mnml.c:384-388"]}
{"id": "C76", "title": "ARGV and ENV are the arguments and the environment", "statement": "At start ARGV is the list of the command-line arguments as strings, and ENV the list of pairs of name and value of every environment variable.", "quantifier": "all argument lists and environments", "why_tests_cant": "all texts; escapes and empty values", "anchors": ["bin/mnml.c:106-128", "bin/mnml.c:186-215"]}
{"id": "C77", "title": "readline gives the lines of the input", "statement": "Successive calls of `readline` give the lines of the input in order, each as the string of its bytes without the newline, and the symbol EOF once the input is used up; no byte is skipped or read twice.", "quantifier": "all texts, any number of calls", "why_tests_cant": "all texts; the last line and escapes are corner cases", "anchors": ["lib/mnml/io/readline.c:7-33"]}
{"id": "C78", "title": "Sockets do not leak", "statement": "`connect` and `listen`, whatever system call fails, give back every descriptor and address list they obtained and do not return; they return a descriptor exactly when every call succeeded, namely the socket made, set up and connected (bound and listening) as asked; `accept` returns the accepted descriptor with the peer's address and port; no address text faults.", "quantifier": "all texts and ports, all answers of the operating system", "why_tests_cant": "tests cannot make each system call fail in turn", "anchors": ["lib/mnml/unix/connect.c:16-91", "lib/mnml/unix/listen.c:15-79", "lib/mnml/unix/accept.c:9-62"]}
{"id": "C79", "title": "close closes its operands and nothing else", "statement": "`(close e1 ... en)` evaluates the operands from left to right and closes the descriptor each gives, also after a failure; T when all were closed, NIL otherwise; an operand that is not a descriptor closes nothing.", "quantifier": "all operand lists, evaluators and answers of the operating system", "why_tests_cant": "tests cannot make system calls fail; closing the standard input shows only later", "anchors": ["lib/mnml/unix/close.c:6-29"]}
{"id": "C80", "title": "pipe, dup, fork and wait report what happened", "statement": "Each makes one system call on its operands and returns what it gives; a failure can be told from a success.", "quantifier": "all operands and answers of the operating system", "why_tests_cant": "quantifies over answers of the operating system", "anchors": ["lib/mnml/unix/pipe.c:7-17", "lib/mnml/unix/dup.c:8-33", "lib/mnml/unix/fork.c:7-12", "lib/mnml/unix/wait.c:7-28"]}
{"id": "C81", "title": "exec passes arguments and environment on", "statement": "`(exec path args env)` starts the program at path with path and the strings of args for arguments and the strings of env for environment; nothing is cut or dropped, nothing is stored out of bounds, and it does not return.", "quantifier": "all texts and lists of texts", "why_tests_cant": "all lengths; a dropped argument shows only in the started program", "anchors": ["lib/mnml/unix/exec.c:17-69"]}
{"id": "C82", "title": "select serves the descriptors given", "statement": "`(select fds on_read on_error)` waits for exactly the descriptors of fds; on_read is called on each readable one and on_error on each failed one, in order; a callback returning NIL closes and removes its descriptor, another descriptor is added; the resulting lists are returned.", "quantifier": "all lists of descriptors, callbacks and answers of the operating system", "why_tests_cant": "readiness depends on the outside", "anchors": ["lib/mnml/unix/select.c:8-153", "share/mnml/http.l:129"]}
{"id": "C83", "title": "unlink removes the file named", "statement": "`(unlink name)` asks once for the removal of exactly the file named and returns T exactly when it was removed; no name faults.", "quantifier": "all names and answers of the operating system", "why_tests_cant": "all name lengths", "anchors": ["lib/mnml/unix/unlink.c:7-26"]}
{"id": "C84", "title": "Builtins receive their own arguments", "statement": "In a call of a builtin, the parameters its C code takes from the closure are the operands of the call in the declared form (evaluated, or the list of operands as it is), in order, and what remains is the scope of the caller.", "quantifier": "all builtins, operands, evaluators, scopes and states", "why_tests_cant": "all builtins at all calls; the wrong argument shows only for particular values", "anchors": ["include/mnml/module.h:36-181", "lib/mnml", "lib/core/eval.c:100-139"]}
{"id": "C85", "title": "iter and iter2 visit every element in order", "statement": "`(iter f l)` calls f on each element of l from the first to the last and returns the last answer, NIL for the empty list; `(iter2 f l m)` does so with the pairs of the two lists, up to the end of the shorter.", "quantifier": "all functions with any effects on the state, all lists, scopes and states", "why_tests_cant": "all lists and all functions", "anchors": ["share/mnml/iter.l:3-11", "share/mnml/iter2.l:3-15"]}
{"id": "C86", "title": "trim removes blanks at the ends", "statement": "`whitespace?` is true exactly of space, tab, line feed and carriage return; `triml`, `trimr` and `trim` return the string without the blanks at its beginning, its end, or both, and return for every string.", "quantifier": "all strings, scopes and states", "why_tests_cant": "all strings; a call that does not return cannot be told from a slow one", "anchors": ["share/mnml/trim.l:7-26", "lib/mnml/logic/or.c:6-48", "lib/mnml/std/stream.c:6-37"]}
{"id": "C87", "title": "join, merge, dedup and args:skip", "statement": "`join` puts the separator between the strings of a list; `merge` inserts each element of the first list into the second with the function given, then calls the other function on the result once; `dedup` goes from the right and does what the comparator says at each element; `args:skip` drops that many elements.", "quantifier": "all lists, separators, functions with any effects, scopes and states", "why_tests_cant": "all lists and all functions", "anchors": ["share/mnml/join.l:7-9", "share/mnml/merge.l:3-5", "share/mnml/dedup.l:9-19", "share/mnml/args.l"]}
{"id": "C88", "title": "A library file loads what it uses", "statement": "After `(load \"@lib/f.l\")` in a new session, for each file of the library, every name its functions use is bound, and the functions are the same as in a session where all files are loaded.", "quantifier": "all 31 files of share/mnml; all functions they define; all names these use", "why_tests_cant": "tests run with everything loaded; a missing name shows only where nothing else has loaded it", "anchors": ["share/mnml/isort.l:1-4", "share/mnml/iter2.l:1", "share/mnml/http.l", "share/mnml/cc.l", "share/mnml", "lib/mnml/std/load.c", "lib/core/module.c"]}
{"id": "C89", "title": "What a command line asks for", "statement": "Options come first, alone or grouped in a word, `-e` with its text in the same word or the next; the last `-e` counts. A file named after the options is run, else the text of `-e`, else a dialogue; `-b` starts with no name bound. The exit status is zero exactly when the last value is not NIL and, with `-d`, every cell was given back. `-h` and `-v` evaluate nothing and exit with zero; an unknown option, or `-e` with no text, evaluates nothing and exits with a status other than zero.", "quantifier": "all argument lists, environments, files, expressions and inputs", "why_tests_cant": "argument lists are unbounded and options combine", "anchors": ["bin/mnml.c:237-282", "bin/mnml.c:322-383", "bin/mnml.c:385-407"]}
{"id": "C90", "title": "Assertions of the test framework", "statement": "`(assert:equal v x)` evaluates x where it is written and returns T if its value is equal to v; otherwise it returns NIL after writing the two values as literals. `(assert:predicate p x)` does so with the answer of p on the value of x.", "quantifier": "all expected values, predicates, expressions with any effects, scopes and states", "why_tests_cant": "an assertion that passes when it should not hides every bug it was written for; expressions and scopes are unbounded", "anchors": ["share/mnml/test.l:65-78", "share/mnml/test.l:80-93", "share/mnml/term.l:12-21"]}
{"id": "C91", "title": "A suite passes exactly if every test does", "statement": "`(test:run name (n . x) ...)` without program arguments writes the name, evaluates the test expressions in order, each exactly once, whatever the earlier ones give, writes a line with the padded name and the outcome after each, and returns T exactly if every test gave T. Other arguments do not run the tests.", "quantifier": "all suite names, all lists of tests with any effects, all scopes and states", "why_tests_cant": "all lists of tests; a suite that returns T although a test was not run is seen by no test", "anchors": ["share/mnml/test.l:30-59", "share/mnml/args.l", "share/mnml/iterators.l", "share/mnml/manips.l"]}
{"id": "C92", "title": "Escapes and padding for the terminal", "statement": "`term:esc` and the functions named after the styles return the text between the escape sequence of the style and the reset sequence. `term:left` and `term:right` return exactly the width asked for: the text with spaces after or before it, or its beginning or end when it is longer.", "quantifier": "all texts, codes, styles and widths; all scopes and states", "why_tests_cant": "all texts and widths", "anchors": ["share/mnml/term.l:12-21", "share/mnml/term.l:26-53", "share/mnml/term.l:58-70"]}
{"id": "C93", "title": "Command lines", "statement": "`(args:parse schema)` goes through the arguments of the program: every flag has its handler called, in order, on as many of the following arguments as the handler has parameters, and the value is the list of the flags handled, the last one first. At a flag that the schema does not have, or that has too few arguments after it, a message is written and the value tells that it failed.", "quantifier": "all schemas, all argument lists, all handlers, all scopes and states", "why_tests_cant": "tests try a few command lines; the loop is over arbitrary lists and runs arbitrary functions", "anchors": ["share/mnml/args.l:14-37"]}
{"id": "C94", "title": "Expressions and lines of the input", "statement": "Successive calls of `read` return the expressions of the program's standard input in order, each once, and then tell that the input has ended; `readline` goes on right after what was read. Values that `print` wrote one on each line are read back.", "quantifier": "all input texts, all sequences of calls, in scripts and outside", "why_tests_cant": "inputs and sequences of calls are unbounded; the reader keeps values across calls and the streams form a stack", "anchors": ["lib/mnml/io/read.c:5-10", "lib/mnml/io/readline.c:7-33", "lib/core/read.c:37-78", "lib/core/utils.c:685-710", "include/mnml/utils.h:135-149"]}
{"id": "C95", "title": "Memory is used again unnoticed", "statement": "A cell that was given back is handed out again, and a session does not notice: with the 64 MB of cells it returns the same result, globals, output and channels as with a new cell for every allocation, or stops when every cell is in use. It never touches a cell that is free, and at its end the cells in use are those that the result, the globals and the channels refer to, directly or not.", "quantifier": "all programs (loops and recursion included), all memory sizes reached, all free lists", "why_tests_cant": "a cell freed too early does its damage only after it was handed out again, in another place; tests seldom reuse memory in that pattern", "anchors": ["lib/core/slab.c:79-168", "lib/core/lisp.c:44-70", "include/mnml/utils.h", "lib/core/eval.c"]}
{"id": "C96", "title": "Reading into memory", "statement": "Reading a text of complete expressions makes cells that hold exactly those expressions, and gives them out in the order of the text, each with one reference; reading leaves every other list as it was and forgets no cell. Whatever the text, no freed cell is touched.", "quantifier": "all texts, well formed or not, in all heaps; all expressions evaluated while reading; all sequences of reads on a channel", "why_tests_cant": "a reference too many or too few in a parser action shows only when memory runs out or is handed out again; a list altered while reading is seen in another place", "anchors": ["lib/grammar/parser.y:26-123", "lib/grammar/lexer.rl:22-164", "lib/core/read.c:12-35", "lib/core/lisp.c:76-85", "lib/core/utils.c:306-351"]}
{"id": "C97", "title": "The globals in memory", "statement": "After any history of definitions, updates and lookups of globals, the cells of the tree hold exactly the last value of every name, in order; every count is the number of references, with the parent links of all nodes but the root not counted; a lookup gives the binding with one more reference, and a new NIL for an unknown name; what other cells hold is not altered. When the tree is dropped, all of its cells are given back, and of the values all that nothing else refers to.", "quantifier": "all histories, all names, all values (shared and cyclic ones too), all heaps that hold anything else", "why_tests_cant": "a parent link counted once too often or too seldom during one of the rotations shows only when the tree is dropped or a node is freed under the reader; the shapes are unbounded", "anchors": ["lib/core/tree.c:8-61", "lib/core/tree.c:63-196", "lib/core/tree.c:198-362", "lib/core/tree.c:364-457", "include/mnml/tree.h", "lib/core/lisp.c:212-226"]}
{"id": "C98", "title": "The count of cells in use", "statement": "(slabinfo) returns a pair of numbers whose difference is the number of cells in use when it was called (so that two calls tell whether something was forgotten in between); it makes three cells and alters no other, and stops the program only if fewer than three are left. At the end of a session that uses neither <- nor def on something else than a name and leaves no cycle, the difference is the number of cells that the result, the globals and the channels refer to, directly or not.", "quantifier": "all histories of the allocator, all contents of the cells, counters beyond 2^63 (then modulo 2^64); all sessions as restricted", "why_tests_cant": "the leak check of the project's own tests trusts this number; a counter that misses one path of the allocator is wrong only in histories that take it", "anchors": ["lib/mnml/sys/slabinfo.c:7-13", "lib/core/slab.c:79-168", "include/mnml/slab.h:11-18", "share/mnml/test.l:61-63"]}
{"id": "C99", "title": "Arguments and placeholders of the compiler", "statement": "In the compiler of the library, the placeholder made for a number (cps:symbol) refers back to that number, and the name of an argument to its place in the list of arguments (cc:ref:idx); cc:arg:idx gives the place of the first element that is the same, NIL if there is none; cc:replace exchanges the last element of a call and cc:arg:get leaves it out. None of them has an effect.", "quantifier": "all lists, all numbers and names, all scopes that leave the names of the library alone", "why_tests_cant": "the generated code reads the closure at these places: a wrong one compiles and reads another variable; names and lists are unbounded", "anchors": ["share/mnml/cps.l:15-17", "share/mnml/cc.l:50-72"]}
{"id": "C100", "title": "Types marked in the compiler", "statement": "When the compiler marks a name with a type (cps:type:mark), the type goes in front of those the name has and the other names keep theirs; so after any marks each name has exactly the types it was marked with, the last one first. What is not a name is not marked. cps:replace puts the next continuation in the place of the last argument, if there is one. None of them has an effect.", "quantifier": "all names, types, lists of marks, association lists of types, lists of arguments, scopes that leave the names of the library alone", "why_tests_cant": "the inferred types depend on the whole history of marks, which is unbounded; a lost or misplaced mark shows only in the generated C code", "anchors": ["share/mnml/cps.l:169-192"]}
{"id": "C101", "title": "Types taken together in the compiler", "statement": "The types a name was marked with, taken together (cps:type:fold1), give NIL if there are none, the type if all marks agree, and ERROR if two of them differ. Marks that leave the type open (UNDEF) do not matter as long as there is another one, in whatever order they were made. cps:type:fold does this for each name of an association list.", "quantifier": "all lists of types, all scopes that leave the names of the library alone", "why_tests_cant": "the marks of a name depend on the whole function compiled and are unbounded; a conflict that is missed, or reported where there is none, depends on their order", "anchors": ["share/mnml/cps.l:359-373", "share/mnml/cps.l:225-240"]}
{"id": "C102", "title": "The type of an operand in the compiler", "statement": "The type the compiler gives an operand (cps:type:get) is NUMBER for a number, STRING for a text that is not empty, what its marks give together for a name that was marked, and ATOM for everything else; it has no effect. After any marks, a name thus has the type on which its marks agree.", "quantifier": "all values, all lists of marks, all association lists of types, all scopes that leave the names of the library alone", "why_tests_cant": "values and histories of marks are unbounded; the clauses overlap (NIL is a list and a text), so the result depends on their order", "anchors": ["share/mnml/cps.l:175-183", "share/mnml/orelse.l:3-5"]}
{"id": "C103", "title": "Counting references in the compiler", "statement": "Counting the references of a call (cps:getrefs) adds to the count of each name how often the call refers to it: its operands, and its head if that is an argument of the function. Uses of the continuation count zero, but give it an entry; names the call does not refer to keep their count or stay without one. It has no effect.", "quantifier": "all calls whose operands are not flagged as self calls and do not together have the shape of a function that calls params, all arguments, continuations and counts below 2^63, all scopes that leave the names of the library alone", "why_tests_cant": "the compiler decides from the counts when a value is given back; counts depend on all the operands, which are unbounded", "anchors": ["share/mnml/cps.l:113-126"]}
{"id": "C104", "title": "Placeholders of the CPS conversion", "statement": "Converting a function to continuation-passing style (>&) gives one in which every placeholder that is used is a parameter or bound by a lambda around it. Within a call each list among the elements is exchanged for a placeholder of its own (cps:swap), the other elements stay, the continuation comes last, and the counter moves on by the number of lists in the call at every depth.", "quantifier": "all functions; for the calls all elements made of proper lists, all continuations and counters below 2^63, all scopes that leave the names of the library alone", "why_tests_cant": "calls nest without bound and the numbers taken depend on everything to the right and inside; a placeholder without a binding shows only when the converted code runs", "anchors": ["share/mnml/cps.l:23-32", "share/mnml/cps.l:46-53", "share/mnml/cps.l:58-69", "share/mnml/cps.l:74-94", "share/mnml/cps.l:99-106"]}
