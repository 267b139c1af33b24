#!/usr/bin/env python3
"""Regenerates /verif/properties.jsonl (one JSON object per line)."""
import json, os
P = []
def p(title, statement, quantifier, why, anchors):
    P.append(dict(id="C%02d" % (len(P) + 1), title=title, statement=statement,
                  quantifier=quantifier, why_tests_cant=why, anchors=anchors))

# ---------------------------------------------------------------- slab
p("Allocation never hands out a cell that is in use",
  "After any history of cell allocations and releases (each release naming a cell currently in use), a further allocation returns a cell that no client holds, lies inside the memory committed for the slab, and is completely zeroed.",
  "all finite histories of allocate/release calls in which releases name cells in use",
  "the free list is threaded through freed cells in an arbitrary order and is rebuilt by growth; only an invariant over all histories excludes a double hand-out",
  ["lib/core/slab.c: slab_new, slab_allocate, slab_deallocate, slab_expand", "include/mnml/slab.h: CELL_COUNT"])
p("Slab accounting and capacity are exact",
  "At every point the allocation counter minus the release counter equals the number of cells in use, and cells in use plus cells on the free chain are exactly all committed cells, without repetition. The slab grows (doubling) only when every committed cell is in use, and the process is aborted for lack of memory exactly when 2097152 cells (64 MiB) are all in use.",
  "all finite histories of allocate/release calls",
  "capacity limits and leaks of free cells only show after millions of operations in particular orders",
  ["lib/core/slab.c: slab_expand, slab_allocate, slab_deallocate", "include/mnml/slab.h: SLAB_SIZE, PAGE_SIZE"])
# ---------------------------------------------------------------- refcounts
p("Dropping a reference never damages what others can still reach",
  "In any heap whose reference counts are correct, dropping one owned reference leaves every cell reachable from the remaining references allocated, with the same contents, and leaves all reference counts correct again; it never touches a freed cell.",
  "all heaps with correct counts, all owned references, all sharing patterns",
  "sharing patterns are unbounded; a use-after-free needs one specific aliasing pattern",
  ["include/mnml/lisp.h: X_0, UP, DOWN", "lib/core/lisp.c: lisp_deallocate"])
p("Dropping the last reference to acyclic data frees exactly that data",
  "Dropping a reference always terminates, and after dropping every reference held by the program in a heap without cycles no cell remains in use: nothing leaks.",
  "all acyclic heaps with correct reference counts",
  "leaks are invisible to result-checking tests and depend on the shape of the data",
  ["lib/core/lisp.c: lisp_deallocate", "include/mnml/lisp.h: X_0"])
p("List primitives are memory neutral",
  "Building atoms and pairs, taking heads and tails, shallow duplication, destructive concatenation, appending an element, destructuring binding, and sorted environment update/merge each consume exactly the references documented as consumed and return exactly one new reference: reference counts stay correct in any context.",
  "all heaps with correct counts, all argument values, all other references held by the program",
  "one missing or extra count is only visible as a leak or a crash much later",
  ["include/mnml/lisp.h: lisp_car, lisp_cdr, lisp_cons", "lib/core/lisp.c: lisp_conc, lisp_bind", "lib/core/utils.c: lisp_dup, lisp_append, lisp_sss, lisp_merge"])
p("Destructive concatenation produces a finite list",
  "`(conc a b)` returns a finite list consisting of the elements of `a` followed by `b`, whatever the arguments, and the variable holding `a` then shows the concatenation.",
  "all list arguments, including aliased ones such as (conc x x)",
  "the outcome depends on aliasing between arguments, which example-based tests never cover",
  ["lib/core/lisp.c: lisp_conc", "lib/mnml/std/conc.c: lisp_function_conc", "docs/manual/Reference.md: CONC"])
# ---------------------------------------------------------------- values
p("`=` is structural equality",
  "`(= a b)` holds exactly when a and b are structurally the same value; it is reflexive, symmetric and transitive, and it distinguishes a number from a character with the same code.",
  "all pairs of values",
  "values are unbounded trees",
  ["lib/core/utils.c: lisp_equ", "lib/mnml/logic/equ.c"])
p("`<>` is the exact negation of `=`",
  "For all values a and b, `(<> a b)` is true exactly when `(= a b)` is not.",
  "all pairs of values",
  "the two are separate recursive functions with different case splits",
  ["lib/core/utils.c: lisp_neq, lisp_equ", "lib/mnml/logic/neq.c"])
p("Destructuring binds every variable of a pattern to the matching part",
  "Binding a pattern to a value gives each variable of a pattern without repeated names the sub-value at the same position, or NIL when the value has no such position, binds nothing else, and never fails; existing bindings of other names are kept.",
  "all patterns and all values of any shape",
  "patterns and values are unbounded and may mismatch anywhere",
  ["lib/core/lisp.c: lisp_bind", "docs/notes/Deconstruction.md"])
p("Local scopes behave as a finite map",
  "Extending a local scope with a list of bindings gives a scope in which every bound name shows its last binding in the list and every other name is unchanged; a scope kept sorted stays sorted and free of duplicates; the scope that was extended is not altered.",
  "all scopes and all binding lists",
  "insertion position and overwriting interact over unbounded sequences",
  ["lib/core/utils.c: lisp_sss, lisp_merge, lisp_dup", "lib/core/lisp.c: lisp_lookup"])
p("A call is rejected exactly when it has too many values",
  "Applying a function with a fixed argument list of n entries to k values is accepted iff k <= n; an argument list ending in a catch-all symbol accepts any number of values.",
  "all argument lists and value lists",
  "unbounded lists and mixed fixed/catch-all forms",
  ["lib/core/utils.c: lisp_may_apply"])
p("Strings: escape processing",
  "Making a string from text keeps text without backslashes unchanged; `\\n` and `\\t` become newline and tab, any other escaped character stands for itself, and the result never contains more characters than the text.",
  "all character sequences",
  "escape state carries across characters of unbounded text",
  ["lib/core/lisp.c: lisp_make_string", "lib/core/utils.c: lisp_process_escapes"])
p("Converting a string to a C buffer stays inside the buffer",
  "Converting a string to a C string with a stated capacity writes only inside a buffer of that capacity, and yields the first characters of the string followed by a terminator.",
  "all strings and capacities",
  "an off-by-one write only shows at one exact length and may not crash",
  ["lib/core/utils.c: lisp_make_cstring, lisp_load_file", "lib/mnml/io/in.c", "lib/mnml/io/out.c", "lib/mnml/std/sym.c", "lib/mnml/std/load.c"])
p("Symbols are identified by their first 16 characters",
  "Two names denote the same symbol iff their first 16 bytes agree; symbol ordering is a strict total order compatible with that identity.",
  "all pairs of names of any length",
  "names are unbounded",
  ["include/mnml/lisp.h: MAKE_SYMBOL_STATIC, MAKE_SYMBOL_STATIC_N", "include/mnml/utils.h: lisp_symbol_match, lisp_symbol_compare"])
p("`str` and `sym` are mutually inverse on names",
  "Turning a symbol into a string and back gives the same symbol; turning a string of 1 to 16 non-zero characters into a symbol and back gives the same string.",
  "all symbols / strings within the length limit",
  "depends on every character that may occur in a name",
  ["lib/mnml/std/str.c", "lib/mnml/std/sym.c"])
p("Structural matching",
  "A template matches a value exactly when the value can be obtained from the template by replacing each wildcard with some value; the first matching clause is the one evaluated.",
  "all templates and values",
  "unbounded trees with wildcards anywhere",
  ["lib/mnml/std/match.c: atom_match, lisp_match"])
# ---------------------------------------------------------------- globals tree
p("Global definitions behave as a finite map",
  "After any sequence of global definitions (new names and redefinitions), looking up a name returns its latest definition, and NIL when it was never defined. Redefining one name never changes another.",
  "all sequences of definitions and all looked-up names",
  "the store is a self-rotating pointer tree; each insertion order is a different pointer graph",
  ["lib/core/tree.c: lisp_tree_add, lisp_tree_get, tree_add_node, tree_add_check, lisp_tree_lrot, lisp_tree_rrot", "lib/core/lisp.c: lisp_setq"])
p("Inserting a definition never dereferences an invalid node",
  "Any sequence of insertions into the globals tree completes: it never dereferences a node that is NIL or freed, the rebalancing loop terminates, parent links stay correct, keys stay in order and the root stays uncoloured.",
  "all sequences of insertions",
  "rotation cases reached depend on the whole insertion history",
  ["lib/core/tree.c: tree_add_check, lisp_tree_lrot, lisp_tree_rrot"])
p("The globals tree stays balanced",
  "After any sequence of insertions no coloured node has a coloured parent and the height is logarithmic in the number of names, so symbol lookup is logarithmic.",
  "all insertion sequences",
  "imbalance needs particular insertion orders and never changes results",
  ["lib/core/tree.c: tree_add_check"])
p("In-place update of a global",
  "Updating an existing global replaces only that name's value, keeps the identity of its binding and hands back the previous value; updating an unknown name changes nothing.",
  "all tree states and names",
  "depends on arbitrary tree shapes",
  ["lib/core/tree.c: lisp_tree_upd"])
p("Removing a key from the tree",
  "Removing a key yields a tree containing exactly the other bindings; removing an absent key leaves the tree unchanged.",
  "all trees and keys",
  "deletion fix-up has many pointer cases",
  ["lib/core/tree.c: lisp_tree_rem, tree_rem_check"])
p("The per-symbol lookup cache is never stale",
  "Resolving a symbol through the cached binding gives the same value as searching the globals, after any interleaving of definitions, redefinitions, in-place updates and lookups.",
  "all histories of global definitions, updates and lookups",
  "staleness needs a specific interleaving",
  ["lib/core/lisp.c: lisp_lookup", "include/mnml/types.h: struct atom.cache", "lib/core/tree.c: tree_add_node"])
# ---------------------------------------------------------------- printing
p("Literal printing is exact for values of any size",
  "Printing a value in literal form emits exactly the textual form of that value, regardless of its size and of how the 1024-byte staging buffer is flushed.",
  "all values",
  "errors occur only when a token straddles a buffer boundary",
  ["lib/core/print.c: lisp_write, lisp_prin_pair, lisp_prin_atom, lisp_prin"])
p("The print buffer is never overrun",
  "While printing any value, every write to the 1024-byte staging buffer stays inside it.",
  "all values, both printing modes",
  "an overrun needs a specific alignment of tokens with the buffer end",
  ["lib/core/print.c: lisp_write"])
p("Symbolic printing emits every non-NIL leaf",
  "`prin` of a value emits the concatenation of the texts of its leaves, NIL leaves contributing nothing.",
  "all values",
  "needs values with NIL inside lists at all positions relative to buffer flushes",
  ["lib/core/print.c: lisp_prin_atom (T_NIL case)"])
# ---------------------------------------------------------------- reader
p("Printing then reading gives the same value",
  "Reading back the literal form of a value yields that value, for every value whose characters are printable and whose symbols are readable names.",
  "all values in the readable subset",
  "unbounded nesting; token boundaries depend on neighbouring tokens",
  ["lib/core/print.c", "lib/grammar/lexer.rl", "lib/grammar/parser.y"])
p("Reading any integer literal",
  "Reading a decimal literal (optional minus sign) gives that integer when it fits in 64 bits and the nearest representable bound otherwise.",
  "all digit sequences",
  "literals are unbounded in length",
  ["lib/grammar/lexer.rl: tok_number"])
p("The reader consumes every byte and keeps tokens separate",
  "Tokenisation of any text is total and deterministic: it always takes the longest token, consumes at least one byte per step, and the concatenation of the texts of tokens and skipped material is the input.",
  "all byte sequences",
  "unbounded inputs",
  ["lib/grammar/lexer.rl: main scanner"])
# ---------------------------------------------------------------- evaluator
p("Evaluation is deterministic and has at most one result",
  "If evaluating an expression produces a result within some resource limit, every larger limit produces the same result and the same effects on globals and output.",
  "all expressions, scopes and global states",
  "quantifies over all programs",
  ["lib/core/eval.c: lisp_eval"])
p("Name resolution order",
  "A symbol evaluates to its innermost local binding when there is one, otherwise to its global value, otherwise to NIL; evaluating a symbol changes nothing.",
  "all scopes, global states and symbols",
  "all combinations of shadowing",
  ["lib/core/lisp.c: lisp_lookup", "lib/core/eval.c: lisp_eval"])
p("Too many arguments: NIL and no evaluation",
  "Calling a function with more values than arguments returns NIL without evaluating any of the values.",
  "all functions, calls and states",
  "needs arbitrary effects inside argument expressions",
  ["lib/core/eval.c: lisp_eval_func", "lib/core/utils.c: lisp_may_apply"])
p("Currying",
  "Supplying the arguments of a function in two successive calls gives the same result as supplying them all at once, at any split point, for user-defined functions.",
  "all functions with fixed argument lists, all split points, all argument values",
  "functions and splits are unbounded",
  ["lib/core/eval.c: lisp_eval_args, lisp_eval_func", "docs/manual/Language.md: Currying"])
p("Catch-all arguments receive their values unevaluated",
  "A function whose argument list is a single symbol receives the unevaluated list of argument expressions, of any length, and none of them is evaluated by the call; `quote` returns its argument expression unchanged.",
  "all functions and argument lists",
  "quantifies over all argument expressions, including ones with effects or that diverge",
  ["lib/core/eval.c: lisp_eval_args", "lib/mnml/std/quote.c"])
p("Conditionals evaluate exactly one branch",
  "`if`, `when`, `unless` evaluate the condition once and then only the selected branch, in the caller's scope; the unselected branch is never evaluated.",
  "all conditions, branches and states",
  "the unselected branch may be arbitrary, including diverging or crashing code",
  ["lib/mnml/std/if.c", "lib/mnml/std/when.c", "lib/mnml/std/unless.c"])
p("`let` binds sequentially and locally",
  "`let` evaluates its bindings in order, each seeing the previous ones, evaluates its body in the extended scope, and afterwards the enclosing scope is unchanged.",
  "all binding lists, bodies and scopes",
  "unbounded nesting and shadowing",
  ["lib/mnml/std/let.c: lisp_let_bind, lisp_let"])
p("In a binding list with a repeated name the last binding wins",
  "`(let ((a . 1) (a . 2)) a)` and a function with a repeated argument name see the last value bound.",
  "all binding lists with repeated names",
  "which binding wins depends on list orientation and merge order",
  ["lib/mnml/std/let.c", "lib/core/utils.c: lisp_merge", "lib/core/lisp.c: lisp_bind"])
p("Lexical capture",
  "A lambda evaluated in a scope sees, when called anywhere, its parameters first, then the bindings of its definition scope, then those of its call site, then globals.",
  "all definition scopes, call-site scopes and names",
  "quantifies over all nesting of scopes",
  ["lib/mnml/std/lambda.c", "lib/core/eval.c: lisp_eval_func", "docs/notes/Closures.md"])
p("Tail-call elimination is invisible",
  "Running a function whose self-calls in tail position are executed by the interpreter's loop gives the same result and effects as running it with ordinary recursive calls.",
  "all functions, arguments and states in which the function's name denotes the function",
  "needs all recursion depths and all bodies",
  ["lib/core/eval.c: lisp_eval_func (tail-call loop)", "lib/core/utils.c: lisp_mark_tail_calls, lisp_collect_tails"])
p("Only calls in tail position are eliminated",
  "The calls selected for tail-call elimination are in tail position: their value is the value of the whole body.",
  "all function bodies",
  "bodies are unbounded expressions",
  ["lib/core/utils.c: lisp_collect_tails, lisp_collect_tails_assoc"])
p("Defining a function always succeeds",
  "`def` with a symbol and an argument list defines the function for every body, including an empty body or a body consisting of a documentation string only, and `let` may bind any function value.",
  "all bodies and function values",
  "quantifies over all bodies",
  ["lib/mnml/std/def.c", "lib/mnml/std/let.c", "lib/core/utils.c: lisp_mark_tail_calls"])
p("`setq` associates the value with the symbol",
  "After `(setq s e)`, evaluating s in a scope that does not bind s locally gives the value of e, and all other globals are unchanged.",
  "all symbols, expressions and states",
  "quantifies over all values, NIL included",
  ["lib/mnml/std/setq.c", "lib/core/lisp.c: lisp_setq"])
p("`<-` updates the innermost binding and returns the previous value",
  "`(<- 's e)` replaces the value of the innermost existing binding of s (local, else global) and returns the previous value; other bindings are unchanged; when s is unbound nothing changes.",
  "all scopes, states and values",
  "local/global paths, sharing of captured scopes",
  ["lib/mnml/std/set.c", "lib/core/tree.c: lisp_tree_upd", "docs/manual/Reference.md: SET"])
p("Integer arithmetic and comparison",
  "On numbers, `+ - *` give the mathematical result whenever it fits in 64 bits, `/` truncates towards zero and `%` has the sign of the dividend for a non-zero divisor, comparisons agree with integer order; everything outside those conditions is the exact set of undefined cases.",
  "all pairs of 64-bit integers",
  "2^128 input pairs",
  ["include/mnml/module.h: BINARY_NUMBER_GEN, BINARY_COMPARE_GEN", "lib/mnml/math/*.c"])
p("Input/output redirection is properly nested",
  "`in` and `out` evaluate their body with the new channel and restore the previous channel stack afterwards, whatever the body does, so output is attributed to the right channel.",
  "all bodies, all nestings",
  "unbounded nesting",
  ["lib/mnml/io/in.c", "lib/mnml/io/out.c", "include/mnml/utils.h: PUSH_IO_CONTEXT, POP_IO_CONTEXT"])
p("Evaluation never corrupts memory",
  "Evaluating any expression in a heap with correct reference counts never touches a freed cell and leaves the counts correct; every reference the evaluation was given is consumed and exactly one result reference is produced.",
  "all expressions, scopes, heaps and sharing patterns",
  "needs all programs and all aliasing",
  ["lib/core/eval.c", "lib/core/lisp.c", "lib/mnml/std/*.c"])
p("Library list functions compute what they document",
  "`foldl`, `foldr`, `map`, `map2`, `zip`, `rev`, `append`, `$+`, `filter`, `has`, `last`, `assoc`, `erase`, `replc`, `rep`, `truncl`, `truncr`, `<|>` and the car/cdr chains of the bundled library, run by the interpreter, compute the corresponding mathematical list functions for lists of every length, calling the given function once per element in the order of the fold.",
  "all lists and all element values",
  "unbounded lists, recursion through the interpreter",
  ["share/mnml/iterators.l", "share/mnml/rev.l", "share/mnml/append.l", "share/mnml/filter.l", "share/mnml/manips.l", "share/mnml/last.l", "share/mnml/has.l", "share/mnml/erase.l", "share/mnml/replc.l", "share/mnml/truncr.l", "share/mnml/orelse.l"])
p("Recycled closures are large enough",
  "A closure obtained from the closure cache for N variables has room for N variables, whatever closures were returned to the cache before.",
  "all sequences of get/put with any sizes",
  "needs particular size sequences; overflow may be silent",
  ["lib/core/closure.c: lisp_closure_get, lisp_closure_put"])
p("Source text means what the grammar says",
  "A text made of literals, names, lists, dotted pairs, quoted forms, read-time evaluation (backtick) and splicing (tilde), with any blanks and comments, is read as the values the grammar prescribes, in order, with read-time evaluations performed from left to right.",
  "all texts of the grammar, all nestings, all behaviours of read-time evaluation",
  "unbounded texts and nesting",
  ["lib/grammar/parser.y", "lib/grammar/lexer.rl"])
p("Reading a file line by line does not change its meaning",
  "`lisp_read` on a stream returns the first form even when it is spread over several lines, returns the other forms of the same line on the next calls in order, and leaves the rest of the stream unread, whatever the lengths of the lines.",
  "all streams, all line lengths",
  "needs forms at every position relative to the 1024-byte buffer",
  ["lib/core/read.c: lisp_read", "lib/grammar/lexer.rl: lexer_parse"])
p("Reading ends",
  "`lisp_read` on a finite stream returns after finitely many turns (a value, end of file or an error).",
  "all finite streams",
  "non-termination cannot be observed by a test",
  ["lib/core/read.c: lisp_read"])
p("Quoting a number",
  "Reading a quote followed by a decimal literal gives the quoted number.",
  "all decimal literals",
  "unbounded literals; depends on rule precedence",
  ["lib/grammar/lexer.rl: scanner rules", "lib/grammar/parser.y: prefix"])
p("An identifier is one symbol",
  "Reading an identifier (letters, digits and marks, not a number or a special word) gives one symbol with that name.",
  "all identifiers",
  "unbounded names",
  ["lib/grammar/lexer.rl: symbol"])

# ---------------------------------------------------------------- builtins
p("Type predicates",
  "`nil?`, `tru?`, `chr?`, `num?`, `sym?`, `lst?`, `atm?`, `str?` and `not` evaluate their argument once and answer T exactly on the values of the named kind (a string is a NIL-ended list of characters, a list is NIL or a pair), NIL otherwise.",
  "all argument expressions, scopes and states in which the names denote the builtins",
  "infinitely many values, side effects of the argument",
  ["lib/mnml/std/isnil.c", "lib/mnml/std/isstr.c", "lib/mnml/std/islst.c", "lib/core/utils.c: lisp_is_string"])
p("Pairs: construction, selection, length",
  "`cons` evaluates its arguments left to right and pairs them; `car` and `cdr` give back the parts (NIL for what is not a pair), so `(car (cons a b))` is `a` and `(cdr (cons a b))` is `b` with both evaluated; `len` is the number of pairs on the spine of a list and NIL for what is not a list.",
  "all argument expressions, scopes and states",
  "algebraic laws over all values",
  ["lib/mnml/std/cons.c", "lib/mnml/std/car.c", "lib/mnml/std/cdr.c", "lib/mnml/std/len.c", "lib/core/utils.c: lisp_len"])
p("Logical connectives",
  "`and` evaluates both arguments and answers T when neither is NIL; `or` evaluates its second argument only when the first is NIL; both answer T or NIL.",
  "all argument expressions, scopes and states",
  "evaluation count is only visible through side effects of arbitrary arguments",
  ["lib/mnml/logic/and.c", "lib/mnml/logic/or.c"])
p("`list` collects the values in the order written",
  "`(list e1 ... en)` evaluates each expression exactly once, from the last to the first, and returns the values in the order written.",
  "all numbers of arguments, all expressions",
  "unbounded number of arguments",
  ["lib/mnml/std/list.c: lisp_list"])
p("`cond` selects by predicate",
  "`(cond e (p1 . x1) ...)` evaluates e once, evaluates the xi of the first clause whose predicate answers T on that value (or is `_`), and nothing of the other right-hand sides; NIL when no clause applies.",
  "all subjects, clause lists, scopes and states",
  "unbounded clause lists; evaluation count is only visible through side effects",
  ["lib/mnml/std/cond.c: lisp_cond", "docs/manual/Reference.md: COND"])
p("Loops and sequences",
  "`(while c . body)` evaluates c before every turn, runs the body in order as long as c is not NIL, and returns the value of the last turn (NIL if there was none); `prog` evaluates its expressions in order and returns the last value.",
  "all conditions and bodies, any number of turns",
  "unbounded iteration",
  ["lib/mnml/std/while.c: lisp_function_while", "lib/mnml/std/prog.c", "lib/core/lisp.c: lisp_prog"])
p("Fluent composition",
  "`(|> x f1 ... fn)` evaluates x once and passes each value, unevaluated again, to the next stage; the value is that of the last stage.",
  "all pipelines",
  "unbounded pipelines; a double evaluation is only visible for values that are themselves expressions",
  ["lib/mnml/std/stream.c: lisp_stream"])
p("Printing functions",
  "`prin`, `prinl`, `print` and `printl` evaluate each argument once, in order, and write each value to the current output channel as soon as it is known, in symbolic or literal form, with a single space between (and only between) the values for `print` and `printl`, and a final newline for `prinl` and `printl`; they return the last value, or NIL.",
  "all argument lists whose values the printer handles (C23, C25)",
  "interleaving of evaluation and output, unbounded arguments",
  ["lib/mnml/io/prin.c", "lib/mnml/io/prinl.c", "lib/mnml/io/print.c", "lib/mnml/io/printl.c"])
p("`eval` and `chr`",
  "`(eval e)` evaluates e and then evaluates its value in the same scope; `(chr n)` is the character with the code n modulo 256.",
  "all expressions and numbers",
  "unbounded inputs",
  ["lib/mnml/std/eval.c", "lib/mnml/std/chr.c"])
p("`match` selects by structure",
  "`(match e (t1 . x1) ...)` evaluates e once in the scope of the call and evaluates the xi of the first clause whose template the value is an instance of, and nothing else; NIL when no clause applies.",
  "all subjects, clause lists, scopes and states",
  "unbounded templates and clause lists; the scope used for the subject only shows for particular names",
  ["lib/mnml/std/match.c: lisp_match, lisp_function_match", "docs/manual/Reference.md: MATCH"])

# ---------------------------------------------------------------- library
p("A function means the same under every name",
  "Calling a function through another name bound to the same value (a parameter, a `let` name, an argument of `map`) gives the value and the effects of calling it by the name it was defined with.",
  "all functions, names, arguments, scopes and states",
  "quantifies over all functions and all ways of passing them; the self-call marking only shows for particular functions under other names",
  ["lib/core/eval.c: lisp_eval_func", "lib/core/utils.c: lisp_mark_tail_calls", "share/mnml/last.l"])
p("Sorting",
  "`(isort less l)` returns the elements of l, each as often as in l, in the order of `less`, elements that `less` does not separate staying in their order, for every comparator that is a strict weak order; `insert` puts an element at its place in a sorted list; `strlt` is dictionary order.",
  "all lists, all strict weak orders given by any function, all calling scopes",
  "needs all lists and comparators; stability and multiplicity",
  ["share/mnml/isort.l", "share/mnml/insert.l", "share/mnml/strlt.l"])
p("Numbers and numerals",
  "`aton` is the number written by a sequence of digits; `(ntoa n)` is the numeral of n without leading zeros; `(aton (ntoa n))` is n.",
  "all 64-bit numbers, all digit sequences whose number fits, all calling scopes",
  "2^64 numbers",
  ["share/mnml/aton.l", "share/mnml/ntoa.l"])

# ---------------------------------------------------------------- heap against values
p("Reference counting does not change the answers",
  "Expressions evaluated on the reference-counted heap, whose cells are shared, updated in place, cached and freed, give the values, the output and the global state that the language prescribes for the expressions as values; references held elsewhere keep reading the same value.",
  "all sessions from program start; all expressions, scopes, heaps that represent a state, and budgets",
  "all programs and all heap layouts; aliasing only shows for particular combinations of sharing and mutation",
  ["lib/core/eval.c", "lib/core/lisp.c", "lib/core/tree.c", "lib/core/utils.c", "include/mnml/lisp.h", "lib/mnml/std", "lib/mnml/logic", "lib/mnml/math", "lib/mnml/io", "bin/mnml.c:320-360"])
p("Sharing is not observable",
  "Two heaps that represent the same state with different cells, sharing, counts and caches give, for the same expression in the same scope, equal values, equal output and equal global states.",
  "all pairs of heaps representing a common state, all expressions and scopes",
  "quantifies over pairs of heap layouts",
  ["lib/core/eval.c", "lib/core/lisp.c", "lib/core/tree.c", "lib/core/utils.c", "include/mnml/lisp.h"])

# ---------------------------------------------------------------- host: files, modules, scripts, main program
p("File names given to load",
  "A name given to `load` or on the command line stands for: the library directory if its first component is `@lib`, the home directory if it is `~`, itself if absolute, and otherwise a file relative to the directory of the script being read; the file opened is the one at that place (or the new one in that directory).",
  "all names, all environments, all file systems (as a function of realpath), scripts nested to any depth",
  "all names and file systems; prefixes and escapes only show for particular names",
  ["lib/core/utils.c:580-640", "lib/core/utils.c:642-710", "include/mnml/utils.h:135-149"])
p("No file name or environment faults",
  "Whatever file name, module name, environment and working directory: loading stores only inside its buffers and never passes a null pointer to the C library.",
  "all names, environments and file systems",
  "the faulty cases are corner cases of lengths, missing files and missing variables",
  ["lib/core/utils.c:580-710", "lib/core/module.c:26-86", "bin/mnml.c:319-388"])
p("Loading a module",
  "`(load '(m n1 n2 ...))` binds exactly the named entries that module m provides, to the values of the module, taken from the first directory of the search path that has it, and returns their names in order; `(load 'm)` binds all; nothing else changes; a module found nowhere gives NIL; loading again uses the same module.",
  "all search paths, directories, modules, requests, and states reached by any session",
  "all requests and search paths, histories of earlier loads",
  ["lib/core/module.c:92-511", "lib/mnml/std/load.c:8-84"])
p("A script is its expressions in order",
  "Loading a file reads its text as a sequence of expressions and evaluates each at top level in order, in the state left by the previous one, with the file's directory current; the result is the value of the last expression; `(load a1 ... an)` evaluates and loads its arguments from left to right and returns the result for the last; a file that does not exist gives NIL and changes nothing.",
  "all texts, states, file systems, nesting of loads to any depth",
  "all texts and nestings of files",
  ["lib/core/utils.c:642-710", "lib/core/read.c", "lib/mnml/std/load.c:8-73", "bin/mnml.c:379-383"])
p("Loading leaves the channels as they were",
  "When a top-level expression returns, whatever it loaded, the current input and output channels and the current directory are those from before, earlier output and bindings are still there, and the modules loaded remain loaded.",
  "all expressions, states, file systems, nestings of loads",
  "all programs",
  ["lib/core/utils.c:642-710", "include/mnml/utils.h:135-149", "lib/core/module.c:346-406"])
p("quit stops the program",
  "After `(quit)` no further expression is evaluated: with -e, interactively, and in a script.",
  "all programs, positions of the call",
  "all programs",
  ["lib/mnml/std/quit.c:7-14", "bin/mnml.c:15-51", "bin/mnml.c:338-388", "lib/core/utils.c:698-702"])
p("Option -e evaluates every expression",
  "`mnml -e text` evaluates every expression of the text in order until told to quit; the result is the value of the last one evaluated.",
  "all texts, states",
  "all texts",
  ["bin/mnml.c:338-379", "lib/core/utils.c"])
p("Interactive use",
  "The interactive loop prompts when it needs a line, evaluates the expressions of the line in order, and writes the literal form of each value on its own line, until the end of the input or until told to quit; an orderly end has the status of success.",
  "all inputs and states",
  "all inputs",
  ["bin/mnml.c:33-78", "bin/mnml.c:331-337", "bin/mnml.c:384-388"])
p("ARGV and ENV are the arguments and the environment",
  "At start ARGV is the list of the command-line arguments as strings, and ENV the list of pairs of name and value of every environment variable.",
  "all argument lists and environments",
  "all texts; escapes and empty values",
  ["bin/mnml.c:106-128", "bin/mnml.c:186-215"])

# ---------------------------------------------------------------- operating system, arguments
p("readline gives the lines of the input",
  "Successive calls of `readline` give the lines of the input in order, each as the string of its bytes without the newline, and the symbol EOF once the input is used up; no byte is skipped or read twice.",
  "all texts, any number of calls",
  "all texts; the last line and escapes are corner cases",
  ["lib/mnml/io/readline.c:7-33"])
p("Sockets do not leak",
  "`connect` and `listen`, whatever system call fails, give back every descriptor and address list they obtained and do not return; they return a descriptor exactly when every call succeeded, namely the socket made, set up and connected (bound and listening) as asked; `accept` returns the accepted descriptor with the peer's address and port; no address text faults.",
  "all texts and ports, all answers of the operating system",
  "tests cannot make each system call fail in turn",
  ["lib/mnml/unix/connect.c:16-91", "lib/mnml/unix/listen.c:15-79", "lib/mnml/unix/accept.c:9-62"])
p("close closes its operands and nothing else",
  "`(close e1 ... en)` evaluates the operands from left to right and closes the descriptor each gives, also after a failure; T when all were closed, NIL otherwise; an operand that is not a descriptor closes nothing.",
  "all operand lists, evaluators and answers of the operating system",
  "tests cannot make system calls fail; closing the standard input shows only later",
  ["lib/mnml/unix/close.c:6-29"])
p("pipe, dup, fork and wait report what happened",
  "Each makes one system call on its operands and returns what it gives; a failure can be told from a success.",
  "all operands and answers of the operating system",
  "quantifies over answers of the operating system",
  ["lib/mnml/unix/pipe.c:7-17", "lib/mnml/unix/dup.c:8-33", "lib/mnml/unix/fork.c:7-12", "lib/mnml/unix/wait.c:7-28"])
p("exec passes arguments and environment on",
  "`(exec path args env)` starts the program at path with path and the strings of args for arguments and the strings of env for environment; nothing is cut or dropped, nothing is stored out of bounds, and it does not return.",
  "all texts and lists of texts",
  "all lengths; a dropped argument shows only in the started program",
  ["lib/mnml/unix/exec.c:17-69"])
p("select serves the descriptors given",
  "`(select fds on_read on_error)` waits for exactly the descriptors of fds; on_read is called on each readable one and on_error on each failed one, in order; a callback returning NIL closes and removes its descriptor, another descriptor is added; the resulting lists are returned.",
  "all lists of descriptors, callbacks and answers of the operating system",
  "readiness depends on the outside",
  ["lib/mnml/unix/select.c:8-153", "share/mnml/http.l:129"])
p("unlink removes the file named",
  "`(unlink name)` asks once for the removal of exactly the file named and returns T exactly when it was removed; no name faults.",
  "all names and answers of the operating system",
  "all name lengths",
  ["lib/mnml/unix/unlink.c:7-26"])
p("Builtins receive their own arguments",
  "In a call of a builtin, the parameters its C code takes from the closure are the operands of the call in the declared form (evaluated, or the list of operands as it is), in order, and what remains is the scope of the caller.",
  "all builtins, operands, evaluators, scopes and states",
  "all builtins at all calls; the wrong argument shows only for particular values",
  ["include/mnml/module.h:36-181", "lib/mnml", "lib/core/eval.c:100-139"])

p("iter and iter2 visit every element in order",
  "`(iter f l)` calls f on each element of l from the first to the last and returns the last answer, NIL for the empty list; `(iter2 f l m)` does so with the pairs of the two lists, up to the end of the shorter.",
  "all functions with any effects on the state, all lists, scopes and states",
  "all lists and all functions",
  ["share/mnml/iter.l:3-11", "share/mnml/iter2.l:3-15"])
p("trim removes blanks at the ends",
  "`whitespace?` is true exactly of space, tab, line feed and carriage return; `triml`, `trimr` and `trim` return the string without the blanks at its beginning, its end, or both, and return for every string.",
  "all strings, scopes and states",
  "all strings; a call that does not return cannot be told from a slow one",
  ["share/mnml/trim.l:7-26", "lib/mnml/logic/or.c:6-48", "lib/mnml/std/stream.c:6-37"])
p("join, merge, dedup and args:skip",
  "`join` puts the separator between the strings of a list; `merge` inserts each element of the first list into the second with the function given, then calls the other function on the result once; `dedup` goes from the right and does what the comparator says at each element; `args:skip` drops that many elements.",
  "all lists, separators, functions with any effects, scopes and states",
  "all lists and all functions",
  ["share/mnml/join.l:7-9", "share/mnml/merge.l:3-5", "share/mnml/dedup.l:9-19", "share/mnml/args.l"])

p("A library file loads what it uses",
  "After `(load \"@lib/f.l\")` in a new session, for each file of the library, every name its functions use is bound, and the functions are the same as in a session where all files are loaded.",
  "all 31 files of share/mnml; all functions they define; all names these use",
  "tests run with everything loaded; a missing name shows only where nothing else has loaded it",
  ["share/mnml/isort.l:1-4", "share/mnml/iter2.l:1", "share/mnml/http.l", "share/mnml/cc.l", "share/mnml", "lib/mnml/std/load.c", "lib/core/module.c"])

p("What a command line asks for",
  "Options come first, alone or grouped in a word, `-e` with its text in the same word or the next; the last `-e` counts. A file named after the options is run, else the text of `-e`, else a dialogue; `-b` starts with no name bound. The exit status is zero exactly when the last value is not NIL and, with `-d`, every cell was given back. `-h` and `-v` evaluate nothing and exit with zero; an unknown option, or `-e` with no text, evaluates nothing and exits with a status other than zero.",
  "all argument lists, environments, files, expressions and inputs",
  "argument lists are unbounded and options combine",
  ["bin/mnml.c:237-282", "bin/mnml.c:322-383", "bin/mnml.c:385-407"])

p("Assertions of the test framework",
  "`(assert:equal v x)` evaluates x where it is written and returns T if its value is equal to v; otherwise it returns NIL after writing the two values as literals. `(assert:predicate p x)` does so with the answer of p on the value of x.",
  "all expected values, predicates, expressions with any effects, scopes and states",
  "an assertion that passes when it should not hides every bug it was written for; expressions and scopes are unbounded",
  ["share/mnml/test.l:65-78", "share/mnml/test.l:80-93", "share/mnml/term.l:12-21"])
p("A suite passes exactly if every test does",
  "`(test:run name (n . x) ...)` without program arguments writes the name, evaluates the test expressions in order, each exactly once, whatever the earlier ones give, writes a line with the padded name and the outcome after each, and returns T exactly if every test gave T. Other arguments do not run the tests.",
  "all suite names, all lists of tests with any effects, all scopes and states",
  "all lists of tests; a suite that returns T although a test was not run is seen by no test",
  ["share/mnml/test.l:30-59", "share/mnml/args.l", "share/mnml/iterators.l", "share/mnml/manips.l"])
p("Escapes and padding for the terminal",
  "`term:esc` and the functions named after the styles return the text between the escape sequence of the style and the reset sequence. `term:left` and `term:right` return exactly the width asked for: the text with spaces after or before it, or its beginning or end when it is longer.",
  "all texts, codes, styles and widths; all scopes and states",
  "all texts and widths",
  ["share/mnml/term.l:12-21", "share/mnml/term.l:26-53", "share/mnml/term.l:58-70"])

p("Command lines",
  "`(args:parse schema)` goes through the arguments of the program: every flag has its handler called, in order, on as many of the following arguments as the handler has parameters, and the value is the list of the flags handled, the last one first. At a flag that the schema does not have, or that has too few arguments after it, a message is written and the value tells that it failed.",
  "all schemas, all argument lists, all handlers, all scopes and states",
  "tests try a few command lines; the loop is over arbitrary lists and runs arbitrary functions",
  ["share/mnml/args.l:14-37"])

p("Expressions and lines of the input",
  "Successive calls of `read` return the expressions of the program's standard input in order, each once, and then tell that the input has ended; `readline` goes on right after what was read. Values that `print` wrote one on each line are read back.",
  "all input texts, all sequences of calls, in scripts and outside",
  "inputs and sequences of calls are unbounded; the reader keeps values across calls and the streams form a stack",
  ["lib/mnml/io/read.c:5-10", "lib/mnml/io/readline.c:7-33", "lib/core/read.c:37-78", "lib/core/utils.c:685-710", "include/mnml/utils.h:135-149"])

p("Memory is used again unnoticed",
  "A cell that was given back is handed out again, and a session does not notice: with the 64 MB of cells it returns the same result, globals, output and channels as with a new cell for every allocation, or stops when every cell is in use. It never touches a cell that is free, and at its end the cells in use are those that the result, the globals and the channels refer to, directly or not.",
  "all programs (loops and recursion included), all memory sizes reached, all free lists",
  "a cell freed too early does its damage only after it was handed out again, in another place; tests seldom reuse memory in that pattern",
  ["lib/core/slab.c:79-168", "lib/core/lisp.c:44-70", "include/mnml/utils.h", "lib/core/eval.c"])

p("Reading into memory",
  "Reading a text of complete expressions makes cells that hold exactly those expressions, and gives them out in the order of the text, each with one reference; reading leaves every other list as it was and forgets no cell. Whatever the text, no freed cell is touched.",
  "all texts, well formed or not, in all heaps; all expressions evaluated while reading; all sequences of reads on a channel",
  "a reference too many or too few in a parser action shows only when memory runs out or is handed out again; a list altered while reading is seen in another place",
  ["lib/grammar/parser.y:26-123", "lib/grammar/lexer.rl:22-164", "lib/core/read.c:12-35", "lib/core/lisp.c:76-85", "lib/core/utils.c:306-351"])

p("The globals in memory",
  "After any history of definitions, updates and lookups of globals, the cells of the tree hold exactly the last value of every name, in order; every count is the number of references, with the parent links of all nodes but the root not counted; a lookup gives the binding with one more reference, and a new NIL for an unknown name; what other cells hold is not altered. When the tree is dropped, all of its cells are given back, and of the values all that nothing else refers to.",
  "all histories, all names, all values (shared and cyclic ones too), all heaps that hold anything else",
  "a parent link counted once too often or too seldom during one of the rotations shows only when the tree is dropped or a node is freed under the reader; the shapes are unbounded",
  ["lib/core/tree.c:8-61", "lib/core/tree.c:63-196", "lib/core/tree.c:198-362", "lib/core/tree.c:364-457", "include/mnml/tree.h", "lib/core/lisp.c:212-226"])

p("The count of cells in use",
  "(slabinfo) returns a pair of numbers whose difference is the number of cells in use when it was called (so that two calls tell whether something was forgotten in between); it makes three cells and alters no other, and stops the program only if fewer than three are left. At the end of a session that uses neither <- nor def on something else than a name and leaves no cycle, the difference is the number of cells that the result, the globals and the channels refer to, directly or not.",
  "all histories of the allocator, all contents of the cells, counters beyond 2^63 (then modulo 2^64); all sessions as restricted",
  "the leak check of the project's own tests trusts this number; a counter that misses one path of the allocator is wrong only in histories that take it",
  ["lib/mnml/sys/slabinfo.c:7-13", "lib/core/slab.c:79-168", "include/mnml/slab.h:11-18", "share/mnml/test.l:61-63"])

p("Arguments and placeholders of the compiler",
  "In the compiler of the library, the placeholder made for a number (cps:symbol) refers back to that number, and the name of an argument to its place in the list of arguments (cc:ref:idx); cc:arg:idx gives the place of the first element that is the same, NIL if there is none; cc:replace exchanges the last element of a call and cc:arg:get leaves it out. None of them has an effect.",
  "all lists, all numbers and names, all scopes that leave the names of the library alone",
  "the generated code reads the closure at these places: a wrong one compiles and reads another variable; names and lists are unbounded",
  ["share/mnml/cps.l:15-17", "share/mnml/cc.l:50-72"])

p("Types marked in the compiler",
  "When the compiler marks a name with a type (cps:type:mark), the type goes in front of those the name has and the other names keep theirs; so after any marks each name has exactly the types it was marked with, the last one first. What is not a name is not marked. cps:replace puts the next continuation in the place of the last argument, if there is one. None of them has an effect.",
  "all names, types, lists of marks, association lists of types, lists of arguments, scopes that leave the names of the library alone",
  "the inferred types depend on the whole history of marks, which is unbounded; a lost or misplaced mark shows only in the generated C code",
  ["share/mnml/cps.l:169-192"])

p("Types taken together in the compiler",
  "The types a name was marked with, taken together (cps:type:fold1), give NIL if there are none, the type if all marks agree, and ERROR if two of them differ. Marks that leave the type open (UNDEF) do not matter as long as there is another one, in whatever order they were made. cps:type:fold does this for each name of an association list.",
  "all lists of types, all scopes that leave the names of the library alone",
  "the marks of a name depend on the whole function compiled and are unbounded; a conflict that is missed, or reported where there is none, depends on their order",
  ["share/mnml/cps.l:359-373", "share/mnml/cps.l:225-240"])

p("The type of an operand in the compiler",
  "The type the compiler gives an operand (cps:type:get) is NUMBER for a number, STRING for a text that is not empty, what its marks give together for a name that was marked, and ATOM for everything else; it has no effect. After any marks, a name thus has the type on which its marks agree.",
  "all values, all lists of marks, all association lists of types, all scopes that leave the names of the library alone",
  "values and histories of marks are unbounded; the clauses overlap (NIL is a list and a text), so the result depends on their order",
  ["share/mnml/cps.l:175-183", "share/mnml/orelse.l:3-5"])

p("Counting references in the compiler",
  "Counting the references of a call (cps:getrefs) adds to the count of each name how often the call refers to it: its operands, and its head if that is an argument of the function. Uses of the continuation count zero, but give it an entry; names the call does not refer to keep their count or stay without one. It has no effect.",
  "all calls whose operands are not flagged as self calls and do not together have the shape of a function that calls params, all arguments, continuations and counts below 2^63, all scopes that leave the names of the library alone",
  "the compiler decides from the counts when a value is given back; counts depend on all the operands, which are unbounded",
  ["share/mnml/cps.l:113-126"])

p("Placeholders of the CPS conversion",
  "Converting a function to continuation-passing style (>&) gives one in which every placeholder that is used is a parameter or bound by a lambda around it. Within a call each list among the elements is exchanged for a placeholder of its own (cps:swap), the other elements stay, the continuation comes last, and the counter moves on by the number of lists in the call at every depth.",
  "all functions; for the calls all elements made of proper lists, all continuations and counters below 2^63, all scopes that leave the names of the library alone",
  "calls nest without bound and the numbers taken depend on everything to the right and inside; a placeholder without a binding shows only when the converted code runs",
  ["share/mnml/cps.l:23-32", "share/mnml/cps.l:46-53", "share/mnml/cps.l:58-69", "share/mnml/cps.l:74-94", "share/mnml/cps.l:99-106"])

if __name__ == "__main__":
    out = os.path.join(os.path.dirname(os.path.dirname(os.path.abspath(__file__))), "properties.jsonl")
    with open(out, "w") as f:
        for x in P:
            f.write(json.dumps(x) + "\n")
    print(len(P))
