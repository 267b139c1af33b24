# Design of the formal model of minima.l

Source: `/repo` (xguerin/minima.l, pinned commit).  Prover: Rocq/Coq 8.16.1.
Everything is under `rocq/theories`; build with
`coq_makefile -f _CoqProject -o Makefile && make -j4` in `rocq/`.

## 1. Layers

The C code is modelled function by function.

* **Concrete machine models** for code whose property is about memory:
  `Slab.v` (free list of cells), `Heap.v` (cells with reference counts, drop,
  list primitives), `Tree.v` (pointer-level coloured tree with parent links and
  NIL cells as real cells), `Cache.v` (lookup with the cache word of a symbol),
  `Print.v` (1024-byte staging buffer), `CString.v` (writes at buffer offsets),
  `Closure.v` (closure cache).  Undefined behaviour (NULL / freed cell access,
  out of bounds write) is a distinct outcome, never a default value.
* **Value models** for functions that only read their arguments: `Value.v`
  (atoms as trees: equality, binding, environments, strings, escapes, matching),
  `Tails.v` (tail-call marking), `Lexer.v` (scanner), `Parser.v` (parser and
  reading loop).
* **Evaluator over values**: `Eval.v` (globals, output and channel stack as
  state, explicit fuel with a distinct out-of-fuel outcome; `conc`, which is
  visible through sharing, stops with a distinct outcome).  `EvalSpec.v` is the
  vocabulary of the statements: `runs O c x w o` is "evaluates to the outcome
  `o`" with the fuel quantified away; it is deterministic.
* **Evaluator over the heap**: `HEval.v`, the same C functions again on the
  reference-counted heap of `Heap.v`, with sharing, in-place marking and every
  increment and decrement of the C code.  Ghost checks (`event`) stop a run at the
  uses a theorem excludes.  `HSim*.v` proves that it computes what `Eval.v` computes.
* **The bundled library**: `LibText.v` to `LibText4.v` are the text of the files of share/mnml, copied
  by `tools/gen_lib.py`; `Lib.v`, `Lib2.v`, `Lib3.v` read and evaluate that text with the models of
  the reader and evaluator; the theorems are about the resulting values.

* **Files, modules, main program**: `Path.v` (file names), `Load.v` (modules, scripts,
  the builtin `load`, start-up, the three modes of `bin/mnml.c`) around `Eval.v` and
  `Parser.v`.  The file system (`realpath`, directory listings, contents, what dlopen
  finds) and the environment are arbitrary functions given as records (`host`, `disk`).
* **Operating system calls**: `Unix.v` (lib/mnml/unix, `time`, `readline`).  A builtin
  is a program tree that asks the system and goes on with the answer; `plays` relates it
  to its traces of calls and answers, every answer being possible.  `Args.v` is the
  passing of arguments through the closure, with the declarations of every builtin.
  `Input.v` is `read` and `readline` on the stack of input channels.

Each file `X.v` holds definitions only (each with a `/repo` citation and a note
of any simplification); specifications are in `XSpec.v`, which use none of the
model's functions that they specify; proofs are in `XProofs.v`, `Sem*.v`,
`HEval*.v`, `HSim*.v`, `Lib*.v`, `Host*.v`; the property theorems are in `Properties*.v`, each with
`Print Assumptions` below it and an `Example` showing that its hypotheses are met
by a concrete case.

## 2. What each property becomes

| id | modelled code | proof |
|----|---------------|-------|
| C01, C02 | `slab.c` (indices into a cell array, `next` links, counters) | invariant: chain from `first` is a duplicate-free list disjoint from the live set, their union is `[0, cells)`; induction over histories |
| C03, C04 | `X_0`, `lisp_deallocate` on a heap with counts | invariant `refs c = in-edges + external references`; induction on the number of live cells |
| C05 | `car cdr cons conc dup append bind sss merge` on the same heap | each preserves the invariant with the ownership of its comment, for an arbitrary frame of other references |
| C06 | `lisp_conc` on the heap | refinement for unaliased arguments; `_refuted` witness for `(conc x x)` |
| C07, C08 | `lisp_equ`, `lisp_neq` | against Leibniz equality of values |
| C09 | `lisp_bind` | against a path-based specification |
| C10 | `lisp_sss`, `lisp_merge`, lookup | against a total map `symbol -> option value` |
| C11 | `lisp_may_apply` | against list lengths |
| C12 | `lisp_process_escapes` | against a two-rule grammar of escapes |
| C13 | `lisp_make_cstring` with a byte buffer of stated size | writes stay within `len+1`; `_refuted` for `len` |
| C14 | `MAKE_SYMBOL_*`, `memcmp` | order laws |
| C15 | `str`, `sym` | round trips; `_refuted` for names containing a backslash |
| C16 | `atom_match` | against wildcard substitution |
| C17, C18, C20 | pointer tree | abstraction of the pointer graph to a binary tree, invariant over histories |
| C19 | pointer tree | `_partial`: names that come at the ends keep the tree balanced (only outer rotations); `_refuted`: a coloured child of a coloured node; zig-zag insertions give a chain |
| C21 | `lisp_tree_rem` | `_refuted` witnesses; partial positive statement |
| C22 | `lisp_lookup` with cache | invariant over histories |
| C23, C24, C25 | `print.c` with the staging buffer | refinement to a pure text function; `_refuted` for NIL in symbolic mode |
| C26-C28, C48-C52 | scanner (regular expressions, longest match), LR parser with its stack, reading loop | scanner refines a declarative splitting relation; parser refines a declarative grammar; round trip by induction on values; `_refuted` witnesses |
| C29-C37, C41-C43 | `Eval.v` | fuel monotonicity, then equational laws |
| C38, C39 | `Eval.v`, `lisp_collect_tails` | equality of scopes between loop and recursion; `_refuted` for multi-expression `when`/`unless` |
| C40 | `lisp_mark_tail_calls` | `_refuted` witnesses |
| C44 | `in`/`out` in `Eval.v` | channel stack restored by induction on fuel |
| C45 | `HEval.v` | invariant of C03 through the evaluator by induction on fuel |
| C46, C63-C65, C85-C87 | programs of `share/mnml` read and run by the models | induction on lists and on numerals, for every function argument described by a relation; `_refuted` for capture of names and for calls under another name |
| C66, C67 | `HEval.v` against `Eval.v` | refinement: a heap stands for a state when globals, channels and output agree and every reference reads its value (`HSimSpec.v`); simulation by induction on fuel (`HSim*.v`); code flagged by a top-level `def` is shown to be reachable from nothing else (`HSimTree.v`, `HSimFlag.v`, `HSimOwn.v`); `_refuted` for code flagged in place |
| C68, C69 | `Path.v` | against a relation `denotes` between names and files; `_refuted` for prefixes, lengths, missing variables |
| C70 | `module.c` in `Load.v` | against the set of entries and names; coherence of the modules kept open is an invariant |
| C71-C75 | `Load.v` | big-step relation for top-level expressions, scripts and dialogues (`HostSpec.v`), mutual induction; invariance of channels by induction on fuel; `_refuted` witnesses |
| C76 | start-up in `Load.v` | against the lists of texts; `_refuted` for backslashes and empty values |
| C88 | the texts of share/mnml loaded by `Load.v` in an installation (`Install.v`) | computation over the files, with a syntactic specification of the names a function uses (`InstallSpec.v`) |
| C89 | `options`, `mode`, `mnml` (`Main.v`) | the grammar of option words `asks` (`MainSpec.v`) is total, functional and agrees with `options`, by induction; the modes by C71, C74 and C75 |
| C90 | share/mnml/test.l, read and evaluated by the model (`Lib3.v`) | for every expression with its effects, from the meaning of the builtins: `gives`, `judges`, `says` of `Lib3Spec.v`; `_refuted` for captured names and builtins |
| C91 | `test:run` of test.l | by induction on the tests: the fold over the suite against the relation `tries` of `Lib3Spec.v`; `_refuted` for repeated names and unknown arguments |
| C92 | share/mnml/term.l | from the meaning of the functions of append.l, manips.l and truncr.l |
| C93 | `args:parse` of args.l | by induction on the arguments against the relation `parses` of `Lib3Spec.v`, for every schema and every handler that ends without a self call in tail position; `C93_handler` shows that functions written in the schema meet the condition; `_refuted` for the rest |
| C94 | the channels of `lisp->ichan` with `read` and `readline` (`Input.v`) | by induction on the pieces of the text (`InputSpec.v`) with the reader theorems of C49/C50; `_refuted` by evaluation; `C94_script` by induction on the expressions of a script |
| C95 | the evaluator of `HEval.v` again, in memory that is recycled: cells, free list, committed pages as the allocator keeps them (`RHeap.v`, `REval.v`) | simulation, one lemma per function: every live cell of the ideal heap has a place in memory, places of different cells differ, a free place is the place of no live cell (`RSim.v`, `RSim2.v`); every run is a history of the allocator of C02 (`RSlabProofs.v`); specification in `RSimSpec.v` |
| C96 | the actions of parser.y and lexer.rl on reference-counted cells, lisp_make_string, lisp_process_escapes, lisp_consumer, lisp_read_pop (`HRead.v`) | invariant: the references are those of the stack, the expressions given out, the forgotten ones and the caller's (`HReadProofs.v`); simulation of `Parser.v` action by action, composed with the grammar of `ReadSpec.v` (`HReadSim.v`); the list of a channel as a queue (`HReadChan.v`) |
| C97 | lisp_tree_new, the rotations, lisp_tree_add, lisp_tree_upd, lisp_tree_get on reference-counted cells with weak parents (`HTree.v`) | lockstep with `Tree.v` link by link while the counts are kept exact (`HTreeSim.v`, `HTreeCount.v`, `HTreeProofs.v`, `HTreeOps.v`); the counted references stay well founded, so that nothing is left when the root is dropped (`HTreeTame.v`); new and known keys (`HTreeAdd.v`), histories by induction (`HTreeRun.v`); specification in `HTreeSpec.v` |
| C98 | lisp_function_slabinfo over the counters of `Slab.v` and the cells of `RHeap.v` (`Info.v`) | the invariant of the allocator (n_alloc = n_free + cells given, C01/C02) and its link to the memory of a session (C95); both directions of reachability through the simulation of C95 (`InfoProofs.v`) |
| C99 | cps:symbol, cc:replace, cc:arg:idx, cc:arg:get, cc:ref:idx as loaded from the text of cps.l and cc.l (`Install.v`; names and specification in `CcSpec.v`) | induction over the lists with the call rules of C46; the loop of the tail call as in C87; numerals from C65, names from C15 (`CcProofs.v`) |
| C100 | cps:replace and cps:type:mark as loaded from the text of cps.l (`Install.v`; specification in `Cc2Spec.v`) | the rules for assoc and replc of C46 (`Cc2Proofs.v`); induction over the marks |
| C101 | cps:type:fold1 and cps:type:fold as loaded from the text of cps.l (`Install.v`; specification in `Cc2Spec.v`) | the rule for foldr of C46 (`Cc3Proofs.v`, `Cc4Proofs.v`); induction over the list of types and over the association list |
| C102 | cps:type:get as loaded from the text of cps.l (`Install.v`; relation `operand` in `Cc2Spec.v`) | the rule for cond of C57 with the predicates of C53, assoc and <|> of C46, fold1 of C101 (`Cc5Proofs.v`) |
| C103 | cps:getrefs as loaded from the text of cps.l (`Install.v`; relations `uses`, `refers`, `counts` in `Cc6Spec.v`) | the rules for let with a pattern, foldl, assoc and replc (`Cc6Proofs.v`); induction over the operands |
| C104 | cps:swap, cps:lift-any, cps:lift and >& as loaded from the text of cps.l (`Install.v`; relations `swaps`, `lifts`, `plain`, `nested`, `stand`, `unbound` in `Cc7Spec.v`) | false: witnesses computed with the model; for expressions without conditionals the rules for let with a pattern, foldr, cond, match and append, mutual induction over calls and operands (`Cc7Proofs.v`, `Cc8Proofs.v`); what stays unbound, by the same induction (`Cc9Proofs.v`); >& by the rules for let with patterns, eval, len and append (`Cc10Proofs.v`); numerals are unique |
| C77-C83 | `Unix.v` | every trace of calls and answers against ledgers and relations on traces (`UnixSpec.v`); `_refuted` witnesses |
| C84 | `Args.v`, `eval_args` of `Eval.v` | against a relation from operands to what is received, for each declaration; `select` refuted |
| C47 | `closure.c` | `_refuted` witness; partial statement for one size |
| C53-C62 | builtins in `Eval.v` | equivalences between a call and the relation of `BuiltinSpec.v`, side effects included; `_refuted` for `cond` and `match` |

## 3. Trusted base

* the Coq 8.16.1 kernel (and its `vm_compute` machine, used for concrete cases);
* `Print Assumptions` under every theorem of `Properties*.v` prints "Closed under
  the global context": no axiom is used.  (Loading mathcomp-free standard library
  files brings the `Under_rel` axioms of `ssreflect` in the loaded library list;
  no theorem depends on them.)
* the reading of the C code recorded in the comments;
* for the reader, the documented meaning of a Ragel scanner (longest match, first
  pattern on ties) and of a Lemon parser (LR, a token that cannot be shifted is
  discarded); the generated C is not looked at;
* the outside world is an oracle `O` saying whether a channel can be opened; what
  is written is recorded in the state; nothing is assumed about it;
* the operating system seen by `Path.v` and `Load.v` is an arbitrary `host` (variables,
  `realpath`) and `disk` (listings, contents, modules), fixed during a run; `getcwd`,
  `fopen` of an existing file and `module_init` are taken to succeed.
* the calls of `Unix.v` may answer anything (no assumption that descriptors are fresh or
  that errors are consistent); `int` has 32 bits, FD_SETSIZE is 1024, PATH_MAX 4096;
  `getline` cuts the bytes left after the first newline.

## 4. Not modelled / simplifications

Modelled: `lib/core/{slab,closure,lisp,eval,tree,print,read,utils}.c` except as
below, `lib/grammar/{lexer.rl,parser.y}`, `include/mnml/{types,lisp,utils,slab,
tree,closure,module}.h`, all of `lib/mnml/{std,logic,math}` and `lib/mnml/io`
except as below, `lib/core/module.c`, `lib/mnml/unix`, `lib/mnml/sys`, `bin/mnml.c` except as below, and the files of
share/mnml listed in `Lib.v`, `Lib2.v` and `Lib3.v`.

Not modelled:
* `load` and `quit` as subexpressions (they are modelled as top-level expressions);
* `read` inside larger expressions (`Input.v` has it as a call on a channel and as a whole
  expression of a script); the builtins of `Unix.v` as part of `Eval.v` (there they
  are programs around an arbitrary evaluator);
* what the functions of run.l, http.l, cps.l and cc.l (except those of C99 to C104), `split.l` and `flatten.l` do (the last two need the in-place
  `conc`); C88 is about loading them;
* `lib/core/debug.c` and the tracing macros; the hit counters of `lisp_lookup`;
* the parse error handler of `bin/mnml.c`; its options are in `Main.v`, with `getopt` written from
  its manual and the count of cells looked at by `-d` a parameter.

Simplifications (also stated at the definitions):
* 64-bit overflow of `+ - *` and division by zero stop with a distinct outcome
  (undefined behaviour in C);
* `Slab.v`: counters do not wrap;
* `Heap.v`, `HEval.v`: a freed address is not handed out again and the heap is
  unbounded (`RHeap.v`, `REval.v` do not have this simplification; C95 relates the two);
  counts are unbounded; the globals of `HEval.v` are a list of named pair cells instead of the
  tree (the tree is in `Tree.v`);
* `Eval.v`: marking of tail calls changes the stored value only, not other values
  sharing cells with it (in `HEval.v` it does);
* `Tree.v`: the three cells of a node are one cell; no reference counts. `HTree.v` has
  the cells and their counts for definition, update and lookup (C97); deletion only
  in `Tree.v`;
* `Lexer.v`/`Parser.v`: no cell-level memory (`HRead.v` has it; there the consumer is not
  called in the middle of a parse but on the list of what was read; C96 relates the two).

## 5. Findings: statements that are false of the code

Each has a `_refuted` theorem with a concrete witness, and the manifest says
what is proved instead.

| id | what happens |
|----|--------------|
| C06 | `(conc x x)` makes a cyclic list |
| C13 | `lisp_make_cstring` writes one byte past `len` |
| C15 | a name with a backslash does not survive `str`/`sym` |
| C19 | the tree is not balanced: coloured child of a coloured node, chains |
| C21 | removal from the tree loses entries or touches freed cells |
| C25 | NIL inside a list is printed as nothing in symbolic mode |
| C26 | printed values that do not read back |
| C32, C36, C38-C42 | evaluation order, first binding wins, marking of `when`/`unless` bodies, crash of the marking on non-list bodies, `setq` with NIL, `<-` on a global |
| C45 | assignment to the name `ANY` touches a freed cell; `<-` leaks |
| C46 | `append` captures the name `x`; `last` of manips.l stops at NIL |
| C47 | a recycled closure can be too small |
| C48-C52 | splice of a name, tokens cut at the buffer end, long strings, quoted negative numbers, long names |
| C57 | `cond` evaluates its subject again for each predicate |
| C62 | the subject of `match` sees `ANY` |
| C63 | a tail-recursive function under another name returns an internal record |
| C64, C65 | local names `ins` and `descend` of the caller break `isort` and `ntoa`; `ntoa` of negative numbers |
| C66 | `def` flags self calls in place: a quoted `def` form held by a variable changes when it is evaluated, and parts of it then return an internal record |
| C68 | `@library.l` is taken as `@lib` followed by `rary.l`; inside a script whose directory has a backslash, relative names go elsewhere |
| C69 | `mnml nosuch.l` stores before a buffer; long names store past it; without HOME, or with a long HOME or MNML_MODULE_PATH, nothing starts; without PWD no file loads |
| C73 | a script goes on after `(quit)` |
| C74 | with `-e`, an expression that reads as NIL ends the evaluation |
| C75 | an interactive session that ends at the end of the input has status -1 |
| C76 | backslashes in arguments and variables are processed as escapes; variables with an empty value are left out |
| C77 | `readline` drops the last byte of a last line without newline, and processes backslashes |
| C78 | `connect` with a text of 1024 bytes stores past its buffer; `listen` refuses port 65535 |
| C79 | `(close NIL)` closes the standard input |
| C80 | `dup`, `fork`, `wait` return the error number on failure: it looks like a success |
| C81 | `exec` drops arguments from the 127th on; an empty environment passes the current one |
| C82, C84 | `select` pops its last argument for its first: `(select fds cb NIL)` (http.l) waits for nothing |
| C83 | `unlink` of a name of PATH_MAX bytes stores past its buffer |
| C86 | `whitespace?` (trim.l) uses `or` inside a stream: `or` takes any number of arguments, so the stream builds a list whose head is no function and answers that list; it is never NIL, and `triml`, `trimr`, `trim` never return (http.l calls `trim`) |
| C85 | `iter` and `iter2` keep the answers with `let`, which changes those of functions that call `rslt` and crashes on builtins |
| C88 | isort.l loads a module `iterators` that does not exist in place of iterators.l: `isort` alone returns a list of symbols; iter2.l does not load `let`; http.l loads modules `iterators` and `manips` that do not exist, so `http/response` lacks `cadr` and `cddr`; `cc:compile1` and `cc:gen:value` of cc.l use `NAME` and `atype`, defined nowhere; each load of manips.l replaces the `last` of last.l |
| C90 | `assert:equal` evaluates its expression with its own names bound: `(assert:equal 1 EXPECT)` always passes; `(assert:equal car car)` uses a null pointer (`let` on a builtin). Also seen: test/lisp/control.l writes `(let (...) assert:equal result T)` without parentheses, so these tests always pass |
| C91 | two tests of the same name: the first runs twice, the second never; `mnml suite.l -x` writes "Unknown flag" and runs the suite |
| C93 | `args:parse` gives NIL without arguments as for a failure; a handler that calls itself in tail position runs one turn only (`-s ab` writes "a" in place of "abend"); handlers see RES, LST, ... of the parser |
| C94 | `read` gives NIL at the end of the input as for the expression NIL; on "1 2" then "abc" the calls read, readline, read give 1, "abc", 2; in a script `(read)` takes the next expression of the script, never the standard input (`C94_script`) |
| C95 | `(match (prog (setq J (<- 'ANY NIL)) (setq J 0) (setq K (list 5 6 7 8 9)) 1) (1 . 2))` gives NIL, not 2: the clauses are read from cells that now belong to K |
| C96 | with A = (1 2), reading `'(0 ~(prog A) 9)` makes A (1 2 9); with A = (1), `(0 ~(prog A) ~(prog A))` reads as a list without end; the cells of `(1 2 . )` are never given back (parser.y has no %destructor) |
| C99 | an argument called `_x` is taken for a placeholder: its place is 72; placeholders for numbers from 10^15 on are cut and no longer distinct |
| C101 | UNDEF marked after a type gives ERROR, before it is ignored |
| C104 | `(>& '(\ (a) (+ (f 1) (if a (g 2) 3))))` uses `_4`, which nothing binds (the lambda binds `_3`): cps:swap counts the branches of an `if`, cps:lift-ite does not; `(+ (f 1) NIL)` becomes a call of `(\ (_2) ...)` with no operand; `(>& '(\ (a) ((f a) 2)))` gives `(_2 2 _1)`, with `_2` unbound and `(f a)` lost |
