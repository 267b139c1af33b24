{
 "claims": [
  {
   "property": "C01",
   "status": "proved",
   "theorems": [
    "C01_alloc_fresh"
   ],
   "note": ""
  },
  {
   "property": "C02",
   "status": "proved",
   "theorems": [
    "C02_accounting",
    "C02_growth",
    "C02_abort_exact"
   ],
   "note": ""
  },
  {
   "property": "C07",
   "status": "proved",
   "theorems": [
    "C07_program",
    "C07_equ_structural",
    "C07_equ_equivalence",
    "C07_equ_types"
   ],
   "note": ""
  },
  {
   "property": "C08",
   "status": "proved",
   "theorems": [
    "C08_neq_negation",
    "C07_program"
   ],
   "note": "C07_program covers programs that use <>."
  },
  {
   "property": "C09",
   "status": "proved",
   "theorems": [
    "C09_bind_part",
    "C09_bind_frame"
   ],
   "note": ""
  },
  {
   "property": "C10",
   "status": "proved",
   "theorems": [
    "C10_merge_map",
    "C10_merge_sorted",
    "C10_sorted_canonical",
    "C10_unaltered"
   ],
   "note": "C10_unaltered is about the memory: the scope extended, and all else in use, reads the same afterwards."
  },
  {
   "property": "C11",
   "status": "proved",
   "theorems": [
    "C11_fixed",
    "C11_rest"
   ],
   "note": ""
  },
  {
   "property": "C12",
   "status": "proved",
   "theorems": [
    "C12_string",
    "C12_escapes",
    "C12_plain",
    "C12_no_longer"
   ],
   "note": ""
  },
  {
   "property": "C13",
   "status": "partial",
   "theorems": [
    "C13_cstring_partial",
    "C13_cstring_refuted",
    "C13_cstring_boundary"
   ],
   "note": "False as stated: with a buffer of exactly the stated capacity every string at least that long overruns by one byte. Safe and exact when the buffer has one more byte."
  },
  {
   "property": "C14",
   "status": "proved",
   "theorems": [
    "C14_identity",
    "C14_match",
    "C14_order",
    "C14_total_order"
   ],
   "note": ""
  },
  {
   "property": "C15",
   "status": "partial",
   "theorems": [
    "C15_sym_str_partial",
    "C15_str_sym_partial",
    "C15_refuted"
   ],
   "note": "False as stated for names containing a backslash (escape processing); proved for all others."
  },
  {
   "property": "C16",
   "status": "proved",
   "theorems": [
    "C16_match_instance",
    "C16_first_clause"
   ],
   "note": "The subject of match is evaluated in the caller's scope with the interpreter's own name ANY bound on top; the theorem says so."
  },
  {
   "property": "C17",
   "status": "proved",
   "theorems": [
    "C17_globals_map"
   ],
   "note": ""
  },
  {
   "property": "C18",
   "status": "proved",
   "theorems": [
    "C18_insertion_safe"
   ],
   "note": ""
  },
  {
   "property": "C19",
   "status": "partial",
   "theorems": [
    "C19_ends_partial",
    "C19_no_red_red_refuted",
    "C19_height_refuted"
   ],
   "note": "False of the code: the double rotation cases rotate at the wrong node, so coloured nodes get coloured children and the height can equal the number of names. Proved when every new name sorts before or after all the names defined so far (then only the outer cases are taken)."
  },
  {
   "property": "C20",
   "status": "proved",
   "theorems": [
    "C20_update_in_place"
   ],
   "note": ""
  },
  {
   "property": "C21",
   "status": "partial",
   "theorems": [
    "C21_remove_partial",
    "C21_remove_crash_refuted",
    "C21_remove_loses_refuted",
    "C21_remove_absent_refuted"
   ],
   "note": "False of the code for uncoloured nodes and absent keys (invalid dereference, lost bindings). Proved for coloured nodes with a NIL child."
  },
  {
   "property": "C22",
   "status": "proved",
   "theorems": [
    "C22_cache_never_stale"
   ],
   "note": ""
  },
  {
   "property": "C23",
   "status": "proved",
   "theorems": [
    "C23_literal_print"
   ],
   "note": ""
  },
  {
   "property": "C24",
   "status": "proved",
   "theorems": [
    "C24_buffer_safe",
    "C24_number_buffer"
   ],
   "note": ""
  },
  {
   "property": "C25",
   "status": "partial",
   "theorems": [
    "C25_symbolic_partial",
    "C25_symbolic_refuted"
   ],
   "note": "False as stated: a NIL element resets the staging index and loses staged text. Proved for values in which NIL only terminates lists."
  },
  {
   "property": "C29",
   "status": "proved",
   "theorems": [
    "C29_larger_limit",
    "C29_one_outcome"
   ],
   "note": ""
  },
  {
   "property": "C30",
   "status": "proved",
   "theorems": [
    "C30_name_resolution"
   ],
   "note": ""
  },
  {
   "property": "C31",
   "status": "proved",
   "theorems": [
    "C31_too_many"
   ],
   "note": ""
  },
  {
   "property": "C32",
   "status": "partial",
   "theorems": [
    "C32_curry_partial",
    "C32_captured_name_refuted",
    "C32_self_call_refuted"
   ],
   "note": "False as stated in two cases, both shown: the captured scope binds the name of an argument given in the first call, and functions with a self-call in tail position. Proved for every split point when neither is the case (the second condition is: the body does not return the interpreter's internal marked pair)."
  },
  {
   "property": "C33",
   "status": "proved",
   "theorems": [
    "C33_catch_all",
    "C33_quote"
   ],
   "note": ""
  },
  {
   "property": "C34",
   "status": "proved",
   "theorems": [
    "C34_if",
    "C34_when",
    "C34_unless"
   ],
   "note": ""
  },
  {
   "property": "C35",
   "status": "proved",
   "theorems": [
    "C35_let"
   ],
   "note": "The enclosing scope is a value of the model and cannot change; what let stores for a function value (self-calls marked) is part of the specification."
  },
  {
   "property": "C36",
   "status": "partial",
   "theorems": [
    "C36_let_refuted",
    "C36_argument_refuted",
    "C36_first_wins_partial"
   ],
   "note": "False of the code: the first binding wins. That is proved for let; for calls it is part of C37_call (layers in argument order)."
  },
  {
   "property": "C37",
   "status": "proved",
   "theorems": [
    "C37_capture",
    "C37_call",
    "C37_scope_exists",
    "C37_scope_unique"
   ],
   "note": ""
  },
  {
   "property": "C26",
   "status": "partial",
   "theorems": [
    "C26_round_trip_partial",
    "C26_backslash_refuted",
    "C26_long_refuted"
   ],
   "note": "False for the backslash character and for texts longer than the read buffer. Proved for all other readable values, for the parser on any length and for lisp_read up to 1022 bytes."
  },
  {
   "property": "C27",
   "status": "proved",
   "theorems": [
    "C27_numerals"
   ],
   "note": ""
  },
  {
   "property": "C28",
   "status": "proved",
   "theorems": [
    "C28_tokens",
    "C28_reader",
    "C28_every_byte"
   ],
   "note": "The generated automaton is modelled by the regular expressions of lexer.rl with longest match."
  },
  {
   "property": "C38",
   "status": "partial",
   "theorems": [
    "C38_tail_calls_partial",
    "C38_alias_refuted"
   ],
   "note": "False when the function is called through another name. Proved for calls by name, for bodies whose tail positions are if/cond/match/prog/single-expression when/unless, when the name and keywords keep their meaning; results (not crashes) only."
  },
  {
   "property": "C39",
   "status": "partial",
   "theorems": [
    "C39_marks_partial",
    "C39_when_refuted"
   ],
   "note": "False for when/unless with several expressions and for |>. Proved for all other bodies."
  },
  {
   "property": "C40",
   "status": "partial",
   "theorems": [
    "C40_def_partial",
    "C40_refuted"
   ],
   "note": "False for empty bodies, bodies that are only a documentation string and let-bound builtins (null dereference). Proved for every non-empty body."
  },
  {
   "property": "C41",
   "status": "partial",
   "theorems": [
    "C41_setq_partial",
    "C41_nil",
    "C41_nil_refuted"
   ],
   "note": "False when the value is NIL: nothing is stored. Proved for every other value, and exactly what happens for NIL."
  },
  {
   "property": "C42",
   "status": "partial",
   "theorems": [
    "C42_global_partial",
    "C42_unbound",
    "C42_local",
    "C42_old_value_refuted"
   ],
   "note": "False for globals: the value returned is the pair (name . old value). Proved: the global is replaced, nothing else changes, and the unbound case; on the heap model, the local case."
  },
  {
   "property": "C45",
   "status": "partial",
   "theorems": [
    "C45_eval_partial",
    "C45_session_partial",
    "C45_nothing_forgotten",
    "C45_all_returned",
    "C45_any_refuted",
    "C45_set_leaks_refuted"
   ],
   "note": "False when a program assigns the name ANY (a freed cell is touched), and <- forgets a reference. Proved for every other program: no freed cell is touched, counts stay correct; nothing is forgotten without <- and def of a non-name."
  },
  {
   "property": "C43",
   "status": "proved",
   "theorems": [
    "C43_arithmetic",
    "C43_comparison"
   ],
   "note": ""
  },
  {
   "property": "C44",
   "status": "proved",
   "theorems": [
    "C44_stacks_restored",
    "C44_redirected",
    "C44_open_fails"
   ],
   "note": ""
  },
  {
   "property": "C48",
   "status": "partial",
   "theorems": [
    "C48_reader_partial",
    "C48_splice_refuted"
   ],
   "note": "False for the splice of a name (the tilde is kept in the name). Proved for the rest of the grammar; a spliced value must be a proper list."
  },
  {
   "property": "C49",
   "status": "partial",
   "theorems": [
    "C49_lines_partial",
    "C49_leftover",
    "C49_long_line_refuted"
   ],
   "note": "False for lines longer than the read buffer: a token on the boundary is cut. Proved for lines of at most 1022 bytes on which every token ends."
  },
  {
   "property": "C50",
   "status": "partial",
   "theorems": [
    "C50_ends_partial",
    "C50_strings_partial",
    "C50_long_string_refuted"
   ],
   "note": "False for a string literal of more than 1022 bytes. Proved for streams without string quotes, and for those in which no quote is followed by 1022 bytes without a quote."
  },
  {
   "property": "C51",
   "status": "partial",
   "theorems": [
    "C51_quoted_number_partial",
    "C51_negative_refuted"
   ],
   "note": "False for negative numbers, which become quoted names. Proved for all others."
  },
  {
   "property": "C52",
   "status": "partial",
   "theorems": [
    "C52_name_partial",
    "C52_long_name_refuted"
   ],
   "note": "False for names of more than 16 characters, which are split. Proved for all others."
  },
  {
   "property": "C03",
   "status": "proved",
   "theorems": [
    "C03_drop"
   ],
   "note": ""
  },
  {
   "property": "C04",
   "status": "proved",
   "theorems": [
    "C04_drop_returns",
    "C04_no_leak"
   ],
   "note": "The heap model does not reuse freed addresses; the allocator is C01/C02."
  },
  {
   "property": "C05",
   "status": "proved",
   "theorems": [
    "C05_make",
    "C05_cons",
    "C05_car",
    "C05_cdr",
    "C05_dup",
    "C05_conc",
    "C05_append",
    "C05_bind",
    "C05_update",
    "C05_merge"
   ],
   "note": "Merge is stated as all its callers use it: on a fresh shallow copy of the environment."
  },
  {
   "property": "C06",
   "status": "partial",
   "theorems": [
    "C06_conc_partial",
    "C06_self_refuted"
   ],
   "note": "False for (conc x x), which makes the list cyclic. Proved when the last pair of the first list is not part of the second list or of an element of the first."
  },
  {
   "property": "C47",
   "status": "partial",
   "theorems": [
    "C47_closure_partial",
    "C47_closure_refuted"
   ],
   "note": "False as stated: the cache ignores the requested size. Proved for histories using one size."
  },
  {
   "property": "C53",
   "status": "proved",
   "theorems": [
    "C53_predicates"
   ],
   "note": ""
  },
  {
   "property": "C54",
   "status": "proved",
   "theorems": [
    "C54_cons",
    "C54_car_cdr",
    "C54_inverse",
    "C54_len"
   ],
   "note": ""
  },
  {
   "property": "C55",
   "status": "proved",
   "theorems": [
    "C55_and",
    "C55_or"
   ],
   "note": ""
  },
  {
   "property": "C56",
   "status": "proved",
   "theorems": [
    "C56_list"
   ],
   "note": ""
  },
  {
   "property": "C57",
   "status": "partial",
   "theorems": [
    "C57_cond_partial",
    "C57_once_refuted"
   ],
   "note": "False as documented: the subject is evaluated again for every predicate tried. The rest of the statement is proved with that evaluation made explicit."
  },
  {
   "property": "C58",
   "status": "proved",
   "theorems": [
    "C58_while",
    "C58_prog"
   ],
   "note": ""
  },
  {
   "property": "C59",
   "status": "proved",
   "theorems": [
    "C59_pipe"
   ],
   "note": ""
  },
  {
   "property": "C60",
   "status": "proved",
   "theorems": [
    "C60_print"
   ],
   "note": "For the values on which the printer is right (C23, C25)."
  },
  {
   "property": "C61",
   "status": "proved",
   "theorems": [
    "C61_eval",
    "C61_chr"
   ],
   "note": ""
  },
  {
   "property": "C62",
   "status": "partial",
   "theorems": [
    "C62_match_partial",
    "C62_any_refuted"
   ],
   "note": "False when the subject uses the name ANY, which the interpreter binds around it. The rest is proved with that binding made explicit."
  },
  {
   "property": "C46",
   "status": "partial",
   "theorems": [
    "C46_map",
    "C46_foldr",
    "C46_foldl",
    "C46_map2",
    "C46_zip",
    "C46_rev",
    "C46_filter",
    "C46_has",
    "C46_plus",
    "C46_append_partial",
    "C46_append_refuted",
    "C46_assoc",
    "C46_erase",
    "C46_replc",
    "C46_accessors",
    "C46_last",
    "C46_last_refuted",
    "C46_rep",
    "C46_truncl",
    "C46_truncr",
    "C46_orelse"
   ],
   "note": "False for append when an argument after the first uses the name x (or another name of append.l), and for the last of manips.l when an element is NIL. Everything else is proved for the library as loaded from its text."
  },
  {
   "property": "C63",
   "status": "partial",
   "theorems": [
    "C63_builtins",
    "C63_functions_partial",
    "C63_other_name_refuted"
   ],
   "note": "False for a function that calls itself in tail position: under another name it returns the internal call record. Proved for builtins and for calls that end without such a self-call."
  },
  {
   "property": "C64",
   "status": "partial",
   "theorems": [
    "C64_isort_partial",
    "C64_isort_refuted",
    "C64_insert",
    "C64_strlt"
   ],
   "note": "False when the caller has a local name ins, which isort.l relies on being free. Proved in every other scope. insert needs elements that let binds unchanged."
  },
  {
   "property": "C65",
   "status": "partial",
   "theorems": [
    "C65_aton",
    "C65_ntoa_partial",
    "C65_round_trip_partial",
    "C65_refuted"
   ],
   "note": "ntoa of a negative number is not a numeral, and a local name descend in the caller breaks it. The round trip is proved for all numbers, the numeral for the others."
  },
  {
   "property": "C66",
   "status": "partial",
   "theorems": [
    "C66_eval_partial",
    "C66_session_partial",
    "C66_start",
    "C66_refuted"
   ],
   "note": "False when def flags self calls in code that data still refers to: the data changes. Proved for runs that return and in which def flags only code that nothing else refers to (checked along the run by code_owned), let flags none, ANY is not assigned and closures have association lists as scopes; conc and <- on a local name are left out."
  },
  {
   "property": "C67",
   "status": "partial",
   "theorems": [
    "C67_layout_partial"
   ],
   "note": "Under the restrictions of C66."
  },
  {
   "property": "C68",
   "status": "partial",
   "theorems": [
    "C68_names_partial",
    "C68_names_refuted",
    "C68_inside_partial",
    "C68_inside_refuted"
   ],
   "note": "False for names that only begin with @lib or ~ (taken as abbreviations) and inside scripts whose directory has a backslash. Proved for all other names that fit the buffers."
  },
  {
   "property": "C69",
   "status": "partial",
   "theorems": [
    "C69_names_partial",
    "C69_modules_partial",
    "C69_missing_refuted",
    "C69_long_refuted",
    "C69_home_refuted",
    "C69_search_refuted",
    "C69_path_refuted",
    "C69_pwd_refuted"
   ],
   "note": "False: a missing file named without a slash on the command line stores before a buffer, long names store past it, missing HOME or PWD are null pointers. A long HOME, a long MNML_MODULE_PATH, or a module in a directory with a long name store past the buffers of the module search. Proved for names that fit, inside scripts and with -e, and for modules when HOME is set and the search path fits."
  },
  {
   "property": "C70",
   "status": "proved",
   "theorems": [
    "C70_module",
    "C70_nowhere",
    "C70_coherent",
    "C70_start"
   ],
   "note": "Modules with distinct names of at most 16 bytes, and a search path that fits its buffers (C69 has what happens otherwise). dlopen is a function from paths to entries."
  },
  {
   "property": "C71",
   "status": "partial",
   "theorems": [
    "C71_load_partial",
    "C71_file_partial"
   ],
   "note": "For texts made of pieces that are read in one go (lines that fit the buffer, C49), names and directories as in C68; load and quit inside another expression are not modelled."
  },
  {
   "property": "C72",
   "status": "proved",
   "theorems": [
    "C72_restored",
    "C72_file"
   ],
   "note": "load and quit at top level of scripts (inside another expression they are not modelled)."
  },
  {
   "property": "C73",
   "status": "partial",
   "theorems": [
    "C73_expr_partial",
    "C73_script_refuted"
   ],
   "note": "False for scripts, which run on. Proved for -e; for interactive use it is part of C75_dialogue_partial."
  },
  {
   "property": "C74",
   "status": "partial",
   "theorems": [
    "C74_expr_partial",
    "C74_nil_refuted"
   ],
   "note": "False when an expression reads as NIL: evaluation ends there. Proved for all other texts."
  },
  {
   "property": "C75",
   "status": "partial",
   "theorems": [
    "C75_dialogue_partial",
    "C75_status_refuted"
   ],
   "note": "False for the status: at the end of the input it is -1 whatever was evaluated. The dialogue is proved for texts as in C71 and values that print as in C60; parse errors are not modelled."
  },
  {
   "property": "C76",
   "status": "partial",
   "theorems": [
    "C76_argv_partial",
    "C76_argv_refuted",
    "C76_env_partial",
    "C76_env_refuted"
   ],
   "note": "False for texts with a backslash and for variables with an empty value. Proved for the others."
  },
  {
   "property": "C77",
   "status": "partial",
   "theorems": [
    "C77_lines_partial",
    "C77_end",
    "C77_refuted"
   ],
   "note": "False for a last line without a newline, which loses its last byte, and for backslashes. Proved for texts whose lines all end and have no backslash; EOF and the consumption of bytes for all texts. getline is a function on the bytes left."
  },
  {
   "property": "C78",
   "status": "partial",
   "theorems": [
    "C78_connect_partial",
    "C78_listen_partial",
    "C78_accept",
    "C78_port_refuted",
    "C78_long_refuted"
   ],
   "note": "False for texts of 1024 bytes or more, which overrun a buffer, and for port 65535, which is refused. Proved for the others and every answer of the system; accept for addresses without a backslash."
  },
  {
   "property": "C79",
   "status": "partial",
   "theorems": [
    "C79_close_partial",
    "C79_nil_refuted"
   ],
   "note": "False for an operand that is NIL, which closes descriptor 0. Proved when the operands give descriptors."
  },
  {
   "property": "C80",
   "status": "partial",
   "theorems": [
    "C80_success_partial",
    "C80_refuted"
   ],
   "note": "False: failures of dup, fork and wait return the error number as a success would. The results of successful calls are proved."
  },
  {
   "property": "C81",
   "status": "partial",
   "theorems": [
    "C81_exec_partial",
    "C81_safe",
    "C81_refuted"
   ],
   "note": "False from the 127th argument on and for an empty environment. Proved for up to 126 arguments and 1 to 128 variables no longer than a path; no fault for all lists of texts."
  },
  {
   "property": "C82",
   "status": "partial",
   "theorems": [
    "C82_select_partial",
    "C82_refuted"
   ],
   "note": "False: the list of descriptors is taken from the last argument. Proved for descriptors below 1024 once the list is the one taken."
  },
  {
   "property": "C83",
   "status": "partial",
   "theorems": [
    "C83_unlink_partial",
    "C83_long_refuted"
   ],
   "note": "False for names of PATH_MAX bytes or more, which overrun a buffer. Proved for the others."
  },
  {
   "property": "C84",
   "status": "partial",
   "theorems": [
    "C84_args_partial",
    "C84_select_refuted",
    "C84_model"
   ],
   "note": "False for select. Proved for all other builtins when as many operands are given as declared."
  },
  {
   "property": "C85",
   "status": "partial",
   "theorems": [
    "C85_iter_partial",
    "C85_iter2_partial",
    "C85_refuted"
   ],
   "note": "False when let changes an answer it binds (or crashes on it): functions that call rslt, builtins. Proved when the answers, and for iter2 the elements and lists, are values that let binds unchanged."
  },
  {
   "property": "C86",
   "status": "partial",
   "theorems": [
    "C86_whitespace_refuted",
    "C86_trim_refuted"
   ],
   "note": "False: whitespace? answers something else than NIL for every value, and triml, trimr and trim return for no list."
  },
  {
   "property": "C87",
   "status": "proved",
   "theorems": [
    "C87_join",
    "C87_join_lists_partial",
    "C87_merge",
    "C87_dedup",
    "C87_skip"
   ],
   "note": "join is proved for lists of strings; for lists of other lists when let binds them unchanged."
  },
  {
   "property": "C88",
   "status": "partial",
   "theorems": [
    "C88_loads_partial",
    "C88_refuted",
    "C88_missing_refuted",
    "C88_all"
   ],
   "note": "False for isort.l (foldl is missing), iter2.l (let), http.l (cadr, cddr) and cc.l (NAME, atype). Proved for all other names of all 31 files, in an installation under /usr; the names that stand for themselves or are set while running are listed in the theorem."
  },
  {
   "property": "C89",
   "status": "partial",
   "theorems": [
    "C89_asks",
    "C89_runs_partial",
    "C89_no_run",
    "C89_file_wins",
    "C89_status"
   ],
   "note": "The options are proved for all argument lists. A run is proved for the files, expressions and dialogues of C71, C74 and C75; whether all cells were given back is a parameter. getopt is that of the C library."
  },
  {
   "property": "C90",
   "status": "partial",
   "theorems": [
    "C90_equal_partial",
    "C90_predicate_partial",
    "C90_refuted"
   ],
   "note": "False when the expression mentions EXPECT, ACTUAL, OP (PREDICATE, VALUE) or when let changes the expression or its value, or crashes on it (builtins). Proved for the other expressions, with any effects."
  },
  {
   "property": "C91",
   "status": "partial",
   "theorems": [
    "C91_run_partial",
    "C91_refuted"
   ],
   "note": "False for two tests of the same name (the first runs twice, the second never) and for arguments that are not options (the tests run). Proved for tests of different names without arguments, when the tests do not depend on the names used inside test:run."
  },
  {
   "property": "C92",
   "status": "proved",
   "theorems": [
    "C92_escape",
    "C92_width"
   ],
   "note": "Widths are counted in bytes."
  },
  {
   "property": "C93",
   "status": "partial",
   "theorems": [
    "C93_parse_partial",
    "C93_handler",
    "C93_refuted"
   ],
   "note": "False: NIL is the value for no arguments as well as for a failure, handlers that call themselves in tail position stop early, and handlers see the names of the parser. Proved for all other handlers, with any effects."
  },
  {
   "property": "C94",
   "status": "partial",
   "theorems": [
    "C94_read_partial",
    "C94_lines_partial",
    "C94_printed",
    "C94_script",
    "C94_end_refuted",
    "C94_order_refuted",
    "C94_script_refuted"
   ],
   "note": "False: the end of the input and the expression NIL give the same value; readline overtakes expressions that share a line with one that was read; in a script read takes the script's own next expression. Proved for inputs whose lines fit the buffer, and for readline at the end of a line."
  },
  {
   "property": "C95",
   "status": "partial",
   "theorems": [
    "C95_same",
    "C95_values_partial",
    "C95_safe_partial",
    "C95_no_garbage_partial",
    "C95_allocator",
    "C95_any_refuted"
   ],
   "note": "Every function of the evaluator in recycled memory, simulated by the one that never reuses a cell, and driving the allocator of C02. False when a program assigns ANY: the clauses of match are read from a cell handed out again. Excluded besides: builtins called through function values made by hand; for the values also the sessions C66 excludes; for the garbage also <-, def of non-symbols, and cycles."
  },
  {
   "property": "C96",
   "status": "partial",
   "theorems": [
    "C96_safe_partial",
    "C96_values_partial",
    "C96_order",
    "C96_splice_refuted",
    "C96_cycle_refuted",
    "C96_leak_refuted"
   ],
   "note": "False: a splice joins the value itself to the list being read, so reading alters the list a global holds, or makes one without end; an expression that is not complete when it is closed is forgotten with its cells. Proved: safety for all texts unless ANY is assigned; the values for complete expressions without splices; the order on a channel for all sequences."
  },
  {
   "property": "C97",
   "status": "proved",
   "theorems": [
    "C97_tree",
    "C97_lookup",
    "C97_returned",
    "C97_values_returned"
   ],
   "note": "All histories, all heaps, all values. The fuel (the depth reached by a search) is any number above the length of the history."
  },
  {
   "property": "C98",
   "status": "proved",
   "theorems": [
    "C98_count",
    "C98_session"
   ],
   "note": "All histories of the allocator; sessions as restricted in the statement (with <- or a cycle cells are forgotten: C45, C95)."
  },
  {
   "property": "C99",
   "status": "partial",
   "theorems": [
    "C99_placeholder_partial",
    "C99_argument_partial",
    "C99_index",
    "C99_replace",
    "C99_front",
    "C99_refuted"
   ],
   "note": "False for arguments whose name begins with an underscore, which are taken for placeholders, and for numbers from 10^15 on, whose placeholders are cut to 16 characters. Proved for all other names of at most 16 characters and all smaller numbers; the functions on lists for all lists."
  },
  {
   "property": "C100",
   "status": "proved",
   "theorems": [
    "C100_mark",
    "C100_marks",
    "C100_constant",
    "C100_replace"
   ],
   "note": "The functions as loaded from the text of cps.l."
  },
  {
   "property": "C101",
   "status": "partial",
   "theorems": [
    "C101_agree_partial",
    "C101_conflict",
    "C101_different",
    "C101_all",
    "C101_open_refuted"
   ],
   "note": "False for the order: UNDEF marked after another type gives ERROR. Proved exactly which lists of types give a type, and that all others give ERROR. The places in cps.l that mark UNDEF check first that the name has no type, which is not modelled."
  },
  {
   "property": "C102",
   "status": "proved",
   "theorems": [
    "C102_get",
    "C102_one",
    "C102_marks"
   ],
   "note": "The function as loaded from the text of cps.l; the marks as in C100, what they give as in C101."
  },
  {
   "property": "C103",
   "status": "proved",
   "theorems": [
    "C103_refs",
    "C103_uses"
   ],
   "note": "The function as loaded from the text of cps.l, for operands that are not flagged as self calls and that let keeps as they are (they do not have the shape of a function that calls params)."
  },
  {
   "property": "C104",
   "status": "partial",
   "theorems": [
    "C104_refuted",
    "C104_nil_refuted",
    "C104_head_refuted",
    "C104_swap_partial",
    "C104_total",
    "C104_numbers",
    "C104_distinct",
    "C104_bound_partial",
    "C104_convert_partial"
   ],
   "note": "False for the whole conversion: an if with a list for a branch, to the right of another list, leaves a placeholder unbound, so does a call whose head is a list, and NIL as an operand becomes a call without its operand. Proved for the numbering within a call (cps:swap), and, for expressions without conditionals whose heads are names, that the conversion (cps:lift, and >& on the name of a function) binds all placeholders and neither loses nor captures the names of the expression and the continuation. Missing: conditionals in the places where it holds, and >& on a function that is not given by name, which is only computed."
  }
 ]
}