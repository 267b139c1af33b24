#!/usr/bin/env python3
"""Writes MANIFEST.json from the table below, checking that every theorem exists."""
import json, re, glob, os
root = os.path.dirname(os.path.dirname(os.path.abspath(__file__)))
P, Q, NA = "proved", "partial", "not_applicable"
claims = [
 ("C01", P, ["C01_alloc_fresh"], ""),
 ("C02", P, ["C02_accounting", "C02_growth", "C02_abort_exact"], ""),
 ("C07", P, ["C07_program", "C07_equ_structural", "C07_equ_equivalence", "C07_equ_types"], ""),
 ("C08", P, ["C08_neq_negation", "C07_program"], "C07_program covers programs that use <>."),
 ("C09", P, ["C09_bind_part", "C09_bind_frame"], ""),
 ("C10", P, ["C10_merge_map", "C10_merge_sorted", "C10_sorted_canonical", "C10_unaltered"], "C10_unaltered is about the memory: the scope extended, and all else in use, reads the same afterwards."),
 ("C11", P, ["C11_fixed", "C11_rest"], ""),
 ("C12", P, ["C12_string", "C12_escapes", "C12_plain", "C12_no_longer"], ""),
 ("C13", Q, ["C13_cstring_partial", "C13_cstring_refuted", "C13_cstring_boundary"],
  "False as stated: with a buffer of exactly the stated capacity every string at least that long overruns by one byte. Safe and exact when the buffer has one more byte."),
 ("C14", P, ["C14_identity", "C14_match", "C14_order", "C14_total_order"], ""),
 ("C15", Q, ["C15_sym_str_partial", "C15_str_sym_partial", "C15_refuted"],
  "False as stated for names containing a backslash (escape processing); proved for all others."),
 ("C16", P, ["C16_match_instance", "C16_first_clause"], "The subject of match is evaluated in the caller's scope with the interpreter's own name ANY bound on top; the theorem says so."),
 ("C17", P, ["C17_globals_map"], ""),
 ("C18", P, ["C18_insertion_safe"], ""),
 ("C19", Q, ["C19_ends_partial", "C19_no_red_red_refuted", "C19_height_refuted"],
  "False of the code: the double rotation cases rotate at the wrong node, so coloured nodes get coloured children and the height can equal the number of names. Proved when every new name sorts before or after all the names defined so far (then only the outer cases are taken)."),
 ("C20", P, ["C20_update_in_place"], ""),
 ("C21", Q, ["C21_remove_partial", "C21_remove_crash_refuted", "C21_remove_loses_refuted", "C21_remove_absent_refuted"],
  "False of the code for uncoloured nodes and absent keys (invalid dereference, lost bindings). Proved for coloured nodes with a NIL child."),
 ("C22", P, ["C22_cache_never_stale"], ""),
 ("C23", P, ["C23_literal_print"], ""),
 ("C24", P, ["C24_buffer_safe", "C24_number_buffer"], ""),
 ("C25", Q, ["C25_symbolic_partial", "C25_symbolic_refuted"],
  "False as stated: a NIL element resets the staging index and loses staged text. Proved for values in which NIL only terminates lists."),
 ("C29", P, ["C29_larger_limit", "C29_one_outcome"], ""),
 ("C30", P, ["C30_name_resolution"], ""),
 ("C31", P, ["C31_too_many"], ""),
 ("C32", Q, ["C32_curry_partial", "C32_captured_name_refuted", "C32_self_call_refuted"],
  "False as stated in two cases, both shown: the captured scope binds the name of an argument given in the first call, and functions with a self-call in tail position. Proved for every split point when neither is the case (the second condition is: the body does not return the interpreter's internal marked pair)."),
 ("C33", P, ["C33_catch_all", "C33_quote"], ""),
 ("C34", P, ["C34_if", "C34_when", "C34_unless"], ""),
 ("C35", P, ["C35_let"], "The enclosing scope is a value of the model and cannot change; what let stores for a function value (self-calls marked) is part of the specification."),
 ("C36", Q, ["C36_let_refuted", "C36_argument_refuted", "C36_first_wins_partial"],
  "False of the code: the first binding wins. That is proved for let; for calls it is part of C37_call (layers in argument order)."),
 ("C37", P, ["C37_capture", "C37_call", "C37_scope_exists", "C37_scope_unique"], ""),
 ("C26", Q, ["C26_round_trip_partial", "C26_backslash_refuted", "C26_long_refuted"],
  "False for the backslash character and for texts longer than the read buffer. Proved for all other readable values, for the parser on any length and for lisp_read up to 1022 bytes."),
 ("C27", P, ["C27_numerals"], ""),
 ("C28", P, ["C28_tokens", "C28_reader", "C28_every_byte"], "The generated automaton is modelled by the regular expressions of lexer.rl with longest match."),
 ("C38", Q, ["C38_tail_calls_partial", "C38_alias_refuted"],
  "False when the function is called through another name. Proved for calls by name, for bodies whose tail positions are if/cond/match/prog/single-expression when/unless, when the name and keywords keep their meaning; results (not crashes) only."),
 ("C39", Q, ["C39_marks_partial", "C39_when_refuted"],
  "False for when/unless with several expressions and for |>. Proved for all other bodies."),
 ("C40", Q, ["C40_def_partial", "C40_refuted"],
  "False for empty bodies, bodies that are only a documentation string and let-bound builtins (null dereference). Proved for every non-empty body."),
 ("C41", Q, ["C41_setq_partial", "C41_nil", "C41_nil_refuted"],
  "False when the value is NIL: nothing is stored. Proved for every other value, and exactly what happens for NIL."),
 ("C42", Q, ["C42_global_partial", "C42_unbound", "C42_local", "C42_old_value_refuted"],
  "False for globals: the value returned is the pair (name . old value). Proved: the global is replaced, nothing else changes, and the unbound case; on the heap model, the local case."),
 ("C45", Q, ["C45_eval_partial", "C45_session_partial", "C45_nothing_forgotten", "C45_all_returned", "C45_any_refuted", "C45_set_leaks_refuted"],
  "False when a program assigns the name ANY (a freed cell is touched), and <- forgets a reference. Proved for every other program: no freed cell is touched, counts stay correct; nothing is forgotten without <- and def of a non-name."),
 ("C43", P, ["C43_arithmetic", "C43_comparison"], ""),
 ("C44", P, ["C44_stacks_restored", "C44_redirected", "C44_open_fails"], ""),
 ("C48", Q, ["C48_reader_partial", "C48_splice_refuted"],
  "False for the splice of a name (the tilde is kept in the name). Proved for the rest of the grammar; a spliced value must be a proper list."),
 ("C49", Q, ["C49_lines_partial", "C49_leftover", "C49_long_line_refuted"],
  "False for lines longer than the read buffer: a token on the boundary is cut. Proved for lines of at most 1022 bytes on which every token ends."),
 ("C50", Q, ["C50_ends_partial", "C50_strings_partial", "C50_long_string_refuted"],
  "False for a string literal of more than 1022 bytes. Proved for streams without string quotes, and for those in which no quote is followed by 1022 bytes without a quote."),
 ("C51", Q, ["C51_quoted_number_partial", "C51_negative_refuted"],
  "False for negative numbers, which become quoted names. Proved for all others."),
 ("C52", Q, ["C52_name_partial", "C52_long_name_refuted"],
  "False for names of more than 16 characters, which are split. Proved for all others."),
 ("C03", P, ["C03_drop"], ""),
 ("C04", P, ["C04_drop_returns", "C04_no_leak"], "The heap model does not reuse freed addresses; the allocator is C01/C02."),
 ("C05", P, ["C05_make", "C05_cons", "C05_car", "C05_cdr", "C05_dup", "C05_conc", "C05_append", "C05_bind", "C05_update", "C05_merge"],
  "Merge is stated as all its callers use it: on a fresh shallow copy of the environment."),
 ("C06", Q, ["C06_conc_partial", "C06_self_refuted"],
  "False for (conc x x), which makes the list cyclic. Proved when the last pair of the first list is not part of the second list or of an element of the first."),
 ("C47", Q, ["C47_closure_partial", "C47_closure_refuted"],
  "False as stated: the cache ignores the requested size. Proved for histories using one size."),
 ("C53", P, ["C53_predicates"], ""),
 ("C54", P, ["C54_cons", "C54_car_cdr", "C54_inverse", "C54_len"], ""),
 ("C55", P, ["C55_and", "C55_or"], ""),
 ("C56", P, ["C56_list"], ""),
 ("C57", Q, ["C57_cond_partial", "C57_once_refuted"],
  "False as documented: the subject is evaluated again for every predicate tried. The rest of the statement is proved with that evaluation made explicit."),
 ("C58", P, ["C58_while", "C58_prog"], ""),
 ("C59", P, ["C59_pipe"], ""),
 ("C60", P, ["C60_print"], "For the values on which the printer is right (C23, C25)."),
 ("C61", P, ["C61_eval", "C61_chr"], ""),
 ("C62", Q, ["C62_match_partial", "C62_any_refuted"],
  "False when the subject uses the name ANY, which the interpreter binds around it. The rest is proved with that binding made explicit."),
 ("C46", Q, ["C46_map", "C46_foldr", "C46_foldl", "C46_map2", "C46_zip", "C46_rev", "C46_filter", "C46_has", "C46_plus", "C46_append_partial", "C46_append_refuted", "C46_assoc", "C46_erase", "C46_replc", "C46_accessors", "C46_last", "C46_last_refuted", "C46_rep", "C46_truncl", "C46_truncr", "C46_orelse"],
  "False for append when an argument after the first uses the name x (or another name of append.l), and for the last of manips.l when an element is NIL. Everything else is proved for the library as loaded from its text."),
 ("C63", Q, ["C63_builtins", "C63_functions_partial", "C63_other_name_refuted"],
  "False for a function that calls itself in tail position: under another name it returns the internal call record. Proved for builtins and for calls that end without such a self-call."),
 ("C64", Q, ["C64_isort_partial", "C64_isort_refuted", "C64_insert", "C64_strlt"],
  "False when the caller has a local name ins, which isort.l relies on being free. Proved in every other scope. insert needs elements that let binds unchanged."),
 ("C65", Q, ["C65_aton", "C65_ntoa_partial", "C65_round_trip_partial", "C65_refuted"],
  "ntoa of a negative number is not a numeral, and a local name descend in the caller breaks it. The round trip is proved for all numbers, the numeral for the others."),
 ("C66", Q, ["C66_eval_partial", "C66_session_partial", "C66_start", "C66_refuted"],
  "False when def flags self calls in code that data still refers to: the data changes. Proved for runs that return and in which def flags only code that nothing else refers to (checked along the run by code_owned), let flags none, ANY is not assigned and closures have association lists as scopes; conc and <- on a local name are left out."),
 ("C67", Q, ["C67_layout_partial"],
  "Under the restrictions of C66."),
 ("C68", Q, ["C68_names_partial", "C68_names_refuted", "C68_inside_partial", "C68_inside_refuted"],
  "False for names that only begin with @lib or ~ (taken as abbreviations) and inside scripts whose directory has a backslash. Proved for all other names that fit the buffers."),
 ("C69", Q, ["C69_names_partial", "C69_modules_partial", "C69_missing_refuted", "C69_long_refuted", "C69_home_refuted", "C69_search_refuted", "C69_path_refuted", "C69_pwd_refuted"],
  "False: a missing file named without a slash on the command line stores before a buffer, long names store past it, missing HOME or PWD are null pointers. A long HOME, a long MNML_MODULE_PATH, or a module in a directory with a long name store past the buffers of the module search. Proved for names that fit, inside scripts and with -e, and for modules when HOME is set and the search path fits."),
 ("C70", P, ["C70_module", "C70_nowhere", "C70_coherent", "C70_start"],
  "Modules with distinct names of at most 16 bytes, and a search path that fits its buffers (C69 has what happens otherwise). dlopen is a function from paths to entries."),
 ("C71", Q, ["C71_load_partial", "C71_file_partial"],
  "For texts made of pieces that are read in one go (lines that fit the buffer, C49), names and directories as in C68; load and quit inside another expression are not modelled."),
 ("C72", P, ["C72_restored", "C72_file"],
  "load and quit at top level of scripts (inside another expression they are not modelled)."),
 ("C73", Q, ["C73_expr_partial", "C73_script_refuted"],
  "False for scripts, which run on. Proved for -e; for interactive use it is part of C75_dialogue_partial."),
 ("C74", Q, ["C74_expr_partial", "C74_nil_refuted"],
  "False when an expression reads as NIL: evaluation ends there. Proved for all other texts."),
 ("C75", Q, ["C75_dialogue_partial", "C75_status_refuted"],
  "False for the status: at the end of the input it is -1 whatever was evaluated. The dialogue is proved for texts as in C71 and values that print as in C60; parse errors are not modelled."),
 ("C76", Q, ["C76_argv_partial", "C76_argv_refuted", "C76_env_partial", "C76_env_refuted"],
  "False for texts with a backslash and for variables with an empty value. Proved for the others."),
 ("C77", Q, ["C77_lines_partial", "C77_end", "C77_refuted"],
  "False for a last line without a newline, which loses its last byte, and for backslashes. Proved for texts whose lines all end and have no backslash; EOF and the consumption of bytes for all texts. getline is a function on the bytes left."),
 ("C78", Q, ["C78_connect_partial", "C78_listen_partial", "C78_accept", "C78_port_refuted", "C78_long_refuted"],
  "False for texts of 1024 bytes or more, which overrun a buffer, and for port 65535, which is refused. Proved for the others and every answer of the system; accept for addresses without a backslash."),
 ("C79", Q, ["C79_close_partial", "C79_nil_refuted"],
  "False for an operand that is NIL, which closes descriptor 0. Proved when the operands give descriptors."),
 ("C80", Q, ["C80_success_partial", "C80_refuted"],
  "False: failures of dup, fork and wait return the error number as a success would. The results of successful calls are proved."),
 ("C81", Q, ["C81_exec_partial", "C81_safe", "C81_refuted"],
  "False from the 127th argument on and for an empty environment. Proved for up to 126 arguments and 1 to 128 variables no longer than a path; no fault for all lists of texts."),
 ("C82", Q, ["C82_select_partial", "C82_refuted"],
  "False: the list of descriptors is taken from the last argument. Proved for descriptors below 1024 once the list is the one taken."),
 ("C83", Q, ["C83_unlink_partial", "C83_long_refuted"],
  "False for names of PATH_MAX bytes or more, which overrun a buffer. Proved for the others."),
 ("C84", Q, ["C84_args_partial", "C84_select_refuted", "C84_model"],
  "False for select. Proved for all other builtins when as many operands are given as declared."),
 ("C85", Q, ["C85_iter_partial", "C85_iter2_partial", "C85_refuted"],
  "False when let changes an answer it binds (or crashes on it): functions that call rslt, builtins. Proved when the answers, and for iter2 the elements and lists, are values that let binds unchanged."),
 ("C86", Q, ["C86_whitespace_refuted", "C86_trim_refuted"],
  "False: whitespace? answers something else than NIL for every value, and triml, trimr and trim return for no list."),
 ("C87", P, ["C87_join", "C87_join_lists_partial", "C87_merge", "C87_dedup", "C87_skip"],
  "join is proved for lists of strings; for lists of other lists when let binds them unchanged."),
 ("C88", Q, ["C88_loads_partial", "C88_refuted", "C88_missing_refuted", "C88_all"],
  "False for isort.l (foldl is missing), iter2.l (let), http.l (cadr, cddr) and cc.l (NAME, atype). Proved for all other names of all 31 files, in an installation under /usr; the names that stand for themselves or are set while running are listed in the theorem."),
 ("C89", Q, ["C89_asks", "C89_runs_partial", "C89_no_run", "C89_file_wins", "C89_status"],
  "The options are proved for all argument lists. A run is proved for the files, expressions and dialogues of C71, C74 and C75; whether all cells were given back is a parameter. getopt is that of the C library."),
 ("C90", Q, ["C90_equal_partial", "C90_predicate_partial", "C90_refuted"],
  "False when the expression mentions EXPECT, ACTUAL, OP (PREDICATE, VALUE) or when let changes the expression or its value, or crashes on it (builtins). Proved for the other expressions, with any effects."),
 ("C91", Q, ["C91_run_partial", "C91_refuted"],
  "False for two tests of the same name (the first runs twice, the second never) and for arguments that are not options (the tests run). Proved for tests of different names without arguments, when the tests do not depend on the names used inside test:run."),
 ("C92", P, ["C92_escape", "C92_width"], "Widths are counted in bytes."),
 ("C93", Q, ["C93_parse_partial", "C93_handler", "C93_refuted"],
  "False: NIL is the value for no arguments as well as for a failure, handlers that call themselves in tail position stop early, and handlers see the names of the parser. Proved for all other handlers, with any effects."),
 ("C94", Q, ["C94_read_partial", "C94_lines_partial", "C94_printed", "C94_script", "C94_end_refuted", "C94_order_refuted", "C94_script_refuted"],
  "False: the end of the input and the expression NIL give the same value; readline overtakes expressions that share a line with one that was read; in a script read takes the script's own next expression. Proved for inputs whose lines fit the buffer, and for readline at the end of a line."),
 ("C95", Q, ["C95_same", "C95_values_partial", "C95_safe_partial", "C95_no_garbage_partial", "C95_allocator", "C95_any_refuted"],
  "Every function of the evaluator in recycled memory, simulated by the one that never reuses a cell, and driving the allocator of C02. False when a program assigns ANY: the clauses of match are read from a cell handed out again. Excluded besides: builtins called through function values made by hand; for the values also the sessions C66 excludes; for the garbage also <-, def of non-symbols, and cycles."),
 ("C96", Q, ["C96_safe_partial", "C96_values_partial", "C96_order", "C96_splice_refuted", "C96_cycle_refuted", "C96_leak_refuted"],
  "False: a splice joins the value itself to the list being read, so reading alters the list a global holds, or makes one without end; an expression that is not complete when it is closed is forgotten with its cells. Proved: safety for all texts unless ANY is assigned; the values for complete expressions without splices; the order on a channel for all sequences."),
 ("C97", P, ["C97_tree", "C97_lookup", "C97_returned", "C97_values_returned"],
  "All histories, all heaps, all values. The fuel (the depth reached by a search) is any number above the length of the history."),
 ("C98", P, ["C98_count", "C98_session"],
  "All histories of the allocator; sessions as restricted in the statement (with <- or a cycle cells are forgotten: C45, C95)."),
 ("C99", Q, ["C99_placeholder_partial", "C99_argument_partial", "C99_index", "C99_replace", "C99_front", "C99_refuted"],
  "False for arguments whose name begins with an underscore, which are taken for placeholders, and for numbers from 10^15 on, whose placeholders are cut to 16 characters. Proved for all other names of at most 16 characters and all smaller numbers; the functions on lists for all lists."),
 ("C100", P, ["C100_mark", "C100_marks", "C100_constant", "C100_replace"],
  "The functions as loaded from the text of cps.l."),
 ("C101", Q, ["C101_agree_partial", "C101_conflict", "C101_different", "C101_all", "C101_open_refuted"],
  "False for the order: UNDEF marked after another type gives ERROR. Proved exactly which lists of types give a type, and that all others give ERROR. The places in cps.l that mark UNDEF check first that the name has no type, which is not modelled."),
 ("C102", P, ["C102_get", "C102_one", "C102_marks"],
  "The function as loaded from the text of cps.l; the marks as in C100, what they give as in C101."),
 ("C103", P, ["C103_refs", "C103_uses"],
  "The function as loaded from the text of cps.l, for operands that are not flagged as self calls and that let keeps as they are (they do not have the shape of a function that calls params)."),
 ("C104", Q, ["C104_refuted", "C104_nil_refuted", "C104_head_refuted", "C104_swap_partial", "C104_total", "C104_numbers", "C104_distinct", "C104_bound_partial", "C104_convert_partial"],
  "False for the whole conversion: an if with a list for a branch, to the right of another list, leaves a placeholder unbound, so does a call whose head is a list, and NIL as an operand becomes a call without its operand. Proved for the numbering within a call (cps:swap), and, for expressions without conditionals whose heads are names, that the conversion (cps:lift, and >& on the name of a function) binds all placeholders and neither loses nor captures the names of the expression and the continuation. Missing: conditionals in the places where it holds, and >& on a function that is not given by name, which is only computed."),
]
src = ""
for f in glob.glob(os.path.join(root, "rocq/theories/Properties*.v")):
    src += open(f).read()
names = set(re.findall(r"^Theorem\s+(\w+)", src, re.M))
used = set()
for (c, s, ths, n) in claims:
    for t in ths:
        assert t in names, (c, t)
        used.add(t)
props = [json.loads(l)["id"] for l in open(os.path.join(root, "properties.jsonl"))]
have = {c[0] for c in claims}
print("properties without claim:", [p for p in props if p not in have])
print("theorems not referenced:", sorted(names - used))
json.dump({"claims": [{"property": c, "status": s, "theorems": t, "note": n} for c, s, t, n in claims]},
          open(os.path.join(root, "MANIFEST.json"), "w"), indent=1)
