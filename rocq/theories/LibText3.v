(** * LibText3: the test framework of the bundled library, verbatim (written by tools/gen_lib.py). *)
From Coq Require Import String.
Open Scope string_scope.

(** share/mnml/term.l:1-70 *)
Definition term_l : string := "(load
	""append.l""
	""iter.l""
	""manips.l""
	""truncr.l""
	'(math >= -)
	'(std |> if sym len list eval cons chr \))

#
# Escape STR with CODE.
#
(def term:esc (CODE STR)
	""Escape STR with CODE.""
	(|>
		""[0m""
		(cons (chr 27))
		($+ STR)
		(cons ^m)
		($+ CODE)
		(cons ^[)
		(cons (chr 27))))

#
# Generate formatting escape definitions.
#
(iter (\ ((name . code))
				(let ((symb . (sym (append ""term:"" name)))
							(body . (list 'term:esc code 'STR)))
					(eval (list 'def symb '(STR) body))))
	'((""normal""			. ""0"")
		(""bold""			 	. ""1"")
		(""italic""		 	. ""3"")
		(""underlined""	. ""4"")
		(""reversed""		. ""7"")
		(""striked""		. ""9"")
		#
		(""black""		. ""0;30"")
		(""red""			. ""0;31"")
		(""green""		. ""0;32"")
		(""orange""		. ""0;33"")
		(""blue""			. ""0;34"")
		(""purple""		. ""0;35"")
		(""cyan""			. ""0;36"")
		(""gray+""		. ""0;37"")
		(""gray-""		. ""1;30"")
		(""red+""			. ""1;31"")
		(""green+""		. ""1;32"")
		(""yellow""		. ""1;33"")
		(""blue+""		. ""1;34"")
		(""purple+""	. ""1;35"")
		(""cyan+""	 	. ""1;36"")
		(""white""	 	. ""1;37"")
		))

#
# Padding operations.
#
(def term:left (WLEN STR)
	""Pad STR to the left using WLEN length.""
	(let ((delta . (- WLEN (len STR))))
		(if (>= delta 0)
			($+ STR (rep delta ^ ))
			(truncl WLEN STR))))

(def term:right (WLEN STR)
	""Pad STR to the right using WLEN length.""
	(let ((delta . (- WLEN (len STR))))
		(if (>= delta 0)
			($+ (rep delta ^ ) STR)
			(truncr WLEN STR))))
".

(** share/mnml/test.l:1-93 *)
Definition test_l : string := "(load
	""args.l""
	""has.l""
	""iter.l""
	""iterators.l""
	""split.l""
	""term.l""
	'(io prin printl prinl)
	'(logic = and)
	'(math >)
	'(std len let if eval cond prog car setq tru?)
	'(sys slabinfo))

(def usage ()
  ""Print out a usage string for the testsuite.""
  (let ((arg0 . (car (cdr ARGV)))
        (prgn . (car (rev (split arg0 ^/)))))
    (prinl ""Usage: "" prgn "" [-l|-t test1,test2,...|-h] "")
    (prinl)
    (prinl ""  -l  List available tests"")
    (prinl ""  -t  Comma-separated list of tests"")
    (prinl ""  -h  Print this help"")
    ))

(setq options
  '((""-l"" . (\ ()			(setq LST T)))
    (""-t"" . (\ (LST)	(setq TST (map (\ (e) (cons e NIL)) (split LST ^,)))))
    (""-h"" . usage)))

(def test:run (SUITE . TESTS)
	""Run all tests specified as a ((NAME . TEST)) list.""
	(let ((args . (args:parse options))
				(hdr	. (\ () (prinl (term:bold ""["") (term:bold SUITE) (term:bold ""]""))))
				(pad	. (\ (LST) (foldl (\ (acc (name . _))
																	(let ((nlen . (len name)))
																		(if (> nlen acc) nlen acc)))
													 0 LST)))
				(exe	. (\ (acc (name . _)) (let ((test . (assoc name TESTS)))
									 (if test
										 (and acc
											 (cond (eval test)
												 (tru?	. (prog (prinl ""✓ "" (|<- name) "": "" (term:green ""passed"")) T))
												 (_			. (prog (prinl ""! "" (|<- name) "": "" (term:red ""failed"")) NIL))))
										 (prog
											 (prinl ""! "" (|<- name) "": "" (term:red ""not found""))
											 NIL))))))
		(if (has args ""-t"")
			(let ((|<- . (term:left (pad TST))))
				(hdr)
				(foldl exe T TST))
			(let ((|<- . (term:left (pad TESTS))))
				(if (has args ""-l"")
					(prog
						(hdr)
						(iter (\ ((name . _)) (prinl ""- "" (|<- name))) TESTS))
					(when (not (has args ""-h""))
						(hdr)
						(foldl exe T TESTS))
					)))))

(def test:slabdelta ()
	""Return the slab allocator position.""
	(let (((alloc . free) . (slabinfo))) (- alloc free)))

(def assert:equal (EXPECT . ACTUAL)
	""Assert that EXPECT and ACTUAL are equal.""
	(let ((OP . (car ACTUAL))
				(EVAL . (eval OP)))
		(if (= EXPECT EVAL)
			T
			(prog
				(prinl (term:red ""> FAILED ""))
				(prin ""! "" (term:underlined ""Expect"") "": "")
				(printl EXPECT)
				(prin ""! "" (term:underlined ""Actual"") "": "")
				(printl EVAL)
				NIL
				))))

(def assert:predicate (PREDICATE . VALUE)
	""Assert that VALUE matches the PREDICATE.""
	(let ((OP . (car VALUE))
				(EVAL . (eval OP)))
		(if (PREDICATE EVAL)
			T
			(prog
				(prinl (term:red ""> FAILED ""))
				(prin ""! "" (term:underlined ""Predicate"") "": "")
				(printl PREDICATE)
				(prin ""! "" (term:underlined ""Value"") "": "")
				(printl EVAL)
				NIL
				))))
".
