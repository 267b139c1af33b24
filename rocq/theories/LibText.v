(** * LibText: the bundled library, verbatim (written by tools/gen_lib.py). *)
From Coq Require Import String.
Open Scope string_scope.

(** share/mnml/iterators.l:1-38 *)
Definition iterators_l : string := "(load
	'(logic and not)
	'(std if lst? nil? car cdr cons))

(def foldl (fun acc lst)
	""Left-fold FUN over LST with ACC as the default accumulator value.""
	(if (lst? lst)
		(if (nil? lst)
			acc
			(foldl fun (fun acc (car lst)) (cdr lst)))
		(fun acc lst)))

(def foldr (fun lst acc)
	""Right-fold FUN over LST with ACC as the default accumulator value.""
	(if (lst? lst)
		(if (nil? lst)
			acc
			(fun (car lst) (foldr fun (cdr lst) acc)))
		(fun lst acc)))

(def map (fun lst)
	""Sequentially apply FUN to all elements of LST.""
	(if (and (not (nil? lst)) (lst? lst))
		(cons
			(fun (car lst))
			(map fun (cdr lst)))
		lst))

(def map2 (fun lst1 lst2)
	""Apply FUN to all elements of both LST1 and LST2.""
	(if (and (and (not (nil? lst1)) (lst? lst1)) (and (not (nil? lst2)) (lst? lst2)))
		(cons
			(fun (car lst1) (car lst2))
			(map2 fun (cdr lst1) (cdr lst2)))))

(def zip (lst1 lst2)
	""Sequentially pair-up elements from LST1 and LST2.""
	(map2 cons lst1 lst2))
".

(** share/mnml/rev.l:1-5 *)
Definition rev_l : string := "(load ""iterators.l"" '(std \ cons))

(def rev (lst)
	""Reverse LST.""
	(foldl (\ (acc e) (cons e acc)) NIL lst))
".

(** share/mnml/filter.l:1-7 *)
Definition filter_l : string := "(load ""iterators.l"" '(std \ if cons))

(def filter (fun lst)
	""Filter out element of LST that match FUN.""
	(foldr
		(\ (e acc) (if (fun e) acc (cons e acc)))
		lst NIL))
".

(** share/mnml/append.l:1-11 *)
Definition append_l : string := "(load ""iterators.l"" '(std \ eval cons))

(def append (x . @)
	""Non-destructively concatenate multiple strings.""
	(foldl (\ (acc0 e0)
					 (foldr (\ (e1 acc1) (cons e1 acc1)) acc0 (eval e0)))
		x @))

(def $+ (x y)
	""Non-destructively concatenate two strings.""
	(append x y))
".

(** share/mnml/has.l:1-5 *)
Definition has_l : string := "(load ""iterators.l"" '(logic = or) '(std \))

(def has (LST X)
	""Check if X is in LST""
	(foldl (\ (acc e) (or (= e X) acc)) NIL LST))
".

(** share/mnml/last.l:1-7 *)
Definition last_l : string := "(load '(std if car cdr))

(def last (LST)
	""Return the last element of a list.""
	(if (cdr LST)
		(last (cdr LST))
		(car LST)))
".

(** share/mnml/erase.l:1-7 *)
Definition erase_l : string := "(load ""iterators.l"" '(logic =) '(std \ if cons))

(def erase (k lst)
	(foldr
		(\ ((_k . _v) acc)
			(if (= k _k) acc (cons (cons _k _v) acc)))
		lst NIL))
".

(** share/mnml/replc.l:1-7 *)
Definition replc_l : string := "(load ""iterators.l"" '(logic =) '(std \ if cons))

(def replc (k v lst)
	(foldr
		(\ ((_k . _v) acc)
			(if (= k _k) (cons (cons k v) acc) (cons (cons _k _v) acc)))
		lst NIL))
".

(** share/mnml/aton.l:1-5 *)
Definition aton_l : string := "(load ""iterators.l"" '(math + - *) '(std \))

(def aton (STR)
	""Convert a string STR to a (positive) number.""
	(foldl (\ (acc v) (+ (* 10 acc) (- v ^0))) 0 STR))
".

(** share/mnml/ntoa.l:1-9 *)
Definition ntoa_l : string := "(load '(logic =) '(math + % /) '(std let \ if cons chr))

(def ntoa (n)
	""Convert a number N into a list of character.""
	(let ((descend . (\ (n res)
										 (if (= n 0)
											 res
											 (descend (/ n 10) (cons (chr (+ (% n 10) ^0)) res))))))
		(if (= n 0) ""0"" (descend n NIL))))
".

(** share/mnml/isort.l:1-13 *)
Definition isort_l : string := "(load
	'(iterators foldl)
	'(logic or)
	'(std \ car cdr cons if let nil?))

(def isort (LESS LST)
	""Insertion-sort of list LST using comparator LESS""
	(let ((ins . (\ (LST E)
								 ""Insert E in LST using LESS""
								 (if (or (nil? LST) (LESS E (car LST)))
									 (cons E LST)
									 (cons (car LST) (ins (cdr LST) E))))))
		(foldl ins NIL LST)))
".

(** share/mnml/insert.l:1-12 *)
Definition insert_l : string := "(load '(std if nil? list let car cdr cons))

(def insert (cmp a lst)
	""Insert A into ordered list LST using comparator CMP.""
	(if (nil? lst)
		(list a)
		(let ((cur . (car lst))
					(nxt . (cdr lst)))
			(if (cmp a cur)
				(cons a (cons cur nxt))
				(cons cur (insert cmp a nxt))
				))))
".

(** share/mnml/orelse.l:1-5 *)
Definition orelse_l : string := "(load '(std if))

(def <|> (VAL DEF)
	""If VAL then return VAL or return DEF.""
	(if VAL VAL DEF))
".

(** share/mnml/strlt.l:1-18 *)
Definition strlt_l : string := "(load
	'(logic = and not or)
	'(math <)
	'(std car cdr let nil?))

(def strlt (STRA STRB)
	""Strict less operator for strings""
	(and
		(not (nil? STRB))
		(or
			(nil? STRA)
			(let ((A . (car STRA))
						(B . (car STRB)))
				(or
					(< A B)
					(and
						(= A B)
						(strlt (cdr STRA) (cdr STRB))))))))
".

(** share/mnml/manips.l:1-52 *)
Definition manips_l : string := "(load ""rev.l"" '(logic = not) '(math > -) '(std |> car cdr cons if nil? when))

(def assoc (k lst)
	""Return the value for K in the association list LST.""
	(if (not (nil? lst))
		(if (= (caar lst) k)
			(cdar lst)
			(assoc k (cdr lst)))))

(def caar (x)
	""Call CAR CAR on X.""
	(car (car x)))

(def cddr (x)
	""Call CDR CDR on X.""
	(cdr (cdr x)))

(def cadar (x)
	""Call CAR CDR CAR on X.""
	(car (cdr (car x))))

(def caddr (x)
	""Call CDR CDR CAR on X.""
	(car (cdr (cdr x))))

(def cadddr (x)
	""Call CDR CDR CDR CAR on X.""
	(car (cdr (cdr (cdr x)))))

(def cadr (x)
	""Call CDR CAR on X.""
	(car (cdr x)))

(def cdar (x)
	""Call CAR CDR on X.""
	(cdr (car x)))

(def last (lst)
	""Return the last item of LST.""
	(if (nil? (cadr lst))
		(car lst)
		(last (cdr lst))))

(def rep (n atm)
	""Create a list of ATM repeated N times""
	(if (> n 0)
		(cons atm (rep (- n 1) atm))))

(def truncl (n lst)
	""Truncate a list LST by N elements from the left.""
	(when (> n 0)
		(cons (car lst) (truncl (- n 1) (cdr lst)))))
".

(** share/mnml/truncr.l:1-5 *)
Definition truncr_l : string := "(load ""manips.l"" ""rev.l"" '(std |>))

(def truncr (n lst)
	""Truncate a list LST by N elements from the right.""
	(|> lst rev (truncl n) rev))
".
