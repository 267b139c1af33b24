(** * LibText2: more of the bundled library, verbatim (written by tools/gen_lib.py). *)
From Coq Require Import String.
Open Scope string_scope.

(** share/mnml/iter.l:1-10 *)
Definition iter_l : string := "(load '(std if let car cdr))

(def iter (fun lst)
	""Iterate over list LST and call FUN on each item.""
	(if lst
		(let ((rslt . (fun (car lst)))
					(tail . (cdr lst)))
			(if tail
				(iter fun (cdr lst))
				rslt))))
".

(** share/mnml/iter2.l:1-13 *)
Definition iter2_l : string := "(load '(logic and) '(std if car cdr))

(def iter2 (fun lst1 lst2)
	""Iterate over list LST1 and LST1 and call FUN on each pair of item.""
	(if (and lst1 lst2)
		(let ((car1 . (car lst1))
					(car2 . (car lst2))
					(cdr1 . (cdr lst1))
					(cdr2 . (cdr lst2))
					(rslt . (fun car1 car2)))
			(if (and cdr1 cdr2)
				(iter2 fun cdr1 cdr2)
				rslt))))
".

(** share/mnml/trim.l:1-23 *)
Definition trim_l : string := "(load
	""iterators.l""
	""rev.l""
	'(logic = or)
	'(std \ |> car cdr cons if))

(def whitespace? (chr)
	""Return T if CHR is a white space.""
	(|> (= chr ^ ) (or (= chr ^\t)) (or (= chr ^\n)) (or (= chr ^\r))))

(def triml (strn)
	""Trim STRN of leading white spaces.""
	(if (whitespace? (car strn))
		(triml (cdr strn))
		strn))

(def trimr (strn)
	""Trim STRN of trailing white spaces.""
	(rev (triml (rev strn))))

(def trim (strn)
	""Trim STRN of leading and trailing white spaces.""
	(trimr (triml strn)))
".

(** share/mnml/join.l:1-9 *)
Definition join_l : string := "(load
	""append.l""
	""iterators.l""
	""rev.l""
	'(std let \ car cdr list))

(def join (lst chr)
	(let ((rlst . (rev lst)))
		(foldl (\ (acc e) (append e (list chr) acc)) (car rlst) (cdr rlst))))
".

(** share/mnml/merge.l:1-5 *)
Definition merge_l : string := "(load ""iterators.l"" '(std \))

(def merge (ded ins lstA lstB)
	""Merge list A into list B using dedup function DED and insert function INS.""
	(ded (foldl (\ (acc e) (ins e acc)) lstB lstA)))
".

(** share/mnml/dedup.l:1-19 *)
Definition dedup_l : string := "(load ""iterators.l"" '(std \ if nil? cons let car match cons cdr))

#
# The comparator is expected to return a pair (CMD . VAL) where CMD is:
# * APPEND: append VAL to the accumulator
# * REPLACE: replace the head of the accumulator by VAL
# * SKIP: skip VAL
#
(def dedup (cmp lst)
	""Deduplicate list LST using comparator CMP.""
	(foldr (\ (elt acc)
					 (if (nil? acc)
						 (cons elt acc)
						 (let (((cmd . val) . (cmp elt (car acc))))
							 (match cmd
								 (APPEND	. (cons val acc))
								 (REPLACE . (cons val (cdr acc)))
								 (SKIP		. acc)))))
		lst NIL))
".

(** share/mnml/args.l:1-37 *)
Definition args_l : string := "(load
	""manips.l""
	'(logic or =)
	'(io prinl)
	'(math - >)
	'(std if nil? cdr cons car eval len let prog))

(def args:skip (LST LEN)
	""Extract sublist of LEN from LST.""
	(if (or (= 0 LEN) (nil? LST))
		LST
		(args:skip (cdr LST) (- LEN 1))))

(def args:parse_r (SCHEMA LST RES)
	""Recursively match flags in LST with SCHEMA.""
	(if (nil? LST)
		RES
		(let (((hd . tl) . LST)
					(fun . (eval (assoc hd SCHEMA)))
					(sze . (len (car fun)))
					(nxt . (args:skip tl sze)))
			(if (nil? fun)
				(prog
					(prinl ""Unknown flag: "" hd)
					NIL)
				(if (> sze (len tl))
					(prog
						(prinl ""Not enough values for flag: "" hd)
						NIL)
					(prog
						(eval (cons (cons 'quote fun) (truncl sze tl)))
						(args:parse_r SCHEMA nxt (cons hd RES)))
					)))))

(def args:parse (SCHEMA)
	""Parse ARGV according to SCHEMA.""
	(args:parse_r SCHEMA (cdr ARGV) NIL))
".

(** share/mnml/flatten.l:1-7 *)
Definition flatten_l : string := "(load ""iterators.l"" '(logic and) '(std if lst? \ conc list))

(def flatten (lst)
	""Flatten k-deep LST into a 1-deep list.""
	(if (and lst (lst? lst))
		(foldr (\ (lst acc) (conc (flatten lst) acc)) lst NIL)
		(list lst)))
".

(** share/mnml/split.l:1-16 *)
Definition split_l : string := "(load '(logic =) '(std let \ if car cdr conc list cons))

(def split (lst chr)
	(let ((spliN . (\ (lst chr end)
									 (if lst
										 (if (= (car lst) chr)
											 (cdr lst)
											 (spliN (cdr lst) chr (cdr (conc end (list (car lst)))))
											 )))))
		(if lst
			(if (= (car lst) chr)
				(split (cdr lst) chr)
				(let ((beg . (list (car lst)))
							(nxt . (spliN (cdr lst) chr beg)))
					(cons beg (split nxt chr))
					)))))
".
