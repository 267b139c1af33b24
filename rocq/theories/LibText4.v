(** * LibText4: the rest of the bundled library, verbatim (written by tools/gen_lib.py). *)
From Coq Require Import String.
Open Scope string_scope.

(** share/mnml/run.l:1-41 *)
Definition run_l : string := "(load
	""append.l""
	""iterators.l""
	""rev.l""
	'(io in readline)
	'(logic =)
	'(std let \ if cons prog)
	'unix)

(def readlines (result)
	""Read all lines from FD.""
	(let ((line . (readline)))
		(if (= line 'EOF)
			(rev result)
			(readlines (cons line result))
			)))

#
# Run process at PATH with arguments ARG and environment ENV:
#
# * PATH must be a full path to the binary
# * ARGS is a list of string
# * ENV is an assoc list of strings.
#
(def run (path args env)
	""Run process at PATH with arguments ARG and environment ENV.""
	(let ((fenv					. (map (\ ((k . v)) (append k (cons ^= v))) env))
				((pin . pout) . (pipe))
				(pid					. (fork)))
		(if (= pid 0)
			(prog
				(dup pout 1)
				(close pin pout)
				(exec path args fenv))
			(prog
				(close pout)
				(let ((lines . (in pin (readlines NIL)))
							(code	. (wait pid)))
					(close pin)
					(cons code lines))
				))))
".

(** share/mnml/http.l:1-132 *)
Definition http_l : string := "(load
	""@lib/append.l""
	""@lib/iter.l""
	""@lib/join.l""
	""@lib/split.l""
	""@lib/trim.l""
	'(io in out prinl printl readline)
	'(iterators foldl)
	'(manips cadr caddr cddr)
	'(logic = or)
	'(math >)
	'(std \ <- car cons if len let list match nil? prog unless when while)
	'(unix accept close connect listen select))

#
# HTTP methods.
#

(def http/headers (result)
	""Parse all HTTP headers.""
	(let ((line . (readline))
				(tlne . (trim line)))
		(if (or (nil? tlne) (= line 'EOF))
			(foldl (\ (acc e) 
							 (let (((hd . tl) . (split e ^:))
										 (rem . (join tl ^:)))
								 (cons (cons (trim hd) (trim rem)) acc)))
				NIL result)
			(http/headers (cons tlne result))
			)))

(def http/request ()
	""Process a HTTP request.""
	(let ((line . (readline))
				(tlne . (trim line))
				(rqst . (split tlne ^ )))
		(unless (= line 'EOF)
			(match rqst
				#
				# Match HTTP requests.
				#
				((_ _ ""HTTP/1.1"")	. (let (((op path _) . rqst)
																	(headers . (http/headers NIL)))
															(list op path headers NIL)))
				#
				# Handle invalid request, drop the connection.
				#
				(_	. (prog
								(prinl ""Invalid HTTP request"")
								NIL))
				))))

(def http/response ()
	""Process a HTTP response.""
	(let ((line . (readline))
				(tlne . (trim line))
				(resp . (split tlne ^ )))
		(unless (= line 'EOF)
			(match resp
				#
				# Response is HTTP/1.1
				#
				((""HTTP/1.1"" _ . _)	. (let ((code . (cadr resp))
																		(mesg . (join (cddr resp) ^ ))
																		(hdrs . (http/headers NIL)))
																(list code mesg hdrs)))
				#
				# Handle invalid response.
				#
				(_	. (prog
								(prinl ""Invalid HTTP response"")
								NIL))
				))))

#
# Client methods.
#

(def http/get (address service path fn)
	""Perform a HTTP/1.1 GET to server at ADDRESS on port SERVICE at PATH.""
	(let ((fd . (connect address service)))
		(if fd
			(prog
				(out fd
					(prinl ""GET "" path "" HTTP/1.1"")
					(prinl ""Host: "" address)
					(prinl ""Connection: close"")
					(prinl))
				(in fd
					(let (((code mesg hdrs) . (http/response)))
						(when code
							(fn code mesg hdrs))))
				(close fd))
			(prinl ""Connecting to "" address "" on port "" service "" failed"")
			)))

#
# Server methods.
#

(def http/ingress (srv fn fd)
	""On-read server callback.""
	(if (= srv fd)
		(let (((fd . (host . port)) . (accept fd)))
			(prinl ""Accepting connection from "" host "":"" port)
			fd)
		(in fd
			(let (((op path hdrs body) . (http/request)))
				(when op
					(match (fn op path hdrs body)
						(NOT_FOUND . (out fd
													 (prinl ""HTTP/1.1 404 Not Found"")
													 (prinl ""Connection: close"")
													 (prinl)))
						(_ . (out fd
									 (prinl ""HTTP/1.1 500 Internal Server Error"")
									 (prinl ""Connection: close"")
									 (prinl)))
						))
				NIL
				))))

(def http/serve (port cb)
	""Start a HTTP server on PORT, using CB as a request handler.""
	(let ((srv . (listen 8080))
				(fds . (list srv))
				(run . T))
		(while run
			(let (((r e) . (select fds (http/ingress srv cb) NIL)))
				(<- 'fds r)
				(<- 'run (> (len fds) 1))
				))))
".

(** share/mnml/cps.l:1-424 *)
Definition cps_l : string := "(load
	""append.l""
	""has.l""
	""iterators.l""
	""manips.l""
	""ntoa.l""
	""orelse.l""
	""replc.l""
	""rev.l""
	'logic 'math 'std)

#
# Make a symbol placeholder
#
(def cps:symbol (id)
	""Generate a symbol placeholder using ID.""
	(sym (cons ^_ (ntoa id))))

#
# Reverse-scan a function body and replace the funcall arguments with
# numbered placeholders like _0, _1, or _2.
#
(def cps:swap (kvar counter body)
	""Swap BODY funcall arguments with placeholders; append KVAR.""
	(foldr (\ (e (id . result))
					 (if (lst? e)
						 (let ((larg . (cps:symbol id))
									 ((next . _) . (cps:swap kvar (+ id 1) e)))
							 (cons next (cons larg result)))
						 (cons id (cons e result))))
		body
		(cons counter kvar)))

#
# Lift an if-then-else funcall into wrapping lambdas for the statement and
# the then/else parts separately.
#
(def cps:lift-ith (kvar counter body)
	""Lift IF-BODY arguments into lambdas; use KVAR as external continuation.""
	(let (((op stmt then)					. body)
				((then:next . then:body) . (cps:lift kvar counter then))
				(nbody									 . (list then:body))
				((stmt:next . stmt:body) . (cps:lift nbody then:next (list op stmt))))
		(cons stmt:next stmt:body)))

(def cps:lift-ite (kvar counter body)
	""Lift IF-BODY arguments into lambdas; use KVAR as external continuation.""
	(let (((_ stmt then else)			. body)
				((else:next . else:body) . (cps:lift kvar counter else))
				((then:next . then:body) . (cps:lift kvar else:next then))
				(nbody									 . (list then:body else:body))
				((stmt:next . stmt:body) . (cps:lift nbody then:next (list 'if stmt))))
		(cons stmt:next stmt:body)))

#
# Lift a generic funcall into wrapping lambdas.
#
(def cps:lift-any (kvar counter body)
	""Lift BODY arguments into lambdas; use KVAR as external continuation.""
	(let (((_ . swapped) . (cps:swap kvar counter body)))
		(foldr (\ (e (id . res))
						 (if (lst? e)
							 (let ((largs . (list (cps:symbol id)))
										 (lfunc . (list (list '\ largs res)))
										 ((next . nbody) . (cps:lift lfunc (+ id 1) e)))
								 (cons next nbody))
							 (cons id res)))
			(cdr body)
			(cons counter swapped))))

#
# Lift a funcall into wrapping lambdas.
#
(def cps:lift (kvar counter body)
	""Lift BODY arguments into lambdas; use KVAR as external continuation.""
	(cond body
		(lst? . (match body
							#
							# IF/THEN forms,
							#
							~(foldl
								 (\ (acc e) (cons (cons (list e _ _)
																		'(cps:lift-ith kvar counter body))
															acc))
								 NIL '(if unless when))
							#
							# IF/THEN/ELSE form.
							#
							((if _ _ _) . (cps:lift-ite kvar counter body))
							#
							# Generic form.
							#
							(_ . (cps:lift-any kvar counter body))))
		(_	. (cons counter (append kvar (list body))))))

#
# Convert a function in direct style into CPS.
#
(def >& (fsym)
	""Convert FSYM into its continuation-passing style.""
	(let (((args closure body)	. (eval fsym))
				(arglen								. (len args))
				(kvar									. (list (sym (cons ^_ (ntoa arglen)))))
				(fargs								. (append args kvar))
				((_ . lifted)					. (cps:lift kvar (+ arglen 1) body)))
		(cons fargs (cons closure (list lifted)))))

#
# Collect the usage count for each placeholder variable. The first symbol in the
# funcall is skipped unless it is the current external continuation variable.
# Local symbol (eg. local continuations) are collected with a count of 0.
#
(def cps:getrefs (ARGS kvar acc expr)
	""Accumulate in ACC references found in EXPR.""
	(let (((op . _) . expr)
				(params . (if (has ARGS op) expr (cdr expr))))
		(foldl
			(\ (acc e)
				(if (sym? e)
					(let ((cur . (assoc e acc))
								(inc . (if (= e kvar) 0 1)))
						(if cur
							(replc e (+ cur inc) acc)
							(cons (cons e inc) acc)))
					acc))
			acc params)))

(def cps:getrefs-any (ARGS kvar fun acc)
	""Recursively collect placeholder reference count in any CPS form.""
	(let (((_ args body) . (last fun))
				(nvar					. (last args)))
		(cps:getrefs ARGS kvar (cps:refcount_r ARGS nvar body acc) fun)))

(def cps:getrefs-ite (ARGS kvar fun acc)
	""Recursively collect placeholder reference count in a CPS ITE form.""
	(let (((_ _ . ops) . fun))
		(cps:getrefs ARGS kvar
								 (foldr (\ (e acm) (cps:refcount_r ARGS kvar e acm)) ops acc)
								 fun)))

(def cps:refcount_r (ARGS kvar fun acc)
	""Recursively collect placeholder reference count in a CPS funcall FUN.""
	(match fun
		#
		# Control forms
		#
		~(foldl
			 (\ (acc e) (cons (cons (list e _ . _) '(cps:getrefs-ite ARGS kvar fun acc)) acc))
			 NIL '(if unless when))
		#
		# Any forms.
		#
		((_ . _) . (cps:getrefs-any ARGS kvar fun acc))
		#
		# Default.
		#
		(_ . acc)))

(def cps:refcount ((ARGS _ body))
	""Collect placeholder reference count in a CPS function FUN.""
	(if (lst? body)
		(let ((xvar . (last ARGS)))
			(if body (cps:refcount_r ARGS xvar body NIL)))))

#
# Infer type signature from a CPS funcall.
#

(def cps:replace (nvar args)
	""Replace the last argument by the symbol of the next continuation.""
	(if nvar
		(rev (cons nvar (cdr (rev args))))
		args))

(def cps:type:get (key acc)
	""Get the type of KEY in ACC.""
	(cond key
		(nil? . 'ATOM)
		(num? . 'NUMBER)
		(str? . 'STRING)
		(sym? .	(<|> (cps:type:fold1 (assoc key acc)) 'ATOM))
		(lst? . 'ATOM)
		( _	 . 'ATOM)))

(def cps:type:mark (key type acc)
	""Add TYPE to KEY in ACC.""
	(if (sym? key)
		(let ((value . (assoc key acc)))
			(if value
				(replc key (cons type value) acc)
				(cons (cons key (cons type NIL)) acc)))
		acc))

(def cps:type:next (NAME ARGS CONT next type alst)
	""Follow the next continuation and mark it as TYPE.""
	(if (sym? next)
		(cps:type:mark next type alst)
		(let (((_ (nvar) body) . next))
			(|> alst
					(cps:type:mark nvar type)
					(cps:type:findr NAME ARGS CONT nvar body)
					))))

(def cps:type:func (NAME ARGS symb params alst)
	""Check if SYMB is a function from ARGS.""
	(if (= NAME symb)
		alst
		(if (has ARGS symb)
			(cps:type:mark symb 'ATOM
										 (foldl (\ (acc e)
															(cps:type:mark e 'ATOM acc)) alst params))
			(let ((cps	. (>& symb))
						(args	. (car cps))
						(typs	. (cps:infer symb cps))
						(bind . (zip params args)))
				(foldl (\ (acc (e . a)) (cps:type:mark e (assoc a typs) acc)) alst bind)))))

(def cps:type:findr (NAME ARGS CONT kvar body alst)
	""Compute the types involved in a funcall.""
	(match body
		#
		# Generate the comparators.
		#
		~(foldl
			 (\ (acc e) (cons (cons (list e _ _ _)
													'(let (((_ arg0 arg1 next) . body)
																 (typ0 . (assoc arg0 alst))
																 (typ1 . (assoc arg1 alst)))
														 (if (and (nil? typ0) (nil? typ1))
															 (|> alst
																	 (cps:type:mark arg0 'UNDEF)
																	 (cps:type:mark arg1 'UNDEF)
																	 (cps:type:next NAME ARGS CONT next 'NUMBER)
																	 )
															 (if (nil? typ0)
																 (|> alst
																		 (cps:type:mark arg0 (car typ1))
																		 (cps:type:next NAME ARGS CONT next 'NUMBER))
																 (|> alst
																		 (cps:type:mark arg1 (car typ0))
																		 (cps:type:next NAME ARGS CONT next 'NUMBER))
																 ))))
										acc))
			 NIL '(= <>))
		#
		# Generate the unary numeric operations.
		#
		~(foldl
			 (\ (acc e) (cons (cons (list e _ _)
													'(let (((_ arg next) . body))
														 (|> alst
																 (cps:type:mark arg 'NUMBER)
																 (cps:type:next NAME ARGS CONT next 'NUMBER)
																 )))
										acc))
			 NIL '(not))
		#
		# Generate the binary numeric operations.
		#
		~(foldl
			 (\ (acc e) (cons (cons (list e _ _ _)
													'(let (((_ arg0 arg1 next) . body))
														 (|> alst
																 (cps:type:mark arg0 'NUMBER)
																 (cps:type:mark arg1 'NUMBER)
																 (cps:type:next NAME ARGS CONT next 'NUMBER)
																 )))
										acc))
			 NIL '(+ - * / < <= > >= and or))
		#
		# Generate the list unary operations
		#
		~(foldl
			 (\ (acc e) (cons (cons (list e _ _)
													'(let (((_ arg next) . body))
														 (|> alst
																 (cps:type:mark arg 'ATOM)
																 (cps:type:next NAME ARGS CONT next 'ATOM)
																 )))
										acc))
			 NIL '(car cdr))
		#
		# Predicates.
		#
		~(foldl
			 (\ (acc e) (cons (cons (list e _ _)
													'(let (((_ arg next) . body))
														 (|> alst
																 (cps:type:mark arg 'ATOM)
																 (cps:type:next NAME ARGS CONT next 'NUMBER)
																 )))
										acc))
			 NIL '(lst? nil?))
		#
		# Generate the list binary operations.
		#
		((conc _ _ _) . (let (((_ arg0 arg1 next) . body))
											(|> alst
													(cps:type:mark arg0 'ATOM)
													(cps:type:mark arg1 'ATOM)
													(cps:type:next NAME ARGS CONT next 'ATOM)
													)))
		((cons _ _ _) . (let (((_ arg0 arg1 next) . body))
											(|> alst
													(cps:type:mark arg0 'ATOM)
													(cps:type:mark arg1 'ATOM)
													(cps:type:next NAME ARGS CONT next 'ATOM)
													)))
		#
		# IF/THEN, UNLESS, WHEN.
		#
		~(foldl
			 (\ (acc e) (cons (cons (list e _ _)
													'(let (((_ e thn) . body))
														 (|> alst
																 (cps:type:mark e 'NUMBER)
																 (cps:type:findr NAME ARGS CONT kvar thn)
																 (cps:type:mark CONT 'ATOM)
																 )))
										acc))
			 NIL '(if unless when))
		#
		# IF/THEN/ELSE.
		#
		((if _ _ _) . (let (((_ e thn els) . body))
										(|> alst
												(cps:type:mark e 'NUMBER)
												(cps:type:findr NAME ARGS CONT kvar thn)
												(cps:type:findr NAME ARGS CONT kvar els)
												)))
		#
		# KVAR funcall.
		#
		((_ _) . (let (((var arg) . body)
									 (xtype		 . (cps:type:fold1 (assoc var alst)))
									 (atype		 . (cps:type:get arg alst)))
							 (match (cons xtype atype)
								 ((NIL . NIL) . (|> alst
																		(cps:type:mark var 'UNDEF)
																		(cps:type:mark arg 'UNDEF)
																		))
								 ((_	 . NIL) . (cps:type:mark arg xtype alst))
								 ((NIL . _	) . (cps:type:mark var atype alst))
								 (_					 .	alst))))
		#
		# Generic method invocation case.
		#
		((_ . _)	. (let (((symb . args)	 . body)
											((_ (nvar) next) . (last body)))
									(|> alst
											(cps:type:func NAME ARGS symb (cps:replace nvar args))
											(cps:type:findr NAME ARGS CONT nvar next)
											)))
		#
		# Default case, return the association list.
		#
		(_ . alst)))

(def cps:type:fold1 (lst)
	""Fold the types in LST and check for errors.""
	(foldr
		(\ (e acc)
			(if (or (nil? acc)
						(or (= e acc) (= acc 'UNDEF)))
				e 'ERROR))
		lst NIL))

(def cps:type:fold (alst)
	""Fold the type list ALST and check for errors.""
	(foldr
		(\ ((symb . types) acc0)
			(cons (cons symb (cps:type:fold1 types)) acc0))
		alst NIL))

(def cps:type:findl (kvar body alst)
	""Resolve the type for KVAR if it does not have one.""
	(match body
		#
		# IF/THEN, UNLESS, WHEN.
		#
		~(foldl
			 (\ (acc e) (cons (cons (list e _ _)
													'(let (((_ _ thn) . body))
														 (|> alst
																 (cps:type:mark kvar 'ATOM)
																 (cps:type:findl kvar thn)
																 )))
										acc))
			 NIL '(if unless when))
		#
		# IF/THEN/ELSE.
		#
		((if _ _ _) . (let (((_ _ thn els) . body))
										(|> alst
												(cps:type:findl kvar thn)
												(cps:type:findl kvar els)
												)))
		#
		# KVAR.
		#
		((_ _)	. (let (((op arg) . body)
										(atype		. (cps:type:get arg alst)))
								(cps:type:mark kvar atype alst)))
		#
		# Other.
		#
		((_ . _)	. (let (((_ _ next) . (last body)))
									(cps:type:findl kvar next alst)))
		#
		# Default.
		#
		(_ . alst)))

(def cps:infer (name (args _ body))
	""Infer the types of a CPS function FUN with name NAME.""
	(let ((kvar . (last args)))
		#
		# NOTE(xrg) don't ever consider removing the fluent operator again.
		#
		(|> NIL
				(cps:type:findr name args kvar kvar body)
				(cps:type:findl kvar body)
				cps:type:fold
				)))
".

(** share/mnml/cc.l:1-714 *)
Definition cc_l : string := "(load
	""append.l""
	""aton.l""
	""cps.l""
	""filter.l""
	""iter.l""
	""iter2.l""
	""iterators.l""
	""join.l""
	""manips.l""
	""rev.l""
	""run.l""
	'io 'logic 'math 'std 'sys 'unix)

#
# Indentation management.
#

(setq cc:level 0)

(def cc:indent_r (lvl)
	""Recursively build indentation string.""
	(if (<> lvl 0)
		(cons "" "" (cc:indent_r (- lvl 1)))))

(def o| ()
	""Return the indentation string.""
	(cc:indent_r cc:level))

(def o> ()
	""Increment the indentation level.""
	(setq cc:level (+ cc:level 2)))

(def <o ()
	""Decrement the indentation level.""
	(setq cc:level (- cc:level 2)))

#
# Helper functions.
#

(def /**/ @
	""Generate a C comment.""
	(prinl (o|) ""/*"")
	(prin	(o|) "" * "")
	(iter (\ (e) (prin (eval e))) @)
	(prinl)
	(prinl (o|) "" */""))

(def cc:replace (kvar body)
	""Replace the continuation in BODY by KVAR.""
	(if (cdr body)
		(cons (car body) (cc:replace kvar (cdr body)))
		(list kvar)))

(def cc:arg:idx (ARGS ref idx)
	""Get the index of REF in the closure based on ARGS.""
	(if ARGS
		(if (= (car ARGS) ref)
			idx
			(cc:arg:idx (cdr ARGS) ref (+ idx 1)))))

(def cc:arg:get (ARGS)
	""Remove the continuation argument from ARGS.""
	(rev (cdr (rev ARGS))))

(def cc:ref:idx (ARGS ref)
	""Get the index of REF in the closure.""
	(let ((tostr . (str ref)))
		(if (= (car tostr) ^_)
			(aton (cdr tostr))
			(cc:arg:idx ARGS ref 0))))

#
# Operation generators.
#

(def cc:op:predicate (ARGS TYPES kvar body)
	""Generate C code for unary predicate operations.""
	(let (((op arg cont) . body))
		(prin (o|) ""value_t R = { .number = "")
		(match op
			(lst? . (prog
								(prin ""IS_PAIR("")
								(cc:value:atm ARGS kvar arg)
								(prin "") || IS_NULL("")
								(cc:value:atm ARGS kvar arg)
								(prinl "") };"")))
			(nil? . (prog
								(prin ""IS_NULL("")
								(cc:value:atm ARGS kvar arg)
								(prinl "") };"")))
			(_	 . (prinl "" 0 }; /* Unsupported predicate "" op "" */"")))))

(def cc:op:num:one (ARGS TYPES kvar body)
	""Generate C code for binary numeric operations.""
	(let (((op arg cont)	. body))
		(prin (o|) ""value_t R = { .number = "")
		(match op
			(not . (prin ""!""))
			(_	 . (prin "" /* Unsupported operation "" op "" */ "")))
		(cc:value:num ARGS kvar arg)
		(prinl "" };"")))

(def cc:op:num:two (ARGS TYPES kvar body)
	""Generate C code for binary numeric operations.""
	(let (((op arg1 arg2 cont)	. body))
		(prin (o|) ""value_t R = { .number = "")
		(cc:value:num ARGS kvar arg1)
		(match op
			#
			# Immediate translation to C.
			#
			~(foldl
				 (\ (acc e) (cons (cons e (list 'prin "" "" (str e) "" "")) acc))
				 NIL '(+ - * / < <= > >=))
			#
			# Special cases.
			#
			(=		. (prin "" == ""))
			(<>		. (prin "" != ""))
			(and	. (prin "" && ""))
			(or		. (prin "" || ""))
			#
			# Unsupported cases.
			#
			(_		. (prin "" /* Unsupported operation "" op "" */ "")))
		(cc:value:num ARGS kvar arg2)
		(prinl "" };"")))

(def cc:op:lst:one (ARGS TYPES kvar body)
	""Generate C code for unary list operations.""
	(let (((op arg cont)	. body))
		(prin (o|) ""value_t R = { .atom = "")
		(match op
			(car . (prin ""lisp_car(lisp, ""))
			(cdr . (prin ""lisp_cdr(lisp, ""))
			(_	 . (prin "" /* Unsupported operation "" op "" */ "")))
		(cc:value:atm ARGS kvar arg)
		(prinl "") };"")
		(when (= kvar arg) (cc:gen:x ARGS kvar arg))))

(def cc:op:lst:two (ARGS TYPES kvar body)
	""Generate C code for binary list operations.""
	(let (((op arg1 arg2 cont)	. body))
		(prin (o|) ""value_t R = { .atom = "")
		(match op
			(conc . (prin ""lisp_conc(lisp, UP(""))
			(cons . (prin ""lisp_cons(lisp, UP(""))
			(_		.	(prin "" /* Unsupported operation "" op "" */ "")))
		(cc:value:atm ARGS kvar arg1)
		(prin ""), UP("")
		(cc:value:atm ARGS kvar arg2)
		(prinl "")) };"")
		(when (= kvar arg1) (cc:gen:x ARGS kvar arg1))
		(when (= kvar arg2) (cc:gen:x ARGS kvar arg2))))

(def cc:op:atm:two (ARGS TYPES kvar body)
	""Generate C code for binary ATOM operations.""
	(let (((op arg1 arg2 cont)	. body)
				(typ1 . (assoc arg1 TYPES))
				(typ2 . (assoc arg2 TYPES)))
		(prin (o|) ""value_t R = { .number = "")
		(match (cons typ1 typ2)
			((NUMBER . NUMBER)	. (prog
															(cc:value:num ARGS kvar arg1)
															(match op
																(=	. (prin "" == ""))
																(<>	. (prin "" != ""))
																(_	. (prin "" /* Unsupported operation "" op "" */ "")))
															(cc:value:num ARGS kvar arg2)
															))
			((ATOM . ATOM)	.	(match op
													(=	. (prog
																	(prin ""lisp_equ("")
																	(cc:value:atm ARGS kvar arg1)
																	(prin "", "")
																	(cc:value:atm ARGS kvar arg2)
																	(prin "")"")
																	))
													(<>	. (prog
																	(prin ""lisp_neq("")
																	(cc:value:atm ARGS kvar arg1)
																	(prin "", "")
																	(cc:value:atm ARGS kvar arg2)
																	(prin "")"")
																	))
													(_	. (prin "" 0 /* Unsupported operation "" op "" */ ""))
													))
			(_	. (prin "" 0 /* Unsupported types ("" typ1 "", "" typ2 "") */ "")))
		(prinl "" };"")
		(when (= kvar arg1) (cc:gen:x ARGS kvar arg1))
		(when (= kvar arg2) (cc:gen:x ARGS kvar arg2))))

(def cc:op:extcall (ARGS TYPES kvar (_ arg))
	""Generate C code for immediate KVAR funcall.""
	(prin (o|) ""value_t R = "")
	(cc:value:get ARGS kvar arg)
	(when (= 'ATOM (assoc arg TYPES))
		(prinl (o|) ""UP(R.atom);"")))

(def cc:op:funcall (ARGS TYPES kvar args)
	""Generate C code for external function calls.""
	(let ((nvar			. (last args))
				(effargs	. (cc:arg:get args))
				(genquot	. (\ (arg)
											(prog
												(prin (o|) ""atom_t "" arg "" = lisp_cons(lisp, lisp_make_quote(lisp), UP("")
												(cc:value:atm ARGS kvar arg)
												(prinl ""));"")
												(when (= kvar arg) (cc:gen:x ARGS kvar arg))
												)))
				(gensymb	. (\ (arg)
											(prinl (o|) ""MAKE_SYMBOL_STATIC(s_"" arg "", \"""" arg ""\"");"")
											(prinl (o|) ""atom_t "" arg "" = lisp_make_symbol(lisp, s_"" arg "");"")
											))
				(genargs	. (\ (arg)
											(let ((type . (assoc arg TYPES)))
												(match type
													(NUMBER . (prog
																			(prin (o|) ""atom_t "" arg "" = lisp_make_number(lisp, "")
																			(cc:value:num ARGS kvar arg)
																			(prinl "");"")))
													#
													# NOTE We must QUOTE atoms to prevent them from being
													# reevaluated because the what we manipulates are
													# immediate values and not symbols.
													#
													(ATOM . (if (cc:ref:idx ARGS arg)
																		(genquot arg)
																		(gensymb arg)))
													#
													# NOTE If no type was found for the ATOM, assume it's
													# a function symbol.
													#
													(NIL	. (gensymb arg))
													(_		. (prinl (o|) ""atom_t "" arg "" = lisp_make_nil(lisp); /* Unsupported type "" (str type) "" */""))
													))))
				(gencall	. (\ (arg)
											(prinl (o|) ""_T = lisp_cons(lisp, "" arg "", _S);"")
											(prinl (o|) ""_S = _T;"")))
				(type			. (assoc nvar TYPES)))
		(iter genargs effargs)
		(/**/ ""Build the expression to evaluate."")
		(prinl (o|) ""atom_t _S = lisp_make_nil(lisp), _T;"")
		(iter gencall (rev effargs))
		(/**/ ""Evaluate the expression."")
		(prinl (o|) ""atom_t _R = lisp_eval(lisp, E, _S);"")
		(/**/ ""Convert the atom_t result to value_t."")
		(cc:gen:value type T 'R)))

(def cc:op:reccall (ARGS TYPES kvar body)
	""Generate C code for recursive calls.""
	(iter2 (\ (arg prm)
					 (unless (= arg kvar)
						 (prin (o|) ""value_t "" arg "" = "")
						 (cc:value:get ARGS kvar prm)
						 (when (and (<> kvar prm) (= 'ATOM (assoc arg TYPES)))
							 (prinl (o|) ""UP("" arg "".atom);""))))
		ARGS (cdr body)))

#
# Value generators.
#

(def cc:gen:ref (ARGS kvar ref)
	""Generate the code for REF.""
	(if (= kvar ref)
		(prin ""V"")
		(prin ""C->V["" (cc:ref:idx ARGS ref) ""]"")))

(def cc:gen:value (type x arg)
	""Generate conversion from atom_t to value_t.""
	(prin (o|) ""value_t "" arg "" = "")
	(match type
		(NUMBER . (prinl ""{ .number = _"" arg ""->number };""))
		(ATOM		. (prinl ""{ .atom = UP(_"" arg "") };""))
		(_			. (prinl ""{ .number = 0 }; /* Unsupported type "" (str atype) "" */"")))
	(if x (prinl (o|) ""X(lisp, _"" arg "");"")))

(def cc:gen:x (ARGS kvar ref)
	""Generate X(REF).""
	(prin (o|) ""X(lisp, "") (cc:value:atm ARGS kvar ref) (prinl "");""))

(def cc:value:get (ARGS kvar arg)
	""Generate the C code for the ref R-value ARG.""
	(cond arg
		(sym? . (cc:gen:ref ARGS kvar arg))
		(num? . (prin ""{ .number = "" arg "" }""))
		(_		. (prin ""abort()"")))
	(prinl "";""))

(def cc:value:atm (ARGS kvar arg)
	""Generate the C code for the list R-value ARG.""
	(cond arg
		(sym? . (prog (cc:gen:ref ARGS kvar arg) (prin "".atom"")))
		(_		. (prin ""abort()""))))

(def cc:value:num (ARGS kvar arg)
	""Generate the C code for the number R-value ARG.""
	(cond arg
		(sym? . (prog (cc:gen:ref ARGS kvar arg) (prin "".number"")))
		(num? . (prin arg))
		(_		. (prin ""abort()""))))

#
# Intermediate continuations.
#

(def cc:gen:closure (CONT next)
	""Generate a default closure capture.""
	(if (= CONT next)
		(prinl (o|) ""closure_t _C = C->C;"")
		(prinl (o|) ""closure_t _C = C;"")))

(def cc:gen:callback (NAME REFS CONT ref)
	""Generate the callback capture for REF.""
	(if (= CONT ref)
		(if (= (assoc ref REFS) 0)
			(prinl (o|) ""callback_t _K = V.callback;"")
			(prinl (o|) ""callback_t _K = C->V["" (cdr (str ref)) ""].callback;""))
		(prinl (o|) ""callback_t _K = _mnml_"" NAME ref "";"")))

(def cc:gen:cleanup (ARGS REFS TYPES CONT kvar ref)
	""Generate the variable clean-up.""
	(let ((cnt . (len ARGS))
				(pos . (cc:ref:idx ARGS kvar)))
		(when (= CONT ref)
			(/**/ ""Clean-up the placeholders."")
			(|> REFS
					(filter (\ ((_	 . count)) (= count 0)))
					(filter (\ ((arg . _		)) (= arg CONT)))
					(filter (\ ((arg . _		)) (let ((idx . (cc:ref:idx ARGS arg)))
																			 (and (>= idx cnt) (< idx pos)))))
					(filter (\ ((arg . _		)) (<> 'ATOM (assoc arg TYPES))))
					(filter (\ ((arg . _		)) (not (cc:ref:idx ARGS arg))))
					(iter	 (\ ((arg . _		)) (cc:gen:x ARGS NIL arg))))
			(/**/ ""Clean-up the closure."")
			(prinl (o|) ""lisp_closure_put(&cache, C);""))))

(def cc:gen:block-any (NAME ARGS REFS TYPES CONT kvar body succ op)
	""Common generation routing for block items of any form.""
	(let ((next . (succ body)))
		(/**/ ""Build the closure."")
		(cc:gen:closure CONT next)
		(/**/ ""Collect the arguments."")
		(op ARGS TYPES kvar body)
		(/**/ ""Build the continuation."")
		(cc:gen:callback NAME REFS CONT next)
		(cc:gen:cleanup ARGS REFS TYPES CONT kvar next)
		(/**/ ""Call the continuation."")
		(if (= NAME (car body))
			(prog
				(prin (o|) ""return _mnml_"" NAME ""(lisp, E, "")
				(iter (\ (e) (prin e "", "")) ARGS)
				(prinl ""_C, _K);""))
			(prinl (o|) ""return _K(lisp, E, _C, R);""))))

(def cc:gen:block-ite (NAME ARGS REFS TYPES CONT kvar body then else)
	""Common generation routing for ITE block items.""
	(let (((op _ thn els) . body)
				(neg . (= op 'unless)))
		(prinl (o|) ""if ("" (when neg ""!"") ""V.number) {"")
		(o>)
		(then NAME ARGS REFS TYPES CONT kvar thn)
		(<o)
		(prinl (o|) ""} else {"")
		(o>)
		(else NAME ARGS REFS TYPES CONT kvar els)
		(<o)
		(prinl (o|) ""}"")))

(def cc:gen:default (NAME ARGS REFS TYPES CONT kvar body)
	""Generate KVAR call with NIL.""
	(/**/ ""Build the closure."")
	(cc:gen:closure CONT CONT)
	(/**/ ""Collect the arguments."")
	(prinl (o|) ""value_t R = { .atom = lisp_make_nil(lisp) };"")
	(/**/ ""Build the continuation."")
	(cc:gen:callback NAME REFS CONT CONT)
	(cc:gen:cleanup ARGS REFS TYPES CONT kvar CONT)
	(/**/ ""Call the continuation."")
	(prinl (o|) ""return _K(lisp, E, _C, R);""))

(def cc:gen:block (NAME ARGS REFS TYPES CONT kvar body)
	""Generate the basic block for BODY.""
	(let ((make-any . (cc:gen:block-any NAME ARGS REFS TYPES CONT kvar body))
				(make-ite . (cc:gen:block-ite NAME ARGS REFS TYPES CONT kvar body)))
		(match body
			#
			# Predicate operations.
			#
			~(foldl
				 (\ (acc e) (cons (cons (list e _ _) '(make-any 'last cc:op:predicate)) acc))
				 NIL '(lst? nil?))
			#
			# Unary operations.
			#
			~(foldl
				 (\ (acc e) (cons (cons (list e _ _) '(make-any 'last cc:op:num:one)) acc))
				 NIL '(not))
			#
			# Binary operations.
			#
			~(foldl
				 (\ (acc e) (cons (cons (list e _ _ _) '(make-any 'last cc:op:num:two)) acc))
				 NIL '(+ - * / < <= > >= and or))
			#
			# Equality operations.
			#
			~(foldl
				 (\ (acc e) (cons (cons (list e _ _ _) '(make-any 'last cc:op:atm:two)) acc))
				 NIL '(= <>))
			#
			# Unary list operations.
			#
			~(foldl
				 (\ (acc e) (cons (cons (list e _ _) '(make-any 'last cc:op:lst:one)) acc))
				 NIL '(car cdr))
			#
			# Binary list operations.
			#
			~(foldl
				 (\ (acc e) (cons (cons (list e _ _ _) '(make-any 'last cc:op:lst:two)) acc))
				 NIL '(conc cons))
			#
			# Quote operation.
			#
			((quote . _) . ((prinl (o|) ""abort(); /* "" body "" */"")))
			#
			# IF/THEN, UNLESS, WHEN.
			#
			~(foldl
				 (\ (acc e) (cons (cons (list e _ _) '(make-ite cc:gen:block cc:gen:default)) acc))
				 NIL '(if unless when))
			#
			# IF/THEN/ELSE.
			#
			((if _ _ _) . (make-ite cc:gen:block cc:gen:block))
			#
			# KVAR funcall.
			#
			((_ _) . (make-any 'car cc:op:extcall))
			#
			# Recursive behavior
			#
			((_ . _) . (if (= NAME (car body))
									 (make-any 'last cc:op:reccall)
									 (make-any 'last cc:op:funcall)))
			#
			# Unknown behavior.
			#
			(_	. (prinl (o|) ""abort(); /* "" body "" */"")))))

(def cc:gen:function (NAME ARGS REFS TYPES CONT kvar body)
	""Generate a continuation KVAR with BODY.""
	(prinl ""static atom_t _mnml_"" NAME kvar ""(const lisp_t lisp, const atom_t E, closure_t C, value_t V) {"")
	(o>)
	(if (> (assoc kvar REFS) 0)
		(prog
			(/**/ ""Save the current argument (refcount="" (assoc kvar REFS) "")"")
			(prinl (o|) ""C->V["" (cdr (str kvar)) ""] = V;"")))
	(cc:gen:block NAME ARGS REFS TYPES CONT kvar body)
	(<o)
	(prinl ""}"")
	(prinl))

(def cc:gen:cont-any (NAME ARGS REFS TYPES CONT kvar fun)
	""Generate the C code for any type of funcall FUN.""
	(let ((cont						. (last fun))
				((_ args body)	. cont)
				(nvar						. (last args)))
		(if (lst? cont)
			(prog
				(cc:gen:cont NAME ARGS REFS TYPES CONT nvar body)
				(cc:gen:function NAME ARGS REFS TYPES CONT kvar (cc:replace nvar fun)))
			(cc:gen:function NAME ARGS REFS TYPES CONT kvar fun))))

(def cc:gen:cont-ite (NAME ARGS REFS TYPES CONT kvar fun)
	""Generate the C code for the IF/THEN/ELSE funcall FUN.""
	(let (((symb cnd . ite) . fun)
				(first	. (map (\ (e) (let ((cont						. (last e))
																		((_ args body)	. cont)
																		(nvar						. (last args)))
																(if (lst? cont) (cc:replace nvar e) e)))
										ite))
				(clist	. (map (\ (e) (let ((cont . (last e)))
																(if (lst? cont) cont)))
										ite))
				(conts	. (filter nil? clist)))
		(iter (\ ((_ args body))
						(cc:gen:cont NAME ARGS REFS TYPES CONT (last args) body)) conts)
		(cc:gen:function NAME ARGS REFS TYPES CONT kvar (cons symb (cons cnd first)))))

(def cc:gen:cont (NAME ARGS REFS TYPES CONT kvar fun)
	""Generate the C code for the continuations in FUN.""
	(match fun
		#
		# IF/THEN/ELSE
		#
		~(foldl
			 (\ (acc e) (cons (cons (list e _ . _)
													'(cc:gen:cont-ite NAME ARGS REFS TYPES CONT kvar fun))
										acc))
			 NIL '(if unless when))
		#
		# Default behavior.
		#
		(_	.	(cc:gen:cont-any NAME ARGS REFS TYPES CONT kvar fun))))

#
# Prologue and identity.
#

(def cc:gen:prologue ()
	""Generate C code prologue.""
	(prinl ""#include <mnml/closure.h>"")
	(prinl ""#include <mnml/lisp.h>"")
	(prinl ""#include <mnml/module.h>"")
	(prinl ""#include <mnml/slab.h>"")
	(prinl ""#include <mnml/types.h>"")
	(prinl)
	(prinl ""static closure_t cache = NULL;"")
	(prinl))

(def cc:gen:retval (TYPES kvar)
	""Generate the return value conversion.""
	(let ((rtype . (assoc kvar TYPES)))
		(match rtype
			(NUMBER	. (prinl (o|) ""return lisp_make_number(lisp, V.number);""))
			(ATOM		. (prinl (o|) ""return V.atom;""))
			(_			. (prinl (o|) ""return lisp_make_nil(lisp); /* Unsupported type "" (str rtype) "" */""))
			)))

(def cc:gen:identity (NAME TYPES kvar)
	""Generate C code for the identity continuation.""
	(prinl ""static atom_t _mnml_"" NAME ""_identity(const lisp_t lisp, const atom_t E, closure_t C, value_t V) {"")
	(o>)
	(cc:gen:retval TYPES kvar)
	(<o)
	(prinl ""}"")
	(prinl))

#
# Main function.
#

(def cc:gen:info (SYMB CPS TYPES)
	""Generate CPS code information.""
	(prinl ""/*"")
	(prin	"" * FUNCTION   : "") (printl SYMB)
	(prin	"" * DEFINITION : "") (printl (eval SYMB))
	(prin	"" * CPS        : "") (printl CPS)
	(prin	"" * TYPES      : "") (printl TYPES)
	(prinl "" */"")
	(prinl))

(def cc:gen:prototype (NAME ARGS)
	""Generate C code function prototype.""
	(prin ""static atom_t _mnml_"" NAME ""(const lisp_t lisp, const atom_t E, "");
	(iter (\ (e) (prin ""value_t "" e "", "")) ARGS)
	(prinl ""closure_t C, callback_t K);"");
	(prinl))

(def cc:gen:main (NAME ARGS REFS kvar)
	""Generate C code for the main function.""
	(prin ""static atom_t _mnml_"" NAME ""(const lisp_t lisp, const atom_t E, "")
	(o>)
	(iter (\ (e) (prin ""value_t "" e "", "")) ARGS)
	(prinl ""closure_t C, callback_t K) {"");
	(/**/ ""Allocate a new closure."") 
	(prinl (o|) ""closure_t _C = lisp_closure_get(&cache, C, "" (len REFS) "");"")
	(/**/ ""Save the arguments."")
	(foldl
		(\ (acc e) (prinl (o|) ""_C->V["" acc ""] = "" e "";"") (+ acc 1)) 0 ARGS)
	(/**/ ""Generate the callback."")
	(cc:gen:callback NAME REFS ARGS kvar)
	(/**/ ""Generate the continuation argument."")
	(prinl (o|) ""value_t R = { .callback = K };"");
	(/**/ ""Call the continuation."")
	(prinl (o|) ""return _K(lisp, E, _C, R);"")
	(<o)
	(prinl ""}"")
	(prinl))

#
# Module.
#

(def cc:gen:argument (TYPES ARGS)
	""Generate the argument extraction.""
	(prin (o|) ""LISP_ARGS(closure, C"")
	(iter (\ (e) (prin "", _"" e)) ARGS)
	(prinl "");"")
	(iter (\ (e) (cc:gen:value (assoc e TYPES) NIL e)) ARGS))

(def cc:gen:entry (NAME ARGS TYPES)
	""Generate C code for the NAME entry point.""
	(prinl ""static atom_t lisp_function_"" NAME ""(const lisp_t lisp, const atom_t closure) {"")
	(o>)
	(/**/ ""Grab the arguments."")
	(cc:gen:argument TYPES ARGS)
	(/**/ ""Define the default closure and callback."")
	(prinl (o|) ""closure_t _C = NULL;"")
	(prinl (o|) ""callback_t _K = _mnml_"" NAME ""_identity;"")
	(/**/ ""Call the main function."")
	(prin (o|) ""atom_t R = _mnml_"" NAME ""(lisp, closure, "")
	(iter (\ (e) (prin e "", "")) ARGS)
	(prinl ""_C, _K);"")
	(/**/ ""Clear the closure cache and return."")
	(prinl (o|) ""lisp_closure_clear(&cache);"")
	(prinl (o|) ""return R;"")
	(<o)
	(prinl ""}"")
	(prinl)
	(prin ""LISP_MODULE_SETUP("" NAME "", "" NAME)
	(iter (\ (e) (prin "", _"" e)) ARGS)
	(prinl "", NIL);"")
	(prinl))

(def cc:gen::module(MODULE NAMES)
	""Generate C code for the module.""
	(prinl ""module_entry_t ENTRIES[] = {"")
	(iter (\ (NAME) (prinl ""	LISP_MODULE_REGISTER("" NAME ""),"")) NAMES)
	(prinl ""	{ NULL, NULL }"")
	(prinl ""};"")
	(prinl)
	(prinl ""const char * lisp_module_name() { return \"""" MODULE ""\""; }"")
	(prinl)
	(prinl ""const module_entry_t * lisp_module_entries() {"")
	(prinl ""	return ENTRIES;"")
	(prinl ""}""))

#
# Main compiler entrypoint.
#

(def cc:compile1 (SYMB)
	""Generate the C code for the CPS function SYMB.""
	(let ((cps						. (>& SYMB))
				((args _ body)	. cps)
				(ARGS						. (cc:arg:get args))
				(REFS						. (cps:refcount cps))
				(TYPES					. (cps:infer NAME cps))
				(isvalid				. (foldl (\ (acc (_ . t)) (and (<> t 'ERROR) acc)) T TYPES))
				(kvar						. (last args)))
		(when isvalid
			#
			# Generate the C file
			#
			(cc:gen:info SYMB cps TYPES)
			(cc:gen:identity SYMB TYPES kvar)
			(cc:gen:prototype SYMB ARGS)
			(cc:gen:cont SYMB ARGS REFS TYPES kvar kvar body)
			(cc:gen:main SYMB ARGS REFS kvar)
			(cc:gen:entry SYMB ARGS TYPES)
			#
			# Return then symbol passed as argument.
			#
			SYMB
			)))

(def cc:compile (MODULE SYMBS . TARGET)
	""Generate the C code for the CPS functions SYMBS.""
	(let ((trgt . (append (assoc ""HOME"" ENV) ""/.mnml""))
				(cout . (<|> (eval (car TARGET)) (append trgt ""/"" (str MODULE) "".c""))))
		#
		# Remove the C file
		#
		(unlink cout)
		#
		# Generate the C file
		#
		(out cout
			(cc:gen:prologue)
			(let ((result . (filter nil? (map cc:compile1 SYMBS))))
				(cc:gen::module MODULE result)
				result))
		))

(def cc:ext ()
	""Get the library extension depending on the OS name.""
	(let (((_ osname) . (run ""/usr/bin/env"" '(""uname"" ""-s"") ENV)))
		(if (= osname ""Darwin"") "".dylib"" "".so"")))

(def cc:flags ()
	""Generate the build flags based on the OS name.""
	(let (((_ osname) . (run ""/usr/bin/env"" '(""uname"" ""-s"") ENV))
				(incd				. (append (assoc 'PREFIX CONFIG) ""/include""))
				(libd				. (append (assoc 'PREFIX CONFIG) ""/lib""))
				(flags			. (list
												""-shared"" ""-fno-plt"" ""-fomit-frame-pointer""
												""-I"" incd ""-O3"" ""-g3"" ""-o"" oout cout)))
		(match osname
			(""Darwin"" . ($+ flags '(""-flto"" ""-undefined"" ""dynamic_lookup"")))
			(""Linux"" . ($+ flags '(""-flto"")))
			_ . flags
			)))

(def cc:build (MODULE SYMBS . TARGET)
	""Build the module for the CPS function SYMB.""
	(let ((trgt	. (append (assoc ""HOME"" ENV) ""/.mnml""))
				(cout . (append trgt ""/"" (str MODULE) "".c""))
				(oout . (<|> (eval (car TARGET)) (append trgt ""/lib"" (str MODULE) (cc:ext)))))
		(when SYMBS
			#
			# Remove the SO file
			#
			(unlink oout)
			#
			# Build the SO file
			#
			(let (((status . messages) . (run ""/usr/bin/cc"" (cc:flags) ENV)))
				(if (= 0 status) (load (cons MODULE SYMBS)))))))
".
