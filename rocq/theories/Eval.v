(** * Eval: the evaluator over values (lib/core/eval.c, lib/core/lisp.c and the
    builtins of lib/mnml/{std,logic,math,io}).

    Definitions only; proofs are in [EvalProofs.v] and [Sem*.v].

    Atoms are trees, so sharing between cells is not represented.  The operations
    whose effect is visible through sharing stop with [Shared] (see [stop]); they
    are covered by the heap evaluator [HEval.v].  Marking of tail calls is applied
    to the function value being stored (see [Tails.v]).  Reference counting is in
    [HEval.v]. *)
From Verif Require Export Value Tails.
From Verif Require Import Print.

(** ** State and outcomes *)

(** include/mnml/lisp.h:28-39 struct lisp.  [globals]: the latest definition
    first (the tree of lib/core/tree.c is shown to be a finite map in [Tree.v]).
    [outs]: what was written, oldest last, with the channel it was written to.
    [ichan], [ochan]: the channel stacks, each entry reduced to its handle.
    [opens]: number of channels opened so far, used as the next handle.
    Metrics and modules are omitted. *)
Record world := mkw {
  globals : env;
  outs : list (N * bytes);
  ichan : list N;
  ochan : list N;
  opens : N
}.

(** Why an evaluation stops without a result.  [UB]: the C code dereferences an
    invalid pointer, overflows, divides by zero or calls a bad address.
    [Shared]: the operation mutates a cell that may be shared. *)
Inductive stop := UB | Shared.

(** [NoFuel]: the recursion budget of the model is exhausted (no C counterpart). *)
Inductive out (A : Type) : Type :=
| Ret (a : A) (w : world)
| Stop (e : stop)
| NoFuel.
Arguments Ret {A}. Arguments Stop {A}. Arguments NoFuel {A}.

(** Computations on the state of the interpreter (include/mnml/lisp.h:28-39 struct lisp),
    their result, a stop, an exhausted budget, and sequence; no C code of their own. *)
Definition M (A : Type) : Type := world -> out A.
Definition ret {A} (a : A) : M A := fun w => Ret a w.
Definition halt {A} (e : stop) : M A := fun _ => Stop e.
Definition dry {A} : M A := fun _ => NoFuel.
Definition mbind {A B} (m : M A) (k : A -> M B) : M B :=
  fun w => match m w with Ret a w' => k a w' | Stop e => Stop e | NoFuel => NoFuel end.
Notation "x <- m ;; k" := (mbind m (fun x => k)) (at level 61, m at next level, right associativity).
(** A step that is undefined when [None] (a field of another type is read, types.h:83-88). *)
Definition opt {A} (o : option A) : M A := match o with Some a => ret a | None => halt UB end.

(** ** Builtin functions *)

(** lib/mnml/{std,logic,math,io}: one constructor per modelled builtin.  Not
    modelled: load, quit, read, readline, and the sys and unix modules. *)
Inductive prim :=
| Pcar | Pcdr | Pchr | Pconc | Pcond | Pcons | Pdef | Peval | Pif
| Patm | Pischr | Plst | Pnil | Pnum | Pisstr | Pissym | Ptru
| Plambda | Plen | Plet | Plist | Pmatch | Pprog | Pquote | Pset | Psetq
| Pstr | Pstream | Psym | Punless | Pwhen | Pwhile
| Pand | Por | Pnot | Pequ | Pneq
| Padd | Psub | Pmul | Pdiv | Pmod | Plt | Ple | Pgt | Pge
| Pin | Pout | Pprin | Pprinl | Pprint | Pprintl.

(** The argument lists made by LISP_CONS (include/mnml/module.h:36-96): [X, NIL]
    is a one-element list, [COND, REM] a pair of symbols, [ANY] a symbol. *)
Inductive shape := One | Two | Rest | CondRem | ChanRem.
Definition args_of (h : shape) : atom :=
  match h with
  | One => Cons (Symb (sy "X")) Nil
  | Two => Cons (Symb (sy "X")) (Cons (Symb (sy "Y")) Nil)
  | Rest => Symb (sy "ANY")
  | CondRem => Cons (Symb (sy "COND")) (Symb (sy "REM"))
  | ChanRem => Cons (Symb (sy "CHAN")) (Symb (sy "REM"))
  end.

(** Name and argument list of each builtin: the LISP_MODULE_SETUP line of each
    file of lib/mnml/{std,logic,math,io}. *)
Definition prim_table : list (prim * (string * shape)) :=
  [ (Pcar, ("car", One)); (Pcdr, ("cdr", One)); (Pchr, ("chr", One)); (Pconc, ("conc", Two));
    (Pcond, ("cond", Rest)); (Pcons, ("cons", Two)); (Pdef, ("def", Rest)); (Peval, ("eval", One));
    (Pif, ("if", CondRem)); (Patm, ("atm?", One)); (Pischr, ("chr?", One)); (Plst, ("lst?", One));
    (Pnil, ("nil?", One)); (Pnum, ("num?", One)); (Pisstr, ("str?", One)); (Pissym, ("sym?", One));
    (Ptru, ("tru?", One)); (Plambda, ("\", Rest)); (Plen, ("len", One)); (Plet, ("let", Rest));
    (Plist, ("list", Rest)); (Pmatch, ("match", Rest)); (Pprog, ("prog", Rest));
    (Pquote, ("quote", Rest)); (Pset, ("<-", Rest)); (Psetq, ("setq", Rest)); (Pstr, ("str", One));
    (Pstream, ("|>", Rest)); (Psym, ("sym", One)); (Punless, ("unless", CondRem));
    (Pwhen, ("when", CondRem)); (Pwhile, ("while", Rest)); (Pand, ("and", Two)); (Por, ("or", Rest));
    (Pnot, ("not", One)); (Pequ, ("=", Two)); (Pneq, ("<>", Two)); (Padd, ("+", Two));
    (Psub, ("-", Two)); (Pmul, ("*", Two)); (Pdiv, ("/", Two)); (Pmod, ("%", Two)); (Plt, ("<", Two));
    (Ple, ("<=", Two)); (Pgt, (">", Two)); (Pge, (">=", Two)); (Pin, ("in", ChanRem));
    (Pout, ("out", ChanRem)); (Pprin, ("prin", Rest)); (Pprinl, ("prinl", Rest));
    (Pprint, ("print", Rest)); (Pprintl, ("printl", Rest)) ]%string.

(** The address of a builtin (module.h:123-124): modelled as its position. *)
Fixpoint numbered {A} (i : Z) (l : list A) : list (Z * A) :=
  match l with [] => [] | x :: r => (i, x) :: numbered (i + 1)%Z r end.
Definition prim_of_addr (z : Z) : option prim :=
  option_map (fun e => fst (snd e)) (find (fun e => Z.eqb (fst e) z) (numbered 1 prim_table)).

(** The function value of a builtin (module.h:111-130 LISP_MODULE_SETUP). *)
Definition builtin (i : Z) (h : shape) : atom := Cons (args_of h) (Cons Nil (Num i)).

(** The globals after loading every modelled builtin (module.h:111-130). *)
Definition builtins : env :=
  map (fun e => (sy (fst (snd (snd e))), builtin (fst e) (snd (snd (snd e))))) (numbered 1 prim_table).

(** ** Arithmetic: include/mnml/module.h:202-214 BINARY_NUMBER_GEN,
    BINARY_COMPARE_GEN on the [number] fields.  [None]: signed overflow, division
    by zero, or an operand whose field is an address. *)
Definition in_i64 (z : Z) : bool := ((- 2 ^ 63 <=? z) && (z <? 2 ^ 63))%Z.
Definition i64 (z : Z) : option Z := if in_i64 z then Some z else None.
Definition arith (p : prim) (x y : Z) : option Z :=
  match p with
  | Padd => i64 (x + y)
  | Psub => i64 (x - y)
  | Pmul => i64 (x * y)
  | Pdiv => if Z.eqb y 0 then None else i64 (Z.quot x y)
  | Pmod => if Z.eqb y 0 then None else if in_i64 (Z.quot x y) then Some (Z.rem x y) else None
  | _ => None
  end.
Definition compare (p : prim) (x y : Z) : bool :=
  match p with
  | Plt => Z.ltb x y | Ple => Z.leb x y | Pgt => Z.ltb y x | _ => Z.leb y x
  end.

(** T or NIL (module.h:211-214). *)
Definition truth (b : bool) : atom := if b then Tru else Nil.

(** ** Globals *)

(** lib/core/lisp.c:91-131 lisp_lookup: local scope, then globals, then NIL.  The
    cache is shown to be transparent in [Cache.v]. *)
Definition lookup (c : env) (k : symbol) : M atom :=
  fun w => Ret (match env_get c k with
                | Some v => v
                | None => match env_get (globals w) k with Some v => v | None => Nil end
                end) w.

(** lib/core/lisp.c:212-226 lisp_setq (lib/core/tree.c:331-358 lisp_tree_add). *)
Definition set_global (k : symbol) (v : atom) : M unit :=
  fun w => Ret tt (mkw ((k, v) :: globals w) (outs w) (ichan w) (ochan w) (opens w)).

(** ** Output *)

(** [fwrite(..., (FILE* )CAR(CAR(lisp->ochan))->number)]: prinl.c:36, print.c:29. *)
Definition emit (b : bytes) : M unit :=
  fun w => match ochan w with
           | h :: _ => Ret tt (mkw (globals w) ((h, b) :: outs w) (ichan w) (ochan w) (opens w))
           | [] => Stop UB
           end.

(** lib/core/print.c:130-137 through [Print.lisp_prin]. *)
Definition print_atom (v : atom) (literal : bool) : M unit :=
  match lisp_prin [] (fun _ => 0%N) v literal with Some b => emit b | None => halt UB end.

Section Oracle.

(** Whether opening a channel succeeds (dup, open, fdopen, path resolution):
    number of channels opened before, direction ([true] = output), CHAN. *)
Variable opened : N -> bool -> atom -> bool.

Section Rec.

(** The recursive calls to lisp_eval, and the budget of loops. *)
Variable ev : env -> atom -> M atom.
Variable budget : nat.

(** lib/core/eval.c:14-74 lisp_eval_args: bound arguments and remaining ones. *)
Fixpoint eval_args (c : env) (acc : env) (args vals : atom) : M (env * atom) :=
  match args with
  | Nil => ret (acc, Nil)
  | Sym _ k => ret ((k, vals) :: acc, Nil)
  | Pair _ arg oth =>
      match vals with
      | Nil => ret (acc, args)
      | _ => v <- ev c (car vals) ;; eval_args c (bind acc arg v) oth (cdr vals)
      end
  | _ =>
      match vals with
      | Nil => ret (acc, args)
      | _ => v <- ev c (car vals) ;; ret (acc, Nil)
      end
  end.

(** lib/core/lisp.c:232-251 lisp_prog. *)
Fixpoint prog (c : env) (cell result : atom) : M atom :=
  match cell with
  | Pair _ a d => r <- ev c a ;; prog c d r
  | _ => ret result
  end.

(** Is this the result of a marked call to the function named by [symb]?
    (eval.c:172).  [None]: CAR of a flagged symbol dereferences its bytes.
    Simplification: the C code compares 16 payload bytes whatever the types. *)
Definition self_call (symb res : atom) : option (option atom) :=
  match res with
  | Pair true h b =>
      match h, symb with
      | Sym _ k, Sym _ k' => Some (if sym_match k k' then Some b else None)
      | _, _ => Some None
      end
  | Sym true _ => None
  | _ => Some None
  end.

(** lib/core/eval.c:157-186, the tail-call loop. *)
Fixpoint tail_loop (n : nat) (cls0 : env) (symb body : atom) (bscl : env) : M atom :=
  match n with
  | O => dry
  | S n' =>
      res <- prog (merge cls0 bscl) body Nil ;;
      s <- opt (self_call symb res) ;;
      match s with
      | None => ret res
      | Some b => b' <- opt (env_of_atom b) ;; tail_loop n' cls0 symb body b'
      end
  end.

(** lib/mnml/std/cond.c:5-54 lisp_cond. *)
Fixpoint cond_loop (c : env) (cell l : atom) : M atom :=
  match l with
  | Pair _ (Pair _ args pr) r =>
      match args with
      | Wild => ev c pr
      | _ =>
          res <- ev c (Cons args (Cons cell Nil)) ;;
          if is_true res then ev c pr else cond_loop c cell r
      end
  | _ => ret Nil
  end.

(** lib/mnml/std/match.c:27-61 lisp_match. *)
Fixpoint match_loop (c : env) (v l : atom) : M atom :=
  match l with
  | Pair _ (Pair _ args pr) r =>
      if atom_match args v then ev c pr else match_loop c v r
  | _ => ret Nil
  end.

(** lib/mnml/std/list.c:6-28 lisp_list: the tail is evaluated first. *)
Fixpoint list_loop (c : env) (l : atom) : M atom :=
  match l with
  | Pair _ a d => r <- list_loop c d ;; v <- ev c a ;; ret (Cons v r)
  | _ => ret l
  end.

(** lib/mnml/std/let.c:7-74 lisp_let_bind. *)
Fixpoint let_bind (c : env) (e : env) (cell : atom) : M env :=
  match cell with
  | Pair _ (Pair _ arg nvl) r =>
      let tmp := merge c e in
      v <- ev tmp nvl ;;
      v' <- match arg with
            | Sym _ k =>
                if is_func v then
                  match env_get tmp k with
                  | Some _ => ret v
                  | None =>
                      b <- opt (mark_body k (car v) (cdr (cdr v))) ;;
                      ret (match v with
                           | Pair t a (Pair t' d _) => Pair t a (Pair t' d b)
                           | _ => v
                           end)
                  end
                else ret v
            | _ => ret v
            end ;;
      let_bind c (bind e arg v') r
  | _ => ret e
  end.

(** lib/mnml/std/stream.c:6-37 lisp_stream. *)
Fixpoint stream_loop (c : env) (any expr : atom) : M atom :=
  r <- ev c expr ;;
  let next a := Cons a (Cons (Cons (Symb (sy "quote")) r) Nil) in
  match any with
  | Nil => ret r
  | Pair _ a d => stream_loop c d (next a)
  | _ => ev c (next Nil)
  end.

(** lib/mnml/std/while.c:15-37. *)
Fixpoint while_loop (n : nat) (c : env) (cnd prg res : atom) : M atom :=
  match n with
  | O => dry
  | S n' =>
      t <- ev c cnd ;;
      if is_null t then ret res
      else r <- prog c prg Nil ;; while_loop n' c cnd prg r
  end.

(** lib/mnml/io/prin.c:5-28, prinl.c:6-29 ([literal = false]); print.c:6-32,
    printl.c:6-32 ([literal = true], a space between elements). *)
Fixpoint prin_all (literal : bool) (c : env) (cell result : atom) : M atom :=
  match cell with
  | Nil => ret result
  | Pair _ a d =>
      v <- ev c a ;;
      _ <- print_atom v literal ;;
      _ <- (if literal && negb (is_null d) then emit (bs " ") else ret tt) ;;
      prin_all literal c d v
  | _ => v <- ev c Nil ;; _ <- print_atom v literal ;; ret v
  end.

(** Lists that end in NIL (no C code; used to state where a list is walked to its end). *)
Fixpoint proper (a : atom) : bool :=
  match a with Nil => true | Pair _ _ d => proper d | _ => false end.

(** lib/mnml/io/in.c:32-79, out.c:33-74: the handle, or NIL.  For [out] a pair is
    read as a C string without a check (out.c:44): an improper list dereferences
    a null pointer.  Path resolution, the directory kept in the channel entry and
    buffer capacities are not modelled here ([CString.v]). *)
Definition open_chan (output : bool) (chan : atom) : M (option N) :=
  fun w =>
    let try :=
      if opened (opens w) output chan
      then Ret (Some (opens w)) (mkw (globals w) (outs w) (ichan w) (ochan w) (opens w + 1)%N)
      else Ret None w in
    match chan with
    | Nil | Num _ => try
    | Pair _ _ _ =>
        if output then (if proper chan then try else Stop UB)
        else if is_string chan then try else Ret None w
    | _ => Ret None w
    end.

(** include/mnml/utils.h:135-149 PUSH_IO_CONTEXT, POP_IO_CONTEXT. *)
Definition push_chan (output : bool) (h : N) : M unit :=
  fun w => Ret tt (if output
                   then mkw (globals w) (outs w) (ichan w) (h :: ochan w) (opens w)
                   else mkw (globals w) (outs w) (h :: ichan w) (ochan w) (opens w)).
Definition pop_chan (output : bool) : M unit :=
  fun w =>
    if output then
      match ochan w with
      | _ :: r => Ret tt (mkw (globals w) (outs w) (ichan w) r (opens w))
      | [] => Stop UB
      end
    else
      match ichan w with
      | _ :: r => Ret tt (mkw (globals w) (outs w) r (ochan w) (opens w))
      | [] => Stop UB
      end.

(** lib/mnml/io/in.c:14-91, out.c:14-87.  [in] first reads the directory of the
    current input channel (in.c:28). *)
Definition with_chan (output : bool) (c : env) (chan rem : atom) : M atom :=
  _ <- (fun w => if output then Ret tt w
                 else match ichan w with [] => Stop UB | _ => Ret tt w end) ;;
  h <- open_chan output chan ;;
  match h with
  | None => ret Nil
  | Some h =>
      _ <- push_chan output h ;;
      r <- prog c rem Nil ;;
      _ <- pop_chan output ;;
      ret r
  end.

(** lib/mnml/std/def.c:6-56. *)
Definition run_def (any : atom) : M atom :=
  match car any with
  | Sym _ k =>
      let args := car (cdr any) in
      if is_list args || is_symb args then
        let p := cdr (cdr any) in
        let doc := car p in
        let body := if is_pair doc && is_char (car doc) then cdr p else p in
        b <- opt (mark_body k args body) ;;
        _ <- set_global k (Cons args (Cons Nil b)) ;;
        ret (car any)
      else ret Nil
  | _ => ret Nil
  end.

(** lib/mnml/std/setq.c:5-29 and lib/core/lisp.c:212-226. *)
Definition run_setq (c : env) (any : atom) : M atom :=
  r <- ev c (car (cdr any)) ;;
  if is_null r then ret r
  else _ <- match car any with Sym _ k => set_global k r | _ => ret tt end ;; ret r.

(** lib/mnml/std/set.c:6-51.  A local binding is a cell shared by every scope that
    captured it: [Shared].  A global binding is updated in place and the pair
    (symbol . previous value) is returned (lib/core/tree.c:364-407). *)
Definition run_set (c : env) (any : atom) : M atom :=
  s <- ev c (car any) ;;
  v <- ev c (car (cdr any)) ;;
  match s with
  | Sym _ k =>
      match env_get c k with
      | Some _ => halt Shared
      | None =>
          fun w => match env_get (globals w) k with
                   | Some o => (_ <- set_global k v ;; ret (Cons s o)) w
                   | None => Ret Nil w
                   end
      end
  | _ => ret Nil
  end.

(** lib/mnml/logic/or.c:5-38. *)
Definition run_or (c : env) (any : atom) : M atom :=
  r <- ev c (car any) ;;
  if negb (is_null r) then ret Tru
  else r1 <- ev c (car (cdr any)) ;; ret (if is_null r1 then Nil else Tru).

(** The builtins, given the popped arguments and the remaining closure.
    [One]/[Rest] builtins get one argument, the others two
    (include/mnml/module.h:153-181 LISP_ARGS). *)
Definition prim1 (p : prim) (full c : env) (x : atom) : M atom :=
  match p with
  | Pcar => ret (car x)                                       (* std/car.c:5-10 *)
  | Pcdr => ret (cdr x)                                       (* std/cdr.c:5-10 *)
  | Pchr => z <- opt (num_field x) ;; ret (Chr (schar (byte_of_char z)))  (* std/chr.c:6-12 *)
  | Pcond => cond_loop c (car x) (cdr x)                      (* std/cond.c:56-64 *)
  | Pdef => run_def x
  | Peval => ev c x                                           (* std/eval.c:5-10 *)
  | Patm => ret (truth (is_atom x))                           (* std/isatm.c:5 *)
  | Pischr => ret (truth (is_char x))                         (* std/ischr.c:5 *)
  | Plst => ret (truth (is_list x))                           (* std/islst.c:5 *)
  | Pnil => ret (truth (is_null x))                           (* std/isnil.c:5 *)
  | Pnum => ret (truth (is_numb x))                           (* std/isnum.c:5 *)
  | Pisstr => ret (truth (is_string x))                       (* std/isstr.c:6 *)
  | Pissym => ret (truth (is_symb x))                         (* std/issym.c:5 *)
  | Ptru => ret (truth (is_true x))                           (* std/istru.c:5 *)
  | Plambda => ret (Cons (car x) (Cons (atom_of_env c) (cdr x)))  (* std/lambda.c:5-20 *)
  | Plen => ret (if is_list x then Num (Z.of_nat (pairs_len x)) else Nil)  (* std/len.c:7-15 *)
  | Plet => e <- let_bind c [] (car x) ;; prog (merge c e) (cdr x) Nil  (* std/let.c:76-107 *)
  | Plist => list_loop c x                                    (* std/list.c:30-35 *)
  | Pmatch => v <- ev full (car x) ;; match_loop c v (cdr x)   (* std/match.c:63-70 *)
  | Pprog => prog c x Nil                                     (* std/prog.c:5-10 *)
  | Pquote => ret x                                           (* std/quote.c:6-12 *)
  | Pset => run_set c x
  | Psetq => run_setq c x
  | Pstr => opt (str_of x)                                    (* std/str.c:6-13 *)
  | Pstream => stream_loop c (cdr x) (car x)                  (* std/stream.c:39-51 *)
  | Psym => ret (sym_of x)                                    (* std/sym.c:6-26 *)
  | Pwhile => while_loop budget c (car x) (cdr x) Nil
  | Por => run_or c x
  | Pnot => ret (truth (is_null x))                           (* logic/not.c:5-10 *)
  | Pprin => prin_all false c x Nil                           (* io/prin.c:30-35 *)
  | Pprinl => r <- prin_all false c x Nil ;; _ <- emit [10%N] ;; ret r  (* io/prinl.c:31-38 *)
  | Pprint => prin_all true c x Nil                           (* io/print.c:34-39 *)
  | Pprintl => r <- prin_all true c x Nil ;; _ <- emit [10%N] ;; ret r  (* io/printl.c:34-41 *)
  | _ => halt UB
  end.

(** The builtins of two arguments; the files are cited case by case. *)
Definition prim2 (p : prim) (c : env) (x y : atom) : M atom :=
  match p with
  | Pconc => halt Shared                                      (* std/conc.c:5-10; HeapOps.v *)
  | Pcons => ret (Cons x y)                                   (* std/cons.c:5-10 *)
  | Pif => if is_null x then ev c (car (cdr y)) else ev c (car y)  (* std/if.c:6-26 *)
  | Punless => if is_null x then prog c y Nil else ret Nil    (* std/unless.c:5-19 *)
  | Pwhen => if is_null x then ret Nil else prog c y Nil      (* std/when.c:5-19 *)
  | Pand => ret (truth (negb (is_null x) && negb (is_null y)))  (* logic/and.c:5 *)
  | Pequ => ret (truth (equ x y))                             (* logic/equ.c:6-11 *)
  | Pneq => ret (truth (neq x y))                             (* logic/neq.c:5-10 *)
  | Padd | Psub | Pmul | Pdiv | Pmod =>                       (* math/*.c *)
      a <- opt (num_field x) ;; b <- opt (num_field y) ;; r <- opt (arith p a b) ;; ret (Num r)
  | Plt | Ple | Pgt | Pge =>                                  (* math/*.c *)
      a <- opt (num_field x) ;; b <- opt (num_field y) ;; ret (truth (compare p a b))
  | Pin => with_chan false c x y
  | Pout => with_chan true c x y
  | _ => halt UB
  end.

(** How many bindings the builtin pops (module.h:153-181). *)
Definition pops_two (p : prim) : bool :=
  match p with
  | Pconc | Pcons | Pif | Punless | Pwhen | Pand | Pequ | Pneq
  | Padd | Psub | Pmul | Pdiv | Pmod | Plt | Ple | Pgt | Pge | Pin | Pout => true
  | _ => false
  end.

(** Calling a builtin (eval.c:137-139): the last argument is at the head. *)
Definition run_prim (p : prim) (full : env) : M atom :=
  if pops_two p then
    match full with
    | (_, y) :: (_, x) :: c => prim2 p c x y
    | _ => halt UB
    end
  else
    match full with
    | (_, x) :: c => prim1 p full c x
    | [] => halt UB
    end.

(** lib/core/eval.c:81-204 lisp_eval_func. *)
Definition eval_func (c : env) (symb func vals : atom) : M atom :=
  let args := car func in
  if negb (may_apply args vals) then ret Nil
  else
    let dscl := car (cdr func) in
    let body := cdr (cdr func) in
    r <- eval_args c [] args vals ;;
    let (bscl, narg) := r in
    if is_null narg then
      match body with
      | Num a =>
          d <- opt (env_of_atom dscl) ;;
          p <- opt (prim_of_addr a) ;;
          run_prim p (bscl ++ d ++ c)
      | _ =>
          if is_tail_call symb then ret (Pair true symb (atom_of_env bscl))
          else
            d <- opt (env_of_atom dscl) ;;
            tail_loop budget (merge c d) symb body bscl
      end
    else
      d <- opt (env_of_atom dscl) ;;
      ret (Cons narg (Cons (atom_of_env (bscl ++ d)) body)).

(** lib/core/eval.c:210-254 lisp_eval_pair. *)
Definition eval_pair (c : env) (a d : atom) : M atom :=
  nxt <- ev c a ;;
  if is_func nxt then eval_func c a nxt d
  else if equ a nxt then ret (Cons nxt d)
  else if is_symb nxt || is_pair nxt then ev c (Cons nxt d)
  else ret (Cons nxt d).

End Rec.

(** lib/core/eval.c:260-286 lisp_eval.  The budget bounds the depth of recursive
    calls and the number of turns of each loop. *)
Fixpoint eval (n : nat) (c : env) (x : atom) : M atom :=
  match n with
  | O => dry
  | S n' =>
      match x with
      | Pair _ a d => eval_pair (eval n') n' c a d
      | Sym _ k => lookup c k
      | _ => ret x
      end
  end.

End Oracle.

(** Program start: every builtin loaded, standard channels on the stacks
    (bin/mnml.c:333-334, lib/stubs/extern.c:27-28). *)
Definition world0 : world := mkw builtins [] [0%N] [1%N] 2.
