(** * REval: the evaluator over reference-counted cells (lib/core/eval.c,
    lib/core/lisp.c, lib/core/utils.c and the builtins of
    lib/mnml/{std,logic,math,io}), in memory that is used again.

    Definitions only; proofs are in [RSim*.v].  The code of [HEval.v] on the memory of
    [RHeap.v], without the ghost checks of [HEval.v].  Every UP, X and allocation of
    the C code is here, in the same order.  Simplifications common to the file: the
    payload bytes of a cell that is not a symbol never equal those of a symbol
    (include/mnml/utils.h:107-129 compares them whatever the type); metrics and
    traces are omitted.  Not modelled: load, quit, read, readline, and the sys and
    unix modules. *)
From Verif Require Import Value Print RHeap.
From Verif Require Heap HEval Eval.
Import Heap(content(..), cell, mkcell, refs, tail, weak, body, rest, mkrest, binds, ichan, ochan, opens, outs, caches, lost, strays).
Import Heap(with_refs, with_body, with_tail, is_pair_c, is_nil_c, is_true_c, is_wild_c, is_char_c, is_num_c, is_sym_c).
Import HEval(leaf, is_list_c, with_binds, with_ichan, with_ochan, with_opens, with_outs, with_caches, assq, arg_names).
Import Eval(prim(..), prim_of_addr, arith, compare, pops_two, proper, builtins).
From Verif Require Import Tails.
Open Scope rheap_scope.

(** ** Cells *)

(** include/mnml/types.h:91-92 CDR as the target of an assignment. *)
Definition set_cdr (a y : N) : HM unit :=
  c <- rd a ;; match body c with KPair x _ => wr a (with_body c (KPair x y)) | _ => wild end.
(** include/mnml/types.h:113 SET_TAIL_CALL. *)
Definition set_tail (a : N) : HM unit := c <- rd a ;; wr a (with_tail c).
(** include/mnml/utils.h:107-123 lisp_symbol_match, lisp_symbol_equal. *)
Definition key_is (a : N) (s : symbol) : HM bool :=
  c <- rd a ;; done (match body c with KSym s' => sym_match s' s | _ => false end).
(** The same on two cells. *)
Definition same_key (a b : N) : HM bool :=
  c <- rd a ;; d <- rd b ;;
  done (match body c, body d with KSym s, KSym s' => sym_match s s' | _, _ => false end).

(** The [number] member of the payload (module.h:202-214). *)
Definition number_of (a : N) : HM Z :=
  c <- rd a ;; match num_field (leaf c) with Some z => done z | None => wild end.
(** The value at a cell, every cell of which is read: what lisp_prin (print.c) and
    lisp_make_cstring (utils.c:283-300) traverse. *)
Fixpoint value_at (n : nat) (a : N) : HM atom :=
  match n with
  | O => dry
  | S n' =>
      c <- rd a ;;
      match body c with
      | KPair x y => v <- value_at n' x ;; w <- value_at n' y ;; done (Pair (tail c) v w)
      | _ => done (leaf c)
      end
  end.

(** include/mnml/lisp.h:154-254: T or NIL. *)
Definition make_truth (b : bool) : HM N := alloc (if b then KTrue else KNil).

(** lib/core/utils.c:117-144 lisp_equ. *)
Fixpoint hequ (n : nat) (a b : N) : HM bool :=
  match n with
  | O => dry
  | S n' =>
      c <- rd a ;; d <- rd b ;;
      match body c, body d with
      | KPair x y, KPair x' y' =>
          e <- hequ n' x x' ;; if e then hequ n' y y' else done false
      | KPair _ _, _ | _, KPair _ _ => done false
      | _, _ => done (equ (leaf c) (leaf d))
      end
  end.
(** lib/core/utils.c:150-171 lisp_neq. *)
Fixpoint hneq (n : nat) (a b : N) : HM bool :=
  match n with
  | O => dry
  | S n' =>
      c <- rd a ;; d <- rd b ;;
      match body c, body d with
      | KPair x y, KPair x' y' =>
          e <- hneq n' x x' ;; if e then done true else hneq n' y y'
      | KPair _ _, _ | _, KPair _ _ => done true
      | _, _ => done (neq (leaf c) (leaf d))
      end
  end.
(** lib/mnml/std/match.c:5-25 atom_match. *)
Fixpoint hmatch (n : nat) (a b : N) : HM bool :=
  match n with
  | O => dry
  | S n' =>
      c <- rd a ;;
      if is_wild_c c then done true
      else
        d <- rd b ;;
        match body c, body d with
        | KPair x y, KPair x' y' =>
            e <- hmatch n' x x' ;; if e then hmatch n' y y' else done false
        | KPair _ _, _ | _, KPair _ _ => done false
        | _, _ => done (atom_match (leaf c) (leaf d))
        end
  end.
(** lib/core/utils.c:357-388 lisp_may_apply. *)
Fixpoint hmay_apply (n : nat) (args vals : N) : HM bool :=
  match n with
  | O => dry
  | S n' =>
      c <- rd args ;; d <- rd vals ;;
      if is_nil_c c && is_nil_c d then done true
      else if is_sym_c c then done true
      else if negb (is_nil_c c) && is_nil_c d then done true
      else if is_pair_c c && is_pair_c d then
        x <- CDR args ;; y <- CDR vals ;; hmay_apply n' x y
      else done false
  end.
(** lib/core/utils.c:90-100 lisp_len; the caller tests IS_LIST (std/len.c:10). *)
Fixpoint hlen (n : nat) (a : N) : HM Z :=
  match n with
  | O => dry
  | S n' =>
      y <- CDR a ;;
      t <- test is_pair_c y ;;
      if t then k <- hlen n' y ;; done (1 + k)%Z else done 1%Z
  end.
(** include/mnml/types.h:127-132 IS_FUNC. *)
Definition his_func (a : N) : HM bool :=
  c <- rd a ;;
  match body c with
  | KPair x y =>
      cx <- rd x ;;
      if is_list_c cx || is_sym_c cx then
        cy <- rd y ;;
        match body cy with
        | KPair u v =>
            cu <- rd u ;;
            if is_list_c cu then cv <- rd v ;; done (is_pair_c cv || is_num_c cv)
            else done false
        | _ => done false
        end
      else done false
  | _ => done false
  end.

(** ** Globals and channels *)

(** Reading and changing the fields of struct lisp (include/mnml/lisp.h:28-39). *)
Definition get_aux : HM rest := fun h => Done (aux h) h.
Definition set_aux (f : rest -> rest) : HM unit := fun h => Done tt (mkheap (cells h) (free h) (pages h) (served h) (f (aux h))).

(** lib/core/tree.c:413-457 lisp_tree_get, without the reference ([Tree.v]): the
    (KEY . VALUE) pair of a symbol. *)
Definition global (s : symbol) : HM (option N) :=
  r <- get_aux ;; done (assq (fun k => sym_match k s) (binds r)).
(** The [cache] field of the symbol at [a] (types.h:82). *)
Definition cached (a : N) : HM (option N) :=
  r <- get_aux ;; done (assq (N.eqb a) (caches r)).
Definition remember (a kv : N) : HM unit := set_aux (fun r => with_caches r ((a, kv) :: caches r)).

(** lib/core/lisp.c:91-103, set.c:28-38: first pair of the scope with this name.
    FOREACH on a cell that is neither NIL nor a pair reads fields of another type. *)
Fixpoint scan (n : nat) (c : N) (s : symbol) : HM (option N) :=
  match n with
  | O => dry
  | S n' =>
      kv <- CAR c ;;
      k <- CAR kv ;;
      b <- key_is k s ;;
      if b then done (Some kv)
      else
        y <- CDR c ;;
        t <- test is_pair_c y ;;
        if t then scan n' y s else done None
  end.
Definition find_local (n : nat) (c : N) (s : symbol) : HM (option N) :=
  t <- test is_nil_c c ;; if t then done None else scan n c s.

(** lib/core/lisp.c:91-131 lisp_lookup. *)
Definition hlookup (n : nat) (c x : N) : HM N :=
  s <- symbol_of x ;;
  l <- find_local n c s ;;
  match l with
  | Some kv => v <- CDR kv ;; up v
  | None =>
      e <- cached x ;;
      match e with
      | Some kv => v <- CDR kv ;; up v
      | None =>
          g <- global s ;;
          match g with
          | Some kv => elt <- up kv ;; res <- hcdr elt ;; remember x elt ;;; X elt ;;; done res
          | None => elt <- make_nil ;; res <- hcdr elt ;; X elt ;;; done res
          end
      end
  end.

(** lib/core/utils.c:177-185, 236-246: lisp_merge(lisp_dup(c), e). *)
Definition hmix (n : nat) (c e : N) : HM N := r <- hdup n c ;; hmerge n r e.

(** lib/core/lisp.c:76-85 lisp_make_string and the makers of include/mnml/lisp.h:154-254: building a value. *)
Definition flag (t : bool) (a : N) : HM N := if t then c <- rd a ;; wr a (with_tail c) ;;; done a else done a.
Fixpoint plant (v : atom) : HM N :=
  match v with
  | Nil => alloc KNil
  | Tru => alloc KTrue
  | Value.Wild => alloc KWild
  | Chr z => alloc (KChar z)
  | Num z => alloc (KNum z)
  | Sym t s => a <- alloc (KSym s) ;; flag t a
  | Pair t x y => a <- plant x ;; b <- plant y ;; p <- hcons a b ;; flag t p
  end.

(** ** Tail calls *)

(** lib/core/utils.c:402-437 lisp_collect_tails_assoc, given lisp_collect_tails. *)
Fixpoint hcollect_assoc (col : N -> HM N) (n : nat) (cell : N) : HM N :=
  match n with
  | O => dry
  | S n' =>
      c <- rd cell ;;
      if is_nil_c c then done cell
      else if negb (is_pair_c c) then X cell ;;; make_nil
      else
        car <- hcar cell ;;
        cdr <- hcdr cell ;;
        X cell ;;;
        e <- hcdr car ;;
        head <- col e ;;
        X car ;;;
        tail <- hcollect_assoc col n' cdr ;;
        hconc n' head tail
  end.
(** lib/core/utils.c:439-518 lisp_collect_tails. *)
Definition wrap (cell : N) : HM N := z <- make_nil ;; hcons cell z.
Fixpoint hcollect (n : nat) (cell : N) : HM N :=
  match n with
  | O => dry
  | S n' =>
      c <- rd cell ;;
      match body c with
      | KPair a _ =>
          ca <- rd a ;;
          match body ca with
          | KSym s =>
              if named s "if" then
                cd0 <- hcdr cell ;;
                cd1 <- hcdr cd0 ;;
                t <- hcar cd1 ;;
                thn <- hcollect n' t ;;
                cd2 <- hcdr cd1 ;;
                e <- hcar cd2 ;;
                els <- hcollect n' e ;;
                X cell ;;; X cd0 ;;; X cd1 ;;; X cd2 ;;;
                hconc n' thn els
              else if named s "cond" || named s "match" then
                cd0 <- hcdr cell ;;
                cd1 <- hcdr cd0 ;;
                res <- hcollect_assoc (hcollect n') n' cd1 ;;
                X cell ;;; X cd0 ;;;
                done res
              else if named s "prog" || named s "|>" then
                p <- last_pair n' cell ;;
                l <- CAR p ;;
                last <- up l ;;
                res <- hcollect n' last ;;
                X cell ;;;
                done res
              else if named s "unless" || named s "when" then
                cd0 <- hcdr cell ;;
                cd1 <- hcdr cd0 ;;
                e <- hcar cd1 ;;
                res <- hcollect n' e ;;
                X cell ;;; X cd0 ;;; X cd1 ;;;
                done res
              else wrap cell
          | _ => wrap cell
          end
      | KNil => done cell
      | _ => wrap cell
      end
  end.
(** lib/core/utils.c:541-552, the marking loop. *)
Fixpoint hmark_loop (n : nat) (symb args pt : N) : HM unit :=
  match n with
  | O => dry
  | S n' =>
      x <- CAR pt ;;
      t <- test is_pair_c x ;;
      (if t then
         k <- CAR x ;;
         b <- same_key k symb ;;
         if b then
           d <- CDR x ;;
           m <- hmay_apply n' args d ;;
           if m then set_tail k else done tt
         else done tt
       else done tt) ;;;
      y <- CDR pt ;;
      t <- test is_pair_c y ;;
      if t then hmark_loop n' symb args y else done tt
  end.
(** lib/core/utils.c:520-558 lisp_mark_tail_calls.  On NIL, [pe->car] is null. *)
Definition hmark (n : nat) (symb args bdy : N) : HM unit :=
  t <- test is_nil_c bdy ;;
  if t then wild
  else
    pe <- last_pair n bdy ;;
    l <- CAR pe ;;
    last <- up l ;;
    tails <- hcollect n last ;;
    e <- test is_nil_c tails ;;
    (if e then done tt else hmark_loop n symb args tails) ;;;
    X tails.

(** ** Output *)

(** [fwrite(..., (FILE* )CAR(CAR(lisp->ochan))->number)]: prinl.c:36, print.c:29. *)
Definition hemit (b : bytes) : HM unit :=
  r <- get_aux ;;
  e <- CAR (ochan r) ;;
  k <- CAR e ;;
  z <- number_of k ;;
  set_aux (fun r => with_outs r ((Z.to_N z, b) :: outs r)).
(** lib/core/print.c:130-137 through [Print.lisp_prin]. *)
Definition hprint (n : nat) (a : N) (literal : bool) : HM unit :=
  v <- value_at n a ;;
  match lisp_prin [] (fun _ => 0%N) v literal with Some b => hemit b | None => wild end.

Section Oracle.

(** As in [Eval.v]. *)
Variable opened : N -> bool -> atom -> bool.
(** The value of PWD (out.c:29). *)
Variable pwd : atom.

(** lib/core/tree.c:227-233 and 398-402: the values of the global [data] and of the
    pair [kv] are exchanged. *)
Definition swap_values (data kv : N) : HM unit :=
  v <- CDR kv ;; o <- CDR data ;; set_cdr data v ;;; set_cdr kv o.
(** lib/core/lisp.c:212-226 lisp_setq on the globals, lib/core/tree.c:331-358
    lisp_tree_add. *)
Definition hsetq (pair : N) : HM unit :=
  t <- test is_pair_c pair ;;
  if negb t then X pair
  else
    k <- CAR pair ;;
    t <- test is_sym_c k ;;
    if negb t then X pair
    else
      s <- symbol_of k ;;
      g <- global s ;;
      match g with
      | None => set_aux (fun r => with_binds r ((s, pair) :: binds r))
      | Some data => swap_values data pair ;;; X pair
      end.

Section Rec.

(** The recursive calls to lisp_eval, and the budget of loops. *)
Variable ev : N -> N -> HM N.
Variable budget : nat.

(** lib/core/eval.c:14-74 lisp_eval_args. *)
Fixpoint heval_args (n : nat) (c acc args vals : N) : HM N :=
  match n with
  | O => dry
  | S n' =>
      ca <- rd args ;;
      if is_nil_c ca then
        rslt <- hcons acc args ;; X vals ;;; done rslt
      else if is_sym_c ca then
        head <- hbind n' acc args vals ;; z <- make_nil ;; hcons head z
      else
        t <- test is_nil_c vals ;;
        if t then rslt <- hcons acc args ;; X vals ;;; done rslt
        else
          arg <- hcar args ;;
          oth <- hcdr args ;;
          X args ;;;
          x <- hcar vals ;;
          val <- ev c x ;;
          rem <- hcdr vals ;;
          X vals ;;;
          b <- hbind n' acc arg val ;;
          heval_args n' c b oth rem
  end.

(** lib/core/lisp.c:232-251 lisp_prog. *)
Fixpoint hprog (n : nat) (c cell result : N) : HM N :=
  match n with
  | O => dry
  | S n' =>
      t <- test is_pair_c cell ;;
      if t then
        x <- hcar cell ;;
        res <- ev c x ;;
        cdr <- hcdr cell ;;
        X cell ;;; X result ;;;
        hprog n' c cdr res
      else X cell ;;; done result
  end.

(** lib/core/eval.c:157-186, the tail-call loop: the result, and the last arguments,
    which the caller drops. *)
Fixpoint htail_loop (n : nat) (cls0 symb bdy bscl : N) : HM (N * N) :=
  match n with
  | O => dry
  | S n' =>
      cls1 <- hmix n' cls0 bscl ;;
      b <- up bdy ;;
      z <- make_nil ;;
      res <- hprog n' cls1 b z ;;
      X cls1 ;;;
      t <- test tail res ;;
      if t then
        k <- CAR res ;;
        m <- same_key k symb ;;
        if m then
          X bscl ;;;
          bs <- hcdr res ;;
          X res ;;;
          htail_loop n' cls0 symb bdy bs
        else done (res, bscl)
      else done (res, bscl)
  end.

(** lib/mnml/std/cond.c:5-54 lisp_cond. *)
Fixpoint hcond (n : nat) (c cell mtch : N) : HM N :=
  match n with
  | O => dry
  | S n' =>
      cm <- rd mtch ;;
      match body cm with
      | KPair a _ =>
          ca <- rd a ;;
          if is_pair_c ca then
            car <- hcar mtch ;;
            cdr <- hcdr mtch ;;
            X mtch ;;;
            args <- hcar car ;;
            prg <- hcdr car ;;
            X car ;;;
            w <- test is_wild_c args ;;
            if w then X args ;;; X cdr ;;; X cell ;;; ev c prg
            else
              u <- up cell ;;
              z <- make_nil ;;
              con <- hcons u z ;;
              evl <- hcons args con ;;
              res <- ev c evl ;;
              t <- test is_true_c res ;;
              if t then X cdr ;;; X cell ;;; X res ;;; ev c prg
              else X prg ;;; X res ;;; hcond n' c cell cdr
          else X cell ;;; X mtch ;;; make_nil
      | _ => X cell ;;; X mtch ;;; make_nil
      end
  end.

(** lib/mnml/std/match.c:27-61 lisp_match. *)
Fixpoint hmatch_loop (n : nat) (c v mtch : N) : HM N :=
  match n with
  | O => dry
  | S n' =>
      cm <- rd mtch ;;
      match body cm with
      | KPair a _ =>
          ca <- rd a ;;
          if is_pair_c ca then
            car <- hcar mtch ;;
            cdr <- hcdr mtch ;;
            X mtch ;;;
            args <- hcar car ;;
            prg <- hcdr car ;;
            X car ;;;
            m <- hmatch n' args v ;;
            if m then X args ;;; X cdr ;;; X v ;;; ev c prg
            else X args ;;; X prg ;;; hmatch_loop n' c v cdr
          else X v ;;; X mtch ;;; make_nil
      | _ => X v ;;; X mtch ;;; make_nil
      end
  end.

(** lib/mnml/std/list.c:6-28 lisp_list. *)
Fixpoint hlist (n : nat) (c cell : N) : HM N :=
  match n with
  | O => dry
  | S n' =>
      t <- test is_pair_c cell ;;
      if t then
        car <- hcar cell ;;
        cdr <- hcdr cell ;;
        X cell ;;;
        res <- hlist n' c cdr ;;
        evl <- ev c car ;;
        hcons evl res
      else done cell
  end.

(** lib/mnml/std/let.c:7-74 lisp_let_bind.  [IS_SYMB(arg)] and [IS_FUNC(val)] read
    cells lisp_bind has consumed (let.c:49). *)
Fixpoint hlet_bind (n : nat) (c env cell : N) : HM N :=
  match n with
  | O => dry
  | S n' =>
      t <- test is_pair_c cell ;;
      if negb t then X cell ;;; done env
      else
        car <- hcar cell ;;
        cdr <- hcdr cell ;;
        X cell ;;;
        t <- test is_pair_c car ;;
        if negb t then X car ;;; X cdr ;;; done env
        else
          tmp <- hmix n' c env ;;
          arg <- hcar car ;;
          nvl <- hcdr car ;;
          X car ;;;
          val <- ev tmp nvl ;;
          nx <- hbind n' env arg val ;;
          sy <- test is_sym_c arg ;;
          (if sy then
             fn <- his_func val ;;
             if fn then
               s <- symbol_of arg ;;
               l <- find_local n' tmp s ;;
               match l with
               | Some _ => done tt
               | None =>
                   a <- CAR val ;; d <- CDR val ;; b <- CDR d ;;
                   hmark n' arg a b
               end
             else done tt
           else done tt) ;;;
          X tmp ;;;
          hlet_bind n' c nx cdr
  end.

(** lib/mnml/std/let.c:76-100 lisp_let. *)
Definition hlet (c cell : N) : HM N :=
  bd <- hcar cell ;;
  prg <- hcdr cell ;;
  X cell ;;;
  z <- make_nil ;;
  next <- hlet_bind budget c z bd ;;
  clos <- hmix budget c next ;;
  X next ;;;
  z <- make_nil ;;
  res <- hprog budget clos prg z ;;
  X clos ;;;
  done res.

(** include/mnml/lisp.h:223-230 lisp_make_quote; lib/mnml/std/stream.c:6-37
    lisp_stream. *)
Fixpoint hstream (n : nat) (c any expr : N) : HM N :=
  match n with
  | O => dry
  | S n' =>
      res <- ev c expr ;;
      t <- test is_nil_c any ;;
      if t then X any ;;; done res
      else
        car <- hcar any ;;
        cdr <- hcdr any ;;
        X any ;;;
        q <- alloc (KSym (sy "quote")) ;;
        cn0 <- hcons q res ;;
        z <- make_nil ;;
        cn1 <- hcons cn0 z ;;
        nx <- hcons car cn1 ;;
        hstream n' c cdr nx
  end.

(** lib/mnml/std/while.c:5-37: the last result; [cnd] and [prg] are dropped by the
    caller. *)
Fixpoint hwhile (n : nat) (c cnd prg res : N) : HM N :=
  match n with
  | O => dry
  | S n' =>
      u <- up cnd ;;
      evl <- ev c u ;;
      t <- test is_nil_c evl ;;
      X evl ;;;
      if t then done res
      else
        X res ;;;
        p <- up prg ;;
        z <- make_nil ;;
        r <- hprog n' c p z ;;
        hwhile n' c cnd prg r
  end.

(** lib/mnml/io/prin.c:5-28, prinl.c:6-29 ([literal = false]); print.c:6-32,
    printl.c:6-32 ([literal = true]). *)
Fixpoint hprin_all (n : nat) (literal : bool) (c cell result : N) : HM N :=
  match n with
  | O => dry
  | S n' =>
      t <- test is_nil_c cell ;;
      if t then X cell ;;; done result
      else
        X result ;;;
        x <- hcar cell ;;
        v <- ev c x ;;
        cdr <- hcdr cell ;;
        X cell ;;;
        hprint n' v literal ;;;
        t <- test is_nil_c cdr ;;
        (if literal && negb t then hemit (bs " ") else done tt) ;;;
        hprin_all n' literal c cdr v
  end.

(** lib/mnml/io/in.c:32-79, out.c:33-74: whether a channel is opened; its handle is
    the number of channels opened before (as in [Eval.open_chan]). *)
Definition hopen (output : bool) (chan : atom) : HM (option N) :=
  r <- get_aux ;;
  let try :=
    if opened (opens r) output chan
    then set_aux (fun r => with_opens r (opens r + 1)%N) ;;; done (Some (opens r))
    else done None in
  match chan with
  | Nil | Num _ => try
  | Pair _ _ _ =>
      if output then (if proper chan then try else wild)
      else if is_string chan then try else done None
  | _ => done None
  end.
(** include/mnml/utils.h:135-142 PUSH_IO_CONTEXT; the string is built in one go. *)
Definition hpush (output : bool) (k : N) (dir : atom) : HM unit :=
  p <- plant dir ;;
  z <- make_nil ;;
  x <- hcons p z ;;
  n <- alloc (KNum (Z.of_N k)) ;;
  y <- hcons n x ;;
  r <- get_aux ;;
  e <- hcons y (if output then ochan r else ichan r) ;;
  set_aux (fun r => if output then with_ochan r e else with_ichan r e).
(** include/mnml/utils.h:144-149 POP_IO_CONTEXT. *)
Definition hpop (output : bool) : HM unit :=
  r <- get_aux ;;
  let old := if output then ochan r else ichan r in
  d <- CDR old ;;
  d <- up d ;;
  set_aux (fun r => if output then with_ochan r d else with_ichan r d) ;;;
  X old.
(** lib/mnml/io/in.c:14-91, out.c:14-87.  Path resolution is in the oracle; the
    string in the entry is copied (in.c:28) or the value of PWD (out.c:29). *)
Definition hwith_chan (output : bool) (c chan rem : N) : HM N :=
  dir <- (if output then done pwd
          else r <- get_aux ;; e <- CAR (ichan r) ;; d <- CDR e ;; s <- CAR d ;; value_at budget s) ;;
  v <- value_at budget chan ;;
  k <- hopen output v ;;
  match k with
  | None => make_nil
  | Some k =>
      hpush output k dir ;;;
      u <- up rem ;;
      z <- make_nil ;;
      res <- hprog budget c u z ;;
      hpop output ;;;
      done res
  end.

(** lib/mnml/std/def.c:6-56.  A first element that is not a symbol is never
    dropped (def.c:14-16). *)
Definition hdef (any : N) : HM N :=
  symb <- hcar any ;;
  t <- test is_sym_c symb ;;
  if negb t then make_nil
  else
    cdr0 <- hcdr any ;;
    args <- hcar cdr0 ;;
    ca <- rd args ;;
    if negb (is_nil_c ca || is_pair_c ca || is_sym_c ca) then
      X symb ;;; X cdr0 ;;; X args ;;; make_nil
    else
      prg <- hcdr cdr0 ;;
      X cdr0 ;;;
      doc <- hcar prg ;;
      cd <- rd doc ;;
      isdoc <- match body cd with KPair a _ => test is_char_c a | _ => done false end ;;
      prg <- (if isdoc : bool then nx <- hcdr prg ;; X prg ;;; done nx else done prg) ;;
      X doc ;;;
      hmark budget symb args prg ;;;
      z <- make_nil ;;
      con0 <- hcons z prg ;;
      con1 <- hcons args con0 ;;
      u <- up symb ;;
      elt <- hcons u con1 ;;
      hsetq elt ;;;
      done symb.

(** lib/mnml/std/setq.c:5-29. *)
Definition hrun_setq (c any : N) : HM N :=
  sym <- hcar any ;;
  cdr <- hcdr any ;;
  x <- hcar cdr ;;
  res <- ev c x ;;
  X cdr ;;;
  t <- test is_nil_c res ;;
  if t then X sym ;;; done res
  else
    u <- up res ;;
    elt <- hcons sym u ;;
    hsetq elt ;;;
    done res.

(** lib/mnml/std/set.c:6-51.  [cdr] is never dropped (set.c:14); when the name is
    not bound, the fields of the cell [elt] are dropped, not the cell (set.c:48). *)
Definition hrun_set (c any : N) : HM N :=
  x <- hcar any ;;
  sym <- ev c x ;;
  cdr <- hcdr any ;;
  y <- hcar cdr ;;
  val <- ev c y ;;
  t <- test is_sym_c sym ;;
  if negb t then X sym ;;; X val ;;; make_nil
  else
    s <- symbol_of sym ;;
    l <- find_local budget c s ;;
    match l with
    | Some kv => res <- CDR kv ;; set_cdr kv val ;;; X sym ;;; done res
    | None =>
        elt <- hcons sym val ;;
        g <- global s ;;
        match g with
        | Some data => swap_values data elt ;;; done elt
        | None =>
            res <- make_nil ;;
            X res ;;;
            X sym ;;; X val ;;;
            make_nil
        end
    end.

(** lib/mnml/logic/or.c:5-38. *)
Definition hrun_or (c any : N) : HM N :=
  ar0 <- hcar any ;;
  cdr <- hcdr any ;;
  ar1 <- hcar cdr ;;
  X cdr ;;;
  ra0 <- ev c ar0 ;;
  t <- test is_nil_c ra0 ;;
  if negb t then X ra0 ;;; X ar1 ;;; alloc KTrue
  else
    X ra0 ;;;
    ra1 <- ev c ar1 ;;
    t <- test is_nil_c ra1 ;;
    if t then done ra1 else X ra1 ;;; alloc KTrue.

(** Builtins with one argument [x]; [full] is the closure they are called with and
    [c] the remaining one. *)
Definition hprim1 (p : prim) (full c x : N) : HM N :=
  match p with
  | Pcar => hcar x                                            (* std/car.c:5-10 *)
  | Pcdr => hcdr x                                            (* std/cdr.c:5-10 *)
  | Pchr => z <- number_of x ;; alloc (KChar (schar (byte_of_char z)))  (* std/chr.c:6-12 *)
  | Pcond => a <- hcar x ;; d <- hcdr x ;; hcond budget c a d (* std/cond.c:56-64 *)
  | Pdef => hdef x
  | Peval => u <- up x ;; ev c u                              (* std/eval.c:5-10 *)
  | Patm => t <- test is_list_c x ;; make_truth (negb t)      (* std/isatm.c:5 *)
  | Pischr => t <- test is_char_c x ;; make_truth t           (* std/ischr.c:5 *)
  | Plst => t <- test is_list_c x ;; make_truth t             (* std/islst.c:5 *)
  | Pnil => t <- test is_nil_c x ;; make_truth t              (* std/isnil.c:5 *)
  | Pnum => t <- test is_num_c x ;; make_truth t              (* std/isnum.c:5 *)
  | Pisstr => v <- value_at budget x ;; make_truth (is_string v)  (* std/isstr.c:6 *)
  | Pissym => t <- test is_sym_c x ;; make_truth t            (* std/issym.c:5 *)
  | Ptru => t <- test is_true_c x ;; make_truth t             (* std/istru.c:5 *)
  | Plambda =>                                                (* std/lambda.c:5-20 *)
      args <- hcar x ;; prg <- hcdr x ;; clos <- hdup budget c ;;
      con0 <- hcons clos prg ;; hcons args con0
  | Plen =>                                                   (* std/len.c:7-15 *)
      cx <- rd x ;;
      match body cx with
      | KNil => alloc (KNum 0)
      | KPair _ _ => k <- hlen budget x ;; alloc (KNum k)
      | _ => make_nil
      end
  | Plet => u <- up x ;; hlet c u                             (* std/let.c:102-107 *)
  | Plist => u <- up x ;; hlist budget c u                    (* std/list.c:30-35 *)
  | Pmatch =>                                                 (* std/match.c:63-70 *)
      a <- hcar x ;; car <- ev full a ;; cdr <- hcdr x ;; hmatch_loop budget c car cdr
  | Pprog => u <- up x ;; z <- make_nil ;; hprog budget c u z (* std/prog.c:5-10 *)
  | Pquote => up x                                            (* std/quote.c:6-12 *)
  | Pset => hrun_set c x
  | Psetq => hrun_setq c x
  | Pstr =>                                                   (* std/str.c:6-13 *)
      cx <- rd x ;; match str_of (leaf cx) with Some v => plant v | None => wild end
  | Pstream => car <- hcar x ;; cdr <- hcdr x ;; hstream budget c cdr car  (* std/stream.c:39-51 *)
  | Psym => v <- value_at budget x ;; plant (sym_of v)        (* std/sym.c:6-26 *)
  | Pwhile =>                                                 (* std/while.c:21-37 *)
      cnd <- hcar x ;; prg <- hcdr x ;; z <- make_nil ;;
      res <- hwhile budget c cnd prg z ;; X cnd ;;; X prg ;;; done res
  | Por => hrun_or c x
  | Pnot => t <- test is_nil_c x ;; make_truth t              (* logic/not.c:5-10 *)
  | Pprin => u <- up x ;; z <- make_nil ;; hprin_all budget false c u z  (* io/prin.c:30-35 *)
  | Pprinl =>                                                 (* io/prinl.c:31-38 *)
      u <- up x ;; z <- make_nil ;; r <- hprin_all budget false c u z ;; hemit [10%N] ;;; done r
  | Pprint => u <- up x ;; z <- make_nil ;; hprin_all budget true c u z  (* io/print.c:34-39 *)
  | Pprintl =>                                                (* io/printl.c:34-41 *)
      u <- up x ;; z <- make_nil ;; r <- hprin_all budget true c u z ;; hemit [10%N] ;;; done r
  | _ => wild
  end.

(** Builtins with two arguments. *)
Definition hprim2 (p : prim) (c x y : N) : HM N :=
  match p with
  | Pconc => a <- up x ;; b <- up y ;; hconc budget a b       (* std/conc.c:5-10 *)
  | Pcons => a <- up x ;; b <- up y ;; hcons a b              (* std/cons.c:5-10 *)
  | Pif =>                                                    (* std/if.c:6-26 *)
      t <- test is_nil_c x ;;
      if t then cd1 <- hcdr y ;; els <- hcar cd1 ;; X cd1 ;;; ev c els
      else thn <- hcar y ;; ev c thn
  | Punless =>                                                (* std/unless.c:5-19 *)
      t <- test is_nil_c x ;;
      if t then u <- up y ;; z <- make_nil ;; hprog budget c u z else make_nil
  | Pwhen =>                                                  (* std/when.c:5-19 *)
      t <- test is_nil_c x ;;
      if t then make_nil else u <- up y ;; z <- make_nil ;; hprog budget c u z
  | Pand =>                                                   (* logic/and.c:5 *)
      t <- test is_nil_c x ;; u <- test is_nil_c y ;; make_truth (negb t && negb u)
  | Pequ => b <- hequ budget x y ;; make_truth b              (* logic/equ.c:6-11 *)
  | Pneq => b <- hneq budget x y ;; make_truth b              (* logic/neq.c:5-10 *)
  | Padd | Psub | Pmul | Pdiv | Pmod =>                       (* math/*.c *)
      a <- number_of x ;; b <- number_of y ;;
      match arith p a b with Some z => alloc (KNum z) | None => wild end
  | Plt | Ple | Pgt | Pge =>                                  (* math/*.c *)
      a <- number_of x ;; b <- number_of y ;; make_truth (compare p a b)
  | Pin => hwith_chan false c x y
  | Pout => hwith_chan true c x y
  | _ => wild
  end.

(** include/mnml/module.h:139-181 LISP_ARGS: one argument; the pair, the value and
    the rest of the closure.  [Forged]: the name is another one, which aborts in
    the debug build. *)
Definition pop_arg (clos : N) (name : string) : HM (N * N) :=
  kv <- CAR clos ;;
  k <- CAR kv ;;
  b <- key_is k (sy name) ;;
  if b then x <- CDR kv ;; c <- CDR clos ;; done (x, c) else fun _ => Forged.

(** lib/core/eval.c:146-148: calling a builtin; [arg_names] are the names of its
    arguments in the order they are popped. *)
Definition hrun_prim (p : prim) (full : N) : HM N :=
  if pops_two p then
    a <- pop_arg full (fst (arg_names p)) ;;
    b <- pop_arg (snd a) (snd (arg_names p)) ;;
    hprim2 p (snd b) (fst b) (fst a)
  else
    a <- pop_arg full (fst (arg_names p)) ;;
    hprim1 p full (snd a) (fst a).

(** lib/core/eval.c:81-204 lisp_eval_func. *)
Definition heval_func (c symb func vals : N) : HM N :=
  args <- hcar func ;;
  m <- hmay_apply budget args vals ;;
  if negb m then X func ;;; X vals ;;; X args ;;; make_nil
  else
    cdr0 <- hcdr func ;;
    dscl <- hcar cdr0 ;;
    bdy <- hcdr cdr0 ;;
    X func ;;; X cdr0 ;;;
    z <- make_nil ;;
    bd <- heval_args budget c z args vals ;;
    bscl <- hcar bd ;;
    narg <- hcdr bd ;;
    X bd ;;;
    t <- test is_nil_c narg ;;
    if t then
      cb <- rd bdy ;;
      if is_num_c cb then
        t <- test is_nil_c dscl ;;
        clos <- (if t : bool then done bscl else d <- hdup budget dscl ;; hconc budget bscl d) ;;
        u <- up c ;;
        clos <- hconc budget clos u ;;
        X dscl ;;;
        adr <- number_of bdy ;;
        match prim_of_addr adr with
        | None => wild
        | Some p =>
            rslt <- hrun_prim p clos ;;
            X bdy ;;; X narg ;;; X clos ;;;
            done rslt
        end
      else
        tc <- test tail symb ;;
        if tc then
          u <- up symb ;;
          rslt <- hcons u bscl ;;
          set_tail rslt ;;;
          X bdy ;;; X dscl ;;; X narg ;;;
          done rslt
        else
          cls0 <- hmix budget c dscl ;;
          X dscl ;;;
          rb <- htail_loop budget cls0 symb bdy bscl ;;
          X bdy ;;; X (snd rb) ;;; X narg ;;; X cls0 ;;;
          done (fst rb)
    else
      clos <- hconc budget bscl dscl ;;
      con0 <- hcons clos bdy ;;
      hcons narg con0.

(** lib/core/eval.c:210-254 lisp_eval_pair. *)
Definition heval_pair (c cell : N) : HM N :=
  car <- hcar cell ;;
  cdr <- hcdr cell ;;
  X cell ;;;
  u <- up car ;;
  nx <- ev c u ;;
  f <- his_func nx ;;
  rslt <- (if f : bool then heval_func c car nx cdr
           else
             e <- hequ budget car nx ;;
             if e : bool then hcons nx cdr
             else
               cn <- rd nx ;;
               if is_sym_c cn || is_pair_c cn then x <- hcons nx cdr ;; ev c x
               else hcons nx cdr) ;;
  X car ;;;
  done rslt.

End Rec.

(** lib/core/eval.c:260-286 lisp_eval.  The budget bounds the depth of recursive
    calls and the number of turns of each loop. *)
Fixpoint heval (n : nat) (c x : N) : HM N :=
  match n with
  | O => dry
  | S n' =>
      cx <- rd x ;;
      match body cx with
      | KPair _ _ => heval_pair (heval n') n' c x
      | KSym _ => res <- hlookup n' c x ;; X x ;;; done res
      | _ => done x
      end
  end.

(** bin/mnml.c:345-360, lib/core/utils.c:695-699: expressions are evaluated in the
    empty scope one after the other, and each result is dropped before the next. *)
Fixpoint hrun (n : nat) (l : list atom) (res : N) : HM N :=
  match l with
  | [] => done res
  | x :: r =>
      c <- plant x ;;
      X res ;;;
      z <- make_nil ;;
      v <- heval n z c ;;
      X z ;;;
      hrun n r v
  end.

(** include/mnml/module.h:111-130 LISP_MODULE_SETUP, once per modelled builtin. *)
Fixpoint hload (l : list (symbol * atom)) : HM unit :=
  match l with
  | [] => done tt
  | (s, f) :: r =>
      sym <- alloc (KSym s) ;;
      val <- plant f ;;
      u <- up sym ;;
      cns <- hcons u val ;;
      hsetq cns ;;;
      X sym ;;;
      hload r
  end.

(** lib/core/lisp.c:14-28 lisp_new, loading the builtins, and the standard channels
    (bin/mnml.c:333-334). *)
Definition hboot : HM unit :=
  i <- make_nil ;;
  o <- make_nil ;;
  set_aux (fun r => with_ochan (with_ichan r i) o) ;;;
  hload builtins ;;;
  hpush false 0%N pwd ;;;
  hpush true 1%N pwd ;;;
  set_aux (fun r => with_opens r 2%N).

(** A session (bin/mnml.c:40-50): start, then evaluate the expressions one after the other. *)
Definition session (n : nat) (l : list atom) : HM N :=
  hboot ;;; z <- make_nil ;; hrun n l z.

End Oracle.

(** lib/core/lisp.c:14-28 lisp_new, lib/core/slab.c:42-77: nothing in use. *)
Definition empty : heap := mkheap (fun _ => None) fresh_free 16 0 (mkrest [] 0 0 0 [] [] [] 0).
