(** * HTree: the tree of globals in reference-counted memory (lib/core/tree.c,
    include/mnml/tree.h).

    Definitions only; proofs are in [HTreeProofs.v].

    [Tree.v] has one cell per node and no counts.  Here a node is the three pairs
    the C code builds: (DATA . (LEFT . (PARENT . RIGHT))), on the cells of [Heap.v]
    with their counts and the WEAKREF flag.

    Simplifications, for the whole file: the colour (F_HAS_COLOR, types.h:45) of
    every cell is kept in a function that is handed along; a field that the C code
    reads several times with no assignment in between is read once. *)
From Verif Require Import Value Heap HeapSpec HEval.
Open Scope heap_scope.

(** ** Fields *)

(** include/mnml/types.h:91 CAR as the target of an assignment. *)
Definition set_car (a x : N) : HM unit :=
  c <- rd a ;; match body c with KPair _ y => wr a (with_body c (KPair x y)) | _ => wild end.

(** include/mnml/tree.h:16-21. *)
Definition DATA (x : N) : HM N := CAR x.
Definition KEY (x : N) : HM symbol := d <- DATA x ;; k <- CAR d ;; symbol_of k.
Definition LEFT (x : N) : HM N := b <- CDR x ;; CAR b.
Definition PARENT (x : N) : HM N := b <- CDR x ;; c <- CDR b ;; CAR c.
Definition RIGHT (x : N) : HM N := b <- CDR x ;; c <- CDR b ;; CDR c.
(** The same as targets of assignments. *)
Definition SET_LEFT (x v : N) : HM unit := b <- CDR x ;; set_car b v.
Definition SET_PARENT (x v : N) : HM unit := b <- CDR x ;; c <- CDR b ;; set_car c v.
Definition SET_RIGHT (x v : N) : HM unit := b <- CDR x ;; c <- CDR b ;; set_cdr c v.
(** include/mnml/types.h:94 IS_NULL. *)
Definition NULL (x : N) : HM bool := test is_nil_c x.

(** include/mnml/types.h:119-120 SET_WEAKREF, CLR_WEAKREF. *)
Definition with_weak (c : cell) (b : bool) : cell := mkcell (refs c) (tail c) b (body c).
Definition set_weak (a : N) (b : bool) : HM unit := c <- rd a ;; wr a (with_weak c b).
(** include/mnml/tree.h:27-35 TOWEAK ([b] true), UNWEAK ([b] false). *)
Definition to_weak (b : bool) (x : N) : HM unit :=
  z <- NULL x ;;
  if z then done tt else b2 <- CDR x ;; b1 <- CDR b2 ;; set_weak b1 b.

(** include/mnml/types.h:110,116-117 IS_COLORED, SET_COLOR, CLR_COLOR. *)
Definition colours := N -> bool.
Definition paint (cl : colours) (x : N) (b : bool) : colours := fun a => if N.eqb a x then b else cl a.
Definition COLORED (cl : colours) (x : N) : HM bool := rd x ;;; done (cl x).
Definition COLOR (cl : colours) (x : N) (b : bool) : HM colours := rd x ;;; done (paint cl x b).

(** ** Operations *)

(** tree.c:63-86 lisp_tree_new.  New cells have no colour (slab.c:150 clears them). *)
Definition hnew (cl : colours) (root kv : N) : HM (N * colours) :=
  left <- make_nil ;;
  z <- NULL root ;;
  parent <- (if z then done root else PARENT root) ;;
  right <- make_nil ;;
  cons1 <- hcons parent right ;;
  cons2 <- hcons left cons1 ;;
  cons3 <- hcons kv cons2 ;;
  set_weak cons1 true ;;;
  done (cons3, paint (paint (paint cl left false) right false) cons3 false).

(** tree.c:92-141 lisp_tree_lrot. *)
Definition hlrot (root x : N) : HM N :=
  z <- NULL x ;;
  if z then done root else
  y <- RIGHT x ;;
  z <- NULL y ;;
  if z then done root else
  ly <- LEFT y ;;
  SET_RIGHT x ly ;;;
  z <- NULL ly ;;
  (if z then done tt else SET_PARENT ly x) ;;;
  px <- PARENT x ;;
  SET_PARENT y px ;;;
  z <- NULL px ;;
  next <- (if z then done y else
           lp <- LEFT px ;;
           (if N.eqb x lp then SET_LEFT px y else SET_RIGHT px y) ;;;
           done root) ;;
  SET_LEFT y x ;;;
  SET_PARENT x y ;;;
  done next.

(** tree.c:143-192 lisp_tree_rrot. *)
Definition hrrot (root x : N) : HM N :=
  z <- NULL x ;;
  if z then done root else
  y <- LEFT x ;;
  z <- NULL y ;;
  if z then done root else
  ry <- RIGHT y ;;
  SET_LEFT x ry ;;;
  z <- NULL ry ;;
  (if z then done tt else SET_PARENT ry x) ;;;
  px <- PARENT x ;;
  SET_PARENT y px ;;;
  z <- NULL px ;;
  next <- (if z then done y else
           rp <- RIGHT px ;;
           (if N.eqb x rp then SET_RIGHT px y else SET_LEFT px y) ;;;
           done root) ;;
  SET_RIGHT y x ;;;
  SET_PARENT x y ;;;
  done next.

(** tree.c:211-242: the descent of tree_add_node.  [inl y]: the leaf position is
    below [y]; [inr x]: [x] has the key. *)
Fixpoint hdescend (n : nat) (k : symbol) (y x : N) : HM (N + N) :=
  match n with
  | O => dry
  | S n =>
      z <- NULL x ;;
      if z then done (inl y) else
      kx <- KEY x ;;
      match sym_compare k kx with
      | Lt => l <- LEFT x ;; hdescend n k x l
      | Eq => done (inr x)
      | Gt => r <- RIGHT x ;; hdescend n k x r
      end
  end.

(** tree.c:198-261 tree_add_node. *)
Definition hadd_node (n : nat) (root node : N) : HM N :=
  z <- NULL root ;;
  if z then done node else
  k <- KEY node ;;
  d <- hdescend n k root root ;;
  match d with
  | inr x =>
      dx <- DATA x ;;
      old <- CDR dx ;;
      dn <- DATA node ;;
      v <- CDR dn ;;
      set_cdr dx v ;;;
      dn <- DATA node ;;
      set_cdr dn old ;;;
      alloc KTrue
  | inl y =>
      SET_PARENT node y ;;;
      ky <- KEY y ;;
      match sym_compare k ky with
      | Lt => l <- LEFT y ;; X l ;;; SET_LEFT y node ;;; done root
      | _ => r <- RIGHT y ;; X r ;;; SET_RIGHT y node ;;; done root
      end
  end.

(** tree.c:271-323: the loop of tree_add_check. *)
Fixpoint hcheck_loop (n : nat) (cl : colours) (next x node : N) : HM (N * colours) :=
  match n with
  | O => dry
  | S n =>
      if N.eqb x next then done (next, cl) else
      p <- PARENT x ;;
      c <- COLORED cl p ;;
      if negb c then done (next, cl) else
      g <- PARENT p ;;
      lg <- LEFT g ;;
      if N.eqb p lg then
        y <- RIGHT g ;;
        cy <- COLORED cl y ;;
        if cy then
          cl <- COLOR cl p false ;;
          cl <- COLOR cl y false ;;
          cl <- COLOR cl g true ;;
          hcheck_loop n cl next g node
        else
          rp <- RIGHT p ;;
          xn <- (if N.eqb x rp then n <- hlrot next node ;; done (p, n) else done (x, next)) ;;
          p <- PARENT (fst xn) ;;
          cl <- COLOR cl p false ;;
          g <- PARENT p ;;
          cl <- COLOR cl g true ;;
          next <- hrrot (snd xn) g ;;
          hcheck_loop n cl next (fst xn) node
      else
        y <- LEFT g ;;
        cy <- COLORED cl y ;;
        if cy then
          cl <- COLOR cl p false ;;
          cl <- COLOR cl y false ;;
          cl <- COLOR cl g true ;;
          hcheck_loop n cl next g node
        else
          lp <- LEFT p ;;
          xn <- (if N.eqb x lp then n <- hrrot next node ;; done (p, n) else done (x, next)) ;;
          p <- PARENT (fst xn) ;;
          cl <- COLOR cl p false ;;
          g <- PARENT p ;;
          cl <- COLOR cl g true ;;
          next <- hlrot (snd xn) g ;;
          hcheck_loop n cl next (fst xn) node
  end.

(** tree.c:263-329 tree_add_check. *)
Definition hcheck (n : nat) (cl : colours) (root node : N) : HM (N * colours) :=
  r <- hcheck_loop n cl root node node ;;
  cl <- COLOR (snd r) (fst r) false ;;
  done (fst r, cl).

(** tree.c:331-358 lisp_tree_add. *)
Definition hadd (n : nat) (cl : colours) (root kv : N) : HM (N * colours) :=
  to_weak true root ;;;
  nc <- hnew cl root kv ;;
  cl <- COLOR (snd nc) (fst nc) true ;;
  next <- hadd_node n root (fst nc) ;;
  t <- test is_true_c next ;;
  if t then
    to_weak false root ;;;
    X (fst nc) ;;;
    X next ;;;
    done (root, cl)
  else
    r <- hcheck n cl next (fst nc) ;;
    to_weak false (fst r) ;;;
    done r.

(** tree.c:377-390 and 426-439: the search loop; the result is the node or a NIL. *)
Fixpoint hsearch (n : nat) (k : symbol) (x : N) : HM (option N) :=
  match n with
  | O => dry
  | S n =>
      z <- NULL x ;;
      if z then done None else
      kx <- KEY x ;;
      if sym_match kx k then done (Some x) else
      match sym_compare kx k with
      | Lt => r <- RIGHT x ;; hsearch n k r
      | _ => l <- LEFT x ;; hsearch n k l
      end
  end.

(** tree.c:364-407 lisp_tree_upd: the pair, or a new NIL. *)
Definition hupd (n : nat) (root kv : N) : HM N :=
  z <- NULL root ;;
  if z then make_nil else
  kc <- CAR kv ;;
  k <- symbol_of kc ;;
  o <- hsearch n k root ;;
  match o with
  | None => make_nil
  | Some x =>
      dx <- DATA x ;;
      old <- CDR dx ;;
      v <- CDR kv ;;
      set_cdr dx v ;;;
      set_cdr kv old ;;;
      done kv
  end.

(** tree.c:413-457 tree_get_node, lisp_tree_get: the pair with one more reference,
    or a new NIL. *)
Definition hget (n : nat) (root : N) (k : symbol) : HM N :=
  z <- NULL root ;;
  if z then make_nil else
  o <- hsearch n k root ;;
  match o with
  | None => make_nil
  | Some x => d <- DATA x ;; up d
  end.

(** ** Histories *)

(** What an evaluator does with the globals: [HSet]: lisp_setq (lisp.c:212-226) on a
    new (KEY . VALUE) pair; [HUpd]: lisp_tree_upd on one, after which the caller
    drops what it gets back, and its pair if that is not what it got (std/set.c:41-52,
    without the defects of its last lines, C42, C45); [HGet]: lisp_tree_get, the result
    dropped.  The value is the address of any cell, a reference the caller gives away. *)
Inductive hop := HSet (k : symbol) (v : N) | HUpd (k : symbol) (v : N) | HGet (k : symbol).

(** include/mnml/lisp.h:319-329 lisp_cons of a new symbol and the value. *)
Definition new_pair (k : symbol) (v : N) : HM N :=
  kc <- alloc (KSym k) ;; hcons kc v.
Definition hstep (n : nat) (st : N * colours) (o : hop) : HM (N * colours) :=
  match o with
  | HSet k v => kv <- new_pair k v ;; hadd n (snd st) (fst st) kv
  | HUpd k v =>
      kv <- new_pair k v ;;
      r <- hupd n (fst st) kv ;;
      z <- NULL r ;;
      (if z then X r ;;; X kv else X r) ;;;
      done st
  | HGet k => r <- hget n (fst st) k ;; X r ;;; done st
  end.
Fixpoint hrun (n : nat) (os : list hop) (st : N * colours) : HM (N * colours) :=
  match os with
  | [] => done st
  | o :: os => st <- hstep n st o ;; hrun n os st
  end.
(** lib/core/lisp.c:10-24 lisp_new: the globals start as NIL. *)
Definition hglobals (n : nat) (os : list hop) : HM (N * colours) :=
  root <- make_nil ;; hrun n os (root, fun _ => false).
