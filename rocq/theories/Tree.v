(** * Tree: lib/core/tree.c, the coloured search tree that holds the globals, at
    pointer level.

    Definitions only; proofs are in [TreeProofs.v].

    Simplifications, for the whole file: the three cons cells of a node
    (include/mnml/tree.h:16-21, tree.c:75-77) are one cell with the fields left,
    parent, right, colour and data; the (KEY . VALUE) pair is a separate cell, as
    in the C code, because its identity is observable (symbol cache, set.c).
    Reference counts and the WEAKREF flag (tree.h:27-35) are not modelled here:
    the cells the C code drops are marked free at the point where it drops them. *)
From Verif Require Import Value.
Open Scope N_scope.

(** What a cell address holds (include/mnml/tree.h:16-25).  [Free]: unallocated or dropped; touching it is
    undefined behaviour. *)
Inductive ckind := Free | NilC | NodeC.

(** Memory as one function per field (struct of arrays); a field is only
    accessible on a cell of the right kind. *)
Record mem := mkmem {
  kind : N -> ckind;
  lf : N -> N; pf : N -> N; rf : N -> N;
  col : N -> bool;                 (* F_HAS_COLOR, types.h:45 *)
  dat : N -> N;                    (* DATA(x): address of the pair *)
  dkey : N -> symbol; dval : N -> atom;   (* fields of the pair *)
  nxt : N }.                       (* next unused address *)

(** Outcome: a value, undefined behaviour, or loop fuel exhausted (no C code). *)
Inductive res (A : Type) := Ok (a : A) | Ub | NoFuel.
Arguments Ok {A}. Arguments Ub {A}. Arguments NoFuel {A}.
Definition rbind {A B} (r : res A) (k : A -> res B) : res B :=
  match r with Ok a => k a | Ub => Ub | NoFuel => NoFuel end.
Notation "x <- e ;; k" := (rbind e (fun x => k)) (at level 61, e at next level, right associativity).
Notation "' p <- e ;; k" := (rbind e (fun p => k))
  (at level 61, p pattern, e at next level, right associativity).

(** An assignment to one address; no C code of its own. *)
Definition upN {A} (f : N -> A) (i : N) (v : A) : N -> A :=
  fun j => if N.eqb j i then v else f j.

(** IS_NULL (types.h:94). *)
Definition isnull (s : mem) (x : N) : res bool :=
  match kind s x with Free => Ub | NilC => Ok true | NodeC => Ok false end.
(** LEFT, PARENT, RIGHT, DATA, KEY, VALUE (tree.h:16-21). *)
Definition on_node {A} (s : mem) (x : N) (v : A) : res A :=
  match kind s x with NodeC => Ok v | _ => Ub end.
Definition left s x := on_node s x (lf s x).
Definition parent s x := on_node s x (pf s x).
Definition right s x := on_node s x (rf s x).
Definition data s x := on_node s x (dat s x).
Definition nkey s x := on_node s x (dkey s (dat s x)).
Definition nvalue s x := on_node s x (dval s (dat s x)).
(** IS_COLORED, SET_COLOR, CLR_COLOR (types.h:110,116-117) work on any cell. *)
Definition colored s x : res bool :=
  match kind s x with Free => Ub | _ => Ok (col s x) end.
Definition set_color (s : mem) (x : N) (b : bool) : res mem :=
  match kind s x with
  | Free => Ub
  | _ => Ok (mkmem (kind s) (lf s) (pf s) (rf s) (upN (col s) x b) (dat s) (dkey s) (dval s) (nxt s))
  end.
Definition set_left s x v : res mem :=
  on_node s x (mkmem (kind s) (upN (lf s) x v) (pf s) (rf s) (col s) (dat s) (dkey s) (dval s) (nxt s)).
Definition set_parent s x v : res mem :=
  on_node s x (mkmem (kind s) (lf s) (upN (pf s) x v) (rf s) (col s) (dat s) (dkey s) (dval s) (nxt s)).
Definition set_right s x v : res mem :=
  on_node s x (mkmem (kind s) (lf s) (pf s) (upN (rf s) x v) (col s) (dat s) (dkey s) (dval s) (nxt s)).
Definition set_data s x d : res mem :=
  on_node s x (mkmem (kind s) (lf s) (pf s) (rf s) (col s) (upN (dat s) x d) (dkey s) (dval s) (nxt s)).
Definition set_dval (s : mem) (d : N) (v : atom) : mem :=
  mkmem (kind s) (lf s) (pf s) (rf s) (col s) (dat s) (dkey s) (upN (dval s) d v) (nxt s).
(** X(lisp, c) on a cell with one reference. *)
Definition drop (s : mem) (x : N) : res mem :=
  match kind s x with
  | Free => Ub
  | _ => Ok (mkmem (upN (kind s) x Free) (lf s) (pf s) (rf s) (col s) (dat s) (dkey s) (dval s) (nxt s))
  end.

(** lisp_make_nil (lisp.h:178-187): a fresh, uncoloured NIL cell. *)
Definition new_nil (s : mem) : N * mem :=
  (nxt s, mkmem (upN (kind s) (nxt s) NilC) (lf s) (pf s) (rf s)
                (upN (col s) (nxt s) false) (dat s) (dkey s) (dval s) (nxt s + 1)).
(** The caller's (KEY . VALUE) pair (lisp_cons, lisp.h:319-329): only its address
    and fields matter. *)
Definition new_pair (s : mem) (k : symbol) (v : atom) : N * mem :=
  (nxt s, mkmem (kind s) (lf s) (pf s) (rf s) (col s) (dat s)
                (upN (dkey s) (nxt s) k) (upN (dval s) (nxt s) v) (nxt s + 1)).

(** tree.c:63-86 lisp_tree_new. *)
Definition tree_new (s : mem) (root kv : N) : res (N * mem) :=
  let '(l, s) := new_nil s in
  b <- isnull s root ;;
  p <- (if b then Ok root else parent s root) ;;
  let '(r, s) := new_nil s in
  let x := nxt s in
  Ok (x, mkmem (upN (kind s) x NodeC) (upN (lf s) x l) (upN (pf s) x p) (upN (rf s) x r)
               (upN (col s) x false) (upN (dat s) x kv) (dkey s) (dval s) (nxt s + 1)).

(** tree.c:92-141 lisp_tree_lrot; returns the new root. *)
Definition tree_lrot (s : mem) (root x : N) : res (N * mem) :=
  b <- isnull s x ;;
  if b then Ok (root, s) else
  y <- right s x ;;
  b <- isnull s y ;;
  if b then Ok (root, s) else
  ly <- left s y ;;
  s <- set_right s x ly ;;
  b <- isnull s ly ;;
  s <- (if b then Ok s else set_parent s ly x) ;;
  px <- parent s x ;;
  s <- set_parent s y px ;;
  b <- isnull s px ;;
  '(next, s) <-
    (if b then Ok (y, s) else
     lp <- left s px ;;
     s <- (if N.eqb x lp then set_left s px y else set_right s px y) ;;
     Ok (root, s)) ;;
  s <- set_left s y x ;;
  s <- set_parent s x y ;;
  Ok (next, s).

(** tree.c:143-192 lisp_tree_rrot. *)
Definition tree_rrot (s : mem) (root x : N) : res (N * mem) :=
  b <- isnull s x ;;
  if b then Ok (root, s) else
  y <- left s x ;;
  b <- isnull s y ;;
  if b then Ok (root, s) else
  ry <- right s y ;;
  s <- set_left s x ry ;;
  b <- isnull s ry ;;
  s <- (if b then Ok s else set_parent s ry x) ;;
  px <- parent s x ;;
  s <- set_parent s y px ;;
  b <- isnull s px ;;
  '(next, s) <-
    (if b then Ok (y, s) else
     rp <- right s px ;;
     s <- (if N.eqb x rp then set_right s px y else set_left s px y) ;;
     Ok (root, s)) ;;
  s <- set_right s y x ;;
  s <- set_parent s x y ;;
  Ok (next, s).

(** tree.c:211-242: the descent of tree_add_node.  [inl y]: the leaf position is
    below [y]; [inr x]: [x] has the key. *)
Fixpoint descend (fuel : nat) (s : mem) (k : symbol) (y x : N) : res (N + N) :=
  match fuel with
  | O => NoFuel
  | S f =>
      b <- isnull s x ;;
      if b then Ok (inl y) else
      kx <- nkey s x ;;
      match sym_compare k kx with
      | Lt => l <- left s x ;; descend f s k x l
      | Eq => Ok (inr x)
      | Gt => r <- right s x ;; descend f s k x r
      end
  end.

(** tree.c:198-261 tree_add_node; [None] is the T return (key exists). *)
Definition tree_add_node (fuel : nat) (s : mem) (root node : N) : res (option N * mem) :=
  b <- isnull s root ;;
  if b then Ok (Some node, s) else
  k <- nkey s node ;;
  d <- descend fuel s k root root ;;
  match d with
  | inr x =>
      old <- nvalue s x ;;
      nv <- nvalue s node ;;
      dx <- data s x ;;
      dn <- data s node ;;
      Ok (None, set_dval (set_dval s dx nv) dn old)
  | inl y =>
      s <- set_parent s node y ;;
      ky <- nkey s y ;;
      match sym_compare k ky with
      | Lt =>
          l <- left s y ;; s <- drop s l ;; s <- set_left s y node ;; Ok (Some root, s)
      | _ =>
          r <- right s y ;; s <- drop s r ;; s <- set_right s y node ;; Ok (Some root, s)
      end
  end.

(** tree.c:271-323: the loop of tree_add_check. *)
Fixpoint add_check_loop (fuel : nat) (s : mem) (next x node : N) : res (N * mem) :=
  match fuel with
  | O => NoFuel
  | S f =>
      if N.eqb x next then Ok (next, s) else
      p <- parent s x ;;
      c <- colored s p ;;
      if negb c then Ok (next, s) else
      g <- parent s p ;;
      lg <- left s g ;;
      if N.eqb p lg then
        y <- right s g ;;
        cy <- colored s y ;;
        if cy then
          s <- set_color s p false ;;
          s <- set_color s y false ;;
          s <- set_color s g true ;;
          add_check_loop f s next g node
        else
          rp <- right s p ;;
          '(x, next, s) <-
            (if N.eqb x rp then
               '(n, s) <- tree_lrot s next node ;; Ok (p, n, s)
             else Ok (x, next, s)) ;;
          p <- parent s x ;;
          s <- set_color s p false ;;
          g <- parent s p ;;
          s <- set_color s g true ;;
          '(next, s) <- tree_rrot s next g ;;
          add_check_loop f s next x node
      else
        y <- left s g ;;
        cy <- colored s y ;;
        if cy then
          s <- set_color s p false ;;
          s <- set_color s y false ;;
          s <- set_color s g true ;;
          add_check_loop f s next g node
        else
          lp <- left s p ;;
          '(x, next, s) <-
            (if N.eqb x lp then
               '(n, s) <- tree_rrot s next node ;; Ok (p, n, s)
             else Ok (x, next, s)) ;;
          p <- parent s x ;;
          s <- set_color s p false ;;
          g <- parent s p ;;
          s <- set_color s g true ;;
          '(next, s) <- tree_lrot s next g ;;
          add_check_loop f s next x node
  end.

(** tree.c:263-329 tree_add_check. *)
Definition tree_add_check (fuel : nat) (s : mem) (root node : N) : res (N * mem) :=
  '(next, s) <- add_check_loop fuel s root node node ;;
  s <- set_color s next false ;;
  Ok (next, s).

(** Enough iterations for any loop over distinct cells: one per address
    (no C code). *)
Definition loop_fuel (s : mem) : nat := S (S (N.to_nat (nxt s))).

(** tree.c:331-358 lisp_tree_add.  When the key exists, node (with its two NIL
    children) is dropped; the pair goes with it (it is unreachable and its address
    is not reused in the model). *)
Definition tree_add (s : mem) (root kv : N) : res (N * mem) :=
  '(node, s) <- tree_new s root kv ;;
  s <- set_color s node true ;;
  '(r, s) <- tree_add_node (loop_fuel s) s root node ;;
  match r with
  | None =>
      l <- left s node ;;
      rr <- right s node ;;
      s <- drop s node ;;
      s <- drop s l ;;
      s <- drop s rr ;;
      Ok (root, s)
  | Some next => tree_add_check (loop_fuel s) s next node
  end.

(** tree.c:377-390 and 426-439: the search loop; [None]: fell off a NIL. *)
Fixpoint search (fuel : nat) (s : mem) (k : symbol) (x : N) : res (option N) :=
  match fuel with
  | O => NoFuel
  | S f =>
      b <- isnull s x ;;
      if b then Ok None else
      kx <- nkey s x ;;
      if sym_match kx k then Ok (Some x) else
      match sym_compare kx k with
      | Lt => r <- right s x ;; search f s k r
      | _ => l <- left s x ;; search f s k l
      end
  end.

(** tree.c:364-407 lisp_tree_upd: [kv] is the caller's pair.  The result is the
    pair (holding the old value) or NIL ([None]). *)
Definition tree_upd (s : mem) (root kv : N) : res (option N * mem) :=
  b <- isnull s root ;;
  if b then Ok (None, s) else
  x <- search (loop_fuel s) s (dkey s kv) root ;;
  match x with
  | None => Ok (None, s)
  | Some x =>
      old <- nvalue s x ;;
      dx <- data s x ;;
      Ok (Some kv, set_dval (set_dval s dx (dval s kv)) kv old)
  end.

(** tree.c:413-450 tree_get_node (the fresh NIL of the not-found case is None). *)
Definition tree_get_node (s : mem) (root : N) (k : symbol) : res (option N) :=
  b <- isnull s root ;;
  if b then Ok None else search (loop_fuel s) s k root.

(** tree.c:452-457 lisp_tree_get: the address of the (KEY . VALUE) pair. *)
Definition tree_get (s : mem) (root : N) (k : symbol) : res (option N) :=
  x <- tree_get_node s root k ;;
  match x with
  | None => Ok None
  | Some x => d <- data s x ;; Ok (Some d)
  end.

(** tree.c:8-28 tree_minimum. *)
Fixpoint minimum_loop (fuel : nat) (s : mem) (x : N) : res N :=
  match fuel with
  | O => NoFuel
  | S f =>
      l <- left s x ;;
      b <- isnull s l ;;
      if b then Ok x else minimum_loop f s l
  end.
(** tree.c:30-57 tree_successor, for a node with a right child (its only use,
    tree.c:583-585); the upward walk at 48-52 is therefore not reached. *)
Definition successor (s : mem) (node : N) : res N :=
  r <- right s node ;;
  b <- isnull s r ;;
  if b then Ub else minimum_loop (loop_fuel s) s r.

(** tree.c:472-557: the loop of tree_rem_check. *)
Fixpoint rem_check_loop (fuel : nat) (s : mem) (next p x : N) : res (N * mem) :=
  match fuel with
  | O => NoFuel
  | S f =>
      if N.eqb x next then Ok (next, s) else
      cx <- colored s x ;;
      if cx then Ok (next, s) else
      lp <- left s p ;;
      if N.eqb x lp then
        w <- right s p ;;
        cw <- colored s w ;;
        '(w, next, s) <-
          (if cw then
             s <- set_color s w false ;;
             '(next, s) <- tree_lrot s next p ;;
             w <- right s p ;;
             Ok (w, next, s)
           else Ok (w, next, s)) ;;
        lw <- left s w ;; clw <- colored s lw ;;
        rw <- right s w ;; crw <- colored s rw ;;
        if negb clw && negb crw then
          s <- set_color s w true ;;
          pp <- parent s p ;;
          rem_check_loop f s next pp p
        else
          '(w, next, s) <-
            (if negb crw then
               s <- set_color s lw false ;;
               s <- set_color s w true ;;
               '(next, s) <- tree_rrot s next w ;;
               w <- right s p ;;
               Ok (w, next, s)
             else Ok (w, next, s)) ;;
          cp <- colored s p ;;
          s <- set_color s w cp ;;
          s <- set_color s p false ;;
          rw <- right s w ;;
          s <- set_color s rw false ;;
          '(x, s) <- tree_lrot s next p ;;
          rem_check_loop f s next p x
      else
        w <- left s p ;;
        cw <- colored s w ;;
        '(w, next, s) <-
          (if cw then
             s <- set_color s w false ;;
             px <- parent s x ;;
             '(next, s) <- tree_rrot s next px ;;
             w <- left s p ;;
             Ok (w, next, s)
           else Ok (w, next, s)) ;;
        lw <- left s w ;; clw <- colored s lw ;;
        rw <- right s w ;; crw <- colored s rw ;;
        if negb clw && negb crw then
          s <- set_color s w true ;;
          pp <- parent s p ;;
          rem_check_loop f s next pp p
        else
          '(w, next, s) <-
            (if negb clw then
               s <- set_color s rw false ;;
               s <- set_color s w true ;;
               '(next, s) <- tree_lrot s next w ;;
               w <- left s p ;;
               Ok (w, next, s)
             else Ok (w, next, s)) ;;
          cp <- colored s p ;;
          s <- set_color s w cp ;;
          s <- set_color s p false ;;
          lw <- left s w ;;
          s <- set_color s lw false ;;
          '(x, s) <- tree_rrot s next p ;;
          rem_check_loop f s next p x
  end.

(** tree.c:564-637 lisp_tree_rem.  The result is the new root; the not-found case
    returns a fresh NIL cell (574), not the tree.  Dropping [y] (624, 635) frees
    that cell only: its children were re-linked or are shared (UP at 601-609). *)
Definition tree_rem (s : mem) (root : N) (k : symbol) : res (N * mem) :=
  n <- tree_get_node s root k ;;
  match n with
  | None => Ok (new_nil s)
  | Some node =>
      l <- left s node ;; r <- right s node ;;
      bl <- isnull s l ;; br <- isnull s r ;;
      y <- (if negb bl && negb br then successor s node else Ok node) ;;
      ly <- left s y ;; bly <- isnull s ly ;;
      ry <- right s y ;;
      let x := if bly then ry else ly in
      p <- parent s y ;;
      bx <- isnull s x ;;
      s <- (if bx then Ok s else set_parent s x p) ;;
      bp <- isnull s p ;;
      '(next, x, s) <-
        (if bp then let x' := if bx then p else x in Ok (x', x', s)
         else
           lp <- left s p ;;
           if N.eqb y lp then s <- set_left s p x ;; Ok (root, x, s)
           else s <- set_right s p x ;; Ok (root, x, s)) ;;
      s <- (if N.eqb y node then Ok s
            else
              dn <- data s node ;; dy <- data s y ;;
              s <- set_data s node dy ;;
              set_data s y dn) ;;
      cy <- colored s y ;;
      if cy then s <- drop s y ;; Ok (next, s)
      else
        '(next, s) <- rem_check_loop (loop_fuel s) s next p x ;;
        s <- drop s y ;;
        Ok (next, s)
  end.

(** ** Histories *)

(** The empty globals: a single NIL cell (lib/core/lisp.c:14-28 lisp_new). *)
Definition mem0 : mem :=
  mkmem (fun _ => Free) (fun _ => 0) (fun _ => 0) (fun _ => 0) (fun _ => false)
        (fun _ => 0) (fun _ => []) (fun _ => Nil) 0.
Definition empty_tree : N * mem := new_nil mem0.

(** A definition ([lisp_setq], lisp.c:212-226) or an in-place update
    (std/set.c:33-51). *)
Inductive top := TSet (k : symbol) (v : atom) | TUpd (k : symbol) (v : atom).
Definition tstep (st : N * mem) (o : top) : res (N * mem) :=
  let '(root, s) := st in
  match o with
  | TSet k v => let '(kv, s) := new_pair s k v in tree_add s root kv
  | TUpd k v =>
      let '(kv, s) := new_pair s k v in
      '(_, s) <- tree_upd s root kv ;; Ok (root, s)
  end.
Fixpoint trun (h : list top) (st : N * mem) : res (N * mem) :=
  match h with
  | [] => Ok st
  | o :: r => st <- tstep st o ;; trun r st
  end.

(** Value found for a name (lisp.c:117-118 on the global path). *)
Definition tlookup (st : N * mem) (k : symbol) : res (option atom) :=
  let '(root, s) := st in
  d <- tree_get s root k ;;
  match d with Some d => Ok (Some (dval s d)) | None => Ok None end.
