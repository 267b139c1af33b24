(** * Heap: cells with reference counts (include/mnml/types.h, include/mnml/lisp.h,
    lib/core/lisp.c, lib/core/utils.c).

    Definitions only; proofs are in [HeapProofs.v] and [HeapOps.v].

    Cells have addresses in [N].  Simplification: a freed address is not handed
    out again (the free list of lib/core/slab.c is modelled in [Slab.v]); touching
    it is the distinct outcome [Freed].  The heap is unbounded (the abort at
    slab.c:136 is in [Slab.v]), and so are the counts (32 bits in types.h:75-79). *)
From Verif Require Import Value.

(** include/mnml/types.h:30-40, 83-88: the type and the payload of a cell. *)
Inductive content :=
| KNil | KTrue | KWild | KChar (z : Z) | KNum (z : Z) | KSym (s : symbol) | KPair (a d : N).

(** include/mnml/types.h:73-89.  [tail]: F_TAIL_CALL, [weak]: F_WEAKREF (types.h:42-47;
    F_HAS_COLOR is in [Tree.v]).  The [cache] field (types.h:82) is kept apart, see
    [caches] below. *)
Record cell := mkcell {
  refs : nat;
  tail : bool;
  weak : bool;
  body : content
}.

(** include/mnml/lisp.h:28-39 struct lisp, without the cells.  [binds]: the
    globals; the tree of lib/core/tree.c is the finite map from a symbol to its
    (KEY . VALUE) pair ([Tree.v]), the latest added first.  [ichan], [ochan]: the
    channel stacks.  [opens], [outs]: as in [Eval.world].  [caches]: the non-null
    [cache] fields (types.h:82), latest first: the address of a symbol cell with the
    (KEY . VALUE) pair of the global it was resolved to.  [lost], [strays]:
    references the C code forgets to drop, and number of cells it abandons with
    dangling fields; they are only used to state what is leaked. *)
Record rest := mkrest {
  binds : list (symbol * N);
  ichan : N;
  ochan : N;
  opens : N;
  outs : list (N * bytes);
  caches : list (N * N);
  lost : list N;
  strays : nat
}.

(** The cells in use by address (include/mnml/slab.h:11-18), the next address that was
    never used, and struct lisp (include/mnml/lisp.h:28-39).  Simplification: no address is used
    twice ([RHeap.v] has the free list). *)
Record heap := mkheap { cells : N -> option cell; nxt : N; aux : rest }.

(** Outcomes.  [Freed]: a freed cell is read, written or dropped.  [Wild]: a field
    of another type is used as an address, or signed overflow.  [Forged]: a builtin
    is called with other arguments than it declares (abort in the debug build,
    module.h:141-151).  [Barred e]: an event the statement of a theorem excludes (see
    [bar], [watch] and [watch_marks] in [HEval.v]).  [Dry]: the budget of the model
    is exhausted (no C counterpart). *)
Inductive event := AssignsAny | UsesSet | DefinesNonSymbol | OddScope | MarksCode.
Inductive hres (A : Type) : Type :=
| Done (a : A) (h : heap) | Freed | Wild | Forged | Barred (e : event) | Dry.
Arguments Done {A}. Arguments Freed {A}. Arguments Wild {A}. Arguments Forged {A}.
Arguments Barred {A}. Arguments Dry {A}.

(** Computations on cells, their result, undefined behaviour, an exhausted budget, and
    sequence; no C code of their own. *)
Definition HM (A : Type) : Type := heap -> hres A.
Definition done {A} (a : A) : HM A := fun h => Done a h.
Definition wild {A} : HM A := fun _ => Wild.
Definition dry {A} : HM A := fun _ => Dry.
Definition hbind_ {A B} (m : HM A) (k : A -> HM B) : HM B :=
  fun h => match m h with
           | Done a h' => k a h'
           | Freed => Freed | Wild => Wild | Forged => Forged | Barred e => Barred e | Dry => Dry
           end.
Declare Scope heap_scope.
Delimit Scope heap_scope with heap.
Notation "x <- m ;; k" := (hbind_ m (fun x => k)) (at level 61, m at next level, right associativity) : heap_scope.
Notation "m ;;; k" := (hbind_ m (fun _ => k)) (at level 61, right associativity) : heap_scope.
Open Scope heap_scope.

(** ** Access to cells *)

(** Access to the fields of an atom (include/mnml/types.h:73-89): undefined when the cell
    was given back (lib/core/slab.c:154-167). *)
Definition set_cell (h : heap) (a : N) (c : option cell) : heap :=
  mkheap (fun x => if N.eqb x a then c else cells h x) (nxt h) (aux h).
Definition rd (a : N) : HM cell :=
  fun h => match cells h a with Some c => Done c h | None => Freed end.
Definition wr (a : N) (c : cell) : HM unit :=
  fun h => match cells h a with Some _ => Done tt (set_cell h a (Some c)) | None => Freed end.

(** One field of an atom replaced (include/mnml/types.h:73-89): the count, the contents,
    F_TAIL_CALL (types.h:44). *)
Definition with_refs (c : cell) (n : nat) : cell := mkcell n (tail c) (weak c) (body c).
Definition with_body (c : cell) (b : content) : cell := mkcell (refs c) (tail c) (weak c) b.
Definition with_tail (c : cell) : cell := mkcell (refs c) true (weak c) (body c).

(** lib/core/slab.c:120-152 slab_allocate (zeroed cell) and the makers of
    include/mnml/lisp.h:154-254, 319-329: one reference, no flags. *)
Definition alloc (b : content) : HM N :=
  fun h => Done (nxt h)
             (mkheap (fun x => if N.eqb x (nxt h) then Some (mkcell 1 false false b) else cells h x)
                     (N.succ (nxt h)) (aux h)).
Definition make_nil : HM N := alloc KNil.
Definition hcons (x y : N) : HM N := alloc (KPair x y).

(** include/mnml/slab.h:43-44 UP. *)
Definition up (a : N) : HM N :=
  c <- rd a ;; wr a (with_refs c (S (refs c))) ;;; done a.

(** lib/core/slab.c:154-168 slab_deallocate. *)
Definition release (a : N) : HM unit :=
  fun h => match cells h a with Some _ => Done tt (set_cell h a None) | None => Freed end.

(** include/mnml/lisp.h:65-71 X_0, slab.h:44 DOWN, lib/core/lisp.c:50-70
    lisp_deallocate.  A count of zero cannot be decremented (it would wrap). *)
Fixpoint drop (n : nat) (a : N) : HM unit :=
  match n with
  | O => dry
  | S n' =>
      c <- rd a ;;
      match refs c with
      | O => fun _ => Freed
      | S r =>
          wr a (with_refs c r) ;;;
          match r with
          | S _ => done tt
          | O =>
              match body c with
              | KPair x _ =>
                  (if weak c then done tt else drop n' x) ;;;
                  c' <- rd a ;;
                  match body c' with
                  | KPair _ y => drop n' y ;;; release a
                  | _ => wild
                  end
              | _ => release a
              end
          end
      end
  end.

(** include/mnml/lisp.h:109-122 X: the recursion never visits a cell twice, so one
    unit of budget per cell is enough. *)
Definition X (a : N) : HM unit := fun h => drop (S (N.to_nat (nxt h))) a h.

(** ** Lists *)

(** include/mnml/types.h:91-92 CAR, CDR: the raw fields. *)
Definition CAR (a : N) : HM N :=
  c <- rd a ;; match body c with KPair x _ => done x | _ => wild end.
Definition CDR (a : N) : HM N :=
  c <- rd a ;; match body c with KPair _ y => done y | _ => wild end.

(** include/mnml/types.h:94-103: tests on the type of a cell. *)
Definition is_pair_c (c : cell) : bool := match body c with KPair _ _ => true | _ => false end.
Definition is_nil_c (c : cell) : bool := match body c with KNil => true | _ => false end.
Definition is_true_c (c : cell) : bool := match body c with KTrue => true | _ => false end.
Definition is_wild_c (c : cell) : bool := match body c with KWild => true | _ => false end.
Definition is_char_c (c : cell) : bool := match body c with KChar _ => true | _ => false end.
Definition is_num_c (c : cell) : bool := match body c with KNum _ => true | _ => false end.
Definition is_sym_c (c : cell) : bool := match body c with KSym _ => true | _ => false end.
Definition test (f : cell -> bool) (a : N) : HM bool := c <- rd a ;; done (f c).

(** include/mnml/lisp.h:296-312 lisp_car, lisp_cdr. *)
Definition hcar (a : N) : HM N :=
  c <- rd a ;; match body c with KPair x _ => up x | _ => make_nil end.
Definition hcdr (a : N) : HM N :=
  c <- rd a ;; match body c with KPair _ y => up y | _ => make_nil end.

(** include/mnml/lisp.h:14-22 FOREACH/NEXT with an empty body: the last pair. *)
Fixpoint last_pair (n : nat) (a : N) : HM N :=
  match n with
  | O => dry
  | S n' =>
      y <- CDR a ;;
      c <- rd y ;;
      if is_pair_c c then last_pair n' y else done a
  end.

(** lib/core/lisp.c:137-159 lisp_conc. *)
Definition hconc (n : nat) (a b : N) : HM N :=
  c <- rd a ;;
  if is_pair_c c then
    p <- last_pair n a ;;
    y <- CDR p ;;
    X y ;;;
    cp <- rd p ;;
    match body cp with
    | KPair x _ => wr p (with_body cp (KPair x b)) ;;; done a
    | _ => wild
    end
  else X a ;;; done b.

(** lib/core/utils.c:106-111 lisp_append. *)
Definition happend (n : nat) (l e : N) : HM N :=
  z <- make_nil ;; k <- hcons e z ;; hconc n l k.

(** lib/core/utils.c:177-185 lisp_dup. *)
Fixpoint hdup (n : nat) (a : N) : HM N :=
  match n with
  | O => dry
  | S n' =>
      c <- rd a ;;
      match body c with
      | KPair x y => r <- hdup n' y ;; x' <- up x ;; hcons x' r
      | _ => up a
      end
  end.

(** lib/core/lisp.c:165-206 lisp_bind. *)
Fixpoint hbind (n : nat) (clos arg val : N) : HM N :=
  match n with
  | O => dry
  | S n' =>
      c <- rd arg ;;
      match body c with
      | KPair _ _ =>
          s <- hcar arg ;;
          v <- hcar val ;;
          oth <- hcdr arg ;;
          rem <- hcdr val ;;
          X arg ;;; X val ;;;
          cl0 <- hbind n' clos s v ;;
          hbind n' cl0 oth rem
      | KSym _ => kv <- hcons arg val ;; hcons kv clos
      | _ => X arg ;;; X val ;;; done clos
      end
  end.

(** include/mnml/utils.h:107-129 on two cells; only symbols are compared (the C code
    compares 16 payload bytes whatever the type: [Wild] here). *)
Definition symbol_of (a : N) : HM symbol :=
  c <- rd a ;; match body c with KSym s => done s | _ => wild end.

(** lib/core/utils.c:191-230 lisp_sss. *)
Fixpoint hsss (n : nat) (root kv : N) : HM N :=
  match n with
  | O => dry
  | S n' =>
      c <- rd root ;;
      if is_nil_c c then hcons kv root
      else
        car <- CAR root ;;
        cdr <- CDR root ;;
        k' <- CAR car ;; s' <- symbol_of k' ;;
        k <- CAR kv ;; s <- symbol_of k ;;
        match sym_compare s' s with
        | Lt =>
            r <- hsss n' cdr kv ;;
            c1 <- rd root ;;
            match body c1 with
            | KPair x _ => wr root (with_body c1 (KPair x r)) ;;; done root
            | _ => wild
            end
        | Eq =>
            c1 <- rd root ;;
            match body c1 with
            | KPair _ y => wr root (with_body c1 (KPair kv y)) ;;; X car ;;; done root
            | _ => wild
            end
        | Gt => hcons kv root
        end
  end.

(** lib/core/utils.c:236-246 lisp_merge.  FOREACH on a cell that is neither NIL nor
    a pair reads fields of another type. *)
Fixpoint hmerge_loop (n : nat) (root elt : N) : HM N :=
  match n with
  | O => dry
  | S n' =>
      kv <- CAR elt ;;
      kv <- up kv ;;
      root <- hsss n' root kv ;;
      nx <- CDR elt ;;
      c <- rd nx ;;
      if is_pair_c c then hmerge_loop n' root nx else done root
  end.
Definition hmerge (n : nat) (root alst : N) : HM N :=
  c <- rd alst ;; if is_nil_c c then done root else hmerge_loop n root alst.
