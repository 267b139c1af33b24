(** * RHeap: reference-counted cells in memory that is used again (lib/core/slab.c).

    Definitions only; proofs are in [RSim*.v].  The operations are those of [Heap.v],
    on the memory of the allocator: a cell that is given back is the next one to be
    handed out, there are at most 64 MB of them, and a new cell has no cache.  The free
    list is a list here; [Slab.v] has it inside the cells, and [RSlabProofs.v] relates
    the two. *)
From Verif Require Import Value.
From Verif Require Heap Slab.
Import Heap(content(..), cell, mkcell, refs, tail, weak, body, rest, mkrest, binds, ichan, ochan, opens, outs, caches, lost, strays).
Import Heap(with_refs, with_body, with_tail, is_pair_c, is_nil_c, is_true_c, is_wild_c, is_char_c, is_num_c, is_sym_c).

(** include/mnml/slab.h:11-18: [cells], the cells in use; [free], the free list;
    [pages], the pages committed; [served], n_alloc.  [aux]: struct lisp, as in
    [Heap.v] ([lost] and [strays] are not used). *)
Record heap := mkheap { cells : N -> option cell; free : list N; pages : N; served : N; aux : rest }.

(** Outcomes, as in [Heap.v].  [Full]: no memory is left, lib/core/slab.c:134-137. *)
Inductive hres (A : Type) : Type :=
| Done (a : A) (h : heap) | Freed | Wild | Forged | Full (h : heap) | Dry.
Arguments Done {A}. Arguments Freed {A}. Arguments Wild {A}. Arguments Forged {A}.
Arguments Full {A}. Arguments Dry {A}.

(** Computations, as in [Heap.v]; no C code of their own. *)
Definition HM (A : Type) : Type := heap -> hres A.
Definition done {A} (a : A) : HM A := fun h => Done a h.
Definition wild {A} : HM A := fun _ => Wild.
Definition dry {A} : HM A := fun _ => Dry.
Definition hbind_ {A B} (m : HM A) (k : A -> HM B) : HM B :=
  fun h => match m h with
           | Done a h' => k a h'
           | Freed => Freed | Wild => Wild | Forged => Forged | Full h' => Full h' | Dry => Dry
           end.
Declare Scope rheap_scope.
Delimit Scope rheap_scope with rheap.
Notation "x <- m ;; k" := (hbind_ m (fun x => k)) (at level 61, m at next level, right associativity) : rheap_scope.
Notation "m ;;; k" := (hbind_ m (fun _ => k)) (at level 61, right associativity) : rheap_scope.
Open Scope rheap_scope.

(** ** Access to cells *)

(** Access to the fields of an atom (include/mnml/types.h:73-89), as in [Heap.v]. *)
Definition set_cell (h : heap) (a : N) (c : option cell) : heap :=
  mkheap (fun x => if N.eqb x a then c else cells h x) (free h) (pages h) (served h) (aux h).
Definition rd (a : N) : HM cell :=
  fun h => match cells h a with Some c => Done c h | None => Freed end.
Definition wr (a : N) (c : cell) : HM unit :=
  fun h => match cells h a with Some _ => Done tt (set_cell h a (Some c)) | None => Freed end.

(** include/mnml/slab.h:24-27 CELL_COUNT. *)
Definition count (p : N) : N := Slab.cell_count p.
Fixpoint range (lo : N) (k : nat) : list N := match k with O => [] | S k' => lo :: range (N.succ lo) k' end.
(** lib/core/slab.c:42-77 slab_new. *)
Definition fresh_free : list N := range 0 (N.to_nat (count 16)).

(** lib/core/slab.c:79-112 slab_expand, slab.c:127-152 slab_allocate: [a] is taken from
    the free list [l]; the cell is cleared, its cache with it. *)
Definition take (b : content) (a : N) (l : list N) (p : N) (h : heap) : hres N :=
  Done a (mkheap (fun x => if N.eqb x a then Some (mkcell 1 false false b) else cells h x) l p (N.succ (served h))
            (mkrest (binds (aux h)) (ichan (aux h)) (ochan (aux h)) (opens (aux h)) (outs (aux h))
               (filter (fun q => negb (N.eqb a (fst q))) (caches (aux h))) (lost (aux h)) (strays (aux h)))).
(** ... and the makers of include/mnml/lisp.h:154-254, 319-329: one reference, no
    flags.  When the list is empty the memory is doubled, unless that exceeds 64 MB;
    mprotect is taken to succeed ([Slab.v] has its failure). *)
Definition alloc (b : content) : HM N :=
  fun h => match free h with
           | a :: l => take b a l (pages h) h
           | [] =>
               if N.ltb Slab.SLAB_SIZE (2 * pages h * Slab.PAGE_SIZE) then Full h
               else match range (count (pages h)) (N.to_nat (count (2 * pages h) - count (pages h))) with
                    | a :: l => take b a l (2 * pages h) h
                    | [] => Full h
                    end
           end.
Definition make_nil : HM N := alloc KNil.
Definition hcons (x y : N) : HM N := alloc (KPair x y).

(** include/mnml/slab.h:43-44 UP. *)
Definition up (a : N) : HM N :=
  c <- rd a ;; wr a (with_refs c (S (refs c))) ;;; done a.

(** lib/core/slab.c:154-168 slab_deallocate: the cell is the first of the free list. *)
Definition release (a : N) : HM unit :=
  fun h => match cells h a with
           | Some _ => Done tt (mkheap (fun x => if N.eqb x a then None else cells h x) (a :: free h) (pages h) (served h) (aux h))
           | None => Freed
           end.

(** include/mnml/lisp.h:65-71 X_0, slab.h:44 DOWN, lib/core/lisp.c:50-70
    lisp_deallocate.  A count of zero cannot be decremented (it would wrap). *)
Fixpoint drop (n : nat) (a : N) : HM unit :=
  match n with
  | O => dry
  | S n' =>
      c <- rd a ;;
      match refs c with
      | O => fun _ => Freed
      | S r =>
          wr a (with_refs c r) ;;;
          match r with
          | S _ => done tt
          | O =>
              match body c with
              | KPair x _ =>
                  (if weak c then done tt else drop n' x) ;;;
                  c' <- rd a ;;
                  match body c' with
                  | KPair _ y => drop n' y ;;; release a
                  | _ => wild
                  end
              | _ => release a
              end
          end
      end
  end.

(** include/mnml/lisp.h:109-122 X: the recursion never visits a cell twice, so one
    unit of budget per cell is enough. *)
Definition X (a : N) : HM unit := fun h => drop (S (N.to_nat (served h))) a h.

(** ** Lists *)

(** include/mnml/types.h:91-92 CAR, CDR: the raw fields. *)
Definition CAR (a : N) : HM N :=
  c <- rd a ;; match body c with KPair x _ => done x | _ => wild end.
Definition CDR (a : N) : HM N :=
  c <- rd a ;; match body c with KPair _ y => done y | _ => wild end.

(** include/mnml/types.h:94-103: tests on the type of a cell ([Heap.v]). *)
Definition test (f : cell -> bool) (a : N) : HM bool := c <- rd a ;; done (f c).

(** include/mnml/lisp.h:296-312 lisp_car, lisp_cdr. *)
Definition hcar (a : N) : HM N :=
  c <- rd a ;; match body c with KPair x _ => up x | _ => make_nil end.
Definition hcdr (a : N) : HM N :=
  c <- rd a ;; match body c with KPair _ y => up y | _ => make_nil end.

(** include/mnml/lisp.h:14-22 FOREACH/NEXT with an empty body: the last pair. *)
Fixpoint last_pair (n : nat) (a : N) : HM N :=
  match n with
  | O => dry
  | S n' =>
      y <- CDR a ;;
      c <- rd y ;;
      if is_pair_c c then last_pair n' y else done a
  end.

(** lib/core/lisp.c:137-159 lisp_conc. *)
Definition hconc (n : nat) (a b : N) : HM N :=
  c <- rd a ;;
  if is_pair_c c then
    p <- last_pair n a ;;
    y <- CDR p ;;
    X y ;;;
    cp <- rd p ;;
    match body cp with
    | KPair x _ => wr p (with_body cp (KPair x b)) ;;; done a
    | _ => wild
    end
  else X a ;;; done b.

(** lib/core/utils.c:106-111 lisp_append. *)
Definition happend (n : nat) (l e : N) : HM N :=
  z <- make_nil ;; k <- hcons e z ;; hconc n l k.

(** lib/core/utils.c:177-185 lisp_dup. *)
Fixpoint hdup (n : nat) (a : N) : HM N :=
  match n with
  | O => dry
  | S n' =>
      c <- rd a ;;
      match body c with
      | KPair x y => r <- hdup n' y ;; x' <- up x ;; hcons x' r
      | _ => up a
      end
  end.

(** lib/core/lisp.c:165-206 lisp_bind. *)
Fixpoint hbind (n : nat) (clos arg val : N) : HM N :=
  match n with
  | O => dry
  | S n' =>
      c <- rd arg ;;
      match body c with
      | KPair _ _ =>
          s <- hcar arg ;;
          v <- hcar val ;;
          oth <- hcdr arg ;;
          rem <- hcdr val ;;
          X arg ;;; X val ;;;
          cl0 <- hbind n' clos s v ;;
          hbind n' cl0 oth rem
      | KSym _ => kv <- hcons arg val ;; hcons kv clos
      | _ => X arg ;;; X val ;;; done clos
      end
  end.

(** include/mnml/utils.h:107-129 on two cells; only symbols are compared (the C code
    compares 16 payload bytes whatever the type: [Wild] here). *)
Definition symbol_of (a : N) : HM symbol :=
  c <- rd a ;; match body c with KSym s => done s | _ => wild end.

(** lib/core/utils.c:191-230 lisp_sss. *)
Fixpoint hsss (n : nat) (root kv : N) : HM N :=
  match n with
  | O => dry
  | S n' =>
      c <- rd root ;;
      if is_nil_c c then hcons kv root
      else
        car <- CAR root ;;
        cdr <- CDR root ;;
        k' <- CAR car ;; s' <- symbol_of k' ;;
        k <- CAR kv ;; s <- symbol_of k ;;
        match sym_compare s' s with
        | Lt =>
            r <- hsss n' cdr kv ;;
            c1 <- rd root ;;
            match body c1 with
            | KPair x _ => wr root (with_body c1 (KPair x r)) ;;; done root
            | _ => wild
            end
        | Eq =>
            c1 <- rd root ;;
            match body c1 with
            | KPair _ y => wr root (with_body c1 (KPair kv y)) ;;; X car ;;; done root
            | _ => wild
            end
        | Gt => hcons kv root
        end
  end.

(** lib/core/utils.c:236-246 lisp_merge.  FOREACH on a cell that is neither NIL nor
    a pair reads fields of another type. *)
Fixpoint hmerge_loop (n : nat) (root elt : N) : HM N :=
  match n with
  | O => dry
  | S n' =>
      kv <- CAR elt ;;
      kv <- up kv ;;
      root <- hsss n' root kv ;;
      nx <- CDR elt ;;
      c <- rd nx ;;
      if is_pair_c c then hmerge_loop n' root nx else done root
  end.
Definition hmerge (n : nat) (root alst : N) : HM N :=
  c <- rd alst ;; if is_nil_c c then done root else hmerge_loop n root alst.
