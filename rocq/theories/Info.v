(** * Info: the builtin slabinfo (lib/mnml/sys/slabinfo.c).

    Definitions only; proofs are in [InfoProofs.v]. *)
From Verif Require Import Value Heap.
From Verif Require Slab RHeap.
Open Scope rheap_scope.

(** lib/mnml/sys/slabinfo.c:7-13 lisp_function_slabinfo: (ALLOCATED . FREED), the counters
    of the allocator (slab.h:11-18) before the three cells of the answer are made.
    Simplification: n_free is read with n_alloc; the C code reads it after the first cell
    is made, which does not change it (slab.c:127-152). *)
Definition slabinfo (s : Slab.slab) : RHeap.HM N :=
  (RHeap.hbind_ (RHeap.alloc (KNum (to_i64 (Z.of_N (Slab.n_alloc s))))) (fun car =>
   RHeap.hbind_ (RHeap.alloc (KNum (to_i64 (Z.of_N (Slab.n_free s))))) (fun cdr =>
   RHeap.hcons car cdr))).
