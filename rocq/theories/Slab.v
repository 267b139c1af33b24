(** * Slab: the cell allocator of lib/core/slab.c.

    Definitions only; proofs are in [SlabProofs.v]. *)
From Verif Require Import Base.
Open Scope N_scope.

(** A cell (include/mnml/types.h:73-89) as the allocator sees it: the 32-bit
    [next]/[refs] union word, the type tag, and the remaining bytes collapsed in
    one number [data] (flags, cache, payload).  Clients overwrite all three. *)
Record cell := mkcell { c_next : N; c_type : N; c_data : N }.
Definition zero_cell := mkcell 0 0 0.

(** include/mnml/slab.h:11-18.  [entries] is the array as a total function of the
    index; the committed part is tracked by [n_pages].  Counters are unbounded
    ([size_t] would wrap only after 2^64 calls). *)
Record slab := mkslab {
  first : N; n_alloc : N; n_free : N; n_pages : N; entries : N -> cell }.

(** lib/core/slab.c:8 END_MK = -1U. *)
Definition END_MK : N := 4294967295.
(** include/mnml/slab.h:24-27; sizeof(struct atom) = 32 (types.h:73-89). *)
Definition SLAB_SIZE : N := 64 * 1024 * 1024.
Definition PAGE_SIZE : N := 4096.
Definition ATOM_SIZE : N := 32.
Definition cell_count (pages : N) : N := (pages * PAGE_SIZE) / ATOM_SIZE.

(** [entries[i] = c] (slab.h:11-18). *)
Definition upd (m : N -> cell) (i : N) (c : cell) : N -> cell :=
  fun j => if N.eqb j i then c else m j.
(** [entries[i].next = n]. *)
Definition set_next (m : N -> cell) (i n : N) : N -> cell :=
  upd m i (mkcell n (c_type (m i)) (c_data (m i))).

(** The initialisation loops, slab.c:72-74 and 102-104:
    [for (i = lo; i < hi; i++) entries[i].next = i + 1], with [k = hi - lo]
    iterations left. *)
Fixpoint link_loop (k : nat) (i : N) (m : N -> cell) : N -> cell :=
  match k with
  | O => m
  | S k' => link_loop k' (i + 1) (set_next m i (i + 1))
  end.

(** lib/core/slab.c:42-77 slab_new, for a successful mmap/mprotect ([None] is the
    NULL return).  Fresh anonymous memory is zero. *)
Definition slab_new (mmap_ok mprotect_ok : bool) : option slab :=
  if mmap_ok then if mprotect_ok then
    let pages := 16 in
    let m := link_loop (N.to_nat (cell_count pages)) 0 (fun _ => zero_cell) in
    let m := set_next m (cell_count pages - 1) END_MK in
    Some (mkslab 0 0 0 pages m)
  else None else None.

(** lib/core/slab.c:79-112 slab_expand; [None] is the [false] return.
    [n_pages << 1] is written as a doubling. *)
Definition slab_expand (mprotect_ok : bool) (s : slab) : option slab :=
  let size := (2 * n_pages s) * PAGE_SIZE in
  if SLAB_SIZE <? size then None
  else if negb mprotect_ok then None
  else
    let cc := cell_count (n_pages s) in
    let m := link_loop (N.to_nat (2 * cc - cc)) cc (entries s) in
    let m := set_next m (2 * cc - 1) END_MK in
    Some (mkslab cc (n_alloc s) (n_free s) (2 * n_pages s) m).

(** lib/core/slab.c:127-152 slab_allocate; [None] is the abort() at 136.
    [mprotect_ok] is the operating system's answer if the slab has to grow. *)
Definition slab_allocate (mprotect_ok : bool) (s : slab) : option (slab * N) :=
  let s1 :=
    if N.eqb (first s) END_MK then slab_expand mprotect_ok s else Some s in
  match s1 with
  | None => None
  | Some s1 =>
      let nxt := first s1 in
      let fst' := c_next (entries s1 nxt) in
      Some (mkslab fst' (n_alloc s1 + 1) (n_free s1) (n_pages s1)
                   (upd (entries s1) nxt zero_cell),
            nxt)
  end.

(** lib/core/slab.c:154-167 slab_deallocate; the cell is named by its index (157
    computes it from the address).  T_NONE = 0. *)
Definition slab_deallocate (s : slab) (n : N) : slab :=
  let c := entries s n in
  mkslab n (n_alloc s) (n_free s + 1) (n_pages s)
         (upd (entries s) n (mkcell (first s) 0 (c_data c))).

(** A client storing into a cell it holds (atom makers, lisp.h:154-329). *)
Definition client_write (s : slab) (n : N) (c : cell) : slab :=
  mkslab (first s) (n_alloc s) (n_free s) (n_pages s) (upd (entries s) n c).

(** ** Histories of the calls of slab.h:59-60.  The client's view: which cells it holds,
    from return values. *)
Inductive op :=
| OAlloc (mprotect_ok : bool)
| OFree (i : N)
| OWrite (i : N) (c : cell).

(** What a client has seen: running, stopped by abort (slab.c:134-137), or outside the
    contract of slab.h. *)
Inductive status :=
| Running (s : slab) (held : list N)
| Aborted (s : slab) (held : list N)   (* state in which the abort happened *)
| Misuse.                              (* release/store of a cell not held *)

(** Sets of cells as lists; no C code. *)
Definition mem_N (i : N) (l : list N) : bool := existsb (N.eqb i) l.
Fixpoint remove_N (i : N) (l : list N) : list N :=
  match l with
  | [] => []
  | x :: r => if N.eqb x i then r else x :: remove_N i r
  end.

(** One call: slab.c:127-152 slab_allocate, slab.c:154-167 slab_deallocate, a store. *)
Definition step (st : status) (o : op) : status :=
  match st with
  | Running s held =>
      match o with
      | OAlloc ok =>
          match slab_allocate ok s with
          | Some (s', i) => Running s' (i :: held)
          | None => Aborted s held
          end
      | OFree i =>
          if mem_N i held then Running (slab_deallocate s i) (remove_N i held)
          else Misuse
      | OWrite i c => if mem_N i held then Running (client_write s i c) held else Misuse
      end
  | _ => st
  end.

(** slab.c:42-77 slab_new, then a history of calls. *)
Definition start : status :=
  match slab_new true true with Some s => Running s [] | None => Misuse end.
Definition run (h : list op) : status := fold_left step h start.
