(** * Cache: symbol lookup with the per-symbol cache (lib/core/lisp.c:91-131).

    Definitions only. *)
From Verif Require Import Value Tree.
Open Scope N_scope.

(** A symbol cell is an occurrence [o] of a name; its [cache] field
    (include/mnml/types.h:76) is the address of a (KEY . VALUE) pair or NULL. *)
Definition caches := N -> option N.

(** The closure scan (lisp.c:96-104): first binding whose name matches. *)
Fixpoint scan (c : env) (k : symbol) : option atom :=
  match c with
  | [] => None
  | (k', v) :: r => if sym_match k' k then Some v else scan r k
  end.

(** lisp.c:91-131 lisp_lookup for the symbol cell [o] named [k].  Simplification:
    the hit counters (lisp->total, lrefs, crefs, grefs) are left out. *)
Definition lookup (st : N * mem) (cs : caches) (c : env) (o : N) (k : symbol)
  : res (atom * caches) :=
  match scan c k with
  | Some v => Ok (v, cs)
  | None =>
      match cs o with
      | Some d => Ok (dval (snd st) d, cs)
      | None =>
          e <- tree_get (snd st) (fst st) k ;;
          match e with
          | Some d => Ok (dval (snd st) d, upN cs o (Some d))
          | None => Ok (Nil, cs)       (* lisp_cdr of NIL, lisp.h:305-312 *)
          end
      end
  end.

(** A program run seen from the globals: definitions, updates, and symbol lookups
    ([o] the symbol cell, [c] the closure). *)
Inductive cop := CDef (t : top) | CLook (o : N) (c : env).

(** Such a run on the globals [st] and the caches [cs] (lisp.c:91-131, tree.c:331-407): the
    values looked up, in order. *)
Fixpoint crun (name : N -> symbol) (h : list cop) (st : N * mem) (cs : caches)
  : res (list atom) :=
  match h with
  | [] => Ok []
  | CDef t :: r => st <- tstep st t ;; crun name r st cs
  | CLook o c :: r =>
      '(v, cs) <- lookup st cs c o (name o) ;;
      vs <- crun name r st cs ;;
      Ok (v :: vs)
  end.
