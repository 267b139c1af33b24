(** * Closure: the closure cache of lib/core/closure.c. *)
From Verif Require Import Base.

(** A closure block, identified by a serial number, with the number of variable
    slots it was malloc'ed for (closure.c:6, include/mnml/closure.h:20-24).  The
    cache is the chain through the [C] field. *)
Record block := mkblock { bid : nat; room : nat }.
Record cstate := mkc { cache : list block; next_id : nat }.

(** lib/core/closure.c:8-27 lisp_closure_get (the link to the outer closure is
    not modelled; malloc succeeds). *)
Definition closure_get (s : cstate) (n : nat) : cstate * block :=
  match cache s with
  | b :: r => (mkc r (next_id s), b)
  | [] => (mkc [] (S (next_id s)), mkblock (next_id s) n)
  end.

(** lib/core/closure.c:29-34 lisp_closure_put. *)
Definition closure_put (s : cstate) (b : block) : cstate :=
  mkc (b :: cache s) (next_id s).

(** Histories of closure_get and closure_put (include/mnml/closure.h): the client gets
    blocks and returns blocks it holds (most recent position in its list of held blocks). *)
Inductive cop := CGet (n : nat) | CPut (i : nat).
Definition cstep (st : cstate * list (block * nat)) (o : cop)
  : cstate * list (block * nat) :=
  let '(s, held) := st in
  match o with
  | CGet n => let '(s', b) := closure_get s n in (s', (b, n) :: held)
  | CPut i =>
      match nth_error held i with
      | Some (b, _) => (closure_put s b, firstn i held ++ skipn (S i) held)
      | None => st
      end
  end.
Definition crun (h : list cop) : cstate * list (block * nat) :=
  fold_left cstep h (mkc [] 0, []).
