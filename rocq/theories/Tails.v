(** * Tails: tail-call marking (lib/core/utils.c:396-558).

    Definitions only; proofs are in [TailsProofs.v]. *)
From Verif Require Import Value.

(** include/mnml/utils.h:118-123 lisp_symbol_equal. *)
Definition named (s : symbol) (n : string) : bool := sym_match s (sy n).

(** lib/core/utils.c:402-437 lisp_collect_tails_assoc and 439-518
    lisp_collect_tails, as the list of the collected cells in order.  The C code
    collects references to cells; here the collected cells are values. *)
Fixpoint collect_tails (x : atom) : list atom :=
  match x with
  | Nil => []
  | Pair _ (Sym _ s) d =>
      if named s "if" then
        match d with
        | Pair _ _ (Pair _ th (Pair _ el _)) => collect_tails th ++ collect_tails el
        | Pair _ _ (Pair _ th _) => collect_tails th
        | _ => []
        end
      else if named s "cond" || named s "match" then
        match d with
        | Pair _ _ l =>
            (fix assoc (l : atom) : list atom :=
               match l with
               | Pair _ (Pair _ _ e) r => collect_tails e ++ assoc r
               | Pair _ _ r => assoc r
               | _ => []
               end) l
        | _ => []
        end
      else if named s "prog" || named s "|>" then
        match d with
        | Pair _ _ _ =>
            (fix last (l : atom) : list atom :=
               match l with
               | Pair _ a (Pair _ _ _ as r) => last r
               | Pair _ a _ => collect_tails a
               | _ => []
               end) d
        | _ => [Sym false s]
        end
      else if named s "unless" || named s "when" then
        match d with
        | Pair _ _ (Pair _ e _) => collect_tails e
        | _ => []
        end
      else [x]
  | _ => [x]
  end.

(** lib/core/utils.c:543-551, the body of the marking loop on one collected cell:
    a pair whose head is the symbol [f], with an acceptable number of values, gets
    its head flagged.  Simplification: the C code compares the 16 payload bytes of
    the head whatever its type; here only symbols can match. *)
Definition mark_cell (f : symbol) (args x : atom) : atom :=
  match x with
  | Pair t (Sym u s) d =>
      if sym_match s f && may_apply args d then Pair t (Sym true s) d else x
  | _ => x
  end.

Section Mark.
Variables (f : symbol) (args : atom).

(** lib/core/utils.c:520-558, marking in place: the expression [x] with every cell
    collected by [collect_tails] marked.  Simplification: cells shared between [x]
    and other values are only marked in [x]. *)
Fixpoint mark_expr (x : atom) : atom :=
  match x with
  | Pair t (Sym u s as h) d =>
      if named s "if" then
        match d with
        | Pair t1 c (Pair t2 th (Pair t3 el r)) =>
            Pair t h (Pair t1 c (Pair t2 (mark_expr th) (Pair t3 (mark_expr el) r)))
        | Pair t1 c (Pair t2 th r) => Pair t h (Pair t1 c (Pair t2 (mark_expr th) r))
        | _ => x
        end
      else if named s "cond" || named s "match" then
        match d with
        | Pair t1 c l =>
            Pair t h (Pair t1 c
              ((fix assoc (l : atom) : atom :=
                 match l with
                 | Pair t2 (Pair t3 k e) r => Pair t2 (Pair t3 k (mark_expr e)) (assoc r)
                 | Pair t2 a r => Pair t2 a (assoc r)
                 | _ => l
                 end) l))
        | _ => x
        end
      else if named s "prog" || named s "|>" then
        Pair t h
          ((fix last (l : atom) : atom :=
             match l with
             | Pair t1 a r =>
                 match r with
                 | Pair _ _ _ => Pair t1 a (last r)
                 | _ => Pair t1 (mark_expr a) r
                 end
             | _ => l
             end) d)
      else if named s "unless" || named s "when" then
        match d with
        | Pair t1 c (Pair t2 e r) => Pair t h (Pair t1 c (Pair t2 (mark_expr e) r))
        | _ => x
        end
      else mark_cell f args x
  | Pair _ _ _ => mark_cell f args x
  | _ => x
  end.
End Mark.

(** lib/core/utils.c:529-535 and 520-558 lisp_mark_tail_calls on a function body.
    [None]: the body has no last pair (NIL: [pe->car] is a null pointer, UP
    dereferences it; a number: NEXT dereferences the null second half of its
    payload). *)
Fixpoint mark_body (f : symbol) (args b : atom) : option atom :=
  match b with
  | Pair t a r =>
      match r with
      | Pair _ _ _ =>
          match mark_body f args r with Some r' => Some (Pair t a r') | None => None end
      | _ => Some (Pair t (mark_expr f args a) r)
      end
  | _ => None
  end.
