(** * Value: atoms as trees, and the read-only functions over them.

    Definitions only; proofs are in [ValueProofs.v]. *)
From Verif Require Export Base.

(** include/mnml/types.h:30-40, 73-89.  An atom is a tagged cell.  Reference
    counts, the symbol cache and cell identity are abstracted away here (they are
    in Heap.v / HEval.v); the F_TAIL_CALL flag (types.h:44) is kept on the two
    kinds of cell that can carry it: symbols (utils.c:548) and pairs
    (eval.c:145-146).  T_NONE marks a free cell and is never a value. *)
Inductive atom : Type :=
| Nil
| Tru
| Wild
| Chr (c : Z)
| Num (z : Z)
| Sym (t : bool) (s : symbol)
| Pair (t : bool) (a d : atom).

(** Unflagged pair and symbol. *)
Notation Cons a d := (Pair false a d).
Notation Symb s := (Sym false s).

(** include/mnml/types.h:94-103. *)
Definition is_null (a : atom) : bool := match a with Nil => true | _ => false end.
Definition is_true (a : atom) : bool := match a with Tru => true | _ => false end.
Definition is_wild (a : atom) : bool := match a with Wild => true | _ => false end.
Definition is_char (a : atom) : bool := match a with Chr _ => true | _ => false end.
Definition is_numb (a : atom) : bool := match a with Num _ => true | _ => false end.
Definition is_pair (a : atom) : bool := match a with Pair _ _ _ => true | _ => false end.
Definition is_symb (a : atom) : bool := match a with Sym _ _ => true | _ => false end.
Definition is_list (a : atom) : bool := is_pair a || is_null a.
Definition is_atom (a : atom) : bool := negb (is_list a).

(** include/mnml/types.h:109 IS_TAIL_CALL. *)
Definition is_tail_call (a : atom) : bool :=
  match a with Sym t _ => t | Pair t _ _ => t | _ => false end.

(** include/mnml/lisp.h:296-312 lisp_car, lisp_cdr. *)
Definition car (a : atom) : atom := match a with Pair _ x _ => x | _ => Nil end.
Definition cdr (a : atom) : atom := match a with Pair _ _ y => y | _ => Nil end.

(** include/mnml/types.h:127-132 IS_ARGS, IS_CLOS, IS_BODY, IS_FUNC. *)
Definition is_args (a : atom) : bool :=
  is_pair a && (is_list (car a) || is_symb (car a)).
Definition is_clos (a : atom) : bool :=
  negb (is_null a) && is_pair a && is_list (car a).
Definition is_body (a : atom) : bool :=
  negb (is_null a) && (is_pair a || is_numb a).
Definition is_func (a : atom) : bool :=
  is_args a && is_clos (cdr a) && is_body (cdr (cdr a)).

(** Coq list to Lisp list and back (no C code; used by specifications). *)
Fixpoint mk_list (l : list atom) : atom :=
  match l with [] => Nil | x :: r => Cons x (mk_list r) end.

(** A string atom: list of characters (lib/core/lisp.c:76-85). *)
Definition mk_chars (l : list Z) : atom := mk_list (map Chr l).

(** lib/core/utils.c:90-100 lisp_len.  FOREACH/NEXT (lisp.h:14-22) stop at the
    first tail that is not a pair.  [None]: the argument is neither NIL nor a
    pair, and NEXT reads the [cdr] field of a non-pair cell. *)
Fixpoint pairs_len (a : atom) : nat :=
  match a with Pair _ _ d => S (pairs_len d) | _ => 0 end.
Definition len (a : atom) : option nat :=
  match a with
  | Nil => Some 0
  | Pair _ _ _ => Some (pairs_len a)
  | _ => None
  end.

(** lib/core/utils.c:117-144 lisp_equ. *)
Fixpoint equ (a b : atom) : bool :=
  match a, b with
  | Nil, Nil => true
  | Tru, Tru => true
  | Wild, Wild => true
  | Chr x, Chr y => Z.eqb x y
  | Num x, Num y => Z.eqb x y
  | Pair _ a1 a2, Pair _ b1 b2 => equ a1 b1 && equ a2 b2
  | Sym _ x, Sym _ y => sym_match x y
  | _, _ => false
  end.

(** The type tag (types.h:30-40). *)
Definition tag (a : atom) : nat :=
  match a with
  | Nil => 1 | Tru => 2 | Chr _ => 3 | Num _ => 4 | Pair _ _ _ => 5
  | Sym _ _ => 6 | Wild => 7
  end.

(** lib/core/utils.c:150-171 lisp_neq.  [mismatch ||] short-circuits, so the
    second argument is only inspected at the same type. *)
Fixpoint neq (a b : atom) : bool :=
  let mismatch := negb (Nat.eqb (tag a) (tag b)) in
  match a with
  | Chr x => mismatch || match b with Chr y => negb (Z.eqb x y) | _ => true end
  | Num x => mismatch || match b with Num y => negb (Z.eqb x y) | _ => true end
  | Pair _ a1 a2 =>
      mismatch || match b with Pair _ b1 b2 => neq a1 b1 || neq a2 b2 | _ => true end
  | Sym _ x => mismatch || match b with Sym _ y => negb (sym_match x y) | _ => true end
  | _ => mismatch
  end.

(** lib/mnml/std/match.c:5-25 atom_match. *)
Fixpoint atom_match (a b : atom) : bool :=
  match a with
  | Wild => true
  | Nil => match b with Nil => true | _ => false end
  | Tru => match b with Tru => true | _ => false end
  | Chr x => match b with Chr y => Z.eqb x y | _ => false end
  | Num x => match b with Num y => Z.eqb x y | _ => false end
  | Sym _ x => match b with Sym _ y => sym_match x y | _ => false end
  | Pair _ a1 a2 =>
      match b with Pair _ b1 b2 => atom_match a1 b1 && atom_match a2 b2 | _ => false end
  end.

(** lib/core/utils.c:252-277 lisp_is_string. *)
Fixpoint is_string (a : atom) : bool :=
  match a with
  | Nil => true
  | Pair _ c d => is_char c && is_string d
  | _ => false
  end.

(** ** Local scopes.

    A closure is an association list ((SYM . VAL) ...).  In the evaluator model it
    is a Coq list of pairs; [env_of_atom]/[atom_of_env] convert at the places
    where the C code stores it in, or takes it from, a function value. *)
Definition env := list (symbol * atom).

(** lib/core/lisp.c:91-103: the association list as the value the C code passes. *)
Fixpoint atom_of_env (e : env) : atom :=
  match e with
  | [] => Nil
  | (k, v) :: r => Cons (Cons (Symb k) v) (atom_of_env r)
  end.

(** The way back (lisp.c:91-103 walks the list).  [None]: the C code would read the fields
    of a cell of another type. *)
Fixpoint env_of_atom (a : atom) : option env :=
  match a with
  | Nil => Some []
  | Pair _ (Pair _ (Sym _ k) v) r =>
      match env_of_atom r with Some e => Some ((k, v) :: e) | None => None end
  | _ => None
  end.

(** lib/core/lisp.c:98-106 (first part of lisp_lookup): first match wins. *)
Fixpoint env_get (e : env) (k : symbol) : option atom :=
  match e with
  | [] => None
  | (k', v) :: r => if sym_match k' k then Some v else env_get r k
  end.

(** lib/core/utils.c:191-230 lisp_sss.  The C code rewires cells of a spine it
    owns; here it returns the new list. *)
Fixpoint sss (e : env) (k : symbol) (v : atom) : env :=
  match e with
  | [] => [(k, v)]
  | (k', v') :: r =>
      match sym_compare k' k with
      | Lt => (k', v') :: sss r k v
      | Eq => (k, v) :: r
      | Gt => (k, v) :: e
      end
  end.

(** lib/core/utils.c:236-246 lisp_merge: head to tail. *)
Fixpoint merge (root alst : env) : env :=
  match alst with
  | [] => root
  | (k, v) :: r => merge (sss root k v) r
  end.

(** lib/core/lisp.c:165-206 lisp_bind. *)
Fixpoint bind (c : env) (arg val : atom) : env :=
  match arg with
  | Pair _ s oth => bind (bind c s (car val)) oth (cdr val)
  | Sym _ k => (k, val) :: c
  | _ => c
  end.

(** lib/core/utils.c:357-388 lisp_may_apply. *)
Fixpoint may_apply (args vals : atom) : bool :=
  match args with
  | Nil => is_null vals
  | Sym _ _ => true
  | Pair _ _ args' =>
      match vals with
      | Nil => true
      | Pair _ _ vals' => may_apply args' vals'
      | _ => false
      end
  | _ => is_null vals
  end.

(** ** Strings. *)

(** lib/core/utils.c:306-351 lisp_process_escapes on the list of characters; the
    result accumulates by lisp_append (utils.c:106-111). *)
Fixpoint process_escapes (l : list Z) (esc : bool) (res : list Z) : list Z :=
  match l with
  | [] => res
  | c :: r =>
      if esc then
        let c' := if Z.eqb c (chz "n") then 10%Z
                  else if Z.eqb c (chz "t") then 9%Z else c in
        process_escapes r false (res ++ [c'])
      else if Z.eqb c 92 then process_escapes r true res
      else process_escapes r false (res ++ [c])
  end.

(** lib/core/lisp.c:76-85 lisp_make_string: one char per byte, then escapes. *)
Definition make_string_chars (s : bytes) : list Z :=
  process_escapes (map schar s) false [].
Definition make_string (s : bytes) : atom := mk_chars (make_string_chars s).

(** ** Raw payload fields read without a type check.

    The [number] member of the payload union (types.h:83-88) as the arithmetic
    macros read it (module.h:202-214).  Cells are zeroed on allocation
    (slab.c:150), so NIL, T and _ read as 0; a symbol reads as its first eight
    bytes (little endian); a pair reads as an address: [None]. *)
Fixpoint le_bytes (l : bytes) : Z :=
  match l with [] => 0%Z | b :: r => (Z.of_N b + 256 * le_bytes r)%Z end.
Definition to_i64 (z : Z) : Z :=
  let m := (z mod 2 ^ 64)%Z in if (m <? 2 ^ 63)%Z then m else (m - 2 ^ 64)%Z.
Definition num_field (a : atom) : option Z :=
  match a with
  | Nil | Tru | Wild => Some 0%Z
  | Chr c => Some c
  | Num z => Some z
  | Sym _ s => Some (to_i64 (le_bytes (firstn 8 s)))
  | Pair _ _ _ => None
  end.

(** The [symbol] member of the payload union, as lib/mnml/std/str.c:11 reads it
    without a type check. *)
Fixpoint to_le_bytes (n : nat) (z : Z) : bytes :=
  match n with
  | O => []
  | S n' => Z.to_N (z mod 256) :: to_le_bytes n' (z / 256)
  end.
Definition sym_field (a : atom) : option bytes :=
  match a with
  | Nil | Tru | Wild => Some (repeat 0%N 16)
  | Chr z | Num z => Some (to_le_bytes 8 z ++ repeat 0%N 8)
  | Sym _ s => Some s
  | Pair _ _ _ => None
  end.

(** lib/mnml/std/str.c:6-13: 16 bytes copied in a zeroed 17-byte buffer, then
    made into a string (with escape processing). *)
Definition str_of (a : atom) : option atom :=
  match sym_field a with
  | Some b => Some (make_string (cstr b))
  | None => None
  end.

(** The bytes lisp_make_cstring stores for a string atom, without terminator,
    given capacity [n] (utils.c:283-300); see CString.v for the buffer model. *)
Fixpoint cstring_bytes (n : nat) (a : atom) : bytes :=
  match n with
  | O => []
  | S n' =>
      match a with
      | Pair _ (Chr c) d => byte_of_char c :: cstring_bytes n' d
      | _ => []
      end
  end.

(** lib/mnml/std/sym.c:6-26. *)
Definition sym_of (a : atom) : atom :=
  if is_pair a && is_string a then
    Symb (mk_symbol (cstring_bytes symbol_length a))
  else Nil.
