(** * CString: lisp_make_cstring with an explicit destination buffer. *)
From Verif Require Import Value.

(** A C buffer of [size] bytes (the [buffer] argument, lib/core/utils.c); a store outside it is undefined behaviour. *)
Definition store (size : nat) (m : nat -> byte) (off : nat) (b : byte)
  : option (nat -> byte) :=
  if Nat.ltb off size then Some (fun j => if Nat.eqb j off then b else m j) else None.

(** lib/core/utils.c:283-300 lisp_make_cstring; [buffer] is [off] bytes into the
    destination.  [None] is undefined behaviour: a store outside the destination,
    or an element that is not a pair of a character (callers check
    lisp_is_string).  The recursive call stores first, as in the C code. *)
Fixpoint make_cstring (size : nat) (cell : atom) (m : nat -> byte)
         (off len idx : nat) : option ((nat -> byte) * nat) :=
  let terminate :=
    match store size m off 0%N with Some m' => Some (m', idx) | None => None end in
  match cell with
  | Nil => terminate
  | Pair _ x d =>
      if Nat.eqb idx len then terminate
      else
        match make_cstring size d m (S off) len (S idx) with
        | Some (m1, res) =>
            match x with
            | Chr c =>
                match store size m1 off (byte_of_char c) with
                | Some m2 => Some (m2, res)
                | None => None
                end
            | _ => None
            end
        | None => None
        end
  | _ => if Nat.eqb idx len then terminate else None
  end.
